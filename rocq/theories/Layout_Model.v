(** * Constructor tags and ordinals given to datatype declarations

    Source: theories/LambdaANF/LambdaBoxLocal_to_LambdaANF.v:20-195.

    Simplified: names of types and constructors are dropped (they only feed
    the [ctor_name] and [ctor_ind_name] fields, which nothing below reads), so
    a constructor declaration is its arity; a kernel name is a [positive] (the
    code only compares kernel names for equality). *)
From Coq Require Import ZArith NArith List Lia Bool.
Import ListNotations.
From Verif Require Import ANF_Syntax.
Set Implicit Arguments.

(** theories/common/Kernames.v: [kername]; only its decidable equality matters here. *)
Notation kername := positive (only parsing).

(** theories/common/Kernames.v: [inductive], built by [mkInd]: the pack and the position in it. *)
Notation inductive := (kername * nat)%type (only parsing).

(** theories/common/AstCommon.v: [dcon], the constructor's type and its position there. *)
Notation dcon := (inductive * N)%type (only parsing).

(** theories/common/AstCommon.v:93, [Cnstr]: here the arity alone. *)
Notation Cnstr := nat (only parsing).

(** theories/common/AstCommon.v:97, [ityp]: here the constructors alone. *)
Notation ityp := (list Cnstr) (only parsing).

(** theories/common/AstCommon.v:106 *)
Notation itypPack := (list ityp) (only parsing).

(** theories/LambdaANF/LambdaBoxLocal_to_LambdaANF.v:76 *)
Definition ienv := list (kername * itypPack).

(** theories/LambdaANF/LambdaBoxLocal_to_LambdaANF.v:28 *)
Definition conId_map := list (dcon * ctor_tag).

(** theories/LambdaANF/cps.v: [ind_ty_info], [ind_env]: constructors of a type with their arities. *)
Definition ind_env := tmap (list (ctor_tag * N)).

(** theories/LambdaANF/LambdaBoxLocal_to_LambdaANF.v:30-39 *)
Definition conId_dec (x y : dcon) : {x = y} + {x <> y}.
Proof. repeat decide equality. Defined.

(** theories/LambdaANF/LambdaBoxLocal_to_LambdaANF.v:79-87 *)
Fixpoint fromN (n : positive) (m : nat) : list positive * positive :=
  match m with
  | O => ([], n)
  | S m' => let (l, nm) := fromN (n + 1) m' in (n :: l, nm)
  end.

(** theories/LambdaANF/LambdaBoxLocal_to_LambdaANF.v:103-125 *)
Fixpoint convert_cnstrs (cct : list ctor_tag) (itC : list Cnstr) (ind : inductive)
         (nCon unboxed boxed : N) (niT : ind_tag) (ce : ctor_env) (dcm : conId_map)
  : ctor_env * conId_map :=
  match cct, itC with
  | cn :: cct', ccn :: icT' =>
      let is_unboxed := Nat.eqb ccn 0 in
      let info := {| ctor_ind_tag := niT;
                     ctor_arity := N.of_nat ccn;
                     ctor_ordinal := if is_unboxed then unboxed else boxed |} in
      convert_cnstrs cct' icT' ind (nCon + 1)%N
                     (if is_unboxed then unboxed + 1 else unboxed)%N
                     (if is_unboxed then boxed else boxed + 1)%N
                     niT (set cn info ce) (((ind, nCon), cn) :: dcm)
  | _, _ => (ce, dcm)
  end.

(** theories/LambdaANF/LambdaBoxLocal_to_LambdaANF.v:134-160: the state threaded
    through the declarations *)
Definition ice := (ind_env * ctor_env * ctor_tag * ind_tag * conId_map)%type.

(** theories/LambdaANF/LambdaBoxLocal_to_LambdaANF.v:134-160 *)
Fixpoint convert_typack (typ : itypPack) (idBundle : kername) (n : nat) (st : ice) : ice :=
  let '(ie, ce, ncT, niT, dcm) := st in
  match typ with
  | [] => st
  | itC :: typ' =>
      let (cct, ncT') := fromN ncT (length itC) in
      let (ce', dcm') := convert_cnstrs cct itC (idBundle, n) 0 0 0 niT ce dcm in
      let ityi := combine cct (map N.of_nat itC) in
      convert_typack typ' idBundle (n + 1) (set niT ityi ie, ce', ncT', Pos.succ niT, dcm')
  end.

(** theories/LambdaANF/LambdaBoxLocal_to_LambdaANF.v:162-173 *)
Fixpoint convert_env' (g : ienv) (st : ice) : ice :=
  match g with
  | [] => st
  | (id, ty) :: g' => convert_env' g' (convert_typack ty id 0 st)
  end.

Section Defaults.
  (** theories/LambdaANF/LambdaBoxLocal_to_LambdaANF.v:22: section parameters *)
  Variables default_tag default_itag : positive.

  (** theories/LambdaANF/LambdaBoxLocal_to_LambdaANF.v:41-49 *)
  Fixpoint dcon_to_info (a : dcon) (sig : conId_map) : ctor_tag :=
    match sig with
    | [] => default_tag
    | (cId, inf) :: sig' => if conId_dec a cId then inf else dcon_to_info a sig'
    end.

  (** theories/LambdaANF/LambdaBoxLocal_to_LambdaANF.v:69-70 *)
  Definition dcon_to_tag (a : dcon) (sig : conId_map) : ctor_tag := dcon_to_info a sig.

  (** theories/LambdaANF/LambdaBoxLocal_to_LambdaANF.v:185-194 *)
  Definition convert_env (g : ienv) : ice :=
    let default_ind_env := set default_itag [(default_tag, 0%N)] [] in
    let info := {| ctor_ind_tag := default_itag; ctor_arity := 0%N; ctor_ordinal := 0%N |} in
    let default_ctor_env := set default_tag info [] in
    convert_env' g (default_ind_env, default_ctor_env, Pos.succ default_tag, Pos.succ default_itag, []).
End Defaults.
