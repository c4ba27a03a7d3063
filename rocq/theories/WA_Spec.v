(** * What generated Wasm must do

    Independent of the code generator: the source semantics with primitives, the
    meaning of the primitive operations, and which i32 word represents a value
    in a linear memory. *)
From Coq Require Import ZArith NArith List Lia Bool.
Import ListNotations.
From Verif Require Import ANF_Syntax RT_Int63Spec WA_Wasm WA_Model.
Set Implicit Arguments.
Local Open Scope Z_scope.

(** ** Source semantics: theories/LambdaANF/eval.v:1265-1330 ([bstep_e]) *)

Section Sem.
  Variable cenv : ctor_env.
  (** meaning of primitives (the [pr] of eval.v) *)
  Variable pr : tmap (list val -> option val).

  Inductive bstep_e : env -> exp -> val -> nat -> Prop :=
  | BStep_constr : forall x t ys e rho vs v c,
      get_list ys rho = Some vs ->
      bstep_e (set x (Vconstr t vs) rho) e v c ->
      bstep_e rho (Econstr x t ys e) v c
  | BStep_proj : forall t vs v rho x n y e ov c,
      get y rho = Some (Vconstr t vs) ->
      nthN vs n = Some v ->
      bstep_e (set x v rho) e ov c ->
      bstep_e rho (Eproj x t n y e) ov c
  | BStep_case : forall y v e t cl vl rho c,
      get y rho = Some (Vconstr t vl) ->
      caseConsistent_f cenv cl t = true ->
      findtag cl t = Some e ->
      bstep_e rho e v c ->
      bstep_e rho (Ecase y cl) v c
  | BStep_app : forall rho' fl f' vs xs e rho'' rho f t ys v c,
      get f rho = Some (Vfun rho' fl f') ->
      get_list ys rho = Some vs ->
      find_def f' fl = Some (t, xs, e) ->
      set_lists xs vs (def_funs fl fl rho' rho') = Some rho'' ->
      bstep_e rho'' e v c ->
      bstep_e rho (Eapp f t ys) v (c + 1)
  | BStep_letapp : forall rho' fl f' vs xs e_body e rho'' rho x f t ys v v' c c',
      get f rho = Some (Vfun rho' fl f') ->
      get_list ys rho = Some vs ->
      find_def f' fl = Some (t, xs, e_body) ->
      set_lists xs vs (def_funs fl fl rho' rho') = Some rho'' ->
      bstep_e rho'' e_body v c ->
      bstep_e (set x v rho) e v' c' ->
      bstep_e rho (Eletapp x f t ys e) v' (c + c' + 1)
  | BStep_fun : forall rho fl e v c,
      bstep_e (def_funs fl fl rho rho) e v c ->
      bstep_e rho (Efun fl e) v c
  | BStep_prim_val : forall rho x p e v c,
      bstep_e (set x (Vprim p) rho) e v c ->
      bstep_e rho (Eprim_val x p e) v c
  | BStep_prim : forall vs rho x f f' ys e v v' c,
      get_list ys rho = Some vs ->
      get f pr = Some f' ->
      f' vs = Some v ->
      bstep_e (set x v rho) e v' c ->
      bstep_e rho (Eprim x f ys e) v' c
  | BStep_halt : forall x v rho,
      get x rho = Some v ->
      bstep_e rho (Ehalt x) v 0.

  (** *** The same as a function of the number of calls allowed

      [PTime]: more calls are needed; [PStuck]: no rule applies.  Shown
      equivalent to [bstep_e] in [WA_Eval]. *)
  Inductive pres : Type := PVal (v : val) | PTime | PStuck.

  Section Ev.
    Variable call : val -> fun_tag -> list val -> pres.
    Fixpoint ev (rho : env) (e : exp) {struct e} : pres :=
      match e with
      | Econstr x t ys e' =>
          match get_list ys rho with Some vs => ev (set x (Vconstr t vs) rho) e' | None => PStuck end
      | Ecase y cl =>
          match get y rho with
          | Some (Vconstr t vl) =>
              if caseConsistent_f cenv cl t then
                (fix go cs := match cs with
                              | [] => PStuck
                              | p :: cs' => if Pos.eq_dec (fst p) t then ev rho (snd p) else go cs'
                              end) cl
              else PStuck
          | _ => PStuck
          end
      | Eproj x t n y e' =>
          match get y rho with
          | Some (Vconstr t' vs) =>
              if Pos.eq_dec t t' then match nthN vs n with Some v => ev (set x v rho) e' | None => PStuck end else PStuck
          | _ => PStuck
          end
      | Eletapp x f t ys e' =>
          match get f rho, get_list ys rho with
          | Some vf, Some vs => match call vf t vs with PVal v => ev (set x v rho) e' | r => r end
          | _, _ => PStuck
          end
      | Efun B e' => ev (def_funs B B rho rho) e'
      | Eapp f t ys =>
          match get f rho, get_list ys rho with Some vf, Some vs => call vf t vs | _, _ => PStuck end
      | Eprim_val x p e' => ev (set x (Vprim p) rho) e'
      | Eprim x p ys e' =>
          match get_list ys rho, get p pr with
          | Some vs, Some f => match f vs with Some v => ev (set x v rho) e' | None => PStuck end
          | _, _ => PStuck
          end
      | Ehalt x => match get x rho with Some v => PVal v | None => PStuck end
      end.
  End Ev.

  Fixpoint callf (n : nat) (vf : val) (t : fun_tag) (vs : list val) {struct n} : pres :=
    match n with
    | O => PTime
    | S n' =>
        match vf with
        | Vfun rho' fl f' =>
            match find_def f' fl with
            | Some (t', xs, e) =>
                if Pos.eq_dec t t' then
                  match set_lists xs vs (def_funs fl fl rho' rho') with
                  | Some rho'' => ev (callf n') rho'' e
                  | None => PStuck
                  end
                else PStuck
            | None => PStuck
            end
        | _ => PStuck
        end
    end.

  (** evaluation with at most [n] calls deep or in tail position *)
  Definition peval (n : nat) (rho : env) (e : exp) : pres := ev (callf n) rho e.

  (** the program never gets stuck *)
  Definition psafe (rho : env) (e : exp) : Prop := forall n, peval n rho e <> PStuck.
End Sem.

(** ** Primitive operations *)

(** results of primitive operations *)
Inductive presult : Set :=
| RInt (z : Z) | RBool (b : bool) | RCmp (c : comparison) | RCarry (c : bool * Z) | RPair (p : Z * Z).

(** Rocq's Uint63 operations.  [diveucl_21] of a dividend whose high half is not
    below the divisor is [(0, 0)], as in the Rocq kernel. *)
Inductive prim_rel : primop -> list Z -> presult -> Prop :=
| PR_add x y : prim_rel PrimInt63add [x; y] (RInt (spec_add x y))
| PR_sub x y : prim_rel PrimInt63sub [x; y] (RInt (spec_sub x y))
| PR_mul x y : prim_rel PrimInt63mul [x; y] (RInt (spec_mul x y))
| PR_div x y : prim_rel PrimInt63div [x; y] (RInt (spec_div x y))
| PR_mod x y : prim_rel PrimInt63mod [x; y] (RInt (spec_mod x y))
| PR_lsl x y : prim_rel PrimInt63lsl [x; y] (RInt (spec_lsl x y))
| PR_lsr x y : prim_rel PrimInt63lsr [x; y] (RInt (spec_lsr x y))
| PR_land x y : prim_rel PrimInt63land [x; y] (RInt (spec_land x y))
| PR_lor x y : prim_rel PrimInt63lor [x; y] (RInt (spec_lor x y))
| PR_lxor x y : prim_rel PrimInt63lxor [x; y] (RInt (spec_lxor x y))
| PR_eqb x y : prim_rel PrimInt63eqb [x; y] (RBool (x =? y))
| PR_ltb x y : prim_rel PrimInt63ltb [x; y] (RBool (x <? y))
| PR_leb x y : prim_rel PrimInt63leb [x; y] (RBool (x <=? y))
| PR_compare x y : prim_rel PrimInt63compare [x; y] (RCmp (x ?= y))
| PR_addc x y : prim_rel PrimInt63addc [x; y] (RCarry (spec_addc x y))
| PR_addcarryc x y : prim_rel PrimInt63addcarryc [x; y] (RCarry (spec_addcarryc x y))
| PR_subc x y : prim_rel PrimInt63subc [x; y] (RCarry (spec_subc x y))
| PR_subcarryc x y : prim_rel PrimInt63subcarryc [x; y] (RCarry (spec_subcarryc x y))
| PR_mulc x y : prim_rel PrimInt63mulc [x; y] (RPair (spec_mulc x y))
| PR_diveucl x y : prim_rel PrimInt63diveucl [x; y] (RPair (spec_diveucl x y))
| PR_head0 x r : is_head0 x r -> prim_rel PrimInt63head0 [x] (RInt r)
| PR_tail0 x r : is_tail0 x r -> prim_rel PrimInt63tail0 [x] (RInt r)
| PR_diveucl_21 xh xl y :
    prim_rel PrimInt63diveucl_21 [xh; xl; y] (RPair (if xh <? y then spec_diveucl_21 xh xl y else (0, 0)))
| PR_addmuldiv p x y : prim_rel PrimInt63addmuldiv [p; x; y] (RInt (spec_addmuldiv p x y)).

(** ** Representation in linear memory (LambdaANF_to_Wasm.v:157-170) *)

(** an integer is a pointer to eight bytes, little endian *)
Definition int_at (m : bytes) (hi : Z) (z p : Z) : Prop :=
  0 <= p /\ p + 8 <= hi /\ u63 z /\ rd 8 m p = z.

(** the word [w] represents a result, using memory below [hi] only.  Constant
    constructor number [k] is the odd word [2k+1]; other values are even
    addresses of the constructor number followed by the arguments. *)
Definition res_at (m : bytes) (hi : Z) (r : presult) (w : Z) : Prop :=
  match r with
  | RInt z => int_at m hi z w
  | RBool b => w = if b then 3 else 1
  | RCmp c => w = match c with Eq => 1 | Lt => 3 | Gt => 5 end
  | RCarry (c, z) =>
      0 <= w /\ w mod 2 = 0 /\ w + 8 <= hi /\ rd 4 m w = (if c then 1 else 0) /\ int_at m hi z (rd 4 m (w + 4))
  | RPair (a, b) =>
      0 <= w /\ w mod 2 = 0 /\ w + 12 <= hi /\ rd 4 m w = 0 /\
      int_at m hi a (rd 4 m (w + 4)) /\ int_at m hi b (rd 4 m (w + 8))
  end.

(** *** Values *)

Section Rep.
  Variable cenv : ctor_env.
  Variable B0 : fundefs.
  (** number of a function *)
  Variable fnum : var -> option Z.

  Inductive wrep (m : bytes) (hi : Z) : val -> Z -> Prop :=
  | WR_const t i :
      get t cenv = Some i -> ctor_arity i = 0%N -> Z.of_N (ctor_ordinal i) < 2147483648 ->
      wrep m hi (Vconstr t []) (2 * Z.of_N (ctor_ordinal i) + 1)
  | WR_block t i vs p ws :
      get t cenv = Some i -> ctor_arity i = N.of_nat (length vs) -> vs <> [] ->
      Z.of_N (ctor_ordinal i) < 2147483648 ->
      0 <= p -> p mod 2 = 0 -> p + 4 * (1 + Z.of_nat (length vs)) <= hi ->
      rd 4 m p = Z.of_N (ctor_ordinal i) ->
      length ws = length vs ->
      (forall k w, nth_error ws k = Some w -> rd 4 m (p + 4 * (1 + Z.of_nat k)) = w) ->
      (forall k v w, nth_error vs k = Some v -> nth_error ws k = Some w -> wrep m hi v w) ->
      wrep m hi (Vconstr t vs) p
  | WR_fun f k : fnum f = Some k -> wrep m hi (Vfun [] B0 f) k
  | WR_int z p : int_at m hi z p -> wrep m hi (Vprim (PVint z)) p.
End Rep.

(** ** Meaning of primitives on source values *)

(** constructors of the result types *)
Record ptags : Set := { t_true : ctor_tag; t_false : ctor_tag; t_Eq : ctor_tag; t_Lt : ctor_tag; t_Gt : ctor_tag;
  t_C0 : ctor_tag; t_C1 : ctor_tag; t_pair : ctor_tag }.

(** they are in the table with the ordinals the code generator assumes
    (LambdaANF_to_Wasm_primitives_correct.v:1237-1244; plugin/Loader.v:3 makes
    [true] constructor 1 of [bool]) *)
Definition ctor_is (cenv : ctor_env) (t : ctor_tag) (arity ord : N) : Prop :=
  exists i, get t cenv = Some i /\ ctor_arity i = arity /\ ctor_ordinal i = ord.
Definition ptags_ok (cenv : ctor_env) (p : ptags) : Prop :=
  ctor_is cenv (t_true p) 0 1 /\ ctor_is cenv (t_false p) 0 0 /\
  ctor_is cenv (t_Eq p) 0 0 /\ ctor_is cenv (t_Lt p) 0 1 /\ ctor_is cenv (t_Gt p) 0 2 /\
  ctor_is cenv (t_C0 p) 1 0 /\ ctor_is cenv (t_C1 p) 1 1 /\ ctor_is cenv (t_pair p) 2 0.

Definition val_of (p : ptags) (r : presult) : val :=
  match r with
  | RInt z => Vprim (PVint z)
  | RBool b => Vconstr (if b then t_true p else t_false p) []
  | RCmp c => Vconstr (match c with Eq => t_Eq p | Lt => t_Lt p | Gt => t_Gt p end) []
  | RCarry (c, z) => Vconstr (if c then t_C1 p else t_C0 p) [Vprim (PVint z)]
  | RPair (a, b) => Vconstr (t_pair p) [Vprim (PVint a); Vprim (PVint b)]
  end.

(** the primitives known to the code generator mean what they should
    ([prim_funs_env_wellformed], LambdaANF_to_Wasm_primitives_correct.v:1227-1244) *)
Definition prims_ok (cenv : ctor_env) (penv : tmap (option primop)) (pr : tmap (list val -> option val)) : Prop :=
  forall p op f vs v, get p penv = Some (Some op) -> get p pr = Some f -> f vs = Some v ->
    exists tags zs r, ptags_ok cenv tags /\ vs = map (fun z => Vprim (PVint z)) zs /\ prim_rel op zs r /\ v = val_of tags r.

(** ** Conditions on source programs *)

(** constructors of one type that are both constant or both not have different
    ordinals (compare C34) *)
Definition ordinals_ok (cenv : ctor_env) : Prop :=
  forall t1 t2 i1 i2, get t1 cenv = Some i1 -> get t2 cenv = Some i2 ->
    ctor_ind_tag i1 = ctor_ind_tag i2 -> ctor_ordinal i1 = ctor_ordinal i2 ->
    (ctor_arity i1 = 0%N <-> ctor_arity i2 = 0%N) -> t1 = t2.

(** constructors have their declared number of arguments, integer literals are
    63-bit integers, and no local variable has the name of a function *)
Fixpoint exp_ok (cenv : ctor_env) (names : list var) (e : exp) {struct e} : Prop :=
  match e with
  | Econstr x t ys e' =>
      ~ In x names /\ (forall i, get t cenv = Some i -> ctor_arity i = N.of_nat (length ys)) /\ exp_ok cenv names e'
  | Ecase x l =>
      (fix go (l : list (ctor_tag * exp)) : Prop :=
         match l with [] => True | p :: l' => exp_ok cenv names (snd p) /\ go l' end) l
  | Eproj x _ _ _ e' => ~ In x names /\ exp_ok cenv names e'
  | Eletapp x _ _ _ e' => ~ In x names /\ exp_ok cenv names e'
  | Efun _ e' => exp_ok cenv names e'
  | Eapp _ _ _ => True
  | Eprim_val x p e' => ~ In x names /\ match p with PVint z => u63 z | _ => True end /\ exp_ok cenv names e'
  | Eprim x _ _ e' => ~ In x names /\ exp_ok cenv names e'
  | Ehalt _ => True
  end.

Definition wprog_ok (cenv : ctor_env) (B : fundefs) (e : exp) : Prop :=
  exp_ok cenv (fundefs_names B) e /\
  forall f t xs b, find_def f B = Some (t, xs, b) ->
    exp_ok cenv (fundefs_names B) b /\ forall x, In x xs -> ~ In x (fundefs_names B).
