(** * What reading a result back must give

    Independent of the reader: which terms are values of a type ([value]), what
    such a value is in memory ([shown]; layout of runtime/values.h and of the
    constructor tables, C34), and conditions on declarations. *)
From Coq Require Import ZArith NArith List Lia Bool Arith Ascii String.
From Verif Require Import ANF_Syntax CG_Clight CG_Spec RF_Model.
Import ListNotations.
Local Open Scope nat_scope.

(** ** Values of a type *)

(** A constructor applied to the parameters of the type and to values of the
    types of its arguments, each under the arguments before it; the indices of
    what it builds are those of the type. *)
Inductive value (E : genv) : cterm -> cterm -> Prop :=
| v_ctor i d k c ps idx args :
    E i = Some d -> nth_error (i_ctors d) k = Some c -> List.length ps = i_params d ->
    values E (subst_ctx (rev ps) 0 (c_args c)) (map (substl (rev ps) (List.length (c_args c))) (c_indices c)) args idx ->
    value E (applist (cInd i) (ps ++ idx)) (applist (cConstruct i k) (ps ++ args))
| v_int z : value E (cPrim PInt) (cLit PInt (VZ z))
with values (E : genv) : list decl -> list cterm -> list cterm -> list cterm -> Prop :=
| vs_nil idx : values E [] idx [] idx
| vs_arg ty r idx a args idx' :
    value E ty a -> values E (subst_ctx [a] 0 r) (map (substl [a] (List.length r)) idx) args idx' ->
    values E (Assum ty :: r) idx (a :: args) idx'
| vs_let b ty r idx args idx' :
    values E (subst_ctx [b] 0 r) (map (substl [b] (List.length r)) idx) args idx' ->
    values E (Def b ty :: r) idx args idx'.

(** ** Values in memory *)

(** number of arguments: definitions do not count *)
Fixpoint arity (ds : list decl) : nat :=
  match ds with [] => 0 | Assum _ :: r => S (arity r) | Def _ _ :: r => arity r end.

(** the order registered last for a type: the first in the list, as
    registration adds in front (plugin/certirocq.ml, [register_inductives]) *)
Inductive latest (i : inductive) : mapping -> option (list nat) -> Prop :=
| la_none : latest i [] None
| la_here tags im : latest i ((i, tags) :: im) (Some tags)
| la_later j tags im o : j <> i -> latest i im o -> latest i ((j, tags) :: im) o.

(** With an order [tags] of its [n] constructors, constructor [k] of a type is at
    the position holding [k]; without one it stays where it is. *)
Definition placed (im : mapping) (i : inductive) (k k' : nat) : Prop :=
  match entry i im with Some tags => nth_error tags k' = Some k | None => k' = k end.

(** arities in the order of the positions *)
Definition arities_of (im : mapping) (i : inductive) (d : idecl) : list nat :=
  let l := map (fun c => arity (c_args c)) (i_ctors d) in
  match entry i im with Some tags => map (fun k => nth k l 0) tags | None => l end.

(** how many constructors of the same kind (with or without arguments) precede *)
Definition rank (l : list nat) (j : nat) : Z :=
  match nth_error l j with
  | Some a => Z.of_nat (List.length (filter (fun b => Bool.eqb (Nat.eqb a 0) (Nat.eqb b 0)) (firstn j l)))
  | None => 0%Z
  end.

(** A constructor without arguments is an odd number, one with arguments a block
    whose header has arity and rank.  Proofs are erased to the number 1. *)
Inductive shown (E : genv) (im : mapping) : cterm -> hval -> Prop :=
| sh_const i d k c ps k' :
    E i = Some d -> i_prop d = false -> nth_error (i_ctors d) k = Some c -> List.length ps = i_params d ->
    arity (c_args c) = 0 -> placed im i k k' ->
    shown E im (applist (cConstruct i k) ps) (HInt (2 * rank (arities_of im i d) k' + 1))
| sh_block i d k c ps args k' hs :
    E i = Some d -> i_prop d = false -> nth_error (i_ctors d) k = Some c -> List.length ps = i_params d ->
    arity (c_args c) = List.length args -> args <> [] -> placed im i k k' ->
    showns E im args hs ->
    shown E im (applist (cConstruct i k) (ps ++ args))
      (HBlock (1024 * Z.of_nat (arity (c_args c)) + rank (arities_of im i d) k') hs)
| sh_proof i d k args : E i = Some d -> i_prop d = true -> shown E im (applist (cConstruct i k) args) (HInt 1)
| sh_int z : shown E im (cLit PInt (VZ z)) (HInt z)
with showns (E : genv) (im : mapping) : list cterm -> list hval -> Prop :=
| shs_nil : showns E im [] []
| shs_cons t ts h hs : shown E im t h -> showns E im ts hs -> showns E im (t :: ts) (h :: hs).

(** ** Conditions *)

(** all variables of [t], which stands below [k] binders, are bound by these or
    lie in [lo, hi) seen from above them *)
Fixpoint vars_in (lo hi k : nat) (t : cterm) : Prop :=
  match t with
  | cRel n => n < k \/ k + lo <= n < k + hi
  | cLambda a b | cProd a b => vars_in lo hi k a /\ vars_in lo hi (S k) b
  | cApp f l => vars_in lo hi k f /\ (fix go (l : list cterm) : Prop := match l with [] => True | t :: l' => vars_in lo hi k t /\ go l' end) l
  | _ => True
  end.
Definition closed (t : cterm) : Prop := vars_in 0 0 0 t.

(** The type of an argument that comes after [j] others, in the declaration of a
    type with [np] parameters: one of the parameters; a type whose own parameters
    mention no earlier argument (its indices may); integers. *)
Inductive simple_arg (E : genv) (np j : nat) : cterm -> Prop :=
| sa_param n : j <= n < j + np -> simple_arg E np j (cRel n)
| sa_ind i d l : E i = Some d -> i_params d <= List.length l ->
    Forall (vars_in j (j + np) 0) (firstn (i_params d) l) -> simple_arg E np j (applist (cInd i) l)
| sa_int : simple_arg E np j (cPrim PInt).

(** an order of [n] constructors that undoes itself *)
Definition own_inverse (n : nat) (tags : list nat) : Prop :=
  List.length tags = n /\ forall j k, nth_error tags j = Some k -> nth_error tags k = Some j.

(** Declarations whose values can be read back: arguments as above; no
    constructor whose only arguments are definitions; registered orders that undo
    themselves; ordinals that fit a byte. *)
Record readable (E : genv) (im : mapping) : Prop := {
  rd_args : forall i d c j ty, E i = Some d -> In c (i_ctors d) -> nth_error (smash (c_args c)) j = Some ty -> simple_arg E (i_params d) j ty;
  rd_lets : forall i d c, E i = Some d -> In c (i_ctors d) -> arity (c_args c) = 0 -> c_args c = [];
  rd_order : forall i d tags, E i = Some d -> entry i im = Some tags -> own_inverse (List.length (i_ctors d)) tags;
  rd_few : forall i d, E i = Some d -> List.length (filter (fun c => negb (Nat.eqb (arity (c_args c)) 0)) (i_ctors d)) <= 256 }.

(** No part of the value is a proof. *)
Inductive relevant (E : genv) : cterm -> Prop :=
| rl_ctor i d k ps args : E i = Some d -> i_prop d = false -> List.length ps = i_params d ->
    Forall (relevant E) args -> relevant E (applist (cConstruct i k) (ps ++ args))
| rl_int z : relevant E (cLit PInt (VZ z)).
