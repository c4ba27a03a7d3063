(* Notions for stating that closure conversion preserves evaluation. *)
From Coq Require Import List Arith NArith PArith Bool.
From Verif Require Import ANF_Syntax ANF_Spec ANF_Scope.
Import ListNotations.

(* Results that correspond: constructors and primitive values are the same; a
   function is a record of two fields, the first of which is the code of the
   function: same name and calling convention, the same parameters after a new
   one. *)
Inductive same_val (clo_tag : ctor_tag) : val -> val -> Prop :=
| sv_constr : forall t vs vs', Forall2 (same_val clo_tag) vs vs' -> same_val clo_tag (Vconstr t vs) (Vconstr t vs')
| sv_prim : forall p, same_val clo_tag (Vprim p) (Vprim p)
| sv_int : forall z, same_val clo_tag (Vint z) (Vint z)
| sv_fun : forall rho B f rho' B' env t xs e G e',
    find_def f B = Some (t, xs, e) -> find_def f B' = Some (t, G :: xs, e') ->
    same_val clo_tag (Vfun rho B f) (Vconstr clo_tag [Vfun rho' B' f; env]).

(* A program for which the pass is meant: names are bound once, and the names
   from [n] on are not used. *)
Definition unique (e : exp) : Prop := NoDup (bv e).
Definition below (n : positive) (e : exp) : Prop :=
  forall x, In x (bv e) \/ free x e -> (x < n)%positive.

(* No tag from [c] on is in the table. *)
Definition tags_below (c : positive) (cenv : ctor_env) : Prop :=
  forall t i, get t cenv = Some i -> (t < c)%positive.

(* Constructor applications have the number of arguments the table says;
   branches are for constructors in the table. *)
Fixpoint arities (cenv : ctor_env) (e : exp) : Prop :=
  match e with
  | Econstr _ t ys e => (exists i, get t cenv = Some i /\ ctor_arity i = N.of_nat (length ys)) /\ arities cenv e
  | Ecase _ cl =>
      (fix go (cl : list (ctor_tag * exp)) : Prop :=
         match cl with [] => True | p :: cl' => ((exists i, get (fst p) cenv = Some i) /\ arities cenv (snd p)) /\ go cl' end) cl
  | Eproj _ _ _ _ e | Eletapp _ _ _ _ e | Eprim_val _ _ e | Eprim _ _ _ e => arities cenv e
  | Efun B e => arities_funs cenv B /\ arities cenv e
  | Eapp _ _ _ | Ehalt _ => True
  end
with arities_funs (cenv : ctor_env) (B : fundefs) : Prop :=
  match B with
  | Fcons _ _ _ e B' => arities cenv e /\ arities_funs cenv B'
  | Fnil => True
  end.

(* A known closed function: of a bundle [D] that is closed but for other known
   closed functions. *)
Inductive closed_fun (bs : list fundefs) (z : var) : Prop :=
| cf : forall D, In D bs -> In z (fnames D) -> (forall y, free_funs y D -> closed_fun bs y) -> closed_fun bs z.
