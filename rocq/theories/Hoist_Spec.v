(** * Specification of hoisting: what must come out *)
From Coq Require Import ZArith NArith List Lia Bool.
From Verif Require Import ANF_Syntax ANF_Spec ANF_Scope.
Import ListNotations.

(** a program with all its function definitions removed *)
Fixpoint strip (e : exp) : exp :=
  match e with
  | Econstr x t ys e => Econstr x t ys (strip e)
  | Ecase x cl => Ecase x (List.map (fun p => (fst p, strip (snd p))) cl)
  | Eproj x t n y e => Eproj x t n y (strip e)
  | Eletapp x f t ys e => Eletapp x f t ys (strip e)
  | Efun _ e => strip e
  | Eapp f t ys => Eapp f t ys
  | Eprim_val x p e => Eprim_val x p (strip e)
  | Eprim x p ys e => Eprim x p ys (strip e)
  | Ehalt x => Ehalt x
  end.

Definition strip_def (d : fdef) : fdef :=
  let '(f, t, xs, e) := d in (f, t, xs, strip e).

(** Nesting depth of definitions: the number the pass reports. *)
Definition lmax (l : list nat) : nat := fold_right max 0 l.
Fixpoint depth (e : exp) : nat :=
  match e with
  | Econstr _ _ _ e => depth e
  | Ecase _ cl => lmax (List.map (fun p => depth (snd p)) cl)
  | Eproj _ _ _ _ e => depth e
  | Eletapp _ _ _ _ e => depth e
  | Efun B e => 1 + max (depth e) (depth_funs B)
  | Eapp _ _ _ => 0
  | Eprim_val _ _ e => depth e
  | Eprim _ _ _ e => depth e
  | Ehalt _ => 0
  end
with depth_funs (B : fundefs) : nat :=
  match B with
  | Fcons _ _ _ e B' => max (depth e) (depth_funs B')
  | Fnil => 0
  end.

(** The precondition of the pass (theories/LambdaANF/hoisting.v:1203-1207):
    unique binders, free variables not rebound, and every function closed up to
    names of functions of the program. *)
Definition hoistable (e : exp) : Prop :=
  NoDup (bv e) /\
  (forall x, free x e -> ~ In x (bv e)) /\
  (forall B x, In B (bundles e) -> free_funs x B -> In x (List.map fname (defs_of e))).

(** Values before and after hoisting: data is unchanged; a function of the
    program becomes the function of the same name of the one bundle [Ball]
    closed over [rho0]; a function that came from the outside is unchanged up
    to the values it captures. *)
Inductive hval (e0 : exp) (Ball : fundefs) (rho0 : env) : val -> val -> Prop :=
| hval_constr t vs1 vs2 :
    Forall2 (hval e0 Ball rho0) vs1 vs2 ->
    hval e0 Ball rho0 (Vconstr t vs1) (Vconstr t vs2)
| hval_prim p : hval e0 Ball rho0 (Vprim p) (Vprim p)
| hval_int z : hval e0 Ball rho0 (Vint z) (Vint z)
| hval_in rho B f :
    In B (bundles e0) -> In f (fnames B) ->
    (forall x v, free_funs x B -> get x rho = Some v ->
       hval e0 Ball rho0 v (Vfun rho0 Ball x)) ->
    hval e0 Ball rho0 (Vfun rho B f) (Vfun rho0 Ball f)
| hval_out rho1 rho2 B f :
    (forall x v1, free_funs x B -> get x rho1 = Some v1 ->
       exists v2, get x rho2 = Some v2 /\ hval e0 Ball rho0 v1 v2) ->
    hval e0 Ball rho0 (Vfun rho1 B f) (Vfun rho2 B f).
