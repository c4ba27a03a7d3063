(** * Dead-parameter elimination: specification

    A mask assignment [K] gives some functions a list of bits, one per
    parameter: [true] = kept.  Functions without a mask keep everything. *)
From Coq Require Import ZArith NArith List Lia Bool.
From Verif Require Import ANF_Syntax ANF_Spec ANF_Scope.
Import ListNotations.

Definition masks : Type := var -> option (list bool).

(** the i-th argument is dropped exactly when the i-th bit says [false] *)
Definition kept (x : var) (ys : list var) (bs : list bool) : Prop :=
  exists i, nth_error ys i = Some x /\ nth_error bs i <> Some false.

(** [x] is needed by [e] when callees drop what [K] says *)
Definition needed_args (K : masks) (x f : var) (ys : list var) : Prop :=
  match K f with
  | Some bs => kept x ys bs
  | None => In x ys
  end.

Fixpoint needed (K : masks) (x : var) (e : exp) : Prop :=
  match e with
  | Econstr _ _ ys e => In x ys \/ needed K x e
  | Ecase y cl =>
      x = y \/
      (fix go (cl : list (ctor_tag * exp)) : Prop :=
         match cl with [] => False | p :: cl' => needed K x (snd p) \/ go cl' end) cl
  | Eproj _ _ _ y e => x = y \/ needed K x e
  | Eletapp _ f _ ys e => (x = f \/ needed_args K x f ys) \/ needed K x e
  | Efun _ _ => False
  | Eapp f _ ys => x = f \/ needed_args K x f ys
  | Eprim_val _ _ e => needed K x e
  | Eprim _ _ ys e => In x ys \/ needed K x e
  | Ehalt y => x = y
  end.

(** [f] is used other than by calling it *)
Fixpoint escapes (f : var) (e : exp) : Prop :=
  match e with
  | Econstr _ _ ys e => In f ys \/ escapes f e
  | Ecase _ cl =>
      (fix go (cl : list (ctor_tag * exp)) : Prop :=
         match cl with [] => False | p :: cl' => escapes f (snd p) \/ go cl' end) cl
  | Eproj _ _ _ y e => f = y \/ escapes f e
  | Eletapp _ _ _ ys e => In f ys \/ escapes f e
  | Efun B e => escapes_funs f B \/ escapes f e
  | Eapp _ _ ys => In f ys
  | Eprim_val _ _ e => escapes f e
  | Eprim _ _ ys e => In f ys \/ escapes f e
  | Ehalt y => f = y
  end
with escapes_funs (f : var) (B : fundefs) : Prop :=
  match B with
  | Fcons _ _ _ e B' => escapes f e \/ escapes_funs f B'
  | Fnil => False
  end.

(** A correct answer of the analysis for the program [Efun B e]: masks belong
    to functions of the bundle that are only called, have one bit per
    parameter, and keep every parameter the body needs. *)
Definition good_masks (B : fundefs) (e : exp) (K : masks) : Prop :=
  (forall f bs, K f = Some bs ->
     In f (fnames B) /\ ~ escapes f e /\ ~ escapes_funs f B) /\
  (forall f t xs b bs, In (f, t, xs, b) (flist B) -> K f = Some bs ->
     length bs = length xs /\
     forall i x, nth_error xs i = Some x -> needed K x b -> nth_error bs i = Some true).

(** [K1] drops at least everything [K2] drops *)
Definition drops_more (K1 K2 : masks) : Prop :=
  forall f bs2 i, K2 f = Some bs2 -> nth_error bs2 i = Some false ->
    exists bs1, K1 f = Some bs1 /\ nth_error bs1 i = Some false.

(** remove the arguments whose bit is [false] *)
Fixpoint pick {A} (ys : list A) (bs : list bool) : list A :=
  match ys, bs with
  | y :: ys', b :: bs' => if b then y :: pick ys' bs' else pick ys' bs'
  | _, _ => ys
  end.

(** Values before and after: data is unchanged, a function of the program that
    keeps all its parameters becomes the function of that name in the new
    bundle, functions from outside are unchanged up to captured values. *)
Inductive dval (K : masks) (B B' : fundefs) (rho0 : env) : val -> val -> Prop :=
| dval_constr t vs1 vs2 :
    Forall2 (dval K B B' rho0) vs1 vs2 ->
    dval K B B' rho0 (Vconstr t vs1) (Vconstr t vs2)
| dval_prim p : dval K B B' rho0 (Vprim p) (Vprim p)
| dval_int z : dval K B B' rho0 (Vint z) (Vint z)
| dval_in f : K f = None -> dval K B B' rho0 (Vfun rho0 B f) (Vfun rho0 B' f)
| dval_out rho1 rho2 D f :
    (forall x v1, free_funs x D -> get x rho1 = Some v1 ->
       exists v2, get x rho2 = Some v2 /\ dval K B B' rho0 v1 v2) ->
    dval K B B' rho0 (Vfun rho1 D f) (Vfun rho2 D f).
