(* Notions for stating what lambda lifting does. *)
From Coq Require Import List Arith NArith PArith Bool.
From Verif Require Import ANF_Syntax ANF_Spec ANF_Scope.
Import ListNotations.

(* Results that correspond: the same constructors and primitive values; a
   function with the same calling convention and as many parameters (its name
   may be another one). *)
Inductive same_kind : val -> val -> Prop :=
| sk_constr t vs vs' : Forall2 same_kind vs vs' -> same_kind (Vconstr t vs) (Vconstr t vs')
| sk_prim p : same_kind (Vprim p) (Vprim p)
| sk_int z : same_kind (Vint z) (Vint z)
| sk_fun rho B f rho' B' f' t xs xs' e e' :
    find_def f B = Some (t, xs, e) -> find_def f' B' = Some (t, xs', e') -> length xs = length xs' ->
    same_kind (Vfun rho B f) (Vfun rho' B' f').

(* Free names are not bound again. *)
Definition separate (e : exp) : Prop := forall x, In x (bv e) -> ~ free x e.

(* The calls of a program: function, tag, arguments. *)
Fixpoint calls_of (e : exp) : list (var * fun_tag * list var) :=
  match e with
  | Econstr _ _ _ e | Eproj _ _ _ _ e | Eprim_val _ _ e | Eprim _ _ _ e => calls_of e
  | Ecase _ cl => flat_map (fun p => calls_of (snd p)) cl
  | Eletapp _ f t ys e => (f, t, ys) :: calls_of e
  | Efun B e => calls_of_funs B ++ calls_of e
  | Eapp f t ys => [(f, t, ys)]
  | Ehalt _ => []
  end
with calls_of_funs (B : fundefs) : list (var * fun_tag * list var) :=
  match B with
  | Fcons _ _ _ e B => calls_of e ++ calls_of_funs B
  | Fnil => []
  end.

(* Tags determine numbers of arguments: [ar t] for tag [t], in definitions and
   in calls. *)
Definition tags_agree (ar : fun_tag -> nat) (e : exp) : Prop :=
  (forall f t xs b, In (f, t, xs, b) (defs_of e) -> length xs = ar t) /\
  (forall f t ys, In (f, t, ys) (calls_of e) -> length ys = ar t).

(* A call of a function that is defined in the program passes as many arguments
   as the function has parameters. *)
Definition direct_ok (e : exp) : Prop :=
  forall f t xs b t' ys, In (f, t, xs, b) (defs_of e) -> In (f, t', ys) (calls_of e) -> length ys = length xs.

(* The tags of definitions and calls are smaller than [n]. *)
Definition tags_lt (n : fun_tag) (e : exp) : Prop :=
  (forall f t xs b, In (f, t, xs, b) (defs_of e) -> (t < n)%positive) /\
  (forall f t ys, In (f, t, ys) (calls_of e) -> (t < n)%positive).
