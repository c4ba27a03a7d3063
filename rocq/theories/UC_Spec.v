(* Notions for stating what uncurrying does. *)
From Coq Require Import List Arith NArith PArith Bool Relations.
From Verif Require Import ANF_Syntax ANF_Spec ANF_Scope.
Import ListNotations.

(* names of a program: bound or free *)
Definition name_in (x : var) (e : exp) : Prop := In x (bv e) \/ free x e.

(* One rewrite: the first function of a bundle, which only builds a function
   [g] and hands it to its continuation ([pre] is the continuation parameter) or
   returns it ([pre] is empty), becomes a wrapper around a new function that
   takes all the parameters at once.  [used]: names that may not be chosen. *)
Inductive rewrite (used : var -> Prop) : fundefs -> fundefs -> Prop :=
| rw : forall f ft pre fv g gt gv ge tl fds f1 ft1 fv1 gv1,
    (exists k kt, pre = [k] /\ tl = Eapp k kt [g]) \/ (pre = [] /\ tl = Ehalt g) ->
    ~ name_in g ge -> (forall k, In k pre -> ~ name_in k ge) ->
    length gv1 = length gv -> length fv1 = length fv ->
    NoDup (f1 :: gv1 ++ fv1) -> (forall x, In x (f1 :: gv1 ++ fv1) -> ~ used x) ->
    rewrite used
      (Fcons f ft (pre ++ fv) (Efun (Fcons g gt gv ge Fnil) tl) fds)
      (Fcons f ft (pre ++ fv1) (Efun (Fcons g gt gv1 (Eapp f1 ft1 (gv1 ++ fv1)) Fnil) tl)
        (Fcons f1 ft1 (gv ++ fv) ge fds)).

(* ... somewhere in a program *)
Inductive somewhere (R : fundefs -> fundefs -> Prop) : exp -> exp -> Prop :=
| at_constr x t ys e e' : somewhere R e e' -> somewhere R (Econstr x t ys e) (Econstr x t ys e')
| at_case x l1 c e e' l2 : somewhere R e e' -> somewhere R (Ecase x (l1 ++ (c, e) :: l2)) (Ecase x (l1 ++ (c, e') :: l2))
| at_proj x t n y e e' : somewhere R e e' -> somewhere R (Eproj x t n y e) (Eproj x t n y e')
| at_letapp x f t ys e e' : somewhere R e e' -> somewhere R (Eletapp x f t ys e) (Eletapp x f t ys e')
| at_prim_val x p e e' : somewhere R e e' -> somewhere R (Eprim_val x p e) (Eprim_val x p e')
| at_prim x p ys e e' : somewhere R e e' -> somewhere R (Eprim x p ys e) (Eprim x p ys e')
| at_fun_body B e e' : somewhere R e e' -> somewhere R (Efun B e) (Efun B e')
| at_fun_defs B B' e : somewheref R B B' -> somewhere R (Efun B e) (Efun B' e)
with somewheref (R : fundefs -> fundefs -> Prop) : fundefs -> fundefs -> Prop :=
| at_here B B' : R B B' -> somewheref R B B'
| at_body f t xs e e' B : somewhere R e e' -> somewheref R (Fcons f t xs e B) (Fcons f t xs e' B)
| at_rest f t xs e B B' : somewheref R B B' -> somewheref R (Fcons f t xs e B) (Fcons f t xs e B').

(* theories/LambdaANF/uncurry_proto.v:76-140 *)
Definition uncurry_step (e e' : exp) : Prop := somewhere (rewrite (fun x => name_in x e)) e e'.
Definition uncurry_steps : exp -> exp -> Prop := clos_refl_trans exp uncurry_step.

(* Results that correspond: the same constructors and primitive values; a
   function with the same name, the same calling convention and as many
   parameters. *)
Inductive same_shape : val -> val -> Prop :=
| ss_constr t vs vs' : Forall2 same_shape vs vs' -> same_shape (Vconstr t vs) (Vconstr t vs')
| ss_prim p : same_shape (Vprim p) (Vprim p)
| ss_int z : same_shape (Vint z) (Vint z)
| ss_fun rho B f rho' B' t xs xs' e e' :
    find_def f B = Some (t, xs, e) -> find_def f B' = Some (t, xs', e') -> length xs = length xs' ->
    same_shape (Vfun rho B f) (Vfun rho' B' f).

(* Functions and calls agree with the table of calling conventions on the
   number of arguments. *)
Definition agrees (fenv : tmap (N * list N)) (t : fun_tag) (xs : list var) : Prop :=
  exists l, get t fenv = Some (N.of_nat (length xs), l) /\ length l = length xs.
Fixpoint conv_ok (fenv : tmap (N * list N)) (e : exp) : Prop :=
  match e with
  | Econstr _ _ _ e | Eproj _ _ _ _ e | Eprim_val _ _ e | Eprim _ _ _ e => conv_ok fenv e
  | Eletapp _ _ t ys e => agrees fenv t ys /\ conv_ok fenv e
  | Ecase _ cl =>
      (fix go (cl : list (ctor_tag * exp)) : Prop :=
         match cl with [] => True | p :: cl' => conv_ok fenv (snd p) /\ go cl' end) cl
  | Efun B e => conv_ok_funs fenv B /\ conv_ok fenv e
  | Eapp _ t ys => agrees fenv t ys
  | Ehalt _ => True
  end
with conv_ok_funs (fenv : tmap (N * list N)) (B : fundefs) : Prop :=
  match B with
  | Fcons _ t xs e B' => agrees fenv t xs /\ conv_ok fenv e /\ conv_ok_funs fenv B'
  | Fnil => True
  end.
