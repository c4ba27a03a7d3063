(** All subterms of a program as a list, and rewriting one of them, without contexts. *)
From Coq Require Import NArith List.
From Verif Require Import ANF_Syntax.
Import ListNotations.

(** the proper subterms of a program *)
Fixpoint below (e : exp) : list exp :=
  match e with
  | Econstr _ _ _ e | Eproj _ _ _ _ e | Eletapp _ _ _ _ e | Eprim_val _ _ e | Eprim _ _ _ e => e :: below e
  | Ecase _ l => (fix go l := match l with [] => [] | (_, e) :: l => (e :: below e) ++ go l end) l
  | Efun B e => below_funs B ++ e :: below e
  | Eapp _ _ _ | Ehalt _ => []
  end
with below_funs (B : fundefs) : list exp :=
  match B with
  | Fcons _ _ _ e B => (e :: below e) ++ below_funs B
  | Fnil => []
  end.

(** one subterm of the first program is rewritten by [R], which gives the second *)
Inductive somewhere (R : exp -> exp -> Prop) : exp -> exp -> Prop :=
| here : forall e e', R e e' -> somewhere R e e'
| in_constr : forall x t ys e e', somewhere R e e' -> somewhere R (Econstr x t ys e) (Econstr x t ys e')
| in_proj : forall x t n y e e', somewhere R e e' -> somewhere R (Eproj x t n y e) (Eproj x t n y e')
| in_letapp : forall x f t ys e e', somewhere R e e' -> somewhere R (Eletapp x f t ys e) (Eletapp x f t ys e')
| in_prim_val : forall x p e e', somewhere R e e' -> somewhere R (Eprim_val x p e) (Eprim_val x p e')
| in_prim : forall x p ys e e', somewhere R e e' -> somewhere R (Eprim x p ys e) (Eprim x p ys e')
| in_case : forall x l l', in_branches R l l' -> somewhere R (Ecase x l) (Ecase x l')
| in_rest : forall B e e', somewhere R e e' -> somewhere R (Efun B e) (Efun B e')
| in_block : forall B B' e, in_functions R B B' -> somewhere R (Efun B e) (Efun B' e)
with in_branches (R : exp -> exp -> Prop) : list (ctor_tag * exp) -> list (ctor_tag * exp) -> Prop :=
| first_branch : forall t e e' l, somewhere R e e' -> in_branches R ((t, e) :: l) ((t, e') :: l)
| later_branch : forall b l l', in_branches R l l' -> in_branches R (b :: l) (b :: l')
with in_functions (R : exp -> exp -> Prop) : fundefs -> fundefs -> Prop :=
| first_function : forall f t xs e e' B, somewhere R e e' -> in_functions R (Fcons f t xs e B) (Fcons f t xs e' B)
| later_function : forall f t xs e B B', in_functions R B B' -> in_functions R (Fcons f t xs e B) (Fcons f t xs e B').
