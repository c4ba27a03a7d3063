(** Subterms, contexts and rewriting in contexts, for LambdaANF programs.
    Source: /repo/theories/LambdaANF/cps_util.v:569-601, ctx.v:31-66 and 203-208, relations.v:15-56. *)
From Coq Require Import NArith List Relations.
From Verif Require Import ANF_Syntax ANF_Subst AN_Model.
Import ListNotations.

(** cps_util.v:569-592 *)
Inductive dsubterm_e : exp -> exp -> Prop :=
| dsubterm_constr : forall x t ys e, dsubterm_e e (Econstr x t ys e)
| dsubterm_proj : forall v t n y e, dsubterm_e e (Eproj v t n y e)
| dsubterm_prim_val : forall x p e, dsubterm_e e (Eprim_val x p e)
| dsubterm_prim : forall x p ys e, dsubterm_e e (Eprim x p ys e)
| dsubterm_letapp : forall x f ft ys e, dsubterm_e e (Eletapp x f ft ys e)
| dsubterm_case : forall x e g cl, In (g, e) cl -> dsubterm_e e (Ecase x cl)
| dsubterm_fds : forall e' fds e, dsubterm_fds_e e' fds -> dsubterm_e e' (Efun fds e)
| dsubterm_fds2 : forall fds e, dsubterm_e e (Efun fds e)
with dsubterm_fds_e : exp -> fundefs -> Prop :=
| dsubterm_cons : forall e f t ys fds', dsubterm_fds_e e (Fcons f t ys e fds')
| dsubterm_cons_fds : forall e' fds' f t ys e,
    dsubterm_fds_e e' fds' -> dsubterm_fds_e e' (Fcons f t ys e fds').

(** cps_util.v:594-595 *)
Definition subterm_e : exp -> exp -> Prop := clos_trans _ dsubterm_e.
Definition subterm_or_eq : exp -> exp -> Prop := clos_refl_trans _ dsubterm_e.

(** cps_util.v:597-601 *)
Inductive subterm_fds_e : exp -> fundefs -> Prop :=
| subterm_cons : forall e e' f t ys fds', subterm_e e' e -> subterm_fds_e e' (Fcons f t ys e fds')
| subterm_cons_fds : forall e' fds' f t ys e, subterm_fds_e e' fds' -> subterm_fds_e e' (Fcons f t ys e fds').

(** ctx.v:31-66 *)
Inductive app_ctx : exp_ctx -> exp -> exp -> Prop :=
| Hole_ac : forall e, app_ctx Hole_c e e
| Constr_ac : forall x t c ys e ce, app_ctx c e ce -> app_ctx (Econstr_c x t ys c) e (Econstr x t ys ce)
| Proj_ac : forall x t n y e c ce, app_ctx c e ce -> app_ctx (Eproj_c x t n y c) e (Eproj x t n y ce)
| Letapp_ac : forall x f ft ys e c ce, app_ctx c e ce -> app_ctx (Eletapp_c x f ft ys c) e (Eletapp x f ft ys ce)
| Case_ac : forall x te t e te' c ce,
    app_ctx c e ce -> app_ctx (Ecase_c x te t c te') e (Ecase x (te ++ (t, ce) :: te'))
| Prim_val_ac : forall x p e c ce, app_ctx c e ce -> app_ctx (Eprim_val_c x p c) e (Eprim_val x p ce)
| Prim_ac : forall x f ys e c ce, app_ctx c e ce -> app_ctx (Eprim_c x f ys c) e (Eprim x f ys ce)
| Fun1_ac : forall c e ce fds, app_ctx c e ce -> app_ctx (Efun1_c fds c) e (Efun fds ce)
| Fun2_ac : forall e cfds cfdse e', app_f_ctx cfds e cfdse -> app_ctx (Efun2_c cfds e') e (Efun cfdse e')
with app_f_ctx : fundefs_ctx -> exp -> fundefs -> Prop :=
| Fcons1_ac : forall c e ce f t ys fds,
    app_ctx c e ce -> app_f_ctx (Fcons1_c f t ys c fds) e (Fcons f t ys ce fds)
| Fcons2_ac : forall e cfdse f cfds ys e' t,
    app_f_ctx cfds e cfdse -> app_f_ctx (Fcons2_c f t ys e' cfds) e (Fcons f t ys e' cfdse).

(** ctx.v:204-208 *)
Definition subterm_e' (e' e : exp) : Prop := exists c, Hole_c <> c /\ app_ctx c e' e.
Definition subterm_or_eq' (e' e : exp) : Prop := exists c, app_ctx c e' e.

(** relations.v:19-23 *)
Inductive compat_closure (R : exp -> exp -> Prop) : exp -> exp -> Prop :=
| Compat : forall e e' c, R e e' -> compat_closure R (app_ctx_f c e) (app_ctx_f c e').

(** relations.v:27-34 *)
Inductive refl_trans_closure_n (R : exp -> exp -> Prop) : nat -> exp -> exp -> Prop :=
| Trans : forall n e1 e2 e3,
    R e1 e2 -> refl_trans_closure_n R n e2 e3 -> refl_trans_closure_n R (S n) e1 e3
| Refl : forall e, refl_trans_closure_n R 0 e e.

(** relations.v:37-39 *)
Definition Compatible (R' : exp -> exp -> Prop) : Prop :=
  forall e1 e2 c, R' e1 e2 -> R' (app_ctx_f c e1) (app_ctx_f c e2).

(** relations.v:42-44 *)
Definition Invariant (R : exp -> exp -> Prop) (I : exp -> Prop) : Prop :=
  forall e1 e2, I e1 -> R e1 e2 -> I e2.

(** relations.v:49-50 *)
Definition SubtermInvariant (I : exp -> Prop) : Prop := forall c e, I (app_ctx_f c e) -> I e.

(** relations.v:54-55 *)
Definition SubtermSubstInvariant (R : exp -> exp -> Prop) (I : exp -> Prop) : Prop :=
  forall c e e', I (app_ctx_f c e) -> R e e' -> I (app_ctx_f c e').
