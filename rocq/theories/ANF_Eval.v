(** * Big-step semantics of LambdaANF

    Source: theories/LambdaANF/eval.v:34-131.

    The repository is generic in the type of fuel and of a trace; here fuel is
    [nat] with cost one per step (the instance used by the top-level theorems,
    theories/LambdaANF/bounds.v) and the trace, which no rule inspects, is
    left out. *)
From Coq Require Import ZArith NArith List Lia Bool.
From Verif Require Import ANF_Syntax.
Import ListNotations.

(** theories/LambdaANF/eval.v:38-40 *)
Inductive res (A : Type) : Type :=
| OOT : res A
| Res : A -> res A.
Arguments OOT {A}.
Arguments Res {A}.

(** theories/LambdaANF/eval.v:47-131.  [find_tag_nth cl t e n]
    (cps_util.v:143-151) is the first branch with tag [t]; its position [n]
    does not matter, so [findtag] is used. There is no rule for [Eprim] and
    [Eprim_val]: such programs have no evaluation in the repository either. *)
Inductive bstep (cenv : ctor_env) : env -> exp -> nat -> res val -> Prop :=
| BStept_constr : forall x t ys e rho vs r c,
    get_list ys rho = Some vs ->
    bstep_fuel cenv (set x (Vconstr t vs) rho) e c r ->
    bstep cenv rho (Econstr x t ys e) c r
| BStept_proj : forall t vs rho x n y e v r c,
    get y rho = Some (Vconstr t vs) ->
    nthN vs n = Some v ->
    bstep_fuel cenv (set x v rho) e c r ->
    bstep cenv rho (Eproj x t n y e) c r
| BStept_case : forall y r e t cl vl rho c,
    get y rho = Some (Vconstr t vl) ->
    caseConsistent_f cenv cl t = true ->
    findtag cl t = Some e ->
    bstep_fuel cenv rho e c r ->
    bstep cenv rho (Ecase y cl) c r
| BStept_app : forall rho' fl f' vs xs e rho'' rho f t ys r c,
    get f rho = Some (Vfun rho' fl f') ->
    get_list ys rho = Some vs ->
    find_def f' fl = Some (t, xs, e) ->
    set_lists xs vs (def_funs fl fl rho' rho') = Some rho'' ->
    bstep_fuel cenv rho'' e c r ->
    bstep cenv rho (Eapp f t ys) c r
| BStept_letapp : forall rho' fl f' vs xs e_body e rho'' rho x f t ys v r c1 c2,
    get f rho = Some (Vfun rho' fl f') ->
    get_list ys rho = Some vs ->
    find_def f' fl = Some (t, xs, e_body) ->
    set_lists xs vs (def_funs fl fl rho' rho') = Some rho'' ->
    bstep_fuel cenv rho'' e_body c1 (Res v) ->
    bstep_fuel cenv (set x v rho) e c2 r ->
    bstep cenv rho (Eletapp x f t ys e) (c1 + c2) r
| BStept_letapp_oot : forall rho' fl f' vs xs e_body e rho'' rho x f t ys c,
    get f rho = Some (Vfun rho' fl f') ->
    get_list ys rho = Some vs ->
    find_def f' fl = Some (t, xs, e_body) ->
    set_lists xs vs (def_funs fl fl rho' rho') = Some rho'' ->
    bstep_fuel cenv rho'' e_body c OOT ->
    bstep cenv rho (Eletapp x f t ys e) c OOT
| BStept_fun : forall rho B e r c,
    bstep_fuel cenv (def_funs B B rho rho) e c r ->
    bstep cenv rho (Efun B e) c r
| BStept_halt : forall x v rho,
    get x rho = Some v ->
    bstep cenv rho (Ehalt x) 0 (Res v)
with bstep_fuel (cenv : ctor_env) : env -> exp -> nat -> res val -> Prop :=
| BStepf_OOT : forall rho e c,
    c < 1 ->
    bstep_fuel cenv rho e c OOT
| BStepf_run : forall rho e r c,
    bstep cenv rho e c r ->
    bstep_fuel cenv rho e (c + 1) r.

Scheme bstep_ind' := Minimality for bstep Sort Prop
  with bstep_fuel_ind' := Minimality for bstep_fuel Sort Prop.

Combined Scheme bstep_mutind from bstep_ind', bstep_fuel_ind'.

(** theories/LambdaANF/eval.v:136-138 *)
Definition not_stuck (cenv : ctor_env) (rho : env) (e : exp) : Prop :=
  (exists c v, bstep_fuel cenv rho e c (Res v)) \/
  (forall c, bstep_fuel cenv rho e c OOT).

(** theories/LambdaANF/eval.v:613-614 *)
Definition diverge (cenv : ctor_env) (rho : env) (e : exp) : Prop :=
  forall c, bstep_fuel cenv rho e c OOT.
