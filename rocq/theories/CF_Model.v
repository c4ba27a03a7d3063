(** Closed functions in values, and what is assumed of primitive operations.
    Source: /repo/theories/LambdaANF/logical_relations_cc.v:1045-1047, 1774-1810,
    /repo/theories/LambdaANF/identifiers.v:1074-1242, and the four axioms on primitive operations.

    Simplified: sets of variables are predicates; [occurs_free_fundefs] is [free_funs] of ANF_Spec.v. *)
From Coq Require Import ZArith NArith List Bool.
From Verif Require Import ANF_Syntax ANF_Spec SV_Model SZ_Model.
Import ListNotations.

(** identifiers.v:1102-1147 *)
Inductive funs_in_exp : fundefs -> exp -> Prop :=
| In_Econstr : forall fs e x t ys, funs_in_exp fs e -> funs_in_exp fs (Econstr x t ys e)
| In_Case : forall fs x c e P, funs_in_exp fs e -> In (c, e) P -> funs_in_exp fs (Ecase x P)
| In_Eproj : forall fs e x tau n ys, funs_in_exp fs e -> funs_in_exp fs (Eproj x tau n ys e)
| In_Eletapp : forall fs e x f ft ys, funs_in_exp fs e -> funs_in_exp fs (Eletapp x f ft ys e)
| In_Fun1 : forall fs e, funs_in_exp fs (Efun fs e)
| In_Fun2 : forall fs fs' e, funs_in_exp fs e -> funs_in_exp fs (Efun fs' e)
| In_Fun3 : forall fs fs' e, funs_in_fundef fs fs' -> funs_in_exp fs (Efun fs' e)
| In_Eprim_val : forall fs e x p, funs_in_exp fs e -> funs_in_exp fs (Eprim_val x p e)
| In_Eprim : forall fs e x p ys, funs_in_exp fs e -> funs_in_exp fs (Eprim x p ys e)
with funs_in_fundef : fundefs -> fundefs -> Prop :=
| In_Fcons1 : forall fs fs' x tau ys e, funs_in_exp fs e -> funs_in_fundef fs (Fcons x tau ys e fs')
| In_Fcons2 : forall fs fs' x tau ys e, funs_in_fundef fs fs' -> funs_in_fundef fs (Fcons x tau ys e fs').

(** identifiers.v:1074-1075 *)
Definition closed_fundefs (B : fundefs) : Prop := forall x, ~ free_funs x B.

(** identifiers.v:1237-1238 *)
Definition closed_fundefs_in_exp (e : exp) : Prop := forall B, funs_in_exp B e -> closed_fundefs B.

(** identifiers.v:1241-1242 *)
Definition closed_fundefs_in_fundefs (B : fundefs) : Prop := forall B', funs_in_fundef B' B -> closed_fundefs B'.

(** logical_relations_cc.v:1774-1788 *)
Inductive closed_fundefs_in_val : val -> Prop :=
| Vconstr_closed : forall t vs, Forall closed_fundefs_in_val vs -> closed_fundefs_in_val (Vconstr t vs)
| Vfun_closed : forall rho B f,
    closed_fundefs B -> closed_fundefs_in_fundefs B -> closed_fundefs_in_val (Vfun rho B f)
| Vint_closed : forall z, closed_fundefs_in_val (Vint z)
| Vprim_closed : forall p, closed_fundefs_in_val (Vprim p).

(** logical_relations_cc.v:1046-1047 *)
Definition lift_P_env (S : var -> Prop) (P : val -> Prop) (rho : env) : Prop :=
  forall x v, S x -> get x rho = Some v -> P v.

(** logical_relations_cc.v:1790-1791 *)
Definition closed_fundefs_in_env (S : var -> Prop) (rho : env) : Prop := lift_P_env S closed_fundefs_in_val rho.

(** logical_relations_cc.v:1805-1810, the axiom as a property of a table of primitive operations *)
Definition prims_closed_fundefs (pr : prims) : Prop :=
  forall (f : prim) (f' : list val -> option val) vs v,
    get f pr = Some f' -> Forall closed_fundefs_in_val vs -> f' vs = Some v -> closed_fundefs_in_val v.

(** closure_conversion_correct.v:618-622 *)
Definition primAxiom (pr : prims) : Prop :=
  forall (f : prim) (f' : list val -> option val) vs v k,
    get f pr = Some f' -> f' vs = Some v -> sizeOf_val k v = 0.

(** logical_relations.v:1076-1084 and logical_relations_cc.v:998-1006, for the relation [R] on values of
    a given index ([preord_val PG k] in the first, [cc_approx_val k S] in the second) *)
Definition Prim_axiom (R : val -> val -> Prop) (pr : prims) : Prop :=
  forall (f : prim) (f' : list val -> option val) v1,
    get f pr = Some f' ->
    forall vs1 vs2, Forall2 R vs1 vs2 -> f' vs1 = Some v1 ->
      exists v2, f' vs2 = Some v2 /\ R v1 v2.
