(* The environment semantics of the de Bruijn language,
   theories/LambdaBoxLocal/fuel_sem.v, from which the A-normalisation proofs
   start.  Only the rules with an ordinary answer are modelled: fuel, traces and
   the out-of-time answers are left out.

   The code has no rule for [Prf_e], [Prim_val_e] or the application of a
   proof.  These are added here behind the switch [full]; with [full = false]
   the relation is the one of the code. *)
From Coq Require Import List NArith String Bool.
From Verif Require Import LB_Model.
Import ListNotations.
Local Open Scope N_scope.

(* fuel_sem.v:10-14 value ([Prf_v] is commented out there; [Prim_v] is new). *)
Inductive value : Type :=
| Con_v : dcon -> list value -> value
| Clos_v : list value -> name -> lexp -> value
| ClosFix_v : list value -> efnlst -> N -> value
| Prf_v : value
| Prim_v : primitive_value -> value.

(* fuel_sem.v:36 env. *)
Definition venv := list value.

(* fuel_sem.v:63-72 make_rec_env_rev_order. *)
Definition make_rec_env (fnl : efnlst) (rho : venv) : venv :=
  map (fun n => ClosFix_v rho fnl (N.of_nat n)) (list_to_zero (efnlength fnl)) ++ rho.

(* fuel_sem.v:125-206 eval_env_step, eval_fuel_many, eval_env_fuel. *)
Inductive eval_env (full : bool) : venv -> lexp -> value -> Prop :=
| ee_Var : forall rho x v,
    nth_error rho (N.to_nat x) = Some v -> eval_env full rho (Var_e x) v
| ee_Lam : forall rho na e, eval_env full rho (Lam_e na e) (Clos_v rho na e)
| ee_Fix : forall rho fnl n, eval_env full rho (Fix_e fnl n) (ClosFix_v rho fnl n)
| ee_Con : forall rho dc es vs,
    eval_many full rho es vs -> eval_env full rho (Con_e dc es) (Con_v dc vs)
| ee_App : forall rho rho' e1 e2 na e1' v2 r,
    eval_env full rho e1 (Clos_v rho' na e1') ->
    eval_env full rho e2 v2 ->
    eval_env full (v2 :: rho') e1' r ->
    eval_env full rho (App_e e1 e2) r
| ee_Let : forall rho na e1 e2 v1 r,
    eval_env full rho e1 v1 ->
    eval_env full (v1 :: rho) e2 r ->
    eval_env full rho (Let_e na e1 e2) r
| ee_FixApp : forall rho rho' e1 e2 fnl n na e' v2 r,
    eval_env full rho e1 (ClosFix_v rho' fnl n) ->
    enthopt (N.to_nat n) fnl = Some (Lam_e na e') ->
    eval_env full rho e2 v2 ->
    eval_env full (v2 :: make_rec_env fnl rho') e' r ->
    eval_env full rho (App_e e1 e2) r
| ee_Match : forall rho e1 n bs dc vs e' r,
    eval_env full rho e1 (Con_v dc vs) ->
    find_branch dc (N.of_nat (List.length vs)) bs = Some e' ->
    eval_env full (rev vs ++ rho) e' r ->
    eval_env full rho (Match_e e1 n bs) r
| ee_Prf : forall rho, full = true -> eval_env full rho Prf_e Prf_v
| ee_Prim : forall rho p, full = true -> eval_env full rho (Prim_val_e p) (Prim_v p)
| ee_PrfApp : forall rho e1 e2 v2, full = true ->
    eval_env full rho e1 Prf_v -> eval_env full rho e2 v2 ->
    eval_env full rho (App_e e1 e2) Prf_v
with eval_many (full : bool) : venv -> exps -> list value -> Prop :=
| em_nil : forall rho, eval_many full rho enil []
| em_cons : forall rho e es v vs,
    eval_env full rho e v -> eval_many full rho es vs ->
    eval_many full rho (econs e es) (v :: vs).

Scheme eval_env_ind2 := Minimality for eval_env Sort Prop
with eval_many_ind2 := Minimality for eval_many Sort Prop.
Combined Scheme my_eval_env_ind from eval_env_ind2, eval_many_ind2.

(* fuel_sem.v:219-240 well_formed_val. *)
Fixpoint wf_val (v : value) : Prop :=
  match v with
  | Con_v _ vs =>
    (fix go (l : list value) : Prop :=
       match l with [] => True | v :: l => wf_val v /\ go l end) vs
  | Clos_v rho _ e =>
    (fix go (l : list value) : Prop :=
       match l with [] => True | v :: l => wf_val v /\ go l end) rho
    /\ exp_wf (1 + N.of_nat (List.length rho)) e
  | ClosFix_v rho fnl n =>
    (fix go (l : list value) : Prop :=
       match l with [] => True | v :: l => wf_val v /\ go l end) rho
    /\ n < efnlst_length fnl
    /\ efnlst_wf (efnlst_length fnl + N.of_nat (List.length rho)) fnl
  | Prf_v => True
  | Prim_v _ => True
  end.

(* Reading an environment value back as a closed term: the closure's variables
   are replaced by what they are bound to.  This is the statement's own notion,
   not part of the code. *)
Fixpoint exps_of (l : list lexp) : exps :=
  match l with [] => enil | e :: l => econs e (exps_of l) end.

(* Replace variables k, k+1, ... by the closed terms of the list. *)
Definition msub (vs : list lexp) (k : N) (e : lexp) : lexp :=
  fold_left (fun e v => sbst v k e) vs e.
Definition msubs (vs : list lexp) (k : N) (e : exps) : exps :=
  fold_left (fun e v => sbsts v k e) vs e.
Definition msub_fns (vs : list lexp) (k : N) (e : efnlst) : efnlst :=
  fold_left (fun e v => sbst_efnlst v k e) vs e.
Definition msub_brs (vs : list lexp) (k : N) (e : branches_e) : branches_e :=
  fold_left (fun e v => sbst_branches v k e) vs e.

Fixpoint readback (v : value) : lexp :=
  match v with
  | Con_v d vs => Con_e d (exps_of (map readback vs))
  | Clos_v rho na e => Lam_e na (msub (map readback rho) 1 e)
  | ClosFix_v rho fnl n =>
    Fix_e (msub_fns (map readback rho) (efnlst_length fnl) fnl) n
  | Prf_v => Prf_e
  | Prim_v p => Prim_val_e p
  end.

(* No proof and no primitive value anywhere. *)
Fixpoint plain (e : lexp) : Prop :=
  match e with
  | Var_e _ => True
  | Lam_e _ e => plain e
  | App_e e1 e2 => plain e1 /\ plain e2
  | Con_e _ es => plain_es es
  | Match_e e _ bs => plain e /\ plain_bs bs
  | Let_e _ e1 e2 => plain e1 /\ plain e2
  | Fix_e es _ => plain_fs es
  | Prf_e => False
  | Prim_val_e _ => False
  | Prim_e _ => False
  end
with plain_es (es : exps) : Prop :=
  match es with enil => True | econs e es => plain e /\ plain_es es end
with plain_fs (es : efnlst) : Prop :=
  match es with eflnil => True | eflcons _ e es => plain e /\ plain_fs es end
with plain_bs (bs : branches_e) : Prop :=
  match bs with brnil_e => True | brcons_e _ _ e bs => plain e /\ plain_bs bs end.
