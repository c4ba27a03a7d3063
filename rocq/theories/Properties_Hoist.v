(** * Properties of hoisting (C26, C27) *)
From Coq Require Import ZArith NArith List Lia Bool Permutation.
From Verif Require Import ANF_Syntax ANF_Eval ANF_Spec ANF_Scope ANF_EvalProofs
  ANF_FreeProofs Hoist_Model Hoist_Spec Hoist_Proofs Properties_ANF.
Import ListNotations.

(** ** C26: one flat bundle, every function exactly once, the reported number
    is the nesting depth *)
Theorem C26_hoist_flat : forall e e' n, exp_hoist e = (e', n) ->
  n = depth e /\ nofun (strip e) /\
  exists B,
    e' = (match defs_of e with [] => strip e | _ => Efun B (strip e) end) /\
    Permutation (flist B) (List.map strip_def (defs_of e)) /\
    (forall f t xs b, In (f, t, xs, b) (flist B) -> nofun b).
Proof.
  intros e e' n H. rewrite exp_hoist_direct in H. injection H as <- <-.
  split; [reflexivity|]. split; [apply strip_nofun|].
  exists (hoisted e).
  assert (P : Permutation (flist (hoisted e)) (List.map strip_def (defs_of e))).
  { unfold hoisted. rewrite (proj1 flist_hf e Fnil). cbn. rewrite app_nil_r. reflexivity. }
  split; [|split; [exact P|]].
  - destruct (hoisted e), (defs_of e); cbn in P; try reflexivity.
    + symmetry in P. apply Permutation_nil in P. discriminate.
    + apply Permutation_nil in P. discriminate.
  - intros f t xs b I. apply (Permutation_in _ P) in I.
    apply in_map_iff in I as ([[[g t'] ys] b'] & E & _). injection E as <- <- <- <-.
    apply strip_nofun.
Qed.
Print Assumptions C26_hoist_flat.

(** two levels of nested functions, one in a branch *)
Local Open Scope positive_scope.
Definition ex_nested : exp :=
  Efun (Fcons 10 7 [11]
         (Efun (Fcons 12 7 [13] (Ehalt 13) Fnil) (Eapp 12 7 [11])) Fnil)
    (Econstr 20 2 []
      (Ecase 20 [(2, Eapp 10 7 [20]);
                 (3, Efun (Fcons 14 7 [15] (Eapp 10 7 [15]) Fnil) (Eapp 14 7 [20]))])).

Example C26_example :
  exp_hoist ex_nested =
  (Efun (Fcons 10 7 [11] (Eapp 12 7 [11])
          (Fcons 12 7 [13] (Ehalt 13)
            (Fcons 14 7 [15] (Eapp 10 7 [15]) Fnil)))
     (Econstr 20 2 [] (Ecase 20 [(2, Eapp 10 7 [20]); (3, Eapp 14 7 [20])])), 2%nat).
Proof. vm_compute. reflexivity. Qed.

(** ** C27: hoisting preserves evaluation *)
(** [B] is the bundle the pass emits ([Fnil] when there is none). *)
Definition bundle_of (e' : exp) : fundefs := match e' with Efun B _ => B | _ => Fnil end.

Lemma strip_bundle e : bundle_of (strip e) = Fnil.
Proof.
  pose proof (strip_nofun e). destruct (strip e); try reflexivity. destruct H.
Qed.

Lemma hoisted_bundle e : hoisted e = bundle_of (fst (exp_hoist e)).
Proof.
  rewrite exp_hoist_direct. cbn [fst].
  destruct (hoisted e) eqn:E; [reflexivity|]. symmetry. apply strip_bundle.
Qed.

Lemma hoist_all cenv e rho c r : hoistable e ->
  bstep_fuel cenv rho e c r ->
  exists c' r', bstep_fuel cenv rho (fst (exp_hoist e)) c' r' /\
    (r <> OOT -> (c' <= S c)%nat) /\ (c <= S (depth e) * c' + depth e)%nat /\
    hres e rho r r'.
Proof.
  intros H B. rewrite exp_hoist_direct. cbn [fst].
  destruct (hoist_top cenv e rho H c r B) as (c' & r' & B' & R & L & BD).
  pose proof (efdh_depth e) as D.
  destruct (hoisted e) eqn:E.
  - exists (S c'), r'. split; [exact B'|]. split; [lia|]. split; [|exact R].
    unfold bound in BD. rewrite Nat.mul_succ_r. destruct r; lia.
  - exists c', r'. split; [|split; [lia|split; [|exact R]]].
    + apply bstep_fuel_inv in B' as [[? _]|(k & EK & B')]; [discriminate|].
      injection EK as <-. inversion B'; subst. assumption.
    + unfold bound in BD. destruct r; lia.
Qed.

Theorem C27_hoist_preserves : forall cenv rho e e' n,
  hoistable e -> exp_hoist e = (e', n) ->
  (* results *)
  (forall c v, bstep_fuel cenv rho e c (Res v) ->
     exists c' v', bstep_fuel cenv rho e' c' (Res v') /\
       (c' <= S c)%nat /\ (c <= S n * c' + n)%nat /\
       hval e (bundle_of e') rho v v' /\ (data v -> v' = v)) /\
  (* divergence *)
  (diverge cenv rho e -> diverge cenv rho e') /\
  (* and back, when the source does not get stuck *)
  (not_stuck cenv rho e ->
     (forall c' v', bstep_fuel cenv rho e' c' (Res v') ->
        exists c v, bstep_fuel cenv rho e c (Res v) /\ hval e (bundle_of e') rho v v') /\
     (diverge cenv rho e' -> diverge cenv rho e)).
Proof.
  intros cenv rho e e' n H E.
  assert (E' : e' = fst (exp_hoist e)) by (rewrite E; reflexivity).
  assert (En : n = depth e) by (rewrite exp_hoist_direct in E; congruence).
  assert (R1 : forall c v, bstep_fuel cenv rho e c (Res v) ->
     exists c' v', bstep_fuel cenv rho e' c' (Res v') /\
       (c' <= S c)%nat /\ (c <= S n * c' + n)%nat /\
       hval e (bundle_of e') rho v v' /\ (data v -> v' = v)).
  { intros c v B. destruct (hoist_all cenv e rho c _ H B) as (c' & [|v'] & B' & L & L2 & R);
      [destruct R|].
    exists c', v'. rewrite E', <- (hoisted_bundle e), En.
    split; [exact B'|]. split; [apply L; discriminate|]. split; [exact L2|].
    split; [exact R|]. intro D. symmetry. eapply hval_data; eauto. }
  assert (R2 : diverge cenv rho e -> diverge cenv rho e').
  { intros D c'. specialize (D (S (depth e) * S c' + depth e)%nat).
    destruct (hoist_all cenv e rho _ _ H D) as (c2 & [|v'] & B' & L & L2 & R); [|destruct R].
    rewrite <- E' in B'. destruct (Nat.lt_ge_cases c' c2) as [Lt|Ge].
    - eapply bstep_fuel_oot_less; [exact B'|]. lia.
    - exfalso. nia. }
  split; [exact R1|]. split; [exact R2|]. intros [(c & v & B)|D].
  - destruct (R1 c v B) as (c2 & v2 & B2 & _ & _ & V & _). split.
    + intros c' v' B'. destruct (bstep_fuel_det _ _ _ _ _ _ _ B' B2) as [-> ->]. eauto.
    + intros D. exfalso. specialize (D c2).
      pose proof (bstep_fuel_oot_lt _ _ _ _ _ _ D B2). lia.
  - split; [|auto]. intros c' v' B'. exfalso. specialize (R2 D c').
    pose proof (bstep_fuel_oot_lt _ _ _ _ _ _ R2 B'). lia.
Qed.
Print Assumptions C27_hoist_preserves.

(** the precondition is decidable on examples and met by a program with nested
    functions that call each other across levels *)
Example C27_example :
  hoistable ex_nested /\
  bstep_fuel ex_cenv [] ex_nested 7 (Res (Vconstr 2 [])) /\
  bstep_fuel ex_cenv [] (fst (exp_hoist ex_nested)) 6 (Res (Vconstr 2 [])).
Proof.
  split; [|split].
  - split; [|split].
    + cbn. repeat constructor; cbn; intuition discriminate.
    + intros x F. exfalso. apply exp_fv_spec in F. vm_compute in F. exact F.
    + intros B x I F. cbn in I.
      decompose [or] I; subst; try tauto; apply fundefs_fv_spec in F; vm_compute in F;
        cbn; tauto.
  - apply interp_iff. exists 20%nat. vm_compute. reflexivity.
  - apply interp_iff. exists 20%nat. vm_compute. reflexivity.
Qed.

(** a free variable bound to a function from outside also works *)
Example C27_example_out :
  hoistable (Eapp 30 7 [31]) /\
  exists v, bstep_fuel ex_cenv [(30, Vfun [] ex_swap 10); (31, Vconstr 1 [Vint 1; Vint 2])]
    (fst (exp_hoist (Eapp 30 7 [31]))) 5 (Res v).
Proof.
  split.
  - split; [constructor|]. split; cbn; intros; auto.
  - eexists. apply interp_iff. exists 20%nat. vm_compute. reflexivity.
Qed.
