(* Evaluation of the de Bruijn language: determinism, the fuel interpreter,
   closedness of results, values, the greatest free variable. *)
From Coq Require Import List NArith ZArith String Bool Lia.
From Verif Require Import LB_Model LB_Spec LB_Proofs.
Import ListNotations.
Local Open Scope N_scope.

Lemma eval_det :
  (forall e d, eval e d -> forall f, eval e f -> d = f) /\
  (forall es ds, evals es ds -> forall fs, evals es fs -> ds = fs).
Proof.
  apply my_eval_ind; intros;
  match goal with
  | H : eval ?x ?y |- ?z = ?y => inversion H; subst
  | H : evals ?x ?y |- ?z = ?y => inversion H; subst
  end; auto;
  repeat match goal with
  | IH : (forall f, eval ?e f -> _ = f), A : eval ?e _ |- _ =>
      apply IH in A; try discriminate A; try (injection A; intros; clear A; subst)
  | IH : (forall f, evals ?e f -> _ = f), A : evals ?e _ |- _ => apply IH in A; subst
  end; subst; auto; try congruence.
  - assert (e' = e'0) by congruence; subst. auto.
  - assert (e' = e'0) by congruence; subst. auto.
Qed.

Lemma eval_n_mono : forall n,
  (forall e v m, eval_n n e = Some v -> (n <= m)%nat -> eval_n m e = Some v) /\
  (forall es vs m, evals_n n es = Some vs -> (n <= m)%nat -> evals_n m es = Some vs).
Proof.
  induction n as [|n [IH1 IH2]]; split; intros e v m H L; try discriminate H.
  - destruct m as [|m]; [lia |]. assert (L' : (n <= m)%nat) by lia.
    cbn [eval_n] in *.
    destruct e; auto.
    + destruct (eval_n n e1) as [w|] eqn:E1; [| discriminate].
      rewrite (IH1 _ _ _ E1 L').
      destruct w; try discriminate.
      * destruct (eval_n n e2) as [w2|] eqn:E2; [| discriminate].
        rewrite (IH1 _ _ _ E2 L'). apply IH1; auto.
      * destruct (eval_n n e2) as [w2|] eqn:E2; [| discriminate].
        rewrite (IH1 _ _ _ E2 L').
        destruct (enthopt (N.to_nat n0) e); [| discriminate]. apply IH1; auto.
      * destruct (eval_n n e2) as [w2|] eqn:E2; [| discriminate].
        rewrite (IH1 _ _ _ E2 L'). auto.
    + destruct (evals_n n e) as [w|] eqn:E1; [| discriminate].
      rewrite (IH2 _ _ _ E1 L'). auto.
    + destruct (eval_n n e) as [w|] eqn:E1; [| discriminate].
      rewrite (IH1 _ _ _ E1 L').
      destruct w; try discriminate.
      destruct (find_branch d (exps_length e0) b); [| discriminate]. apply IH1; auto.
    + destruct (eval_n n e1) as [w|] eqn:E1; [| discriminate].
      rewrite (IH1 _ _ _ E1 L'). apply IH1; auto.
  - destruct m as [|m]; [lia |]. assert (L' : (n <= m)%nat) by lia.
    cbn [evals_n] in *. destruct e; auto.
    destruct (eval_n n l) as [w|] eqn:E1; [| discriminate].
    destruct (evals_n n e) as [w2|] eqn:E2; [| discriminate].
    rewrite (IH1 _ _ _ E1 L'), (IH2 _ _ _ E2 L'). auto.
Qed.

Lemma eval_n_sound : forall n,
  (forall e v, eval_n n e = Some v -> eval e v) /\
  (forall es vs, evals_n n es = Some vs -> evals es vs).
Proof.
  induction n as [|n [IH1 IH2]]; split; intros e v H; try discriminate H.
  - cbn [eval_n] in H.
    destruct e; try discriminate H;
      try (injection H; intros; subst; constructor; fail).
    + destruct (eval_n n e1) as [w|] eqn:E1; [| discriminate].
      destruct w; try discriminate.
      * destruct (eval_n n e2) as [w2|] eqn:E2; [| discriminate].
        eapply eval_App_e; eauto.
      * destruct (eval_n n e2) as [w2|] eqn:E2; [| discriminate].
        destruct (enthopt (N.to_nat n0) e) eqn:E3; [| discriminate].
        eapply eval_FixApp_e; eauto.
      * destruct (eval_n n e2) as [w2|] eqn:E2; [| discriminate].
        injection H; intros; subst. eapply eval_ProofApp_e; eauto.
    + destruct (evals_n n e) as [w|] eqn:E1; [| discriminate].
      injection H; intros; subst. constructor; auto.
    + destruct (eval_n n e) as [w|] eqn:E1; [| discriminate].
      destruct w; try discriminate.
      destruct (find_branch d (exps_length e0) b) eqn:E2; [| discriminate].
      eapply eval_Match_e; eauto.
    + destruct (eval_n n e1) as [w|] eqn:E1; [| discriminate].
      eapply eval_Let_e; eauto.
  - cbn [evals_n] in H. destruct e.
    + injection H; intros; subst; constructor.
    + destruct (eval_n n l) as [w|] eqn:E1; [| discriminate].
      destruct (evals_n n e) as [w2|] eqn:E2; [| discriminate].
      injection H; intros; subst. constructor; auto.
Qed.

Ltac lift_n N L :=
  first [rewrite (proj1 (eval_n_mono _) _ _ N L ltac:(lia))
        | rewrite (proj2 (eval_n_mono _) _ _ N L ltac:(lia))].

Lemma eval_n_complete :
  (forall e v, eval e v -> exists n, eval_n n e = Some v) /\
  (forall es vs, evals es vs -> exists n, evals_n n es = Some vs).
Proof.
  apply my_eval_ind; intros; try (exists 1%nat; reflexivity).
  - destruct H as [n1 HA], H0 as [n2 HB], H1 as [n3 HC]; rename HA into H1, HB into H2, HC into H3.
    exists (S (n1 + n2 + n3)). cbn [eval_n].
    rewrite (proj1 (eval_n_mono n1) _ _ (n1 + n2 + n3)%nat H1) by lia.
    rewrite (proj1 (eval_n_mono n2) _ _ (n1 + n2 + n3)%nat H2) by lia.
    apply (proj1 (eval_n_mono n3) _ _ _ H3). lia.
  - destruct H as [n H]. exists (S n). cbn [eval_n]. rewrite H. reflexivity.
  - destruct H as [n1 H1], H0 as [n2 H2].
    exists (S (n1 + n2)). cbn [eval_n].
    rewrite (proj1 (eval_n_mono n1) _ _ (n1 + n2)%nat H1) by lia.
    apply (proj1 (eval_n_mono n2) _ _ _ H2). lia.
  - destruct H as [n1 H1], H0 as [n2 H2].
    exists (S (n1 + n2)). cbn [eval_n].
    rewrite (proj1 (eval_n_mono n1) _ _ (n1 + n2)%nat H1) by lia.
    rewrite e1. apply (proj1 (eval_n_mono n2) _ _ _ H2). lia.
  - destruct H as [n1 HA], H0 as [n2 HB], H1 as [n3 HC]; rename HA into H1, HB into H2, HC into H3.
    exists (S (n1 + n2 + n3)). cbn [eval_n].
    rewrite (proj1 (eval_n_mono n1) _ _ (n1 + n2 + n3)%nat H1) by lia.
    rewrite (proj1 (eval_n_mono n2) _ _ (n1 + n2 + n3)%nat H2) by lia.
    rewrite e3. apply (proj1 (eval_n_mono n3) _ _ _ H3). lia.
  - destruct H as [n1 H1], H0 as [n2 H2].
    exists (S (n1 + n2)). cbn [eval_n].
    rewrite (proj1 (eval_n_mono n1) _ _ (n1 + n2)%nat H1) by lia.
    rewrite (proj1 (eval_n_mono n2) _ _ (n1 + n2)%nat H2) by lia.
    reflexivity.
  - destruct H as [n1 H1], H0 as [n2 H2].
    exists (S (n1 + n2)). cbn [evals_n].
    rewrite (proj1 (eval_n_mono n1) _ _ (n1 + n2)%nat H1) by lia.
    rewrite (proj2 (eval_n_mono n2) _ _ (n1 + n2)%nat H2) by lia.
    reflexivity.
Qed.

(* ---- evaluation of closed terms ---- *)

Lemma wf0_closed : forall e, exp_wf 0 e -> closed e.
Proof. intros e H x Hx. apply (wf_occurs _ _ H) in Hx. lia. Qed.

Lemma sbst_wf : forall i k e v,
  k <= i -> exp_wf (1 + i) e -> exp_wf 0 v -> exp_wf i (sbst v k e).
Proof.
  intros i k e v Hk He Hv.
  rewrite (proj1 (sbst_subst v (wf0_closed _ Hv))).
  apply subst_wf; auto. apply weaken_wf with 0; auto. lia.
Qed.

Lemma sbst_list_wf : forall vs, exps_wf 0 vs -> forall i e,
  exp_wf (exps_length vs + i) e -> exp_wf i (sbst_list e vs).
Proof.
  induction vs; cbn [exps_length sbst_list]; intros Hvs i e He; auto.
  inversion Hvs; subst. apply sbst_wf; auto; [lia |].
  apply IHvs; auto. replace (exps_length vs + (1 + i)) with (1 + exps_length vs + i) by lia. auto.
Qed.

Lemma sbst_fix_wf_gen : forall es, efnlst_wf (efnlst_length es) es ->
  forall m e, (m <= efnlength es)%nat -> exp_wf (N.of_nat m) e ->
  exp_wf 0 (fold_left (fun e ndx => sbst (Fix_e es (N.of_nat ndx)) 0 e) (list_to_zero m) e).
Proof.
  intros es Hes. induction m; intros e Hm He; cbn [list_to_zero fold_left]; auto.
  apply IHm; [lia |].
  apply sbst_wf; [lia | |].
  - replace (1 + N.of_nat m) with (N.of_nat (S m)) by lia. auto.
  - constructor; [rewrite <- len_nat; lia |].
    replace (efnlst_length es + 0) with (efnlst_length es) by lia. auto.
Qed.

Lemma sbst_fix_wf : forall es e, efnlst_wf (efnlst_length es) es ->
  exp_wf (efnlst_length es) e -> exp_wf 0 (sbst_fix es e).
Proof.
  intros es e H1 H2. unfold sbst_fix. apply sbst_fix_wf_gen; auto.
  rewrite len_nat. auto.
Qed.

Lemma enthopt_wf : forall es i n e, efnlst_wf i es -> enthopt n es = Some e ->
  exp_wf i e /\ isLambda e.
Proof.
  induction es; intros i m e H E.
  - destruct m; discriminate.
  - inversion H; subst. destruct m; cbn [enthopt] in E.
    + injection E; intros; subst; auto.
    + eapply IHes; eauto.
Qed.

Lemma find_branch_wf : forall bs i d m e, branches_wf i bs ->
  find_branch d m bs = Some e -> exp_wf (m + i) e.
Proof.
  induction bs; intros i d' m e H E; cbn [find_branch] in E; [discriminate |].
  inversion H; subst.
  destruct (dcon_eqb d' d).
  - destruct (N.eqb_spec (nargs p) m); [| discriminate].
    injection E; intros; subst; auto.
  - eapply IHbs; eauto.
Qed.

Lemma eval_wf :
  (forall e v, eval e v -> exp_wf 0 e -> exp_wf 0 v) /\
  (forall es vs, evals es vs -> exps_wf 0 es -> exps_wf 0 vs).
Proof.
  apply my_eval_ind; intros; auto;
    match goal with
    | W : exp_wf 0 (_ _) |- _ => inversion W; subst
    | W : exp_wf 0 (_ _ _) |- _ => inversion W; subst
    | W : exp_wf 0 (_ _ _ _) |- _ => inversion W; subst
    | W : exps_wf 0 (_ _ _) |- _ => inversion W; subst
    end.
  - assert (A : exp_wf 0 (Lam_e na e1')) by auto. inversion A; subst.
    apply H1. apply sbst_wf; auto. lia.
  - constructor; auto.
  - apply H0. apply sbst_wf; auto. lia.
  - assert (A : exp_wf 0 (Con_e d vs)) by auto. inversion A; subst.
    apply H0. apply sbst_list_wf; auto. eapply find_branch_wf; eauto.
  - assert (A : exp_wf 0 (Fix_e es n)) by auto. inversion A; subst.
    replace (efnlst_length es + 0) with (efnlst_length es) in * by lia.
    apply H1. constructor; auto. apply sbst_fix_wf; auto.
    eapply enthopt_wf; eauto.
  - constructor.
  - constructor; auto.
Qed.

Lemma eval_value :
  (forall e v, eval e v -> is_value v) /\ (forall es vs, evals es vs -> are_values vs).
Proof. apply my_eval_ind; intros; auto; constructor; auto. Qed.

Lemma value_eval :
  (forall v, is_value v -> exp_wf 0 v -> eval v v) /\
  (forall vs, are_values vs -> exps_wf 0 vs -> evals vs vs).
Proof.
  apply my_is_value_ind; intros; try (constructor; fail).
  - inversion H; subst. lia.
  - inversion H0; subst. constructor; auto.
  - inversion H1; subst. constructor; auto.
Qed.

Lemma is_valueb_spec :
  (forall e, is_valueb e = true <-> is_value e) /\
  (forall es, are_valuesb es = true <-> are_values es) /\
  (forall es : efnlst, True) /\ (forall bs : branches_e, True).
Proof.
  apply my_exp_ind; intros; auto; cbn [is_valueb are_valuesb]; split; intros Q;
    try discriminate; try (inversion Q; fail); try (constructor; fail).
  - constructor; apply H; auto.
  - inversion Q; subst; apply H; auto.
  - destruct (is_valueb l) eqn:E; [| discriminate]. constructor; [apply H | apply H0]; auto.
  - inversion Q; subst. rewrite (proj2 H H3). apply H0; auto.
Qed.

(* ---- the greatest free variable ---- *)

Lemma maxFree_spec :
  (forall e n, (maxFree e < Z.of_N n)%Z <-> (forall x, occurs x e -> x < n)) /\
  (forall e n, (maxFreeC e < Z.of_N n)%Z <-> (forall x, occurs_es x e -> x < n)) /\
  (forall e n, (maxFreeF e < Z.of_N n)%Z <-> (forall x, occurs_fs x e -> x < n)) /\
  (forall e n, (maxFreeB e < Z.of_N n)%Z <-> (forall x, occurs_bs x e -> x < n)).
Proof.
  assert (UP : forall (o : N -> Prop) (m k : N),
    (forall x, o x -> x < m + k) <-> (forall x, o (x + k) -> x < m)).
  { intros o m k; split; intros H x Hx.
    - apply H in Hx; lia.
    - destruct (N.ltb_spec x k); [lia |].
      replace x with (x - k + k) in Hx by lia. apply H in Hx. lia. }
  assert (OR : forall (o1 o2 : N -> Prop) (m : N),
    (forall x, o1 x \/ o2 x -> x < m) <-> (forall x, o1 x -> x < m) /\ (forall x, o2 x -> x < m)).
  { intros; split; [intros H; split; auto | intros [A B] x [C|C]; auto]. }
  apply my_exp_ind; intros;
    cbn [maxFree maxFreeC maxFreeF maxFreeB occurs occurs_es occurs_fs occurs_bs];
    try (split; [intros _ x [] | intros _; lia]);
    rewrite ?OR, ?Z.max_lub_lt_iff.
  - split; [intros; subst; lia | intros H; specialize (H n eq_refl); lia].
  - rewrite <- (UP (fun y => occurs y l)), <- H. lia.
  - rewrite H, H0. tauto.
  - apply H.
  - rewrite H, H0. tauto.
  - rewrite H, <- (UP (fun y => occurs y l0)), <- H0. intuition lia.
  - rewrite <- (UP (fun y => occurs_fs y e)), <- H. lia.
  - rewrite H, H0. tauto.
  - rewrite H, H0. tauto.
  - rewrite H0, <- (UP (fun y => occurs y l)), <- H. unfold nargs. intuition lia.
Qed.
