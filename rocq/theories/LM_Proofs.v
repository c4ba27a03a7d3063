(* The evaluator of the erased language against its big-step relation. *)
From Coq Require Import List Arith NArith String Bool Lia.
From Verif Require Import LB_Model LB_Proofs LM_Model.
Import ListNotations.
Local Open Scope nat_scope.

(* The five forms of answers. *)
Inductive answer : Term -> Prop :=
| a_lam : forall nm b, answer (TLambda nm b)
| a_fix : forall d m, answer (TFix d m)
| a_proof : answer TProof
| a_prim : forall v, answer (TPrim v)
| a_con : forall i n args, answers args -> answer (TConstruct i n args)
with answers : Terms -> Prop :=
| as_nil : answers tnil
| as_cons : forall t ts, answer t -> answers ts -> answers (tcons t ts).

Scheme answer_ind2 := Minimality for answer Sort Prop
  with answers_ind2 := Minimality for answers Sort Prop.
Combined Scheme my_answer_ind from answer_ind2, answers_ind2.

Lemma eval_answer : forall p,
  (forall t s, WcbvEval p t s -> answer s) /\
  (forall ts ss, WcbvEvals p ts ss -> answers ss).
Proof.
  intros p. apply WcbvEvalEvals_ind; intros; try assumption; try (constructor; assumption; fail);
    try (constructor; fail).
  - inversion H0; subst; contradiction.
Qed.

Lemma answer_eval : forall p,
  (forall t, answer t -> WcbvEval p t t) /\ (forall ts, answers ts -> WcbvEvals p ts ts).
Proof. intros p. apply my_answer_ind; intros; constructor; auto. Qed.

Lemma weval_det : forall p,
  (forall t s, WcbvEval p t s -> forall r, WcbvEval p t r -> s = r) /\
  (forall ts ss, WcbvEvals p ts ss -> forall rs, WcbvEvals p ts rs -> ss = rs).
Proof.
  intros p. apply WcbvEvalEvals_ind; intros;
  match goal with
  | H : WcbvEval _ ?x ?y |- ?z = ?y => inversion H; subst
  | H : WcbvEvals _ ?x ?y |- ?z = ?y => inversion H; subst
  end; auto;
  repeat match goal with
  | IH : (forall r, WcbvEval _ ?e r -> _ = r), A : WcbvEval _ ?e _ |- _ =>
      apply IH in A; try discriminate A; try (injection A; intros; clear A); subst
  | IH : (forall r, WcbvEvals _ ?e r -> _ = r), A : WcbvEvals _ ?e _ |- _ =>
      apply IH in A; subst
  | A : lookupDfn ?x ?p = Some ?a, B : lookupDfn ?x ?p = Some ?b |- _ =>
      assert (a = b) by congruence; clear A; subst
  | A : whFixStep ?x ?p = Some ?a, B : whFixStep ?x ?p = Some ?b |- _ =>
      assert (a = b) by congruence; clear A; subst
  | A : whCaseStep ?x ?y ?p = Some ?a, B : whCaseStep ?x ?y ?p = Some ?b |- _ =>
      assert (a = b) by congruence; clear A; subst
  | A : stuck_head _ |- _ => contradiction A
  end; auto; try contradiction; congruence.
Qed.

Lemma wcbv_sound : forall p n,
  (forall t s, wcbvEval p n t = Some s -> WcbvEval p t s) /\
  (forall ts ss, wcbvEvals p n ts = Some ss -> WcbvEvals p ts ss).
Proof.
  intros p. induction n as [|n [IH1 IH2]]; split; intros t s H; try discriminate H.
  - destruct t; cbn [wcbvEval] in H; try discriminate H;
      try (injection H; intros; subst; constructor; fail).
    + destruct (wcbvEval p n t1) eqn:E; [| discriminate]. apply IH1 in E.
      econstructor; eauto.
    + destruct (wcbvEval p n t1) eqn:E; [| discriminate]. apply IH1 in E.
      destruct t; try discriminate H.
      5: { destruct (wcbvEval p n t2) eqn:E2; [| discriminate]. apply IH1 in E2.
           injection H; intros; subst. eapply wAppCong; eauto. exact I. }
      all: try (destruct (wcbvEval p n t2) eqn:E2; [| discriminate]; apply IH1 in E2;
                injection H; intros; subst; first [eapply wAppProof; eauto; fail
                  | eapply wAppCong; eauto; exact I]).
      * destruct (wcbvEval p n t2) eqn:E2; [| discriminate]. apply IH1 in E2.
        eapply wAppLam; eauto.
      * destruct (whFixStep d n0) eqn:F; [| discriminate].
        destruct (wcbvEval p n t2) eqn:E2; [| discriminate]. apply IH1 in E2.
        eapply wAppFix; eauto.
    + destruct (lookup k p) as [[d|]|] eqn:L; try discriminate.
      eapply wConst; [unfold lookupDfn; rewrite L; reflexivity | auto].
    + destruct (wcbvEvals p n t) eqn:E; [| discriminate]. apply IH2 in E.
      injection H; intros; subst. constructor; auto.
    + destruct (wcbvEval p n t) as [[]|] eqn:E; try discriminate. apply IH1 in E.
      destruct (whCaseStep n0 t0 b) eqn:C; [| discriminate].
      destruct (ind_eqb i i0) eqn:I; [| discriminate]. apply ind_eqb_eq in I; subst.
      eapply wCase; eauto.
  - cbn [wcbvEvals] in H. destruct t.
    + injection H; intros; subst. constructor.
    + destruct (wcbvEval p n t) eqn:E1; [| discriminate].
      destruct (wcbvEvals p n t0) eqn:E2; [| discriminate].
      injection H; intros; subst. constructor; auto.
Qed.

Lemma ind_eqb_refl : forall i, ind_eqb i i = true.
Proof. intros; apply ind_eqb_eq; reflexivity. Qed.

Ltac bigger := let m := fresh "q" in let Hm := fresh "Hq" in intros m Hm; destruct m as [|m]; [lia |]; cbn [wcbvEval wcbvEvals].
Ltac feed := repeat match goal with
  | H : forall m, ?n <= m -> wcbvEval _ m _ = Some _ |- context [wcbvEval _ ?m _] =>
      rewrite (H m) by lia
  | H : forall m, ?n <= m -> wcbvEvals _ m _ = Some _ |- context [wcbvEvals _ ?m _] =>
      rewrite (H m) by lia
  end.

Lemma wcbv_complete : forall p,
  (forall t s, WcbvEval p t s -> exists n, forall m, n <= m -> wcbvEval p m t = Some s) /\
  (forall ts ss, WcbvEvals p ts ss -> exists n, forall m, n <= m -> wcbvEvals p m ts = Some ss).
Proof.
  intros p. apply WcbvEvalEvals_ind; intros;
    try (exists 1; bigger; reflexivity).
  - destruct H0 as [a A], H2 as [b B]. exists (S (a + b)). bigger. feed. reflexivity.
  - destruct H0 as [a A]. exists (S a). bigger. feed. reflexivity.
  - destruct H1 as [a A]. exists (S a). bigger.
    unfold lookupDfn in H. destruct (lookup nm p) as [[]|]; try discriminate.
    injection H; intros; subst. feed. reflexivity.
  - destruct H0 as [a A], H2 as [b B], H4 as [c C]. exists (S (a + b + c)). bigger. feed. reflexivity.
  - destruct H0 as [a A], H2 as [b B]. exists (S (a + b)). bigger. feed. reflexivity.
  - destruct H0 as [a A], H3 as [b B], H5 as [c C]. exists (S (a + b + c)). bigger.
    rewrite (A q) by lia. rewrite H1. rewrite (B q) by lia. apply C; lia.
  - destruct H0 as [a A], H3 as [b B]. exists (S (a + b)). bigger. feed.
    destruct fn'; try contradiction; reflexivity.
  - destruct H0 as [a A], H3 as [c C]. exists (S (a + c)). bigger.
    rewrite (A q) by lia. rewrite H1, ind_eqb_refl. apply C; lia.
  - destruct H0 as [a A], H2 as [b B]. exists (S (a + b)). bigger. feed. reflexivity.
Qed.

Lemma wcbv_mono : forall p n m t s, n <= m -> wcbvEval p n t = Some s -> wcbvEval p m t = Some s.
Proof.
  assert (A : forall p n,
    (forall t s, wcbvEval p n t = Some s -> wcbvEval p (S n) t = Some s) /\
    (forall t s, wcbvEvals p n t = Some s -> wcbvEvals p (S n) t = Some s)).
  { intros p. induction n as [|n [IH1 IH2]]; split; intros t s H; try discriminate H.
    - destruct t; cbn [wcbvEval] in H; try exact H;
      change (wcbvEval p (S (S n)) ?x) with (wcbvEval p (S (S n)) x).
      + destruct (wcbvEval p n t1) eqn:E; [| discriminate].
        remember (S n) as n'; cbn [wcbvEval]; subst n'. rewrite (IH1 _ _ E). auto.
      + destruct (wcbvEval p n t1) eqn:E; [| discriminate].
        remember (S n) as n'; cbn [wcbvEval]; subst n'. rewrite (IH1 _ _ E).
        destruct t; try discriminate H;
        try (destruct (whFixStep d n0); [| discriminate]);
        (destruct (wcbvEval p n t2) eqn:E2; [| discriminate]); rewrite (IH1 _ _ E2); auto.
      + remember (S n) as n'; cbn [wcbvEval]; subst n'.
        destruct (lookup k p) as [[]|]; try discriminate. auto.
      + destruct (wcbvEvals p n t) eqn:E; [| discriminate].
        remember (S n) as n'; cbn [wcbvEval]; subst n'. rewrite (IH2 _ _ E). auto.
      + destruct (wcbvEval p n t) as [[]|] eqn:E; try discriminate.
        remember (S n) as n'; cbn [wcbvEval]; subst n'. rewrite (IH1 _ _ E).
        destruct (whCaseStep n0 t0 b); [| discriminate].
        destruct (ind_eqb i i0); [| discriminate]. auto.
    - cbn [wcbvEvals] in H. remember (S n) as n'; cbn [wcbvEvals]; subst n'. destruct t; auto.
      destruct (wcbvEval p n t) eqn:E1; [| discriminate].
      destruct (wcbvEvals p n t0) eqn:E2; [| discriminate].
      rewrite (IH1 _ _ E1), (IH2 _ _ E2). auto. }
  intros p n m t s L. induction L; auto. intros H. apply (proj1 (A p _)). auto.
Qed.

(* ---- closedness ---- *)

Lemma crct_up : forall p,
  (forall t n m, crct p n t -> n <= m -> crct p m t) /\
  (forall ts n m, crcts p n ts -> n <= m -> crcts p m ts) /\
  (forall bs n m, crctBs p n bs -> n <= m -> crctBs p m bs) /\
  (forall ds n m, crctDs p n ds -> n <= m -> crctDs p m ds).
Proof.
  intros p. apply TrmTrmsBrsDefs_ind; intros; cbn [crct crcts crctBs crctDs] in *; auto;
    repeat match goal with H : _ /\ _ |- _ => destruct H end; repeat split; eauto;
    try (match goal with IH : forall n m, crct _ n ?t -> _ |- crct _ _ ?t =>
           eapply IH; [eassumption | lia] end);
    try (match goal with IH : forall n m, crctDs _ n ?t -> _ |- crctDs _ _ ?t =>
           eapply IH; [eassumption | lia] end); try lia.
  destruct t; try contradiction. eauto.
Qed.

Lemma dlength_inst : forall ds a n, dlength (instantiateDefs a n ds) = dlength ds.
Proof. induction ds; intros; cbn [instantiateDefs dlength]; auto. Qed.

Lemma inst_crct : forall p a, crct p 0 a ->
  (forall t n, crct p (S n) t -> forall k, k <= n -> crct p n (instantiate a k t)) /\
  (forall t n, crcts p (S n) t -> forall k, k <= n -> crcts p n (instantiates a k t)) /\
  (forall t n, crctBs p (S n) t -> forall k, k <= n -> crctBs p n (instantiateBrs a k t)) /\
  (forall t n, crctDs p (S n) t -> forall k, k <= n -> crctDs p n (instantiateDefs a k t)).
Proof.
  intros p a Ha. apply TrmTrmsBrsDefs_ind; intros;
    cbn [crct crcts crctBs crctDs instantiate instantiates instantiateBrs instantiateDefs] in *; auto;
    repeat match goal with H : _ /\ _ |- _ => destruct H end; repeat split; eauto.
  - destruct (Nat.compare_spec k n).
    + eapply (proj1 (crct_up p)); eauto; lia.
    + cbn [crct]. lia.
    + cbn [crct]. lia.
  - apply H; auto; lia.
  - apply H0; auto; lia.
  - rewrite dlength_inst; auto.
  - rewrite dlength_inst. apply H; auto. lia.
  - apply H; [| lia]. replace (S (List.length l + n)) with (List.length l + S n) by lia. auto.
  - destruct t; try contradiction. match goal with IH : forall n, crct _ (S n) _ -> _, A : _ <= ?n |- _ => refine (IH n _ _ A) end; assumption.
Qed.

Lemma instl_crct : forall p ts n t, crcts p 0 ts -> crct p (tlength ts + n) t ->
  crct p n (instantiatel ts n t).
Proof.
  intros p; induction ts; intros n u H C; cbn [instantiatel tlength] in *; auto.
  destruct H as [A B]. apply IHts; auto. apply (inst_crct p t A); auto; try lia.
Qed.

Lemma bnth_crct : forall p bs n k ns t, crctBs p n bs -> bnth k bs = Some (ns, t) ->
  crct p (List.length ns + n) t.
Proof.
  induction bs; intros n0 k ns u H E; cbn [bnth] in E; [discriminate |].
  destruct H. destruct k; [injection E; intros; subst; auto | eauto].
Qed.

Lemma dnth_crct : forall p ds n k t, crctDs p n ds -> dnthBody k ds = Some t -> crct p n t.
Proof.
  induction ds; intros n' k u H E; cbn [dnthBody] in E; [discriminate |].
  destruct H as [A B]. destruct k; [injection E; intros; subst | eauto].
  destruct u; try contradiction. auto.
Qed.

Lemma fold_fix_crct : forall p dts, crctDs p (dlength dts) dts ->
  forall m t, m <= dlength dts -> crct p m t ->
  crct p 0 (fold_left (fun bod ndx => instantiate (TFix dts ndx) 0 bod) (list_to_zero m) t).
Proof.
  intros p dts H. induction m; intros t L C; cbn [list_to_zero fold_left]; auto.
  apply IHm; [lia |]. apply (inst_crct p (TFix dts m)); auto; [| lia].
  cbn [crct]. split; [lia | auto].
Qed.

Lemma fixstep_crct : forall p dts m x, crct p 0 (TFix dts m) -> whFixStep dts m = Some x -> crct p 0 x.
Proof.
  intros p dts m x [L D] E. unfold whFixStep in E. destruct (dnthBody m dts) eqn:B; [| discriminate].
  injection E; intros; subst. apply fold_fix_crct; auto. cbn in D. eapply dnth_crct; eauto.
Qed.

Lemma casestep_crct : forall p n args brs cs, crcts p 0 args -> crctBs p 0 brs ->
  whCaseStep n args brs = Some cs -> crct p 0 cs.
Proof.
  intros p n args brs cs A B E. unfold whCaseStep in E.
  destruct (bnth n brs) as [[ns t]|] eqn:N; [| discriminate].
  destruct (Nat.eqb_spec (List.length ns) (tlength args)); [| discriminate].
  injection E; intros; subst. apply instl_crct; auto. rewrite <- e. eapply bnth_crct; eauto.
Qed.

(* Definitions only mention definitions further down; adding fresh names in
   front keeps a term correct. *)
Definition extends (p q : environ) : Prop :=
  forall nm t, lookupDfn nm p = Some t -> lookupDfn nm q = Some t.

Lemma crct_ext : forall p q, extends p q ->
  (forall t n, crct p n t -> crct q n t) /\ (forall t n, crcts p n t -> crcts q n t) /\
  (forall t n, crctBs p n t -> crctBs q n t) /\ (forall t n, crctDs p n t -> crctDs q n t).
Proof.
  intros p q X. apply TrmTrmsBrsDefs_ind; intros; cbn [crct crcts crctBs crctDs] in *; auto;
    repeat match goal with H : _ /\ _ |- _ => destruct H end; repeat split; eauto.
  - destruct (lookupDfn k p) eqn:E; [| congruence]. rewrite (X _ _ E). congruence.
  - destruct t; try contradiction; eauto.
Qed.

Lemma ext_cons : forall nm ec p, lookup nm p = None -> extends p ((nm, ec) :: p).
Proof.
  intros nm ec p H x t E. unfold lookupDfn in *. cbn [lookup].
  destruct (String.eqb_spec x nm); [| auto]. subst. rewrite H in E. discriminate.
Qed.

Lemma lookup_crct : forall p nm t, crctEnv p -> lookupDfn nm p = Some t -> crct p 0 t.
Proof.
  induction p as [|[x ec] p IH]; intros nm t H E; [discriminate |].
  destruct H as [H1 [H2 H3]].
  apply (proj1 (crct_ext p _ (ext_cons x ec p H2))).
  unfold lookupDfn in E. cbn [lookup] in E. destruct (String.eqb_spec nm x).
  - destruct ec; [injection E; intros; subst; auto | discriminate].
  - eapply IH; eauto.
Qed.

Lemma weval_crct : forall p, crctEnv p ->
  (forall t s, WcbvEval p t s -> crct p 0 t -> crct p 0 s) /\
  (forall ts ss, WcbvEvals p ts ss -> crcts p 0 ts -> crcts p 0 ss).
Proof.
  intros p HE. apply WcbvEvalEvals_ind; intros; cbn [crct crcts] in *; auto;
    repeat match goal with H : _ /\ _ |- _ => destruct H end; auto.
  - apply H1. eapply lookup_crct; eauto.
  - apply H4. unfold whBetaStep. apply (inst_crct p a1'); auto.
  - apply H2. apply (inst_crct p dfn'); auto.
  - apply H5. split; auto. eapply fixstep_crct; eauto. cbn [crct]; auto.
  - apply H3. eapply casestep_crct; eauto.
Qed.

Lemma weval_ext : forall p q, extends p q ->
  (forall t s, WcbvEval p t s -> WcbvEval q t s) /\
  (forall ts ss, WcbvEvals p ts ss -> WcbvEvals q ts ss).
Proof.
  intros p q X. apply WcbvEvalEvals_ind; intros; try (econstructor; eauto; fail).
Qed.

(* Conversely, a term that only uses the definitions of [p] evaluates in [p]. *)
Lemma weval_strengthen : forall p q, extends p q -> crctEnv p ->
  (forall t s, WcbvEval q t s -> crct p 0 t -> WcbvEval p t s) /\
  (forall ts ss, WcbvEvals q ts ss -> crcts p 0 ts -> WcbvEvals p ts ss).
Proof.
  intros p q X HE.
  assert (A := proj1 (weval_crct p HE)).
  apply WcbvEvalEvals_ind; intros; cbn [crct crcts] in *;
    repeat match goal with H : _ /\ _ |- _ => destruct H end; try (econstructor; eauto; fail).
  - destruct (lookupDfn nm p) eqn:E; [| congruence].
    assert (t = t0) by (apply X in E; congruence). subst.
    econstructor; eauto. apply H1. eapply lookup_crct; eauto.
  - assert (B := H0 H5). assert (C := H2 H6).
    eapply wAppLam; eauto. apply H4. unfold whBetaStep. apply (inst_crct p a1'); auto.
    + eapply A; eauto.
    + apply A in B; auto.
  - assert (B := H0 H3). eapply wLetIn; eauto. apply H2. apply (inst_crct p dfn'); auto.
    eapply A; eauto.
  - assert (B := H0 H6). assert (C := H3 H7).
    eapply wAppFix; eauto. apply H5. split.
    + eapply fixstep_crct; eauto.
    + eapply A; eauto.
  - assert (B := H0 H4). eapply wCase; eauto. apply H3. eapply casestep_crct; eauto.
    apply A in B; auto.
Qed.
