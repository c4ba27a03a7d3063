(* The evaluator of AN_Spec agrees with evaluation of the de Bruijn language. *)
From Coq Require Import List Arith NArith PArith String Bool Lia.
From Verif Require Import ANF_Syntax ANF_Spec LB_Model LB_Env LB_EnvProofs AN_Model AN_Spec AN_Proofs.
Import ListNotations.

Definition le_e {A} (r r' : eres A) : Prop := r = ETime \/ r = r'.

Lemma es_mono : forall p b b', (forall rho e, le_e (b rho e) (b' rho e)) ->
  (forall e rho, le_e (es p b rho e) (es p b' rho e)) /\
  (forall l rho, le_e (ess p b rho l) (ess p b' rho l)) /\
  (forall l : efnlst, True) /\ (forall l : branches_e, True).
Proof.
  intros p b b' H. unfold le_e in *. apply my_exp_ind; try (intros; right; reflexivity); auto.
  - intros e H0 e0 H1 rho. cbn [es]. destruct (H0 rho) as [E | E]; rewrite E; auto.
    destruct (es p b' rho e) as [f | |]; auto. destruct (H1 rho) as [E1 | E1]; rewrite E1; auto.
    destruct (es p b' rho e0) as [v | |]; auto. destruct f; cbn [apply_fun]; auto.
    match goal with |- context [enthopt ?a ?b] => destruct (enthopt a b) as [[] |] end; auto.
  - intros d l H0 rho. rewrite !es_con. destruct (H0 rho) as [E | E]; rewrite E; auto.
  - intros e H0 na bs _ rho. cbn [es]. destruct (H0 rho) as [E | E]; rewrite E; auto.
    destruct (es p b' rho e) as [[] | |]; auto. destruct (find_branch _ _ _); auto.
  - intros na e H0 e2 H1 rho. cbn [es]. destruct (H0 rho) as [E | E]; rewrite E; auto.
    destruct (es p b' rho e) as [v | |]; auto.
  - intros e H0 l H1 rho. rewrite !ess_cons. destruct (H0 rho) as [E | E]; rewrite E; auto.
    destruct (es p b' rho e) as [f | |]; auto. destruct (H1 rho) as [E1 | E1]; rewrite E1; auto.
Qed.

Lemma eeval_mono1 : forall p n m, n <= m -> forall rho e, le_e (eeval p n rho e) (eeval p m rho e).
Proof.
  intros p. induction n; intros m L rho e; destruct m; try lia.
  - right; reflexivity.
  - apply (proj1 (es_mono p _ _ (fun _ _ => or_introl eq_refl))).
  - apply (proj1 (es_mono p _ _ (fun rho e => IHn m ltac:(lia) rho e))).
Qed.
Lemma eeval_mono : forall p n m rho e v, n <= m -> eeval p n rho e = EVal v -> eeval p m rho e = EVal v.
Proof. intros p n m rho e v L E. destruct (eeval_mono1 p n m L rho e); congruence. Qed.

Definition low (p : bool) (n : nat) : venv -> lexp -> eres value :=
  match n with 0 => fun _ _ => ETime | S m => eeval p m end.
Lemma eeval_es : forall p n rho e, eeval p n rho e = es p (low p n) rho e.
Proof. destruct n; reflexivity. Qed.
Definition eevals (p : bool) (n : nat) (rho : venv) (l : exps) := ess p (low p n) rho l.
Lemma eevals_mono : forall p n m rho e v, n <= m -> eevals p n rho e = EVal v -> eevals p m rho e = EVal v.
Proof.
  intros p n m rho e v L E. unfold eevals in *.
  destruct (proj1 (proj2 (es_mono p (low p n) (low p m) ltac:(
    intros r0 e0; destruct n; [left; reflexivity | destruct m; [lia | apply eeval_mono1; lia]]))) e rho); congruence.
Qed.

Lemma eeval_sound_step : forall body,
  (forall rho e v, body rho e = EVal v -> eval_env true rho e v) ->
  (forall e rho v, es true body rho e = EVal v -> eval_env true rho e v) /\
  (forall l rho vs, ess true body rho l = EVal vs -> eval_many true rho l vs) /\
  (forall l : efnlst, True) /\ (forall l : branches_e, True).
Proof.
  intros body H. apply my_exp_ind; auto.
  - intros i rho v E. cbn [es] in E. destruct (nth_error rho (N.to_nat i)) eqn:NE; [| discriminate].
    injection E as <-. constructor; auto.
  - intros na b IH rho v E. injection E as <-. constructor.
  - intros e1 IH1 e2 IH2 rho v E. cbn [es] in E.
    destruct (es true body rho e1) as [f | |] eqn:E1; try discriminate.
    destruct (es true body rho e2) as [w | |] eqn:E2; try discriminate.
    destruct f; try discriminate; cbn [apply_fun] in E.
    + eapply ee_App; eauto.
    + match type of E with context [enthopt ?a ?b] => destruct (enthopt a b) as [[] |] eqn:EN end; try discriminate. eapply ee_FixApp; eauto.
    + injection E as <-. eapply ee_PrfApp; eauto.
  - intros d l IH rho v E. rewrite es_con in E. destruct (ess true body rho l) as [vs | |] eqn:E1; try discriminate.
    injection E as <-. constructor; auto.
  - intros e IH m bs _ rho v E. cbn [es] in E. destruct (es true body rho e) as [[] | |] eqn:E1; try discriminate.
    destruct (find_branch _ _ _) eqn:FB; try discriminate. eapply ee_Match; eauto.
  - intros na e1 IH1 e2 IH2 rho v E. cbn [es] in E. destruct (es true body rho e1) as [f | |] eqn:E1; try discriminate.
    eapply ee_Let; eauto.
  - intros l _ n rho v E. injection E as <-. constructor.
  - intros rho v E. injection E as <-. constructor; auto.
  - intros p rho v E. injection E as <-. constructor; auto.
  - intros p rho v E. discriminate.
  - intros rho vs E. injection E as <-. constructor.
  - intros e IH1 l IH2 rho vs E. rewrite ess_cons in E.
    destruct (es true body rho e) as [f | |] eqn:E1; try discriminate.
    destruct (ess true body rho l) as [w | |] eqn:E2; try discriminate. injection E as <-. constructor; auto.
Qed.

Lemma eeval_sound : forall n rho e v, eeval true n rho e = EVal v -> eval_env true rho e v.
Proof.
  induction n; intros rho e v E; rewrite eeval_es in E; eapply eeval_sound_step; eauto; cbn [low]. discriminate.
Qed.

Local Ltac em E :=
  match type of E with eeval ?p ?n ?rho ?e = _ =>
    match goal with |- context [eeval p ?m rho e] =>
      rewrite (eeval_mono p n m rho e _ ltac:(lia) E)
    end
  end.

Lemma eeval_complete : forall full p, (full = true -> p = true) ->
  (forall rho e v, eval_env full rho e v -> exists n, eeval p n rho e = EVal v) /\
  (forall rho l vs, eval_many full rho l vs -> exists n, eevals p n rho l = EVal vs).
Proof.
  intros full p FP. apply my_eval_env_ind; intros.
  - exists 0. cbn. rewrite H. reflexivity.
  - exists 0. reflexivity.
  - exists 0. reflexivity.
  - destruct H0 as [n E]. exists n. rewrite eeval_es, es_con. unfold eevals in E. rewrite E. reflexivity.
  - destruct H0 as [n1 E1]. destruct H2 as [n2 E2]. destruct H4 as [n3 E3]. exists (S (n1 + n2 + n3)).
    rewrite eeval_es. cbn [es]. rewrite <- !eeval_es.
    em E1. em E2.
    cbn [apply_fun low]. apply (eeval_mono p n3); [lia | auto].
  - destruct H0 as [n1 E1]. destruct H2 as [n2 E2]. exists (n1 + n2).
    rewrite eeval_es. cbn [es]. rewrite <- eeval_es.
    em E1. rewrite <- eeval_es. apply (eeval_mono p n2); [lia | auto].
  - destruct H0 as [n1 E1]. destruct H3 as [n2 E2]. destruct H5 as [n3 E3]. exists (S (n1 + n2 + n3)).
    rewrite eeval_es. cbn [es]. rewrite <- !eeval_es.
    em E1. em E2.
    cbn [apply_fun low]. rewrite H1. apply (eeval_mono p n3); [lia | auto].
  - destruct H0 as [n1 E1]. destruct H3 as [n2 E2]. exists (S (n1 + n2)).
    rewrite eeval_es. cbn [es]. rewrite <- eeval_es.
    em E1. rewrite H1. cbn [low]. apply (eeval_mono p n2); [lia | auto].
  - exists 0. reflexivity.
  - exists 0. reflexivity.
  - destruct H1 as [n1 E1]. destruct H3 as [n2 E2]. exists (n1 + n2).
    rewrite eeval_es. cbn [es]. rewrite <- !eeval_es.
    em E1. em E2.
    cbn [apply_fun]. rewrite FP by auto. reflexivity.
  - exists 0. reflexivity.
  - destruct H0 as [n1 E1]. destruct H2 as [n2 E2]. exists (n1 + n2). unfold eevals. rewrite ess_cons.
    rewrite <- eeval_es. em E1.
    change (ess p (low p (n1 + n2)) rho es) with (eevals p (n1 + n2) rho es).
    rewrite (eevals_mono p n2 (n1 + n2) _ _ _ ltac:(lia) E2). reflexivity.
Qed.

(* Where no proof is applied the two evaluators are the same. *)
Definition eqs {A} (r r' : eres A) : Prop := r = EStuck \/ r = r'.
Lemma es_strict : forall b b', (forall rho e, eqs (b rho e) (b' rho e)) ->
  (forall e rho, eqs (es false b rho e) (es true b' rho e)) /\
  (forall l rho, eqs (ess false b rho l) (ess true b' rho l)) /\
  (forall l : efnlst, True) /\ (forall l : branches_e, True).
Proof.
  intros b b' H. unfold eqs in *. apply my_exp_ind; try (intros; right; reflexivity); auto.
  - intros e H0 e0 H1 rho. cbn [es]. destruct (H0 rho) as [E | E]; rewrite E; auto.
    destruct (es true b' rho e) as [f | |]; auto. destruct (H1 rho) as [E1 | E1]; rewrite E1; auto.
    destruct (es true b' rho e0) as [v | |]; auto. destruct f; cbn [apply_fun]; auto.
    match goal with |- context [enthopt ?a ?b] => destruct (enthopt a b) as [[] |] end; auto.
  - intros d l H0 rho. rewrite !es_con. destruct (H0 rho) as [E | E]; rewrite E; auto.
  - intros e H0 na bs _ rho. cbn [es]. destruct (H0 rho) as [E | E]; rewrite E; auto.
    destruct (es true b' rho e) as [[] | |]; auto. destruct (find_branch _ _ _); auto.
  - intros na e H0 e2 H1 rho. cbn [es]. destruct (H0 rho) as [E | E]; rewrite E; auto.
    destruct (es true b' rho e) as [v | |]; auto.
  - intros e H0 l H1 rho. rewrite !ess_cons. destruct (H0 rho) as [E | E]; rewrite E; auto.
    destruct (es true b' rho e) as [f | |]; auto. destruct (H1 rho) as [E1 | E1]; rewrite E1; auto.
Qed.

Lemma eeval_strict : forall n rho e, eqs (eeval false n rho e) (eeval true n rho e).
Proof.
  induction n; intros rho e; apply es_strict; auto. right; reflexivity.
Qed.
