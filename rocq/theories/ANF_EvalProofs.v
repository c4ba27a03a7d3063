(** * Determinism, agreement with the interpreter, free variables *)
From Coq Require Import ZArith NArith List Lia Bool.
From Verif Require Import ANF_Syntax ANF_Eval ANF_Spec.
Import ListNotations.

(** ** Determinism *)
Ltac same :=
  repeat match goal with
  | [ H1 : ?a = Some ?b, H2 : ?a = Some ?c |- _ ] =>
      lazymatch b with
      | c => fail
      | _ => rewrite H1 in H2; injection H2; clear H2; intros; subst
      end
  | [ H1 : ?a = Some ?b, H2 : ?a = None |- _ ] => rewrite H1 in H2; discriminate
  end.

Ltac inv H := inversion H; subst; clear H.

Lemma bstep_det_aux cenv :
  (forall rho e c r, bstep cenv rho e c r ->
     forall c' r', bstep cenv rho e c' r' ->
       match r, r' with
       | Res v, Res v' => v = v' /\ c = c'
       | OOT, Res _ => c < c'
       | Res _, OOT => c' < c
       | OOT, OOT => True
       end) /\
  (forall rho e c r, bstep_fuel cenv rho e c r ->
     forall c' r', bstep_fuel cenv rho e c' r' ->
       match r, r' with
       | Res v, Res v' => v = v' /\ c = c'
       | OOT, Res _ => c < c'
       | Res _, OOT => c' < c
       | OOT, OOT => True
       end).
Proof.
  apply bstep_mutind.
  - intros x t ys e rho vs r c H1 _ IH c' r' H. inv H. same. eapply IH; eauto.
  - intros t vs rho x n y e v r c H1 H2 _ IH c' r' H. inv H. same. eapply IH; eauto.
  - intros y r e t cl vl rho c H1 H2 H3 _ IH c' r' H. inv H. same. eapply IH; eauto.
  - intros rho' fl f' vs xs e rho'' rho f t ys r c H1 H2 H3 H4 _ IH c' r' H.
    inv H. same. eapply IH; eauto.
  - intros rho' fl f' vs xs eb e rho'' rho x f t ys v r c1 c2 H1 H2 H3 H4 _ IH1 _ IH2
      c' r' H. inv H; same.
    + match goal with
      | [ A : bstep_fuel _ _ _ _ (Res _), B : bstep_fuel _ (set _ _ _) _ _ _ |- _ ] =>
          specialize (IH1 _ _ A); cbn in IH1; destruct IH1 as [-> ->];
          specialize (IH2 _ _ B)
      end.
      destruct r, r'; try lia. destruct IH2 as [-> ->]. auto.
    + match goal with
      | [ A : bstep_fuel _ _ _ _ OOT |- _ ] =>
          specialize (IH1 _ _ A); cbn in IH1
      end.
      destruct r; [exact I | lia].
  - intros rho' fl f' vs xs eb e rho'' rho x f t ys c H1 H2 H3 H4 _ IH c' r' H.
    inv H; same.
    + match goal with
      | [ A : bstep_fuel _ _ _ _ (Res _) |- _ ] => specialize (IH _ _ A); cbn in IH
      end.
      destruct r'; [exact I | lia].
    + exact I.
  - intros rho B e r c _ IH c' r' H. inv H. eapply IH; eauto.
  - intros x v rho H1 c' r' H. inv H. same. auto.
  - intros rho e c L c' r' H. inv H; [exact I|]. destruct r'; [exact I | lia].
  - intros rho e r c _ IH c' r' H. inv H.
    + destruct r; [exact I | lia].
    + match goal with [ A : bstep _ _ _ _ _ |- _ ] => specialize (IH _ _ A) end.
      destruct r, r'; try lia. destruct IH as [-> ->]. auto.
Qed.

Lemma bstep_fuel_det cenv rho e c v c' v' :
  bstep_fuel cenv rho e c (Res v) -> bstep_fuel cenv rho e c' (Res v') ->
  v = v' /\ c = c'.
Proof.
  intros H1 H2. exact (proj2 (bstep_det_aux cenv) _ _ _ _ H1 _ _ H2).
Qed.

Lemma bstep_fuel_oot_lt cenv rho e c c' v :
  bstep_fuel cenv rho e c OOT -> bstep_fuel cenv rho e c' (Res v) -> c < c'.
Proof.
  intros H1 H2. exact (proj2 (bstep_det_aux cenv) _ _ _ _ H1 _ _ H2).
Qed.

Lemma bstep_fuel_zero cenv rho e : bstep_fuel cenv rho e 0 OOT.
Proof. constructor. lia. Qed.

Lemma bstep_fuel_S cenv rho e c r :
  bstep cenv rho e c r -> bstep_fuel cenv rho e (S c) r.
Proof. intro H. replace (S c) with (c + 1) by lia. constructor. exact H. Qed.

Lemma bstep_fuel_inv cenv rho e c r :
  bstep_fuel cenv rho e c r ->
  (c = 0 /\ r = OOT) \/ (exists c', c = S c' /\ bstep cenv rho e c' r).
Proof.
  intro H. inv H; [left; split; [lia|auto] |].
  right. exists c0. split; [lia|auto].
Qed.

(** Less fuel than needed (or than already timed out) times out. *)
Lemma bstep_less_aux cenv :
  (forall rho e c r, bstep cenv rho e c r ->
     forall c', (c' < c \/ (r = OOT /\ c' <= c)) -> bstep cenv rho e c' OOT) /\
  (forall rho e c r, bstep_fuel cenv rho e c r ->
     forall c', (c' < c \/ (r = OOT /\ c' <= c)) -> bstep_fuel cenv rho e c' OOT).
Proof.
  apply bstep_mutind; intros.
  - econstructor; eauto.
  - econstructor; eauto.
  - econstructor; eauto.
  - econstructor; eauto.
  - destruct (Nat.lt_ge_cases c' c1) as [L|L].
    + eapply BStept_letapp_oot; eauto.
    + replace c' with (c1 + (c' - c1)) by lia.
      eapply BStept_letapp; eauto.
      match goal with
      | [ K : forall c', _ -> bstep_fuel _ (set _ _ _) _ _ _ |- _ ] => apply K
      end. destruct H7 as [K|[-> K]]; [left; lia | right; split; [auto|lia]].
  - eapply BStept_letapp_oot; eauto.
  - econstructor; eauto.
  - exfalso. destruct H0 as [K|[K _]]; [lia|discriminate].
  - constructor. lia.
  - destruct c' as [|c'']; [constructor; lia|].
    apply bstep_fuel_S. apply H0.
    destruct H1 as [K|[-> K]]; [left; lia | right; split; [auto|lia]].
Qed.

Lemma bstep_fuel_less cenv rho e c v c' :
  bstep_fuel cenv rho e c (Res v) -> c' < c -> bstep_fuel cenv rho e c' OOT.
Proof. intros H L. eapply (proj2 (bstep_less_aux cenv)); eauto. Qed.

Lemma bstep_fuel_oot_less cenv rho e c c' :
  bstep_fuel cenv rho e c OOT -> c' <= c -> bstep_fuel cenv rho e c' OOT.
Proof. intros H L. eapply (proj2 (bstep_less_aux cenv)); eauto. Qed.

(** ** The interpreter *)
Lemma enter_spec v t vs rho' e :
  enter v t vs = Some (rho', e) <->
  exists rho fl f xs,
    v = Vfun rho fl f /\ find_def f fl = Some (t, xs, e) /\
    set_lists xs vs (def_funs fl fl rho rho) = Some rho'.
Proof.
  split.
  - destruct v as [| rho fl f | |]; cbn; intro H; try discriminate.
    destruct (find_def f fl) as [[[t' xs] e']|] eqn:E; [|discriminate].
    destruct (Pos.eqb_spec t t') as [<-|]; [|discriminate].
    destruct (set_lists xs vs _) as [r|] eqn:S; [|discriminate].
    injection H as -> ->. exists rho, fl, f, xs. auto.
  - intros (rho & fl & f & xs & -> & H1 & H2). cbn.
    rewrite H1, Pos.eqb_refl, H2. reflexivity.
Qed.

Lemma interp_mono cenv : forall d rho e d', d <= d' ->
  interp cenv d rho e <> Deep -> interp cenv d' rho e = interp cenv d rho e.
Proof.
  induction d as [|d IH]; intros rho e d' L N; [cbn in N; congruence|].
  destruct d' as [|d']; [lia|]. apply le_S_n in L.
  assert (B : forall rho e, bump (interp cenv d rho e) <> Deep ->
     bump (interp cenv d' rho e) = bump (interp cenv d rho e)).
  { intros r0 e0 NE. rewrite (IH r0 e0 d' L); auto.
    intro K. rewrite K in NE. cbn in NE. congruence. }
  destruct e; cbn [interp] in *; auto;
    repeat match goal with
    | [ |- context [match ?x with _ => _ end] ] =>
        lazymatch x with
        | interp _ _ _ _ => fail
        | _ => destruct x eqn:?; auto
        end
    end.
  match goal with [ H : enter _ _ _ = Some (?r, ?b) |- _ ] =>
    destruct (interp cenv d r b) as [w n| |] eqn:E1;
    [ rewrite (IH r b d' L) by congruence; rewrite E1
    | congruence
    | rewrite (IH r b d' L) by congruence; rewrite E1; auto ]
  end.
  match goal with [ |- context [interp cenv d ?r ?b] ] =>
    destruct (interp cenv d r b) as [w' n'| |] eqn:E2;
    [ rewrite (IH r b d' L) by congruence; rewrite E2; auto
    | congruence
    | rewrite (IH r b d' L) by congruence; rewrite E2; auto ]
  end.
Qed.

Lemma bump_done o v n : bump o = Done v n -> exists n', n = S n' /\ o = Done v n'.
Proof. destruct o; cbn; intro H; try discriminate. injection H as <- <-. eauto. Qed.

Lemma interp_sound cenv : forall d rho e v n,
  interp cenv d rho e = Done v n -> bstep_fuel cenv rho e n (Res v).
Proof.
  induction d as [|d IH]; intros rho e v n H; [discriminate|].
  destruct e; cbn [interp] in H.
  - destruct (get_list l rho) eqn:E; [|discriminate].
    apply bump_done in H as (n' & -> & H).
    apply bstep_fuel_S. econstructor; eauto.
  - destruct (get v0 rho) as [[t vs| | |]|] eqn:E; try discriminate.
    destruct (caseConsistent_f cenv l t) eqn:C; [|discriminate].
    destruct (findtag l t) eqn:F; [|discriminate].
    apply bump_done in H as (n' & -> & H).
    apply bstep_fuel_S. econstructor; eauto.
  - destruct (get v1 rho) as [[t vs| | |]|] eqn:E; try discriminate.
    destruct (Pos.eqb_spec c t) as [<-|]; [|discriminate].
    destruct (nthN vs n0) eqn:F; [|discriminate].
    apply bump_done in H as (n' & -> & H).
    apply bstep_fuel_S. econstructor; eauto.
  - destruct (get v1 rho) as [vf|] eqn:E; [|discriminate].
    destruct (get_list l rho) as [vs|] eqn:G; [|discriminate].
    destruct (enter vf f vs) as [[r b]|] eqn:EN; [|discriminate].
    destruct (interp cenv d r b) as [w m| |] eqn:E1; try discriminate.
    destruct (interp cenv d (set v0 w rho) e) as [w' m'| |] eqn:E2; try discriminate.
    injection H as <- <-.
    apply enter_spec in EN as (rh & fl & g & xs & -> & FD & SL).
    apply bstep_fuel_S. eapply BStept_letapp; eauto.
  - apply bump_done in H as (n' & -> & H).
    apply bstep_fuel_S. econstructor; eauto.
  - destruct (get v0 rho) as [vf|] eqn:E; [|discriminate].
    destruct (get_list l rho) as [vs|] eqn:G; [|discriminate].
    destruct (enter vf f vs) as [[r b]|] eqn:EN; [|discriminate].
    apply bump_done in H as (n' & -> & H).
    apply enter_spec in EN as (rh & fl & g & xs & -> & FD & SL).
    apply bstep_fuel_S. eapply BStept_app; eauto.
  - discriminate.
  - discriminate.
  - destruct (get v0 rho) eqn:E; [|discriminate]. injection H as <- <-.
    apply (bstep_fuel_S cenv rho (Ehalt v0) 0). constructor. exact E.
Qed.

Lemma interp_complete_aux cenv :
  (forall rho e c r, bstep cenv rho e c r ->
     forall v, r = Res v -> exists d, interp cenv d rho e = Done v (S c)) /\
  (forall rho e c r, bstep_fuel cenv rho e c r ->
     forall v, r = Res v -> exists d, interp cenv d rho e = Done v c).
Proof.
  apply bstep_mutind; intros; try discriminate.
  - destruct (H1 _ H2) as [d E]. exists (S d). cbn [interp]. rewrite H, E. reflexivity.
  - destruct (H2 _ H3) as [d E]. exists (S d). cbn [interp].
    rewrite H, Pos.eqb_refl, H0, E. reflexivity.
  - destruct (H3 _ H4) as [d E]. exists (S d). cbn [interp].
    rewrite H, H0, H1, E. reflexivity.
  - destruct (H4 _ H5) as [d E]. exists (S d). cbn [interp].
    rewrite H, H0.
    assert (EN : enter (Vfun rho' fl f') t vs = Some (rho'', e))
      by (apply enter_spec; eauto 10).
    rewrite EN, E. reflexivity.
  - destruct (H4 _ eq_refl) as [d1 E1]. destruct (H6 _ H7) as [d2 E2].
    exists (S (max d1 d2)). cbn [interp]. rewrite H, H0.
    assert (EN : enter (Vfun rho' fl f') t vs = Some (rho'', e_body))
      by (apply enter_spec; eauto 10).
    rewrite EN.
    rewrite (interp_mono cenv d1) by (try lia; congruence). rewrite E1.
    rewrite (interp_mono cenv d2) by (try lia; congruence). rewrite E2. reflexivity.
  - destruct (H0 _ H1) as [d E]. exists (S d). cbn [interp]. rewrite E. reflexivity.
  - exists 1. cbn. rewrite H. congruence.
  - destruct (H0 _ H1) as [d E]. exists d. rewrite E. f_equal. lia.
Qed.

Lemma interp_complete cenv rho e c v :
  bstep_fuel cenv rho e c (Res v) -> exists d, interp cenv d rho e = Done v c.
Proof. intro H. eapply (proj2 (interp_complete_aux cenv)); eauto. Qed.

Lemma interp_iff cenv rho e c v :
  bstep_fuel cenv rho e c (Res v) <-> exists d, interp cenv d rho e = Done v c.
Proof.
  split; [apply interp_complete|]. intros [d E]. eapply interp_sound; eauto.
Qed.

(** A stuck program never finishes and does not time out for ever. *)
Lemma interp_stuck_no_res cenv d rho e c v :
  interp cenv d rho e = Stuck -> ~ bstep_fuel cenv rho e c (Res v).
Proof.
  intros E B. apply interp_complete in B as [d' E'].
  assert (A : interp cenv (max d d') rho e = Stuck)
    by (rewrite (interp_mono cenv d); auto; try lia; congruence).
  assert (A' : interp cenv (max d d') rho e = Done v c)
    by (rewrite (interp_mono cenv d'); auto; try lia; congruence).
  congruence.
Qed.

Lemma bstep_letapp_inv cenv rho x f t ys e c r :
  bstep cenv rho (Eletapp x f t ys e) c r ->
  exists vf vs rho' e',
    get f rho = Some vf /\ get_list ys rho = Some vs /\ enter vf t vs = Some (rho', e') /\
    ((r = OOT /\ bstep_fuel cenv rho' e' c OOT) \/
     (exists v c1 c2, c = c1 + c2 /\ bstep_fuel cenv rho' e' c1 (Res v) /\
                      bstep_fuel cenv (set x v rho) e c2 r)).
Proof.
  intro B. inv B.
  - eexists _, _, _, _. split; [eassumption|]. split; [eassumption|].
    split; [apply enter_spec; eauto 10|]. right. eauto 10.
  - eexists _, _, _, _. split; [eassumption|]. split; [eassumption|].
    split; [apply enter_spec; eauto 10|]. left. auto.
Qed.

Lemma bstep_app_inv cenv rho f t ys c r :
  bstep cenv rho (Eapp f t ys) c r ->
  exists vf vs rho' e',
    get f rho = Some vf /\ get_list ys rho = Some vs /\ enter vf t vs = Some (rho', e') /\
    bstep_fuel cenv rho' e' c r.
Proof.
  intro B. inv B.
  eexists _, _, _, _. split; [eassumption|]. split; [eassumption|].
  split; [apply enter_spec; eauto 10|]. auto.
Qed.

Lemma bstep_letapp_intro cenv rho x f t ys e vf vs rho' e' v c1 c2 r :
  get f rho = Some vf -> get_list ys rho = Some vs -> enter vf t vs = Some (rho', e') ->
  bstep_fuel cenv rho' e' c1 (Res v) -> bstep_fuel cenv (set x v rho) e c2 r ->
  bstep cenv rho (Eletapp x f t ys e) (c1 + c2) r.
Proof.
  intros G L E B1 B2. apply enter_spec in E as (r0 & fl & g & xs & -> & FD & SL).
  eapply BStept_letapp; eauto.
Qed.

Lemma bstep_letapp_oot_intro cenv rho x f t ys e vf vs rho' e' c :
  get f rho = Some vf -> get_list ys rho = Some vs -> enter vf t vs = Some (rho', e') ->
  bstep_fuel cenv rho' e' c OOT ->
  bstep cenv rho (Eletapp x f t ys e) c OOT.
Proof.
  intros G L E B1. apply enter_spec in E as (r0 & fl & g & xs & -> & FD & SL).
  eapply BStept_letapp_oot; eauto.
Qed.

Lemma bstep_app_intro cenv rho f t ys vf vs rho' e' c r :
  get f rho = Some vf -> get_list ys rho = Some vs -> enter vf t vs = Some (rho', e') ->
  bstep_fuel cenv rho' e' c r ->
  bstep cenv rho (Eapp f t ys) c r.
Proof.
  intros G L E B1. apply enter_spec in E as (r0 & fl & g & xs & -> & FD & SL).
  eapply BStept_app; eauto.
Qed.

Lemma interp_stuck_not_oot cenv : forall d rho e,
  interp cenv d rho e = Stuck -> exists c, ~ bstep_fuel cenv rho e c OOT.
Proof.
  assert (BS : forall o, bump o = Stuck -> o = Stuck).
  { intros [] H; cbn in H; congruence. }
  induction d as [|d IH]; intros rho e H; [discriminate|].
  assert (ONE : ~ bstep cenv rho e 0 OOT -> exists c, ~ bstep_fuel cenv rho e c OOT).
  { intro N. exists 1. intro K; apply bstep_fuel_inv in K;
    destruct K as [[K _]|(c' & K & B)]; try discriminate;
    injection K as <-; exact (N B). }
  assert (UP : forall rho' e',
     interp cenv d rho' e' = Stuck ->
     (forall c, bstep cenv rho e c OOT -> bstep_fuel cenv rho' e' c OOT) ->
     exists c, ~ bstep_fuel cenv rho e c OOT).
  { intros rho' e' E T. destruct (IH _ _ E) as (c & N1). exists (S c).
    intro K; apply bstep_fuel_inv in K;
    destruct K as [[K _]|(c' & K & B)]; try discriminate;
    injection K as <-; apply T in B; tauto. }
  destruct e; cbn [interp] in H.
  - destruct (get_list l rho) eqn:E.
    + apply BS in H. apply (UP _ _ H). intros c0 B. inv B. same. auto.
    + apply ONE. intros B. inv B. same.
  - destruct (get v rho) as [[t vs| | |]|] eqn:E;
      try (apply ONE; intros B; inv B; congruence).
    destruct (caseConsistent_f cenv l t) eqn:C;
      [|apply ONE; intros B; inv B; congruence].
    destruct (findtag l t) eqn:F;
      [|apply ONE; intros B; inv B; congruence].
    apply BS in H. apply (UP _ _ H). intros c0 B. inv B. same. auto.
  - destruct (get v0 rho) as [[t vs| | |]|] eqn:E;
      try (apply ONE; intros B; inv B; congruence).
    destruct (Pos.eqb_spec c t) as [<-|];
      [|apply ONE; intros B; inv B; congruence].
    destruct (nthN vs n) eqn:F; [|apply ONE; intros B; inv B; congruence].
    apply BS in H. apply (UP _ _ H). intros c0 B. inv B. same. auto.
  - destruct (get v0 rho) as [vf|] eqn:E;
      [|apply ONE; intros B; inv B; congruence].
    destruct (get_list l rho) as [vs|] eqn:G;
      [|apply ONE; intros B; inv B; congruence].
    destruct (enter vf f vs) as [[r b]|] eqn:EN.
    2:{ apply ONE. intros B. apply bstep_letapp_inv in B as (? & ? & ? & ? & ? & ? & ? & _).
        congruence. }
    destruct (interp cenv d r b) as [w m| |] eqn:E1; try discriminate.
    + destruct (interp cenv d (set v w rho) e) as [w' m'| |] eqn:E2; try discriminate.
      destruct (IH _ _ E2) as (c & N1). pose proof (interp_sound _ _ _ _ _ _ E1) as B1.
      exists (S (m + c)).
      intro K; apply bstep_fuel_inv in K.
      destruct K as [[K _]|(c' & K & B)]; try discriminate; injection K as <-.
      apply bstep_letapp_inv in B as (vf' & vs' & r' & b' & X1 & X2 & X3 & X).
      same.
      destruct X as [[_ X]|(v' & c1 & c2 & EQ & X & Y)].
      * pose proof (bstep_fuel_oot_lt _ _ _ _ _ _ X B1). lia.
      * destruct (bstep_fuel_det _ _ _ _ _ _ _ X B1) as [-> ->].
        assert (c2 = c) by lia. subst. auto.
    + destruct (IH _ _ E1) as (c & N1).
      exists (S c).
      intro K; apply bstep_fuel_inv in K.
      destruct K as [[K _]|(c' & K & B)]; try discriminate; injection K as <-.
      apply bstep_letapp_inv in B as (vf' & vs' & r' & b' & X1 & X2 & X3 & X).
      same.
      destruct X as [[_ X]|(v' & c1 & c2 & EQ & X & Y)]; [tauto|].
      eapply interp_stuck_no_res; eauto.
  - apply BS in H. apply (UP _ _ H). intros c0 B. inv B. auto.
  - destruct (get v rho) as [vf|] eqn:E;
      [|apply ONE; intros B; inv B; congruence].
    destruct (get_list l rho) as [vs|] eqn:G;
      [|apply ONE; intros B; inv B; congruence].
    destruct (enter vf f vs) as [[r b]|] eqn:EN.
    + apply BS in H. apply (UP _ _ H). intros c0 B.
      apply bstep_app_inv in B as (vf' & vs' & r' & b' & X1 & X2 & X3 & X).
      same. auto.
    + apply ONE. intros B.
      apply bstep_app_inv in B as (vf' & vs' & r' & b' & X1 & X2 & X3 & X).
      congruence.
  - apply ONE. intros B. inv B.
  - apply ONE. intros B. inv B.
  - apply ONE. intros B. inv B.
Qed.

Lemma interp_deep_oot cenv : forall d rho e,
  interp cenv d rho e = Deep -> bstep_fuel cenv rho e d OOT.
Proof.
  assert (BS : forall o, bump o = Deep -> o = Deep).
  { intros [] H; cbn in H; congruence. }
  induction d as [|d IH]; intros rho e H; [apply bstep_fuel_zero|].
  apply bstep_fuel_S.
  destruct e; cbn [interp] in H.
  - destruct (get_list l rho) eqn:E; [|discriminate].
    apply BS in H. econstructor; eauto.
  - destruct (get v rho) as [[t vs| | |]|] eqn:E; try discriminate.
    destruct (caseConsistent_f cenv l t) eqn:C; [|discriminate].
    destruct (findtag l t) eqn:F; [|discriminate].
    apply BS in H. econstructor; eauto.
  - destruct (get v0 rho) as [[t vs| | |]|] eqn:E; try discriminate.
    destruct (Pos.eqb_spec c t) as [<-|]; [|discriminate].
    destruct (nthN vs n) eqn:F; [|discriminate].
    apply BS in H. econstructor; eauto.
  - destruct (get v0 rho) as [vf|] eqn:E; [|discriminate].
    destruct (get_list l rho) as [vs|] eqn:G; [|discriminate].
    destruct (enter vf f vs) as [[r b]|] eqn:EN; [|discriminate].
    destruct (interp cenv d r b) as [w m| |] eqn:E1; try discriminate.
    + destruct (interp cenv d (set v w rho) e) as [w' m'| |] eqn:E2; try discriminate.
      eapply (proj1 (bstep_less_aux cenv)) with (c := m + d);
        [|right; split; [reflexivity|lia]].
      eapply bstep_letapp_intro; eauto. eapply interp_sound; eauto.
    + eapply bstep_letapp_oot_intro; eauto.
  - apply BS in H. econstructor; eauto.
  - destruct (get v rho) as [vf|] eqn:E; [|discriminate].
    destruct (get_list l rho) as [vs|] eqn:G; [|discriminate].
    destruct (enter vf f vs) as [[r b]|] eqn:EN; [|discriminate].
    apply BS in H. eapply bstep_app_intro; eauto.
  - discriminate.
  - discriminate.
  - destruct (get v rho); discriminate.
Qed.

Lemma diverge_iff cenv rho e :
  diverge cenv rho e <-> forall d, interp cenv d rho e = Deep.
Proof.
  split.
  - intros D d. destruct (interp cenv d rho e) as [v n| |] eqn:E; auto.
    + pose proof (interp_sound _ _ _ _ _ _ E) as B.
      pose proof (bstep_fuel_oot_lt _ _ _ _ _ _ (D n) B). lia.
    + apply interp_stuck_not_oot in E as [c N]. exfalso. apply N, D.
  - intros A c. apply interp_deep_oot, A.
Qed.
