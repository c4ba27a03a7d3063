(** * Bodies as contexts: proofs about [inline_letapp] *)
From Coq Require Import ZArith NArith Arith List Lia Bool.
From Verif Require Import ANF_Syntax ANF_Eval ANF_Spec ANF_EvalProofs ANF_FreeProofs ANF_Scope
  ANF_LR ANF_LRProofs ANF_Subst ANF_Alpha.
Import ListNotations.

(** The context runs the body and stops in an environment [rho'] that binds
    the result; what follows then runs from there. *)
Definition reaches cenv (C : exp_ctx) rho rho' c0 : Prop :=
  forall ec c2 r2, bstep_fuel cenv rho' ec c2 r2 <-> bstep_fuel cenv rho (app_ctx_f C ec) (c0 + c2) r2.

Lemma bstep_fuel_run_inv cenv rho e c r : 1 <= c -> bstep_fuel cenv rho e c r ->
  exists c', c = c' + 1 /\ bstep cenv rho e c' r.
Proof. intros L H. inversion H; subst; [lia|eauto]. Qed.

Lemma letapp_sem cenv : forall e z C x', inline_letapp e z = Some (C, x') ->
  forall rho c r, bstep_fuel cenv rho e c r ->
  match r with
  | OOT => forall ec, bstep_fuel cenv rho (app_ctx_f C ec) c OOT
  | Res v => exists rho' c0, get x' rho' = Some v /\
      (forall y, y <> z -> ~ In y (bv e) -> get y rho' = get y rho) /\
      c0 <= c /\ c <= c0 + 1 /\ reaches cenv C rho rho' c0
  end.
Proof.
  intro e.
  assert (ZERO : forall rho c r e, bstep_fuel cenv rho e c r ->
            (c = 0 /\ r = OOT) \/ exists c', c = c' + 1 /\ bstep cenv rho e c' r).
  { intros rho c r e0 H. inversion H; subst; [left; split; auto; lia|right; eauto]. }
  (* one step in front *)
  assert (ONE : forall C C1 rho rho1 x' z l l1 c r,
    (forall ec c2 r2, bstep_fuel cenv rho1 (app_ctx_f C1 ec) c2 r2 <->
                      bstep cenv rho (app_ctx_f C ec) c2 r2) ->
    (forall y, ~ In y l -> ~ In y l1 /\ get y rho1 = get y rho) ->
    (match r with
     | OOT => forall ec, bstep_fuel cenv rho1 (app_ctx_f C1 ec) c OOT
     | Res v => exists rho' c0, get x' rho' = Some v /\
        (forall y, y <> z -> ~ In y l1 -> get y rho' = get y rho1) /\
        c0 <= c /\ c <= c0 + 1 /\ reaches cenv C1 rho1 rho' c0
     end) ->
    match r with
     | OOT => forall ec, bstep_fuel cenv rho (app_ctx_f C ec) (c + 1) OOT
     | Res v => exists rho' c0, get x' rho' = Some v /\
        (forall y, y <> z -> ~ In y l -> get y rho' = get y rho) /\
        c0 <= c + 1 /\ c + 1 <= c0 + 1 /\ reaches cenv C rho rho' c0
     end).
  { intros C C1 rho rho1 x' z l l1 c r S A H. destruct r as [|v].
    - intro ec. apply BStepf_run. apply S. auto.
    - destruct H as (rho' & c0 & G & AG & L1 & L2 & RE). exists rho', (c0 + 1).
      split; [auto|]. split; [|split; [lia|split; [lia|]]].
      + intros y Nz Nl. destruct (A y Nl) as [A1 A2]. rewrite AG by auto. auto.
      + intros ec c2 r2. split; intro B.
        * apply RE in B. apply S in B. replace (c0 + 1 + c2) with (c0 + c2 + 1) by lia.
          apply BStepf_run. exact B.
        * apply bstep_fuel_run_inv in B as (c' & E & B); [|lia]. replace c' with (c0 + c2) in B by lia.
          apply S in B. apply RE in B. exact B. }
  induction e using exp_ind2 with (P0 := fun _ => True); try exact I; intros z C x' IL rho cst r EV;
    cbn [inline_letapp] in IL;
    try (destruct (inline_letapp e z) as [[C1 x1]|] eqn:IE; [|discriminate IL]; injection IL as <- <-);
    (destruct (ZERO _ _ _ _ EV) as [[-> ->]|(c' & -> & B')]; [intro ec; apply bstep_fuel_zero|]); clear EV.
  - (* Econstr *) inversion B'; subst. 
    match goal with HB : bstep_fuel _ _ e _ _, HG : get_list ys rho = Some ?vs |- _ =>
      apply (ONE (Econstr_c x t ys C1) C1 rho (set x (Vconstr t vs) rho) x1 z (bv (Econstr x t ys e)) (bv e)) end.
    + intros ec c2 r2. split; intro K; [econstructor; eauto|]. inversion K; subst. congruence.
    + intros y Ny. cbn in Ny. split; [tauto|]. apply get_set_other. intro; subst; tauto.
    + eapply IHe; eauto.
  - discriminate IL.
  - (* Eproj *) inversion B'; subst.
    match goal with HB : bstep_fuel _ (set x ?v rho) e _ _ |- _ =>
      apply (ONE (Eproj_c x t n y C1) C1 rho (set x v rho) x1 z (bv (Eproj x t n y e)) (bv e)) end.
    + intros ec c2 r2. split; intro K; [econstructor; eauto|]. inversion K; subst. congruence.
    + intros w Ny. cbn in Ny. split; [tauto|]. apply get_set_other. intro; subst; tauto.
    + eapply IHe; eauto.
  - (* Eletapp *) inversion B'; subst.
    + match goal with HB : bstep_fuel _ (set x v rho) e ?cc _, HA : bstep_fuel cenv ?rf _ ?ca (Res v) |- _ =>
        pose proof (IHe z C1 x1 IE _ _ _ HB) as IH; rename HA into BA; set (c2b := cc) in *; set (c1a := ca) in * end.
      destruct r as [|w].
      * intro ec. apply BStepf_run. eapply BStept_letapp; eauto.
      * destruct IH as (rhoh & c0 & G & AG & L1 & L2 & RE). exists rhoh, (c1a + c0 + 1).
        split; [auto|]. split; [|split; [lia|split; [lia|]]].
        -- intros y Nz Nl. cbn in Nl. rewrite AG by tauto. apply get_set_other. intro; subst; tauto.
        -- intros ec c3 r3. split; intro K.
           ++ apply RE in K. replace (c1a + c0 + 1 + c3) with (c1a + (c0 + c3) + 1) by lia.
              apply BStepf_run. eapply BStept_letapp; eauto.
           ++ apply bstep_fuel_run_inv in K as (c' & E & K); [|lia]. cbn [app_ctx_f] in K.
              inversion K; subst;
                repeat match goal with
                | H1 : ?a = Some _, H2 : ?a = Some _ |- _ => rewrite H1 in H2; injection H2; clear H2; intros; subst
                end.
              ** match goal with HX : bstep_fuel cenv _ _ ?cx (Res ?vx), HE : bstep_fuel cenv (set x ?vx rho) (app_ctx_f C1 ec) _ _ |- _ =>
                   destruct (bstep_fuel_det _ _ _ _ _ _ _ HX BA) as [EC EV]; subst cx vx; apply RE end.
                 match goal with HE : bstep_fuel cenv (set x v rho) (app_ctx_f C1 ec) ?cc _ |- bstep_fuel _ _ _ ?dd _ => replace dd with cc by lia; exact HE end.
              ** exfalso. match goal with HX : bstep_fuel cenv _ _ ?cx OOT |- _ =>
                   pose proof (bstep_fuel_oot_lt _ _ _ _ _ _ HX BA) end. lia.
    + intro ec. apply BStepf_run. eapply BStept_letapp_oot; eauto.
  - (* Efun *) inversion B'; subst.
    apply (ONE (Efun1_c B C1) C1 rho (def_funs B B rho rho) x1 z (bv (Efun B e)) (bv e)).
    + intros ec c2 r2. split; intro K; [econstructor; eauto|]. inversion K; subst. auto.
    + intros y Ny. cbn [bv] in Ny. rewrite in_app_iff in Ny. split; [tauto|].
      rewrite def_funs_get. destruct (in_dec Pos.eq_dec y (fnames B)) as [K|]; [|auto].
      exfalso. apply Ny. left. clear -K. induction B as [g t xs b B IH|]; cbn in *; [|tauto].
      destruct K as [->|K]; [auto|right]. apply in_or_app. right. apply in_or_app. right. auto.
    + eapply IHe0; eauto.
  - (* Eapp *) injection IL as <- <-. inversion B'; subst. destruct r as [|v].
    + intro ec. apply BStepf_run. eapply BStept_letapp_oot; eauto.
    + exists (set z v rho), (c' + 1). split; [apply get_set_same|].
      split; [intros; apply get_set_other; auto|]. split; [lia|split; [lia|]].
      intros ec c3 r3. cbn [app_ctx_f]. split; intro K.
      * replace (c' + 1 + c3) with (c' + c3 + 1) by lia. apply BStepf_run. eapply BStept_letapp; eauto.
      * apply bstep_fuel_run_inv in K as (c2 & E & K); [|lia].
        match goal with HA : bstep_fuel cenv ?rf _ c' (Res v) |- _ => rename HA into BA end.
        inversion K; subst;
          repeat match goal with
          | H1 : ?a = Some _, H2 : ?a = Some _ |- _ => rewrite H1 in H2; injection H2; clear H2; intros; subst
          end.
        -- match goal with HX : bstep_fuel cenv _ _ ?cx (Res ?vx), HE : bstep_fuel cenv (set z ?vx rho) ec _ _ |- _ =>
             destruct (bstep_fuel_det _ _ _ _ _ _ _ HX BA) as [EC EV]; subst cx vx end.
           match goal with HE : bstep_fuel cenv (set z v rho) ec ?cc _ |- bstep_fuel _ _ _ ?dd _ => replace dd with cc by lia; exact HE end.
        -- exfalso. match goal with HX : bstep_fuel cenv _ _ ?cx OOT |- _ =>
             pose proof (bstep_fuel_oot_lt _ _ _ _ _ _ HX BA) end. lia.
  - inversion B'.
  - inversion B'.
  - (* Ehalt *) injection IL as <- <-. inversion B'; subst. exists rho, 0.
    split; [auto|split; [auto|split; [lia|split; [lia|]]]]. intros ec c2 r2. cbn. tauto.
Qed.

(** the result variable *)
Lemma letapp_var : forall e z C x', inline_letapp e z = Some (C, x') ->
  x' = z \/ In x' (bv e) \/ free x' e.
Proof.
  induction e using exp_ind2 with (P0 := fun _ => True); try exact I; intros z C x' IL;
    cbn [inline_letapp] in IL;
    try (destruct (inline_letapp e z) as [[C1 x1]|] eqn:IE; [|discriminate IL]; injection IL as <- <-;
         first [destruct (IHe _ _ _ IE) as [K|[K|K]]|destruct (IHe0 _ _ _ IE) as [K|[K|K]]]).
  all: try (left; exact K).
  all: try (right; left; cbn [bv]; try (apply in_or_app); right; exact K).
  all: cbn [free bv].
  - destruct (Pos.eq_dec x1 x) as [->|]; [right; left; left; auto|right; right; auto].
  - discriminate.
  - destruct (Pos.eq_dec x1 x) as [->|]; [right; left; left; auto|right; right; auto].
  - destruct (Pos.eq_dec x1 x) as [->|]; [right; left; left; auto|right; right; auto].
  - destruct (in_dec Pos.eq_dec x1 (fnames B)) as [J|J]; [|right; right; auto].
    right. left. apply in_or_app. left. clear -J.
    induction B as [g t xs b B IH|]; cbn in *; [|tauto].
    destruct J as [->|J]; [auto|right]. apply in_or_app. right. apply in_or_app. right. auto.
  - injection IL as <- <-. auto.
  - destruct (Pos.eq_dec x1 x) as [->|]; [right; left; left; auto|right; right; auto].
  - destruct (Pos.eq_dec x1 x) as [->|]; [right; left; left; auto|right; right; auto].
  - injection IL as <- <-. auto.
Qed.

(** binders and free variables of a program built with the context *)
Lemma letapp_bv : forall e z C x' ec, inline_letapp e z = Some (C, x') ->
  forall x, In x (bv (app_ctx_f C ec)) -> x = z \/ In x (bv e) \/ In x (bv ec).
Proof.
  induction e using exp_ind2 with (P0 := fun _ => True); try exact I; intros z C x' ec IL w Iw;
    cbn [inline_letapp] in IL;
    try (destruct (inline_letapp e z) as [[C1 x1]|] eqn:IE; [|discriminate IL]; injection IL as <- <-;
         cbn [app_ctx_f bv] in *).
  all: try (destruct Iw as [->|Iw]; [cbn; auto|destruct (IHe _ _ _ ec IE w Iw) as [K|[K|K]]; cbn; auto; fail]).
  - discriminate.
  - rewrite in_app_iff in *. destruct Iw as [Iw|Iw]; [auto|]. destruct (IHe0 _ _ _ ec IE w Iw) as [K|[K|K]]; auto.
  - injection IL as <- <-. cbn in Iw |- *. destruct Iw as [->|]; auto.
  - injection IL as <- <-. cbn in Iw. auto.
Qed.

Lemma NoDup_app_iff A (l1 l2 : list A) :
  NoDup (l1 ++ l2) <-> NoDup l1 /\ NoDup l2 /\ forall x, In x l1 -> ~ In x l2.
Proof.
  induction l1 as [|a l1 IH]; cbn.
  - split; [intro; split; [constructor|split; auto]|tauto].
  - split.
    + intro H. inversion H as [|? ? H1 H2]; subst. apply IH in H2 as (A1 & A2 & A3).
      rewrite in_app_iff in H1. split; [constructor; tauto|]. split; [auto|].
      intros x [->|I]; [tauto|auto].
    + intros (H1 & H2 & H3). inversion H1; subst. constructor.
      * rewrite in_app_iff. intros [I|I]; [tauto|]. apply (H3 a); auto.
      * apply IH. auto.
Qed.

Lemma letapp_NoDup : forall e z C x' ec, inline_letapp e z = Some (C, x') ->
  NoDup (bv e) -> NoDup (bv ec) -> ~ In z (bv e) -> ~ In z (bv ec) ->
  (forall x, In x (bv e) -> ~ In x (bv ec)) -> NoDup (bv (app_ctx_f C ec)).
Proof.
  induction e using exp_ind2 with (P0 := fun _ => True); try exact I; intros z C x' ec IL N1 N2 Z1 Z2 D;
    cbn [inline_letapp] in IL;
    try (destruct (inline_letapp e z) as [[C1 x1]|] eqn:IE; [|discriminate IL]; injection IL as <- <-;
         cbn [app_ctx_f bv] in *).
  all: try (inversion N1; subst; constructor;
      [intro J; destruct (letapp_bv _ _ _ _ _ IE _ J) as [K|[K|K]]; subst;
        [apply Z1; left; auto|tauto|apply (D x); [left; auto|auto]]
      |eapply IHe; eauto;[intro; apply Z1; right; auto|intros; apply D; right; auto]]).
  - discriminate.
  - apply NoDup_app_iff in N1 as (A1 & A2 & A3). rewrite in_app_iff in Z1. apply NoDup_app_iff.
    split; [auto|split].
    + eapply IHe0; eauto. intros x Ix. apply D. apply in_or_app. auto.
    + intros x Ix J. destruct (letapp_bv _ _ _ _ _ IE _ J) as [K|[K|K]]; subst.
      * tauto.
      * exact (A3 x Ix K).
      * apply (D x); auto. apply in_or_app. auto.
  - injection IL as <- <-. cbn. constructor; auto.
  - injection IL as <- <-. cbn. auto.
Qed.

(** variables bound between the root of a context and its hole *)
Fixpoint cstem (C : exp_ctx) : list var :=
  match C with
  | Hole_c => []
  | Econstr_c x _ _ C => x :: cstem C
  | Eproj_c x _ _ _ C => x :: cstem C
  | Eletapp_c x _ _ _ C => x :: cstem C
  | Eprim_val_c x _ C => x :: cstem C
  | Eprim_c x _ _ C => x :: cstem C
  | Efun1_c B C => fnames B ++ cstem C
  | Ecase_c _ _ _ C _ => cstem C
  | Efun2_c _ _ => []
  end.

Lemma letapp_free : forall e z C x', inline_letapp e z = Some (C, x') ->
  (forall ec w, free w (app_ctx_f C ec) -> free w e \/ (free w ec /\ ~ In w (cstem C))) /\
  (In x' (cstem C) \/ free x' e).
Proof.
  induction e using exp_ind2 with (P0 := fun _ => True); try exact I; intros z C x' IL;
    cbn [inline_letapp] in IL;
    try (destruct (inline_letapp e z) as [[C1 x1]|] eqn:IE; [|discriminate IL]; injection IL as <- <-;
         first [destruct (IHe _ _ _ IE) as [K1 K2]|destruct (IHe0 _ _ _ IE) as [K1 K2]]);
    cbn [app_ctx_f free cstem In].
  all: try (split; [intros ec w F; destruct F as [F|[N F]]; [auto|destruct (K1 ec w F) as [F'|[F' N']]; [left; auto|right; split; [auto|intros [->|J]; tauto]]]
     |destruct (Pos.eq_dec x1 x) as [->|]; [auto|destruct K2; auto]]; fail).
  - discriminate.
  - split.
    + intros ec w [F|[F|[N F]]]; auto. destruct (K1 ec w F) as [F'|[F' N']]; [left; auto|right; split; [auto|intros [->|J]; tauto]].
    + destruct (Pos.eq_dec x1 x) as [->|]; [auto|destruct K2; auto].
  - split.
    + intros ec w [N F]. destruct F as [F|F]; [|auto]. rewrite in_app_iff.
      destruct (K1 ec w F) as [F'|[F' N']]; [left; auto|right]. split; [auto|tauto].
    + rewrite in_app_iff. destruct (in_dec Pos.eq_dec x1 (fnames B)); [auto|]. destruct K2; auto.
  - injection IL as <- <-. cbn. split; [|auto]. intros ec w [->|[F|[N F]]]; auto.
    right. split; [auto|]. intros [|[]]; auto.
  - split; [intros ec w [N F]; destruct (K1 ec w F) as [F'|[F' N']]; [left; auto|right; split; [auto|intros [->|J]; tauto]]
     |destruct (Pos.eq_dec x1 x) as [->|]; [auto|destruct K2; auto]].
  - injection IL as <- <-. cbn. split; auto.
Qed.

(** ** The statement about evaluation *)
Definition same_res cenv (r r' : res val) : Prop :=
  match r, r' with
  | OOT, OOT => True
  | Res v, Res v' => (forall k, vrel cenv eqc k v v') /\ (data v -> v' = v)
  | _, _ => False
  end.

Lemma erel_eqc_all cenv rho1 e1 rho2 e2 :
  (forall k, erel cenv (vrel cenv eqc) eqc k rho1 e1 rho2 e2) ->
  forall c r, bstep_fuel cenv rho1 e1 c r ->
    exists r', bstep_fuel cenv rho2 e2 c r' /\ same_res cenv r r'.
Proof.
  intros H c r B. destruct (H c c r ltac:(lia) B) as (c2 & r2 & B2 & E & R).
  unfold eqc in E. rewrite <- E in B2. clear c2 E. exists r2. split; [auto|].
  destruct r as [|v], r2 as [|v2]; cbn in R |- *; try tauto.
  assert (K : forall k, vrel cenv eqc k v v2).
  { intro k. destruct (H (c + k) c (Res v) ltac:(lia) B) as (c3 & [|v3] & B3 & E3 & R3); [destruct R3|].
    destruct (bstep_fuel_det _ _ _ _ _ _ _ B2 B3) as [EV EC]; rewrite <- EV in R3.
    cbn in R3. replace (c + k - c) with k in R3 by lia. exact R3. }
  split; [exact K|]. intro D. eapply vrel_data; [apply (K 0)|exact D].
Qed.

Lemma rename_all_nil e : rename_all [] e = e.
Proof.
  assert (R : (forall e sg, sg = [] -> rename_all sg e = e) /\ (forall B sg, sg = [] -> rename_all_fun sg B = B)).
  { assert (RM : forall xs, remove_all ([] : subst) xs = []).
    { induction xs; cbn; [auto|]. rewrite IHxs. reflexivity. }
    assert (AL : forall ys, apply_r_list [] ys = ys).
    { intro ys. unfold apply_r_list. rewrite <- (map_id ys) at 2. apply map_ext. reflexivity. }
    apply exp_fundefs_ind; intros; subst; cbn [rename_all rename_all_fun mremove filter];
      rewrite ?AL, ?RM; try (rewrite H by reflexivity); try (rewrite H0 by reflexivity); try reflexivity.
    f_equal. induction H as [|[t e'] l Hp F IHl]; cbn; [auto|]. cbn in Hp. rewrite Hp by auto. f_equal. exact IHl. }
  apply R. reflexivity.
Qed.

Lemma vrel_refl_eqc cenv : forall v k, vrel cenv eqc k v v.
Proof.
  assert (ID : forall e (P : var -> Prop), (forall x, free x e -> P x) -> aeq (fun a b => P a /\ a = b) e e).
  { intros e P HP.
    assert (Z : aeq (graph P []) e (rename_all [] e)) by (apply rename_aeq; [auto|discriminate]).
    rewrite rename_all_nil in Z. revert Z. apply (proj1 aeq_mono). intros a b [Pa ->]. auto. }
  apply (val_ind2 (fun v => forall k, vrel cenv eqc k v v)).
  - intros t vs F k. apply vrel_constr. split; auto. apply Forall2_same. intros v I.
    rewrite Forall_forall in F. auto.
  - intros rho B f F k. revert f. induction k as [k IHk] using lt_wf_ind. intro f. apply vrel_fun.
    intros t xs1 e1 vs1 rho1' vs2 Fd S L.
    assert (S' : length xs1 = length vs2) by (rewrite <- L; eapply set_lists_length; exact S).
    destruct (set_lists_total xs1 vs2 (def_funs B B rho rho) S') as [rho2' S2].
    exists xs1, e1, rho2'. split; [auto|split; [auto|]]. intros j J FV.
    eapply (proj1 (aeq_sem cenv eqc eqc_step eqc_let eq_refl)); [apply (ID e1 (fun _ => True)); auto|].
    intros a b [_ <-]. eapply (set_lists_arel cenv eqc j xs1 vs1 vs2); eauto. right.
    intros v Gv. rewrite def_funs_get in *. destruct (in_dec Pos.eq_dec a (fnames B)) as [Jy|Jy].
    + injection Gv as <-. eexists. split; [reflexivity|]. apply IHk. lia.
    + exists v. split; auto. exact (get_Forall _ (fun v => forall k, vrel cenv eqc k v v) _ _ _ F Gv j).
  - intros p k. destruct k; reflexivity.
  - intros p k. destruct k; reflexivity.
Qed.

(** renaming: both directions, same number of steps *)
Lemma rename_sem cenv sg e rho rho' :
  (forall x y, free x e -> get x sg = Some y -> ~ In y (bv e)) ->
  (forall x, free x e -> get x rho = get (apply_r sg x) rho') ->
  (forall c r, bstep_fuel cenv rho e c r ->
     exists r', bstep_fuel cenv rho' (rename_all sg e) c r' /\ same_res cenv r r') /\
  (forall c r', bstep_fuel cenv rho' (rename_all sg e) c r' ->
     exists r, bstep_fuel cenv rho e c r /\ same_res cenv r' r).
Proof.
  intros C E.
  assert (A : aeq (graph (fun x => free x e) sg) e (rename_all sg e)) by (apply rename_aeq; auto).
  split; apply erel_eqc_all; intro k.
  - eapply (proj1 (aeq_sem cenv eqc eqc_step eqc_let eq_refl)); [exact A|].
    intros a b [Fa ->] v G. rewrite (E a Fa) in G. exists v. split; auto. apply vrel_refl_eqc.
  - eapply (proj1 (aeq_sem cenv eqc eqc_step eqc_let eq_refl)); [apply (proj1 aeq_sym); exact A|].
    intros a b [Fa ->] v G. rewrite <- (E b Fa) in G. exists v. split; auto. apply vrel_refl_eqc.
Qed.

Lemma letapp_rename cenv body z C x' x ec rho :
  inline_letapp body z = Some (C, x') ->
  (forall y, free y ec -> y <> x -> y <> z /\ ~ In y (bv body)) ->
  ~ In x' (bv ec) ->
  (forall c1 v, bstep_fuel cenv rho body c1 (Res v) ->
     exists c0, c0 <= c1 <= c0 + 1 /\
     (forall c2 r, bstep_fuel cenv (set x v rho) ec c2 r ->
        exists r', bstep_fuel cenv rho (app_ctx_f C (rename x' x ec)) (c0 + c2) r' /\ same_res cenv r r') /\
     (forall c2 r', bstep_fuel cenv rho (app_ctx_f C (rename x' x ec)) (c0 + c2) r' ->
        exists r, bstep_fuel cenv (set x v rho) ec c2 r /\ same_res cenv r' r)) /\
  (forall c, bstep_fuel cenv rho body c OOT ->
     bstep_fuel cenv rho (app_ctx_f C (rename x' x ec)) c OOT).
Proof.
  intros IL HF HX. split.
  - intros c1 v B. destruct (letapp_sem cenv _ _ _ _ IL _ _ _ B) as (rho' & c0 & G & AG & L1 & L2 & RE).
    exists c0. split; [lia|].
    destruct (rename_sem cenv (set x x' []) ec (set x v rho) rho') as [R1 R2].
    { intros a b Fa Ga. cbn [get set] in Ga. destruct (Pos.eq_dec a x); [|discriminate].
      injection Ga as <-. exact HX. }
    { intros a Fa. unfold apply_r. cbn [get set]. destruct (Pos.eq_dec a x) as [->|N]; [auto|].
      destruct (HF a Fa N) as [N1 N2]. symmetry. apply AG; auto. }
    split.
    + intros c2 r K. destruct (R1 c2 r K) as (r' & K' & SR). exists r'. split; [|auto]. apply RE. exact K'.
    + intros c2 r' K. apply RE in K. exact (R2 c2 r' K).
  - intros c B. apply (letapp_sem cenv _ _ _ _ IL _ _ _ B).
Qed.
