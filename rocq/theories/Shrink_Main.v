(** * The shrink reducer: every construct *)
From Coq Require Import ZArith NArith PArith List Lia Bool Arith Permutation.
From Verif Require Import ANF_Syntax ANF_Eval ANF_Spec ANF_EvalProofs ANF_FreeProofs ANF_Scope ANF_LR ANF_LRProofs ANF_Subst
  ANF_Alpha CC_Scope Shrink_Census
  Shrink_CensusProofs Shrink_Model Shrink_Total Inline_Model Inline_LetProofs Inline_Syn Inline_Sem Inline_Obs Shrink_Inv Shrink_Env
  Shrink_Bind Shrink_Fold Shrink_Inl Shrink_LetApp Shrink_Sem Shrink_Funs Shrink_Post Shrink_FunSem.
Import ListNotations.

Lemma incr_some (o : option (shrunk exp)) e s c im : incr_steps o = Some (e, s, c, im) -> exists s', o = Some (e, s', c, im).
Proof.
  unfold incr_steps. destruct o as [[[[e1 s1] c1] im1]|]; [|discriminate]. intro H. injection H as <- <- <- <-. eauto.
Qed.

Lemma dec_case_le sig t : forall cl e c v n,
  findtag cl t = Some e ->
  n + cnt v (apply_r_list sig (ucl cl)) <= get_c v c ->
  n + cnt v (apply_r_list sig (uses e)) <= get_c v (dec_census_case sig cl t c).
Proof.
  assert (D : forall cl c v, get_c v (dec_census_all_case sig cl c) = get_c v c - cnt v (apply_r_list sig (ucl cl))).
  { induction cl as [|[k b] cl IH]; intros c v; cbn [dec_census_all_case].
    - change (apply_r_list sig (ucl [])) with (@nil var). change (cnt v []) with 0. lia.
    - change (ucl ((k, b) :: cl)) with (uses b ++ ucl cl). rewrite dec_exp_le, IH, arl_app, cnt_app. lia. }
  induction cl as [|[k b] cl IH]; intros e c v n F E; cbn [findtag] in F; [discriminate|].
  cbn [dec_census_case]. change (ucl ((k, b) :: cl)) with (uses b ++ ucl cl) in E. rewrite arl_app, cnt_app in E.
  destruct (Pos.eq_dec k t).
  - injection F as ->. rewrite D. lia.
  - rewrite dec_exp_le. specialize (IH e c v (n + cnt v (apply_r_list sig (uses b))) F ltac:(lia)). lia.
Qed.

Section Main.
  Variables (cenv : ctor_env) (A G : nat).
  Hypothesis HA : 1 <= A.
  Hypothesis HAG : G + 1 <= A.
  Notation VR := (vrel cenv (slin A G)).
  Notation ER i := (erel cenv VR (slin A i)).
  Notation sem := (sem cenv A G).
  Notation ok_at := (ok_at cenv A G).
  Notation VRm := (VR_mono cenv A G).
  Notation AR := (arel cenv (slin A G)).

  Lemma lin_up n : step_ok (slin A (2 * n)) (slin A (2 * S n)).
  Proof. apply slin_step; [auto|lia]. Qed.

  Lemma args_arel k rho1 rho2 sig ys : (forall y, In y ys -> AR k rho1 y rho2 (apply_r sig y)) ->
    Forall2 (fun y1 y2 => AR k rho1 y1 rho2 y2) ys (apply_r_list sig ys).
  Proof.
    induction ys as [|y ys IHys]; intro H; cbn; constructor; [apply H; left; auto|].
    apply IHys. intros z I. apply H. right. auto.
  Qed.

  (** ** Binders *)
  Section Binder.
    Variables (x : var) (us : list var) (e0 e : exp).
    Hypothesis HU : uses e0 = us ++ uses e.
    Hypothesis HB : bv e0 = x :: bv e.
    Hypothesis HF : forall w, free w e0 <-> In w us \/ (w <> x /\ free w e).
    Variables (R : var -> nat) (sig : subst) (count : c_map) (sub : ctx_map) (im : b_map) (P : list fdef).
    Hypothesis IV : inve R sig count e0 sub im P.
    Notation nd := (need (fun w => free w e0) sub im P).
    Notation R1 := (R1 us R sig).

    Lemma b_sub_x : get x sub = None.
    Proof. apply (i_sub _ _ _ _ _ _ _ _ _ IV). unfold bnd. rewrite HB, cnt_cons. destruct (Pos.eq_dec x x); [lia|congruence]. Qed.
    Lemma b_same : sub_ok x e0 sig sub im P R1 sub.
    Proof. intro z. left. auto. Qed.
    Lemma b_constr t : sub_ok x e0 sig sub im P R1 (set x (SVconstr t us) sub).
    Proof.
      intro z. rewrite get_set. destruct (Pos.eq_dec z x) as [->|]; [|auto]. right. split; [left; auto|].
      exists t, us. split; [auto|]. intros y Y. split; [eapply bind_us; eauto|]. unfold Shrink_Bind.R1.
      assert (K : In (apply_r sig y) (apply_r_list sig us)) by (apply arl_In; eauto). apply cnt_In in K. lia.
    Qed.
    Lemma b_notin : ~ In x us.
    Proof. intro X. destruct (bind_nd x e0 e HB R sig count sub im P IV x (bind_us x us e0 e HF sub im P x X)). congruence. Qed.

    Lemma b_env_keep sub1 e' e0' (S1 : sub_ok x e0 sig sub im P R1 sub1) k j rho1 rho2 v1 v2 :
      (forall w, free w e0' <-> In w (apply_r_list sig us) \/ (w <> x /\ free w e')) ->
      envok VR k rho1 rho2 sig (fun w => free w e0) sub im P (fun w => free w e0') -> j <= k -> VR j v1 v2 ->
      known (set x v1 rho1) v1 (get x sub1) (get_b x im) x ->
      envok VR j (set x v1 rho1) (set x v2 rho2) sig (fun w => free w e) sub1 im P (fun w => free w e').
    Proof.
      intros HF' E J V K.
      apply (bind_env x us e0 e HB HF R sig count sub im P IV sub1 S1 e' VR VRm k j rho1 rho2 (fun w => free w e0') v1 E J).
      - intros w Nw Fw. destruct (bind_nd x e0 e HB R sig count sub im P IV w Nw) as [_ N]. split; [apply HF'; auto|].
        rewrite get_set. destruct (Pos.eq_dec (apply_r sig w) x); [congruence|auto].
      - intros _. split; [|exact K]. intros _. exists v2. rewrite get_set. destruct (Pos.eq_dec x x); [auto|congruence].
    Qed.

    Lemma b_env_drop sub1 e' (S1 : sub_ok x e0 sig sub im P R1 sub1) k j rho1 rho2 v1 :
      envok VR k rho1 rho2 sig (fun w => free w e0) sub im P (fun w => free w e') -> j <= k ->
      (free x e -> ~ free x e' /\ known (set x v1 rho1) v1 (get x sub1) (get_b x im) x) ->
      envok VR j (set x v1 rho1) rho2 sig (fun w => free w e) sub1 im P (fun w => free w e').
    Proof.
      intros E J K.
      apply (bind_env x us e0 e HB HF R sig count sub im P IV sub1 S1 e' VR VRm k j rho1 rho2 (fun w => free w e') v1 E J).
      - auto.
      - intro F. destruct (K F) as [K1 K2]. split; [tauto|exact K2].
    Qed.

    Lemma b_args k rho1 rho2 (fe' : var -> Prop) (HF' : forall w, In w (apply_r_list sig us) -> fe' w) :
      envok VR k rho1 rho2 sig (fun w => free w e0) sub im P fe' ->
      forall y, In y us -> AR k rho1 y rho2 (apply_r sig y).
    Proof.
      intros E y Y. eapply env_arel; [exact E|eapply bind_us; eauto|]. apply HF', arl_In. eauto.
    Qed.
  End Binder.

  Variable n : nat.
  Hypothesis OK : ok_at n.

  Ltac next H := apply incr_some in H as [? H].

  Lemma c_constr R sig c x t ys e sub im P e' s c' im' :
    contract (S n) sig c (Econstr x t ys e) sub im = Some (e', s, c', im') -> inve R sig c (Econstr x t ys e) sub im P ->
    poste R sig (Econstr x t ys e) sub im P e' c' im' /\ sem (S n) sig (Econstr x t ys e) sub im P e'.
  Proof.
    intros H IV. cbn [contract] in H.
    assert (HU : uses (Econstr x t ys e) = ys ++ uses e) by reflexivity.
    assert (HB : bv (Econstr x t ys e) = x :: bv e) by reflexivity.
    assert (HF : forall w, free w (Econstr x t ys e) <-> In w ys \/ (w <> x /\ free w e)) by (intro w; cbn; tauto).
    destruct (get_c x c) eqn:C.
    - next H. destruct (OK _ _ _ _ _ _ _ _ _ _ _ H (bind_inv_drop x ys _ e HU HB HF _ _ _ _ _ _ IV)) as [Q S1].
      split; [eapply bind_post_drop; eauto|].
      intros LG k rho1 rho2 E. replace (2 * S n) with (2 * n + 2) by lia. apply (ER_later cenv A G HA HAG).
      intros c0 r B. inversion B as [? ? ? L0|? ? ? c1 B1]; subst; [lia|]. replace c0 with c1 by lia. inversion B1; subst.
      eexists _, _. split; [|eassumption]. apply S1; [lia|].
      eapply (b_env_drop x ys _ e HB HF); eauto. { apply b_same. }
      intro F. exfalso. eapply (bind_unused x ys); eauto.
    - destruct (contract n sig c e (set x (SVconstr t ys) sub) im) as [[[[e1 s1] c1] im1]|] eqn:H1; [|discriminate].
      pose proof (b_constr x ys _ e HF R sig sub im P t) as SO.
      destruct (OK _ _ _ _ _ _ _ _ _ _ _ H1 (bind_inv_keep x ys _ e HU HB HF _ _ _ _ _ _ IV _ SO)) as [Q S1].
      pose proof (b_notin x ys _ e HB HF _ _ _ _ _ _ IV) as NX.
      assert (KN : forall rho1 vs, get_list ys rho1 = Some vs ->
        known (set x (Vconstr t vs) rho1) (Vconstr t vs) (get x (set x (SVconstr t ys) sub)) (get_b x im) x).
      { intros rho1 vs GL. rewrite get_set. destruct (Pos.eq_dec x x); [|congruence]. cbn [known]. exists vs. split; [auto|].
        rewrite (get_list_same rho1); [auto|]. intros y Y. rewrite get_set. destruct (Pos.eq_dec y x); [subst; tauto|auto]. }
      destruct (get_c x c1) eqn:C1; injection H as <- <- <- <-.
      + split; [eapply bind_post_later; eauto|].
        intros LG k rho1 rho2 E. replace (2 * S n) with (2 * n + 2) by lia. apply (ER_later cenv A G HA HAG).
        intros c0 r B. inversion B as [? ? ? L0|? ? ? c2 B1]; subst; [lia|]. replace c0 with c2 by lia. inversion B1; subst.
        eexists _, _. split; [|eassumption]. apply S1; [lia|].
        eapply (b_env_drop x ys _ e HB HF); eauto.
        intro F. split; [|auto]. eapply (bind_later_unused x ys); eauto.
      + assert (HF' : forall w, free w (Econstr x t (apply_r_list sig ys) e1) <-> In w (apply_r_list sig ys) \/ (w <> x /\ free w e1))
          by (intro w; cbn; tauto).
        split; [eapply bind_post_keep; eauto|].
        intros LG k rho1 rho2 E. replace (2 * S n) with (2 * n + 2) by lia. apply (erel_constr' cenv A G HA HAG).
        * apply args_arel. eapply (b_args x ys _ e HF); [|exact E]. intros w W. apply HF'. auto.
        * intros j vs1 vs2 J GL V. apply S1; [lia|]. eapply (b_env_keep x ys _ e HB HF); eauto. { lia. }
          apply vrel_constr. auto.
  Qed.

  Lemma c_proj R sig c x t i y e sub im P e' s c' im' :
    contract (S n) sig c (Eproj x t i y e) sub im = Some (e', s, c', im') -> inve R sig c (Eproj x t i y e) sub im P ->
    poste R sig (Eproj x t i y e) sub im P e' c' im' /\ sem (S n) sig (Eproj x t i y e) sub im P e'.
  Proof.
    intros H IV. cbn [contract] in H.
    assert (HU : uses (Eproj x t i y e) = [y] ++ uses e) by reflexivity.
    assert (HB : bv (Eproj x t i y e) = x :: bv e) by reflexivity.
    assert (HF : forall w, free w (Eproj x t i y e) <-> In w [y] \/ (w <> x /\ free w e)) by (intro w; cbn; intuition).
    assert (KN : forall rho1 v, known rho1 v (get x sub) (get_b x im) x).
    { intros. rewrite (b_sub_x x _ e HB _ _ _ _ _ _ IV). exact I. }
    destruct (get_c x c) eqn:C.
    - next H. destruct (OK _ _ _ _ _ _ _ _ _ _ _ H (bind_inv_drop x [y] _ e HU HB HF _ _ _ _ _ _ IV)) as [Q S1].
      split; [eapply bind_post_drop; eauto|].
      intros LG k rho1 rho2 E. replace (2 * S n) with (2 * n + 2) by lia. apply (ER_later cenv A G HA HAG).
      intros c0 r B. inversion B as [? ? ? L0|? ? ? c1 B1]; subst; [lia|]. replace c0 with c1 by lia. inversion B1; subst.
      eexists _, _. split; [|eassumption]. apply S1; [lia|].
      eapply (b_env_drop x [y] _ e HB HF); eauto. { apply b_same. }
      intro F. exfalso. eapply (bind_unused x [y]); eauto.
    - match type of H with match ?M with _ => _ end = _ => destruct M as [yn|] eqn:HM end.
      + destruct (get (apply_r sig y) sub) as [[t' ys|]|] eqn:Gy; try discriminate.
        next H. destruct (OK _ _ _ _ _ _ _ _ _ _ _ H (pj_inv _ _ _ _ _ _ _ _ _ _ _ _ IV _ _ Gy HM)) as [Q S1].
        assert (Q0 := pj_post _ _ _ _ _ _ _ _ _ _ _ _ IV _ _ Gy HM _ _ _ Q). split; [exact Q0|].
        intros LG k rho1 rho2 E. replace (2 * S n) with (2 * n + 2) by lia. apply (ER_later cenv A G HA HAG).
        intros c0 r B. inversion B as [? ? ? L0|? ? ? c1 B1]; subst; [lia|]. replace c0 with c1 by lia. inversion B1; subst.
        eexists _, _. split; [|eassumption]. apply S1; [lia|].
        eapply (pj_env _ _ _ _ _ _ _ _ _ _ _ _ IV _ _ Gy HM VR VRm); eauto.
      + destruct (contract n sig c e sub im) as [[[[e1 s1] c1] im1]|] eqn:H1; [|discriminate].
        pose proof (b_same x [y] (Eproj x t i y e) R sig sub im P) as SO.
        destruct (OK _ _ _ _ _ _ _ _ _ _ _ H1 (bind_inv_keep x [y] _ e HU HB HF _ _ _ _ _ _ IV _ SO)) as [Q S1].
        destruct (get_c x c1) eqn:C1; injection H as <- <- <- <-.
        * split; [eapply bind_post_later; eauto|].
          intros LG k rho1 rho2 E. replace (2 * S n) with (2 * n + 2) by lia. apply (ER_later cenv A G HA HAG).
          intros c0 r B. inversion B as [? ? ? L0|? ? ? c2 B1]; subst; [lia|]. replace c0 with c2 by lia. inversion B1; subst.
          eexists _, _. split; [|eassumption]. apply S1; [lia|].
          eapply (b_env_drop x [y] _ e HB HF); eauto.
          intro F. split; [|auto]. eapply (bind_later_unused x [y]); eauto.
        * assert (HF' : forall w, free w (Eproj x t i (apply_r sig y) e1) <-> In w (apply_r_list sig [y]) \/ (w <> x /\ free w e1))
            by (intro w; cbn; intuition).
          split; [eapply bind_post_keep; eauto|].
          intros LG k rho1 rho2 E. eapply erel_proj; [apply lin_up| |].
          -- eapply (b_args x [y] _ e HF); [|exact E|left; auto]. intros w W. apply HF'. auto.
          -- intros j v1 v2 J V. apply S1; [lia|]. eapply (b_env_keep x [y] _ e HB HF); eauto. lia.
  Qed.

  Lemma c_letapp_keep R sig c x f t ys e sub im P e1 s1 c1 im1 :
    contract n sig c e sub im = Some (e1, s1, c1, im1) -> inve R sig c (Eletapp x f t ys e) sub im P ->
    poste R sig (Eletapp x f t ys e) sub im P (Eletapp x (apply_r sig f) t (apply_r_list sig ys) e1) c1 im1 /\
    sem (S n) sig (Eletapp x f t ys e) sub im P (Eletapp x (apply_r sig f) t (apply_r_list sig ys) e1).
  Proof.
    intros H1 IV.
    assert (HU : uses (Eletapp x f t ys e) = (f :: ys) ++ uses e) by reflexivity.
    assert (HB : bv (Eletapp x f t ys e) = x :: bv e) by reflexivity.
    assert (HF : forall w, free w (Eletapp x f t ys e) <-> In w (f :: ys) \/ (w <> x /\ free w e)) by (intro w; cbn; intuition).
    pose proof (b_same x (f :: ys) (Eletapp x f t ys e) R sig sub im P) as SO.
    destruct (OK _ _ _ _ _ _ _ _ _ _ _ H1 (bind_inv_keep x (f :: ys) _ e HU HB HF _ _ _ _ _ _ IV _ SO)) as [Q S1].
    set (e0' := Eletapp x (apply_r sig f) t (apply_r_list sig ys) e1).
    assert (HF' : forall w, free w e0' <-> In w (apply_r_list sig (f :: ys)) \/ (w <> x /\ free w e1))
      by (intro w; cbn; intuition).
    split; [eapply bind_post_keep; eauto|].
    intros LG k rho1 rho2 E.
    assert (AA : forall y, In y (f :: ys) -> AR k rho1 y rho2 (apply_r sig y)).
    { eapply (b_args x (f :: ys) _ e HF); [|exact E]. intros w W. apply HF'. auto. }
    apply (erel_weaken cenv (slin A G) (slin A (2 * n)) (slin A (2 * S n))).
    { intros b d1 d2 K. eapply slin_weaken; [|exact K]. lia. }
    eapply erel_letapp; [apply slin_let; auto|apply AA; left; auto| |].
    - apply args_arel. intros y Y. apply AA. right. auto.
    - intros j v1 v2 J V. apply S1; [lia|]. eapply (b_env_keep x (f :: ys) _ e HB HF); eauto. { lia. }
      rewrite (b_sub_x x _ e HB _ _ _ _ _ _ IV). exact I.
  Qed.

  Lemma c_letapp R sig c x f t ys e sub im P e' s c' im' :
    contract (S n) sig c (Eletapp x f t ys e) sub im = Some (e', s, c', im') -> inve R sig c (Eletapp x f t ys e) sub im P ->
    poste R sig (Eletapp x f t ys e) sub im P e' c' im' /\ sem (S n) sig (Eletapp x f t ys e) sub im P e'.
  Proof.
    intros H IV. cbn [contract] in H.
    match type of H with context [match contract n sig c e sub im with _ => _ end] =>
      set (keep := match contract n sig c e sub im with
        | Some (e'', steps, count', im') => Some (Eletapp x (apply_r sig f) t (apply_r_list sig ys) e'', steps, count', im')
        | None => None end) in H end.
    assert (KP : keep = Some (e', s, c', im') ->
      poste R sig (Eletapp x f t ys e) sub im P e' c' im' /\ sem (S n) sig (Eletapp x f t ys e) sub im P e').
    { unfold keep. destruct (contract n sig c e sub im) as [[[[e1 s1] c1] im1]|] eqn:H1; [|discriminate].
      intro K. injection K as <- <- <- <-. eapply c_letapp_keep; eauto. }
    destruct (get_c (apply_r sig f) c) as [|[|]] eqn:C1; auto.
    destruct (get (apply_r sig f) sub) as [[|t' xs m]|] eqn:Gf; auto.
    destruct (Pos.eqb t' t && Nat.eqb (length ys) (length xs) && negb (get_b (apply_r sig f) im)) eqn:T; auto.
    apply andb_true_iff in T as [T Ef]. apply andb_true_iff in T as [_ Len]. apply Nat.eqb_eq in Len.
    apply negb_true_iff in Ef.
    destruct (inline_letapp m x) as [[Ci x']|] eqn:IL; auto.
    next H. destruct (OK _ _ _ _ _ _ _ _ _ _ _ H (la_inv _ _ _ _ _ _ _ _ _ _ _ IV _ _ _ C1 Gf Ef Len _ _ IL)) as [Q S1].
    split; [eapply la_post; eauto|]. eapply letapp_inlined; eauto.
  Qed.

  Lemma c_app R sig c f t ys sub im P e' s c' im' :
    contract (S n) sig c (Eapp f t ys) sub im = Some (e', s, c', im') -> inve R sig c (Eapp f t ys) sub im P ->
    poste R sig (Eapp f t ys) sub im P e' c' im' /\ sem (S n) sig (Eapp f t ys) sub im P e'.
  Proof.
    intros H IV. cbn [contract] in H.
    assert (KP : Some (Eapp (apply_r sig f) t (apply_r_list sig ys), 0, c, im) = Some (e', s, c', im') ->
      poste R sig (Eapp f t ys) sub im P e' c' im' /\ sem (S n) sig (Eapp f t ys) sub im P e').
    { intro K. injection K as <- <- <- <-. split.
      - eapply post_same; [exact IV|cbn [uses]; auto|cbn; auto|]. intros z Z. cbn in Z.
        destruct Z as [->|Z]; [exists f; cbn; auto|]. apply arl_In in Z as (w & <- & W). exists w. cbn. auto.
      - intros LG k rho1 rho2 E. eapply erel_app; [apply slin_step; lia| |].
        + eapply env_arel; [exact E|left; cbn; auto|cbn; auto].
        + apply args_arel. intros y Y. eapply env_arel; [exact E|left; cbn; auto|]. cbn. right. apply arl_In. eauto. }
    destruct (get_c (apply_r sig f) c) as [|[|]] eqn:C1; auto.
    destruct (get (apply_r sig f) sub) as [[|t' xs m]|] eqn:Gf; auto.
    destruct (Pos.eqb t' t && (Nat.eqb (length ys) (length xs) && negb (get_b (apply_r sig f) im))) eqn:T; auto.
    apply andb_true_iff in T as [_ T]. apply andb_true_iff in T as [Len Ef]. apply Nat.eqb_eq in Len.
    apply negb_true_iff in Ef. clear KP.
    assert (HU : uses (Eapp f t ys) = (f :: ys) ++ []) by (cbn; rewrite app_nil_r; auto).
    assert (HF : forall w, free w (Eapp f t ys) <-> In w (f :: ys) \/ (fun _ => False) w) by (intro w; cbn; intuition).
    assert (UR : forall w : var, ((fun _ => False) w -> In w []) /\ (In w [] -> (fun _ => False) w \/ In w [])) by (intro w; cbn; tauto).
    assert (HC : forall z, R z + cnt z (apply_r_list (set_list (combine xs (apply_r_list sig ys)) sig) (uses m)) +
        pocc sig (set (apply_r sig f) true im) P z <= get_c z (update_count_inlined (apply_r_list sig ys) xs (set (apply_r sig f) 0 c))).
    { intro z. pose proof (il_counts _ f ys [] [] (fun _ => False) HU eq_refl HF UR _ _ _ _ _ _ IV _ _ _ C1 Gf Ef Len z) as K.
      lia. }
    assert (HB1 : forall z, cnt z (bv m) <= cnt z (bv m) + cnt z []) by (intro z; lia).
    assert (HF1 : forall w, free w m -> free w m \/ (fun _ => False) w) by auto.
    next H. destruct (OK _ _ _ _ _ _ _ _ _ _ _ H
      (il_inv _ f ys [] [] (fun _ => False) HU eq_refl HF _ _ _ _ _ _ IV _ _ _ C1 Gf Ef Len m _ HB1 HF1 HC)) as [Q S1].
    split; [exact (il_post _ f ys [] [] (fun _ => False) HU eq_refl HF UR _ _ _ _ _ _ IV _ _ _ C1 Gf Ef Len m _ HB1 HF1 HC _ _ _ Q)|].
    eapply app_inlined; eauto.
  Qed.

  Lemma c_prim R sig c x us e0 e sub im P e1 s1 c1 im1 e0' :
    uses e0 = us ++ uses e -> bv e0 = x :: bv e -> (forall w, free w e0 <-> In w us \/ (w <> x /\ free w e)) ->
    uses e0' = apply_r_list sig us ++ uses e1 -> bv e0' = x :: bv e1 ->
    (forall w, free w e0' <-> In w (apply_r_list sig us) \/ (w <> x /\ free w e1)) ->
    (forall rho c r, ~ bstep cenv rho e0 c r) ->
    contract n sig c e sub im = Some (e1, s1, c1, im1) -> inve R sig c e0 sub im P ->
    poste R sig e0 sub im P e0' c1 im1 /\ sem (S n) sig e0 sub im P e0'.
  Proof.
    intros HU HB HF HU' HB' HF' NS H1 IV.
    pose proof (b_same x us e0 R sig sub im P) as SO.
    destruct (OK _ _ _ _ _ _ _ _ _ _ _ H1 (bind_inv_keep x us _ e HU HB HF _ _ _ _ _ _ IV _ SO)) as [Q S1].
    split; [eapply bind_post_keep; eauto|].
    intros LG k rho1 rho2 E c0 r L B. inversion B as [? ? ? L0|? ? ? c2 B1]; subst.
    - exists 0, OOT. split; [apply bstep_fuel_zero|]. split; [split; cbn; lia|exact I].
    - destruct (NS _ _ _ B1).
  Qed.

  Lemma c_case R sig c v cl sub im P e' s c' im' :
    contract (S n) sig c (Ecase v cl) sub im = Some (e', s, c', im') -> inve R sig c (Ecase v cl) sub im P ->
    poste R sig (Ecase v cl) sub im P e' c' im' /\ sem (S n) sig (Ecase v cl) sub im P e'.
  Proof.
    intros H IV. cbn [contract] in H.
    assert (CN : forall z, R z + cnt z (apply_r_list sig [v]) + cnt z (apply_r_list sig (ucl cl)) + pocc sig im P z <= get_c z c).
    { intro z. pose proof (i_cnt _ _ _ _ _ _ _ _ _ IV z) as K. change (uses (Ecase v cl)) with ([v] ++ ucl cl) in K.
      rewrite arl_app, cnt_app in K. lia. }
    assert (NDo : forall w, need (fun w => free w (Ecase v cl)) sub im P w -> ~ In (apply_r sig w) []) by (intros; auto).
    match type of H with match ?M with _ => _ end = _ => destruct M as [[t k]|] eqn:HM end.
    - destruct (get (apply_r sig v) sub) as [[t' ys|]|] eqn:Gv; try discriminate.
      destruct (findtag cl t') as [k'|] eqn:FT; [|discriminate]. injection HM as -> ->.
      next H.
      assert (BI : forall z, cnt z (bv k) <= cnt z (bcl cl)).
      { intro z. apply findtag_In in FT. clear -FT. induction cl as [|[a b] cl IH]; [destruct FT|].
        change (bcl ((a, b) :: cl)) with (bv b ++ bcl cl). rewrite cnt_app.
        destruct FT as [K|K]; [injection K as -> ->; lia|specialize (IH K); lia]. }
      assert (HB : forall z, bnd (bv k) im P z + cnt z [] <= bnd (bv (Ecase v cl)) im P z).
      { intro z. unfold bnd. change (bv (Ecase v cl)) with (bcl cl). specialize (BI z). change (cnt z []) with 0. lia. }
      assert (FE : forall w, free w k -> need (fun w => free w (Ecase v cl)) sub im P w \/ In w []).
      { intros w Fw. left. left. apply free_Ecase. right. eapply free_case_In; [apply findtag_In|]; eauto. }
      assert (I1 : inve R sig (dec_census_case sig cl t (dec_census_list sig [v] c)) k sub im P).
      { apply (inv_step R sig c (uses (Ecase v cl)) (bv (Ecase v cl)) (fun w => free w (Ecase v cl)) sub im P IV []); auto.
        - apply ble_refl.
        - intros z [].
        - intro z.
          assert (K : R z + pocc sig im P z + cnt z (apply_r_list sig (ucl cl)) <= get_c z (dec_census_list sig [v] c)).
          { rewrite cnt_dec_list. specialize (CN z). lia. }
          pose proof (dec_case_le sig t cl k _ z _ FT K). lia.
        - intros z K. apply (i_R _ _ _ _ _ _ _ _ _ IV). specialize (HB z). lia.
        - apply uses_free.
        - apply uses_scope. }
      destruct (OK _ _ _ _ _ _ _ _ _ _ _ H I1) as [Q S1]. split.
      + eapply (post_step R sig c (uses (Ecase v cl)) (bv (Ecase v cl)) (fun w => free w (Ecase v cl)) sub im P IV [] R sig (bv k) (fun w => free w k) sub im); try exact Q; auto.
        * apply ble_refl.
        * intros z [].
        * intros g E E'. congruence.
        * intros d' [_ L] E. congruence.
        * intro z. lia.
      + intros LG kk rho1 rho2 E. replace (2 * S n) with (2 * n + 2) by lia. apply (ER_later cenv A G HA HAG).
        intros c0 r B. inversion B as [? ? ? L0|? ? ? c1 B1]; subst; [lia|]. replace c0 with c1 by lia. inversion B1; subst.
        match goal with G1 : get v rho1 = Some (Vconstr ?t0 ?vs), FT0 : findtag cl _ = Some _ |- _ =>
          destruct (E v _ ltac:(left; apply free_Ecase; auto) G1) as [_ KN]; rewrite Gv in KN; cbn [known] in KN;
          destruct KN as (vs' & EV & _); injection EV as -> ->; rewrite FT in FT0; injection FT0 as <- end.
        eexists _, _. split; [|eassumption]. apply S1; [lia|].
        apply (env_step VR VRm R sig c (uses (Ecase v cl)) (bv (Ecase v cl)) (fun w => free w (Ecase v cl)) sub im P IV [] sub im
          (fun w => free w e') (fun w => free w e') kk kk rho1 rho2 rho1 rho2); auto.
        * apply ble_refl.
        * intros w [K|K]; [destruct (FE w K) as [|[]]; auto|]. left. right. auto.
        * intros w u [].
    - destruct (contractcases (fun count e im => contract n sig count e sub im) c im cl) as [[[[cl' s1] c1] im1]|] eqn:H1; [|discriminate].
      injection H as <- <- <- <-.
      set (R' := fun z => R z + cnt z (apply_r_list sig [v])).
      assert (VN : bnd (bv (Ecase v cl)) im P (apply_r sig v) = 0).
      { apply (i_need _ _ _ _ _ _ _ _ _ IV v). left. apply free_Ecase. auto. }
      assert (FE : forall w, free_case w cl -> need (fun w => free w (Ecase v cl)) sub im P w \/ In w []).
      { intros w Fw. left. left. apply free_Ecase. auto. }
      assert (HB : forall z, bnd (bcl cl) im P z + cnt z [] <= bnd (bv (Ecase v cl)) im P z).
      { intro z. change (bv (Ecase v cl)) with (bcl cl). change (cnt z []) with 0. lia. }
      assert (I1 : inv R' sig c (ucl cl) (bcl cl) (fun w => free_case w cl) sub im P).
      { apply (inv_step R sig c (uses (Ecase v cl)) (bv (Ecase v cl)) (fun w => free w (Ecase v cl)) sub im P IV []); auto.
        - apply ble_refl.
        - intros z [].
        - intro z. unfold R'. lia.
        - intros z K. unfold R'. change (bcl cl) with (bv (Ecase v cl)) in K. rewrite (i_R _ _ _ _ _ _ _ _ _ IV z K).
          apply cnt_notIn. cbn. intros [<-|[]]. lia.
        - intros w. apply ucl_scope.
        - intros w. apply ucl_scope. }
      destruct (contractcases_ok cenv A G HA HAG n OK sig sub P cl R' c im cl' s1 c1 im1 H1 I1) as (Q & TG & SM). split.
      + eapply (post_step R sig c (uses (Ecase v cl)) (bv (Ecase v cl)) (fun w => free w (Ecase v cl)) sub im P IV [] R' sig (bcl cl) (fun w => free_case w cl) sub im); try exact Q; auto.
        * apply ble_refl.
        * intros z [].
        * intros g E E'. congruence.
        * intros d' [_ L] E. congruence.
        * intro z. unfold R'. change (uses (Ecase (apply_r sig v) cl')) with (apply_r_list sig [v] ++ ucl cl'). rewrite cnt_app. lia.
        * intro z. unfold R'. change (uses (Ecase (apply_r sig v) cl')) with (apply_r_list sig [v] ++ ucl cl'). rewrite cnt_app. lia.
        * intro z. change (bv (Ecase (apply_r sig v) cl')) with (bcl cl'). lia.
        * intros z Fz. apply free_Ecase in Fz as [->|Fz].
          -- left. exists v. split; [left; apply free_Ecase; auto|auto].
          -- right. split; [auto|intros []].
      + intros LG k rho1 rho2 E. eapply erel_case; [apply lin_up| | |].
        * eapply env_arel; [exact E|left; apply free_Ecase; auto|apply free_Ecase; auto].
        * unfold same_tags. auto.
        * intros j t e1 J FT. destruct (SM t e1 FT) as (e2 & im2 & FT2 & BL & S1). exists e2. split; [auto|].
          apply S1; [lia|].
          apply (env_step VR VRm R sig c (uses (Ecase v cl)) (bv (Ecase v cl)) (fun w => free w (Ecase v cl)) sub im P IV [] sub im2
            (fun w => free w (Ecase (apply_r sig v) cl')) (fun w => free w e2) k j rho1 rho2 rho1 rho2); auto.
          -- lia.
          -- intros w Nw Fw. split; [|auto]. apply free_Ecase. right. eapply free_case_In; [apply findtag_In|]; eauto.
          -- intros w [K|[(d & L & V)|K]].
             ++ left. left. apply free_Ecase. right. eapply free_case_In; [apply findtag_In|]; eauto.
             ++ left. right. left. exists d. split; [eapply live_le; eauto|auto].
             ++ left. right. right. auto.
          -- intros w u [].
  Qed.

  Lemma c_fun R sig c fl e sub im P e' s c' im' :
    contract (S n) sig c (Efun fl e) sub im = Some (e', s, c', im') -> inve R sig c (Efun fl e) sub im P ->
    poste R sig (Efun fl e) sub im P e' c' im' /\ sem (S n) sig (Efun fl e) sub im P e'.
  Proof.
    intros H IV. cbn [contract] in H.
    destruct (precontract sig c sub fl) as [[fl' c1] sub'] eqn:HP.
    destruct (contract n sig c1 e sub' im) as [[[[e'' s1] c2] im2]|] eqn:H1; [|discriminate].
    destruct (OK _ _ _ _ _ _ _ _ _ _ _ H1 (fn_inv _ _ _ _ _ _ _ _ IV _ _ _ HP)) as [Q S1].
    destruct (postcontractfun (fun count e im => contract n sig count e sub im) sig c2 im2 fl' 0)
      as [[[[fds s2] c3] im3]|] eqn:H2; [|discriminate].
    edestruct (postcontract_ok cenv A G HA HAG n OK sig sub P fl' (R2 R e'') c2 im2 0 fds s2 c3 im3 H2) as (Q2 & HN & HD & HM).
    { eapply fn_inv2; eauto. }
    { intros f F. assert (F' : In f (fnames fl)) by (eapply fn_names; eauto). split.
      - exact (fn_sub _ _ _ _ _ _ _ _ IV f F').
      - exact (fn_name2 _ _ _ _ _ _ _ _ IV _ _ _ HP _ _ _ Q f F'). }
    assert (K : e' = Efun fds e'' \/ (fds = Fnil /\ e' = e'')).
    { destruct fds; injection H as <- <- <- <-; auto. }
    assert (K2 : c' = c3 /\ im' = im3) by (destruct fds; injection H as <- <- <- <-; auto). destruct K2 as [-> ->].
    assert (F3 : forall w, free w e' <-> ~ In w (fnames fds) /\ (free w e'' \/ free_body w fds)).
    { intro w. destruct K as [->|[-> ->]]; cbn; tauto. }
    split.
    - eapply fn_post; eauto.
      + destruct K as [->|[-> ->]]; reflexivity.
      + destruct K as [->|[-> ->]]; reflexivity.
    - eapply fun_sem; eauto.
  Qed.
End Main.

Theorem contract_ok cenv A G (HA : 1 <= A) (HAG : G + 1 <= A) : forall n, ok_at cenv A G n.
Proof.
  induction n as [|n IH]; intros R sig c e sub im P e' s c' im' H IV; [discriminate|].
  destruct e as [x t ys e|v cl|x t i y e|x f t ys e|fl e|f t ys|x p e|x p ys e|v].
  - eapply c_constr; eauto.
  - eapply c_case; eauto.
  - eapply c_proj; eauto.
  - eapply c_letapp; eauto.
  - eapply c_fun; eauto.
  - eapply c_app; eauto.
  - cbn [contract] in H. destruct (contract n sig c e sub im) as [[[[e1 s1] c1] im1]|] eqn:H1; [|discriminate]. injection H as <- <- <- <-.
    eapply (c_prim cenv A G HA HAG n IH R sig c x []); eauto; try reflexivity.
    + intro w. cbn. tauto.
    + intro w. cbn. tauto.
    + intros rho d r B. inversion B.
  - cbn [contract] in H. destruct (contract n sig c e sub im) as [[[[e1 s1] c1] im1]|] eqn:H1; [|discriminate]. injection H as <- <- <- <-.
    eapply (c_prim cenv A G HA HAG n IH R sig c x ys); eauto; try reflexivity.
    + intros rho d r B. inversion B.
  - cbn [contract] in H. injection H as <- <- <- <-. split.
    + eapply post_same; [exact IV|cbn [uses]; auto|cbn; auto|]. intros z Z. cbn in Z. subst z. exists v. cbn. auto.
    + intros LG k rho1 rho2 E. apply erel_halt; [split; cbn; lia|split; cbn; lia|].
      eapply env_arel; [exact E|left; cbn; auto|cbn; auto].
Qed.
