(** * The shrink reducer: a let-bound call of a function used once *)
From Coq Require Import ZArith NArith PArith List Lia Bool Arith Permutation.
From Verif Require Import ANF_Syntax ANF_Eval ANF_Spec ANF_EvalProofs ANF_FreeProofs ANF_Scope ANF_LR ANF_LRProofs ANF_Subst
  ANF_Alpha CC_Scope Shrink_Census
  Shrink_CensusProofs Shrink_Model Shrink_Total Inline_Model Inline_LetProofs Inline_Syn Inline_Sem Inline_Obs Shrink_Inv Shrink_Env
  Shrink_Bind Shrink_Fold Shrink_Inl.
Import ListNotations.

Lemma bv_ns sg : (forall e, bv (rename_all_ns sg e) = bv e) /\
  (forall B, bv_funs (rename_all_fun_ns sg B) = bv_funs B /\ fnames (rename_all_fun_ns sg B) = fnames B).
Proof.
  apply exp_fundefs_ind; cbn [bv bv_funs rename_all_ns rename_all_fun_ns fnames]; intros; try (f_equal; auto; fail); auto.
  - induction H as [|[t e] l Hp F IHl]; [reflexivity|]. cbn [map flat_map snd] in *. f_equal; auto.
  - destruct H as [H _]. rewrite H, H0. auto.
  - destruct H0 as [H1 H2]. rewrite H, H1, H2. auto.
Qed.

Lemma free_ns :
  (forall e sg w, (forall x, In x (bv e) -> apply_r sg x = x) -> free w (rename_all_ns sg e) -> exists u, free u e /\ w = apply_r sg u) /\
  (forall B sg w, (forall x, In x (bv_funs B) -> apply_r sg x = x) -> free_body w (rename_all_fun_ns sg B) ->
     exists u, free_body u B /\ w = apply_r sg u).
Proof.
  assert (AL : forall sg w l, In w (apply_r_list sg l) -> exists u, In u l /\ w = apply_r sg u).
  { intros sg w l H. apply arl_In in H as (u & <- & U). eauto. }
  assert (BI : forall x sg w e, (forall sg w, (forall x, In x (bv e) -> apply_r sg x = x) -> free w (rename_all_ns sg e) ->
      exists u, free u e /\ w = apply_r sg u) -> (forall z, In z (x :: bv e) -> apply_r sg z = z) ->
      w <> x /\ free w (rename_all_ns sg e) -> exists u, (u <> x /\ free u e) /\ w = apply_r sg u).
  { intros x sg w e H H0 [K1 K2]. destruct (H sg w) as (u & U & E); [intros; apply H0; right; auto|auto|].
    exists u. split; [split; [|auto]|auto]. intros ->. rewrite H0 in E by (left; auto). auto. }
  apply exp_fundefs_ind; cbn [bv bv_funs rename_all_ns rename_all_fun_ns]; intros.
  - cbn [free] in *. destruct H1 as [K|K].
    + destruct (AL _ _ _ K) as (u & U & E). eauto.
    + destruct (BI _ _ _ _ H H0 K) as (u & U & E). eauto.
  - rewrite free_Ecase in H1. destruct H1 as [->|K]; [exists x; split; [cbn; auto|auto]|].
    enough (Z : exists u, free_case u l /\ w = apply_r sg u).
    { destruct Z as (u & U & E). exists u. split; [rewrite free_Ecase; auto|auto]. }
    clear x. induction H as [|[t e] l Hp F IHl]; cbn [map flat_map snd] in *; [destruct K|].
    cbn [free_case] in *. destruct K as [K|K].
    + destruct (Hp sg w) as (u & U & E); [intros; apply H0; apply in_or_app; auto|auto|]. exists u. auto.
    + destruct IHl as (u & U & E); [intros; apply H0; apply in_or_app; auto|auto|]. exists u. auto.
  - cbn [free] in *. destruct H1 as [K|K].
    + subst. eauto.
    + destruct (BI _ _ _ _ H H0 K) as (u & U & E). eauto.
  - cbn [free] in *. destruct H1 as [K|[K|K]].
    + subst. eauto.
    + destruct (AL _ _ _ K) as (u & U & E). eauto.
    + destruct (BI _ _ _ _ H H0 K) as (u & U & E). eauto.
  - cbn [free] in *. destruct H2 as [K1 K2]. rewrite (proj2 (proj2 (bv_ns sg) B)) in K1.
    assert (Z : exists u, (free u e \/ free_body u B) /\ w = apply_r sg u).
    { destruct K2 as [K|K].
      - destruct (H0 sg w) as (u & U & E); [intros; apply H1; apply in_or_app; auto|auto|]. eauto.
      - destruct (H sg w) as (u & U & E); [intros; apply H1; apply in_or_app; auto|auto|]. eauto. }
    destruct Z as (u & U & E). exists u. split; [split; [|auto]|auto]. intro J. apply K1.
    rewrite H1 in E; [congruence|]. apply in_or_app. left. apply fnames_bv. auto.
  - cbn [free] in *. destruct H0 as [K|K].
    + subst. eauto.
    + destruct (AL _ _ _ K) as (u & U & E). eauto.
  - cbn [free] in *. apply (BI _ _ _ _ H H0 H1).
  - cbn [free] in *. destruct H1 as [K|K].
    + destruct (AL _ _ _ K) as (u & U & E). eauto.
    + destruct (BI _ _ _ _ H H0 K) as (u & U & E). eauto.
  - cbn [free] in *. subst. eauto.
  - cbn [free_body] in *. destruct H2 as [[K1 K2]|K].
    + destruct (H sg w) as (u & U & E); [intros; apply H1; right; apply in_or_app; right; apply in_or_app; auto|auto|].
      exists u. split; [left; split; [|auto]|auto]. intro J. apply K1.
      rewrite H1 in E; [congruence|]. right. apply in_or_app. auto.
    + destruct (H0 sg w) as (u & U & E); [intros; apply H1; right; apply in_or_app; right; apply in_or_app; auto|auto|].
      exists u. auto.
  - destruct H0.
Qed.

Lemma letapp_cnt : forall e z C x' ec w, inline_letapp e z = Some (C, x') ->
  cnt w (bv (app_ctx_f C ec)) <= cnt w (bv e) + cnt w (z :: bv ec).
Proof.
  induction e using exp_ind2 with (P0 := fun _ => True); try exact I; intros z C x' ec w IL;
    cbn [inline_letapp] in IL;
    try (destruct (inline_letapp e z) as [[C1 x1]|] eqn:IE; [|discriminate IL]; injection IL as <- <-;
         cbn [app_ctx_f bv] in *).
  all: try (pose proof (IHe _ _ _ ec w IE) as K; rewrite !cnt_cons in *; lia).
  - discriminate.
  - pose proof (IHe0 _ _ _ ec w IE) as K. rewrite !cnt_app, !cnt_cons in *. lia.
  - injection IL as <- <-. cbn [app_ctx_f bv]. lia.
  - injection IL as <- <-. cbn [app_ctx_f bv]. rewrite cnt_cons. lia.
Qed.

Lemma perm_cnt l1 l2 : (forall z, cnt z l1 = cnt z l2) -> Permutation l1 l2.
Proof. intro H. apply (Permutation_count_occ Pos.eq_dec). exact H. Qed.
Lemma cnt_perm sg l1 l2 : (forall z, cnt z l1 = cnt z l2) -> forall z, cnt z (apply_r_list sg l1) = cnt z (apply_r_list sg l2).
Proof. intros H z. apply (Permutation_count_occ Pos.eq_dec). apply Permutation_map. apply perm_cnt. exact H. Qed.

Section LetApp.
  Variables (x f : var) (t : fun_tag) (ys : list var) (e : exp).
  Notation e0 := (Eletapp x f t ys e).
  Variables (R : var -> nat) (sig : subst) (count : c_map) (sub : ctx_map) (im : b_map) (P : list fdef).
  Hypothesis I : inve R sig count e0 sub im P.
  Notation f' := (apply_r sig f).
  Notation ys' := (apply_r_list sig ys).
  Variables (t' : fun_tag) (xs : list var) (m : exp).
  Hypothesis C1 : get_c f' count = 1.
  Hypothesis Gf : get f' sub = Some (SVfun t' xs m).
  Hypothesis Ef : get_b f' im = false.
  Hypothesis Len : length ys = length xs.
  Variables (C : exp_ctx) (x' : var).
  Hypothesis IL : inline_letapp m x = Some (C, x').
  Notation sig1 := (set_list (combine xs ys') sig).
  Notation im1 := (set f' true im).
  Notation count0 := (update_count_inlined ys' xs (set f' 0 count)).
  Notation ec := (rename_all_ns (set x x' []) e).
  Notation e1 := (app_ctx_f C ec).
  Notation count1 := (update_count_letapp (apply_r sig1 x') x count0).
  Notation feR := (fun w => w <> x /\ free w e).
  Notation beR := (x :: bv e).

  Lemma la_HU : uses e0 = (f :: ys) ++ uses e. Proof. reflexivity. Qed.
  Lemma la_HB : bv e0 = beR. Proof. reflexivity. Qed.
  Lemma la_HF w : free w e0 <-> In w (f :: ys) \/ feR w.
  Proof. cbn [free In]. intuition. Qed.
  Lemma la_UR w : (feR w -> In w (uses e)) /\ (In w (uses e) -> feR w \/ In w beR).
  Proof.
    split; [intros [_ F]; apply uses_free; auto|]. intro U. destruct (Pos.eq_dec w x) as [->|N]; [right; left; auto|].
    destruct (proj1 uses_scope e w U) as [F|F]; [left; auto|right; right; auto].
  Qed.

  Lemma la_uniq z : cnt z beR + cnt z xs + cnt z (bv m) + pbv im1 P z <= 1.
  Proof. exact (il_uniq e0 f ys beR la_HB R sig count sub im P I t' xs m C1 Gf Ef Len z). Qed.
  Lemma la_x : ~ In x (bv e) /\ ~ In x xs /\ ~ In x (bv m).
  Proof.
    pose proof (la_uniq x) as K. rewrite cnt_cons in K. destruct (Pos.eq_dec x x); [|congruence].
    rewrite !cnt_notIn. lia.
  Qed.
  Lemma la_bx : bnd (bv e0) im P x > 0.
  Proof. cbn [bv]. unfold bnd. rewrite cnt_cons. destruct (Pos.eq_dec x x); [lia|congruence]. Qed.
  Lemma la_sg z : z <> x -> apply_r (set x x' []) z = z.
  Proof. intro N. rewrite apply_r_set. destruct (Pos.eq_dec z x); [congruence|reflexivity]. Qed.

  Lemma la_x' : x' = x \/ In x' (bv m) \/ free x' m.
  Proof. eapply letapp_var; eauto. Qed.

  (** the new name of the result is bound in the body, or stands for a variable of the context *)
  Lemma la_ne : x' <> x -> apply_r sig1 x' <> x.
  Proof.
    intros N E. destruct la_x' as [K|[K|K]]; [auto| |].
    - apply cnt_In in K. pose proof (la_uniq x') as U.
      rewrite (il_sig ys sig xs Len) in E by (apply cnt_notIn; lia).
      rewrite (i_sig _ _ _ _ _ _ _ _ _ I) in E; [auto|].
      rewrite (il_bnd e0 f ys beR la_HB R sig count sub im P I t' xs m C1 Gf Ef Len). lia.
    - pose proof la_bx as BX.
      destruct (il_fm e0 f R sig count sub im P I t' xs m Gf Ef x' K) as [Nd|X].
      + destruct (i_need _ _ _ _ _ _ _ _ _ I x' Nd) as [_ B].
        rewrite (il_sig ys sig xs Len) in E; [rewrite E in B; lia|].
        apply (il_nd e0 f ys beR la_HB R sig count sub im P I t' xs m C1 Gf Ef Len x' Nd).
      + destruct (il_sigx ys sig xs Len x' X) as (y & Y & E'). rewrite E' in E.
        assert (Nd : need (fun w => free w e0) sub im P y) by (left; cbn; auto).
        destruct (i_need _ _ _ _ _ _ _ _ _ I y Nd) as [_ B]. rewrite E in B. lia.
  Qed.

  Lemma la_bv z : cnt z (bv e1) <= cnt z (bv m) + cnt z beR.
  Proof. pose proof (letapp_cnt m x C x' ec z IL) as K. rewrite (proj1 (bv_ns _)) in K. exact K. Qed.

  Lemma la_free w : free w e1 -> free w m \/ feR w.
  Proof.
    intro F. destruct (letapp_free _ _ _ _ IL) as [K1 K2]. destruct (K1 _ _ F) as [K|[K NS]]; [auto|].
    apply (proj1 free_ns) in K as (u & U & E).
    - destruct (Pos.eq_dec u x) as [->|N].
      + rewrite apply_r_set in E. destruct (Pos.eq_dec x x); [|congruence]. subst w. tauto.
      + rewrite la_sg in E by auto. subst w. auto.
    - intros z Z. apply la_sg. intros ->. apply (proj1 la_x Z).
  Qed.

  Lemma la_sig1x : apply_r sig1 x = x.
  Proof.
    rewrite (il_sig ys sig xs Len); [|apply la_x]. apply (i_sig _ _ _ _ _ _ _ _ _ I). apply la_bx.
  Qed.

  Lemma la_map : apply_r_list sig1 (uses ec) = map (mv x (apply_r sig1 x')) (apply_r_list sig1 (uses e)).
  Proof.
    rewrite (proj1 (uses_rename _)).
    change (apply_r_list sig1 (map (apply_r (set x x' [])) (uses e))) with (map (apply_r sig1) (map (apply_r (set x x' [])) (uses e))).
    change (apply_r_list sig1 (uses e)) with (map (apply_r sig1) (uses e)).
    rewrite !map_map. apply map_ext_in. intros w U. unfold mv. destruct (Pos.eq_dec w x) as [->|N].
    - rewrite la_sig1x, apply_r_set. destruct (Pos.eq_dec x x); [|congruence]. reflexivity.
    - rewrite la_sg by auto. destruct (Pos.eq_dec (apply_r sig1 w) x) as [E|]; [exfalso|auto].
      pose proof la_bx as BX. destruct (proj2 (la_UR w) U) as [F|F].
      + assert (Nd : need (fun w => free w e0) sub im P w) by (left; apply la_HF; auto).
        destruct (i_need _ _ _ _ _ _ _ _ _ I w Nd) as [_ B].
        rewrite (il_sig ys sig xs Len) in E; [rewrite E in B; lia|].
        apply (il_nd e0 f ys beR la_HB R sig count sub im P I t' xs m C1 Gf Ef Len w Nd).
      + apply cnt_In in F. pose proof (la_uniq w) as UQ.
        rewrite (il_sig ys sig xs Len) in E by (apply cnt_notIn; lia).
        rewrite (i_sig _ _ _ _ _ _ _ _ _ I) in E; [auto|].
        rewrite (il_bnd e0 f ys beR la_HB R sig count sub im P I t' xs m C1 Gf Ef Len). lia.
  Qed.

  Lemma la_counts z : R z + cnt z (apply_r_list sig1 (uses e1)) + pocc sig im1 P z <= get_c z count1.
  Proof.
    pose proof (il_counts e0 f ys (uses e) beR feR la_HU la_HB la_HF la_UR R sig count sub im P I t' xs m C1 Gf Ef Len) as K.
    unfold update_count_letapp. destruct (Pos.eq_dec x (apply_r sig1 x')) as [E|N].
    - destruct (Pos.eq_dec x' x) as [E'|N']; [|destruct (la_ne N'); auto].
      assert (EU : apply_r_list sig1 (uses ec) = apply_r_list sig1 (uses e)).
      { rewrite la_map. rewrite <- E. transitivity (map (fun v => v) (apply_r_list sig1 (uses e))).
        - apply map_ext. intro v. unfold mv. destruct (Pos.eq_dec v x); congruence.
        - apply map_id. }
      assert (L : cnt z (apply_r_list sig1 (uses e1)) <= cnt z (apply_r_list sig1 (uses m ++ uses ec))).
      { destruct (letapp_uses _ _ _ _ IL) as [H|[_ H]].
        - rewrite <- (cnt_perm sig1 (uses e1 ++ [x']) (uses m ++ uses ec)).
          + rewrite arl_app, cnt_app. lia.
          + intro v. rewrite !cnt_app. apply H.
        - rewrite (cnt_perm sig1 (uses e1) (uses m ++ uses ec)); [lia|]. intro v. rewrite cnt_app. apply H. }
      rewrite arl_app, cnt_app, EU in L. pose proof (K z). lia.
    - cbv zeta. rewrite !get_c_set. destruct (letapp_uses _ _ _ _ IL) as [H|[E' _]]; [|rewrite E', la_sig1x in N; congruence].
      assert (L : cnt z (apply_r_list sig1 (uses e1)) + cnt z [apply_r sig1 x'] = cnt z (apply_r_list sig1 (uses m)) + cnt z (apply_r_list sig1 (uses ec))).
      { pose proof (cnt_perm sig1 (uses e1 ++ [x']) (uses m ++ uses ec)) as Z. rewrite !arl_app in Z.
        rewrite <- cnt_app, <- cnt_app. apply Z. intro v. rewrite !cnt_app. apply H. }
      rewrite la_map, (cnt_mv x _ _ z N) in L. rewrite cnt_cons in L. cbn [cnt count_occ] in L.
      pose proof (K z) as Kz. pose proof (K x) as Kx. pose proof (K (apply_r sig1 x')) as Kx'.
      assert (Mx : cnt x (apply_r_list sig1 (uses m)) = 0 /\ R x = 0 /\ pocc sig im1 P x = 0).
      { pose proof (la_uniq x) as UQ. rewrite cnt_cons in UQ. destruct (Pos.eq_dec x x) as [Exx|]; [|congruence]. split; [|split].
        - apply cnt_notIn. intro J. apply arl_In in J as (w & E & U). pose proof la_bx as BX.
          destruct (proj1 uses_scope m w U) as [F|F].
          + destruct (il_fm e0 f R sig count sub im P I t' xs m Gf Ef w F) as [Nd|X].
            * destruct (i_need _ _ _ _ _ _ _ _ _ I w Nd) as [_ B].
              rewrite (il_sig ys sig xs Len) in E; [rewrite E in B; lia|].
              apply (il_nd e0 f ys beR la_HB R sig count sub im P I t' xs m C1 Gf Ef Len w Nd).
            * destruct (il_sigx ys sig xs Len w X) as (y & Y & E'). rewrite E' in E.
              assert (Nd : need (fun w => free w e0) sub im P y) by (left; cbn; auto).
              destruct (i_need _ _ _ _ _ _ _ _ _ I y Nd) as [_ B]. rewrite E in B. lia.
          + apply cnt_In in F. pose proof (la_uniq w) as UQw.
            rewrite (il_sig ys sig xs Len) in E by (apply cnt_notIn; lia).
            rewrite (i_sig _ _ _ _ _ _ _ _ _ I) in E; [subst w; lia|].
            rewrite (il_bnd e0 f ys beR la_HB R sig count sub im P I t' xs m C1 Gf Ef Len). lia.
        - apply (i_R _ _ _ _ _ _ _ _ _ I). apply la_bx.
        - eapply pocc_zero; [exact I|apply ble_set|].
          rewrite (il_bnd e0 f ys beR la_HB R sig count sub im P I t' xs m C1 Gf Ef Len), cnt_cons.
          destruct (Pos.eq_dec x x); [lia|congruence]. }
      destruct Mx as (M1 & M2 & M3).
      destruct (Pos.eq_dec z (apply_r sig1 x')) as [Ez|Nz].
      + subst z. destruct (Pos.eq_dec (apply_r sig1 x') (apply_r sig1 x')); [|congruence]. lia.
      + destruct (Pos.eq_dec (apply_r sig1 x') z); [congruence|]. destruct (Pos.eq_dec z x) as [->|]; lia.
  Qed.

  Lemma la_inv : inve R sig1 count1 e1 sub im1 P.
  Proof.
    apply (il_inv e0 f ys (uses e) beR feR la_HU la_HB la_HF R sig count sub im P I t' xs m C1 Gf Ef Len e1 count1).
    - apply la_bv.
    - apply la_free.
    - apply la_counts.
  Qed.
  Lemma la_post e' count' im' : poste R sig1 e1 sub im1 P e' count' im' -> poste R sig e0 sub im P e' count' im'.
  Proof.
    apply (il_post e0 f ys (uses e) beR feR la_HU la_HB la_HF la_UR R sig count sub im P I t' xs m C1 Gf Ef Len e1 count1).
    - apply la_bv.
    - apply la_free.
    - apply la_counts.
  Qed.
End LetApp.
