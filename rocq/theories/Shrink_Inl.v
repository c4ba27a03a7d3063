(** * The shrink reducer: calls of functions used once *)
From Coq Require Import ZArith NArith PArith List Lia Bool Arith Permutation.
From Verif Require Import ANF_Syntax ANF_Eval ANF_Spec ANF_EvalProofs ANF_FreeProofs ANF_Scope ANF_LR ANF_LRProofs ANF_Subst
  ANF_Alpha CC_Scope Shrink_Census
  Shrink_CensusProofs Shrink_Model Shrink_Total Inline_Model Inline_LetProofs Inline_Syn Inline_Sem Inline_Obs Shrink_Inv Shrink_Env
  Shrink_Bind Shrink_Fold.
Import ListNotations.

Lemma pocc_zero R sig count ue be fe sub im P im1 z : inv R sig count ue be fe sub im P -> ble im im1 ->
  pbv im1 P z < bnd be im P z -> pocc sig im1 P z = 0.
Proof.
  intros I B C. destruct (Nat.eq_dec (pocc sig im1 P z) 0) as [|N]; [auto|exfalso].
  destruct (psum_pos im1 P (fun d => cnt z (apply_r_list sig (duses d)))) as (d & L & K); [unfold pocc in N; lia|].
  cbn in K. apply cnt_In, arl_In in K as (w & <- & U). destruct (duses_scope d w U) as [V|O].
  - destruct (i_need _ _ _ _ _ _ _ _ _ I w) as [_ Z]; [|lia]. right. left. exists d. split; [eapply live_le; eauto|auto].
  - apply cnt_In in O. pose proof (psum_In im1 P (fun d => cnt w (ownd d)) d L) as K. cbn in K.
    pose proof (pbv_le im im1 P w B) as K2. unfold pbv in K2 at 1.
    assert (E : apply_r sig w = w) by (apply (i_sig _ _ _ _ _ _ _ _ _ I); unfold bnd; lia).
    rewrite E in C. pose proof (i_uniq _ _ _ _ _ _ _ _ _ I w) as UQ. unfold pbv in C at 1. lia.
Qed.

Lemma use_zero R sig count ue be fe sub im P (l bl : list var) (fl : var -> Prop) z : inv R sig count ue be fe sub im P ->
  (forall w, In w l -> fl w \/ In w bl) -> (forall w, fl w -> need fe sub im P w) ->
  (forall w, cnt w bl <= bnd be im P w) -> cnt z bl < bnd be im P z -> cnt z (apply_r_list sig l) = 0.
Proof.
  intros I H1 H2 H3 C. apply cnt_notIn. intro K. apply arl_In in K as (w & <- & U). destruct (H1 w U) as [F|F].
  - destruct (i_need _ _ _ _ _ _ _ _ _ I w (H2 w F)). lia.
  - apply cnt_In in F. pose proof (H3 w).
    assert (E : apply_r sig w = w) by (apply (i_sig _ _ _ _ _ _ _ _ _ I); lia).
    rewrite E in C. pose proof (i_uniq _ _ _ _ _ _ _ _ _ I w). lia.
Qed.

(** counts after the parameters have been replaced *)
Lemma inlined_counts_le xs : forall ys (r : var -> nat) B c,
  length ys = length xs -> NoDup xs ->
  (forall x, In x xs -> ~ In x ys /\ r x = 0) ->
  (forall v, r v + cnt v ys + cnt v B <= get_c v c) ->
  forall v, r v + cnt v (map (apply_r (bind_args xs ys)) B) <= get_c v (update_count_inlined ys xs c).
Proof.
  induction xs as [|x xs IH]; intros [|y ys] r B c L ND D H v; try discriminate.
  - cbn [update_count_inlined]. replace (map (apply_r (bind_args [] [])) B) with B by (symmetry; apply map_id).
    pose proof (H v). cbn in *. lia.
  - inversion ND; subst. cbn [update_count_inlined]. cbv zeta.
    assert (Dy : ~ In y xs). { intro I. apply (proj1 (D y (or_intror I))). left. reflexivity. }
    assert (Nxy : x <> y). { intros ->. apply (proj1 (D y (or_introl eq_refl))). left. reflexivity. }
    assert (EM : map (apply_r (bind_args (x :: xs) (y :: ys))) B = map (apply_r (bind_args xs ys)) (map (mv x y) B)).
    { rewrite map_map. apply map_ext. intro z. apply bind_args_cons. assumption. }
    rewrite EM. apply IH; auto.
    + intros z I. destruct (D z (or_intror I)) as [D1 D2]. cbn [In] in D1. tauto.
    + intro w. rewrite !get_c_set, (cnt_mv x y B w Nxy).
      pose proof (H w) as Hw. pose proof (H x) as Hx. pose proof (H y) as Hy.
      destruct (D x (or_introl eq_refl)) as [D1 D2]. cbn [In] in D1.
      assert (D3 : cnt x ys = 0) by (apply cnt_notIn; tauto).
      rewrite cnt_cons in Hw, Hx, Hy.
      destruct (Pos.eq_dec y y); try congruence. destruct (Pos.eq_dec y x); try congruence.
      destruct (Pos.eq_dec w y) as [->|Nw].
      * destruct (Pos.eq_dec y y); try congruence. lia.
      * destruct (Pos.eq_dec w x) as [->|Nx]; [lia|].
        destruct (Pos.eq_dec y w); try congruence. lia.
Qed.

Lemma params_lookup sig : forall (xs ys : list var) vs (rho rho1 rho' : env),
  set_lists xs vs rho = Some rho' -> get_list ys rho1 = Some vs ->
  forall w, In w xs -> exists y v, In y ys /\ get y rho1 = Some v /\ get w rho' = Some v /\
    apply_r (set_list (combine xs (apply_r_list sig ys)) sig) w = apply_r sig y.
Proof.
  induction xs as [|x xs IH]; intros ys vs rho rho1 rho' SL GL w Iw; [destruct Iw|].
  destruct vs as [|v vs]; cbn in SL; [discriminate|]. destruct (set_lists xs vs rho) as [r|] eqn:ES; [|discriminate].
  injection SL as <-. destruct ys as [|y ys]; cbn in GL; [discriminate|].
  destruct (get y rho1) as [v0|] eqn:Gy; [|discriminate]. destruct (get_list ys rho1) as [l|] eqn:EL; [|discriminate].
  injection GL as -> ->. cbn [apply_r_list map combine set_list fold_right fst snd].
  change (fold_right _ _ _) with (set_list (combine xs (apply_r_list sig ys)) sig).
  destruct (Pos.eq_dec w x) as [->|N].
  - exists y, v. split; [left; auto|]. split; [auto|]. split; [apply get_set_same|].
    rewrite apply_r_set. destruct (Pos.eq_dec x x); congruence.
  - destruct Iw as [E|Iw]; [congruence|]. destruct (IH ys vs rho rho1 r ES EL w Iw) as (y' & v' & K1 & K2 & K3 & K4).
    exists y', v'. split; [right; auto|]. split; [auto|]. split; [rewrite get_set_other; auto|].
    rewrite apply_r_set. destruct (Pos.eq_dec w x); [congruence|auto].
Qed.

Lemma set_lists_ex A : forall xs (vs : list A) rho, length vs = length xs -> exists rho', set_lists xs vs rho = Some rho'.
Proof.
  induction xs as [|x xs IH]; intros [|v vs] rho L; cbn in *; try discriminate; [eauto|].
  destruct (IH vs rho) as (r & ->); [congruence|]. eauto.
Qed.
Lemma set_lists_len A : forall xs (vs : list A) rho rho', set_lists xs vs rho = Some rho' -> length vs = length xs.
Proof.
  induction xs as [|x xs IH]; intros [|v vs] rho rho' H; cbn in *; try discriminate; [auto|].
  destruct (set_lists xs vs rho) eqn:E; [|discriminate]. f_equal. eauto.
Qed.
Lemma set_lists_out A : forall xs (vs : list A) rho rho' u, set_lists xs vs rho = Some rho' -> ~ In u xs -> get u rho' = get u rho.
Proof.
  induction xs as [|x xs IH]; intros [|v vs] rho rho' u H N; cbn in *; try discriminate; [congruence|].
  destruct (set_lists xs vs rho) eqn:E; [|discriminate]. injection H as <-.
  rewrite get_set_other by (intro; apply N; left; congruence). apply (IH _ _ _ _ E). tauto.
Qed.
Lemma set_lists_in A : forall xs (vs : list A) rho rho' s s' u, set_lists xs vs rho = Some rho' -> set_lists xs vs s = Some s' ->
  In u xs -> get u rho' = get u s'.
Proof.
  induction xs as [|x xs IH]; intros [|v vs] rho rho' s s' u H K N; cbn in *; try discriminate; [destruct N|].
  destruct (set_lists xs vs rho) eqn:E; [|discriminate]. destruct (set_lists xs vs s) eqn:E'; [|discriminate].
  injection H as <-. injection K as <-. rewrite !get_set. destruct (Pos.eq_dec u x); [auto|].
  destruct N; [congruence|]. eauto.
Qed.

Lemma bind_args_in sig w : forall xs ys, In w xs -> length ys = length xs ->
  apply_r (set_list (combine xs ys) sig) w = apply_r (bind_args xs ys) w.
Proof.
  unfold bind_args. induction xs as [|x xs IH]; intros [|y ys] Ix L; cbn in L; try discriminate; [destruct Ix|].
  cbn [combine set_list fold_right fst snd]. rewrite !apply_r_set.
  change (fold_right _ sig _) with (set_list (combine xs ys) sig).
  change (fold_right _ [] _) with (set_list (combine xs ys) []).
  destruct (Pos.eq_dec w x); [auto|]. apply IH; [destruct Ix; [congruence|auto]|congruence].
Qed.

Section Inl.
  Variables (e0 : exp) (f : var) (ys : list var) (ueR beR : list var) (feR : var -> Prop).
  Hypothesis HU : uses e0 = (f :: ys) ++ ueR.
  Hypothesis HB : bv e0 = beR.
  Hypothesis HF : forall w, free w e0 <-> In w (f :: ys) \/ feR w.
  Hypothesis UR : forall w, (feR w -> In w ueR) /\ (In w ueR -> feR w \/ In w beR).

  Variables (R : var -> nat) (sig : subst) (count : c_map) (sub : ctx_map) (im : b_map) (P : list fdef).
  Hypothesis I : inve R sig count e0 sub im P.
  Notation nd := (need (fun w => free w e0) sub im P).
  Notation f' := (apply_r sig f).
  Notation ys' := (apply_r_list sig ys).
  Variables (t' : fun_tag) (xs : list var) (m : exp).
  Hypothesis C1 : get_c f' count = 1.
  Hypothesis Gf : get f' sub = Some (SVfun t' xs m).
  Hypothesis Ef : get_b f' im = false.
  Hypothesis Len : length ys = length xs.
  Notation sig1 := (set_list (combine xs ys') sig).
  Notation im1 := (set f' true im).
  Notation count0 := (update_count_inlined ys' xs (set f' 0 count)).

  Lemma il_In : In (f', t', xs, m) P.
  Proof. eapply i_funs; eauto. Qed.
  Lemma il_live : live im P (f', t', xs, m).
  Proof. split; [apply il_In|exact Ef]. Qed.
  Lemma il_pocc z : pocc sig im P z = cnt z (apply_r_list sig (uses m)) + pocc sig im1 P z.
  Proof. exact (psum_set im P (fun d => cnt z (apply_r_list sig (duses d))) _ (i_nd _ _ _ _ _ _ _ _ _ I) il_live). Qed.
  Lemma il_pbv z : pbv im P z = cnt z xs + cnt z (bv m) + pbv im1 P z.
  Proof.
    pose proof (psum_set im P (fun d => cnt z (ownd d)) _ (i_nd _ _ _ _ _ _ _ _ _ I) il_live) as K.
    cbv beta in K. change (ownd (f', t', xs, m)) with (xs ++ bv m) in K. rewrite cnt_app in K. exact K.
  Qed.
  Lemma il_bnd z : bnd (bv e0) im P z = cnt z beR + cnt z xs + cnt z (bv m) + pbv im1 P z.
  Proof. unfold bnd. rewrite HB, il_pbv. lia. Qed.
  Lemma il_uniq z : cnt z beR + cnt z xs + cnt z (bv m) + pbv im1 P z <= 1.
  Proof. rewrite <- il_bnd. eapply i_uniq; eauto. Qed.
  Lemma il_ble : ble im im1. Proof. apply ble_set. Qed.
  Lemma il_len : length ys' = length xs.
  Proof. unfold apply_r_list. rewrite map_length. exact Len. Qed.
  Lemma il_ys y : In y ys -> nd y.
  Proof. intro H. left. apply HF. left. right. auto. Qed.
  Lemma il_nd w : nd w -> ~ In w xs /\ ~ In (apply_r sig w) xs.
  Proof.
    intro H. destruct (i_need _ _ _ _ _ _ _ _ _ I w H) as [A B]. rewrite il_bnd in *. split; rewrite cnt_notIn; lia.
  Qed.
  Lemma il_NoDup : NoDup xs.
  Proof. apply cnt_NoDup. intro z. pose proof (il_uniq z). lia. Qed.
  Lemma il_sig z : ~ In z xs -> apply_r sig1 z = apply_r sig z.
  Proof. apply apply_r_set_list. apply il_len. Qed.
  Lemma il_sigx z : In z xs -> exists y, In y ys /\ apply_r sig1 z = apply_r sig y.
  Proof.
    intro H. apply (proj1 (apply_r_set_list xs ys' sig z il_len)) in H. apply arl_In in H as (y & <- & Y). eauto.
  Qed.
  Lemma il_sigN z : In z xs -> apply_r sig1 z = z \/ exists w, nd w /\ apply_r sig1 z = apply_r sig w.
  Proof. intro H. destruct (il_sigx z H) as (y & Y & E). right. exists y. split; [apply il_ys; auto|auto]. Qed.
  Lemma il_fm w : free w m -> nd w \/ In w xs.
  Proof.
    intro F. destruct (in_dec Pos.eq_dec w xs) as [|N]; [auto|left]. right. left. exists (f', t', xs, m).
    split; [apply il_live|split; auto].
  Qed.
  Lemma il_feR w : feR w -> nd w.
  Proof. intro F. left. apply HF. auto. Qed.

  Lemma il_cnt z : R z + cnt z [f'] + cnt z ys' + cnt z (apply_r_list sig ueR) + cnt z (apply_r_list sig (uses m)) + pocc sig im1 P z <= get_c z count.
  Proof.
    pose proof (i_cnt _ _ _ _ _ _ _ _ _ I z) as K. rewrite HU in K. cbn [app] in K. cbn [apply_r_list map] in K.
    rewrite cnt_cons in K. fold (apply_r_list sig (ys ++ ueR)) in K. rewrite arl_app, cnt_app, il_pocc in K.
    rewrite cnt_cons. cbn [cnt count_occ]. lia.
  Qed.

  Lemma il_dead : R f' = 0 /\ cnt f' ys' = 0 /\ cnt f' (apply_r_list sig ueR) = 0 /\ cnt f' (apply_r_list sig (uses m)) = 0
                  /\ pocc sig im1 P f' = 0 /\ bnd (bv e0) im P f' = 0.
  Proof.
    pose proof (il_cnt f') as K. rewrite C1, cnt_cons in K. destruct (Pos.eq_dec f' f'); [|congruence].
    pose proof (i_name _ _ _ _ _ _ _ _ _ I _ il_In) as Z. cbn [fname] in Z. lia.
  Qed.

  (** uses outside the body are not touched by the new part of the renaming *)
  Lemma il_mapR : apply_r_list sig1 ueR = apply_r_list sig ueR.
  Proof.
    apply map_ext_in. intros w Iw. apply il_sig. destruct (proj2 (UR w) Iw) as [F|F].
    - apply (il_nd w (il_feR w F)).
    - apply cnt_In in F. pose proof (il_uniq w). apply cnt_notIn. lia.
  Qed.

  Lemma il_R_x x : In x xs -> R x = 0 /\ cnt x (apply_r_list sig ueR) = 0 /\ pocc sig im1 P x = 0 /\ ~ In x ys'.
  Proof.
    intro H. apply cnt_In in H. pose proof (il_uniq x) as UQ. pose proof (il_bnd x) as BD.
    split; [apply (i_R _ _ _ _ _ _ _ _ _ I); lia|]. split; [|split].
    - eapply (use_zero _ _ _ _ _ _ _ _ _ ueR beR feR); [exact I|intro w; apply UR|apply il_feR| |lia].
      intro w. rewrite il_bnd. lia.
    - eapply pocc_zero; [exact I|apply il_ble|lia].
    - intro J. apply arl_In in J as (y & E & Y). apply (il_nd y (il_ys y Y)). rewrite E. apply cnt_In. exact H.
  Qed.

  Lemma il_mapm : apply_r_list sig1 (uses m) = map (apply_r (bind_args xs ys')) (apply_r_list sig (uses m)).
  Proof.
    change (apply_r_list sig (uses m)) with (map (apply_r sig) (uses m)). rewrite map_map. apply map_ext_in. intros w Iw.
    destruct (in_dec Pos.eq_dec w xs) as [Ix|Nx].
    - assert (E : apply_r sig w = w).
      { apply (i_sig _ _ _ _ _ _ _ _ _ I). rewrite il_bnd. apply cnt_In in Ix. lia. }
      rewrite E. apply bind_args_in; [auto|apply il_len].
    - rewrite (il_sig w Nx). symmetry. apply bind_args_out.
      destruct (proj1 uses_scope m w Iw) as [F|F].
      + destruct (il_fm w F) as [K|K]; [|tauto]. apply (il_nd w K).
      + assert (E : apply_r sig w = w).
        { apply (i_sig _ _ _ _ _ _ _ _ _ I). rewrite il_bnd. apply cnt_In in F. lia. }
        rewrite E. exact Nx.
  Qed.

  Lemma il_counts z : R z + cnt z (apply_r_list sig1 ueR) + cnt z (apply_r_list sig1 (uses m)) + pocc sig im1 P z <= get_c z count0.
  Proof.
    rewrite il_mapR, il_mapm.
    pose proof (inlined_counts_le xs ys' (fun z => R z + cnt z (apply_r_list sig ueR) + pocc sig im1 P z)
      (apply_r_list sig (uses m)) (set f' 0 count) il_len il_NoDup) as K.
    cbv beta in K. enough (K' : R z + cnt z (apply_r_list sig ueR) + pocc sig im1 P z +
      cnt z (map (apply_r (bind_args xs ys')) (apply_r_list sig (uses m))) <= get_c z count0) by lia.
    apply K.
    - intros x X. destruct (il_R_x x X) as (K1 & K2 & K3 & K4). split; [auto|]. rewrite K1, K2, K3. reflexivity.
    - intro v. rewrite get_c_set. pose proof (il_cnt v) as C. destruct (Pos.eq_dec v f') as [->|].
      + destruct il_dead as (D1 & D2 & D3 & D4 & D5 & D6). lia.
      + lia.
  Qed.

  (** the term that replaces the call *)
  Variables (e1 : exp) (count1 : c_map).
  Hypothesis HB1 : forall z, cnt z (bv e1) <= cnt z (bv m) + cnt z beR.
  Hypothesis HF1 : forall w, free w e1 -> free w m \/ feR w.
  Hypothesis HC1 : forall z, R z + cnt z (apply_r_list sig1 (uses e1)) + pocc sig im1 P z <= get_c z count1.

  Lemma il_hb z : bnd (bv e1) im1 P z + cnt z xs <= bnd (bv e0) im P z.
  Proof. rewrite il_bnd. unfold bnd. pose proof (HB1 z). lia. Qed.
  Lemma il_fe w : free w e1 -> nd w \/ In w xs.
  Proof. intro F. destruct (HF1 w F); [apply il_fm; auto|left; apply il_feR; auto]. Qed.
  Lemma il_im1 z : get_b z im1 = true -> get_b z im = true \/ z = f'.
  Proof. rewrite get_b_set. destruct (Pos.eq_dec z f'); auto. Qed.

  Lemma il_inv : inve R sig1 count1 e1 sub im1 P.
  Proof.
    apply (inv_step R sig count (uses e0) (bv e0) (fun w => free w e0) sub im P I xs); auto.
    - apply il_hb.
    - apply il_ble.
    - apply il_fe.
    - apply il_sig.
    - apply il_sigN.
    - intros z K. apply (i_R _ _ _ _ _ _ _ _ _ I). pose proof (il_hb z). lia.
    - intros z K. destruct (il_im1 z K) as [|E]; [auto|right]. rewrite E.
      destruct il_dead as (_ & _ & _ & _ & _ & D). pose proof (il_hb f'). lia.
    - apply uses_free.
    - apply uses_scope.
  Qed.

  Lemma il_f_unused : cnt f' (apply_r_list sig1 (uses e1)) = 0.
  Proof.
    destruct il_dead as (D1 & D2 & D3 & D4 & D5 & D6). apply cnt_notIn. intro J. apply arl_In in J as (w & E & U).
    destruct (proj1 uses_scope e1 w U) as [F|F].
    - destruct (HF1 w F) as [F'|F'].
      + destruct (in_dec Pos.eq_dec w xs) as [X|X].
        * destruct (il_sigx w X) as (y & Y & E'). apply cnt_notIn in D2. apply D2. apply arl_In. exists y. split; [congruence|auto].
        * rewrite il_sig in E by auto. apply cnt_notIn in D4. apply D4. apply arl_In. exists w. split; [auto|].
          apply uses_free. auto.
      + apply cnt_notIn in D3. apply D3. rewrite <- il_mapR. apply arl_In. exists w. split; [auto|]. apply UR. auto.
    - apply cnt_In in F. pose proof (HB1 w). pose proof (il_uniq w). pose proof (il_bnd w).
      rewrite il_sig in E by (apply cnt_notIn; lia).
      rewrite (i_sig _ _ _ _ _ _ _ _ _ I) in E by lia. rewrite E in *. lia.
  Qed.

  Lemma il_post e' count' im' : poste R sig1 e1 sub im1 P e' count' im' -> poste R sig e0 sub im P e' count' im'.
  Proof.
    intro Q. pose proof (p_im _ _ _ _ _ _ _ _ _ _ _ _ Q) as B. pose proof il_inv as I1.
    destruct il_dead as (D1 & D2 & D3 & D4 & D5 & D6).
    eapply (post_step R sig count (uses e0) (bv e0) (fun w => free w e0) sub im P I xs R sig1 (bv e1) (fun w => free w e1) sub im1); try exact Q; auto.
    - apply il_hb.
    - apply il_ble.
    - apply il_fe.
    - apply il_sig.
    - apply il_sigN.
    - intros g E E'. destruct (il_im1 g E') as [K|Eg]; [congruence|]. rewrite Eg, Gf. unfold is_fun. eauto.
    - intros d [_ L] E. destruct (il_im1 _ E) as [|Ed]; [congruence|]. rewrite Ed.
      split; [auto|]. split.
      + eapply (dead_stays R sig1 count1 (uses e1) (bv e1) (fun w => free w e1) sub im1 P); [exact I1|exact Q|apply uses_scope|auto|apply il_f_unused| |].
        * pose proof (step_pocc R sig count (uses e0) (bv e0) (fun w => free w e0) sub im P I xs sig1 (bv e1) im1) as SP.
          rewrite SP; auto; [apply il_hb|apply il_ble|apply il_sig|apply ble_refl].
        * pose proof (il_hb f'). lia.
      + pose proof (pocc_le sig im1 im' P f' B). lia.
    - intro z. lia.
    - intros z F. right. split; [auto|]. intros X F'. destruct (il_sigx z X) as (y & Y & E). rewrite E. intro E2.
      apply (il_nd y (il_ys y Y)). rewrite E2. auto.
  Qed.

  Section E.
    Variable VR : nat -> val -> val -> Prop.
    Hypothesis VR_mono : forall k j v1 v2, j <= k -> VR k v1 v2 -> VR j v1 v2.
    Variables (k : nat) (rho1 rho2 rho1' : env) (e' : exp) (vs : list val).
    Hypothesis E : envok VR k rho1 rho2 sig (fun w => free w e0) sub im P (fun w => free w e').
    Hypothesis GL : get_list ys rho1 = Some vs.
    Hypothesis SL : set_lists xs vs rho1 = Some rho1'.

    Lemma il_env : envok VR k rho1' rho2 sig1 (fun w => free w e1) sub im1 P (fun w => free w e').
    Proof.
      assert (G1 : forall w, nd w -> get w rho1' = get w rho1).
      { intros w Nw. eapply set_lists_out; [exact SL|]. apply il_nd. auto. }
      eapply (env_step VR VR_mono R sig count (uses e0) (bv e0) (fun w => free w e0) sub im P I xs); eauto.
      - intros w Nw. apply (il_nd w Nw).
      - apply il_ble.
      - eapply (step_need' R sig count (uses e0) (bv e0) (fun w => free w e0) sub im P I xs R); auto.
        + apply il_hb.
        + apply il_ble.
        + apply il_fe.
      - intros w Nw. apply il_sig. apply il_nd. auto.
      - intros w v X Fw Gw. destruct (params_lookup sig xs ys vs rho1 rho1 rho1' SL GL w X) as (y & v' & Y & Gy & Gw' & ES).
        rewrite Gw in Gw'. injection Gw' as <-. rewrite ES.
        eapply (env_old VR VR_mono R sig count (uses e0) (bv e0) (fun w => free w e0) sub im P I xs); eauto.
        + intros z Nz. apply (il_nd z Nz).
        + apply il_ble.
        + apply il_ys. auto.
    Qed.
  End E.
End Inl.
