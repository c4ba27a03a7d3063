(** * The shrink reducer: projections of known values, calls of known functions *)
From Coq Require Import ZArith NArith PArith List Lia Bool Arith Permutation.
From Verif Require Import ANF_Syntax ANF_Eval ANF_Spec ANF_EvalProofs ANF_FreeProofs ANF_Scope ANF_LR ANF_LRProofs ANF_Subst
  ANF_Alpha CC_Scope Shrink_Census
  Shrink_CensusProofs Shrink_Model Shrink_Total Inline_Model Inline_LetProofs Inline_Syn Inline_Sem Inline_Obs Shrink_Inv Shrink_Env
  Shrink_Bind.
Import ListNotations.

Lemma cnt_mv x y l v : x <> y ->
  cnt v (map (mv x y) l) = if Pos.eq_dec v y then cnt y l + cnt x l else if Pos.eq_dec v x then 0 else cnt v l.
Proof. apply occ_mv. Qed.

Lemma nthN_In A : forall (l : list A) n a, nthN l n = Some a -> In a l.
Proof.
  induction l as [|b l IH]; cbn; intros n a H; [discriminate|]. destruct (N.eqb n 0); [injection H as <-; auto|eauto].
Qed.

Lemma get_list_nth (rho : env) : forall ys vs n y v, get_list ys rho = Some vs -> nthN ys n = Some y -> nthN vs n = Some v ->
  get y rho = Some v.
Proof.
  induction ys as [|y0 ys IH]; intros vs n y v G H1 H2; cbn in *; [discriminate|].
  destruct (get y0 rho) as [v0|] eqn:E; [|discriminate]. destruct (get_list ys rho) as [vs0|] eqn:E'; [|discriminate].
  injection G as <-. cbn in H2. destruct (N.eqb n 0); [congruence|eauto].
Qed.

(** ** A projection of a known value *)
Section Proj.
  Variables (v y yn : var) (t : ctor_tag) (i : N) (e : exp).
  Notation e0 := (Eproj v t i y e).
  Variables (R : var -> nat) (sig : subst) (count : c_map) (sub : ctx_map) (im : b_map) (P : list fdef).
  Hypothesis I : inve R sig count e0 sub im P.
  Notation nd := (need (fun w => free w e0) sub im P).
  Variables (t' : ctor_tag) (ys : list var).
  Hypothesis Gy : get (apply_r sig y) sub = Some (SVconstr t' ys).
  Hypothesis Nth : nthN ys i = Some yn.
  Notation yn' := (apply_r sig yn).
  Notation sig1 := (set v yn' sig).

  Lemma pj_HU : uses e0 = [y] ++ uses e. Proof. reflexivity. Qed.
  Lemma pj_HB : bv e0 = v :: bv e. Proof. reflexivity. Qed.
  Lemma pj_HF w : free w e0 <-> In w [y] \/ (w <> v /\ free w e).
  Proof. cbn [free In]. intuition. Qed.

  Lemma pj_yn : nd yn.
  Proof. right. right. exists (apply_r sig y), t', ys. split; [auto|]. eapply nthN_In; eauto. Qed.
  Lemma pj_hb z : bnd (bv e) im P z + cnt z [v] <= bnd (bv e0) im P z.
  Proof. apply (bind_hb v e0 e pj_HB im P z). Qed.
  Lemma pj_fe w : free w e -> nd w \/ In w [v].
  Proof. apply (bind_fe v [y] e0 e pj_HF sub im P w). Qed.
  Lemma pj_sig z : ~ In z [v] -> apply_r sig1 z = apply_r sig z.
  Proof. intro N. rewrite apply_r_set. destruct (Pos.eq_dec z v) as [->|]; [destruct N; left; auto|auto]. Qed.
  Lemma pj_sigv : apply_r sig1 v = yn'.
  Proof. rewrite apply_r_set. destruct (Pos.eq_dec v v); congruence. Qed.
  Lemma pj_sigN z : In z [v] -> apply_r sig1 z = z \/ exists w, nd w /\ apply_r sig1 z = apply_r sig w.
  Proof. intros [<-|[]]. right. exists yn. split; [apply pj_yn|apply pj_sigv]. Qed.
  Lemma pj_ne : v <> yn'.
  Proof. intro E. apply (bind_nd v e0 e pj_HB R sig count sub im P I yn pj_yn). congruence. Qed.

  Lemma pj_map : apply_r_list sig1 (uses e) = map (mv v yn') (apply_r_list sig (uses e)).
  Proof.
    unfold apply_r_list. rewrite map_map. apply map_ext_in. intros w Iw. rewrite apply_r_set. unfold mv.
    destruct (Pos.eq_dec w v) as [->|N].
    - rewrite (bind_sigx v e0 e pj_HB R sig count sub im P I). destruct (Pos.eq_dec v v); congruence.
    - destruct (Pos.eq_dec (apply_r sig w) v) as [E|]; [exfalso|auto].
      destruct (proj1 uses_scope e w Iw) as [F|F].
      + destruct (pj_fe w F) as [K|[K|[]]]; [|congruence].
        apply (bind_nd v e0 e pj_HB R sig count sub im P I w K). exact E.
      + assert (K : bnd (bv e0) im P w > 0) by (rewrite pj_HB; unfold bnd; rewrite cnt_cons; apply cnt_In in F; lia).
        rewrite (i_sig _ _ _ _ _ _ _ _ _ I w K) in E. congruence.
  Qed.

  Lemma pocc_bound z : cnt z (bv e0) > 0 -> pocc sig im P z = 0.
  Proof.
    intro C. destruct (Nat.eq_dec (pocc sig im P z) 0) as [|N]; [auto|exfalso].
    destruct (psum_pos im P _ ltac:(unfold pocc in N; instantiate (1 := fun d => cnt z (apply_r_list sig (duses d))); lia)) as (d & L & K).
    cbn in K. apply cnt_In, arl_In in K as (w & <- & U).
    destruct (live_uses _ _ _ _ _ _ _ _ _ d w I L U) as [Nw|Nw].
    - destruct (i_need _ _ _ _ _ _ _ _ _ I w Nw) as [_ B]. unfold bnd in B. lia.
    - assert (E : apply_r sig w = w) by (apply (i_sig _ _ _ _ _ _ _ _ _ I); unfold bnd; lia).
      rewrite E in C. pose proof (i_uniq _ _ _ _ _ _ _ _ _ I w) as UQ. unfold bnd in UQ. lia.
  Qed.

  Lemma pj_inv : inve R sig1 (update_count_proj v (apply_r sig y) yn' count) e sub im P.
  Proof.
    apply (inv_step R sig count (uses e0) (bv e0) (fun w => free w e0) sub im P I [v]); auto.
    - apply pj_hb.
    - apply ble_refl.
    - apply pj_fe.
    - apply pj_sig.
    - apply pj_sigN.
    - intro z. rewrite pj_map, (cnt_mv v yn' _ z pj_ne).
      pose proof (bind_cnt [y] e0 e pj_HU R sig count sub im P I) as C.
      unfold update_count_proj. cbv zeta. rewrite !get_c_set.
      pose proof (C z) as Cz. pose proof (C v) as Cv. pose proof (C yn') as Cy.
      assert (Rv : R v = 0) by (apply (i_R _ _ _ _ _ _ _ _ _ I), (bind_x v e0 e pj_HB)).
      assert (Pv : pocc sig im P v = 0).
      { apply pocc_bound. rewrite pj_HB, cnt_cons. destruct (Pos.eq_dec v v); [lia|congruence]. }
      destruct (Pos.eq_dec z v) as [->|Nv].
      + destruct (Pos.eq_dec v yn') as [E|]; [destruct (pj_ne E)|]. lia.
      + destruct (Pos.eq_dec z yn') as [->|Ny]; [lia|].
        destruct (Pos.eq_dec z (apply_r sig y)) as [->|]; [|lia].
        cbn [apply_r_list map] in Cz. rewrite cnt_cons in Cz.
        destruct (Pos.eq_dec (apply_r sig y) (apply_r sig y)); [lia|congruence].
    - intros z K. apply (i_R _ _ _ _ _ _ _ _ _ I). pose proof (pj_hb z). lia.
    - apply uses_free.
    - apply uses_scope.
  Qed.

  Lemma pj_post e' count' im' : poste R sig1 e sub im P e' count' im' -> poste R sig e0 sub im P e' count' im'.
  Proof.
    intro Q.
    eapply (post_step R sig count (uses e0) (bv e0) (fun w => free w e0) sub im P I [v] R sig1 (bv e) (fun w => free w e) sub im); try exact Q; auto.
    - apply pj_hb.
    - apply ble_refl.
    - apply pj_fe.
    - apply pj_sig.
    - apply pj_sigN.
    - intros f E E'. congruence.
    - intros d [_ L] E. congruence.
    - intro z. lia.
    - intros z F. right. split; [auto|]. intros [<-|[]] F'. rewrite pj_sigv. intro E. apply pj_ne. auto.
  Qed.

  Section E.
    Variable VR : nat -> val -> val -> Prop.
    Hypothesis VR_mono : forall k j v1 v2, j <= k -> VR k v1 v2 -> VR j v1 v2.
    Variables (k j : nat) (rho1 rho2 : env) (fe0' : var -> Prop) (v1 : val) (e' : exp) (vs : list val).
    Hypothesis E : envok VR k rho1 rho2 sig (fun w => free w e0) sub im P fe0'.
    Hypothesis Hj : j <= k.
    Hypothesis Gv : get y rho1 = Some (Vconstr t vs).
    Hypothesis Hv : nthN vs i = Some v1.

    Lemma pj_env : (forall z, free z e' -> fe0' z) ->
      envok VR j (set v v1 rho1) rho2 sig1 (fun w => free w e) sub im P (fun w => free w e').
    Proof.
      intros H1.
      assert (Gyn : get yn rho1 = Some v1).
      { destruct (E y _ ltac:(left; cbn; auto) Gv) as [_ K]. rewrite Gy in K. cbn [known] in K.
        destruct K as (vs' & K1 & K2). injection K1 as -> ->. eapply get_list_nth; eauto. }
      assert (ND : forall w, nd w -> w <> v) by (intros w Nw; apply (bind_nd v e0 e pj_HB R sig count sub im P I w Nw)).
      eapply (env_step VR VR_mono R sig count (uses e0) (bv e0) (fun w => free w e0) sub im P I [v]); eauto.
      - intros w Nw [K|[]]. destruct (bind_nd v e0 e pj_HB R sig count sub im P I w Nw). congruence.
      - apply ble_refl.
      - intros w Nw. apply get_set_other. auto.
      - eapply (step_need' R sig count (uses e0) (bv e0) (fun w => free w e0) sub im P I [v] R); auto.
        + apply pj_hb.
        + apply ble_refl.
        + apply pj_fe.
      - intros w Nw. apply pj_sig. intros [K|[]]. apply (ND w Nw). congruence.
      - intros w u [<-|[]] Fw Gw. rewrite get_set_same in Gw. injection Gw as <-. rewrite pj_sigv.
        eapply (env_old VR VR_mono R sig count (uses e0) (bv e0) (fun w => free w e0) sub im P I [v]); eauto.
        + intros w Nw [K|[]]. destruct (bind_nd v e0 e pj_HB R sig count sub im P I w Nw). congruence.
        + apply ble_refl.
        + intros w Nw. apply get_set_other. auto.
        + apply pj_yn.
    Qed.
  End E.
End Proj.
