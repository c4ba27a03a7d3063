(** * The shrink reducer: terms that bind one variable *)
From Coq Require Import ZArith NArith PArith List Lia Bool Arith.
From Verif Require Import ANF_Syntax ANF_Eval ANF_Spec ANF_EvalProofs ANF_FreeProofs ANF_Scope ANF_LR ANF_LRProofs ANF_Subst
  ANF_Alpha CC_Scope Shrink_Census
  Shrink_CensusProofs Shrink_Model Shrink_Total Inline_Model Inline_LetProofs Inline_Syn Inline_Sem Inline_Obs Shrink_Inv Shrink_Env.
Import ListNotations.

Lemma cnt_dec_list sig ys c v : get_c v (dec_census_list sig ys c) = get_c v c - cnt v (apply_r_list sig ys).
Proof. apply dec_list. Qed.

(** nothing happens *)
Lemma post_same R sig count ue be fe sub im P ue' be' (fe' : var -> Prop) :
  inv R sig count ue be fe sub im P ->
  (forall z, cnt z ue' <= cnt z (apply_r_list sig ue)) -> (forall z, cnt z be' <= cnt z be) ->
  (forall z, fe' z -> exists w, fe w /\ z = apply_r sig w) ->
  post R sig be fe sub im P ue' be' fe' count im.
Proof.
  intros I H1 H2 H3. constructor.
  - apply ble_refl.
  - intros f E E'. congruence.
  - intros d [_ L] E. congruence.
  - intro z. pose proof (i_cnt _ _ _ _ _ _ _ _ _ I z). pose proof (H1 z). lia.
  - intro z. unfold bnd. pose proof (H2 z). lia.
  - intros z F. destruct (H3 z F) as (w & Fw & ->). exists w. split; [left; auto|auto].
Qed.

Section Bind.
  Variables (x : var) (us : list var) (e0 e : exp).
  Hypothesis HU : uses e0 = us ++ uses e.
  Hypothesis HB : bv e0 = x :: bv e.
  Hypothesis HF : forall w, free w e0 <-> In w us \/ (w <> x /\ free w e).

  Variables (R : var -> nat) (sig : subst) (count : c_map) (sub : ctx_map) (im : b_map) (P : list fdef).
  Hypothesis I : inve R sig count e0 sub im P.
  Notation nd := (need (fun w => free w e0) sub im P).

  Lemma bind_bnd z : bnd (bv e0) im P z = bnd (bv e) im P z + cnt z [x].
  Proof. rewrite HB. unfold bnd. rewrite !cnt_cons. cbn. lia. Qed.
  Lemma bind_x : bnd (bv e0) im P x > 0.
  Proof. rewrite bind_bnd. rewrite cnt_cons. destruct (Pos.eq_dec x x); [lia|congruence]. Qed.
  Lemma bind_sigx : apply_r sig x = x.
  Proof. exact (i_sig _ _ _ _ _ _ _ _ _ I x bind_x). Qed.
  Lemma bind_us y : In y us -> nd y.
  Proof. intro H. left. apply HF. auto. Qed.
  Lemma bind_nd w : nd w -> w <> x /\ apply_r sig w <> x.
  Proof.
    intro H. destruct (i_need _ _ _ _ _ _ _ _ _ I w H) as [A B]. pose proof bind_x. split; intro E; rewrite E in *; lia.
  Qed.
  Lemma bind_fe w : free w e -> nd w \/ In w [x].
  Proof.
    intro H. destruct (Pos.eq_dec w x) as [->|N]; [right; left; auto|left; left; apply HF; auto].
  Qed.
  Lemma bind_cnt z : R z + cnt z (apply_r_list sig us) + cnt z (apply_r_list sig (uses e)) + pocc sig im P z <= get_c z count.
  Proof. pose proof (i_cnt _ _ _ _ _ _ _ _ _ I z) as C. rewrite HU, arl_app, cnt_app in C. lia. Qed.
  Lemma bind_sigN z : In z [x] -> apply_r sig z = z \/ exists w, nd w /\ apply_r sig z = apply_r sig w.
  Proof. intros [<-|[]]. left. apply bind_sigx. Qed.
  Lemma bind_hb z : bnd (bv e) im P z + cnt z [x] <= bnd (bv e0) im P z.
  Proof. rewrite bind_bnd. lia. Qed.
  Lemma bind_sub z : get z sub = get z sub \/ (In z [x] /\ exists t ys, get z sub = Some (SVconstr t ys) /\
    forall y, In y ys -> nd y /\ R (apply_r sig y) > 0).
  Proof. auto. Qed.

  Definition sub_ok (R1 : var -> nat) (sub1 : ctx_map) : Prop := forall z,
    get z sub1 = get z sub \/ (In z [x] /\ exists t ys, get z sub1 = Some (SVconstr t ys) /\
    forall y, In y ys -> nd y /\ R1 (apply_r sig y) > 0).

  (** the binding is not used: it goes first *)
  Lemma bind_unused : get_c x count = 0 -> ~ free x e.
  Proof.
    intros Z F. apply (proj1 uses_free) in F. pose proof (bind_cnt x).
    assert (K : cnt x (apply_r_list sig (uses e)) > 0).
    { apply cnt_In, arl_In. exists x. split; [apply bind_sigx|auto]. }
    lia.
  Qed.

  Lemma bind_inv_drop : inve R sig (dec_census_list sig us count) e sub im P.
  Proof.
    apply (inv_step R sig count (uses e0) (bv e0) (fun w => free w e0) sub im P I [x]); auto.
    - apply bind_hb.
    - apply ble_refl.
    - apply bind_fe.
    - apply bind_sigN.
    - intro z. rewrite cnt_dec_list. pose proof (bind_cnt z). lia.
    - intros z K. apply (i_R _ _ _ _ _ _ _ _ _ I). pose proof (bind_hb z). lia.
    - apply uses_free.
    - apply uses_scope.
  Qed.

  Lemma bind_post_drop e' count' im' : get_c x count = 0 -> poste R sig e sub im P e' count' im' -> poste R sig e0 sub im P e' count' im'.
  Proof.
    intros Z Q.
    eapply (post_step R sig count (uses e0) (bv e0) (fun w => free w e0) sub im P I [x] R sig (bv e) (fun w => free w e) sub im); try exact Q; auto.
    - apply bind_hb.
    - apply ble_refl.
    - apply bind_fe.
    - apply bind_sigN.
    - intros f E E'. congruence.
    - intros d [_ L] E. congruence.
    - intro z. lia.
    - intros z F. right. split; [auto|]. intros [<-|[]] F'. destruct (bind_unused Z F').
  Qed.

  (** the binding is looked at later *)
  Definition R1 z := R z + cnt z (apply_r_list sig us).
  Variable sub1 : ctx_map.
  Hypothesis HS : sub_ok R1 sub1.

  Lemma bind_inv_keep : inve R1 sig count e sub1 im P.
  Proof.
    apply (inv_step R sig count (uses e0) (bv e0) (fun w => free w e0) sub im P I [x]); auto.
    - apply bind_hb.
    - apply ble_refl.
    - apply bind_fe.
    - apply bind_sigN.
    - intro z. unfold R1. lia.
    - intro z. unfold R1. pose proof (bind_cnt z). lia.
    - intros z K. unfold R1. assert (K' : bnd (bv e0) im P z > 0) by (pose proof (bind_hb z); lia).
      rewrite (i_R _ _ _ _ _ _ _ _ _ I z K'). apply cnt_notIn. intro J. apply arl_In in J as (w & <- & J).
      destruct (i_need _ _ _ _ _ _ _ _ _ I w (bind_us w J)). lia.
    - apply uses_free.
    - apply uses_scope.
  Qed.

  Variables (e' : exp) (count' : c_map) (im' : b_map).
  Hypothesis Q : poste R1 sig e sub1 im P e' count' im'.

  Lemma bind_later_unused : get_c x count' = 0 -> ~ free x e'.
  Proof.
    intros Z F. apply (proj1 uses_free) in F. apply cnt_In in F. pose proof (p_cnt _ _ _ _ _ _ _ _ _ _ _ _ Q x). lia.
  Qed.

  Lemma bind_post_later : get_c x count' = 0 -> poste R sig e0 sub im P e' (dec_census_list sig us count') im'.
  Proof.
    intros Z.
    eapply (post_step R sig count (uses e0) (bv e0) (fun w => free w e0) sub im P I [x] R1 sig (bv e) (fun w => free w e) sub1 im); try exact Q; auto.
    - apply bind_hb.
    - apply ble_refl.
    - apply bind_fe.
    - apply bind_sigN.
    - intros f E E'. congruence.
    - intros d [_ L] E. congruence.
    - intro z. unfold R1. lia.
    - intros z K. rewrite cnt_dec_list. unfold R1 in K. lia.
    - intro z. lia.
    - intros z F. right. split; [auto|]. intros [<-|[]] F'. destruct (bind_later_unused Z F).
  Qed.

  Lemma bind_post_keep e0' : uses e0' = apply_r_list sig us ++ uses e' -> bv e0' = x :: bv e' ->
    (forall w, free w e0' <-> In w (apply_r_list sig us) \/ (w <> x /\ free w e')) ->
    poste R sig e0 sub im P e0' count' im'.
  Proof.
    intros HU' HB' HF'.
    eapply (post_step R sig count (uses e0) (bv e0) (fun w => free w e0) sub im P I [x] R1 sig (bv e) (fun w => free w e) sub1 im); try exact Q; auto.
    - apply bind_hb.
    - apply ble_refl.
    - apply bind_fe.
    - apply bind_sigN.
    - intros f E E'. congruence.
    - intros d [_ L] E. congruence.
    - intro z. unfold R1. rewrite HU', cnt_app. lia.
    - intros z K. rewrite HU', cnt_app. unfold R1 in K. lia.
    - intro z. rewrite HB', !cnt_cons. cbn. lia.
    - intros z F. apply HF' in F as [F|[F1 F2]].
      + left. apply arl_In in F as (w & <- & J). exists w. split; [apply bind_us; auto|auto].
      + right. split; [auto|]. intros [<-|[]]. congruence.
  Qed.

  (** environments *)
  Section E.
    Variable VR : nat -> val -> val -> Prop.
    Hypothesis VR_mono : forall k j v1 v2, j <= k -> VR k v1 v2 -> VR j v1 v2.
    Variables (k j : nat) (rho1 rho2 : env) (fe0' : var -> Prop) (v1 : val).
    Hypothesis E : envok VR k rho1 rho2 sig (fun w => free w e0) sub im P fe0'.
    Hypothesis Hj : j <= k.

    Lemma bind_sub1 z : ~ In z [x] -> get z sub1 = get z sub.
    Proof. intro N. destruct (HS z) as [|[K _]]; tauto. Qed.

    Lemma bind_env rho2' :
      (forall w, nd w -> free (apply_r sig w) e' -> fe0' (apply_r sig w) /\ get (apply_r sig w) rho2' = get (apply_r sig w) rho2) ->
      (free x e -> here VR j (set x v1 rho1) rho2' v1 x sub1 im (fun w => free w e')) ->
      envok VR j (set x v1 rho1) rho2' sig (fun w => free w e) sub1 im P (fun w => free w e').
    Proof.
      intros H1 H2.
      eapply (env_step VR VR_mono R sig count (uses e0) (bv e0) (fun w => free w e0) sub im P I [x]); eauto.
      - intros w Nw [K|[]]. destruct (bind_nd w Nw). congruence.
      - apply ble_refl.
      - apply bind_sub1.
      - intros w Nw. apply get_set_other. apply bind_nd. auto.
      - eapply step_need'; try exact I; try exact HS; auto.
        + apply bind_hb.
        + apply ble_refl.
        + apply bind_fe.
      - intros w v [<-|[]] Fw Gw. rewrite get_set_same in Gw. injection Gw as <-. rewrite bind_sigx. auto.
    Qed.
  End E.
End Bind.
