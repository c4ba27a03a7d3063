(** * The shrink reducer: evaluation of a bundle *)
From Coq Require Import ZArith NArith PArith List Lia Bool Arith Permutation.
From Verif Require Import ANF_Syntax ANF_Eval ANF_Spec ANF_EvalProofs ANF_FreeProofs ANF_Scope ANF_LR ANF_LRProofs ANF_Subst
  ANF_Alpha CC_Scope Shrink_Census
  Shrink_CensusProofs Shrink_Model Shrink_Total Inline_Model Inline_LetProofs Inline_Syn Inline_Sem Inline_Obs Shrink_Inv Shrink_Env
  Shrink_Bind Shrink_Fold Shrink_Inl Shrink_LetApp Shrink_Sem Shrink_Funs Shrink_Post.
Import ListNotations.

Section FunSem.
  Variables (cenv : ctor_env) (A G : nat).
  Hypothesis HA : 1 <= A.
  Hypothesis HAG : G + 1 <= A.
  Notation PG := (slin A G).
  Notation VR := (vrel cenv (slin A G)).
  Notation ER i := (erel cenv VR (slin A i)).
  Notation sem := (sem cenv A G).
  Notation VRm := (VR_mono cenv A G).

  Variables (n : nat) (fl : fundefs) (e : exp).
  Notation e0 := (Efun fl e).
  Variables (R : var -> nat) (sig : subst) (count : c_map) (sub : ctx_map) (im : b_map) (P : list fdef).
  Hypothesis IV : inve R sig count e0 sub im P.
  Notation nd := (need (fun w => free w e0) sub im P).
  Variables (fl' : fundefs) (count' : c_map) (sub' : ctx_map).
  Hypothesis HP : precontract sig count sub fl = (fl', count', sub').
  Notation P' := (flist fl' ++ P).
  Variables (e'' : exp) (c2 : c_map) (im2 : b_map).
  Hypothesis Q : poste R sig e sub' im P' e'' c2 im2.
  Notation l2 := (lv im2 (flist fl')).
  Variables (fds : fundefs) (c3 : c_map) (im3 : b_map).
  Hypothesis Q2 : post (R2 R e'') sig (ol l2) (fvl l2) sub im2 P (ul (flist fds)) (ol (flist fds)) (fvl (flist fds)) c3 im3.
  Hypothesis HN : forall z, cnt z (fnames fds) <= cnt z (fnames fl').
  Hypothesis HD : forall d, In d l2 -> ~ In (fname d) (fnames fds) -> R2 R e'' (fname d) = 0 /\ cnt (fname d) (ul (flist fds)) = 0.
  Hypothesis HM : forall f t xs m', In (f, t, xs, m') (flist fds) ->
    exists m im1, In (f, t, xs, m) (flist fl') /\ ble im2 im1 /\ sem n sig m sub im1 P m'.
  Hypothesis SE : sem n sig e sub' im P' e''.
  Variable e3 : exp.
  Hypothesis F3 : forall w, free w e3 <-> ~ In w (fnames fds) /\ (free w e'' \/ free_body w fds).
  Hypothesis E3 : e3 = Efun fds e'' \/ (fds = Fnil /\ e3 = e'').

  Lemma fs_names f : In f (fnames fds) -> In f (fnames fl).
  Proof.
    intro H. apply (fn_names _ _ _ _ _ _ _ HP). apply cnt_In in H. apply cnt_In. pose proof (HN f). lia.
  Qed.

  Lemma fs_used f : In f (fnames fl) -> In f (uses e'') \/ In f (ul (flist fds)) -> In f (fnames fds).
  Proof.
    intros F U. destruct (in_dec Pos.eq_dec f (fnames fds)) as [|N]; [auto|exfalso].
    destruct (fn_dropped fl e R sig count sub im P IV fl' count' sub' HP e'' c2 im2 Q fds c3 im3 Q2 HD f F N) as (_ & K1 & K2).
    apply cnt_notIn in K1, K2. tauto.
  Qed.

  Section K.
    Variables (k : nat) (rho1 rho2 : env).
    Hypothesis LG : 2 * n <= G.
    Hypothesis E : envok VR k rho1 rho2 sig (fun w => free w e0) sub im P (fun w => free w e3).

    Lemma fs_clos : forall j, j <= k -> forall f, In f (fnames fds) -> VR j (Vfun rho1 fl f) (Vfun rho2 fds f).
    Proof.
      intro j. induction j as [j IH] using lt_wf_ind. intros J f F. rewrite vrel_fun.
      intros t xs m vs1 rho1' vs2 FD SL LV.
      destruct (find_def f fds) as [[[t' xs'] m']|] eqn:FD'; [|apply find_def_fnames in F; congruence].
      pose proof (find_def_flist _ _ _ _ _ FD') as FL'.
      destruct (HM _ _ _ _ FL') as (m0 & im1 & FL0 & B1 & SM).
      assert (FL : In (f, t', xs', m0) (flist fl)) by (apply (proj1 (pre_part _ _ _ _ _ _ _ HP)); auto).
      rewrite (fl_find_def fl f t' xs' m0 (fn_nodup fl e R sig count sub im P IV) FL) in FD. injection FD as -> -> ->.
      pose proof (set_lists_len _ _ _ _ _ SL) as LX.
      destruct (set_lists_ex _ xs vs2 (def_funs fds fds rho2 rho2)) as (rho2' & SL2); [congruence|].
      exists xs, m', rho2'. split; [auto|]. split; [auto|]. intros i Hi FA.
      apply (erel_weaken cenv PG (slin A (2 * n)) PG); [intros b c1 c4 K; eapply slin_weaken; [|exact K]; lia|].
      apply SM; [auto|].
      assert (OWN : forall x, In x xs -> bnd (bv e0) im P x > 0 /\ ~ In x (fnames fl)).
      { intros x X. assert (K : cnt x (ol (flist fl)) > 0).
        { apply cnt_In. apply in_flat_map. exists (f, t, xs, m). split; [auto|]. cbn. apply in_or_app. auto. }
        pose proof (i_uniq _ _ _ _ _ _ _ _ _ IV x) as U. rewrite fn_bnd in *. split; [lia|]. apply cnt_notIn. lia. }
      assert (ND : forall w, nd w -> ~ In w xs /\ ~ In (apply_r sig w) xs).
      { intros w Nw. destruct (i_need _ _ _ _ _ _ _ _ _ IV w Nw) as [A1 A2].
        split; intro X; destruct (OWN _ X); lia. }
      assert (B : ble im im1). { eapply ble_trans; [|exact B1]. eapply fn_im2; eauto. }
      assert (NW : forall w, need (fun w => free w m) sub im1 P w -> In w xs \/ (nd w \/ In w (fnames fl))).
      { intros w [Fw|[(d & L & V)|K]].
        - destruct (in_dec Pos.eq_dec w xs) as [|N]; [auto|right]. apply (fn_body fl e sub im P (f, t, xs, m)); [auto|split; auto].
        - right. left. right. left. exists d. split; [eapply live_le; eauto|auto].
        - right. left. right. right. auto. }
      intros w v Nw Gw. destruct (in_dec Pos.eq_dec w xs) as [X|X].
      - destruct (OWN w X) as [O1 O2].
        rewrite (i_sig _ _ _ _ _ _ _ _ _ IV w O1). split.
        + intros _. assert (PL : forall (xs : list var) (vs1 vs2 : list val) r1 r1' r2 r2', Forall2 (VR i) vs1 vs2 ->
              set_lists xs vs1 r1 = Some r1' -> set_lists xs vs2 r2 = Some r2' -> forall w v, In w xs -> get w r1' = Some v ->
              exists v2, get w r2' = Some v2 /\ VR i v v2).
          { clear. induction xs as [|x xs IHx]; intros vs1 vs2 r1 r1' r2 r2' FA S1 S2 w v Iw Gw; [destruct Iw|].
            destruct FA as [|v1 v2 vs1 vs2 V FA]; cbn in S1, S2; [discriminate|].
            destruct (set_lists xs vs1 r1) eqn:T1; [|discriminate]. destruct (set_lists xs vs2 r2) eqn:T2; [|discriminate].
            injection S1 as <-. injection S2 as <-. rewrite get_set in *. destruct (Pos.eq_dec w x).
            - injection Gw as <-. eauto.
            - destruct Iw as [|Iw]; [congruence|]. eapply IHx; eauto. }
          eapply PL; eauto.
        + rewrite (i_sub _ _ _ _ _ _ _ _ _ IV w O1). exact I.
      - pose proof (set_lists_out _ _ _ _ _ _ SL X) as G1. rewrite G1, def_funs_get in Gw.
        destruct (NW w Nw) as [|[K|K]]; [tauto| |].
        + destruct (fn_nd_out fl e R sig count sub im P IV w K) as [K1 K2].
          destruct (in_dec Pos.eq_dec w (fnames fl)) as [|_]; [tauto|].
          apply (env_old VR VRm R sig count (uses e0) (bv e0) (fun w => free w e0) sub im P IV (fnames fl ++ xs)) with
            (k := k) (rho1 := rho1) (rho2 := rho2) (fe' := fun w => free w e3) (w := w); auto.
          * intros z Nz. rewrite in_app_iff. destruct (fn_nd_out fl e R sig count sub im P IV z Nz). destruct (ND z Nz). tauto.
          * lia.
          * intros z Nz. destruct (fn_nd_out fl e R sig count sub im P IV z Nz) as [N1 _]. destruct (ND z Nz) as [N2 _].
            rewrite (set_lists_out _ _ _ _ _ _ SL N2), def_funs_get. destruct (in_dec Pos.eq_dec z (fnames fl)); [tauto|auto].
          * intros z Nz Fz. destruct (fn_nd_out fl e R sig count sub im P IV z Nz) as [_ N1]. destruct (ND z Nz) as [_ N2].
            assert (N3 : ~ In (apply_r sig z) (fnames fds)) by (intro; apply N1, fs_names; auto).
            split.
            -- apply F3. split; [auto|right]. eapply find_def_free; eauto.
            -- rewrite (set_lists_out _ _ _ _ _ _ SL2 N2), def_funs_get. destruct (in_dec Pos.eq_dec (apply_r sig z) (fnames fds)); [tauto|auto].
        + destruct (in_dec Pos.eq_dec w (fnames fl)) as [_|]; [|tauto]. injection Gw as <-.
          rewrite (fn_sig fl e R sig count sub im P IV w K). split.
          * intro Fw. assert (Wf : In w (fnames fds)).
            { apply fs_used; [auto|right]. eapply ul_In; [exact FL'|]. cbn. apply uses_free. auto. }
            exists (Vfun rho2 fds w). split.
            -- rewrite (set_lists_out _ _ _ _ _ _ SL2 X), def_funs_get. destruct (in_dec Pos.eq_dec w (fnames fds)); [auto|tauto].
            -- apply IH; [lia|lia|auto].
          * rewrite (fn_sub fl e R sig count sub im P IV w K). exact I.
    Qed.

    Lemma fs_env : envok VR k (def_funs fl fl rho1 rho1) (def_funs fds fds rho2 rho2) sig (fun w => free w e) sub' im P' (fun w => free w e'').
    Proof.
      intros w v Nw Gw. rewrite def_funs_get in Gw.
      destruct (fn_nd fl e R sig count sub im P IV fl' count' sub' HP w Nw) as [K|K].
      - destruct (fn_nd_out fl e R sig count sub im P IV w K) as [K1 K2].
        destruct (in_dec Pos.eq_dec w (fnames fl)) as [|_]; [tauto|].
        apply (env_old VR VRm R sig count (uses e0) (bv e0) (fun w => free w e0) sub im P IV (fnames fl)) with
          (k := k) (rho1 := rho1) (rho2 := rho2) (fe' := fun w => free w e3) (w := w); auto.
        + intros z Nz. apply (fn_nd_out fl e R sig count sub im P IV z Nz).
        + apply ble_refl.
        + apply (fn_out _ _ _ _ _ _ _ HP).
        + intros z Nz. destruct (fn_nd_out fl e R sig count sub im P IV z Nz) as [N1 _].
          rewrite def_funs_get. destruct (in_dec Pos.eq_dec z (fnames fl)); [tauto|auto].
        + intros z Nz Fz. destruct (fn_nd_out fl e R sig count sub im P IV z Nz) as [_ N1].
          assert (N3 : ~ In (apply_r sig z) (fnames fds)) by (intro; apply N1, fs_names; auto).
          split; [apply F3; auto|]. rewrite def_funs_get. destruct (in_dec Pos.eq_dec (apply_r sig z) (fnames fds)); [tauto|auto].
      - destruct (in_dec Pos.eq_dec w (fnames fl)) as [_|]; [|tauto]. injection Gw as <-.
        rewrite (fn_sig fl e R sig count sub im P IV w K). split.
        + intro Fw. assert (Wf : In w (fnames fds)) by (apply fs_used; [auto|left; apply uses_free; auto]).
          exists (Vfun rho2 fds w). rewrite def_funs_get. destruct (in_dec Pos.eq_dec w (fnames fds)); [|tauto].
          split; [auto|]. apply fs_clos; auto.
        + rewrite (pre_sub _ _ _ _ _ _ _ HP w). destruct (find_def w fl') as [[[t xs] m]|] eqn:FD.
          * cbn [known]. intros _. exists rho1, fl. split; [auto|]. split; [|auto].
            apply fl_find_def; [eapply fn_nodup; eauto|]. apply (proj1 (pre_part _ _ _ _ _ _ _ HP)). apply find_def_flist. auto.
          * rewrite (fn_sub fl e R sig count sub im P IV w K). exact I.
    Qed.
  End K.

  Lemma fun_sem : sem (S n) sig e0 sub im P e3.
  Proof.
    intros LG k rho1 rho2 E. replace (2 * S n) with (2 * n + 2) by lia.
    assert (HE : ER (2 * n) k (def_funs fl fl rho1 rho1) e (def_funs fds fds rho2 rho2) e'').
    { apply SE; [lia|]. apply fs_env; [lia|exact E]. }
    destruct E3 as [->|[-> ->]].
    - apply erel_fun with (P := slin A (2 * n)).
      + apply slin_step; [auto|lia].
      + intros j J. eapply erel_mono; [|exact HE]. lia.
    - apply (ER_later cenv A G HA HAG). intros c r B. exists (def_funs fl fl rho1 rho1), e. split; [exact HE|].
      inversion B as [? ? ? L0|? ? ? c0 B0]; subst; [lia|]. replace c with c0 by lia. inversion B0; subst. auto.
  Qed.
End FunSem.
