(** * The shrink reducer: lists of functions, lists of branches *)
From Coq Require Import ZArith NArith PArith List Lia Bool Arith Permutation.
From Verif Require Import ANF_Syntax ANF_Eval ANF_Spec ANF_EvalProofs ANF_FreeProofs ANF_Scope ANF_LR ANF_LRProofs ANF_Subst
  ANF_Alpha CC_Scope Shrink_Census
  Shrink_CensusProofs Shrink_Model Shrink_Total Inline_Model Inline_LetProofs Inline_Syn Inline_Sem Inline_Obs Shrink_Inv Shrink_Env
  Shrink_Bind Shrink_Fold Shrink_Inl Shrink_LetApp Shrink_Sem Shrink_Funs.
Import ListNotations.

Section Lists.
  Variables (cenv : ctor_env) (A G : nat).
  Hypothesis HA : 1 <= A.
  Hypothesis HAG : G + 1 <= A.
  Notation VR := (vrel cenv (slin A G)).
  Notation sem := (sem cenv A G).

  Definition ok_at (n : nat) : Prop := forall R sig c e sub im P e' s c' im',
    contract n sig c e sub im = Some (e', s, c', im') -> inve R sig c e sub im P ->
    poste R sig e sub im P e' c' im' /\ sem n sig e sub im P e'.

  Variable n : nat.
  Hypothesis OK : ok_at n.
  Variables (sig : subst) (sub : ctx_map) (P : list fdef).
  Notation fcon := (fun c e im => contract n sig c e sub im).

  (** into the body of a function *)
  Section Body.
    Variables (f : var) (t : fun_tag) (xs : list var) (m : exp) (R : var -> nat) (c : c_map) (im : b_map).
    Notation d := (f, t, xs, m).
    Hypothesis I : inv R sig c (uses m) (xs ++ bv m) (fvd d) sub im P.
    Lemma body_hb z : bnd (bv m) im P z + cnt z xs <= bnd (xs ++ bv m) im P z.
    Proof. unfold bnd. rewrite cnt_app. lia. Qed.
    Lemma body_fe w : free w m -> need (fvd d) sub im P w \/ In w xs.
    Proof. intro F. destruct (in_dec Pos.eq_dec w xs) as [|N]; [auto|left]. left. split; auto. Qed.
    Lemma body_sig z : In z xs -> apply_r sig z = z.
    Proof. intro X. apply (i_sig _ _ _ _ _ _ _ _ _ I). unfold bnd. rewrite cnt_app. apply cnt_In in X. lia. Qed.
    Lemma body_inv : inve R sig c m sub im P.
    Proof.
      apply (inv_step R sig c (uses m) (xs ++ bv m) (fvd d) sub im P I xs); auto.
      - apply body_hb.
      - apply ble_refl.
      - apply body_fe.
      - intros z X. left. apply body_sig. auto.
      - intro z. apply (i_cnt _ _ _ _ _ _ _ _ _ I).
      - intros z K. apply (i_R _ _ _ _ _ _ _ _ _ I). pose proof (body_hb z). lia.
      - apply uses_free.
      - apply uses_scope.
    Qed.
    Lemma body_post m' c' im' : poste R sig m sub im P m' c' im' ->
      post R sig (xs ++ bv m) (fvd d) sub im P (uses m') (xs ++ bv m') (fvd (f, t, xs, m')) c' im'.
    Proof.
      intro Q.
      eapply (post_step R sig c (uses m) (xs ++ bv m) (fvd d) sub im P I xs R sig (bv m) (fun w => free w m) sub im); try exact Q; auto.
      - apply body_hb.
      - apply ble_refl.
      - apply body_fe.
      - intros z X. left. apply body_sig. auto.
      - intros g E E'. congruence.
      - intros d' [_ L] E. congruence.
      - intro z. rewrite cnt_app. lia.
      - intros z [N F]. right. split; [auto|]. tauto.
    Qed.
  End Body.

  Lemma postcontract_ok : forall fds R c im st fds' s c' im',
    postcontractfun fcon sig c im fds st = Some (fds', s, c', im') ->
    inv R sig c (ul (lv im (flist fds))) (ol (lv im (flist fds))) (fvl (lv im (flist fds))) sub im P ->
    (forall f, In f (fnames fds) -> get f sub = None /\ bnd (ol (lv im (flist fds))) im P f = 0) ->
    post R sig (ol (lv im (flist fds))) (fvl (lv im (flist fds))) sub im P
      (ul (flist fds')) (ol (flist fds')) (fvl (flist fds')) c' im' /\
    (forall z, cnt z (fnames fds') <= cnt z (fnames fds)) /\
    (forall d, In d (lv im (flist fds)) -> ~ In (fname d) (fnames fds') -> R (fname d) = 0 /\ cnt (fname d) (ul (flist fds')) = 0) /\
    (forall f t xs m', In (f, t, xs, m') (flist fds') ->
       exists m im1, In (f, t, xs, m) (flist fds) /\ ble im im1 /\ sem n sig m sub im1 P m').
  Proof.
    induction fds as [f t xs m fds IH|]; intros R c im st fds' s c' im' H I N; cbn [postcontractfun] in H.
    2:{ injection H as <- <- <- <-. cbn [flist lv filter ul ol flat_map fvl fnames] in *. split; [|split; [auto|split; [intros d []|intros ? ? ? ? []]]].
        eapply post_same; [exact I|cbn; lia|cbn; lia|tauto]. }
    cbn [flist lv filter fname] in *. fold (lv im (flist fds)) in *.
    destruct (get_b f im) eqn:L; cbn [negb] in *.
    - destruct (IH R c im st fds' s c' im' H I) as (K1 & K2 & K3 & K4).
      { intros g Ig. apply N. right. auto. }
      split; [auto|]. split; [intro z; cbn [fnames]; rewrite cnt_cons; specialize (K2 z); lia|]. split; [auto|].
      intros g t' xs' m' J. destruct (K4 _ _ _ _ J) as (m0 & im1 & J1 & J2). exists m0, im1. split; [right; auto|auto].
    - set (lr := lv im (flist fds)) in *.
      change (ul ((f, t, xs, m) :: lr)) with (uses m ++ ul lr) in *.
      change (ol ((f, t, xs, m) :: lr)) with ((xs ++ bv m) ++ ol lr) in *.
      change (fvl ((f, t, xs, m) :: lr)) with (fun w => fvd (f, t, xs, m) w \/ fvl lr w) in *.
      destruct (get_c f c) eqn:C.
      + (* not used *)
        assert (HB : forall z, bnd (ol lr) im P z + cnt z [] <= bnd ((xs ++ bv m) ++ ol lr) im P z).
        { intro z. unfold bnd. rewrite cnt_app. cbn. lia. }
        assert (I1 : inv R sig (dec_census sig m c) (ul lr) (ol lr) (fvl lr) sub im P).
        { apply (inv_step R sig c _ _ _ sub im P I []); auto.
          - apply ble_refl.
          - intros w F. left. left. auto.
          - intros z [].
          - intro z. pose proof (i_cnt _ _ _ _ _ _ _ _ _ I z) as K. rewrite arl_app, cnt_app in K. rewrite dec_exp_le. lia.
          - intros z K. apply (i_R _ _ _ _ _ _ _ _ _ I). pose proof (HB z). lia.
          - apply fvl_uses.
          - apply ul_scope. }
        destruct (IH R (dec_census sig m c) im st fds' s c' im' H I1) as (K1 & K2 & K3 & K4).
        { intros g Ig. destruct (N g (or_intror Ig)) as [N1 N2]. split; [auto|]. pose proof (HB g). fold lr. lia. }
        split; [|split; [|split]].
        * eapply (post_step R sig c _ _ _ sub im P I [] R sig (ol lr) (fvl lr) sub im); try exact K1; auto.
          -- apply ble_refl.
          -- intros w F. left. left. auto.
          -- intros z [].
          -- intros g E E'. congruence.
          -- intros d' [_ L'] E. congruence.
          -- intro z. lia.
        * intro z. cbn [fnames]. rewrite cnt_cons. specialize (K2 z). lia.
        * intros d [<-|D] Nd; [|auto]. cbn [fname] in *. pose proof (i_cnt _ _ _ _ _ _ _ _ _ I f) as K. rewrite arl_app, cnt_app in K.
          split; [lia|].
          apply (dead_stays _ _ _ _ _ _ _ _ _ _ _ _ _ _ _ I1 K1 (ul_scope _)); try lia.
          destruct (N f (or_introl eq_refl)) as [_ N2]. pose proof (HB f). lia.
        * intros g t' xs' m' J. destruct (K4 _ _ _ _ J) as (m0 & im1 & J1 & J2). exists m0, im1. split; [right; auto|auto].
      + destruct (contract n sig c m sub im) as [[[[m' s1] c1] im1]|] eqn:EC; [|discriminate].
        destruct (postcontractfun fcon sig c1 im1 fds st) as [[[[fds0 s2] c2] im2]|] eqn:EP; [|discriminate].
        injection H as <- <- <- <-.
        assert (UA : forall w, (fvd (f, t, xs, m) w -> In w (uses m)) /\ (In w (uses m) -> fvd (f, t, xs, m) w \/ In w (xs ++ bv m))).
        { intro w. split; [apply (fvd_uses (f, t, xs, m))|apply (duses_scope (f, t, xs, m))]. }
        assert (UB : forall w, (fvl lr w -> In w (ul lr)) /\ (In w (ul lr) -> fvl lr w \/ In w (ol lr))).
        { intro w. split; [apply fvl_uses|apply ul_scope]. }
        pose proof (seq_A _ _ _ _ _ _ _ _ _ _ _ _ I UA UB) as IA.
        destruct (OK _ _ _ _ _ _ _ _ _ _ _ EC (body_inv f t xs m _ c im IA)) as [QM SM].
        pose proof (body_post f t xs m _ c im IA m' c1 im1 QM) as QA.
        assert (UA' : forall w, In w (uses m') -> fvd (f, t, xs, m') w \/ In w (xs ++ bv m')) by (apply (duses_scope (f, t, xs, m'))).
        pose proof (seq_B _ _ _ _ _ _ _ _ _ _ _ _ I UB _ _ _ _ _ QA UA') as IB.
        assert (EL : lv im1 (flist fds) = lr).
        { apply lv_same. intros d D. destruct (get_b (fname d) im) eqn:E.
          - apply (p_im _ _ _ _ _ _ _ _ _ _ _ _ QA). auto.
          - destruct (get_b (fname d) im1) eqn:E1; [exfalso|auto].
            destruct (N (fname d)) as [N1 N2]; [right; rewrite <- fname_fl; apply in_map; auto|].
            destruct (p_new _ _ _ _ _ _ _ _ _ _ _ _ QA _ E E1) as [(t' & xs' & m0 & K)|[K _]]; [congruence|].
            unfold bnd in *. rewrite cnt_app in N2. lia. }
        pose proof (p_im _ _ _ _ _ _ _ _ _ _ _ _ QA) as B1.
        destruct (IH _ c1 im1 st fds0 s2 c2 im2 EP ltac:(rewrite EL; exact IB)) as (K1 & K2 & K3 & K4).
        { intros g Ig. destruct (N g (or_intror Ig)) as [N1 N2]. split; [auto|]. rewrite EL.
          pose proof (pbv_le im im1 P g B1). unfold bnd in *. rewrite cnt_app in N2. lia. }
        rewrite EL in K1, K3.
        split; [|split; [|split]].
        * exact (seq_post _ _ _ _ _ _ _ _ _ _ _ _ I UB _ _ _ _ _ QA UA' _ _ _ _ _ K1 (ul_scope _)).
        * intro z. cbn [fnames]. rewrite !cnt_cons. specialize (K2 z). lia.
        * intros d [<-|D] Nd; cbn [fname fnames In] in *; [tauto|].
          destruct (K3 d D) as [K5 K6]; [tauto|]. unfold RB in K5. cbn [ul flist flat_map duses]. rewrite cnt_app.
          fold (ul (flist fds0)). lia.
        * intros g t' xs' m0 [J|J].
          -- injection J as <- <- <- <-. exists m, im. split; [left; auto|]. split; [apply ble_refl|auto].
          -- destruct (K4 _ _ _ _ J) as (m1 & im3 & J1 & J2 & J3). exists m1, im3. split; [right; auto|].
             split; [eapply ble_trans; eauto|auto].
  Qed.

  (** ** Branches *)
  Definition ucl (cl : list (ctor_tag * exp)) : list var := flat_map (fun p => uses (snd p)) cl.
  Definition bcl (cl : list (ctor_tag * exp)) : list var := flat_map (fun p => bv (snd p)) cl.

  Lemma ucl_scope cl w : (free_case w cl -> In w (ucl cl)) /\ (In w (ucl cl) -> free_case w cl \/ In w (bcl cl)).
  Proof.
    induction cl as [|[t e] cl IH]; cbn; [tauto|]. rewrite !in_app_iff. split.
    - intros [K|K]; [left; apply uses_free; auto|right; apply IH; auto].
    - intros [K|K]; [destruct (proj1 uses_scope e w K); auto|]. apply IH in K. tauto.
  Qed.

  Lemma contractcases_ok : forall cl R c im cl' s c' im',
    contractcases fcon c im cl = Some (cl', s, c', im') ->
    inv R sig c (ucl cl) (bcl cl) (fun w => free_case w cl) sub im P ->
    post R sig (bcl cl) (fun w => free_case w cl) sub im P (ucl cl') (bcl cl') (fun w => free_case w cl') c' im' /\
    map fst cl' = map fst cl /\
    (forall t e, findtag cl t = Some e -> exists e' im1, findtag cl' t = Some e' /\ ble im im1 /\ sem n sig e sub im1 P e').
  Proof.
    induction cl as [|[t e] cl IH]; intros R c im cl' s c' im' H I; cbn [contractcases] in H.
    - injection H as <- <- <- <-. split; [|split; [auto|intros; discriminate]].
      eapply post_same; [exact I|cbn; lia|cbn; lia|cbn; tauto].
    - destruct (contract n sig c e sub im) as [[[[e' s1] c1] im1]|] eqn:EC; [|discriminate].
      destruct (contractcases fcon c1 im1 cl) as [[[[cl0 s2] c2] im2]|] eqn:EP; [|discriminate].
      injection H as <- <- <- <-.
      change (ucl ((t, e) :: cl)) with (uses e ++ ucl cl) in *. change (bcl ((t, e) :: cl)) with (bv e ++ bcl cl) in *.
      change (fun w => free_case w ((t, e) :: cl)) with (fun w => free w e \/ free_case w cl) in *.
      assert (UA : forall w, (free w e -> In w (uses e)) /\ (In w (uses e) -> free w e \/ In w (bv e))).
      { intro w. split; [apply uses_free|apply uses_scope]. }
      pose proof (seq_A _ _ _ _ _ _ _ _ _ _ _ _ I UA (ucl_scope cl)) as IA.
      destruct (OK _ _ _ _ _ _ _ _ _ _ _ EC IA) as [QA SA].
      assert (UA' : forall w, In w (uses e') -> free w e' \/ In w (bv e')) by (apply uses_scope).
      pose proof (seq_B _ _ _ _ _ _ _ _ _ _ _ _ I (ucl_scope cl) _ _ _ _ _ QA UA') as IB.
      destruct (IH _ c1 im1 cl0 s2 c2 im2 EP IB) as (K1 & K2 & K3).
      split; [|split].
      + exact (seq_post _ _ _ _ _ _ _ _ _ _ _ _ I (ucl_scope cl) _ _ _ _ _ QA UA' _ _ _ _ _ K1 (fun w => proj2 (ucl_scope cl0 w))).
      + cbn. f_equal. auto.
      + intros t0 e0 F. cbn [findtag] in *. destruct (Pos.eq_dec t t0).
        * injection F as <-. exists e', im. split; [auto|]. split; [apply ble_refl|auto].
        * destruct (K3 t0 e0 F) as (e1 & im3 & J1 & J2 & J3). exists e1, im3. split; [auto|].
          split; [eapply ble_trans; [exact (p_im _ _ _ _ _ _ _ _ _ _ _ _ QA)|auto]|auto].
  Qed.
End Lists.
