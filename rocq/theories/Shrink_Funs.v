(** * The shrink reducer: functions *)
From Coq Require Import ZArith NArith PArith List Lia Bool Arith Permutation.
From Verif Require Import ANF_Syntax ANF_Eval ANF_Spec ANF_EvalProofs ANF_FreeProofs ANF_Scope ANF_LR ANF_LRProofs ANF_Subst
  ANF_Alpha CC_Scope Shrink_Census
  Shrink_CensusProofs Shrink_Model Shrink_Total Inline_Model Inline_LetProofs Inline_Syn Inline_Sem Inline_Obs Shrink_Inv Shrink_Env
  Shrink_Bind Shrink_Fold Shrink_Inl Shrink_LetApp Shrink_Sem.
Import ListNotations.

Lemma pair3 A B C (a a' : A) (b b' : B) (c c' : C) : (a, b, c) = (a', b', c') -> a = a' /\ b = b' /\ c = c'.
Proof. intro H. injection H as -> -> ->. auto. Qed.

(** ** Lists of functions: variables used, bound and free *)
Definition ul (l : list fdef) : list var := flat_map duses l.
Definition ol (l : list fdef) : list var := flat_map ownd l.
Fixpoint fvl (l : list fdef) (w : var) : Prop := match l with [] => False | d :: l => fvd d w \/ fvl l w end.

Lemma fvl_In l w : fvl l w <-> exists d, In d l /\ fvd d w.
Proof.
  induction l as [|d l IH]; cbn; [split; [tauto|intros (? & [] & _)]|]. rewrite IH. split.
  - intros [K|(d' & K1 & K2)]; eauto.
  - intros (d' & [->|K1] & K2); eauto.
Qed.
Lemma ul_fl B : uses_funs B = ul (flist B).
Proof. induction B as [f t xs m B IH|]; cbn; [rewrite IH; auto|auto]. Qed.
Lemma ol_fl B z : cnt z (bv_funs B) = cnt z (fnames B) + cnt z (ol (flist B)).
Proof.
  induction B as [f t xs m B IH|]; cbn [bv_funs fnames flist ol flat_map ownd own dfun]; [|auto].
  rewrite !cnt_cons, !cnt_app, IH. unfold ol. lia.
Qed.
Lemma fvl_fl B w : free_body w B <-> fvl (flist B) w.
Proof. induction B as [f t xs m B IH|]; cbn; [rewrite IH; tauto|tauto]. Qed.
Lemma fname_fl B : map fname (flist B) = fnames B.
Proof. induction B as [f t xs m B IH|]; cbn; [rewrite IH; auto|auto]. Qed.
Lemma fvl_uses l w : fvl l w -> In w (ul l).
Proof. induction l as [|d l IH]; cbn; [auto|]. rewrite in_app_iff. intros [K|K]; [left; apply fvd_uses; auto|auto]. Qed.
Lemma ul_scope l w : In w (ul l) -> fvl l w \/ In w (ol l).
Proof.
  induction l as [|d l IH]; cbn; [auto|]. rewrite !in_app_iff. intros [K|K]; [destruct (duses_scope d w K); auto|].
  destruct (IH K); auto.
Qed.
Lemma ul_In l d w : In d l -> In w (duses d) -> In w (ul l).
Proof. intros H K. apply in_flat_map. eauto. Qed.

(** the functions that have not been inlined *)
Definition lv (im : b_map) (l : list fdef) : list fdef := filter (fun d => negb (get_b (fname d) im)) l.
Lemma lv_In im l d : In d (lv im l) <-> live im l d.
Proof. unfold lv, live. rewrite filter_In, negb_true_iff. tauto. Qed.
Lemma psum_lv im l g : psum im l g = fold_right (fun d n => g d + n) 0 (lv im l).
Proof. unfold lv. induction l as [|d l IH]; cbn; [auto|]. destruct (get_b (fname d) im); cbn; lia. Qed.
Lemma pocc_lv sig im l z : pocc sig im l z = cnt z (apply_r_list sig (ul (lv im l))).
Proof.
  unfold pocc. rewrite psum_lv. unfold ul. induction (lv im l) as [|d l' IH]; cbn [fold_right flat_map]; [auto|].
  rewrite arl_app, cnt_app, IH. auto.
Qed.
Lemma pbv_lv im l z : pbv im l z = cnt z (ol (lv im l)).
Proof.
  unfold pbv. rewrite psum_lv. unfold ol. induction (lv im l) as [|d l' IH]; cbn [fold_right flat_map]; [auto|].
  rewrite cnt_app, IH. auto.
Qed.
Lemma lv_all im l : (forall d, In d l -> get_b (fname d) im = false) -> lv im l = l.
Proof.
  unfold lv. induction l as [|d l IH]; cbn; intro H; [auto|]. rewrite (H d) by auto. cbn. f_equal. auto.
Qed.
Lemma lv_same im im1 l : (forall d, In d l -> get_b (fname d) im1 = get_b (fname d) im) -> lv im1 l = lv im l.
Proof.
  unfold lv. induction l as [|d l IH]; cbn; intro H; [auto|]. rewrite (H d) by auto. rewrite IH; auto.
Qed.
Lemma cnt_lv im l z : cnt z (ol (lv im l)) <= cnt z (ol l).
Proof.
  unfold ol, lv. induction l as [|d l IH]; cbn [filter flat_map]; [auto|]. destruct (get_b (fname d) im); cbn [negb flat_map]; rewrite !cnt_app; lia.
Qed.

(** ** Functions that are not used *)
Lemma dec_exp_le sig e c v : get_c v (dec_census sig e c) = get_c v c - cnt v (apply_r_list sig (uses e)).
Proof. rewrite dec_exp, (proj1 (uses_rename sig)). reflexivity. Qed.

Lemma pre_mono sig : forall fds count sub fds' count' sub', precontract sig count sub fds = (fds', count', sub') ->
  forall z, get_c z count' <= get_c z count.
Proof.
  induction fds as [f t xs m fds IH|]; intros count sub fds' count' sub' H z; cbn [precontract] in H.
  - destruct (get_c f count) eqn:C.
    + pose proof (IH _ _ _ _ _ H z) as K. rewrite dec_exp_le in K. lia.
    + destruct (precontract sig count sub fds) as [[fds0 c0] sub0] eqn:E. apply pair3 in H as (<- & <- & <-).
      apply (IH _ _ _ _ _ E).
  - apply pair3 in H as (<- & <- & <-). auto.
Qed.

Lemma pre_counts sig : forall fds count sub fds' count' sub', precontract sig count sub fds = (fds', count', sub') ->
  forall r : var -> nat, (forall z, r z + cnt z (apply_r_list sig (ul (flist fds))) <= get_c z count) ->
  forall z, r z + cnt z (apply_r_list sig (ul (flist fds'))) <= get_c z count'.
Proof.
  induction fds as [f t xs m fds IH|]; intros count sub fds' count' sub' H r HR z; cbn [precontract] in H.
  - cbn [flist ul flat_map duses] in HR. fold (ul (flist fds)) in HR.
    destruct (get_c f count) eqn:C.
    + apply (IH _ _ _ _ _ H). intro v. specialize (HR v). rewrite dec_exp_le. rewrite arl_app, cnt_app in HR. lia.
    + destruct (precontract sig count sub fds) as [[fds0 c0] sub0] eqn:E. apply pair3 in H as (<- & <- & <-).
      pose proof (IH _ _ _ _ _ E (fun v => r v + cnt v (apply_r_list sig (uses m)))) as K. cbv beta in K.
      cbn [flist ul flat_map duses]. fold (ul (flist fds0)). rewrite arl_app, cnt_app.
      assert (K' : r z + cnt z (apply_r_list sig (uses m)) + cnt z (apply_r_list sig (ul (flist fds0))) <= get_c z c0).
      { apply K. intro v. specialize (HR v). rewrite arl_app, cnt_app in HR. lia. }
      lia.
  - apply pair3 in H as (<- & <- & <-). apply HR.
Qed.

Lemma pre_dropped sig : forall fds count sub fds' count' sub', precontract sig count sub fds = (fds', count', sub') ->
  forall f, In f (fnames fds) -> ~ In f (fnames fds') -> get_c f count' = 0.
Proof.
  induction fds as [f t xs m fds IH|]; intros count sub fds' count' sub' H g I N; cbn [precontract] in H.
  - destruct (get_c f count) eqn:C.
    + cbn [fnames] in I. destruct I as [->|I].
      * pose proof (pre_mono _ _ _ _ _ _ _ H g) as K. rewrite dec_exp_le in K. lia.
      * eapply IH; eauto.
    + destruct (precontract sig count sub fds) as [[fds0 c0] sub0] eqn:E. apply pair3 in H as (<- & <- & <-).
      cbn [fnames In] in *. destruct I as [->|I]; [tauto|]. eapply IH; eauto.
  - destruct I.
Qed.

Lemma pre_sub sig : forall fds count sub fds' count' sub', precontract sig count sub fds = (fds', count', sub') ->
  forall z, get z sub' = match find_def z fds' with Some (t, xs, m) => Some (SVfun t xs m) | None => get z sub end.
Proof.
  induction fds as [f t xs m fds IH|]; intros count sub fds' count' sub' H z; cbn [precontract] in H.
  - destruct (get_c f count) eqn:C; [eapply IH; eauto|].
    destruct (precontract sig count sub fds) as [[fds0 c0] sub0] eqn:E. apply pair3 in H as (<- & <- & <-).
    rewrite get_set. cbn [find_def]. destruct (Pos.eq_dec z f) as [->|]; [auto|]. eapply IH; eauto.
  - apply pair3 in H as (<- & <- & <-). auto.
Qed.

Lemma pre_part sig : forall fds count sub fds' count' sub', precontract sig count sub fds = (fds', count', sub') ->
  incl (flist fds') (flist fds) /\ (forall z, cnt z (fnames fds') <= cnt z (fnames fds)) /\
  (forall z, cnt z (ol (flist fds')) <= cnt z (ol (flist fds))).
Proof.
  induction fds as [f t xs m fds IH|]; intros count sub fds' count' sub' H; cbn [precontract] in H.
  - destruct (get_c f count) eqn:C.
    + destruct (IH _ _ _ _ _ H) as (K1 & K2 & K3). cbn [flist fnames ol flat_map]. split; [|split].
      * intros d D. right. auto.
      * intro z. rewrite cnt_cons. specialize (K2 z). lia.
      * intro z. rewrite cnt_app. specialize (K3 z). unfold ol in *. lia.
    + destruct (precontract sig count sub fds) as [[fds0 c0] sub0] eqn:E. apply pair3 in H as (<- & <- & <-).
      destruct (IH _ _ _ _ _ E) as (K1 & K2 & K3). cbn [flist fnames ol flat_map]. split; [|split].
      * intros d [D|D]; [left; auto|right; auto].
      * intro z. rewrite !cnt_cons. specialize (K2 z). lia.
      * intro z. rewrite !cnt_app. specialize (K3 z). unfold ol in *. lia.
  - apply pair3 in H as (<- & <- & <-). split; [intros d D; auto|]. auto.
Qed.

Lemma fl_find_def B f t xs m : NoDup (fnames B) -> In (f, t, xs, m) (flist B) -> find_def f B = Some (t, xs, m).
Proof.
  induction B as [g t' ys e B IH|]; cbn; [|tauto]. intros ND I. inversion ND; subst.
  destruct I as [E|I]; [injection E as -> -> -> ->; destruct (Pos.eq_dec f f); congruence|].
  destruct (Pos.eq_dec f g) as [->|]; [|auto]. exfalso. apply H1. rewrite <- fname_fl. apply in_map_iff. exists (g, t, xs, m). auto.
Qed.

(** ** A bundle *)
Section Fun.
  Variables (fl : fundefs) (e : exp).
  Notation e0 := (Efun fl e).
  Variables (R : var -> nat) (sig : subst) (count : c_map) (sub : ctx_map) (im : b_map) (P : list fdef).
  Hypothesis I : inve R sig count e0 sub im P.
  Notation nd := (need (fun w => free w e0) sub im P).
  Variables (fl' : fundefs) (count' : c_map) (sub' : ctx_map).
  Hypothesis HP : precontract sig count sub fl = (fl', count', sub').
  Notation P' := (flist fl' ++ P).

  Lemma fn_bnd z : bnd (bv e0) im P z = cnt z (fnames fl) + cnt z (ol (flist fl)) + cnt z (bv e) + pbv im P z.
  Proof. cbn [bv]. unfold bnd. rewrite cnt_app, ol_fl. lia. Qed.
  Lemma fn_name f : In f (fnames fl) -> bnd (bv e0) im P f > 0.
  Proof. intro H. rewrite fn_bnd. apply cnt_In in H. lia. Qed.
  Lemma fn_sub f : In f (fnames fl) -> get f sub = None.
  Proof. intro H. apply (i_sub _ _ _ _ _ _ _ _ _ I). apply fn_name. auto. Qed.
  Lemma fn_names f : In f (fnames fl') -> In f (fnames fl).
  Proof. intro H. apply cnt_In in H. apply cnt_In. destruct (pre_part _ _ _ _ _ _ _ HP) as (_ & K & _). specialize (K f). lia. Qed.
  Lemma fn_fname d : In d (flist fl') -> In (fname d) (fnames fl').
  Proof. intro H. rewrite <- fname_fl. apply in_map. auto. Qed.
  Lemma fn_im d : In d (flist fl') -> get_b (fname d) im = false.
  Proof. intro H. apply (i_im _ _ _ _ _ _ _ _ _ I). apply fn_name, fn_names, fn_fname. auto. Qed.
  Lemma fn_lv : lv im (flist fl') = flist fl'.
  Proof. apply lv_all. apply fn_im. Qed.
  Lemma fn_pbv' im1 z : pbv im1 P' z = cnt z (ol (lv im1 (flist fl'))) + pbv im1 P z.
  Proof. unfold pbv at 1. rewrite psum_app. fold (pbv im1 (flist fl') z). fold (pbv im1 P z). rewrite pbv_lv. auto. Qed.
  Lemma fn_pocc' im1 z : pocc sig im1 P' z = cnt z (apply_r_list sig (ul (lv im1 (flist fl')))) + pocc sig im1 P z.
  Proof. unfold pocc at 1. rewrite psum_app. fold (pocc sig im1 (flist fl') z). fold (pocc sig im1 P z). rewrite pocc_lv. auto. Qed.
  Lemma fn_bnd' z : bnd (bv e) im P' z + cnt z (fnames fl) <= bnd (bv e0) im P z.
  Proof.
    rewrite fn_bnd. unfold bnd. rewrite fn_pbv', fn_lv. destruct (pre_part _ _ _ _ _ _ _ HP) as (_ & _ & K). specialize (K z). lia.
  Qed.
  Lemma fn_nodup : NoDup (fnames fl).
  Proof. apply cnt_NoDup. intro z. pose proof (i_uniq _ _ _ _ _ _ _ _ _ I z) as U. rewrite fn_bnd in U. lia. Qed.
  Lemma fn_nodup' : NoDup (fnames fl').
  Proof.
    apply cnt_NoDup. intro z. destruct (pre_part _ _ _ _ _ _ _ HP) as (_ & K & _). specialize (K z).
    pose proof (proj1 (cnt_NoDup _) fn_nodup z). lia.
  Qed.
  Lemma fn_subc c t ys : get c sub' = Some (SVconstr t ys) <-> get c sub = Some (SVconstr t ys).
  Proof.
    rewrite (pre_sub _ _ _ _ _ _ _ HP c). destruct (find_def c fl') as [[[t' xs] m]|] eqn:F; [|tauto].
    assert (N : In c (fnames fl')) by (apply find_def_fnames; congruence).
    apply fn_names, fn_sub in N. split; [discriminate|congruence].
  Qed.
  Lemma fn_out z : ~ In z (fnames fl) -> get z sub' = get z sub.
  Proof.
    intro N. rewrite (pre_sub _ _ _ _ _ _ _ HP z). destruct (find_def z fl') as [[[t' xs] m]|] eqn:F; [|auto].
    destruct N. apply fn_names, find_def_fnames. congruence.
  Qed.
  Lemma fn_body d w : In d (flist fl) -> fvd d w -> nd w \/ In w (fnames fl).
  Proof.
    intros D V. destruct (in_dec Pos.eq_dec w (fnames fl)) as [|N]; [auto|left]. left. cbn [free]. split; [auto|right].
    apply fvl_fl, fvl_In. eauto.
  Qed.
  Lemma fn_nd w : need (fun w => free w e) sub' im P' w -> nd w \/ In w (fnames fl).
  Proof.
    intros [F|[(d & [D L] & V)|(c & t & ys & G & V)]].
    - destruct (in_dec Pos.eq_dec w (fnames fl)) as [|N]; [auto|left]. left. cbn [free]. auto.
    - apply in_app_iff in D as [D|D].
      + eapply fn_body; [|exact V]. apply (proj1 (pre_part _ _ _ _ _ _ _ HP)). exact D.
      + left. right. left. exists d. split; [split; auto|auto].
    - left. right. right. apply fn_subc in G. eauto.
  Qed.
  Lemma fn_nd_out w : nd w -> ~ In w (fnames fl) /\ ~ In (apply_r sig w) (fnames fl).
  Proof.
    intro H. destruct (i_need _ _ _ _ _ _ _ _ _ I w H) as [A B]. rewrite fn_bnd in *. split; apply cnt_notIn; lia.
  Qed.
  Lemma fn_sig f : In f (fnames fl) -> apply_r sig f = f.
  Proof. intro H. apply (i_sig _ _ _ _ _ _ _ _ _ I). apply fn_name. auto. Qed.

  Lemma fn_cnt z : R z + cnt z (apply_r_list sig (uses e)) + cnt z (apply_r_list sig (ul (flist fl'))) + pocc sig im P z <= get_c z count'.
  Proof.
    pose proof (pre_counts _ _ _ _ _ _ _ HP (fun z => R z + cnt z (apply_r_list sig (uses e)) + pocc sig im P z)) as K.
    cbv beta in K. assert (K' : R z + cnt z (apply_r_list sig (uses e)) + pocc sig im P z + cnt z (apply_r_list sig (ul (flist fl'))) <= get_c z count').
    { apply K. intro v. pose proof (i_cnt _ _ _ _ _ _ _ _ _ I v) as C. cbn [uses] in C. rewrite arl_app, cnt_app, ul_fl in C. lia. }
    lia.
  Qed.

  Lemma fn_inv : inve R sig count' e sub' im P'.
  Proof.
    assert (B0 : forall z, bnd (bv e) im P' z > 0 -> bnd (bv e0) im P z > 0 /\ ~ In z (fnames fl)).
    { intros z K. pose proof (fn_bnd' z). pose proof (i_uniq _ _ _ _ _ _ _ _ _ I z). split; [lia|]. apply cnt_notIn. lia. }
    constructor.
    - intro z. rewrite fn_pocc', fn_lv. pose proof (fn_cnt z). lia.
    - intro z. pose proof (fn_bnd' z). pose proof (i_uniq _ _ _ _ _ _ _ _ _ I z). lia.
    - intros w H. destruct (fn_nd w H) as [K|K].
      + destruct (i_need _ _ _ _ _ _ _ _ _ I w K) as [A B]. pose proof (fn_bnd' w). pose proof (fn_bnd' (apply_r sig w)). lia.
      + rewrite (fn_sig w K). pose proof (fn_bnd' w). pose proof (i_uniq _ _ _ _ _ _ _ _ _ I w). apply cnt_In in K. lia.
    - intros z K. destruct (B0 z K) as [K1 K2]. rewrite (fn_out z K2). apply (i_sub _ _ _ _ _ _ _ _ _ I). auto.
    - intros z K. apply (i_sig _ _ _ _ _ _ _ _ _ I). apply B0. auto.
    - intros z K. apply (i_R _ _ _ _ _ _ _ _ _ I). apply B0. auto.
    - intros z K. apply (i_im _ _ _ _ _ _ _ _ _ I). apply B0. auto.
    - intros c t ys y G Y. apply fn_subc in G. eapply i_args; [exact I|exact G|exact Y].
    - intros f t xs m G L. apply in_app_iff. rewrite (pre_sub _ _ _ _ _ _ _ HP f) in G.
      destruct (find_def f fl') as [[[t' xs'] m']|] eqn:F.
      + injection G as -> -> ->. left. apply find_def_flist. auto.
      + right. eapply i_funs; eauto.
    - intros d D. apply in_app_iff in D as [D|D].
      + apply fn_fname, fn_names in D. pose proof (fn_bnd' (fname d)). pose proof (i_uniq _ _ _ _ _ _ _ _ _ I (fname d)).
        apply cnt_In in D. lia.
      + pose proof (i_name _ _ _ _ _ _ _ _ _ I d D). pose proof (fn_bnd' (fname d)). lia.
    - rewrite map_app, fname_fl. apply NoDup_app_iff. split; [apply fn_nodup'|]. split; [eapply i_nd; eauto|].
      intros f F J. apply in_map_iff in J as (d & <- & D). pose proof (i_name _ _ _ _ _ _ _ _ _ I d D).
      pose proof (fn_name _ (fn_names _ F)). lia.
    - intros w F. apply uses_free. auto.
    - intros w F. apply uses_scope. auto.
  Qed.

  Variables (e'' : exp) (c2 : c_map) (im2 : b_map).
  Hypothesis Q : poste R sig e sub' im P' e'' c2 im2.
  Notation l2 := (lv im2 (flist fl')).
  Definition R2 z := R z + cnt z (uses e'').

  Lemma fn_im2 : ble im im2. Proof. exact (p_im _ _ _ _ _ _ _ _ _ _ _ _ Q). Qed.
  Lemma fn_b2 z : bnd (ol l2) im2 P z = pbv im2 P' z.
  Proof. unfold bnd. rewrite fn_pbv'. auto. Qed.
  Lemma fn_b2' z : cnt z (bv e'') + bnd (ol l2) im2 P z + cnt z (fnames fl) <= bnd (bv e0) im P z.
  Proof. rewrite fn_b2. pose proof (p_bv _ _ _ _ _ _ _ _ _ _ _ _ Q z). pose proof (fn_bnd' z). lia. Qed.
  Lemma fn_l2 d : In d l2 -> In d (flist fl').
  Proof. intro H. apply lv_In in H. apply H. Qed.
  Lemma fn_nd2 w : need (fvl l2) sub im2 P w -> need (fun w => free w e) sub' im P' w.
  Proof.
    intros [F|[(d & [D L] & V)|(c & t & ys & G & V)]].
    - apply fvl_In in F as (d & D & V). right. left. exists d. split; [|auto]. apply lv_In in D as [D L].
      split; [apply in_app_iff; auto|apply fn_im; auto].
    - right. left. exists d. split; [|auto]. apply (live_le _ _ _ _ fn_im2). split; [apply in_app_iff; auto|auto].
    - right. right. exists c, t, ys. split; [apply fn_subc; auto|auto].
  Qed.

  Lemma fn_inv2 : inv R2 sig c2 (ul l2) (ol l2) (fvl l2) sub im2 P.
  Proof.
    assert (B0 : forall z, bnd (ol l2) im2 P z > 0 -> bnd (bv e0) im P z > 0 /\ bnd (bv e) im P' z > 0).
    { intros z K. pose proof (fn_b2' z). split; [lia|]. rewrite fn_b2 in K. pose proof (pbv_le im im2 P' z fn_im2). unfold bnd. lia. }
    constructor.
    - intro z. pose proof (p_cnt _ _ _ _ _ _ _ _ _ _ _ _ Q z) as C. rewrite fn_pocc' in C. unfold R2. lia.
    - intro z. pose proof (fn_b2' z). pose proof (i_uniq _ _ _ _ _ _ _ _ _ I z). lia.
    - intros w H. apply fn_nd2 in H. destruct (i_need _ _ _ _ _ _ _ _ _ fn_inv w H) as [A B]. rewrite !fn_b2.
      pose proof (pbv_le im im2 P' w fn_im2). pose proof (pbv_le im im2 P' (apply_r sig w) fn_im2). unfold bnd in *. lia.
    - intros z K. apply (i_sub _ _ _ _ _ _ _ _ _ I). apply B0. auto.
    - intros z K. apply (i_sig _ _ _ _ _ _ _ _ _ I). apply B0. auto.
    - intros z K. destruct (B0 z K) as [K1 K2]. unfold R2. rewrite (i_R _ _ _ _ _ _ _ _ _ I z K1).
      apply cnt_notIn. intro U. destruct (proj1 uses_scope e'' z U) as [F|F].
      + destruct (p_free _ _ _ _ _ _ _ _ _ _ _ _ Q z F) as (w & Nw & ->).
        destruct (i_need _ _ _ _ _ _ _ _ _ fn_inv w Nw). lia.
      + apply cnt_In in F. pose proof (fn_b2' z). pose proof (i_uniq _ _ _ _ _ _ _ _ _ I z). lia.
    - intros z K. destruct (B0 z K) as [K1 K2]. destruct (get_b z im2) eqn:E; [exfalso|auto].
      destruct (p_new _ _ _ _ _ _ _ _ _ _ _ _ Q z (i_im _ _ _ _ _ _ _ _ _ I z K1) E) as [(t & xs & m & G)|[_ K3]].
      + rewrite (i_sub _ _ _ _ _ _ _ _ _ fn_inv z K2) in G. discriminate.
      + rewrite fn_b2 in K. lia.
    - intros c t ys y G Y. unfold R2. pose proof (i_args _ _ _ _ _ _ _ _ _ I c t ys y G Y). lia.
    - intros f t xs m G L. eapply i_funs; [exact I|exact G|]. destruct (get_b f im) eqn:E; [|auto]. rewrite (fn_im2 _ E) in L. discriminate.
    - intros d D. pose proof (i_name _ _ _ _ _ _ _ _ _ I d D). pose proof (fn_b2' (fname d)). lia.
    - eapply i_nd; eauto.
    - apply fvl_uses.
    - apply ul_scope.
  Qed.

  Lemma fn_name2 f : In f (fnames fl) -> bnd (ol l2) im2 P f = 0.
  Proof. intro H. apply cnt_In in H. pose proof (fn_b2' f). pose proof (i_uniq _ _ _ _ _ _ _ _ _ I f). lia. Qed.

  Variables (fds : fundefs) (c3 : c_map) (im3 : b_map).
  Hypothesis Q2 : post R2 sig (ol l2) (fvl l2) sub im2 P (ul (flist fds)) (ol (flist fds)) (fvl (flist fds)) c3 im3.
  Hypothesis HN : forall z, cnt z (fnames fds) <= cnt z (fnames fl').
  Hypothesis HD : forall d, In d l2 -> ~ In (fname d) (fnames fds) -> R2 (fname d) = 0 /\ cnt (fname d) (ul (flist fds)) = 0.

  Lemma fn_dropped f : In f (fnames fl) -> ~ In f (fnames fds) -> R f = 0 /\ cnt f (uses e'') = 0 /\ cnt f (ul (flist fds)) = 0.
  Proof.
    intros F N.
    assert (D2 : R2 f = 0 -> cnt f (apply_r_list sig (ul l2)) = 0 -> pocc sig im2 P f = 0 -> cnt f (ul (flist fds)) = 0).
    { intros K1 K2 K3. apply (dead_stays _ _ _ _ _ _ _ _ _ _ _ _ _ _ _ fn_inv2 Q2 (ul_scope _) K1 K2 K3). apply fn_name2. auto. }
    unfold R2 in *. destruct (in_dec Pos.eq_dec f (fnames fl')) as [F'|F'].
    - rewrite <- fname_fl in F'. apply in_map_iff in F' as (d & <- & D).
      destruct (get_b (fname d) im2) eqn:E.
      + destruct (p_dead _ _ _ _ _ _ _ _ _ _ _ _ Q d) as (K1 & K2 & K3); [|auto|].
        { split; [apply in_app_iff; auto|apply fn_im; auto]. }
        rewrite fn_pocc' in K3. split; [auto|]. split; [auto|]. apply D2; lia.
      + destruct (HD d) as [K1 K2]; [apply lv_In; split; auto|auto|]. lia.
    - pose proof (pre_dropped _ _ _ _ _ _ _ HP f F F') as C. pose proof (fn_cnt f) as K.
      assert (U : cnt f (uses e'') = 0).
      { apply (dead_stays _ _ _ _ _ _ _ _ _ _ _ _ _ _ _ fn_inv Q (proj1 uses_scope e'')).
        - lia.
        - lia.
        - rewrite fn_pocc', fn_lv. lia.
        - pose proof (fn_bnd' f). pose proof (i_uniq _ _ _ _ _ _ _ _ _ I f). apply cnt_In in F. lia. }
      pose proof (p_cnt _ _ _ _ _ _ _ _ _ _ _ _ Q f) as C2.
      assert (PL : pocc sig im2 P' f <= pocc sig im P' f) by (apply pocc_le; apply fn_im2).
      rewrite !fn_pocc', fn_lv in PL. split; [lia|]. split; [auto|]. apply D2; lia.
  Qed.

  Variable e3 : exp.
  Hypothesis U3 : uses e3 = uses_funs fds ++ uses e''.
  Hypothesis B3 : bv e3 = bv_funs fds ++ bv e''.
  Hypothesis F3 : forall w, free w e3 <-> ~ In w (fnames fds) /\ (free w e'' \/ free_body w fds).

  Lemma fn_free_fds z : fvl (flist fds) z -> (exists w, nd w /\ z = apply_r sig w) \/ In z (fnames fl).
  Proof.
    intro F. destruct (p_free _ _ _ _ _ _ _ _ _ _ _ _ Q2 z F) as (w & Nw & ->). apply fn_nd2, fn_nd in Nw as [K|K]; [eauto|].
    right. rewrite fn_sig; auto.
  Qed.

  Lemma fn_post : poste R sig e0 sub im P e3 c3 im3.
  Proof.
    pose proof fn_im2 as B2. pose proof (p_im _ _ _ _ _ _ _ _ _ _ _ _ Q2) as B2'. constructor.
    - eapply ble_trans; eauto.
    - intros f E E3. pose proof (i_uniq _ _ _ _ _ _ _ _ _ I f) as UQ. destruct (get_b f im2) eqn:E2.
      + destruct (p_new _ _ _ _ _ _ _ _ _ _ _ _ Q f E E2) as [K|[K1 K2]].
        * destruct (in_dec Pos.eq_dec f (fnames fl)) as [F|F]; [|rewrite fn_out in K; auto].
          right. split; [apply fn_name; auto|]. apply cnt_In in F. rewrite fn_bnd in UQ.
          pose proof (pbv_le im im3 P f (ble_trans _ _ _ B2 B2')). lia.
        * right. pose proof (fn_bnd' f). split; [lia|]. rewrite fn_pbv' in K2. pose proof (pbv_le im2 im3 P f B2'). lia.
      + destruct (p_new _ _ _ _ _ _ _ _ _ _ _ _ Q2 f E2 E3) as [K|[K1 K2]]; [auto|right].
        pose proof (fn_b2' f). split; [lia|auto].
    - intros d L E3. rewrite U3, cnt_app, ul_fl. destruct (get_b (fname d) im2) eqn:E2.
      + destruct (p_dead _ _ _ _ _ _ _ _ _ _ _ _ Q d) as (K1 & K2 & K3); [split; [apply in_app_iff; right; apply L|apply L]|auto|].
        rewrite fn_pocc' in K3.
        assert (Z : cnt (fname d) (ul (flist fds)) = 0).
        { apply (dead_stays _ _ _ _ _ _ _ _ _ _ _ _ _ _ _ fn_inv2 Q2 (ul_scope _)); unfold R2; try lia.
          eapply i_name; [exact fn_inv2|apply L]. }
        pose proof (pocc_le sig im2 im3 P (fname d) B2'). lia.
      + destruct (p_dead _ _ _ _ _ _ _ _ _ _ _ _ Q2 d (conj (proj1 L) E2) E3) as (K1 & K2 & K3). unfold R2 in K1. lia.
    - intro z. pose proof (p_cnt _ _ _ _ _ _ _ _ _ _ _ _ Q2 z) as C. unfold R2 in C. rewrite U3, cnt_app, ul_fl. lia.
    - intro z. rewrite B3, cnt_app, ol_fl. pose proof (p_bv _ _ _ _ _ _ _ _ _ _ _ _ Q2 z). pose proof (fn_b2' z). pose proof (HN z).
      destruct (pre_part _ _ _ _ _ _ _ HP) as (_ & K & _). specialize (K z). lia.
    - intros z F. apply F3 in F as [N F].
      assert (Z : (exists w, nd w /\ z = apply_r sig w) \/ In z (fnames fl)).
      { destruct F as [F|F]; [|apply fn_free_fds, fvl_fl; auto].
        destruct (p_free _ _ _ _ _ _ _ _ _ _ _ _ Q z F) as (w & Nw & ->). apply fn_nd in Nw as [K|K]; [eauto|].
        right. rewrite fn_sig; auto. }
      destruct Z as [Z|Z]; [auto|exfalso]. destruct (fn_dropped z Z N) as (_ & K1 & K2).
      destruct F as [F|F]; [apply uses_free in F; apply cnt_notIn in K1; auto|].
      apply fvl_fl, fvl_uses in F. apply cnt_notIn in K2. auto.
  Qed.
End Fun.
