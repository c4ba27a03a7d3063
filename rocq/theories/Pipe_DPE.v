(** * Dead-parameter elimination: names *)
From Coq Require Import ZArith NArith PArith List Lia Bool Arith.
From Verif Require Import ANF_Syntax ANF_Spec ANF_Scope ANF_FreeProofs Hoist_Proofs DPE_Model DPE_Spec DPE_Proofs DPE_Sim Inline_LetProofs LL_Proofs Pipe_Steps.
Import ListNotations.

Lemma pair2 A B (a a' : A) (b b' : B) : (a, b) = (a', b') -> a = a' /\ b = b'.
Proof. intro H. split; congruence. Qed.

Section Names.
  Variables (L : live_fun) (fmap : ftagMap).
  Let K := msk L.

  Lemma elim_free_args z f ys : In z (match get_fun_vars L f with Some bs => live_args ys bs | None => ys end) -> needed_args K z f ys.
  Proof.
    unfold needed_args, K, msk, get_fun_vars. destruct (get f L) as [bs|]; [|auto]. rewrite live_args_pick. apply pick_kept.
  Qed.

  Lemma elim_needed : forall e, is_hoisted_exp e = true -> forall z, free z (eliminate_expr fmap L e) -> needed K z e.
  Proof.
    apply (exp_ind2 (fun e => is_hoisted_exp e = true -> forall z, free z (eliminate_expr fmap L e) -> needed K z e) (fun _ => True));
      try exact I; try (intros; exact I).
    - intros x t ys e IH H z [F|[N F]]; cbn; auto.
    - intros x l F H z Fz. cbn [eliminate_expr] in Fz. apply free_Ecase in Fz as [->|Fz]; [cbn; auto|].
      apply needed_Ecase. right. cbn [is_hoisted_exp] in H. revert H Fz.
      induction F as [|p l Hp F IH]; cbn [List.map forallb free_case needed_case fst snd]; [tauto|].
      intros H [K1|K1]; apply andb_true_iff in H as [H1 H2]; [left; apply Hp; auto|right; auto].
    - intros x t n y e IH H z [F|[N F]]; cbn; auto.
    - intros x f t ys e IH H z F. cbn [eliminate_expr] in F. cbn [needed]. pose proof (elim_free_args z f ys) as A.
      destruct (get_fun_vars L f) as [bs|]; cbn [free] in F; destruct F as [F|[F|[N F]]]; auto.
    - discriminate.
    - intros f t ys H z F. cbn [eliminate_expr] in F. cbn [needed]. pose proof (elim_free_args z f ys) as A.
      destruct (get_fun_vars L f) as [bs|]; cbn [free] in F; destruct F as [F|F]; auto.
    - intros x p e IH H z [N F]. cbn. auto.
    - intros x p ys e IH H z [F|[N F]]; cbn; auto.
    - intros x H z F. exact F.
  Qed.

  (** ... and is not a bound name if those are apart *)
  Lemma elim_free : forall e, is_hoisted_exp e = true -> forall z, free z (eliminate_expr fmap L e) -> free z e.
  Proof.
    assert (P : forall (z : positive) (f : positive) (ys : list positive), In z (match get_fun_vars L f with Some bs => live_args ys bs | None => ys end) -> In z ys).
    { intros z f ys. destruct (get_fun_vars L f) as [bs|]; [|auto]. rewrite live_args_pick. intro I. apply pick_kept in I as (i & E & _).
      eapply nth_error_In; eauto. }
    apply (exp_ind2 (fun e => is_hoisted_exp e = true -> forall z, free z (eliminate_expr fmap L e) -> free z e) (fun _ => True));
      try exact I; try (intros; exact I).
    - intros x t ys e IH H z [F|[N F]]; cbn; auto.
    - intros x l F H z Fz. cbn [eliminate_expr] in Fz. apply free_Ecase in Fz as [->|Fz]; [cbn; auto|].
      apply free_Ecase. right. cbn [is_hoisted_exp] in H. revert H Fz.
      induction F as [|p l Hp F IH]; cbn [List.map forallb free_case fst snd]; [tauto|].
      intros H [K1|K1]; apply andb_true_iff in H as [H1 H2]; [left; apply Hp; auto|right; auto].
    - intros x t n y e IH H z [F|[N F]]; cbn; auto.
    - intros x f t ys e IH H z F. cbn [eliminate_expr] in F. cbn [free]. pose proof (P z f ys) as A.
      destruct (get_fun_vars L f) as [bs|]; cbn [free] in F; destruct F as [F|[F|[N F]]]; auto.
    - discriminate.
    - intros f t ys H z F. cbn [eliminate_expr] in F. cbn [free]. pose proof (P z f ys) as A.
      destruct (get_fun_vars L f) as [bs|]; cbn [free] in F; destruct F as [F|F]; auto.
    - intros x p e IH H z [N F]. cbn. auto.
    - intros x p ys e IH H z [F|[N F]]; cbn; auto.
    - intros x H z F. exact F.
  Qed.

  Lemma elim_bv : forall e, bv (eliminate_expr fmap L e) = bv e.
  Proof.
    apply (exp_ind2 (fun e => bv (eliminate_expr fmap L e) = bv e) (fun _ => True)); cbn [eliminate_expr bv]; try (intros; congruence); auto.
    - intros x l F. induction F as [|p l Hp F IH]; cbn [List.map flat_map fst snd]; congruence.
    - intros x f t ys e IH. destruct (get_fun_vars L f); cbn [bv]; congruence.
    - intros f t ys. destruct (get_fun_vars L f); reflexivity.
  Qed.

  Lemma elim_fnames : forall B, fnames (eliminate_fundefs fmap L B) = fnames B.
  Proof. induction B as [f t xs e B IH|]; cbn [eliminate_fundefs]; [|auto]. destruct (get_fun_vars L f); cbn [fnames]; congruence. Qed.

  Lemma pick_NoDup A (l : list A) : forall bs, NoDup l -> NoDup (pick l bs).
  Proof.
    assert (P : forall (l : list A) bs y, In y (pick l bs) -> In y l).
    { clear. induction l as [|x l IH]; intros [|b bs] y; cbn; auto. destruct b; cbn; [|intro I; right; eapply IH; eauto].
      intros [->|I]; [auto|right; eapply IH; eauto]. }
    induction l as [|x l IH]; intros [|b bs] ND; cbn; auto. inversion ND; subst. destruct b; [constructor|]; auto.
    intro I. apply P in I. auto.
  Qed.
  Lemma pick_In A (l : list A) : forall bs y, In y (pick l bs) -> In y l.
  Proof.
    induction l as [|x l IH]; intros [|b bs] y; cbn; auto. destruct b; cbn; [|intro I; right; eapply IH; eauto].
    intros [->|I]; [auto|right; eapply IH; eauto].
  Qed.

  Lemma elim_bv_funs : forall B, NoDup (bv_funs B) ->
    NoDup (bv_funs (eliminate_fundefs fmap L B)) /\ incl (bv_funs (eliminate_fundefs fmap L B)) (bv_funs B).
  Proof.
    induction B as [f t xs e B IH|]; intro ND; cbn [eliminate_fundefs]; [|split; [auto|apply incl_refl]].
    cbn [bv_funs] in ND. inversion ND as [|? ? NI ND1]; subst. apply NoDup_app_iff in ND1 as (ND2 & ND3 & D1).
    apply NoDup_app_iff in ND3 as (ND4 & ND5 & D2). destruct (IH ND5) as [I1 I2].
    assert (Q : forall xs', NoDup xs' -> incl xs' xs ->
      NoDup (f :: xs' ++ bv e ++ bv_funs (eliminate_fundefs fmap L B)) /\
      incl (f :: xs' ++ bv e ++ bv_funs (eliminate_fundefs fmap L B)) (f :: xs ++ bv e ++ bv_funs B)).
    { intros xs' N1 IN. assert (IA : incl (xs' ++ bv e ++ bv_funs (eliminate_fundefs fmap L B)) (xs ++ bv e ++ bv_funs B)).
      { apply incl_app_app; [auto|]. apply incl_app_app; [apply incl_refl|auto]. }
      split; [|intros y [->|I]; [left; auto|right; auto]]. constructor; [intro I; apply NI; auto|].
      apply NoDup_app_iff. split; [auto|]. split.
      - apply NoDup_app_iff. split; [auto|]. split; [auto|]. intros y Iy Iz. apply (D2 y Iy). auto.
      - intros y Iy Iz. apply (D1 y); [auto|]. apply in_or_app. apply in_app_or in Iz as [Iz|Iz]; auto. }
    destruct (get_fun_vars L f) as [bs|]; cbn [bv_funs]; rewrite elim_bv.
    - rewrite live_args_pick. apply Q; [apply pick_NoDup; auto|]. intros y. apply pick_In.
    - apply Q; [auto|apply incl_refl].
  Qed.

  Lemma elim_flist f t xs b : forall B, In (f, t, xs, b) (flist (eliminate_fundefs fmap L B)) ->
    exists t0 xs0 b0, In (f, t0, xs0, b0) (flist B) /\ b = eliminate_expr fmap L b0 /\
      xs = match K f with Some bs => pick xs0 bs | None => xs0 end.
  Proof.
    induction B as [g t' ys e B IH|]; cbn [eliminate_fundefs]; [|intros []].
    unfold K, msk in *. unfold get_fun_vars at 1. destruct (get g L) as [bs|] eqn:G; cbn [flist]; intros [E|I].
    - injection E as <- <- <- <-. rewrite live_args_pick. exists t', ys, e. rewrite G. cbn. auto.
    - destruct (IH I) as (t0 & xs0 & b0 & I0 & E1 & E2). exists t0, xs0, b0. cbn. auto.
    - injection E as <- <- <- <-. exists t', ys, e. rewrite G. cbn. auto.
    - destruct (IH I) as (t0 & xs0 & b0 & I0 & E1 & E2). exists t0, xs0, b0. cbn. auto.
  Qed.
End Names.

Lemma NoDup_fnames : forall B, NoDup (bv_funs B) -> NoDup (fnames B).
Proof.
  assert (A : forall B y, In y (fnames B) -> In y (bv_funs B)).
  { induction B as [f t xs e B IH|]; cbn [fnames bv_funs]; [|auto]. intros y [->|I]; [left; auto|].
    right. apply in_or_app. right. apply in_or_app. auto. }
  induction B as [f t xs e B IH|]; cbn [fnames bv_funs]; intro ND; [|constructor].
  inversion ND as [|? ? NI ND1]; subst. apply NoDup_app_iff in ND1 as (_ & ND3 & _). apply NoDup_app_iff in ND3 as (_ & ND5 & _).
  constructor; [|auto]. intro I. apply NI. apply in_or_app. right. apply in_or_app. auto.
Qed.

Lemma dpe_names e st e' st' : DPE e st = (e', st') -> NoDup (bv e) ->
  NoDup (bv e') /\ incl (bv e') (bv e) /\ (forall x, free x e' -> free x e).
Proof.
  unfold DPE. intros H ND.
  assert (SAME : e' = e -> NoDup (bv e') /\ incl (bv e') (bv e) /\ (forall x, free x e' -> free x e)).
  { intros ->. split; [auto|]. split; [apply incl_refl|auto]. }
  destruct (is_hoisted e) eqn:HO; [|apply pair2 in H as [<- _]; auto].
  destruct e as [| | | |B e| | | |]; try (apply pair2 in H as [<- _]; auto).
  set (L := find_live (Efun B e)) in *.
  destruct (create_fun_tag L (make_arityMap (Efun B e) []) B st []) as [fm st1] eqn:EC.
  apply pair2 in H as [<- _]. clear SAME EC. cbn [is_hoisted] in HO. apply andb_true_iff in HO as [HB HE].
  cbn [bv] in *. apply NoDup_app_iff in ND as (ND1 & ND2 & DJ).
  destruct (elim_bv_funs L fm B ND1) as [I1 I2]. rewrite elim_bv.
  split; [|split].
  - apply NoDup_app_iff. split; [auto|]. split; [auto|]. intros y Iy Iz. apply (DJ y); auto.
  - apply incl_app_app; [auto|apply incl_refl].
  - intros x [N F]. rewrite elim_fnames in N. split; [exact N|]. destruct F as [F|F].
    + left. eapply elim_free; eauto.
    + right. apply free_body_flist in F as (f & t & xs & b & I & Nx & Fb).
      apply elim_flist in I as (t0 & xs0 & b0 & I0 & -> & ->).
      apply free_body_flist. exists f, t0, xs0, b0. split; [auto|].
      pose proof (is_hoisted_funs _ _ _ _ _ HB I0) as HO.
      split; [|eapply elim_free; eauto]. intro Ix. apply Nx.
      destruct (msk L f) as [bs|] eqn:EK; [|auto].
      destruct (analysis_good B e (NoDup_fnames _ ND1)) as [_ G]. destruct (G f t0 xs0 b0 bs I0 EK) as [LEN G2].
      apply In_nth_error in Ix as [i Ei]. apply pick_kept. exists i. split; [auto|].
      rewrite (G2 i x Ei); [discriminate|]. eapply elim_needed; eauto.
Qed.
