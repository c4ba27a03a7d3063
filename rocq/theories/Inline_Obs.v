(** * From the step-indexed relation to observations; renaming without shadowing *)
From Coq Require Import ZArith NArith Arith List Lia Bool.
From Verif Require Import ANF_Syntax ANF_Eval ANF_Spec ANF_EvalProofs ANF_FreeProofs ANF_Scope
  ANF_LR ANF_LRProofs ANF_Subst ANF_Alpha Inline_LetProofs Inline_Spec.
Import ListNotations.

Lemma refines_lin cenv A G v v' : G + 1 <= A -> (forall k, vrel cenv (lin A G) k v v') -> refines cenv v v'.
Proof.
  intros HAG V x rho e.
  assert (H : forall k, erel cenv (vrel cenv (lin A G)) (lin A G) k (set x v rho) e (set x v' rho) e).
  { intro k. apply (proj1 (fundamental cenv A G HAG)). intros y Fy. apply arel_set; [auto|].
    intros _. apply arel_refl. exact HAG. }
  split.
  - intros c u B. destruct (adequacy_res cenv A G (lin A G) _ _ _ _ H c u B) as (c' & u' & B' & _ & D). eauto.
  - apply (adequacy_div cenv A G (lin A G) _ _ _ _ H).
Qed.

Lemma refines_eqc cenv v v' : (forall k, vrel cenv eqc k v v') -> refines cenv v v'.
Proof.
  intros V x rho e.
  assert (AE : aeq (graph (fun _ => True) []) e e).
  { assert (Z : aeq (graph (fun _ => True) []) e (rename_all [] e)) by (apply rename_aeq; [auto|discriminate]).
    rewrite rename_all_nil in Z. exact Z. }
  assert (H : forall k, erel cenv (vrel cenv eqc) eqc k (set x v rho) e (set x v' rho) e).
  { intro k. eapply (proj1 (aeq_sem cenv eqc eqc_step eqc_let eq_refl)); [exact AE|].
    intros a b [_ ->] w Gw. cbn [apply_r get] in *. unfold apply_r. cbn [get].
    rewrite get_set in *. destruct (Pos.eq_dec a x).
    - injection Gw as <-. eauto.
    - exists w. split; [auto|]. apply vrel_refl_eqc. }
  pose proof (erel_eqc_all cenv _ _ _ _ H) as K. split.
  - intros c u B. destruct (K c _ B) as ([|u'] & B' & S); [destruct S|]. exists c, u'. split; [auto|]. apply S.
  - intros D c. destruct (K c _ (D c)) as ([|u'] & B' & S); [exact B'|destruct S].
Qed.

Lemma mremove_none A x : forall (sg : tmap A), get x sg = None -> mremove x sg = sg.
Proof.
  induction sg as [|[y v] sg IH]; cbn; [auto|]. destruct (Pos.eq_dec x y); [discriminate|].
  intro H. cbn. f_equal. apply IH. exact H.
Qed.

Lemma remove_all_none : forall xs (sg : subst), (forall x, In x xs -> get x sg = None) -> remove_all sg xs = sg.
Proof.
  induction xs as [|x xs IH]; intros sg H; cbn; [auto|].
  rewrite IH; [apply mremove_none; apply H; left; auto|]. intros y I. apply H. right. auto.
Qed.

Lemma all_fun_name_bv B x : In x (all_fun_name B) -> In x (bv_funs B).
Proof.
  induction B as [g t xs b B IH|]; cbn; [|tauto].
  intros [->|K]; [auto|right]. apply in_or_app. right. apply in_or_app. right. auto.
Qed.

Lemma rename_ns_eq :
  (forall e sg, (forall x, In x (bv e) -> get x sg = None) -> rename_all_ns sg e = rename_all sg e) /\
  (forall B sg, (forall x, In x (bv_funs B) -> get x sg = None) -> rename_all_fun_ns sg B = rename_all_fun sg B).
Proof.
  apply exp_fundefs_ind; cbn [bv bv_funs rename_all rename_all_ns rename_all_fun rename_all_fun_ns]; intros;
    try (rewrite mremove_none by (match goal with H : forall x, _ -> get x _ = None |- _ => apply H end; left; auto);
         f_equal; match goal with H : forall sg, _ |- _ => apply H end;
         intros ? ?; match goal with H : forall x, _ -> get x _ = None |- _ => apply H end; right; auto; fail);
    try reflexivity.
  - f_equal. induction H as [|[t e] l Hp F IHl]; [reflexivity|]. cbn [map flat_map snd] in *. f_equal.
    + f_equal. apply Hp. intros y I. apply H0. apply in_or_app. auto.
    + apply IHl. intros y I. apply H0. apply in_or_app. auto.
  - cbv zeta. rewrite remove_all_none.
    + f_equal; [apply H|apply H0]; intros y I; apply H1; apply in_or_app; auto.
    + intros y I. apply H1. apply in_or_app. left. apply all_fun_name_bv. auto.
  - cbv zeta. rewrite remove_all_none.
    + f_equal; [apply H|apply H0]; intros y I; apply H1; right; apply in_or_app; right; apply in_or_app; auto.
    + intros y I. apply H1. right. apply in_or_app. auto.
Qed.
