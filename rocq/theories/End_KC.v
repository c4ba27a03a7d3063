(** * From LambdaANF programs in continuation-passing style to C programs *)
From Coq Require Import ZArith NArith PArith List Lia Bool Arith.
From Verif Require Import ANF_Syntax ANF_Eval ANF_Spec ANF_Scope ANF_EvalProofs ANF_FreeProofs Pipe_Spec Pipe_Shapes Pipe_ShapesCC WA_Spec Inline_LetProofs End_Wasm
  CG_Clight CG_Model CG_Spec CG_Proofs End_C KC_Model KC_Spec KC_Proofs KC_Top.
From Verif Require CG_Top Names_Model.
Import Pipe_Shapes.
Import ListNotations.
Local Open Scope nat_scope.

(** ** Conditions on the program given to the code generator *)

(** the main expression *)
Definition main_of (e : exp) : exp := match e with Efun _ m => m | _ => e end.

(** Machine limits as for the other back end, functions with at most 1024
    parameters, and no case analysis in the main expression (without the latter:
    [C81_main_case_refuted]). *)
Definition kfits (cenv : ctor_env) (e : exp) : Prop := fits 0 cenv e /\ no_case (main_of e).

(** ** What is enough for the code generator *)

Lemma kallocs_words : forall e, bare e -> kmax_allocs e <= words e.
Proof.
  apply (exp_ind2 (fun e => bare e -> kmax_allocs e <= words e) (fun _ => True)); try (intros; exact I);
    try (intros; cbn [kmax_allocs words bare] in *; lia).
  - intros x t ys e IH A. cbn [kmax_allocs words bare] in *. specialize (IH A). destruct ys; cbn [length]; lia.
  - intros x l F A. rewrite bare_Ecase in A. cbn [kmax_allocs words]. revert A. induction F as [|p l Hp F IH]; intro A; [reflexivity|].
    inversion A as [|? ? A1 A2]; subst. cbn [fold_right]. specialize (Hp A1). specialize (IH A2). lia.
  - intros x t n y e IH A. cbn [kmax_allocs words bare] in *. specialize (IH A). lia.
  - intros x f t ys e IH A. cbn [kmax_allocs words bare] in *. specialize (IH A). lia.
  - intros x p e IH A. cbn [kmax_allocs words bare] in *. specialize (IH A). lia.
  - intros x p ys e IH A. cbn [kmax_allocs words bare] in *. specialize (IH A). lia.
Qed.

(** every call is a tail call *)
Lemma shapes_no_letapp T V P : forall e, all (shape_ok T V P False) e -> no_letapp e.
Proof.
  apply (exp_ind2 (fun e => all (shape_ok T V P False) e -> no_letapp e) (fun _ => True)); try (intros; exact I);
    try (intros; cbn [all no_letapp shape_ok] in *; tauto).
  intros x l F A. rewrite all_Ecase in A. cbn [no_letapp]. induction F as [|p l Hp F IH]; [exact I|].
  inversion A as [|? ? [A1 A2] A3]; subst. split; [apply Hp; exact A2|apply IH; exact A3].
Qed.

(** ** The code generator rejects functions inside *)
Section Gen.
  Variables (nParam : nat) (prims : tmap bool) (fenv : tmap (N * list N)) (cenv : ctor_env) (fmap : tmap (positive * positive)).
  Notation tr := (ktranslate_body nParam prims fenv cenv fmap).
  Lemma ktranslate_bare : forall e r, tr e = Some r -> bare e.
  Proof.
    apply (exp_ind2 (fun e => forall r, tr e = Some r -> bare e) (fun _ => True)); try (intros; exact I).
    - intros x t ys e IH r H. cbn [ktranslate_body bare] in *. opt H. opt H. eauto.
    - intros x l F r H. apply bare_Ecase. cbn [ktranslate_body] in H. opt H. clear H r. revert Q. generalize p. clear p.
      induction F as [|p l Hp F IH]; intros q Q; constructor.
      + opt Q. eauto.
      + opt Q. opt Q. eapply IH. reflexivity.
    - intros x t n y e IH r H. cbn [ktranslate_body bare] in *. opt H. eauto.
    - intros x f t ys e IH r H. cbn [ktranslate_body bare] in *. opt H. eauto.
    - intros B e _ IH r H. discriminate.
    - intros x p e IH r H. cbn [ktranslate_body bare] in *. opt H. eauto.
    - intros x p ys e IH r H. cbn [ktranslate_body bare] in *. opt H. opt H. eauto.
  Qed.
  Lemma ktranslate_bodies infos : forall B p, ktranslate_fundefs nParam prims fenv cenv fmap infos B = Some p ->
    forall f t xs b, In (f, t, xs, b) (flist B) -> bare b.
  Proof.
    induction B as [g t' ys e B IH|]; intros p H f t xs b I; [|destruct I]. cbn [ktranslate_fundefs flist] in *.
    opt H. opt H. destruct I as [E|I]; [injection E as -> -> -> ->; eapply ktranslate_bare; eauto|eauto].
  Qed.
End Gen.
Lemma kcompile_bare nParam prims cenv n B e prog : kcompile nParam prims cenv n (Efun B e) = Some prog ->
  (forall f t xs b, In (f, t, xs, b) (flist B) -> bare b) /\ bare e.
Proof.
  unfold kcompile. cbn [wrap_in_fun]. intro H. opt H. unfold ktranslate_funs in H. opt H. opt H.
  split; [eapply ktranslate_bodies; eauto|eapply ktranslate_bare; eauto].
Qed.

Lemma kprog_fine nParam prims cenv n B m prog V P :
  kcompile nParam prims cenv n (Efun B m) = Some prog ->
  all (shape_ok cenv V P False) (Efun B m) -> ordinals_ok cenv -> whole (Efun B m) ->
  (forall x, In x (bv (Efun B m)) -> (100 < x)%positive) ->
  kfits cenv (Efun B m) ->
  kprog_ok cenv B m.
Proof.
  intros C SH O [ND CL] NM [(F1 & F2 & F3 & F4) NC]. destruct (kcompile_bare _ _ _ _ _ _ _ C) as [BB BM].
  rewrite all_Efun in SH, F3. destruct SH as [SH1 SH2]. destruct F3 as [F3 _]. cbn [words bv main_of] in *.
  assert (NB : NoDup (bv_funs B)) by (apply NoDup_app_iff in ND; tauto).
  assert (NMm : NoDup (bv m)) by (exact (NoDup_app_r _ _ ND)).
  assert (RS : forall x, (100 < x)%positive -> ~ In x reserved /\ x <> bodyIdent /\ x <> gcIdent /\ x <> Names_Model.isptrIdent).
  { intros x L. split; [|split; [|split]; intros ->; vm_compute in L; discriminate].
    unfold reserved. cbn [In]. intros [E|[E|[E|[E|[E|[E|[]]]]]]]; subst x; vm_compute in L; discriminate. }
  assert (FRm : forall x, free x m -> In x (fnames B)).
  { intros x F. destruct (in_dec Pos.eq_dec x (fnames B)) as [I|I]; [exact I|]. destruct (CL x). cbn [free]. auto. }
  assert (FRb : forall f t xs b x, In (f, t, xs, b) (flist B) -> free x b -> In x xs \/ In x (fnames B)).
  { intros f t xs b x Ib F. destruct (in_dec Pos.eq_dec x (fnames B)) as [I|I]; [auto|]. destruct (in_dec Pos.eq_dec x xs) as [J|J]; [auto|].
    destruct (CL x). cbn [free]. split; [exact I|]. right. eapply free_body_in; eauto. }
  constructor.
  - constructor; [exact F1|exact F2|exact O].
  - intros f I. apply RS. apply NM. apply in_or_app. left. apply fnames_bv. exact I.
  - apply all_funs_flist. intros f t xs b I. destruct (SH1 _ _ _ _ I) as [_ S2]. destruct (F3 _ _ _ _ I) as [L _].
    pose proof (words_fun _ _ _ _ _ I) as W. pose proof (BB _ _ _ _ I) as Bb.
    assert (LC : forall x, In x xs \/ In x (bv b) -> ~ In x (fnames B) /\ In x (bv_funs B)).
    { intros x K. destruct (bv_local B NB _ _ _ _ I x K) as [K1 K2]. split; [|exact K2]. intro Q. apply K1. apply fundefs_names_fnames. exact Q. }
    assert (ND2 : NoDup (xs ++ bv b)).
    { clear -NB I. induction B as [g t' ys e B IH|]; cbn [flist bv_funs] in *; [|destruct I]. inversion NB as [|? ? N1 N2]; subst.
      destruct I as [E|I]; [injection E as -> -> -> ->|apply IH; [|exact I]].
      - rewrite app_assoc in N2. apply NoDup_app_iff in N2. tauto.
      - exact (NoDup_app_r _ _ (NoDup_app_r _ _ N2)). }
    split; [apply NoDup_app_iff in ND2; tauto|]. split; [destruct L as [L|L]; [exact L|exact (Nat.le_trans _ _ _ L (Nat.le_0_l _))]|]. constructor.
    + rewrite (locals_bv _ Bb). intros x K. apply in_app_or in K. destruct (LC x K) as [K1 K2]. split; [exact K1|]. apply RS. apply NM. apply in_or_app. auto.
    + intros x K. eapply FRb; eauto.
    + eapply shapes_wf; eauto; [exact (NoDup_app_r _ _ ND2)| | ].
      2:{ clear -F4 W. lia. }
      intros x K F. destruct (FRb _ _ _ _ x I F) as [J|J]; [|exact (proj1 (LC x (or_intror K)) J)]. exact (NoDup_app_disj _ _ x ND2 J K).
    + eapply shapes_no_letapp; eauto.
    + pose proof (kallocs_words b Bb) as Q. clear -W Q F4. lia.
  - constructor.
    + rewrite (locals_bv _ BM). intros x K. cbn [app] in K. split; [|apply RS; apply NM; apply in_or_app; auto].
      intro J. apply fnames_bv in J. exact (NoDup_app_disj _ _ x ND J K).
    + intros x F. right. auto.
    + eapply shapes_wf; eauto; [|lia]. intros x K F. apply FRm in F. apply fnames_bv in F. exact (NoDup_app_disj _ _ x ND F K).
    + eapply shapes_no_letapp; eauto.
    + pose proof (kallocs_words m BM) as Q. clear -Q F4. lia.
  - exact NC.
Qed.

(** the wrapper does not change the main expression *)
Lemma wrap_main e : main_of (wrap_in_fun e) = main_of e.
Proof. destruct e; reflexivity. Qed.
Lemma wrap_kfits cenv e : kfits cenv e -> kfits cenv (wrap_in_fun e).
Proof.
  intros [(F1 & F2 & F3 & F4) NC]. split; [|rewrite wrap_main; exact NC].
  split; [exact F1|]. split; [exact F2|]. split; [apply wrap_all_c; exact F3|rewrite wrap_words; exact F4].
Qed.
