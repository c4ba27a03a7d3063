(** * From LambdaANF programs to C programs *)
From Coq Require Import ZArith NArith PArith List Lia Bool Arith.
From Verif Require Import ANF_Syntax ANF_Eval ANF_Spec ANF_Scope ANF_EvalProofs ANF_FreeProofs Pipe_Spec Pipe_Shapes Pipe_ShapesCC WA_Spec Inline_LetProofs End_Wasm
  CG_Clight CG_Model CG_Spec CG_Proofs.
From Verif Require CG_Top Names_Model.
Import Pipe_Shapes.
Import ListNotations.
Local Open Scope nat_scope.

(** ** Conditions on the program given to the code generator *)

(** words in the text of a program: binders and arguments *)
Fixpoint words (e : exp) : nat :=
  match e with
  | Econstr _ _ ys e => S (length ys + words e)
  | Ecase _ cl => fold_right (fun p n => words (snd p) + n) 0 cl
  | Eproj _ _ _ _ e => S (words e)
  | Eletapp _ _ _ ys e => S (length ys + words e)
  | Efun B e => words_funs B + words e
  | Eapp _ _ ys => length ys
  | Eprim_val _ _ e => S (words e)
  | Eprim _ _ ys e => S (length ys + words e)
  | Ehalt _ => 0
  end
with words_funs (B : fundefs) : nat :=
  match B with
  | Fcons _ _ xs e B => S (length xs + words e + words_funs B)
  | Fnil => 0
  end.

(** machine limits: ordinals of constructors with arguments in a byte without the
    tags that the collector does not scan, numbers of arguments and sizes in their
    bit fields, parameters in C parameters or in the array of 1024 words *)
Definition fits (nParam : nat) (cenv : ctor_env) (e : exp) : Prop :=
  (forall t i, get t cenv = Some i -> ctor_arity i <> 0%N -> (Z.of_N (ctor_ordinal i) < 251 /\ Z.of_N (ctor_arity i) < 2 ^ 53)%Z) /\
  (forall t i, get t cenv = Some i -> ctor_arity i = 0%N -> (Z.of_N (ctor_ordinal i) < 2 ^ 62)%Z) /\
  all (fun s => match s with SFun _ n => n <= 1024 \/ n <= nParam | _ => True end) e /\
  (Z.of_nat (words e) < 2 ^ 62)%Z.

(** ** What is enough for the C code generator *)

(** no function definitions inside: the code generator rejects them *)
Fixpoint bare (e : exp) : Prop :=
  match e with
  | Econstr _ _ _ e | Eproj _ _ _ _ e | Eletapp _ _ _ _ e | Eprim_val _ _ e | Eprim _ _ _ e => bare e
  | Ecase _ cl => (fix go (cl : list (ctor_tag * exp)) : Prop := match cl with [] => True | p :: cl' => bare (snd p) /\ go cl' end) cl
  | Efun _ _ => False
  | Eapp _ _ _ | Ehalt _ => True
  end.
Lemma bare_Ecase x cl : bare (Ecase x cl) <-> Forall (fun p => bare (snd p)) cl.
Proof.
  cbn [bare]. induction cl as [|p cl IH]; [split; auto|]. rewrite IH. split; [intros [A B]; constructor; auto|].
  intro H. inversion H; subst. auto.
Qed.

Lemma locals_bv : forall e, bare e -> get_locals e = bv e.
Proof.
  apply (exp_ind2 (fun e => bare e -> get_locals e = bv e) (fun _ => True)); try (intros; exact I); try (intros; reflexivity);
    try (intros; cbn [get_locals bv bare] in *; f_equal; tauto).
  - intros x l F A. rewrite bare_Ecase in A. cbn [get_locals bv]. revert A. induction F as [|p l Hp F IH]; intro A; [reflexivity|].
    inversion A as [|? ? A1 A2]; subst. cbn [flat_map]. rewrite (Hp A1), (IH A2). reflexivity.
Qed.

Lemma allocs_words : forall e, bare e -> max_allocs e <= words e.
Proof.
  apply (exp_ind2 (fun e => bare e -> max_allocs e <= words e) (fun _ => True)); try (intros; exact I);
    try (intros; cbn [max_allocs words bare] in *; lia).
  - intros x t ys e IH A. cbn [max_allocs words bare] in *. specialize (IH A). destruct ys; cbn [length]; lia.
  - intros x l F A. rewrite bare_Ecase in A. cbn [max_allocs words]. revert A. induction F as [|p l Hp F IH]; intro A; [reflexivity|].
    inversion A as [|? ? A1 A2]; subst. cbn [fold_right]. specialize (Hp A1). specialize (IH A2). lia.
  - intros x t n y e IH A. cbn [max_allocs words bare] in *. specialize (IH A). lia.
  - intros x p e IH A. cbn [max_allocs words bare] in *. specialize (IH A). lia.
  - intros x p ys e IH A. cbn [max_allocs words bare] in *. specialize (IH A). lia.
Qed.
Lemma bv_words : forall e, bare e -> length (bv e) <= words e.
Proof.
  apply (exp_ind2 (fun e => bare e -> length (bv e) <= words e) (fun _ => True)); try (intros; exact I);
    try (intros; cbn [bv words length] in *; lia).
  - intros x t ys e IH A. cbn [bv words length bare] in *. specialize (IH A). lia.
  - intros x l F A. rewrite bare_Ecase in A. cbn [bv words]. revert A. induction F as [|p l Hp F IH]; intro A; [reflexivity|].
    inversion A as [|? ? A1 A2]; subst. cbn [fold_right flat_map]. rewrite app_length. specialize (Hp A1). specialize (IH A2). lia.
  - intros x t n y e IH A. cbn [bv words bare length] in *. specialize (IH A). lia.
  - intros x f t ys e IH A. cbn [bv words length bare] in *. specialize (IH A). lia.
  - intros B e _ IH [].
  - intros x p e IH A. cbn [bv words length bare] in *. specialize (IH A). lia.
  - intros x p ys e IH A. cbn [bv words length bare] in *. specialize (IH A). lia.
Qed.
Lemma words_fun B f t xs b : In (f, t, xs, b) (flist B) -> length xs + words b <= words_funs B.
Proof.
  induction B as [g t' ys e B IH|]; cbn [flist words_funs]; [|intros []]. intros [E|I]; [injection E as -> -> -> ->|specialize (IH I)]; lia.
Qed.

Lemma wf_go cenv l : (fix go (cs : list (ctor_tag * exp)) : Prop :=
  match cs with [] => True | p :: cs' => wf_exp cenv (snd p) /\ go cs' end) l <-> Forall (fun p => wf_exp cenv (snd p)) l.
Proof. induction l as [|p l IH]; [split; auto|]. rewrite IH. split; [intros []; constructor; auto|intro H; inversion H; auto]. Qed.


Lemma free_case_in y x l c e : In (c, e) l -> free y e -> free y (Ecase x l).
Proof.
  intros I F. cbn [free]. right. induction l as [|p l IH]; [destruct I|]. destruct I as [->|I]; [left; exact F|right; exact (IH I)].
Qed.
Lemma free_body_in y B f t xs b : In (f, t, xs, b) (flist B) -> ~ In y xs -> free y b -> free_body y B.
Proof.
  induction B as [g t' ys e B IH|]; cbn [flist free_body]; [|intros []]. intros [E|I] N F; [injection E as -> -> -> ->; left; auto|right; auto].
Qed.

Lemma shapes_wf T V P LL : forall e, all (shape_ok T V P LL) e -> bare e -> NoDup (bv e) ->
  (forall x, In x (bv e) -> ~ free x e) -> (Z.of_nat (words e) < 2 ^ 62)%Z -> wf_exp T e.
Proof.
  apply (exp_ind2 (fun e => all (shape_ok T V P LL) e -> bare e -> NoDup (bv e) ->
    (forall x, In x (bv e) -> ~ free x e) -> (Z.of_nat (words e) < 2 ^ 62)%Z -> wf_exp T e) (fun _ => True)); try (intros; exact I).
  - intros x t ys e IH [(i & G & A) H1] H3 N D L. cbn [wf_exp bv words free bare] in *. inversion N as [|? ? N1 N2]; subst. split; [|split].
    + intro K. apply (D x (or_introl eq_refl)). left. exact K.
    + intros i' G'. congruence.
    + apply IH; auto; [|lia]. intros y I F. apply (D y (or_intror I)). right. split; [congruence|exact F].
  - intros x l F H1 H3 N D L. rewrite all_Ecase in H1; rewrite bare_Ecase in H3. cbn [wf_exp]. apply wf_go. cbn [bv words] in *.
    assert (D' : forall c e, In (c, e) l -> forall y, In y (bv e) -> ~ free y e).
    { intros c e I y Iy Fy. apply (D y); [apply in_flat_map; exists (c, e); auto|]. eapply free_case_in; eauto. }
    clear D. revert H1 H3 N D' L. induction F as [|[c e] l Hp F IHl]; intros H1 H3 N D' L; constructor.
    + inversion H1 as [|? ? [_ H1'] _]; subst. inversion H3 as [|? ? H3' _]; subst. cbn [snd flat_map fold_right] in *.
      apply Hp; auto; [apply NoDup_app_iff in N; tauto|apply (D' c e); left; reflexivity|lia].
    + inversion H1; subst. inversion H3; subst. cbn [snd flat_map fold_right] in *.
      apply IHl; auto; [exact (NoDup_app_r _ _ N)|intros c0 e0 I; apply (D' c0); right; exact I|lia].
  - intros x t n y e IH H1 H3 N D L. cbn [wf_exp bv words all free bare] in *. inversion N as [|? ? N1 N2]; subst.
    apply IH; auto; [|lia]. intros z I F. apply (D z (or_intror I)). right. split; [congruence|exact F].
  - intros x f t ys e IH [_ H1] H3 N D L. cbn [wf_exp bv words free bare] in *. inversion N as [|? ? N1 N2]; subst. split.
    + pose proof (allocs_words e H3). lia.
    + apply IH; auto; [|lia]. intros z I F. apply (D z (or_intror I)). right. right. split; [congruence|exact F].
  - intros B e _ IH H1 [].
  - intros x p e IH [_ H1] H3 N D L. cbn [wf_exp bv words free bare] in *. inversion N as [|? ? N1 N2]; subst.
    apply IH; auto; [|lia]. intros z I F. apply (D z (or_intror I)). split; [congruence|exact F].
  - intros x p ys e IH [_ H1] H3 N D L. cbn [wf_exp bv words free bare] in *. inversion N as [|? ? N1 N2]; subst.
    apply IH; auto; [|lia]. intros z I F. apply (D z (or_intror I)). right. split; [congruence|exact F].
Qed.

(** ** The code generator rejects functions inside *)
(** opens an option *)
Ltac opt H := match type of H with match ?o with Some _ => _ | None => _ end = _ => let Q := fresh "Q" in destruct o eqn:Q; [|discriminate] end.
Section Gen.
  Variables (nParam : nat) (args_opt : bool) (prims : tmap bool) (fenv : fun_env) (cenv : ctor_env) (fmap : fun_info_env).
  Variables (fun_vars locs : list positive) (inds : list N).
  Notation tr := (translate_body nParam args_opt prims fenv cenv fmap fun_vars locs inds).
  Lemma translate_bare : forall e slots r, tr e slots = Some r -> bare e.
  Proof.
    apply (exp_ind2 (fun e => forall slots r, tr e slots = Some r -> bare e) (fun _ => True)); try (intros; exact I).
    - intros x t ys e IH slots r H. cbn [translate_body bare] in *. opt H. opt H. eauto.
    - intros x l F slots r H. apply bare_Ecase. cbn [translate_body] in H. opt H. clear H r. revert Q. generalize p. clear p. 
      induction F as [|p l Hp F IH]; intros q Q; constructor.
      + opt Q. eauto.
      + opt Q. opt Q. eapply IH. reflexivity.
    - intros x t n y e IH slots r H. cbn [translate_body bare] in *. opt H. eauto.
    - intros x f t ys e IH slots r H. cbn [translate_body bare] in *. opt H. opt H. opt H. destruct (call_with_stack _ _ _ _ _ _). opt H. eauto.
    - intros B e _ IH slots r H. discriminate.
    - intros x p e IH slots r H. cbn [translate_body bare] in *. opt H. eauto.
    - intros x p ys e IH slots r H. cbn [translate_body bare] in *. opt H. opt H. destruct b; [destruct (call_with_stack _ _ _ _ _ _)|]; opt H; eauto.
  Qed.
End Gen.

Lemma translate_bodies nParam a prims fenv cenv fmap : forall B p, translate_fundefs nParam a prims fenv cenv fmap B = Some p ->
  forall f t xs b, In (f, t, xs, b) (flist B) -> bare b.
Proof.
  induction B as [g t' ys e B IH|]; intros p H f t xs b I; [|destruct I]. cbn [translate_fundefs flist] in *.
  opt H. opt H. opt H. destruct (translate_body _ _ _ _ _ _ _ _ _ e 0) eqn:Q2; [|discriminate].
  destruct I as [E|I]; [injection E as -> -> -> ->; eapply translate_bare; eauto|eauto].
Qed.
Lemma compile_bare nParam a prims cenv n B e prog : compile nParam a prims cenv n (Efun B e) = Some prog ->
  (forall f t xs b, In (f, t, xs, b) (flist B) -> bare b) /\ bare e.
Proof.
  unfold compile. cbn [wrap_in_fun]. intro H. opt H. unfold translate_program in H. opt H.
  destruct (translate_body _ _ _ _ _ _ _ _ _ e 0) eqn:Q2; [|discriminate].
  split; [eapply translate_bodies; eauto|eapply translate_bare; eauto].
Qed.

Lemma no_tail_go l : (fix go (cs : list (ctor_tag * exp)) : Prop :=
  match cs with [] => True | p :: cs' => no_tail (snd p) /\ go cs' end) l <-> Forall (fun p => no_tail (snd p)) l.
Proof. induction l as [|p l IH]; [split; auto|]. rewrite IH. split; [intros []; constructor; auto|intro H; inversion H; auto]. Qed.
Lemma returns_no_tail : forall e, returns e -> no_tail e.
Proof.
  apply (exp_ind2 (fun e => returns e -> no_tail e) (fun _ => True)); try (intros; exact I); try (intros; cbn [returns no_tail] in *; auto; fail).
  intros x l F R. rewrite returns_Ecase in R. cbn [no_tail]. apply no_tail_go. induction F as [|p l Hp F IH]; constructor; inversion R; subst; auto.
Qed.

Lemma all_funs_flist (P : positive -> list positive -> exp -> Prop) B : (forall f t xs b, In (f, t, xs, b) (flist B) -> P t xs b) -> CG_Top.all_funs P B.
Proof.
  induction B as [g t ys e B IH|]; cbn [flist CG_Top.all_funs]; [|auto]. intro H. split; [apply (H g); left; auto|]. apply IH. intros. eapply H. right. eauto.
Qed.
Lemma fnames_bv B x : In x (fnames B) -> In x (bv_funs B).
Proof.
  induction B as [f t xs e B IH|]; cbn [fnames bv_funs]; [|intros []]. intros [->|I]; [left; auto|].
  right. rewrite !in_app_iff. auto.
Qed.
Lemma fundefs_names_fnames B x : In x (fundefs_names B) <-> In x (fnames B).
Proof. induction B as [f t xs e B IH|]; cbn; [|tauto]. rewrite sadd_In, IH. split; intros [->|]; auto. Qed.

Lemma prog_fine nParam prims cenv n B m prog V P LL :
  compile nParam false prims cenv n (Efun B m) = Some prog ->
  all (shape_ok cenv V P LL) (Efun B m) -> ordinals_ok cenv -> returns m -> whole (Efun B m) ->
  (forall x, In x (bv (Efun B m)) -> (100 < x)%positive) ->
  fits nParam cenv (Efun B m) ->
  CG_Top.prog_ok nParam cenv B m.
Proof.
  intros C SH O R [ND CL] NM (F1 & F2 & F3 & F4). destruct (compile_bare _ _ _ _ _ _ _ _ C) as [BB BM].
  rewrite all_Efun in SH, F3. destruct SH as [SH1 SH2]. destruct F3 as [F3 _]. cbn [words bv] in *.
  assert (NB : NoDup (bv_funs B)) by (apply NoDup_app_iff in ND; tauto).
  assert (NMm : NoDup (bv m)) by (exact (NoDup_app_r _ _ ND)).
  assert (RS : forall x, (100 < x)%positive -> ~ In x reserved /\ x <> bodyIdent /\ x <> gcIdent).
  { intros x L. split; [|split; intros ->; vm_compute in L; discriminate].
    unfold reserved. cbn [In]. intros [E|[E|[E|[E|[E|[E|[]]]]]]]; subst x; vm_compute in L; discriminate. }
  assert (FRm : forall x, free x m -> In x (fnames B)).
  { intros x F. destruct (in_dec Pos.eq_dec x (fnames B)) as [I|I]; [exact I|]. destruct (CL x). cbn [free]. auto. }
  assert (FRb : forall f t xs b x, In (f, t, xs, b) (flist B) -> free x b -> In x xs \/ In x (fnames B)).
  { intros f t xs b x Ib F. destruct (in_dec Pos.eq_dec x (fnames B)) as [I|I]; [auto|]. destruct (in_dec Pos.eq_dec x xs) as [J|J]; [auto|].
    destruct (CL x). cbn [free]. split; [exact I|]. right. eapply free_body_in; eauto. }
  constructor.
  - constructor; [exact F1|exact F2|exact O].
  - intros f I. apply RS. apply NM. apply in_or_app. left. apply fnames_bv. exact I.
  - apply all_funs_flist. intros f t xs b I. destruct (SH1 _ _ _ _ I) as [_ S2]. destruct (F3 _ _ _ _ I) as [L _].
    pose proof (words_fun _ _ _ _ _ I) as W. pose proof (BB _ _ _ _ I) as Bb.
    assert (LC : forall x, In x xs \/ In x (bv b) -> ~ In x (fnames B) /\ In x (bv_funs B)).
    { intros x K. destruct (bv_local B NB _ _ _ _ I x K) as [K1 K2]. split; [|exact K2]. intro Q. apply K1. apply fundefs_names_fnames. exact Q. }
    assert (ND2 : NoDup (xs ++ bv b)).
    { clear -NB I. induction B as [g t' ys e B IH|]; cbn [flist bv_funs] in *; [|destruct I]. inversion NB as [|? ? N1 N2]; subst.
      destruct I as [E|I]; [injection E as -> -> -> ->|apply IH; [|exact I]].
      - rewrite app_assoc in N2. apply NoDup_app_iff in N2. tauto.
      - exact (NoDup_app_r _ _ (NoDup_app_r _ _ N2)). }
    split; [apply NoDup_app_iff in ND2; tauto|]. split; [exact L|]. constructor.
    + rewrite (locals_bv _ Bb). intros x K. apply in_app_or in K. destruct (LC x K) as [K1 K2]. split; [exact K1|]. apply RS. apply NM. apply in_or_app. auto.
    + intros x K. eapply FRb; eauto.
    + eapply shapes_wf; eauto; [exact (NoDup_app_r _ _ ND2)| | ].
      2:{ clear -F4 W. lia. }
      intros x K F. destruct (FRb _ _ _ _ x I F) as [J|J]; [|exact (proj1 (LC x (or_intror K)) J)]. exact (NoDup_app_disj _ _ x ND2 J K).
    + pose proof (allocs_words b Bb). lia.
    + rewrite (locals_bv _ Bb). pose proof (bv_words b Bb) as Q. clear -W Q F4. unfold var in *. lia.
  - constructor.
    + rewrite (locals_bv _ BM). intros x K. cbn [app] in K. split; [|apply RS; apply NM; apply in_or_app; auto].
      intro J. apply fnames_bv in J. exact (NoDup_app_disj _ _ x ND J K).
    + intros x F. right. auto.
    + eapply shapes_wf; eauto; [|lia]. intros x K F. apply FRm in F. apply fnames_bv in F. exact (NoDup_app_disj _ _ x ND F K).
    + pose proof (allocs_words m BM). lia.
    + rewrite (locals_bv _ BM). pose proof (bv_words m BM) as Q. clear -Q F4. cbn [length]. unfold var in *. lia.
  - apply returns_no_tail. exact R.
Qed.

(** ** The wrapper *)
Lemma wrap_same e : wrap_in_fun e = match e with Efun _ _ => e | _ => Efun Fnil e end.
Proof. reflexivity. Qed.
Lemma wrap_bv_c e : bv (wrap_in_fun e) = bv e.
Proof. destruct e; reflexivity. Qed.
Lemma wrap_form_c e : exists B m, wrap_in_fun e = Efun B m /\ (returns e -> returns m).
Proof. destruct e; cbn; eauto. Qed.
Lemma wrap_all_c S e : all S e -> all S (wrap_in_fun e).
Proof. destruct e; cbn [wrap_in_fun]; auto; intro H; apply all_Efun0; split; try exact I; exact H. Qed.
Lemma wrap_words e : words (wrap_in_fun e) = words e.
Proof. destruct e; reflexivity. Qed.
Lemma wrap_free x e : free x (wrap_in_fun e) -> free x e.
Proof. destruct e; cbn [wrap_in_fun]; auto; intros [_ [H|[]]]; exact H. Qed.
Lemma wrap_whole e : whole e -> whole (wrap_in_fun e).
Proof. intros [N C]. split; [rewrite wrap_bv_c; exact N|]. intros x F. exact (C x (wrap_free x e F)). Qed.

Lemma fnil_run cenv e c r : bstep_fuel cenv [] e c r -> bstep_fuel cenv [] (Efun Fnil e) (c + 1) r.
Proof. intro H. apply BStepf_run. apply BStept_fun. exact H. Qed.
Lemma fnil_inv cenv e c v : bstep_fuel cenv [] (Efun Fnil e) c (Res v) -> exists c', bstep_fuel cenv [] e c' (Res v).
Proof. intro H. destruct (bstep_fuel_inv _ _ _ _ _ H) as [[_ K]|(c' & _ & B)]; [discriminate|]. inversion B; subst. eauto. Qed.
Lemma fnil_diverge cenv e : diverge cenv [] e -> diverge cenv [] (Efun Fnil e).
Proof. intros H [|c]; [constructor; lia|]. replace (S c) with (c + 1) by lia. apply fnil_run. apply H. Qed.
Lemma wrap_run cenv e c v : bstep_fuel cenv [] e c (Res v) -> exists c', bstep_fuel cenv [] (wrap_in_fun e) c' (Res v).
Proof. intro H. destruct e; cbn [wrap_in_fun]; eauto using fnil_run. Qed.
Lemma wrap_run_inv cenv e c v : bstep_fuel cenv [] (wrap_in_fun e) c (Res v) -> exists c', bstep_fuel cenv [] e c' (Res v).
Proof. intro H. destruct e; cbn [wrap_in_fun] in H; eauto using fnil_inv. Qed.
Lemma wrap_diverge cenv e : diverge cenv [] e -> diverge cenv [] (wrap_in_fun e).
Proof. intro H. destruct e; cbn [wrap_in_fun]; auto using fnil_diverge. Qed.
Lemma wrap_not_stuck cenv e : not_stuck cenv [] e -> not_stuck cenv [] (wrap_in_fun e).
Proof. intros [(c & v & H)|D]; [left|right; apply wrap_diverge; exact D]. destruct (wrap_run _ _ _ _ H) as [c' H']. eauto. Qed.
