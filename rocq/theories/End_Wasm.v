(** * From LambdaANF programs to Wasm modules *)
From Coq Require Import ZArith NArith PArith List Lia Bool Arith String.
From Verif Require Import ANF_Syntax ANF_Eval ANF_Spec ANF_Scope ANF_EvalProofs Pipe_Spec Pipe_Shapes Pipe_ShapesCC
  RT_Int63Spec WA_Wasm WA_Model WA_Spec WA_Eval Inline_LetProofs ANF_FreeProofs.
Import ListNotations.

Local Open Scope nat_scope.
(** ** A program that does not get stuck is safe for the evaluator of WA_Spec.v *)
Section Bound.
  Variable cenv : ctor_env.
  Variable pr : tmap (list val -> option val).
  Notation peval := (peval cenv pr).

  Definition bounded (rho : env) (e : exp) : Prop := exists k, forall c r, bstep_fuel cenv rho e c r -> c <= k.

  Lemma bounded_step rho e : (exists k, forall c r, bstep cenv rho e c r -> c <= k) -> bounded rho e.
  Proof.
    intros [k H]. exists (S k). intros c r B. destruct (bstep_fuel_inv _ _ _ _ _ B) as [[-> _]|(c' & -> & B')]; [lia|]. apply H in B'. lia.
  Qed.

  Lemma peval_res n rho e c v : bstep_fuel cenv rho e c (Res v) -> peval n rho e <> PTime -> peval n rho e = PVal v.
  Proof.
    intros B NT. destruct (proj2 (bstep_bstep_e cenv pr) _ _ _ _ B v eq_refl) as [c' B']. apply bstep_e_peval in B'.
    destruct (Nat.le_ge_cases n c') as [L|L].
    - pose proof (@peval_mono cenv pr _ _ rho e _ L eq_refl NT). congruence.
    - rewrite (@peval_mono cenv pr _ _ rho e _ L B' ltac:(discriminate)). reflexivity.
  Qed.

  Lemma peval_bounded : forall n e rho, peval n rho e <> PTime -> bounded rho e.
  Proof.
    induction n as [n IHn] using lt_wf_ind.
    assert (CALL : forall rho' fl f' t vs xs b rho'', callf cenv pr n (Vfun rho' fl f') t vs <> PTime ->
      find_def f' fl = Some (t, xs, b) -> set_lists xs vs (def_funs fl fl rho' rho') = Some rho'' ->
      bounded rho'' b /\ forall c v, bstep_fuel cenv rho'' b c (Res v) -> callf cenv pr n (Vfun rho' fl f') t vs = PVal v).
    { intros rho' fl f' t vs xs b rho'' NT F S. destruct n as [|n]; [destruct NT; reflexivity|].
      rewrite (@callf_S cenv pr n _ _ _ _ _ _ _ _ F S) in *. split; [apply (IHn n); [lia|exact NT]|]. intros c v B. eapply peval_res; eauto. }
    apply (exp_ind2 (fun e => forall rho, peval n rho e <> PTime -> bounded rho e) (fun _ => True)); try (intros; exact I); unfold WA_Spec.peval in *.
    - intros x t ys e IH rho NT. cbn [ev] in NT. apply bounded_step. destruct (get_list ys rho) as [vs|] eqn:G.
      + destruct (IH _ NT) as [k K]. exists k. intros c r B. inversion B; subst. assert (vs0 = vs) by congruence. subst. eauto.
      + exists 0. intros c r B. inversion B; subst. congruence.
    - intros x l F rho NT. rewrite ev_case in NT. apply bounded_step.
      destruct (get x rho) as [[t vl| | |]|] eqn:G; try (exists 0; intros c9 r9 B9; inversion B9; subst; congruence).
      destruct (caseConsistent_f cenv l t) eqn:CC; [|exists 0; intros c9 r9 B9; inversion B9; subst; congruence].
      destruct (findtag l t) as [e|] eqn:FT; [|exists 0; intros c9 r9 B9; inversion B9; subst; congruence].
      assert (K : bounded rho e).
      { clear CC. induction F as [|[c0 e0] l He F IH]; cbn [findtag fst snd] in *; [discriminate|].
        destruct (Pos.eq_dec c0 t); [injection FT as ->; apply He; exact NT|exact (IH FT)]. }
      destruct K as [k K]. exists k. intros c r B. inversion B; subst.
      assert (t0 = t) by congruence. subst t0. assert (e0 = e) by congruence. subst e0. eauto.
    - intros x t n0 y e IH rho NT. cbn [ev] in NT. apply bounded_step.
      destruct (get y rho) as [[t' vs| | |]|] eqn:G; try (exists 0; intros c9 r9 B9; inversion B9; subst; congruence).
      destruct (Pos.eq_dec t t') as [<-|D]; [|exists 0; intros c9 r9 B9; inversion B9; subst; congruence].
      destruct (nthN vs n0) as [v|] eqn:N; [|exists 0; intros c9 r9 B9; inversion B9; subst; congruence].
      destruct (IH _ NT) as [k K]. exists k. intros c r B. inversion B; subst.
      assert (vs0 = vs) by congruence. subst vs0. assert (v0 = v) by congruence. subst v0. eauto.
    - intros x f t ys e IH rho NT. cbn [ev] in NT. apply bounded_step.
      destruct (get f rho) as [vf|] eqn:G; [|exists 0; intros c9 r9 B9; inversion B9; subst; congruence].
      destruct (get_list ys rho) as [vs|] eqn:GL; [|exists 0; intros c9 r9 B9; inversion B9; subst; congruence].
      destruct vf as [|rho' fl f'| |]; try (exists 0; intros c9 r9 B9; inversion B9; subst; congruence).
      destruct (find_def f' fl) as [[[t' xs] b]|] eqn:FD; [|exists 0; intros c9 r9 B9; inversion B9; subst; congruence].
      destruct (Pos.eq_dec t t') as [<-|D]; [|exists 0; intros c9 r9 B9; inversion B9; subst; congruence].
      destruct (set_lists xs vs (def_funs fl fl rho' rho')) as [rho''|] eqn:SL; [|exists 0; intros c9 r9 B9; inversion B9; subst; congruence].
      assert (NT1 : callf cenv pr n (Vfun rho' fl f') t vs <> PTime) by (intro E; apply NT; rewrite E; reflexivity).
      destruct (CALL _ _ _ _ _ _ _ _ NT1 FD SL) as [[k1 K1] V].
      destruct (callf cenv pr n (Vfun rho' fl f') t vs) as [v| |] eqn:EC; [|destruct NT1; reflexivity|].
      + destruct (IH _ NT) as [k2 K2]. exists (k1 + k2). intros c r B. inv B; same.
        *           match goal with H : bstep_fuel _ _ _ _ (Res ?v0) |- _ => pose proof (K1 _ _ H); pose proof (V _ _ H) as E; injection E; intros; subst end.
          match goal with H : bstep_fuel _ (set _ _ _) e _ _ |- _ => pose proof (K2 _ _ H) end. lia.
        *           match goal with H : bstep_fuel _ _ _ _ _ |- _ => pose proof (K1 _ _ H) end. lia.
      + exists k1. intros c r B. inv B; same.
        *           match goal with H : bstep_fuel _ _ _ _ (Res ?v0) |- _ => pose proof (V _ _ H) as E; discriminate end.
        *           match goal with H : bstep_fuel _ _ _ _ _ |- _ => exact (K1 _ _ H) end.
    - intros B e _ IH rho NT. cbn [ev] in NT. apply bounded_step. destruct (IH _ NT) as [k K]. exists k. intros c r H. inversion H; subst. eauto.
    - intros f t ys rho NT. cbn [ev] in NT. apply bounded_step.
      destruct (get f rho) as [vf|] eqn:G; [|exists 0; intros c9 r9 B9; inversion B9; subst; congruence].
      destruct (get_list ys rho) as [vs|] eqn:GL; [|exists 0; intros c9 r9 B9; inversion B9; subst; congruence].
      destruct vf as [|rho' fl f'| |]; try (exists 0; intros c9 r9 B9; inversion B9; subst; congruence).
      destruct (find_def f' fl) as [[[t' xs] b]|] eqn:FD; [|exists 0; intros c9 r9 B9; inversion B9; subst; congruence].
      destruct (Pos.eq_dec t t') as [<-|D]; [|exists 0; intros c9 r9 B9; inversion B9; subst; congruence].
      destruct (set_lists xs vs (def_funs fl fl rho' rho')) as [rho''|] eqn:SL; [|exists 0; intros c9 r9 B9; inversion B9; subst; congruence].
      destruct (CALL _ _ _ _ _ _ _ _ NT FD SL) as [[k1 K1] V]. exists k1. intros c r B. inv B; same. eauto.
    - intros x p e IH rho NT. apply bounded_step. exists 0. intros c r B. inversion B.
    - intros x p ys e IH rho NT. apply bounded_step. exists 0. intros c r B. inversion B.
    - intros x rho NT. apply bounded_step. exists 0. intros c r B. inversion B; subst. lia.
  Qed.

  Lemma diverge_time rho e : diverge cenv rho e -> forall n, peval n rho e = PTime.
  Proof.
    intros D n. assert (H : peval n rho e = PTime \/ peval n rho e <> PTime) by (destruct (peval n rho e); [right|left|right]; congruence).
    destruct H as [H|H]; [exact H|]. destruct (peval_bounded _ _ _ H) as [k K]. specialize (K _ _ (D (S k))). lia.
  Qed.
  Lemma not_stuck_safe rho e : not_stuck cenv rho e -> psafe cenv pr rho e.
  Proof.
    intros [(c & v & B)|D] n E.
    - rewrite (peval_res _ _ _ _ _ B) in E; congruence.
    - rewrite (diverge_time _ _ D) in E. discriminate.
  Qed.
End Bound.

(** ** Programs that are in order for the Wasm code generator *)
Definition lit_ok (p : primitive_value) : Prop := match p with PVint z => u63 z | _ => True end.

Lemma exp_ok_go cenv names l : (fix go (l : list (ctor_tag * exp)) : Prop :=
  match l with [] => True | p :: l' => exp_ok cenv names (snd p) /\ go l' end) l <-> Forall (fun p => exp_ok cenv names (snd p)) l.
Proof. induction l as [|p l IH]; [split; auto|]. rewrite IH. split; [intros []; constructor; auto|intro H; inversion H; auto]. Qed.

Lemma shapes_exp_ok T P LL names : forall e, all (shape_ok T lit_ok P LL) e -> (forall x, In x (bv e) -> ~ In x names) -> exp_ok T names e.
Proof.
  apply (exp_ind2 (fun e => all (shape_ok T lit_ok P LL) e -> (forall x, In x (bv e) -> ~ In x names) -> exp_ok T names e) (fun _ => True)); try (intros; exact I).
  - intros x t ys e IH [(i & G & A) H] D. cbn [exp_ok bv] in *. split; [apply D; left; auto|]. split; [|apply IH; [auto|intros; apply D; right; auto]].
    intros i' G'. congruence.
  - intros x l F H D. rewrite all_Ecase in H. cbn [exp_ok]. apply exp_ok_go. cbn [bv] in D.
    induction F as [|p l Hp F IH]; constructor.
    + inversion H as [|? ? [H1 H2] H3]; subst. apply Hp; [exact H2|]. intros y I. apply D. cbn [flat_map]. apply in_or_app. auto.
    + inversion H; subst. apply IH; [assumption|]. intros y I. apply D. cbn [flat_map]. apply in_or_app. auto.
  - intros x t n y e IH H D. cbn [exp_ok bv all] in *. split; [apply D; left; auto|]. apply IH; [auto|intros; apply D; right; auto].
  - intros x f t ys e IH [_ H] D. cbn [exp_ok bv] in *. split; [apply D; left; auto|]. apply IH; [auto|intros; apply D; right; auto].
  - intros B e _ IH H D. rewrite all_Efun0 in H. cbn [exp_ok bv] in *. apply IH; [apply H|]. intros x I. apply D. apply in_or_app. auto.
  - intros x p e IH [L H] D. cbn [exp_ok bv] in *. split; [apply D; left; auto|]. split; [exact L|]. apply IH; [auto|intros; apply D; right; auto].
  - intros x p ys e IH [_ H] D. cbn [exp_ok bv] in *. split; [apply D; left; auto|]. apply IH; [auto|intros; apply D; right; auto].
Qed.

Lemma find_def_flist f B t xs b : find_def f B = Some (t, xs, b) -> In (f, t, xs, b) (flist B).
Proof.
  induction B as [g t' ys e B IH|]; cbn [find_def flist]; [|discriminate]. destruct (Pos.eq_dec f g) as [->|].
  - intro H. injection H as -> -> ->. left. reflexivity.
  - right. auto.
Qed.
Lemma names_bv B x : In x (fundefs_names B) -> In x (bv_funs B).
Proof.
  induction B as [f t xs e B IH|]; cbn [fundefs_names bv_funs]; [|intros []]. rewrite sadd_In. intros [->|I]; [left; auto|].
  right. rewrite !in_app_iff. auto.
Qed.
Lemma NoDup_app_disj {A} (l1 l2 : list A) x : NoDup (l1 ++ l2) -> In x l1 -> ~ In x l2.
Proof.
  induction l1 as [|a l1 IH]; cbn; [intros _ []|]. intros N [->|I] K; inversion N; subst; [apply H1; apply in_or_app; auto|exact (IH H2 I K)].
Qed.
Lemma NoDup_app_r {A} (l1 l2 : list A) : NoDup (l1 ++ l2) -> NoDup l2.
Proof. induction l1; cbn; auto. intro N. inversion N; auto. Qed.

Lemma bv_local B : NoDup (bv_funs B) -> forall f t xs b, In (f, t, xs, b) (flist B) ->
  forall x, In x xs \/ In x (bv b) -> ~ In x (fundefs_names B) /\ In x (bv_funs B).
Proof.
  induction B as [g t' ys e B IH|]; intros N f t xs b I x K; cbn [flist] in I; [|destruct I].
  cbn [bv_funs fundefs_names] in *. inversion N as [|? ? N1 N2]; subst. destruct I as [E|I].
  - injection E as -> -> -> ->. split; [|right; rewrite !in_app_iff; tauto]. rewrite sadd_In. intros [->|D].
    + apply N1. rewrite !in_app_iff. tauto.
    + apply names_bv in D. rewrite app_assoc in N2. apply (NoDup_app_disj _ _ x N2); [apply in_or_app; tauto|exact D].
  - destruct (IH (NoDup_app_r _ _ (NoDup_app_r _ _ N2)) _ _ _ _ I x K) as [K1 K2]. split; [|right; rewrite !in_app_iff; tauto].
    rewrite sadd_In. intros [->|D]; [|auto]. apply N1. rewrite !in_app_iff. tauto.
Qed.

Lemma shapes_wprog_ok T P LL B e : all (shape_ok T lit_ok P LL) (Efun B e) -> NoDup (bv (Efun B e)) -> wprog_ok T B e.
Proof.
  intros A N. rewrite all_Efun in A. destruct A as [A1 A2]. cbn [bv] in N. split.
  - eapply shapes_exp_ok; [exact A2|]. intros x I K. apply names_bv in K. exact (NoDup_app_disj _ _ x N K I).
  - intros f t xs b F. apply find_def_flist in F. assert (NB : NoDup (bv_funs B)) by (apply NoDup_app_iff in N; tauto).
    destruct (A1 _ _ _ _ F) as [_ A3]. split.
    + eapply shapes_exp_ok; [exact A3|]. intros x I. apply (bv_local B NB _ _ _ _ F). auto.
    + intros x I. apply (bv_local B NB _ _ _ _ F). auto.
Qed.

(** ** The wrapper that puts every program under a function bundle *)
Lemma wrap_peval cenv pr n e : peval cenv pr n [] (ensure_top_level_Efun e) = peval cenv pr n [] e.
Proof. destruct e; reflexivity. Qed.
Lemma wrap_psafe cenv pr e : psafe cenv pr [] e -> psafe cenv pr [] (ensure_top_level_Efun e).
Proof. intros H n. rewrite wrap_peval. apply H. Qed.
Lemma wrap_bstep cenv pr e v : (exists c, bstep_e cenv pr [] (ensure_top_level_Efun e) v c) <-> (exists c, bstep_e cenv pr [] e v c).
Proof.
  split; intros [c H]; apply bstep_e_peval in H; [rewrite wrap_peval in H|rewrite <- wrap_peval in H]; eapply peval_bstep_e; exact H.
Qed.
Lemma wrap_form e : exists B m, ensure_top_level_Efun e = Efun B m.
Proof. destruct e; cbn; eauto. Qed.
Lemma wrap_all S e : all S e -> all S (ensure_top_level_Efun e).
Proof. destruct e; cbn [ensure_top_level_Efun]; auto; intro H; apply all_Efun0; split; try exact I; exact H. Qed.
Lemma wrap_bv e : bv (ensure_top_level_Efun e) = bv e.
Proof. destruct e; reflexivity. Qed.
