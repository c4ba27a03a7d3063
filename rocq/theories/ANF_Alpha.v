(** * Programs that differ by variable names only

    Specification and proof device: [aeq R e1 e2] says that [e1] and [e2] are
    the same program up to names of bound variables when the free variable [x]
    of the first stands for the free variable [y] of the second whenever
    [R x y].  Such programs evaluate alike, step by step. *)
From Coq Require Import ZArith NArith Arith List Lia Bool.
From Verif Require Import ANF_Syntax ANF_Eval ANF_Spec ANF_EvalProofs ANF_FreeProofs ANF_LR
  ANF_LRProofs ANF_Scope ANF_Subst.
Import ListNotations.

Definition vmap := var -> var -> Prop.

Definition ext (x1 x2 : var) (R : vmap) : vmap := fun a b =>
  (a = x1 /\ b = x2) \/ (a <> x1 /\ b <> x2 /\ R a b).

Fixpoint exts (xs1 xs2 : list var) (R : vmap) : vmap :=
  match xs1, xs2 with
  | x1 :: xs1, x2 :: xs2 => ext x1 x2 (exts xs1 xs2 R)
  | _, _ => R
  end.

Fixpoint aeq (R : vmap) (e1 e2 : exp) {struct e1} : Prop :=
  match e1, e2 with
  | Econstr x1 t1 ys1 e1, Econstr x2 t2 ys2 e2 =>
      t1 = t2 /\ Forall2 R ys1 ys2 /\ aeq (ext x1 x2 R) e1 e2
  | Ecase y1 cl1, Ecase y2 cl2 =>
      R y1 y2 /\
      (fix go (cl1 cl2 : list (ctor_tag * exp)) : Prop :=
         match cl1, cl2 with
         | [], [] => True
         | (t1, e1) :: cl1, (t2, e2) :: cl2 => t1 = t2 /\ aeq R e1 e2 /\ go cl1 cl2
         | _, _ => False
         end) cl1 cl2
  | Eproj x1 t1 n1 y1 e1, Eproj x2 t2 n2 y2 e2 =>
      t1 = t2 /\ n1 = n2 /\ R y1 y2 /\ aeq (ext x1 x2 R) e1 e2
  | Eletapp x1 f1 t1 ys1 e1, Eletapp x2 f2 t2 ys2 e2 =>
      t1 = t2 /\ R f1 f2 /\ Forall2 R ys1 ys2 /\ aeq (ext x1 x2 R) e1 e2
  | Efun B1 e1, Efun B2 e2 =>
      length (fnames B1) = length (fnames B2) /\
      aeq_funs (exts (fnames B1) (fnames B2) R) B1 B2 /\
      aeq (exts (fnames B1) (fnames B2) R) e1 e2
  | Eapp f1 t1 ys1, Eapp f2 t2 ys2 => t1 = t2 /\ R f1 f2 /\ Forall2 R ys1 ys2
  | Eprim_val x1 p1 e1, Eprim_val x2 p2 e2 => p1 = p2 /\ aeq (ext x1 x2 R) e1 e2
  | Eprim x1 p1 ys1 e1, Eprim x2 p2 ys2 e2 =>
      p1 = p2 /\ Forall2 R ys1 ys2 /\ aeq (ext x1 x2 R) e1 e2
  | Ehalt x1, Ehalt x2 => R x1 x2
  | _, _ => False
  end
with aeq_funs (R : vmap) (B1 B2 : fundefs) {struct B1} : Prop :=
  match B1, B2 with
  | Fcons f1 t1 xs1 e1 B1, Fcons f2 t2 xs2 e2 B2 =>
      t1 = t2 /\ length xs1 = length xs2 /\ aeq (exts xs1 xs2 R) e1 e2 /\ aeq_funs R B1 B2
  | Fnil, Fnil => True
  | _, _ => False
  end.

(** branches *)
Definition aeq_cl (R : vmap) (cl1 cl2 : list (ctor_tag * exp)) : Prop :=
  Forall2 (fun p1 p2 => fst p1 = fst p2 /\ aeq R (snd p1) (snd p2)) cl1 cl2.

Lemma aeq_Ecase R y1 cl1 y2 cl2 :
  aeq R (Ecase y1 cl1) (Ecase y2 cl2) <-> R y1 y2 /\ aeq_cl R cl1 cl2.
Proof.
  cbn [aeq]. apply and_iff_compat_l. unfold aeq_cl. revert cl2.
  induction cl1 as [|[t1 e1] cl1 IH]; intros [|[t2 e2] cl2]; split; intro H;
    try (inversion H; fail); auto.
  - destruct H as (H1 & H2 & H3). constructor; [split; auto|]. apply IH; auto.
  - inversion H as [|? ? ? ? [H1 H2] H3]; subst. split; [auto|split; auto]. apply IH; auto.
Qed.

Lemma Forall2_flip' A B (R : A -> B -> Prop) l1 l2 : Forall2 R l1 l2 -> Forall2 (fun b a => R a b) l2 l1.
Proof. induction 1; constructor; auto. Qed.

Lemma Forall2_impl' A B (R R' : A -> B -> Prop) l1 l2 : (forall a b, R a b -> R' a b) ->
  Forall2 R l1 l2 -> Forall2 R' l1 l2.
Proof. intros I H. induction H; constructor; auto. Qed.

(** ** Symmetry and monotonicity *)
Lemma aeq_mono :
  (forall e1 (R R' : vmap) e2, (forall a b, R a b -> R' a b) -> aeq R e1 e2 -> aeq R' e1 e2) /\
  (forall B1 (R R' : vmap) B2, (forall a b, R a b -> R' a b) -> aeq_funs R B1 B2 -> aeq_funs R' B1 B2).
Proof.
  assert (X : forall x1 x2 (R R' : vmap), (forall a b, R a b -> R' a b) ->
                forall a b, ext x1 x2 R a b -> ext x1 x2 R' a b).
  { unfold ext. intros. intuition. }
  assert (XS : forall xs1 xs2 (R R' : vmap), (forall a b, R a b -> R' a b) ->
                forall a b, exts xs1 xs2 R a b -> exts xs1 xs2 R' a b).
  { induction xs1 as [|x1 xs1 IH]; intros [|x2 xs2] R R' H a b; cbn; auto. apply X. intros c d. apply IH. exact H. }
  apply exp_fundefs_ind.
  - intros x t ys e IH R R' [] I H; cbn in *; try tauto. destruct H as (H1 & H2 & H3).
    split; [auto|split]; [eapply Forall2_impl'; eauto|]. eapply IH; [|exact H3]. eauto.
  - intros x l F R R' [] I H; try (cbn in H; tauto). apply aeq_Ecase in H as [H1 H2]. apply aeq_Ecase.
    split; auto. unfold aeq_cl in *. clear H1. revert l0 H2.
    induction F as [|p l Hp F IHl]; intros l0 H2; inversion H2 as [|? ? ? ? [K1 K2] K3]; subst; constructor; auto.
    split; auto. eapply Hp; eauto.
  - intros x t n y e IH R R' [] I H; cbn in *; try tauto. destruct H as (H1 & H2 & H3 & H4).
    split; [auto|split; [auto|split; [auto|]]]. eapply IH; [|exact H4]. eauto.
  - intros x f t ys e IH R R' [] I H; cbn in *; try tauto. destruct H as (H1 & H2 & H3 & H4).
    split; [auto|split; [auto|split]]; [eapply Forall2_impl'; eauto|]. eapply IH; [|exact H4]. eauto.
  - intros B e IHB IHe R R' [] I H; cbn in *; try tauto. destruct H as (H1 & H2 & H3).
    split; [auto|split]; [eapply IHB; [|exact H2]; eauto|eapply IHe; [|exact H3]; eauto].
  - intros f t ys R R' [] I H; cbn in *; try tauto. destruct H as (H1 & H2 & H3).
    split; [auto|split; [auto|]]. eapply Forall2_impl'; eauto.
  - intros x p e IH R R' [] I H; cbn in *; try tauto. destruct H as (H1 & H2).
    split; [auto|]. eapply IH; [|exact H2]. eauto.
  - intros x p ys e IH R R' [] I H; cbn in *; try tauto. destruct H as (H1 & H2 & H3).
    split; [auto|split]; [eapply Forall2_impl'; eauto|]. eapply IH; [|exact H3]. eauto.
  - intros x R R' [] I H; cbn in *; try tauto. auto.
  - intros f t xs e B IHe IHB R R' [] I H; cbn in *; try tauto. destruct H as (H1 & H2 & H3 & H4).
    split; [auto|split; [auto|split]]; [eapply IHe; [|exact H3]; eauto|eapply IHB; eauto].
  - intros R R' [] I H; cbn in *; auto.
Qed.

Definition flipm (R : vmap) : vmap := fun a b => R b a.

Lemma ext_flip x1 x2 R a b : ext x1 x2 (flipm R) a b <-> flipm (ext x2 x1 R) a b.
Proof. unfold ext, flipm. intuition. Qed.

Lemma exts_flip : forall xs1 xs2 R a b, exts xs1 xs2 (flipm R) a b <-> flipm (exts xs2 xs1 R) a b.
Proof.
  induction xs1 as [|x1 xs1 IH]; intros [|x2 xs2] R a b; cbn; try tauto.
  unfold ext at 1. rewrite IH. unfold flipm, ext. tauto.
Qed.

Lemma aeq_sym :
  (forall e1 (R : vmap) e2, aeq R e1 e2 -> aeq (flipm R) e2 e1) /\
  (forall B1 (R : vmap) B2, aeq_funs R B1 B2 -> aeq_funs (flipm R) B2 B1).
Proof.
  assert (M : forall x1 x2 R e1 e2, aeq (flipm (ext x1 x2 R)) e2 e1 -> aeq (ext x2 x1 (flipm R)) e2 e1).
  { intros x1 x2 R e1 e2. apply (proj1 aeq_mono). intros a b. apply ext_flip. }
  assert (MS : forall xs1 xs2 R e1 e2, aeq (flipm (exts xs1 xs2 R)) e2 e1 -> aeq (exts xs2 xs1 (flipm R)) e2 e1).
  { intros x1 x2 R e1 e2. apply (proj1 aeq_mono). intros a b. apply exts_flip. }
  assert (MF : forall xs1 xs2 R B1 B2, aeq_funs (flipm (exts xs1 xs2 R)) B2 B1 -> aeq_funs (exts xs2 xs1 (flipm R)) B2 B1).
  { intros x1 x2 R e1 e2. apply (proj2 aeq_mono). intros a b. apply exts_flip. }
  apply exp_fundefs_ind.
  - intros x t ys e IH R [] H; cbn in *; try tauto. destruct H as (H1 & H2 & H3).
    split; [auto|split]; [apply Forall2_flip'; auto|auto].
  - intros x l F R [] H; try (cbn in H; tauto). apply aeq_Ecase in H as [H1 H2]. apply aeq_Ecase.
    split; auto. unfold aeq_cl in *. clear H1. revert l0 H2.
    induction F as [|p l Hp F IHl]; intros l0 H2; inversion H2 as [|? ? ? ? [K1 K2] K3]; subst; constructor; auto.
  - intros x t n y e IH R [] H; cbn in *; try tauto. destruct H as (H1 & H2 & H3 & H4). auto 6.
  - intros x f t ys e IH R [] H; cbn in *; try tauto. destruct H as (H1 & H2 & H3 & H4).
    split; [auto|split; [auto|split]]; [apply Forall2_flip'; auto|auto].
  - intros B e IHB IHe R [] H; cbn in *; try tauto. destruct H as (H1 & H2 & H3).
    split; [auto|split]; auto.
  - intros f t ys R [] H; cbn in *; try tauto. destruct H as (H1 & H2 & H3).
    split; [auto|split; [auto|]]. apply Forall2_flip'; auto.
  - intros x p e IH R [] H; cbn in *; try tauto. destruct H as (H1 & H2). auto.
  - intros x p ys e IH R [] H; cbn in *; try tauto. destruct H as (H1 & H2 & H3).
    split; [auto|split]; [apply Forall2_flip'; auto|auto].
  - intros x R [] H; cbn in *; try tauto.
  - intros f t xs e B IHe IHB R [] H; cbn in *; try tauto. destruct H as (H1 & H2 & H3 & H4).
    split; [auto|split; [auto|split]]; auto.
  - intros R [] H; cbn in *; auto.
Qed.

(** ** Evaluation *)
Definition eqc : cost_rel := fun _ c1 c2 => c1 = c2.

Lemma eqc_step : step_ok eqc eqc.
Proof. split; unfold eqc; intros; lia. Qed.
Lemma eqc_let : let_ok eqc eqc eqc.
Proof. split; [|split]; unfold eqc; intros; lia. Qed.

Section Sem.
  Variable cenv : ctor_env.
  Variable PG : cost_rel.
  Hypothesis SO : step_ok PG PG.
  Hypothesis LO : let_ok PG PG PG.
  Hypothesis HO : PG true 1 1.
  Notation VR := (vrel cenv PG).
  Notation AR := (arel cenv PG).

  Lemma ext_arel k rho1 rho2 x1 x2 v1 v2 (R : vmap) :
    VR k v1 v2 -> (forall a b, R a b -> AR k rho1 a rho2 b) ->
    forall a b, ext x1 x2 R a b -> AR k (set x1 v1 rho1) a (set x2 v2 rho2) b.
  Proof.
    intros V H a b [[-> ->]|(N1 & N2 & E)] w Gw.
    - rewrite get_set_same in *. injection Gw as <-. eauto.
    - rewrite get_set_other in * by auto. apply (H a b E w Gw).
  Qed.

  Lemma exts_arel k (R : vmap) : forall xs1 xs2 vs1 vs2 rho1 rho2 rho1' rho2',
    set_lists xs1 vs1 rho1 = Some rho1' -> set_lists xs2 vs2 rho2 = Some rho2' ->
    Forall2 (VR k) vs1 vs2 -> (forall a b, R a b -> AR k rho1 a rho2 b) ->
    forall a b, exts xs1 xs2 R a b -> AR k rho1' a rho2' b.
  Proof.
    induction xs1 as [|x1 xs1 IH]; intros [|x2 xs2] vs1 vs2 rho1 rho2 rho1' rho2' S1 S2 F H;
      inversion F as [|v1 v2 l1 l2 V F']; subst; cbn in S1, S2; try discriminate.
    - injection S1 as <-. injection S2 as <-. exact H.
    - destruct (set_lists xs1 l1 rho1) eqn:E1; [|discriminate]. injection S1 as <-.
      destruct (set_lists xs2 l2 rho2) eqn:E2; [|discriminate]. injection S2 as <-.
      cbn [exts]. apply ext_arel; auto. eapply IH; eauto.
  Qed.

  (** the pairs of names that denote the same function of two bundles *)
  Lemma exts_fnames (R R0 : vmap) : forall B1 B2 a b,
    aeq_funs R B1 B2 -> length (fnames B1) = length (fnames B2) ->
    exts (fnames B1) (fnames B2) R0 a b ->
    (In a (fnames B1) /\ In b (fnames B2) /\
     exists t xs1 e1 xs2 e2, find_def a B1 = Some (t, xs1, e1) /\
       find_def b B2 = Some (t, xs2, e2) /\ length xs1 = length xs2 /\ aeq (exts xs1 xs2 R) e1 e2) \/
    (~ In a (fnames B1) /\ ~ In b (fnames B2) /\ R0 a b).
  Proof.
    induction B1 as [f1 t1 xs1 e1 B1 IH|]; intros [f2 t2 xs2 e2 B2|] a b A L E; cbn in A, L, E; try tauto.
    - destruct A as (-> & A1 & A2 & A3). cbn [fnames find_def In].
      destruct E as [[-> ->]|(N1 & N2 & E)].
      + left. split; [auto|split; [auto|]]. exists t2, xs1, e1, xs2, e2.
        destruct (Pos.eq_dec f1 f1); [|congruence]. destruct (Pos.eq_dec f2 f2); [|congruence]. auto.
      + destruct (Pos.eq_dec a f1) as [|_]; [congruence|]. destruct (Pos.eq_dec b f2) as [|_]; [congruence|].
        destruct (IH B2 a b A3 ltac:(lia) E) as [(I1 & I2 & X)|(I1 & I2 & X)].
        * left. split; [auto|split; [auto|]]. exact X.
        * right. split; [|split; [|exact X]]; intros [|]; auto.
  Qed.

  Lemma aeq_sem :
    (forall e1 (R : vmap) e2 k rho1 rho2, aeq R e1 e2 ->
       (forall a b, R a b -> AR k rho1 a rho2 b) ->
       erel cenv VR PG k rho1 e1 rho2 e2) /\
    (forall B1 f t xs e1, find_def f B1 = Some (t, xs, e1) ->
       forall (R : vmap) e2 k rho1 rho2, aeq R e1 e2 ->
       (forall a b, R a b -> AR k rho1 a rho2 b) ->
       erel cenv VR PG k rho1 e1 rho2 e2).
  Proof.
    assert (ZO : PG false 0 0) by (apply SO).
    assert (MONO : forall (R : vmap) k j rho1 rho2, j <= k -> (forall a b, R a b -> AR k rho1 a rho2 b) ->
              (forall a b, R a b -> AR j rho1 a rho2 b)).
    { intros R k j rho1 rho2 J H a b E. eapply (arel_mono cenv PG k); eauto. }
    apply exp_fundefs_ind.
    - intros x t ys e IH R [] k rho1 rho2 H E; cbn in H; try tauto. destruct H as (<- & H2 & H3).
      apply erel_constr with (P := PG); auto.
      + eapply Forall2_impl'; [|exact H2]. auto.
      + intros j vs1 vs2 J F. eapply IH; [exact H3|]. apply ext_arel.
        * apply vrel_constr. auto.
        * apply (MONO R k); [lia|auto].
    - intros x l F R [] k rho1 rho2 H E; try (cbn in H; tauto). apply aeq_Ecase in H as [H1 H2].
      apply erel_case with (P := PG); auto.
      + unfold same_tags. clear -H2. induction H2 as [|? ? ? ? [K1 K2] K3]; cbn; congruence.
      + intros j t e1 J T. clear H1.
        assert (X : exists e2, findtag l0 t = Some e2 /\ aeq R e1 e2 /\ In (t, e1) l).
        { clear -H2 T. induction H2 as [|[t1 a1] [t2 a2] l l0 [K1 K2] K3 IHl]; cbn in *; [discriminate|].
          subst t2. destruct (Pos.eq_dec t1 t) as [->|].
          - injection T as <-. exists a2. auto.
          - destruct (IHl T) as (e2 & A1 & A2 & A3). exists e2. auto. }
        destruct X as (e2 & T2 & A2 & I2). exists e2. split; [exact T2|].
        rewrite Forall_forall in F. eapply (F _ I2); [exact A2|]. apply (MONO R k); [lia|auto].
    - intros x t n y e IH R [] k rho1 rho2 H E; cbn in H; try tauto. destruct H as (<- & <- & H3 & H4).
      apply erel_proj with (P := PG); auto.
      intros j v1 v2 J V. eapply IH; [exact H4|]. apply ext_arel; auto. apply (MONO R k); [lia|auto].
    - intros x f t ys e IH R [] k rho1 rho2 H E; cbn in H; try tauto. destruct H as (<- & H2 & H3 & H4).
      apply erel_letapp with (P := PG); auto.
      + eapply Forall2_impl'; [|exact H3]. auto.
      + intros j v1 v2 J V. eapply IH; [exact H4|]. apply ext_arel; auto. apply (MONO R k); [lia|auto].
    - intros B e IHB IHe R [] k rho1 rho2 H E; cbn in H; try tauto. destruct H as (H1 & H2 & H3).
      rename f into B2. apply erel_fun with (P := PG); auto.
      assert (CL : forall i, i <= k -> forall a b, exts (fnames B) (fnames B2) R a b ->
                AR i (def_funs B B rho1 rho1) a (def_funs B2 B2 rho2 rho2) b).
      { intro i. induction i as [i IHi] using lt_wf_ind. intros LE a b X.
        destruct (exts_fnames _ _ B B2 a b H2 H1 X)
          as [(I1 & I2 & t & xs1 & e1 & xs2 & e2 & F1 & F2 & LL & AQ)|(I1 & I2 & Rab)];
          intros v Gv; rewrite def_funs_get in Gv |- *.
        - destruct (in_dec Pos.eq_dec a (fnames B)); [|tauto].
          destruct (in_dec Pos.eq_dec b (fnames B2)); [|tauto]. injection Gv as <-.
          eexists. split; [reflexivity|]. apply vrel_fun.
          intros t0 xs0 eb0 vs1 rho1' vs2 F0 S L. rewrite F1 in F0. injection F0 as <- <- <-.
          assert (S' : length xs2 = length vs2).
          { rewrite <- L, <- LL. eapply set_lists_length; exact S. }
          destruct (set_lists_total xs2 vs2 (def_funs B2 B2 rho2 rho2) S') as [rho2' S2].
          exists xs2, e2, rho2'. split; [auto|split; [auto|]]. intros j J FV.
          eapply IHB; [exact F1|exact AQ|]. eapply exts_arel; [exact S|exact S2|exact FV|].
          intros a' b' X'. apply IHi; [lia|lia|exact X'].
        - destruct (in_dec Pos.eq_dec a (fnames B)); [tauto|].
          destruct (in_dec Pos.eq_dec b (fnames B2)); [tauto|].
          apply (MONO R k i rho1 rho2 LE E a b Rab v Gv). }
      intros j J. eapply IHe; [exact H3|]. apply CL. lia.
    - intros f t ys R [] k rho1 rho2 H E; cbn in H; try tauto. destruct H as (<- & H2 & H3).
      apply erel_app; auto. eapply Forall2_impl'; [|exact H3]. auto.
    - intros x p e IH R [] k rho1 rho2 H E c1 r1 C B; cbn in H; try tauto.
      inversion B as [? ? ? C0|? ? ? ? C0]; subst; [|inversion C0].
      exists 0, OOT. split; [apply bstep_fuel_zero|]. split; [|exact I].
      replace c1 with 0 by lia. exact ZO.
    - intros x p ys e IH R [] k rho1 rho2 H E c1 r1 C B; cbn in H; try tauto.
      inversion B as [? ? ? C0|? ? ? ? C0]; subst; [|inversion C0].
      exists 0, OOT. split; [apply bstep_fuel_zero|]. split; [|exact I].
      replace c1 with 0 by lia. exact ZO.
    - intros x R [] k rho1 rho2 H E; cbn in H; try tauto. apply erel_halt; auto.
    - intros f t xs e B IHe IHB g t' xs' e' F. cbn [find_def] in F.
      destruct (Pos.eq_dec g f); [injection F as <- <- <-; exact IHe|eauto].
    - intros f t xs e F. discriminate F.
  Qed.
End Sem.

(** ** Renaming gives an equal program up to names *)
Lemma get_mremove A x y (m : tmap A) : get x (mremove y m) = if Pos.eq_dec x y then None else get x m.
Proof.
  induction m as [|[z v] m IH]; cbn [mremove filter get].
  - destruct (Pos.eq_dec x y); reflexivity.
  - cbn [fst]. destruct (Pos.eq_dec y z) as [->|N].
    + fold (mremove z m). rewrite IH. destruct (Pos.eq_dec x z); reflexivity.
    + cbn [get]. fold (mremove y m). rewrite IH. destruct (Pos.eq_dec x z), (Pos.eq_dec x y); congruence.
Qed.

Lemma get_remove_all x : forall xs (m : subst), get x (remove_all m xs) = if in_dec Pos.eq_dec x xs then None else get x m.
Proof.
  induction xs as [|y xs IH]; intro m; cbn [remove_all].
  - destruct (in_dec Pos.eq_dec x []) as [[]|]; reflexivity.
  - rewrite get_mremove, IH. destruct (Pos.eq_dec x y) as [->|N].
    + destruct (in_dec Pos.eq_dec y (y :: xs)) as [|K]; [reflexivity|]. destruct K. left. auto.
    + destruct (in_dec Pos.eq_dec x xs) as [K|K], (in_dec Pos.eq_dec x (y :: xs)) as [K'|K']; auto.
      * destruct K'. right. auto.
      * destruct K'; [congruence|tauto].
Qed.

Lemma all_fun_name_fnames B : all_fun_name B = fnames B.
Proof. induction B; cbn; congruence. Qed.

Lemma rename_all_fun_fnames sg B : fnames (rename_all_fun sg B) = fnames B.
Proof. induction B; cbn; congruence. Qed.

(** the graph of a renaming, on some variables *)
Definition graph (P : var -> Prop) (sg : subst) : vmap := fun a b => P a /\ b = apply_r sg a.

Lemma exts_same_in xs : forall (R : vmap) a, In a xs -> exts xs xs R a a.
Proof.
  induction xs as [|x xs IH]; intros R a I; cbn; [destruct I|].
  unfold ext. destruct (Pos.eq_dec a x) as [->|N]; [auto|]. right. split; [auto|split; [auto|]].
  apply IH. destruct I; [congruence|auto].
Qed.

Lemma exts_same_out xs : forall (R : vmap) a b, ~ In a xs -> ~ In b xs -> R a b -> exts xs xs R a b.
Proof.
  induction xs as [|x xs IH]; intros R a b I J H; cbn; [auto|].
  unfold ext. right. split; [|split]; [intro; subst; apply I; left; auto|intro; subst; apply J; left; auto|].
  apply IH; auto; intro K; [apply I|apply J]; right; auto.
Qed.

Lemma rename_aeq :
  (forall e sg (P : var -> Prop),
     (forall x, free x e -> P x) ->
     (forall x y, free x e -> get x sg = Some y -> ~ In y (bv e)) ->
     aeq (graph P sg) e (rename_all sg e)) /\
  (forall B sg (P : var -> Prop),
     (forall x, free_body x B -> P x) ->
     (forall x y, free_body x B -> get x sg = Some y -> ~ In y (bv_funs B)) ->
     aeq_funs (graph P sg) B (rename_all_fun sg B)).
Proof.
  assert (L : forall sg (P : var -> Prop) ys, (forall y, In y ys -> P y) ->
              Forall2 (graph P sg) ys (apply_r_list sg ys)).
  { intros sg P ys H. unfold apply_r_list. induction ys as [|y ys IH]; cbn; constructor.
    - split; auto. apply H. left; auto.
    - apply IH. intros; apply H; right; auto. }
  assert (X : forall sg x (P Q : var -> Prop) e e', (forall a, Q a -> free a e) -> 
    (forall a, free a e -> a <> x -> P a) ->
    (forall a y, free a e -> a <> x -> get a sg = Some y -> y <> x) ->
    aeq (graph Q (mremove x sg)) e e' -> aeq (ext x x (graph P sg)) e e').
  { intros sg x P Q e e' HQ HP HC. apply (proj1 aeq_mono). intros a b [Qa ->].
    unfold ext, graph, apply_r. rewrite get_mremove. destruct (Pos.eq_dec a x) as [->|N]; [auto|].
    right. split; [auto|]. specialize (HQ _ Qa). split; [|split; auto].
    destruct (get a sg) eqn:E; auto. eapply HC; eauto. }
  assert (XS : forall sg xs (P Q : var -> Prop) e e', (forall a, Q a -> free a e) -> 
    (forall a, free a e -> ~ In a xs -> P a) ->
    (forall a y, free a e -> ~ In a xs -> get a sg = Some y -> ~ In y xs) ->
    aeq (graph Q (remove_all sg xs)) e e' -> aeq (exts xs xs (graph P sg)) e e').
  { intros sg xs P Q e e' HQ HP HC. apply (proj1 aeq_mono). intros a b [Qa ->].
    specialize (HQ _ Qa). unfold apply_r. rewrite get_remove_all.
    destruct (in_dec Pos.eq_dec a xs) as [I|N]; [apply exts_same_in; auto|].
    destruct (get a sg) eqn:E.
    - apply exts_same_out; auto. { eapply HC; eauto. } split; auto. unfold apply_r. rewrite E. auto.
    - apply exts_same_out; auto. split; auto. unfold apply_r. rewrite E. auto. }
  assert (ONE : forall e x sg (P : var -> Prop), 
     (forall sg (P : var -> Prop),
       (forall x, free x e -> P x) ->
       (forall x y, free x e -> get x sg = Some y -> ~ In y (bv e)) ->
       aeq (graph P sg) e (rename_all sg e)) ->
     (forall a, free a e -> a <> x -> P a) ->
     (forall a y, a <> x -> free a e -> get a sg = Some y -> ~ (x = y \/ In y (bv e))) ->
     aeq (ext x x (graph P sg)) e (rename_all (mremove x sg) e)).
  { intros e x sg P IH HP C. apply (X sg x P (fun a => free a e)); auto.
    - intros a y Fa Na Ga E. apply (C a y Na Fa Ga). auto.
    - apply IH; auto. intros a y Fa Ga. rewrite get_mremove in Ga.
      destruct (Pos.eq_dec a x); [discriminate|]. intro I. eapply C; eauto. }
  apply exp_fundefs_ind.
  - intros x t ys e IH sg P HP C. cbn [rename_all aeq bv free] in *.
    split; [auto|split]; [apply L; intros; apply HP; auto|].
    apply ONE; auto. intros a y Na Fa Ga [K|K]; apply (C a y); cbn; auto.
  - intros x l F sg P HP C. cbn [rename_all]. apply aeq_Ecase.
    split; [split; auto; apply HP; apply free_Ecase; auto|].
    assert (HP' : forall a, free_case a l -> P a) by (intros; apply HP; apply free_Ecase; auto).
    assert (C' : forall a y, free_case a l -> get a sg = Some y -> ~ In y (flat_map (fun p => bv (snd p)) l)).
    { intros a y Fa. apply C. apply free_Ecase. auto. }
    clear HP C. unfold aeq_cl. induction F as [|[t e] l Hp F IHl]; cbn [List.map]; constructor.
    + cbn [fst snd] in *. split; auto. apply Hp.
      * intros a Fa. apply HP'. left. exact Fa.
      * intros a y Fa Ga I. apply (C' a y); [left; exact Fa|auto|]. cbn. apply in_or_app. auto.
    + apply IHl.
      * intros a Fa. apply HP'. right. exact Fa.
      * intros a y Fa Ga I. apply (C' a y); [right; exact Fa|auto|]. cbn. apply in_or_app. auto.
  - intros x t n y e IH sg P HP C. cbn [rename_all aeq bv free] in *.
    split; [auto|split; [auto|split]]; [split; auto|].
    apply ONE; auto. intros a z Na Fa Ga [K|K]; apply (C a z); cbn; auto.
  - intros x f t ys e IH sg P HP C. cbn [rename_all aeq bv free] in *.
    split; [auto|split; [split; auto|split]]; [apply L; intros; apply HP; auto|].
    apply ONE; auto. intros a z Na Fa Ga [K|K]; apply (C a z); cbn; auto.
  - intros B e IHB IHe sg P HP C. cbn [rename_all aeq bv free] in *.
    change (all_fun_name B) with (fnames B). rewrite rename_all_fun_fnames.
    assert (BV : forall f, In f (fnames B) -> In f (bv_funs B)).
    { clear. induction B as [g t xs b B IH|]; cbn; [|tauto]. intros f [->|I]; [auto|right].
      apply in_or_app. right. apply in_or_app. right. auto. }
    split; [auto|split].
    + assert (Z : aeq_funs (graph (fun a => free_body a B) (remove_all sg (fnames B))) B
                   (rename_all_fun (remove_all sg (fnames B)) B)).
      { apply IHB; auto. intros a y Fa Ga I. rewrite get_remove_all in Ga.
        destruct (in_dec Pos.eq_dec a (fnames B)); [discriminate|].
        apply (C a y); [auto|auto|apply in_or_app; auto]. }
      revert Z. apply (proj2 aeq_mono). intros a b [Fa ->].
      unfold apply_r. rewrite get_remove_all.
      destruct (in_dec Pos.eq_dec a (fnames B)) as [I|N]; [apply exts_same_in; auto|].
      destruct (get a sg) eqn:E.
      * apply exts_same_out; auto. { intro K. apply (C a v); auto. apply in_or_app. auto. }
        split; auto. unfold apply_r. rewrite E. auto.
      * apply exts_same_out; auto. split; auto. unfold apply_r. rewrite E. auto.
    + apply (XS sg (fnames B) P (fun a => free a e)); auto.
      * intros a y Fa Na Ga I. apply (C a y); auto. apply in_or_app. auto.
      * apply IHe; auto. intros a y Fa Ga I. rewrite get_remove_all in Ga.
        destruct (in_dec Pos.eq_dec a (fnames B)); [discriminate|].
        apply (C a y); [auto|auto|apply in_or_app; auto].
  - intros f t ys sg P HP C. cbn [rename_all aeq free] in *.
    split; [auto|split; [split; auto|]]. apply L. auto.
  - intros x p e IH sg P HP C. cbn [rename_all aeq bv free] in *. split; auto.
    apply ONE; auto. intros a z Na Fa Ga [K|K]; apply (C a z); cbn; auto.
  - intros x p ys e IH sg P HP C. cbn [rename_all aeq bv free] in *.
    split; [auto|split]; [apply L; intros; apply HP; auto|].
    apply ONE; auto. intros a y Na Fa Ga [K|K]; apply (C a y); cbn; auto.
  - intros x sg P HP C. cbn. split; auto. apply HP. reflexivity.
  - intros f t xs e B IHe IHB sg P HP C. cbn [rename_all_fun aeq_funs free_body bv_funs] in *.
    split; [auto|split; [auto|split]].
    + apply (XS sg xs P (fun a => free a e)); auto.
      * intros a y Fa Na Ga I. apply (C a y); auto. right. apply in_or_app. auto.
      * apply IHe; auto. intros a y Fa Ga I. rewrite get_remove_all in Ga.
        destruct (in_dec Pos.eq_dec a xs); [discriminate|].
        apply (C a y); [auto|auto|]. right. apply in_or_app. right. apply in_or_app. auto.
    + apply IHB; auto. intros a y Fa Ga I. apply (C a y); [auto|auto|].
      right. apply in_or_app. right. apply in_or_app. auto.
  - intros sg P HP C. cbn. auto.
Qed.
