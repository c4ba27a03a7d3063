(** Proofs: three definitions of subterms agree; rewriting in contexts. *)
From Coq Require Import NArith List Relations Lia.
From Verif Require Import ANF_Syntax ANF_Subst AN_Model RW_Model RW_Spec.
Import ListNotations.

Scheme exp_ctx_mind := Induction for exp_ctx Sort Prop
with fundefs_ctx_mind := Induction for fundefs_ctx Sort Prop.
Combined Scheme ctx_mind from exp_ctx_mind, fundefs_ctx_mind.

Scheme app_ctx_mind := Minimality for app_ctx Sort Prop
with app_f_ctx_mind := Minimality for app_f_ctx Sort Prop.
Combined Scheme app_mind from app_ctx_mind, app_f_ctx_mind.

Scheme somewhere_mind := Minimality for somewhere Sort Prop
with in_branches_mind := Minimality for in_branches Sort Prop
with in_functions_mind := Minimality for in_functions Sort Prop.
Combined Scheme some_mind from somewhere_mind, in_branches_mind, in_functions_mind.

Scheme dsub_mind := Minimality for dsubterm_e Sort Prop
with dsubf_mind := Minimality for dsubterm_fds_e Sort Prop.

(** ** Contexts *)

Lemma app_iff :
  (forall c e e', app_ctx c e e' <-> e' = app_ctx_f c e) /\
  (forall c e B, app_f_ctx c e B <-> B = app_f_ctx_f c e).
Proof.
  assert (A : (forall c e e', app_ctx c e e' -> e' = app_ctx_f c e) /\
              (forall c e B, app_f_ctx c e B -> B = app_f_ctx_f c e)).
  { apply app_mind; intros; cbn; congruence. }
  assert (B : (forall c e, app_ctx c e (app_ctx_f c e)) /\ (forall c e, app_f_ctx c e (app_f_ctx_f c e))).
  { apply ctx_mind; intros; cbn; constructor; auto. }
  split; intros; (split; [apply A|intros ->; apply B]).
Qed.

Lemma fuse :
  (forall c1 c2 e, app_ctx_f c1 (app_ctx_f c2 e) = app_ctx_f (comp_ctx_f c1 c2) e) /\
  (forall c1 c2 e, app_f_ctx_f c1 (app_ctx_f c2 e) = app_f_ctx_f (comp_f_ctx_f c1 c2) e).
Proof. apply ctx_mind; intros; cbn; congruence. Qed.

Lemma assoc :
  (forall c1 c2 c3, comp_ctx_f (comp_ctx_f c1 c2) c3 = comp_ctx_f c1 (comp_ctx_f c2 c3)) /\
  (forall c1 c2 c3, comp_f_ctx_f (comp_f_ctx_f c1 c2) c3 = comp_f_ctx_f c1 (comp_ctx_f c2 c3)).
Proof. apply ctx_mind; intros; cbn; congruence. Qed.

Lemma comp_hole c1 c2 : comp_ctx_f c1 c2 = Hole_c -> c1 = Hole_c /\ c2 = Hole_c.
Proof. destruct c1; cbn; intro H; try discriminate. auto. Qed.

(** ** Subterms *)

Lemma below_case x l e' : In e' (below (Ecase x l)) <-> exists t e, In (t, e) l /\ In e' (e :: below e).
Proof.
  cbn [below]. induction l as [|[t e] l IH].
  - split; [intros []|intros (t & e & [] & _)].
  - rewrite in_app_iff, IH. split.
    + intros [H|(t' & e1 & I & H)]; [exists t, e|exists t', e1]; cbn; auto.
    + intros (t' & e1 & [E|I] & H); [injection E as <- <-; auto|right; eauto].
Qed.

Lemma ctx_below :
  (forall c e, In e (app_ctx_f c e :: below (app_ctx_f c e)) /\ (c <> Hole_c -> In e (below (app_ctx_f c e)))) /\
  (forall c e, In e (below_funs (app_f_ctx_f c e))).
Proof.
  apply ctx_mind; intros.
  1: { split; [left; reflexivity|congruence]. }
  all: try (match goal with |- ?A /\ (_ -> ?B) => enough (K : B) by (split; [right; exact K|auto]) end).
  all: try (cbn [app_ctx_f below]; apply H).
  - change (app_ctx_f (Ecase_c v l c e l0) e0) with (Ecase v (l ++ (c, app_ctx_f e e0) :: l0)).
    apply below_case. exists c, (app_ctx_f e e0). split; [apply in_or_app; right; left; reflexivity|apply H].
  - cbn [app_ctx_f below]. apply in_or_app. right. apply H.
  - cbn [app_ctx_f below]. apply in_or_app. left. apply H.
  - cbn [app_f_ctx_f below_funs]. apply in_or_app. left. apply H.
  - cbn [app_f_ctx_f below_funs]. apply in_or_app. right. apply H.
Qed.

Lemma below_ctx :
  (forall e e', In e' (below e) -> exists c, c <> Hole_c /\ e = app_ctx_f c e') /\
  (forall B e', In e' (below_funs B) -> exists c, B = app_f_ctx_f c e').
Proof.
  assert (OR : forall e e', (In e' (below e) -> exists c, c <> Hole_c /\ e = app_ctx_f c e') ->
    In e' (e :: below e) -> exists c, e = app_ctx_f c e').
  { intros e e' H [<-|I]; [exists Hole_c; reflexivity|]. destruct (H I) as (c & _ & E). eauto. }
  apply exp_fundefs_ind.
  - intros x t ys e H e' I. destruct (OR e e' (H e') I) as (c & ->).
    exists (Econstr_c x t ys c). split; [discriminate|reflexivity].
  - intros x l H e' I. apply below_case in I as (t & e & I & J). rewrite Forall_forall in H.
    destruct (OR e e' (H (t, e) I e') J) as (c & ->). apply in_split in I as (l1 & l2 & ->).
    exists (Ecase_c x l1 t c l2). split; [discriminate|reflexivity].
  - intros x t n y e H e' I. destruct (OR e e' (H e') I) as (c & ->).
    exists (Eproj_c x t n y c). split; [discriminate|reflexivity].
  - intros x f t ys e H e' I. destruct (OR e e' (H e') I) as (c & ->).
    exists (Eletapp_c x f t ys c). split; [discriminate|reflexivity].
  - intros B e HB H e' I. cbn [below] in I. apply in_app_or in I as [I|I].
    + destruct (HB e' I) as (c & ->). exists (Efun2_c c e). split; [discriminate|reflexivity].
    + destruct (OR e e' (H e') I) as (c & ->). exists (Efun1_c B c). split; [discriminate|reflexivity].
  - intros f t ys e' [].
  - intros x p e H e' I. destruct (OR e e' (H e') I) as (c & ->).
    exists (Eprim_val_c x p c). split; [discriminate|reflexivity].
  - intros x p ys e H e' I. destruct (OR e e' (H e') I) as (c & ->).
    exists (Eprim_c x p ys c). split; [discriminate|reflexivity].
  - intros x e' [].
  - intros f t xs e B H HB e' I. cbn [below_funs] in I. apply in_app_or in I as [I|I].
    + destruct (OR e e' (H e') I) as (c & ->). exists (Fcons1_c f t xs c B). reflexivity.
    + destruct (HB e' I) as (c & ->). exists (Fcons2_c f t xs e c). reflexivity.
  - intros e' [].
Qed.

Lemma below_iff_ctx e' e : In e' (below e) <-> subterm_e' e' e.
Proof.
  split.
  - intro I. destruct (proj1 below_ctx e e' I) as (c & N & E). exists c. split; [congruence|]. apply app_iff. exact E.
  - intros (c & N & A). apply app_iff in A as ->. apply (proj1 ctx_below). congruence.
Qed.

Lemma dsub_below :
  (forall e' e, dsubterm_e e' e -> In e' (below e)).
Proof.
  refine (dsub_mind (fun e' e => In e' (below e)) (fun e' B => In e' (below_funs B)) _ _ _ _ _ _ _ _ _ _);
    intros; try (left; reflexivity).
  - apply below_case. exists g, e. split; [assumption|left; reflexivity].
  - cbn [below]. apply in_or_app. left. assumption.
  - cbn [below]. apply in_or_app. right. left. reflexivity.
  - cbn [below_funs]. apply in_or_app. right. assumption.
Qed.

Lemma below_trans e1 e2 e3 : In e1 (below e2) -> In e2 (below e3) -> In e1 (below e3).
Proof.
  intros I J. destruct (proj1 below_ctx _ _ I) as (c & N & ->). destruct (proj1 below_ctx _ _ J) as (c' & N' & ->).
  rewrite (proj1 fuse). apply (proj1 ctx_below). intro H. apply comp_hole in H as [H _]. contradiction.
Qed.

Lemma ctx_sub :
  (forall c e, subterm_or_eq e (app_ctx_f c e)) /\
  (forall c e, exists b, dsubterm_fds_e b (app_f_ctx_f c e) /\ subterm_or_eq e b).
Proof.
  apply ctx_mind; intros; cbn [app_ctx_f app_f_ctx_f];
    try (eapply rt_trans; [apply H|]; apply rt_step; constructor; fail).
  - apply rt_refl.
  - eapply rt_trans; [apply H|]. apply rt_step. apply (dsubterm_case _ _ c). apply in_or_app. right. left. reflexivity.
  - destruct (H e0) as (b & D & S). eapply rt_trans; [exact S|]. apply rt_step. constructor. exact D.
  - eexists. split; [constructor|apply H].
  - destruct (H e0) as (b & D & S). exists b. split; [constructor; exact D|exact S].
Qed.

Lemma rt_t e' e : subterm_or_eq e' e -> e' = e \/ subterm_e e' e.
Proof.
  induction 1 as [x y H|x|x y z H1 IH1 H2 IH2].
  - right. apply t_step. exact H.
  - left. reflexivity.
  - destruct IH1 as [->|A], IH2 as [->|B]; auto. right. eapply t_trans; eassumption.
Qed.

Lemma case_len x t e l2 l1 : S (length (below e)) <= length (below (Ecase x (l1 ++ (t, e) :: l2))).
Proof.
  induction l1 as [|[t1 e1] l1 IH].
  - cbn [app below length]. rewrite app_length. lia.
  - change (below (Ecase x (((t1, e1) :: l1) ++ (t, e) :: l2)))
      with ((e1 :: below e1) ++ below (Ecase x (l1 ++ (t, e) :: l2))).
    rewrite app_length. lia.
Qed.

(** a number that is smaller for proper subterms *)
Lemma below_len :
  (forall e e', In e' (below e) -> length (below e') < length (below e)).
Proof.
  intros e e' I. destruct (proj1 below_ctx e e' I) as (c & N & ->). clear I.
  assert (K : (forall c, (c = Hole_c \/ forall e, length (below e) < length (below (app_ctx_f c e)))) /\
              (forall c e, length (below e) < length (below_funs (app_f_ctx_f c e)))).
  { clear c N e'.
    assert (LE : forall c, (c = Hole_c \/ forall e, length (below e) < length (below (app_ctx_f c e))) ->
      forall e, length (below e) <= length (below (app_ctx_f c e))).
    { intros c [->|H] e; [apply le_n|]. specialize (H e). lia. }
    apply ctx_mind; intros; try (left; reflexivity); try (right; intro e0);
      try (pose proof (LE _ H e0) as L);
      try (match goal with |- context [Ecase_c ?x ?l1 ?t ?c ?l2] =>
        pose proof (case_len x t (app_ctx_f c e0) l2 l1); cbn [app_ctx_f]; lia end);
      cbn [app_ctx_f app_f_ctx_f below below_funs length];
      rewrite ?app_length; cbn [length]; try lia.
    - specialize (H e0). lia.
    - specialize (H e0). lia. }
  destruct (proj1 K c) as [H|H]; [contradiction|apply H].
Qed.

(** ** Rewriting *)

Lemma some_ctx R :
  (forall e e', somewhere R e e' -> compat_closure R e e') /\
  (forall l l', in_branches R l l' -> exists l1 t c l2 a a', R a a' /\
      l = l1 ++ (t, app_ctx_f c a) :: l2 /\ l' = l1 ++ (t, app_ctx_f c a') :: l2) /\
  (forall B B', in_functions R B B' -> exists c a a', R a a' /\ B = app_f_ctx_f c a /\ B' = app_f_ctx_f c a').
Proof.
  apply some_mind; intros.
  - exact (Compat R _ _ Hole_c H).
  - destruct H0. exact (Compat R _ _ (Econstr_c x t ys c) H0).
  - destruct H0. exact (Compat R _ _ (Eproj_c x t n y c) H0).
  - destruct H0. exact (Compat R _ _ (Eletapp_c x f t ys c) H0).
  - destruct H0. exact (Compat R _ _ (Eprim_val_c x p c) H0).
  - destruct H0. exact (Compat R _ _ (Eprim_c x p ys c) H0).
  - destruct H0 as (l1 & t & c & l2 & a & a' & r & -> & ->). exact (Compat R _ _ (Ecase_c x l1 t c l2) r).
  - destruct H0. exact (Compat R _ _ (Efun1_c B c) H0).
  - destruct H0 as (c & a & a' & r & -> & ->). exact (Compat R _ _ (Efun2_c c e) r).
  - destruct H0 as [a a' c r]. exists [], t, c, l, a, a'. auto.
  - destruct H0 as (l1 & t & c & l2 & a & a' & r & -> & ->). exists (b :: l1), t, c, l2, a, a'. auto.
  - destruct H0 as [a a' c r]. exists (Fcons1_c f t xs c B), a, a'. auto.
  - destruct H0 as (c & a & a' & r & -> & ->). exists (Fcons2_c f t xs e c), a, a'. auto.
Qed.

Lemma ctx_some R :
  (forall c e e', somewhere R e e' -> somewhere R (app_ctx_f c e) (app_ctx_f c e')) /\
  (forall c e e', somewhere R e e' -> in_functions R (app_f_ctx_f c e) (app_f_ctx_f c e')).
Proof.
  apply ctx_mind; intros; cbn [app_ctx_f app_f_ctx_f].
  - assumption.
  - apply in_constr. auto.
  - apply in_proj. auto.
  - apply in_prim_val. auto.
  - apply in_prim. auto.
  - apply in_letapp. auto.
  - apply in_case. induction l as [|b l IH]; cbn; constructor; auto.
  - apply in_rest. auto.
  - apply in_block. auto.
  - apply first_function. auto.
  - apply later_function. auto.
Qed.

Lemma closure_app R n m e1 e3 :
  refl_trans_closure_n R (n + m) e1 e3 <->
  exists e2, refl_trans_closure_n R n e1 e2 /\ refl_trans_closure_n R m e2 e3.
Proof.
  split.
  - revert e1. induction n as [|n IH]; intros e1 H; cbn in H.
    + exists e1. split; [constructor|exact H].
    + inversion H as [? ? e2 ? r H'|]; subst. destruct (IH _ H') as (e & A & B).
      exists e. split; [econstructor; eassumption|exact B].
  - intros (e2 & A & B). induction A; cbn; [econstructor; eauto|exact B].
Qed.

Lemma split_ctx :
  (forall c1 c2 c3 c4, comp_ctx_f c1 c2 = comp_ctx_f c3 c4 ->
     (exists d, c4 = comp_ctx_f d c2 /\ c1 = comp_ctx_f c3 d) \/
     (exists d, c3 = comp_ctx_f c1 d /\ c2 = comp_ctx_f d c4)) /\
  (forall f1 c2 f3 c4, comp_f_ctx_f f1 c2 = comp_f_ctx_f f3 c4 ->
     (exists d, c4 = comp_ctx_f d c2 /\ f1 = comp_f_ctx_f f3 d) \/
     (exists d, f3 = comp_f_ctx_f f1 d /\ c2 = comp_ctx_f d c4)).
Proof.
  apply ctx_mind.
  1: { intros c2 c3 c4 H. right. exists c3. auto. }
  all: intros;
    match goal with
    | H0 : _ = comp_ctx_f ?c3 _ |- _ => destruct c3; cbn in H0; try discriminate;
        [left; eexists; split; [|cbn; reflexivity]; symmetry; exact H0|]
    | H0 : _ = comp_f_ctx_f ?c3 _ |- _ => destruct c3; cbn in H0; try discriminate
    end;
    match goal with H0 : _ = _ |- _ => injection H0; intros; subst end;
    match goal with
    | IH : forall c2 c3 c4, comp_ctx_f ?a c2 = _ -> _, E : comp_ctx_f ?a _ = _ |- _ =>
      destruct (IH _ _ _ E) as [(d & -> & ->)|(d & -> & ->)]; [left|right]; exists d; split; reflexivity
    | IH : forall c2 c3 c4, comp_f_ctx_f ?a c2 = _ -> _, E : comp_f_ctx_f ?a _ = _ |- _ =>
      destruct (IH _ _ _ E) as [(d & -> & ->)|(d & -> & ->)]; [left|right]; exists d; split; reflexivity
    end.
Qed.

Lemma commute R (R' : exp -> exp -> Prop) (I : exp -> Prop) n e1 e2 :
  Invariant R I ->
  (forall a b a', I a -> R' a a' -> R a b -> exists b', R a' b' /\ R' b b') ->
  refl_trans_closure_n R n e1 e2 -> forall e1', I e1 -> R' e1 e1' ->
  exists e2', R' e2 e2' /\ refl_trans_closure_n R n e1' e2'.
Proof.
  intros INV C H. induction H as [n a b d r _ IH|a]; intros a' i r'.
  - destruct (C a b a' i r' r) as (b' & rb & r2). destruct (IH b' (INV a b i r) r2) as (d' & rd & S).
    exists d'. split; [exact rd|econstructor; eassumption].
  - exists a'. split; [exact r'|constructor].
Qed.
