(** C99: subterms, contexts and rewriting in contexts. *)
From Coq Require Import NArith List Relations Lia.
From Verif Require Import ANF_Syntax ANF_Subst AN_Model RW_Model RW_Spec RW_Proofs.
Import ListNotations.

(** The two ways of filling a context agree; filling twice is filling the composition, which is
    associative. *)
Theorem C99_context :
  (forall c e e', app_ctx c e e' <-> e' = app_ctx_f c e) /\
  (forall c1 c2 e, app_ctx_f c1 (app_ctx_f c2 e) = app_ctx_f (comp_ctx_f c1 c2) e) /\
  (forall c1 c2 c3, comp_ctx_f (comp_ctx_f c1 c2) c3 = comp_ctx_f c1 (comp_ctx_f c2 c3)).
Proof. split; [exact (proj1 app_iff)|]. split; [exact (proj1 fuse)|exact (proj1 assoc)]. Qed.

(** a hole in the body of a function in a branch *)
Definition C0 : exp_ctx :=
  (Ecase_c 1 [(1, Ehalt 1)] 2 (Efun2_c (Fcons2_c 5 1 [6] (Ehalt 6) (Fcons1_c 7 1 [8] Hole_c Fnil)) (Ehalt 5)) [])%positive.
Example C99_context_example :
  app_ctx C0 (Ehalt 8)%positive
    (Ecase 1 [(1, Ehalt 1); (2, Efun (Fcons 5 1 [6] (Ehalt 6) (Fcons 7 1 [8] (Ehalt 8) Fnil)) (Ehalt 5))])%positive.
Proof. apply app_iff. reflexivity. Qed.

(** The definitions of subterms by steps, by contexts and by listing all of them agree; being a proper
    subterm is well-founded, so nothing is a proper subterm of itself. *)
Theorem C99_subterm : forall e' e,
  (subterm_e e' e <-> In e' (below e)) /\ (subterm_e' e' e <-> In e' (below e)) /\
  (subterm_or_eq e' e <-> e' = e \/ In e' (below e)) /\ (subterm_or_eq' e' e <-> e' = e \/ In e' (below e)) /\
  (subterm_e e' e -> length (below e') < length (below e)) /\ ~ subterm_e e e.
Proof.
  intros e' e.
  assert (A : forall a b, subterm_e a b <-> In a (below b)).
  { intros a b. split.
    - induction 1 as [x y H|x y z _ IH1 _ IH2]; [apply dsub_below, H|eapply below_trans; eassumption].
    - intro I. destruct (proj1 below_ctx b a I) as (c & N & E).
      destruct (rt_t a b) as [<-|S]; [rewrite E; apply (proj1 ctx_sub)| |exact S].
      apply below_len in I. lia. }
  assert (L : forall a b, subterm_e a b -> length (below a) < length (below b)).
  { intros a b H. apply below_len, A, H. }
  split; [apply A|]. split; [symmetry; apply below_iff_ctx|]. split; [|split; [|split; [apply L|]]].
  - split.
    + intro H. apply rt_t in H as [->|H]; [auto|right; apply A, H].
    + intros [->|H]; [apply rt_refl|]. destruct (proj1 below_ctx _ _ H) as (c & _ & ->). apply (proj1 ctx_sub).
  - split.
    + intros (c & H). apply app_iff in H as ->. destruct (proj1 (proj1 ctx_below c e')) as [H|H]; auto.
    + intros [->|H]; [exists Hole_c; constructor|]. apply below_iff_ctx in H as (c & _ & H). exists c. exact H.
  - intro H. apply L in H. lia.
Qed.

Example C99_subterm_example :
  below (Ecase 1 [(1, Ehalt 1); (2, Efun (Fcons 7 1 [8] (Ehalt 8) Fnil) (Ehalt 5))])%positive =
  [Ehalt 1; Efun (Fcons 7 1 [8] (Ehalt 8) Fnil) (Ehalt 5); Ehalt 8; Ehalt 5]%positive.
Proof. reflexivity. Qed.

(** The relation [subterm_fds_e] between programs and blocks leaves out the bodies of the functions:
    it holds exactly for the proper subterms of the bodies. *)
Theorem C99_block : forall B e',
  subterm_fds_e e' B <-> exists e, dsubterm_fds_e e B /\ In e' (below e).
Proof.
  intros B e'. split.
  - induction 1 as [e e' f t ys B H|e' B f t ys e _ (b & D & I)].
    + exists e. split; [constructor|]. exact (proj1 (proj1 (C99_subterm _ _)) H).
    + exists b. split; [constructor; exact D|exact I].
  - intros (e & D & I). induction D as [e f t ys B|e B f t ys e1 D IH].
    + constructor. exact (proj2 (proj1 (C99_subterm _ _)) I).
    + apply subterm_cons_fds. auto.
Qed.

Theorem C99_block_refuted : exists B e, dsubterm_fds_e e B /\ ~ subterm_fds_e e B.
Proof.
  exists (Fcons 1 1 [2] (Ehalt 2) Fnil)%positive, (Ehalt 2)%positive. split; [constructor|].
  intro H. apply C99_block in H as (e & D & I).
  inversion D as [|? ? ? ? ? ? D']; subst; [exact I|inversion D'].
Qed.

Example C99_block_example :
  subterm_fds_e (Ehalt 3)%positive (Fcons 1 1 [2] (Econstr 3 1 [] (Ehalt 3)) Fnil)%positive.
Proof. apply C99_block. eexists. split; [constructor|left; reflexivity]. Qed.

(** Rewriting under a context is rewriting one subterm somewhere; it is the least relation that contains
    the rule and is kept by all contexts; and it keeps what holds of all subterms and of rewritten ones. *)
Theorem C99_rewrite : forall R : exp -> exp -> Prop,
  (forall e e', compat_closure R e e' <-> somewhere R e e') /\
  (forall e e', compat_closure R e e' <->
     forall R' : exp -> exp -> Prop, (forall a b, R a b -> R' a b) -> Compatible R' -> R' e e') /\
  Compatible (compat_closure R).
Proof.
  intro R.
  assert (K : Compatible (compat_closure R)).
  { intros e1 e2 c [a a' c' r]. rewrite !(proj1 fuse). constructor. exact r. }
  split; [|split; [|exact K]]; intros e e'.
  - split; [|apply some_ctx]. intros [a a' c r]. apply (proj1 (ctx_some R)). apply here. exact r.
  - split.
    + intros [a a' c r] R' I C. apply C, I, r.
    + intro H. apply H; [|exact K]. intros a b r. exact (Compat R a b Hole_c r).
Qed.

(** the rule that drops an unused constructor, used in the context above *)
Definition drop : exp -> exp -> Prop :=
  fun a b => exists x t ys y, a = Econstr x t ys (Ehalt y) /\ x <> y /\ b = Ehalt y.
Example C99_rewrite_example :
  compat_closure drop (app_ctx_f C0 (Econstr 9 1 [8] (Ehalt 8))%positive) (app_ctx_f C0 (Ehalt 8)%positive) /\
  ~ drop (app_ctx_f C0 (Econstr 9 1 [8] (Ehalt 8))%positive) (app_ctx_f C0 (Ehalt 8)%positive).
Proof.
  split.
  - constructor. exists 9%positive, 1%positive, [8%positive], 8%positive. split; [reflexivity|split; [discriminate|reflexivity]].
  - intros (x & t & ys & y & E & _). discriminate.
Qed.

(** Rewriting in any number of steps is the least preorder that contains the rule and is kept by all
    contexts; steps add up. *)
Theorem C99_many : forall R : exp -> exp -> Prop,
  (forall e e', (exists n, refl_trans_closure_n (compat_closure R) n e e') <->
     forall R' : exp -> exp -> Prop, (forall a b, R a b -> R' a b) -> Compatible R' ->
       (forall a, R' a a) -> (forall a b d, R' a b -> R' b d -> R' a d) -> R' e e') /\
  (forall n m e e', refl_trans_closure_n R (n + m) e e' <->
     exists d, refl_trans_closure_n R n e d /\ refl_trans_closure_n R m d e').
Proof.
  intro R. split; [|intros; apply closure_app]. intros e e'. split.
  - intros (n & H) R' I C RF TR. induction H as [n e1 e2 e3 [a a' c r] _ IH|e]; [|apply RF].
    eapply TR; [apply C, I, r|exact IH].
  - intro H. apply (H (fun a b => exists n, refl_trans_closure_n (compat_closure R) n a b)).
    + intros a b r. exists 1. econstructor; [exact (Compat R a b Hole_c r)|constructor].
    + intros e1 e2 c (n & K). exists n. induction K as [n e1 e2 e3 S _ IH|e1]; [|constructor].
      econstructor; [|exact IH]. apply (proj2 (proj2 (C99_rewrite R))), S.
    + intro a. exists 0. constructor.
    + intros a b d (n & A) (m & B). exists (n + m). apply closure_app. eauto.
Qed.

(** two steps, the second inside what the first leaves *)
Example C99_many_example :
  refl_trans_closure_n (compat_closure drop) 2
    (Econstr 8 1 [] (Econstr 9 1 [] (Ehalt 1)))%positive (Ehalt 1)%positive.
Proof.
  econstructor; [|econstructor; [|constructor]].
  - apply (Compat drop (Econstr 9 1 [] (Ehalt 1))%positive (Ehalt 1)%positive (Econstr_c 8 1 [] Hole_c)%positive).
    exists 9%positive, 1%positive, [], 1%positive. split; [reflexivity|split; [discriminate|reflexivity]].
  - apply (Compat drop (Econstr 8 1 [] (Ehalt 1))%positive (Ehalt 1)%positive Hole_c).
    exists 8%positive, 1%positive, [], 1%positive. split; [reflexivity|split; [discriminate|reflexivity]].
Qed.

(** A property that rewriting keeps is kept by any number of steps; a property that passes to subterms
    and that holds where the rule is used lets the rule be replaced by a stronger one. *)
Theorem C99_invariant : forall (R : exp -> exp -> Prop) (I : exp -> Prop),
  (Invariant R I <-> forall n e e', refl_trans_closure_n R n e e' -> I e -> I e') /\
  (SubtermInvariant I <-> forall e e', I e -> In e' (below e) -> I e') /\
  (SubtermInvariant I -> forall e e', I e -> compat_closure R e e' ->
     compat_closure (fun a b => I a /\ R a b) e e').
Proof.
  intros R I. split; [|split].
  - split.
    + intros H n e1 e2 S i. induction S as [n e1 e2 e3 r _ IH|e]; [|exact i]. apply IH. eapply H; eassumption.
    + intros H e1 e2 i r. apply (H 1 e1 e2); [|exact i]. econstructor; [exact r|constructor].
  - split.
    + intros H e e' i J. destruct (proj1 below_ctx e e' J) as (c & _ & ->). apply (H c), i.
    + intros H c e i. destruct (proj1 (proj1 ctx_below c e)) as [E|J]; [rewrite <- E; exact i|].
      eapply H; eassumption.
  - intros H e e' i K. destruct K as [a a' c r]. apply (Compat (fun a b => I a /\ R a b) a a' c). split; [apply (H c), i|exact r].
Qed.

(** having no function definition anywhere *)
Example C99_invariant_example :
  let I e := forall B b, ~ In (Efun B b) (e :: below e) in
  SubtermInvariant I /\ I (Econstr 9 1 [] (Ehalt 1))%positive.
Proof.
  split.
  - intros c e H B b J. apply (H B b). destruct (proj1 (proj1 ctx_below c e)) as [E|K].
    + rewrite E. exact J.
    + right. destruct J as [<-|J]; [exact K|eapply below_trans; eassumption].
  - intros B b [H|[H|[]]]; discriminate.
Qed.

(** If a hole is reached in two ways, one context is inside the other. *)
Theorem C99_split : forall c1 c2 c3 c4,
  comp_ctx_f c1 c2 = comp_ctx_f c3 c4 <->
  (exists d, c4 = comp_ctx_f d c2 /\ c1 = comp_ctx_f c3 d) \/
  (exists d, c3 = comp_ctx_f c1 d /\ c2 = comp_ctx_f d c4).
Proof.
  intros. split; [apply (proj1 split_ctx)|].
  intros [(d & -> & ->)|(d & -> & ->)]; [|symmetry]; apply (proj1 assoc).
Qed.

Example C99_split_example :
  let a := (Econstr_c 1 1 [] Hole_c)%positive in let b := (Eproj_c 2 1 0 1 Hole_c)%positive in
  comp_ctx_f (comp_ctx_f a b) C0 = comp_ctx_f a (comp_ctx_f b C0) /\ comp_ctx_f a b <> a.
Proof. split; [reflexivity|discriminate]. Qed.

(** If one step can be followed after a change, so can any number, as many; and a property that each
    use of the rule in a context keeps is kept by rewriting in contexts, however often. *)
Theorem C99_commute : forall (R R' : exp -> exp -> Prop) (I : exp -> Prop),
  (Invariant R I ->
   (forall a b a', I a -> R' a a' -> R a b -> exists b', R a' b' /\ R' b b') ->
   forall n e1 e2 e1', refl_trans_closure_n R n e1 e2 -> I e1 -> R' e1 e1' ->
     exists e2', R' e2 e2' /\ refl_trans_closure_n R n e1' e2') /\
  (SubtermSubstInvariant R I <-> Invariant (compat_closure R) I) /\
  (SubtermSubstInvariant R I ->
   forall n e e', refl_trans_closure_n (compat_closure R) n e e' -> I e -> I e').
Proof.
  intros R R' I.
  assert (K : SubtermSubstInvariant R I -> Invariant (compat_closure R) I).
  { intros H e e' i S. destruct S as [a a' c r]. eapply H; eassumption. }
  split; [|split; [split; [exact K|]|]].
  - intros INV C n e1 e2 e1' S i r. eapply commute; eassumption.
  - intros H c e e' i r. eapply H; [exact i|]. constructor. exact r.
  - intros H. exact (proj1 (proj1 (C99_invariant (compat_closure R) I)) (K H)).
Qed.

(** dropping unused constructors keeps programs free of a tag *)
Example C99_commute_example :
  let I e := forall x ys b, ~ In (Econstr x 7 ys b)%positive (e :: below e) in
  I (Econstr 9 1 [] (Ehalt 1))%positive /\ drop (Econstr 9 1 [] (Ehalt 1))%positive (Ehalt 1)%positive /\
  Invariant drop I.
Proof.
  split; [|split].
  - intros x ys b [H|[H|[]]]; discriminate.
  - exists 9%positive, 1%positive, [], 1%positive. split; [reflexivity|split; [discriminate|reflexivity]].
  - intros a b _ (x & t & ys & y & _ & _ & ->) x' ys' b' [H|[]]. discriminate.
Qed.

Print Assumptions C99_context.
Print Assumptions C99_subterm.
Print Assumptions C99_block.
Print Assumptions C99_block_refuted.
Print Assumptions C99_rewrite.
Print Assumptions C99_many.
Print Assumptions C99_invariant.
Print Assumptions C99_split.
Print Assumptions C99_commute.
