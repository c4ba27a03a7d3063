(** Proofs about composition of passes and separate compilation. *)
From Coq Require Import List String Lia.
From Verif Require Import Comp_Model LK_Model LK_Spec.
Import ListNotations.

(** ** Triples *)
Lemma triple_run {R W A} (P : R -> W -> Prop) (m : compM R W A) Q :
  triple P m Q <-> forall r w, P r w -> exists x w', m r w = (Ret x, w') /\ Q r w x w'.
Proof.
  unfold triple. split; intros H r w p; specialize (H r w p).
  - destruct (m r w) as [[s|x] w']; [destruct H|]. exists x, w'. auto.
  - destruct H as (x & w' & E & q). rewrite E. exact q.
Qed.

Lemma triple_bind {R W A B} (m : compM R W A) (f : A -> compM R W B) P Q Q' :
  triple P m Q' ->
  (forall x w, triple (fun r w' => Q' r w x w') (f x) (fun r _ x' w' => Q r w x' w')) ->
  triple P (bind m f) Q.
Proof.
  rewrite !triple_run. intros H1 H2 r w p. destruct (H1 r w p) as (x & w' & E & q).
  pose proof (proj1 (triple_run _ _ _) (H2 x w) r w' q) as (y & w'' & E2 & q2).
  exists y, w''. unfold bind. rewrite E. auto.
Qed.

Lemma triple_sequence {R W A B} (P : R -> W -> Prop) (P' : A -> B -> Prop) (f : A -> compM R W B) : forall l,
  Forall (fun e => triple P (f e) (fun r _ e' w' => P' e e' /\ P r w')) l ->
  triple P (sequence (map f l)) (fun r _ l' w' => Forall2 P' l l' /\ P r w').
Proof.
  induction 1 as [|a l H F IH]; rewrite triple_run; intros r w p.
  - exists [], w. repeat split; [constructor|exact p].
  - cbn beta in H. rewrite triple_run in H. rewrite triple_run in IH. destruct (H r w p) as (b & w1 & E1 & q1 & p1).
    destruct (IH r w1 p1) as (bs & w2 & E2 & q2 & p2).
    exists (b :: bs), w2. cbn. unfold bind. rewrite E1, E2. repeat split; [|exact p2]. constructor; assumption.
Qed.

(** ** One pass after another *)
Section Compose.
Context {Src Int Trg : Type} (Hs : Lang Src) (Hi : Lang Int) (Hd : Lang Trg).
Variables (t1 : CertiRocqTrans Src Int) (t2 : CertiRocqTrans Int Trg).

Lemma then_run s r w i w1 : t1 s r w = (Ret i, w1) -> then_ t1 t2 s r w = t2 i r w1.
Proof. intros E. unfold then_, bind. rewrite E. reflexivity. Qed.

Lemma wf_compose : WfPreserving Hs Hi t1 -> WfPreserving Hi Hd t2 -> WfPreserving Hs Hd (then_ t1 t2).
Proof.
  intros H1 H2 s W. rewrite triple_run. intros r w _.
  destruct (proj1 (triple_run _ _ _) (H1 s W) r w I) as (i & w1 & E1 & Wi).
  rewrite (then_run _ _ _ _ _ E1). exact (proj1 (triple_run _ _ _) (H2 i Wi) r w1 I).
Qed.

Lemma sem_compose R1 R2 : WfPreserving Hs Hi t1 -> SemPreserving Hs Hi R1 t1 -> SemPreserving Hi Hd R2 t2 ->
  SemPreserving Hs Hd (compose R1 R2) (then_ t1 t2).
Proof.
  intros W1 S1 S2 s W. rewrite triple_run. intros r w _.
  destruct (proj1 (triple_run _ _ _) (W1 s W) r w I) as (i & w1 & E1 & Wi).
  destruct (proj1 (triple_run _ _ _) (S1 s W) r w I) as (i' & w1' & E1' & F1).
  rewrite E1 in E1'. injection E1' as <- <-.
  destruct (proj1 (triple_run _ _ _) (S2 i Wi) r w1 I) as (x & w2 & E2 & F2).
  exists x, w2. rewrite (then_run _ _ _ _ _ E1). split; [exact E2|].
  intros v H. destruct (F1 v H) as (u & Hu & r1). destruct (F2 u Hu) as (z & Hz & r2).
  exists z. split; [exact Hz|]. exists u. auto.
Qed.

Lemma stateless_compose : WfPreserving Hs Hi t1 -> stateless (TermWf Hs) t1 -> stateless (TermWf Hi) t2 ->
  stateless (TermWf Hs) (then_ t1 t2).
Proof.
  intros W1 D1 D2 s r w w' W.
  destruct (proj1 (triple_run _ _ _) (W1 s W) r w I) as (i & w1 & E1 & Wi).
  pose proof (D1 s r w w' W) as E. rewrite E1 in E. cbn in E.
  destruct (t1 s r w') as [x w1'] eqn:E1'. cbn in E. subst x.
  rewrite (then_run _ _ _ _ _ E1), (then_run _ _ _ _ _ E1'). apply D2, Wi.
Qed.
End Compose.

(** ** Separate compilation *)
Section Link.
Context {Src Trg : Type} (Hs : Lang Src) (Hd : Lang Trg).
Variables (ls : Src -> Src -> Src) (lt : Trg -> Trg -> Trg) (t : CertiRocqTrans Src Trg).
Variable R : obs_eq Hs Hd.

Lemma stateless_result s r w x w' : stateless (TermWf Hs) t -> TermWf Hs s -> t s r w = (Ret x, w') ->
  triple (fun r' _ => r = r') (t s) (fun _ _ y _ => y = x).
Proof.
  intros D W E. rewrite triple_run. intros r' w0 <-.
  pose proof (D s r w w0 W) as E'. rewrite E in E'. cbn in E'.
  destruct (t s r w0) as [y w0']. cbn in E'. subst y. exists x, w0'. auto.
Qed.

Lemma commutes_apart :
  WfPreserving Hs Hd t -> SemPreserving Hs Hd R t -> Compositional ls (TermWf Hs) ->
  Commutes Hs ls lt t -> stateless (TermWf Hs) t ->
  apart (TermWf Hs) (BigStep Hs) (BigStep Hd) ls lt R t.
Proof.
  intros Wf Se Co Cm D s1 s2 r w1 w2 W1 W2.
  destruct (proj1 (triple_run _ _ _) (Wf s1 W1) r w1 I) as (x1 & w1' & E1 & _).
  destruct (proj1 (triple_run _ _ _) (Wf s2 W2) r w2 I) as (x2 & w2' & E2 & _).
  exists x1, w1', x2, w2'. split; [exact E1|]. split; [exact E2|].
  pose proof (Cm r s1 s2 x1 x2 W1 W2 (stateless_result _ _ _ _ _ D W1 E1) (stateless_result _ _ _ _ _ D W2 E2)) as C.
  destruct (proj1 (triple_run _ _ _) C r w1 eq_refl) as (y & w' & E & ->).
  destruct (proj1 (triple_run _ _ _) (Se _ (Co _ _ W1 W2)) r w1 I) as (y' & w'' & E' & F).
  rewrite E in E'. injection E' as <- <-. exact F.
Qed.

Lemma apart_sep : apart (TermWf Hs) (BigStep Hs) (BigStep Hd) ls lt R t -> SepCompSemPreserving Hs Hd ls lt R t.
Proof.
  intros A s1 s2 W1 W2 r1 w1 r2 w2 E. injection E as <- <-.
  destruct (A s1 s2 r1 w1 w1 W1 W2) as (x1 & w1' & x2 & w2' & E1 & E2 & F). rewrite E1, E2. exact F.
Qed.

Lemma sep_apart : WfPreserving Hs Hd t -> stateless (TermWf Hs) t ->
  SepCompSemPreserving Hs Hd ls lt R t -> apart (TermWf Hs) (BigStep Hs) (BigStep Hd) ls lt R t.
Proof.
  intros Wf D A s1 s2 r w1 w2 W1 W2.
  destruct (proj1 (triple_run _ _ _) (Wf s1 W1) r w1 I) as (x1 & w1' & E1 & _).
  destruct (proj1 (triple_run _ _ _) (Wf s2 W2) r w2 I) as (x2 & w2' & E2 & _).
  exists x1, w1', x2, w2'. split; [exact E1|]. split; [exact E2|].
  pose proof (A s1 s2 W1 W2 r w1 r w1 eq_refl) as B. rewrite E1 in B.
  pose proof (D s2 r w1 w2 W2) as E. rewrite E2 in E. destruct (t s2 r w1) as [y wy]. cbn in E. subst y. exact B.
Qed.
End Link.

Section LinkCompose.
Context {Src Int Trg : Type} (Hs : Lang Src) (Hi : Lang Int) (Hd : Lang Trg).
Variables (ls : Src -> Src -> Src) (li : Int -> Int -> Int) (lt : Trg -> Trg -> Trg).
Variables (t1 : CertiRocqTrans Src Int) (t2 : CertiRocqTrans Int Trg).

Lemma link_compose R1 R2 :
  WfPreserving Hs Hi t1 -> SepCompSemPreserving Hs Hi ls li R1 t1 ->
  WfPreserving Hi Hd t2 -> SepCompSemPreserving Hi Hd li lt R2 t2 -> stateless (TermWf Hi) t2 ->
  SepCompSemPreserving Hs Hd ls lt (compose R1 R2) (then_ t1 t2).
Proof.
  intros W1 A1 W2 A2 D s1 s2 Ws1 Ws2 r w r2 w2 E. injection E as <- <-.
  destruct (proj1 (triple_run _ _ _) (W1 s1 Ws1) r w I) as (i1 & v1 & E1 & Wi1).
  destruct (proj1 (triple_run _ _ _) (W1 s2 Ws2) r w I) as (i2 & v2 & E2 & Wi2).
  rewrite (then_run _ _ _ _ _ _ _ E1), (then_run _ _ _ _ _ _ _ E2).
  pose proof (A1 s1 s2 Ws1 Ws2 r w r w eq_refl) as F1. rewrite E1, E2 in F1.
  destruct (sep_apart Hi Hd li lt t2 R2 W2 D A2 i1 i2 r v1 v2 Wi1 Wi2) as (x1 & ? & x2 & ? & E3 & E4 & F2).
  rewrite E3, E4. intros v Hv. destruct (F1 v Hv) as (u & Hu & r1). destruct (F2 u Hu) as (z & Hz & r2).
  exists z. split; [exact Hz|]. exists u. auto.
Qed.

Lemma commutes_compose :
  WfPreserving Hs Hi t1 -> Commutes Hs ls li t1 -> stateless (TermWf Hs) t1 ->
  WfPreserving Hi Hd t2 -> Commutes Hi li lt t2 -> stateless (TermWf Hi) t2 ->
  Commutes Hs ls lt (then_ t1 t2).
Proof.
  intros W1 C1 D1 W2 C2 D2 r s1 s2 x1 x2 Ws1 Ws2 H1 H2. rewrite triple_run in H1, H2. rewrite triple_run. intros r' w <-.
  destruct (proj1 (triple_run _ _ _) (W1 s1 Ws1) r w I) as (i1 & v1 & E1 & Wi1).
  destruct (proj1 (triple_run _ _ _) (W1 s2 Ws2) r w I) as (i2 & v2 & E2 & Wi2).
  destruct (H1 r w eq_refl) as (y1 & u1 & F1 & ->). rewrite (then_run _ _ _ _ _ _ _ E1) in F1.
  destruct (H2 r w eq_refl) as (y2 & u2 & F2 & ->). rewrite (then_run _ _ _ _ _ _ _ E2) in F2.
  pose proof (C1 r s1 s2 i1 i2 Ws1 Ws2 (stateless_result Hs t1 _ _ _ _ _ D1 Ws1 E1)
    (stateless_result Hs t1 _ _ _ _ _ D1 Ws2 E2)) as K1.
  destruct (proj1 (triple_run _ _ _) K1 r w eq_refl) as (i & v & E & ->).
  pose proof (C2 r i1 i2 x1 x2 Wi1 Wi2 (stateless_result Hi t2 _ _ _ _ _ D2 Wi1 F1)
    (stateless_result Hi t2 _ _ _ _ _ D2 Wi2 F2)) as K2.
  rewrite (then_run _ _ _ _ _ _ _ E). exact (proj1 (triple_run _ _ _) K2 r v eq_refl).
Qed.
End LinkCompose.

Lemma lift_stateless {Src Trg} (ok : Src -> Prop) name (f : Src -> Trg) : stateless ok (LiftCertiRocqTrans name f).
Proof. intros s r w1 w2 _. reflexivity. Qed.

Lemma lift_error_stateless {Src Trg} (ok : Src -> Prop) name (f : Src -> error Trg) :
  stateless ok (LiftErrorCertiRocqTrans name f).
Proof.
  intros s r w1 w2 _. unfold LiftErrorCertiRocqTrans, timePhase_opt, timePhase.
  destruct (time r); reflexivity.
Qed.

Lemma lift_log_stateless {Src Trg} (ok : Src -> Prop) name (f : Src -> error Trg * string) :
  stateless ok (LiftErrorLogCertiRocqTrans name f).
Proof.
  intros s r w1 w2 _. unfold LiftErrorLogCertiRocqTrans, timePhase_opt, timePhase.
  destruct (f s). destruct (time r); reflexivity.
Qed.
