(** C96: correct passes compose, and separate compilation is correct where the passes allow it. *)
From Coq Require Import List String Lia Arith.
From Verif Require Import Comp_Model LK_Model LK_Spec LK_Proofs.
Import ListNotations.

(** Reasoning about the monad: a sequence of two computations, and of a list of computations. *)
Theorem C96_rules :
  (forall (R W A B : Type) (m : compM R W A) (f : A -> compM R W B) P Q Q',
     triple P m Q' ->
     (forall x w, triple (fun r w' => Q' r w x w') (f x) (fun r _ x' w' => Q r w x' w')) ->
     forall r w, P r w -> exists y w', bind m f r w = (Ret y, w') /\ Q r w y w') /\
  (forall (R W A B : Type) (P : R -> W -> Prop) (P' : A -> B -> Prop) (f : A -> compM R W B) l,
     (forall e, In e l -> triple P (f e) (fun r _ e' w' => P' e e' /\ P r w')) ->
     forall r w, P r w -> exists l' w', sequence (map f l) r w = (Ret l', w') /\ Forall2 P' l l' /\ P r w').
Proof.
  split.
  - intros R W A B m f P Q Q' H1 H2. apply triple_run. apply (triple_bind m f P Q Q' H1 H2).
  - intros R W A B P P' f l H. apply triple_run. apply triple_sequence. apply Forall_forall, H.
Qed.

(** a counter is read and increased for each element; the invariant is that it is at least 3 *)
Definition fresh (a : nat) : compM unit nat nat := bind getM (fun n => bind (putM (S n)) (fun _ => ret (a + n))).
Example C96_rules_example :
  (forall e, In e [10; 20] ->
     triple (fun _ w => 3 <= w) (fresh e) (fun _ _ e' w' => e + 3 <= e' /\ 3 <= w')) /\
  sequence (map fresh [10; 20]) tt 3 = (Ret [13; 24], 5).
Proof. split; [|reflexivity]. intros e _ r w H. cbn. lia. Qed.

(** Two runs side by side: from related states either both fail or both succeed with results related
    as stated; two triples give such a pair. *)
Theorem C96_two_runs :
  (forall (R W A : Type) pre (m1 m2 : compM R W A) post,
     bitriple pre m1 m2 post <->
     forall r1 w1 r2 w2, pre (r1, w1) (r2, w2) ->
       ((exists s w, m1 r1 w1 = (Err s, w)) <-> (exists s w, m2 r2 w2 = (Err s, w))) /\
       (forall x1 w1' x2 w2', m1 r1 w1 = (Ret x1, w1') -> m2 r2 w2 = (Ret x2, w2') ->
          post (r1, w1, w1') (r2, w2, w2') x1 x2)) /\
  (forall (R W A : Type) P1 P2 (m1 m2 : compM R W A) Q1 Q2,
     triple P1 m1 Q1 -> triple P2 m2 Q2 ->
     bitriple (fun a b => P1 (fst a) (snd a) /\ P2 (fst b) (snd b)) m1 m2
       (fun a b x1 x2 => Q1 (fst (fst a)) (snd (fst a)) x1 (snd a) /\ Q2 (fst (fst b)) (snd (fst b)) x2 (snd b))).
Proof.
  split.
  - intros R W A pre m1 m2 post. unfold bitriple. split; intros H r1 w1 r2 w2 p; specialize (H r1 w1 r2 w2 p).
    + destruct (m1 r1 w1) as [[e1|x1] u1], (m2 r2 w2) as [[e2|x2] u2]; try contradiction; split.
      * split; intros _; [exists e2, u2|exists e1, u1]; reflexivity.
      * intros ? ? ? ? E. discriminate E.
      * split; intros (e & u & E); discriminate E.
      * intros y1 v1 y2 v2 E1 E2. injection E1 as <- <-. injection E2 as <- <-. exact H.
    + destruct (m1 r1 w1) as [[e1|x1] u1], (m2 r2 w2) as [[e2|x2] u2]; destruct H as [H K].
      * exact I.
      * destruct (proj1 H) as (e & u & E); [exists e1, u1; reflexivity|discriminate E].
      * destruct (proj2 H) as (e & u & E); [exists e2, u2; reflexivity|discriminate E].
      * apply K; reflexivity.
  - intros R W A P1 P2 m1 m2 Q1 Q2 H1 H2 r1 w1 r2 w2 [p1 p2].
    destruct (proj1 (triple_run _ _ _) H1 r1 w1 p1) as (x1 & u1 & E1 & q1).
    destruct (proj1 (triple_run _ _ _) H2 r2 w2 p2) as (x2 & u2 & E2 & q2).
    rewrite E1, E2. cbn. auto.
Qed.

(** two failing runs are a pair; two runs of the counter from different states *)
Example C96_two_runs_example :
  bitriple (fun _ _ => True) (@failwith unit nat nat "a") (failwith "b") (fun _ _ _ _ => False) /\
  bitriple (fun a b => snd a < snd b) (fresh 1) (fresh 1) (fun a b x1 x2 => x1 < x2 /\ snd a < snd b).
Proof. split; intros r1 w1 r2 w2 H; cbn in *; [exact I|lia]. Qed.

(** Two correct passes, one after the other, are correct: on every accepted program they succeed, the
    result is accepted by the target and does what the source does. *)
Theorem C96_compose : forall (Src Int Trg : Type) (Hs : Lang Src) (Hi : Lang Int) (Hd : Lang Trg) t1 t2 R1 R2,
  WfPreserving Hs Hi t1 -> SemPreserving Hs Hi R1 t1 ->
  WfPreserving Hi Hd t2 -> SemPreserving Hi Hd R2 t2 ->
  succeeds (TermWf Hs) (then_ t1 t2) (fun s x => TermWf Hd x /\
    forall v, BigStep Hs s v -> exists u z, BigStep Hd x z /\ R1 v u /\ R2 u z).
Proof.
  intros Src Int Trg Hs Hi Hd t1 t2 R1 R2 W1 S1 W2 S2 s r w W.
  destruct (proj1 (triple_run _ _ _) (wf_compose Hs Hi Hd t1 t2 W1 W2 s W) r w I) as (x & w' & E & Wx).
  destruct (proj1 (triple_run _ _ _) (sem_compose Hs Hi Hd t1 t2 R1 R2 W1 S1 S2 s W) r w I) as (x' & w'' & E' & F).
  rewrite E in E'. injection E' as <- <-. exists x, w'. split; [exact E|]. split; [exact Wx|].
  intros v H. destruct (F v H) as (z & Hz & u & r1 & r2). exists u, z. auto.
Qed.

(** Programs are lists of numbers that mean their sum; the first pass adds them up, the second writes
    the number in unary.  Linking is [++], [+] and [++]. *)
Definition L_list : Lang (list nat) := mkLang _ nat (fun l => l <> [99]) (fun l v => list_sum l = v).
Definition L_nat : Lang nat := mkLang _ nat (fun _ => True) (fun n v => n = v).
Definition L_unary : Lang (list unit) := mkLang _ nat (fun _ => True) (fun l v => List.length l = v).
Definition p_sum : CertiRocqTrans (list nat) nat := LiftCertiRocqTrans "sum" list_sum.
Definition p_unary : CertiRocqTrans nat (list unit) :=
  LiftErrorLogCertiRocqTrans "unary" (fun n => (Ret (repeat tt n), "done"%string)).

Lemma p_unary_run n r w : exists w', p_unary n r w = (Ret (repeat tt n), w').
Proof. unfold p_unary, LiftErrorLogCertiRocqTrans, timePhase_opt, timePhase. destruct (time r); eexists; reflexivity. Qed.
Lemma p_sum_run l r w : p_sum l r w = (Ret (list_sum l), w).
Proof. unfold p_sum, LiftCertiRocqTrans, bind, get_options, ask, ret, timePhase_opt, timePhase. destruct (time r); reflexivity. Qed.

Example C96_compose_example :
  WfPreserving L_list L_nat p_sum /\ SemPreserving L_list L_nat eq p_sum /\
  WfPreserving L_nat L_unary p_unary /\ SemPreserving L_nat L_unary eq p_unary.
Proof.
  split; [|split; [|split]]; intros s _; apply triple_run; intros r w _.
  - exists (list_sum s), w. split; [apply p_sum_run|exact I].
  - exists (list_sum s), w. split; [apply p_sum_run|]. intros v H. exists v. split; [exact H|reflexivity].
  - destruct (p_unary_run s r w) as (w' & E). exists (repeat tt s), w'. split; [exact E|exact I].
  - destruct (p_unary_run s r w) as (w' & E). exists (repeat tt s), w'. split; [exact E|].
    intros v H. exists v. split; [|reflexivity]. cbn in *. rewrite repeat_length. exact H.
Qed.

(** Passes made with the combinators of the pipeline do not look at the state, and neither do their
    compositions; so for them the theorems on separate compilation below hold. *)
Theorem C96_stateless :
  (forall Src Trg (ok : Src -> Prop) name (f : Src -> Trg), stateless ok (LiftCertiRocqTrans name f)) /\
  (forall Src Trg (ok : Src -> Prop) name (f : Src -> error Trg), stateless ok (LiftErrorCertiRocqTrans name f)) /\
  (forall Src Trg (ok : Src -> Prop) name (f : Src -> error Trg * string), stateless ok (LiftErrorLogCertiRocqTrans name f)) /\
  (forall (Src Int Trg : Type) (Hs : Lang Src) (Hi : Lang Int) (t1 : CertiRocqTrans Src Int) (t2 : CertiRocqTrans Int Trg),
     WfPreserving Hs Hi t1 -> stateless (TermWf Hs) t1 -> stateless (TermWf Hi) t2 ->
     stateless (TermWf Hs) (then_ t1 t2)).
Proof.
  split; [intros; apply lift_stateless|]. split; [intros; apply lift_error_stateless|].
  split; [intros; apply lift_log_stateless|]. intros. eapply stateless_compose; eassumption.
Qed.

(** a pass of which it is not true: its result depends on the length of the log *)
Definition names (w : CompInfo) : nat := List.length (ci_log w).
Definition p_names : CertiRocqTrans nat (list nat) := fun n r w => (Ret (seq (names w) n), w).
Definition some_options : Options := Build_Options true 5 0 0 false false [].
Definition w0 : CompInfo := Build_CompInfo [] [] [].
Definition w1 : CompInfo := Build_CompInfo [] ["message"%string] [].
Example C96_stateless_example :
  stateless (TermWf L_list) (then_ p_sum p_unary) /\ ~ stateless (fun _ => True) p_names.
Proof.
  split.
  - apply (stateless_compose L_list L_nat); [apply C96_compose_example|apply lift_stateless|apply lift_log_stateless].
  - intros H. specialize (H 1 some_options w0 w1 I). discriminate H.
Qed.

(** Programs compiled apart and then linked do what the linked sources do, if the pass is correct,
    commutes with linking and does not look at the state.  Missing: the last hypothesis should not be
    needed (Pipeline_utils.v:333-374 states the lemma without it). *)
Theorem C96_separate_partial : forall (Src Trg : Type) (Hs : Lang Src) (Hd : Lang Trg) ls lt t R,
  WfPreserving Hs Hd t -> SemPreserving Hs Hd R t -> Compositional ls (TermWf Hs) ->
  Commutes Hs ls lt t -> stateless (TermWf Hs) t ->
  apart (TermWf Hs) (BigStep Hs) (BigStep Hd) ls lt R t /\ SepCompSemPreserving Hs Hd ls lt R t.
Proof.
  intros Src Trg Hs Hd ls lt t R W S C Cm D.
  assert (A := commutes_apart Hs Hd ls lt t R W S C Cm D).
  split; [exact A|]. apply apart_sep, A.
Qed.

(** lists other than [[99]], linked by [++] with a separating zero *)
Definition link_list (a b : list nat) : list nat := a ++ 0 :: b.
Example C96_separate_example :
  Compositional link_list (TermWf L_list) /\ Commutes L_list link_list plus p_sum /\ stateless (TermWf L_list) p_sum.
Proof.
  split; [|split; [|apply lift_stateless]].
  - intros a b _ _. cbn. unfold link_list. destruct a as [|x [|y a]]; discriminate.
  - intros r s1 s2 x1 x2 _ _ H1 H2. rewrite triple_run in H1, H2. apply triple_run. intros r' w <-.
    destruct (H1 r w eq_refl) as (y1 & ? & E1 & ->). destruct (H2 r w eq_refl) as (y2 & ? & E2 & ->).
    rewrite p_sum_run in E1, E2. injection E1 as E1 _. injection E2 as E2 _.
    exists (list_sum (link_list s1 s2)), w. split; [apply p_sum_run|].
    unfold link_list. rewrite list_sum_app. cbn [list_sum fold_right]. rewrite <- E1, <- E2. reflexivity.
Qed.

(** Without it the lemma is false: [Commutes] speaks only of sources whose result is the same in all
    states.  A pass that takes its names from the state is correct for whole programs, but two programs
    compiled apart from the same state get the same names, and the linker refuses them. *)
Definition L_names : Lang (list nat) := mkLang _ nat (fun _ => True) (fun l v => NoDup l /\ List.length l = v).
Theorem C96_separate_refuted :
  exists (Src Trg : Type) (Hs : Lang Src) (Hd : Lang Trg) ls lt t (R : obs_eq Hs Hd),
    WfPreserving Hs Hd t /\ SemPreserving Hs Hd R t /\ Compositional ls (TermWf Hs) /\ Commutes Hs ls lt t /\
    ~ SepCompSemPreserving Hs Hd ls lt R t.
Proof.
  exists nat, (list nat), L_nat, L_names, plus, (@app nat), p_names, eq. split; [|split; [|split; [|split]]].
  - intros s _ r w _. cbn. exact I.
  - intros s _ r w _. cbn. intros v <-. exists s. split; [|reflexivity].
    split; [apply seq_NoDup|apply seq_length].
  - intros a b _ _. exact I.
  - intros r s1 s2 x1 x2 _ _ H1 H2.
    assert (Z : forall s x, triple (fun r' _ => r = r') (p_names s) (fun _ _ y _ => y = x) -> s = 0 /\ x = []).
    { intros s x H. pose proof (H r w0 eq_refl) as A. pose proof (H r w1 eq_refl) as B. cbn in A, B.
      destruct s as [|s]; [auto|]. cbn in A, B. congruence. }
    destruct (Z _ _ H1) as [-> ->]. destruct (Z _ _ H2) as [-> ->]. intros r' w _. cbn. reflexivity.
  - intros H. specialize (H 1 1 I I some_options w0 some_options w0 eq_refl). cbn in H.
    destruct (H 2 eq_refl) as (v & [N _] & _). inversion N as [|? ? NI _]. apply NI. left. reflexivity.
Qed.

(** Separate compilation with two passes.  Missing: the second pass may look at the state in
    Pipeline_utils.v:412-422, where this is stated and left open. *)
Theorem C96_link_partial : forall (Src Int Trg : Type) (Hs : Lang Src) (Hi : Lang Int) (Hd : Lang Trg)
    ls li lt t1 t2 R1 R2,
  WfPreserving Hs Hi t1 -> SepCompSemPreserving Hs Hi ls li R1 t1 ->
  WfPreserving Hi Hd t2 -> SepCompSemPreserving Hi Hd li lt R2 t2 -> stateless (TermWf Hi) t2 ->
  SepCompSemPreserving Hs Hd ls lt (compose R1 R2) (then_ t1 t2).
Proof. intros. eapply link_compose; eassumption. Qed.

Lemma p_unary_commutes : Commutes L_nat plus (@app unit) p_unary.
Proof.
  intros r s1 s2 x1 x2 _ _ H1 H2. rewrite triple_run in H1, H2. apply triple_run. intros r' w <-.
  destruct (H1 r w eq_refl) as (y1 & v1 & E1 & ->). destruct (H2 r w eq_refl) as (y2 & v2 & E2 & ->).
  destruct (p_unary_run s1 r w) as (u1 & F1). destruct (p_unary_run s2 r w) as (u2 & F2).
  destruct (p_unary_run (s1 + s2) r w) as (u & F). rewrite F1 in E1. rewrite F2 in E2.
  injection E1 as <- _. injection E2 as <- _. exists (repeat tt (s1 + s2)), u. split; [exact F|].
  rewrite repeat_app. reflexivity.
Qed.

Example C96_link_example :
  SepCompSemPreserving L_list L_nat link_list plus eq p_sum /\
  SepCompSemPreserving L_nat L_unary plus (@app unit) eq p_unary /\ stateless (TermWf L_nat) p_unary.
Proof.
  destruct C96_compose_example as (W1 & S1 & W2 & S2). destruct C96_separate_example as (C & Cm & D).
  split; [apply C96_separate_partial; assumption|].
  assert (D2 : stateless (TermWf L_nat) p_unary) by apply lift_log_stateless.
  split; [|exact D2]. apply C96_separate_partial; try assumption; [intros a b _ _; exact I|exact p_unary_commutes].
Qed.

(** It is false if the second pass looks at the state, because the first pass may leave different
    states behind for the two programs. *)
Definition p_log : CertiRocqTrans nat nat := fun n r w => (Ret n, Build_CompInfo [] (repeat "m"%string n) []).
Definition p_tag : CertiRocqTrans nat (option (nat * nat)) := fun n r w => (Ret (Some (names w, n)), w).
Definition L_tag : Lang (option (nat * nat)) :=
  mkLang _ nat (fun _ => True) (fun o v => match o with Some (_, n) => n = v | None => False end).
Definition link_tag (a b : option (nat * nat)) : option (nat * nat) :=
  match a, b with
  | Some (t, x), Some (t', y) => if Nat.eqb t t' then Some (t, x + y) else None
  | _, _ => None
  end.
Theorem C96_link_refuted :
  exists (Src Int Trg : Type) (Hs : Lang Src) (Hi : Lang Int) (Hd : Lang Trg) ls li lt t1 t2
      (R1 : obs_eq Hs Hi) (R2 : obs_eq Hi Hd),
    WfPreserving Hs Hi t1 /\ SepCompSemPreserving Hs Hi ls li R1 t1 /\
    WfPreserving Hi Hd t2 /\ SepCompSemPreserving Hi Hd li lt R2 t2 /\
    ~ SepCompSemPreserving Hs Hd ls lt (compose R1 R2) (then_ t1 t2).
Proof.
  exists nat, nat, (option (nat * nat)), L_nat, L_nat, L_tag, plus, plus, link_tag, p_log, p_tag, eq, eq.
  split; [|split; [|split; [|split]]].
  - intros s _ r w _. cbn. exact I.
  - intros s1 s2 _ _ r w r' w' E. cbn. intros v H. exists v. split; [exact H|reflexivity].
  - intros s _ r w _. cbn. exact I.
  - intros s1 s2 _ _ r w r' w' E. injection E as <- <-. cbn. intros v H. cbn. rewrite Nat.eqb_refl.
    exists v. split; [exact H|reflexivity].
  - intros H. specialize (H 1 2 I I some_options w0 some_options w0 eq_refl). cbn in H.
    destruct (H 3 eq_refl) as (v & F & _). exact F.
Qed.

(** Passes that commute with linking compose, if they do not look at the state.  Missing: that
    hypothesis is not in Pipeline_utils.v:425-474, where this is stated and left open. *)
Theorem C96_commutes_partial : forall (Src Int Trg : Type) (Hs : Lang Src) (Hi : Lang Int) (Hd : Lang Trg)
    ls li lt t1 t2,
  WfPreserving Hs Hi t1 -> Commutes Hs ls li t1 -> stateless (TermWf Hs) t1 ->
  WfPreserving Hi Hd t2 -> Commutes Hi li lt t2 -> stateless (TermWf Hi) t2 ->
  Commutes Hs ls lt (then_ t1 t2).
Proof. intros Src Int Trg Hs Hi Hd. apply (commutes_compose Hs Hi Hd). Qed.

(** the two passes above; the hypotheses of [Commutes] are met, and the linked result is computed *)
Example C96_commutes_example :
  Commutes L_list link_list plus p_sum /\ Commutes L_nat plus (@app unit) p_unary /\
  fst (then_ p_sum p_unary (link_list [1] [2]) some_options w0) = Ret [tt; tt; tt].
Proof. split; [apply C96_separate_example|]. split; [exact p_unary_commutes|reflexivity]. Qed.

(** Otherwise it is false: the first pass marks its result with the state and does something else to
    linked programs, which [Commutes] does not see; the second pass removes the mark. *)
Definition p_mark : CertiRocqTrans nat (nat * nat) :=
  fun n r w => (Ret (names w, if Nat.eqb n 2 then 99 else n), w).
Definition p_unmark : CertiRocqTrans (nat * nat) nat := fun p r w => (Ret (snd p), w).
Definition L_pair : Lang (nat * nat) := mkLang _ nat (fun _ => True) (fun p v => snd p = v).
Definition link_pair (a b : nat * nat) : nat * nat := (fst a, snd a + snd b).
Theorem C96_commutes_refuted :
  exists (Src Int Trg : Type) (Hs : Lang Src) (Hi : Lang Int) (Hd : Lang Trg) ls li lt t1 t2,
    WfPreserving Hs Hi t1 /\ Commutes Hs ls li t1 /\ Compositional ls (TermWf Hs) /\
    WfPreserving Hi Hd t2 /\ Commutes Hi li lt t2 /\ Compositional li (TermWf Hi) /\
    ~ Commutes Hs ls lt (then_ t1 t2).
Proof.
  exists nat, (nat * nat)%type, nat, L_nat, L_pair, L_nat, plus, link_pair, plus, p_mark, p_unmark.
  split; [|split; [|split; [|split; [|split; [|split]]]]].
  - intros s _ r w _. cbn. exact I.
  - intros r s1 s2 x1 x2 _ _ H1 _. exfalso.
    pose proof (H1 r w0 eq_refl) as A. pose proof (H1 r w1 eq_refl) as B. cbn in A, B. congruence.
  - intros a b _ _. exact I.
  - intros s _ r w _. cbn. exact I.
  - intros r s1 s2 x1 x2 _ _ H1 H2 r' w E.
    pose proof (H1 r w eq_refl) as A. pose proof (H2 r w eq_refl) as B. cbn in *. congruence.
  - intros a b _ _. exact I.
  - intros H.
    assert (T : triple (fun r' _ => some_options = r') (then_ p_mark p_unmark 1) (fun _ _ y _ => y = 1))
      by (intros r w _; reflexivity).
    specialize (H some_options 1 1 1 1 I I T T some_options w0 eq_refl). cbn in H. discriminate H.
Qed.

(** From a triple one gets the result of a run; a triple that does not mention the state gives one
    result for each state, and one result for all states only if the computation ignores it. *)
Theorem C96_concretize : forall (R W A : Type) (P : R -> Prop) (Q : R -> A -> Prop) (m : compM R W A),
  triple (fun r _ => P r) m (fun r _ x _ => Q r x) -> forall r w, P r ->
  exists x w', m r w = (Ret x, w') /\ Q r x /\
    ((forall w2, fst (m r w2) = fst (m r w)) -> triple (fun r' _ => r = r') m (fun r' _ x' _ => r' = r /\ x' = x)).
Proof.
  intros R W A P Q m H r w p. rewrite triple_run in H. destruct (H r w p) as (x & w' & E & q).
  exists x, w'. split; [exact E|]. split; [exact q|]. intros D. apply triple_run. intros r' w2 <-.
  pose proof (D w2) as F. rewrite E in F. cbn in F. destruct (m r w2) as [y w2']. cbn in F. subst y.
  exists x, w2'. auto.
Qed.

Example C96_concretize_example :
  triple (fun r _ => r = 4) (fun r (w : nat) => (Ret (r + 1), w + r)) (fun r _ x _ => x = 5).
Proof. intros r w ->. reflexivity. Qed.

(** The lemma left open in compM.v:492-506, one result and one final state for all states, is false. *)
Theorem C96_concretize_refuted :
  exists (R W A : Type) (P : R -> Prop) (Q : R -> A -> Prop) (m : compM R W A),
    triple (fun r _ => P r) m (fun r _ x _ => Q r x) /\
    ~ (forall (r1 : R) (w1 : W), P r1 -> exists x w2,
         triple (fun r _ => r1 = r) m (fun r w x' w' => r = r1 /\ x' = x /\ w' = w2) /\ Q r1 x).
Proof.
  exists unit, nat, unit, (fun _ => True), (fun _ _ => True), (ret tt). split.
  - intros r w _. exact I.
  - intros H. destruct (H tt 0 I) as (x & w2 & T & _).
    pose proof (T tt 0 eq_refl) as A. pose proof (T tt 1 eq_refl) as B. cbn in A, B. intuition congruence.
Qed.

Print Assumptions C96_rules.
Print Assumptions C96_two_runs.
Print Assumptions C96_compose.
Print Assumptions C96_stateless.
Print Assumptions C96_separate_partial.
Print Assumptions C96_separate_refuted.
Print Assumptions C96_link_partial.
Print Assumptions C96_link_refuted.
Print Assumptions C96_commutes_partial.
Print Assumptions C96_commutes_refuted.
Print Assumptions C96_concretize.
Print Assumptions C96_concretize_refuted.
