(** * What HashMap.v admits and tags.v leaves open *)
From Coq Require Import PArith NArith List Lia Bool.
From Verif Require Import HM_Model.
Import ListNotations.

Section HASHMAP.
Variable D : Type.
Variable eq_dec : forall x y : D, {x = y} + {x <> y}.

Lemma find_spec v m : forall i,
  match find D eq_dec i v m with
  | inl j => (i <= j)%positive /\ nth_error m (Pos.to_nat j - Pos.to_nat i) = Some v
  | inr j => Pos.to_nat j = Pos.to_nat i + length m /\ ~ In v m
  end.
Proof.
  induction m as [|w m IH]; intro i; cbn.
  - split; [lia|auto].
  - destruct (eq_dec v w) as [->|N].
    + split; [lia|]. rewrite PeanoNat.Nat.sub_diag. reflexivity.
    + specialize (IH (Pos.succ i)). destruct (find D eq_dec (Pos.succ i) v m) as [j|j].
      * destruct IH as [L E]. split; [lia|].
        replace (Pos.to_nat j - Pos.to_nat i) with (S (Pos.to_nat j - Pos.to_nat (Pos.succ i))) by lia. exact E.
      * destruct IH as [L E]. split; [lia|]. intros [->|I]; tauto.
Qed.

Lemma nth_inj (m : list D) i j v : NoDup m -> nth_error m i = Some v -> nth_error m j = Some v -> i = j.
Proof.
  intros ND H1 H2. rewrite NoDup_nth_error in ND. apply ND; [|congruence]. apply nth_error_Some. congruence.
Qed.

Lemma hash_new v m : NoDup m -> let '(i, m') := hash D eq_dec v m in
  NoDup m' /\ get D i m' = Some v /\ (forall j w, get D j m = Some w -> get D j m' = Some w) /\
  (forall j w, get D j m' = Some w -> get D j m = Some w \/ w = v).
Proof.
  intros ND. unfold hash, get. pose proof (find_spec v m 1%positive) as F.
  destruct (find D eq_dec 1 v m) as [i|i]; destruct F as [F1 F2].
  - split; [auto|split; [|split; auto]]. rewrite <- F2. f_equal. lia.
  - split; [|split; [|split]].
    + apply NoDup_rev in ND. rewrite <- (rev_involutive (m ++ [v])). apply NoDup_rev. rewrite rev_app_distr. cbn.
      constructor; [rewrite <- in_rev; auto|auto].
    + rewrite nth_error_app2 by lia. replace (pred (Pos.to_nat i) - length m) with 0 by lia. reflexivity.
    + intros j w E. rewrite nth_error_app1; [auto|]. apply nth_error_Some. congruence.
    + intros j w E. destruct (PeanoNat.Nat.lt_ge_cases (pred (Pos.to_nat j)) (length m)) as [L|L].
      * rewrite nth_error_app1 in E by auto. auto.
      * right. rewrite nth_error_app2 in E by auto. destruct (pred (Pos.to_nat j) - length m) as [|k]; cbn in E; [congruence|].
        destruct k; discriminate E.
Qed.

Lemma get_hash i x m : NoDup m -> get D i m = Some x <-> hash D eq_dec x m = (i, m).
Proof.
  intros ND. unfold hash, get. pose proof (find_spec x m 1%positive) as F.
  destruct (find D eq_dec 1 x m) as [j|j]; destruct F as [F1 F2]; split; intro H.
  - f_equal. assert (pred (Pos.to_nat i) = Pos.to_nat j - Pos.to_nat 1) by (eapply nth_inj; eauto). lia.
  - injection H as ->. rewrite <- F2. f_equal. lia.
  - destruct F2. eapply nth_error_In; exact H.
  - injection H as _ K. exfalso. apply (f_equal (@length D)) in K. rewrite app_length in K. cbn in K. lia.
Qed.

Lemma elements_nth m : forall i k, nth_error (elements' D i m) k
  = match nth_error m k with Some v => Some (Pos.of_nat (Pos.to_nat i + k), v) | None => None end.
Proof.
  induction m as [|w m IH]; intros i [|k]; cbn; auto.
  - f_equal. f_equal. lia.
  - rewrite IH. destruct (nth_error m k); [|auto]. f_equal. f_equal. lia.
Qed.

Lemma elements_get m i v : get D i m = Some v <-> nth_error (elements D m) (pred (Pos.to_nat i)) = Some (i, v).
Proof.
  unfold elements, get. rewrite elements_nth. destruct (nth_error m (pred (Pos.to_nat i))) as [w|]; [|split; discriminate].
  replace (Pos.of_nat (Pos.to_nat 1 + pred (Pos.to_nat i))) with i by lia. split; congruence.
Qed.
End HASHMAP.

(** ** Orders *)
Record total {A : Type} (f : A -> A -> comparison) : Prop := {
  t_eq : forall x y, f x y = Eq <-> x = y;
  t_anti : forall x y, f y x = CompOpp (f x y);
  t_trans : forall x y z, f x y = Lt -> f y z = Lt -> f x z = Lt }.

Lemma total_pos : total Pos.compare.
Proof.
  split; [apply Pos.compare_eq_iff|intros; apply Pos.compare_antisym|].
  intros x y z. change (x < y -> y < z -> x < z)%positive. lia.
Qed.

Lemma total_N : total N.compare.
Proof.
  split; [apply N.compare_eq_iff|intros; apply N.compare_antisym|].
  intros x y z. change (x < y -> y < z -> x < z)%N. lia.
Qed.

Lemma total_bool : total compare_bool.
Proof. split; [intros [] []|intros [] []|intros [] [] []]; cbn; intuition congruence. Qed.

Lemma total_refl {A : Type} (f : A -> A -> comparison) x : total f -> f x x = Eq.
Proof. intros T. apply (t_eq f T). reflexivity. Qed.

Lemma lexi_eq {A B : Type} (f : A -> A -> comparison) (g : B -> B -> comparison) a a' b b' :
  total f -> lexi f a a' g b b' = Eq <-> a = a' /\ g b b' = Eq.
Proof.
  intros T. unfold lexi. destruct (f a a') eqn:E; (split; [intros H|intros [H1 H2]]); try discriminate.
  - apply (t_eq f T) in E. auto.
  - exact H2.
  - subst. rewrite total_refl in E by auto. discriminate.
  - subst. rewrite total_refl in E by auto. discriminate.
Qed.

Lemma lexi_anti {A B : Type} (f : A -> A -> comparison) (g : B -> B -> comparison) a a' b b' :
  total f -> g b' b = CompOpp (g b b') -> lexi f a' a g b' b = CompOpp (lexi f a a' g b b').
Proof. intros T H. unfold lexi. rewrite (t_anti f T a a'). destruct (f a a'); cbn; auto. Qed.

Lemma lexi_lt {A B : Type} (f : A -> A -> comparison) (g : B -> B -> comparison) a a' b b' :
  total f -> lexi f a a' g b b' = Lt <-> f a a' = Lt \/ (a = a' /\ g b b' = Lt).
Proof.
  intros T. unfold lexi. destruct (f a a') eqn:E.
  - apply (t_eq f T) in E. split; [auto|]. intros [H|[_ H]]; [discriminate|auto].
  - split; auto.
  - split; [discriminate|]. intros [H|[-> _]]; [discriminate|]. rewrite total_refl in E by auto. discriminate.
Qed.

Lemma lexi_trans {A B : Type} (f : A -> A -> comparison) (g : B -> B -> comparison) a1 a2 a3 b1 b2 b3 :
  total f -> (g b1 b2 = Lt -> g b2 b3 = Lt -> g b1 b3 = Lt) ->
  lexi f a1 a2 g b1 b2 = Lt -> lexi f a2 a3 g b2 b3 = Lt -> lexi f a1 a3 g b1 b3 = Lt.
Proof.
  intros T H. rewrite !lexi_lt by auto. intros [H1|[-> H1]] [H2|[<- H2]]; auto.
  left. eapply (t_trans f T); eauto.
Qed.

Lemma total_list {A : Type} (f : A -> A -> comparison) : total f -> total (compare_list f).
Proof.
  intros T. split.
  - induction x as [|a x IH]; intros [|b y]; cbn; try (split; congruence).
    rewrite lexi_eq, IH by auto. split; [intros [-> ->]; auto|intros H; injection H as -> ->; auto].
  - induction x as [|a x IH]; intros [|b y]; cbn; auto. apply lexi_anti; auto.
  - induction x as [|a x IH]; intros [|b y] [|c z]; cbn; try congruence. apply lexi_trans; [exact T|apply IH].
Qed.

Lemma total_tag : total compare.
Proof.
  pose proof total_pos as TP. pose proof total_N as TN. pose proof (total_list _ TP) as TL. pose proof total_bool as TB.
  split.
  - intros [n x] [m y]. unfold compare. destruct (Pos.compare n m) eqn:E.
    + apply (t_eq _ TP) in E. subst m.
      destruct x, y; try (split; congruence); try (rewrite (t_eq _ TN); split; congruence).
      rewrite lexi_eq, (t_eq _ TL) by auto. split; [intros [-> ->]; auto|intros H; injection H as -> ->; auto].
    + split; [discriminate|]. intro H. injection H as -> ->. rewrite total_refl in E by auto. discriminate.
    + split; [discriminate|]. intro H. injection H as -> ->. rewrite total_refl in E by auto. discriminate.
  - intros [n x] [m y]. unfold compare. rewrite (t_anti _ TP n m). destruct (Pos.compare n m) eqn:E; cbn; auto.
    destruct x, y; auto; try apply (t_anti _ TN). apply lexi_anti; auto. apply (t_anti _ TL).
  - assert (L : forall n x m y, compare (n, x) (m, y) = Lt <-> Pos.compare n m = Lt \/ (n = m /\ compare (n, x) (n, y) = Lt)).
    { intros n x m y. unfold compare. rewrite (total_refl Pos.compare n TP). destruct (Pos.compare n m) eqn:E.
      - apply (t_eq _ TP) in E. subst. split; [auto|]. intros [H|[_ H]]; [discriminate|auto].
      - split; auto.
      - split; [discriminate|]. intros [H|[-> _]]; [discriminate|]. rewrite total_refl in E by auto. discriminate. }
    intros [n x] [m y] [k z]. rewrite (L n x m y), (L m y k z), (L n x k z). intros [H1|[-> H1]] [H2|[<- H2]]; auto.
    + left. eapply (t_trans _ TP); eauto.
    + right. split; [auto|]. clear L. unfold compare in H1, H2 |- *. rewrite Pos.compare_refl in H1, H2 |- *.
      destruct x, y; try discriminate H1; destruct z; try discriminate H2; try reflexivity;
        try exact (t_trans _ TN _ _ _ H1 H2).
      revert H1 H2. apply lexi_trans; [exact TB|apply (t_trans _ TL)].
Qed.
