(** * Property C92: interning is a bijection, and tags are totally ordered

    The lemmas admitted in libraries/HashMap.v:61-64, 79-87, 97-100 and left open in
    theories/LambdaANF/tags.v:85-103. *)
From Coq Require Import PArith NArith List Lia Bool.
From Verif Require Import HM_Model HM_Proofs.
Import ListNotations.

Section INTERN.
Variable D : Type.
Variable eq_dec : forall x y : D, {x = y} + {x <> y}.

(** the maps one can build *)
Inductive built : hmap D -> Prop :=
| built_empty : built (empty D)
| built_hash v m : built m -> built (snd (hash D eq_dec v m)).

Lemma built_nodup m : built m -> NoDup m.
Proof.
  induction 1 as [|v m _ IH]; [constructor|]. pose proof (hash_new D eq_dec v m IH) as H.
  destruct (hash D eq_dec v m). apply H.
Qed.
End INTERN.

(** every map that can be built: an element has one number and keeps it, a number one
    element; interning an element adds at most that element; the list of all elements has
    them at their numbers *)
Theorem C92_intern : forall D eq_dec m, built D eq_dec m ->
  (forall i, get D i (empty D) = None) /\
  (forall i x, get D i m = Some x <-> hash D eq_dec x m = (i, m)) /\
  (forall i j x, get D i m = Some x -> get D j m = Some x -> i = j) /\
  (forall x, let '(i, m') := hash D eq_dec x m in
     get D i m' = Some x /\ (forall j y, get D j m = Some y -> get D j m' = Some y) /\
     (forall j y, get D j m' = Some y -> get D j m = Some y \/ y = x)) /\
  (forall i x, get D i m = Some x <-> nth_error (elements D m) (pred (Pos.to_nat i)) = Some (i, x)).
Proof.
  intros D eq_dec m B. apply built_nodup in B. split; [|split; [|split; [|split]]].
  - intro i. unfold get, empty. destruct (pred (Pos.to_nat i)); reflexivity.
  - intros i x. apply get_hash. exact B.
  - intros i j x H1 H2. apply (get_hash D eq_dec) in H1; auto. apply (get_hash D eq_dec) in H2; auto. congruence.
  - intro x. pose proof (hash_new D eq_dec x m B) as H. destruct (hash D eq_dec x m). apply H.
  - intros i x. apply elements_get.
Qed.
Print Assumptions C92_intern.

(** the order of tags is a strict total order that distinguishes all tags *)
Theorem C92_tags : 
  (forall x y, compare x y = Eq <-> x = y) /\
  (forall x, compare x x <> Lt) /\
  (forall x y z, compare x y = Lt -> compare y z = Lt -> compare x z = Lt) /\
  (forall x y, CompareSpec (x = y) (compare x y = Lt) (compare y x = Lt) (compare x y)).
Proof.
  pose proof total_tag as T. split; [apply (t_eq _ T)|split; [|split; [apply (t_trans _ T)|]]].
  - intros x. rewrite (total_refl compare x T). discriminate.
  - intros x y. destruct (compare x y) eqn:E; constructor; auto.
    + apply (t_eq _ T). exact E.
    + rewrite (t_anti _ T x y), E. reflexivity.
Qed.
Print Assumptions C92_tags.

(** equality of tags, from the order *)
Definition tag_eq_dec (x y : tag) : {x = y} + {x <> y}.
Proof.
  destruct (compare x y) eqn:E; [left; apply C92_tags; exact E|right|right]; intros H; apply C92_tags in H; congruence.
Defined.

(** interning tags: the second of two equal tags gets the number of the first *)
Definition tag_dict : hmap tag :=
  fold_left (fun m v => snd (hash tag tag_eq_dec v m))
    [(2%positive, Tag_record 3); (2%positive, Tag_fun true [5; 6]%positive); (2%positive, Tag_record 3);
     (2%positive, Tag_fun true [5]%positive)] (empty tag).

Example C92_intern_example :
  built tag tag_eq_dec tag_dict
  /\ fst (hash tag tag_eq_dec (2%positive, Tag_fun true [5]%positive) tag_dict) = 3%positive
  /\ elements tag tag_dict = [(1%positive, (2%positive, Tag_record 3)); (2%positive, (2%positive, Tag_fun true [5; 6]%positive));
                              (3%positive, (2%positive, Tag_fun true [5]%positive))].
Proof. split; [cbn [tag_dict fold_left]; unfold tag_dict; cbn [fold_left]; repeat constructor|split; vm_compute; reflexivity]. Qed.

Example C92_tags_example :
  compare (2%positive, Tag_fun true [5]%positive) (2%positive, Tag_fun true [5; 6]%positive) = Lt
  /\ compare (2%positive, Tag_fun true [5; 6]%positive) (3%positive, Tag_record 0) = Lt.
Proof. split; reflexivity. Qed.
