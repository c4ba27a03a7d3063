(** What it means that a collection keeps the object graph; independent of the collector.

    A word is an immediate (odd) or an address (even).  [H] tells which addresses belong to the
    managed heap; other even words (code addresses, data of the host) are opaque constants.  An
    object is given by the address [a] of its first field; the word before it is its header:
    number of fields times 1024 plus a tag below 256 (two bits in between are unused).  Objects
    whose tag is at least 251 carry raw data, not values. *)
From Coq Require Import ZArith Bool List Lia.
Open Scope Z_scope.

Definition pointer (w : Z) : Prop := Z.even w = true.
Definition size (m : Z -> Z) (a : Z) : Z := m (a - 8) / 1024.
Definition tag (m : Z -> Z) (a : Z) : Z := m (a - 8) mod 256.
Definition raw (m : Z -> Z) (a : Z) : Prop := 251 <= tag m a.

(** Objects that can be reached from the words stored in [slots]. *)
Inductive reachable (H : Z -> Prop) (m : Z -> Z) (slots : Z -> Prop) : Z -> Prop :=
| reach_slot r : slots r -> pointer (m r) -> H (m r) -> reachable H m slots (m r)
| reach_field a i : reachable H m slots a -> ~ raw m a -> 0 <= i < size m a ->
    pointer (m (a + 8 * i)) -> H (m (a + 8 * i)) -> reachable H m slots (m (a + 8 * i)).

(** [phi] is an isomorphism from the graph seen from [slots] in memory [m] to the one in
    memory [m']: it moves heap addresses only; every slot, header and field corresponds; raw
    data is unchanged; different objects stay different (sharing is neither lost nor
    introduced). *)
Record same_graph (H : Z -> Prop) (slots : Z -> Prop) (m m' : Z -> Z) (phi : Z -> Z) : Prop := {
  sg_const : forall w, ~ (pointer w /\ H w) -> phi w = w;
  sg_slot : forall r, slots r -> m' r = phi (m r);
  sg_header : forall a, reachable H m slots a -> m' (phi a - 8) = m (a - 8);
  sg_field : forall a i, reachable H m slots a -> ~ raw m a -> 0 <= i < size m a ->
    m' (phi a + 8 * i) = phi (m (a + 8 * i));
  sg_raw : forall a i, reachable H m slots a -> raw m a -> 0 <= i < size m a ->
    m' (phi a + 8 * i) = m (a + 8 * i);
  sg_object : forall a, reachable H m slots a -> pointer (phi a) /\ H (phi a);
  sg_inj : forall a b, reachable H m slots a -> reachable H m slots b -> phi a = phi b -> a = b }.

(** A region of memory cut into objects: [objects_in m a l b] says that the objects [l] lie one
    after the other from [a] (inclusive) to [b] (exclusive), each with at least one field. *)
Inductive objects_in (m : Z -> Z) : Z -> list Z -> Z -> Prop :=
| oi_nil a : objects_in m a nil a
| oi_cons a l b : 1 <= size m (a + 8) -> objects_in m (a + 8 + 8 * size m (a + 8)) l b ->
    objects_in m a (cons (a + 8) l) b.

(** The isomorphism relation is reflexive and composes, and reachability is carried over. *)
Lemma same_graph_refl H slots m : same_graph H slots m m (fun w => w).
Proof.
  split; auto. intros a R. inversion R; subst; auto.
Qed.

Lemma same_graph_reach H slots m m' phi : same_graph H slots m m' phi ->
  forall a, reachable H m slots a -> reachable H m' slots (phi a).
Proof.
  intros S a R. pose proof R as R0. induction R as [r Hr P Hh | a i R IH NR Hi P Hh].
  - rewrite <- (sg_slot _ _ _ _ _ S r Hr) in *.
    destruct (sg_object _ _ _ _ _ S _ R0) as [P' H']. rewrite <- (sg_slot _ _ _ _ _ S r Hr) in *.
    apply reach_slot; assumption.
  - destruct (sg_object _ _ _ _ _ S _ R0) as [P' H'].
    pose proof (sg_header _ _ _ _ _ S a R) as Eh.
    rewrite <- (sg_field _ _ _ _ _ S a i R NR Hi) in *.
    apply reach_field; auto.
    + unfold raw, tag. rewrite Eh. exact NR.
    + unfold size. rewrite Eh. exact Hi.
Qed.

Lemma same_graph_trans H slots m1 m2 m3 phi psi :
  same_graph H slots m1 m2 phi -> same_graph H slots m2 m3 psi ->
  same_graph H slots m1 m3 (fun w => psi (phi w)).
Proof.
  intros S1 S2. pose proof (same_graph_reach _ _ _ _ _ S1) as RR. split.
  - intros w N. rewrite (sg_const _ _ _ _ _ S1 w N). apply (sg_const _ _ _ _ _ S2 w N).
  - intros r Hr. rewrite (sg_slot _ _ _ _ _ S2 r Hr), (sg_slot _ _ _ _ _ S1 r Hr). reflexivity.
  - intros a R. rewrite (sg_header _ _ _ _ _ S2 _ (RR a R)). apply (sg_header _ _ _ _ _ S1 a R).
  - intros a i R N Hi. pose proof (sg_header _ _ _ _ _ S1 a R) as Eh.
    rewrite (sg_field _ _ _ _ _ S2 _ i (RR a R)).
    + rewrite (sg_field _ _ _ _ _ S1 a i R N Hi). reflexivity.
    + unfold raw, tag. rewrite Eh. exact N.
    + unfold size. rewrite Eh. exact Hi.
  - intros a i R N Hi. pose proof (sg_header _ _ _ _ _ S1 a R) as Eh.
    rewrite (sg_raw _ _ _ _ _ S2 _ i (RR a R)).
    + rewrite (sg_raw _ _ _ _ _ S1 a i R N Hi). reflexivity.
    + unfold raw, tag. rewrite Eh. exact N.
    + unfold size. rewrite Eh. exact Hi.
  - intros a R. apply (sg_object _ _ _ _ _ S2 _ (RR a R)).
  - intros a b Ra Rb E. apply (sg_inj _ _ _ _ _ S1 a b Ra Rb).
    apply (sg_inj _ _ _ _ _ S2 _ _ (RR a Ra) (RR b Rb) E).
Qed.

(** ** States in which a generation can be collected *)

(** [slot_of fr p]: [p] is the address of a live root slot of one of the stack frames
    (start address, number of slots). *)
Definition slot_of (fr : list (Z * nat)) (p : Z) : Prop :=
  exists start n k, In (start, n) fr /\ 0 <= k < Z.of_nat n /\ p = start + 8 * k.

(** The remembered cells of a space whose remembered set occupies the words from [lim] to
    [rem]; cells inside the space [st, lim) itself do not count. *)
Definition remembered (m : Z -> Z) (st lim rem : Z) (c : Z) : Prop :=
  ~ (st <= c < lim) /\ exists k, 0 <= k < (rem - lim) / 8 /\ c = m (lim + 8 * k).

(** [fs], [fn], [fl], [fr]: start, end of objects, limit and end of remembered set of the
    generation to collect; [ts], [tn], [tl]: start, end of objects and limit of the one that
    receives; [objs] the objects of the first; [R] the root slots. *)
Record collectable (H R : Z -> Prop) (m : Z -> Z) (objs : list Z) (fs fn fl fr ts tn tl : Z) : Prop := {
  co_from : fs <= fn <= fl /\ fl <= fr /\ fs mod 8 = 0 /\ fl mod 8 = 0 /\ fr mod 8 = 0;
  co_to : ts <= tn <= tl /\ ts mod 8 = 0 /\ tn mod 8 = 0 /\ tl mod 8 = 0;
  co_objs : objects_in m fs objs fn;
  (* room for all objects and all remembered cells *)
  co_room : (fn - fs) + (fr - fl) <= tl - tn;
  co_apart : fr <= ts \/ tl <= fs;
  co_heap : forall a, fs <= a < fl \/ tn <= a < tl -> H a;
  (* root slots and remembered cells are not in the memory being reorganised *)
  co_roots : forall p, R p -> ~ (fs <= p < fr) /\ ~ (tn <= p < tl);
  co_cells : forall c, remembered m fs fl fr c -> ~ (fs <= c < fr) /\ ~ (tn <= c < tl);
  (* what is reachable in this generation is an object *)
  co_reach : forall a, reachable H m (fun p => R p \/ remembered m fs fl fr p) a -> fs <= a < fl -> In a objs;
  (* reachable objects elsewhere: not in the memory being reorganised, and their pointers
     into this generation are remembered *)
  co_else : forall a, reachable H m R a -> ~ (fs <= a < fl) ->
    1 <= size m a /\
    (forall i, -1 <= i < size m a -> ~ (fs <= a + 8 * i < fl) /\ ~ (tn <= a + 8 * i < tl) /\ ~ R (a + 8 * i)) /\
    ~ remembered m fs fl fr (a - 8) /\
    (forall i, 0 <= i < size m a -> raw m a -> ~ remembered m fs fl fr (a + 8 * i)) /\
    (forall i, 0 <= i < size m a -> ~ raw m a -> pointer (m (a + 8 * i)) -> fs <= m (a + 8 * i) < fl ->
       remembered m fs fl fr (a + 8 * i)) }.
