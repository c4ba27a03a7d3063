(** Concrete heaps: examples for the theorems on the collector, and two states from which the
    collector goes wrong. *)
From Coq Require Import ZArith Bool List Lia.
From Verif Require Import RT_Word RT_Values GC_Model GC_Spec GC_Proofs GC_Step GC_Heap GC_Mutator GC_Export GC_Modify GC_Update.
Import ListNotations.
Open Scope Z_scope.
Ltac Zify.zify_post_hook ::= idtac.

(** A malloc that puts generation [i] at 2^60 (i+1). *)
Definition ex_malloc (i : nat) (n : Z) : option Z :=
  if (0 <=? n) && (n <=? 2 ^ 56) then Some (2 ^ 60 * (Z.of_nat i + 1)) else None.
Definition ex_H (a : Z) : Prop := 2 ^ 60 <= a.

Lemma ex_malloc_ok : malloc_ok ex_malloc ex_H.
Proof.
  unfold malloc_ok, ex_malloc, ex_H. split.
  - intros i n p. destruct (Z.leb_spec 0 n); [|discriminate]. destruct (Z.leb_spec n (2 ^ 56)); [|discriminate].
    cbn [andb]. intros E. assert (Ep : 2 ^ 60 * (Z.of_nat i + 1) = p) by congruence. clear E. subst p.
    change (2 ^ 60) with (2 ^ 57 * 8). split; [lia|]. split.
    + replace (2 ^ 57 * 8 * (Z.of_nat i + 1)) with (2 ^ 57 * (Z.of_nat i + 1) * 8) by ring. apply Z.mod_mul. lia.
    + intros a Ha. lia.
  - intros i j n p n' p'. destruct (Z.leb_spec 0 n); [|discriminate]. destruct (Z.leb_spec n (2 ^ 56)); [|discriminate].
    destruct (Z.leb_spec 0 n'); [|discriminate]. destruct (Z.leb_spec n' (2 ^ 56)); [|discriminate].
    cbn [andb]. intros E E' Ne. assert (Ep : 2 ^ 60 * (Z.of_nat i + 1) = p) by congruence.
    assert (Ep' : 2 ^ 60 * (Z.of_nat j + 1) = p') by congruence. subst p p'. lia.
Qed.

Definition B0 : Z := 2 ^ 60.
Definition B1 : Z := 2 ^ 60 * 2.
Definition B2 : Z := 2 ^ 60 * 3.

(** Three generations.  The oldest holds one object with one field; the middle one an object
    with one field and a string that fills it up to the size of the nursery; the nursery is
    empty.  Root slots: 16 (the oldest object), 24 (the middle one), 32. *)
Definition ex_heap : heap := fun i =>
  match i with
  | 0%nat => {| sp_start := B0; sp_next := B0; sp_limit := B0 + 8 * 65536; sp_rem := B0 + 8 * 65536 |}
  | 1%nat => {| sp_start := B1; sp_next := B1 + 8 * 65536; sp_limit := B1 + 8 * 131072; sp_rem := B1 + 8 * 131072 |}
  | 2%nat => {| sp_start := B2; sp_next := B2 + 16; sp_limit := B2 + 8 * 262144; sp_rem := B2 + 8 * 262144 |}
  | _ => null_space
  end.
Definition ex_ti : thread :=
  {| th_alloc := B0; th_limit := B0 + 8 * 65536; th_heap := ex_heap; th_fp := [(16, 3%nat)]; th_nalloc := 2 |}.
Definition ex_m : mem := fun a =>
  if a =? 16 then B2 + 8 else if a =? 24 then B1 + 8 else if a =? 32 then 1
  else if a =? B2 then 1024 else if a =? B2 + 8 then 1
  else if a =? B1 then 1024 else if a =? B1 + 8 then 7
  else if a =? B1 + 16 then 1024 * 65533 + 252 else 0.
Definition ex_objs (i : nat) : list Z :=
  match i with 1%nat => [B1 + 8; B1 + 24] | 2%nat => [B2 + 8] | _ => [] end.

Lemma ex_slots p : slots_of ex_ti p <-> p = 16 \/ p = 24 \/ p = 32.
Proof.
  unfold slots_of, slot_of. cbn [th_fp ex_ti In]. split.
  - intros (st & n & k & [E|[]] & Hk & ->). injection E as <- <-. lia.
  - intros [E|[E|E]]; subst p.
    + exists 16, 3%nat, 0. split; [left; reflexivity|lia].
    + exists 16, 3%nat, 1. split; [left; reflexivity|lia].
    + exists 16, 3%nat, 2. split; [left; reflexivity|lia].
Qed.

Lemma ex_shape : heap_ok ex_malloc ex_H (slots_of ex_ti) (sync_nursery ex_ti) 2 ex_objs ex_m.
Proof.
  split.
  - constructor.
    + unfold MAX_SPACES. lia.
    + intros [|[|[|i]]] Hi; try lia. reflexivity.
    + reflexivity.
    + intros [|[|[|i]]] Hi; [exists 65536|exists 131072|exists 262144|lia]; split; reflexivity.
    + intros [|[|[|i]]] Hi; try lia; (split; [split; vm_compute; discriminate|split; reflexivity]).
    + intros [|[|i]] Hi; [| |lia]; reflexivity.
    + intros [|[|[|i]]] Hi; [constructor| | |lia].
      * change (objects_in ex_m B1 [B1 + 8; B1 + 24] (B1 + 8 * 65536)).
        constructor; [vm_compute; discriminate|].
        replace (B1 + 8 + 8 * size ex_m (B1 + 8)) with (B1 + 16) by reflexivity.
        replace (B1 + 24) with (B1 + 16 + 8) by lia.
        constructor; [vm_compute; discriminate|].
        replace (B1 + 16 + 8 + 8 * size ex_m (B1 + 16 + 8)) with (B1 + 8 * 65536) by reflexivity. constructor.
      * change (objects_in ex_m B2 [B2 + 8] (B2 + 16)). constructor; [vm_compute; discriminate|].
        replace (B2 + 8 + 8 * size ex_m (B2 + 8)) with (B2 + 16) by reflexivity. constructor.
    + intros p Hp. apply ex_slots in Hp. unfold ex_H. lia.
    + intros p Hp. apply ex_slots in Hp. intros P Q. destruct Hp as [E|[E|E]]; subst p.
      * exists 2%nat. split; [lia|left; reflexivity].
      * exists 1%nat. split; [lia|left; reflexivity].
      * vm_compute in P. discriminate.
    + intros [|[|[|j]]] a i Hj Ha NR Hi P Q; [destruct Ha| | |lia].
      * destruct Ha as [E|[E|[]]]; subst a.
        -- change (size ex_m (B1 + 8)) with 1 in Hi. assert (i = 0) by lia. subst i. vm_compute in P. discriminate.
        -- exfalso. apply NR. vm_compute. discriminate.
      * destruct Ha as [E|[]]; subst a. change (size ex_m (B2 + 8)) with 1 in Hi. assert (i = 0) by lia. subst i.
        vm_compute in P. discriminate.
  - intros [|[|i]] Hi; [| |lia]; vm_compute; discriminate.
Qed.

Lemma ex_ok : mut_ok ex_malloc ex_H (ex_ti, ex_m).
Proof. exists 2%nat, ex_objs. exact ex_shape. Qed.

Definition okv {A} (d : A) (r : cres A) : A := match r with Ok a => a | _ => d end.
Definition isok {A} (r : cres A) : bool := match r with Ok _ => true | _ => false end.
Lemma okv_eq {A} (d : A) r : isok r = true -> r = Ok (okv d r).
Proof. destruct r; [reflexivity|discriminate|discriminate]. Qed.

(** *** A forgotten record

    The field of the oldest object is set to the middle object through the write barrier; a
    collection empties the nursery; the program allocates; a second collection moves the middle
    generation. *)
Definition q0 : state := (ex_ti, ex_m).
Definition q1 : state := okv q0 (certirocq_modify (fst q0) (snd q0) (B2 + 8) (B1 + 8)).
Definition q2 : state := okv q0 (garbage_collect ex_malloc (fst q1) (snd q1)).
Definition q3 : state :=
  (with_alloc (fst q2) (th_alloc (fst q2) + 16), upd (store_words (snd q2) (th_alloc (fst q2)) [1024; 3]) 32 (th_alloc (fst q2) + 8)).
Definition q4 : state := okv q0 (garbage_collect ex_malloc (fst q3) (snd q3)).

Lemma q1_eq : certirocq_modify (fst q0) (snd q0) (B2 + 8) (B1 + 8) = Ok q1.
Proof. apply okv_eq. vm_compute. reflexivity. Qed.
Lemma q2_eq : garbage_collect ex_malloc (fst q1) (snd q1) = Ok q2.
Proof. apply okv_eq. vm_compute. reflexivity. Qed.
Lemma q4_eq : garbage_collect ex_malloc (fst q3) (snd q3) = Ok q4.
Proof. apply okv_eq. vm_compute. reflexivity. Qed.

Lemma q3_step : pstep ex_H q2 q3.
Proof.
  unfold q3. rewrite (surjective_pairing q2) at 1.
  apply (st_alloc ex_H (fst q2) (snd q2) 0 [3] 32).
  - cbn. lia.
  - lia.
  - vm_compute. discriminate.
  - exists 16, 3%nat, 2. split; [left; reflexivity|]. lia.
  - right. intros w [<-|[]]. left. intros [P _]. discriminate P.
Qed.

Theorem q4_dangling : ~ exists phi, same_graph ex_H (slots_of (fst q3)) (snd q3) (snd q4) phi.
Proof.
  intros (phi & S).
  assert (S16 : slots_of (fst q3) 16) by (exists 16, 3%nat, 0; split; [left; vm_compute; reflexivity|lia]).
  assert (S24 : slots_of (fst q3) 24) by (exists 16, 3%nat, 1; split; [left; vm_compute; reflexivity|lia]).
  assert (M16 : snd q3 16 = B2 + 8) by (vm_compute; reflexivity).
  assert (M24 : snd q3 24 = B1 + 8) by (vm_compute; reflexivity).
  assert (MF : snd q3 (B2 + 8) = B1 + 8) by (vm_compute; reflexivity).
  assert (R2 : reachable ex_H (snd q3) (slots_of (fst q3)) (B2 + 8)).
  { rewrite <- M16. apply reach_slot; [exact S16| |]; rewrite M16; [reflexivity|unfold ex_H, B2; lia]. }
  assert (R1 : reachable ex_H (snd q3) (slots_of (fst q3)) (B1 + 8)).
  { rewrite <- M24. apply reach_slot; [exact S24| |]; rewrite M24; [reflexivity|unfold ex_H, B1; lia]. }
  pose proof (sg_slot _ _ _ _ _ S 16 S16) as E2. rewrite M16 in E2.
  replace (snd q4 16) with (B2 + 8) in E2 by (vm_compute; reflexivity).
  assert (NR : ~ raw (snd q3) (B2 + 8)).
  { unfold raw. replace (tag (snd q3) (B2 + 8)) with 0 by (vm_compute; reflexivity). lia. }
  assert (Sz : size (snd q3) (B2 + 8) = 1) by (vm_compute; reflexivity).
  pose proof (sg_field _ _ _ _ _ S (B2 + 8) 0 R2 NR ltac:(lia)) as E1.
  rewrite <- E2 in E1. replace (B2 + 8 + 8 * 0) with (B2 + 8) in E1 by lia. rewrite MF in E1.
  replace (snd q4 (B2 + 8)) with (B1 + 8) in E1 by (vm_compute; reflexivity).
  pose proof (sg_header _ _ _ _ _ S _ R1) as E. rewrite <- E1 in E.
  replace (snd q4 (B1 + 8 - 8)) with 0 in E by (vm_compute; reflexivity).
  replace (snd q3 (B1 + 8 - 8)) with 1024 in E by (vm_compute; reflexivity). discriminate.
Qed.

(** *** [garbage_collect_all] does not keep the size discipline *)
Definition g0 : state := (with_alloc ex_ti (B0 + 16), upd (store_words ex_m B0 [1024; 3]) 32 (B0 + 8)).
Lemma g0_step : pstep ex_H (ex_ti, ex_m) g0.
Proof.
  apply (st_alloc ex_H ex_ti ex_m 0 [3] 32).
  - cbn. lia.
  - lia.
  - vm_compute. discriminate.
  - apply ex_slots. auto.
  - right. intros w [<-|[]]. left. intros [P _]. discriminate P.
Qed.
Lemma g0_ok : mut_ok ex_malloc ex_H g0.
Proof. apply (pstep_ok ex_malloc ex_H ex_malloc_ok _ _ ex_ok g0_step). Qed.

Definition g1 : nat * thread * mem := okv (0%nat, ex_ti, ex_m) (garbage_collect_all (fst g0) (snd g0)).
Lemma g1_eq : garbage_collect_all (fst g0) (snd g0) = Ok g1.
Proof. apply okv_eq. vm_compute. reflexivity. Qed.

(** The nursery is not reset: the program goes on allocating after the moved objects, and what
    the root slot held is at [B2 + ..]; words below the allocation pointer are no longer
    objects (their headers are zero). *)
Lemma g1_stale : th_alloc (snd (fst g1)) = B0 + 16 /\ snd g1 B0 = 0.
Proof. split; vm_compute; reflexivity. Qed.

Theorem g1_not_ok : ~ mut_ok ex_malloc ex_H (snd (fst g1), snd g1).
Proof.
  intros (k & objs & S & _). cbn [fst snd] in S.
  pose proof (sh_objs _ _ _ _ _ _ _ S 0%nat ltac:(lia)) as O.
  replace (sp_start (sync_nursery (snd (fst g1)) 0%nat)) with B0 in O by (vm_compute; reflexivity).
  replace (sp_next (sync_nursery (snd (fst g1)) 0%nat)) with (B0 + 16) in O by (vm_compute; reflexivity).
  assert (Ne : B0 + 16 <> B0) by (unfold B0; lia). generalize dependent (B0 + 16). intros e O Ne.
  inversion O as [a Ea|a l b S1 O' Ea].
  - congruence.
  - unfold size in S1. replace (snd g1 (B0 + 8 - 8)) with 0 in S1 by (vm_compute; reflexivity). cbn in S1. lia.
Qed.
