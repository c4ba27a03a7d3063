(** A whole collection: the theorem about [garbage_collect] for heaps without remembered cells
    (programs that never overwrite a field). *)
From Coq Require Import ZArith Bool List Lia.
From Verif Require Import RT_Word RT_Values GC_Model GC_Spec GC_Proofs GC_Step.
Import ListNotations.
Open Scope Z_scope.
Ltac Zify.zify_post_hook ::= idtac.

(** What is asked of malloc: results are nonzero multiples of 8, the arrays of different
    generations do not overlap, and the managed heap [H] comprises them. *)
Definition malloc_ok (malloc : nat -> Z -> option Z) (H : Z -> Prop) : Prop :=
  (forall i n p, malloc i n = Some p -> 0 < p /\ p mod 8 = 0 /\ forall a, p <= a < p + 8 * n -> H a) /\
  (forall i j n p n' p', malloc i n = Some p -> malloc j n' = Some p' -> i <> j -> p + 8 * n <= p' \/ p' + 8 * n' <= p).

(** Generations 0..k exist, contain the objects [objs 0] .. [objs k] one after the other, are
    arrays obtained from malloc; every heap pointer in a root slot is one of these objects, and
    every heap pointer in a field is an object of the same or an older generation. *)
Record shape (malloc : nat -> Z -> option Z) (H R : Z -> Prop) (h : heap) (k : nat) (objs : nat -> list Z) (m : mem) : Prop := {
  sh_k : (k < MAX_SPACES)%nat;
  sh_null : forall i, (k < i)%nat -> sp_start (h i) = 0;
  sh_nursery : sp_rem (h 0%nat) - sp_start (h 0%nat) = 8 * NURSERY_SIZE;
  sh_malloc : forall i, (i <= k)%nat -> exists n, malloc i n = Some (sp_start (h i)) /\ sp_rem (h i) = sp_start (h i) + 8 * n;
  sh_space : forall i, (i <= k)%nat -> sp_start (h i) <= sp_next (h i) <= sp_limit (h i) /\ sp_limit (h i) = sp_rem (h i) /\ sp_next (h i) mod 8 = 0;
  sh_grow : forall i, (i < k)%nat -> sp_rem (h (S i)) - sp_start (h (S i)) = 2 * (sp_rem (h i) - sp_start (h i));
  sh_objs : forall i, (i <= k)%nat -> objects_in m (sp_start (h i)) (objs i) (sp_next (h i));
  sh_roots : forall p, R p -> ~ H p;
  sh_rootv : forall p, R p -> pointer (m p) -> H (m p) -> exists i, (i <= k)%nat /\ In (m p) (objs i);
  sh_field : forall j a i, (j <= k)%nat -> In a (objs j) -> ~ raw m a -> 0 <= i < size m a ->
    pointer (m (a + 8 * i)) -> H (m (a + 8 * i)) -> exists j', (j <= j' <= k)%nat /\ In (m (a + 8 * i)) (objs j') }.

(** Generation [i] fits in what is free in generation [i+1]. *)
Definition fits (h : heap) (i : nat) : Prop :=
  sp_rem (h i) - sp_start (h i) <= sp_limit (h (S i)) - sp_next (h (S i)).

Definition heap_ok malloc H R h k objs m : Prop :=
  shape malloc H R h k objs m /\ forall i, (i < k)%nat -> fits h i.

Lemma objects_in_ext m m' a l b : objects_in m a l b -> (forall x, a <= x < b -> m' x = m x) -> objects_in m' a l b.
Proof.
  intros O. induction O as [a|a l b S1 O IH]; intros Ex; [constructor|].
  destruct (objects_in_range _ _ _ _ O) as [Le _].
  assert (Es : size m' (a + 8) = size m (a + 8)).
  { unfold size. rewrite Ex by lia. reflexivity. }
  constructor; rewrite Es; [exact S1|]. apply IH. intros x Hx. apply Ex. lia.
Qed.

Lemma objects_in_app m a l b : objects_in m a l b -> forall l' c, objects_in m b l' c -> objects_in m a (l ++ l') c.
Proof. intros O. induction O as [|a l b S1 O IH]; intros l' c O'; cbn [app]; [exact O'|]. constructor; auto. Qed.

Lemma objects_in_empty m a l : objects_in m a l a -> l = [].
Proof.
  intros O. inversion O as [|? ? ? S1 O']; [reflexivity|]. exfalso.
  destruct (objects_in_range _ _ _ _ O') as [Le _]. lia.
Qed.

Section Shape.
Variables (malloc : nat -> Z -> option Z) (H R : Z -> Prop).
Notation shape := (shape malloc H R).

Lemma sh_obj h k objs m : shape h k objs m -> forall i a, (i <= k)%nat -> In a (objs i) ->
  sp_start (h i) + 8 <= a /\ a + 8 * size m a <= sp_next (h i) /\ 1 <= size m a.
Proof.
  intros S i a Hi Ha. destruct (objects_in_range _ _ _ _ (sh_objs _ _ _ _ _ _ _ S i Hi)) as [_ X].
  destruct (X a Ha) as (A & B & C & _). auto.
Qed.

Lemma sh_reach h k objs m : shape h k objs m -> forall a, reachable H m R a -> exists i, (i <= k)%nat /\ In a (objs i).
Proof.
  intros S a Ra. induction Ra as [r Hr P Hh | a i Ra IH NR Hi P Hh].
  - apply (sh_rootv _ _ _ _ _ _ _ S); assumption.
  - destruct IH as (j & Hj & Hin). destruct (sh_field _ _ _ _ _ _ _ S j a i Hj Hin NR Hi P Hh) as (j' & Hj' & Hin').
    exists j'. split; [lia|exact Hin'].
Qed.

Hypothesis MOK : malloc_ok malloc H.

Lemma sh_info h k objs m : shape h k objs m -> forall i, (i <= k)%nat ->
  0 < sp_start (h i) /\ sp_start (h i) mod 8 = 0 /\ sp_rem (h i) mod 8 = 0 /\
  (forall a, sp_start (h i) <= a < sp_rem (h i) -> H a).
Proof.
  intros S i Hi. destruct (sh_malloc _ _ _ _ _ _ _ S i Hi) as (n & E & Er).
  destruct (proj1 MOK _ _ _ E) as (A & B & C). repeat split; auto.
  - rewrite Er. rewrite Z.mul_comm, Z.mod_add by lia. exact B.
  - rewrite Er. exact C.
Qed.

Lemma sh_apart h k objs m : shape h k objs m -> forall i j, (i <= k)%nat -> (j <= k)%nat -> i <> j ->
  sp_rem (h i) <= sp_start (h j) \/ sp_rem (h j) <= sp_start (h i).
Proof.
  intros S i j Hi Hj Ne. destruct (sh_malloc _ _ _ _ _ _ _ S i Hi) as (n & E & Er).
  destruct (sh_malloc _ _ _ _ _ _ _ S j Hj) as (n' & E' & Er'). rewrite Er, Er'.
  apply (proj2 MOK i j n _ n' _ E E' Ne).
Qed.

End Shape.

Section Heap.
Variables (malloc : nat -> Z -> option Z) (H : Z -> Prop) (frs : frames).
Notation R := (slot_of frs).
Hypothesis MOK : malloc_ok malloc H.

Notation shape := (shape malloc H R).

Lemma no_cells m s x c : ~ remembered m s x x c.
Proof. intros [_ (k & Hk & _)]. rewrite Z.sub_diag in Hk. cbn in Hk. lia. Qed.

Lemma no_cells_reach m s x a : reachable H m (fun p => R p \/ remembered m s x x p) a -> reachable H m R a.
Proof. apply reachable_mono. intros p [Hp|Hp]; [exact Hp|]. destruct (no_cells _ _ _ _ Hp). Qed.

(** ** One iteration *)

Definition objs_after (objs : nat -> list Z) (i : nat) (news : list Z) (j : nat) : list Z :=
  if Nat.eqb j i then [] else if Nat.eqb j (S i) then objs (S i) ++ news else objs j.

Lemma step_collectable h k objs m i : shape h k objs m -> (S i <= k)%nat -> (forall j, (j < i)%nat -> objs j = []) ->
  fits h i ->
  collectable H R m (objs i) (sp_start (h i)) (sp_next (h i)) (sp_limit (h i)) (sp_rem (h i))
    (sp_start (h (S i))) (sp_next (h (S i))) (sp_limit (h (S i))).
Proof.
  intros S Hi He Hf.
  destruct (sh_info _ _ _ MOK _ _ _ _ S i ltac:(lia)) as (A1 & A2 & A3 & A4).
  destruct (sh_info _ _ _ MOK _ _ _ _ S (Datatypes.S i) ltac:(lia)) as (B1 & B2 & B3 & B4).
  destruct (sh_space _ _ _ _ _ _ _ S i ltac:(lia)) as (A5 & A6 & A7).
  destruct (sh_space _ _ _ _ _ _ _ S (Datatypes.S i) ltac:(lia)) as (B5 & B6 & B7).
  unfold fits in Hf.
  pose proof (sh_apart _ _ _ MOK _ _ _ _ S i (Datatypes.S i) ltac:(lia) ltac:(lia) ltac:(lia)) as Ap.
  pose proof (sh_objs _ _ _ _ _ _ _ S i ltac:(lia)) as O.
  constructor.
  - rewrite A6. repeat split; auto; lia.
  - rewrite B6. repeat split; auto; lia.
  - exact O.
  - lia.
  - rewrite B6. exact Ap.
  - intros a [Ha|Ha]; [apply A4; lia|apply B4; lia].
  - intros p Hp. pose proof (sh_roots _ _ _ _ _ _ _ S p Hp) as N. split; intros X; apply N; [apply A4|apply B4]; lia.
  - intros c Hc. exfalso. rewrite A6 in Hc. exact (no_cells _ _ _ _ Hc).
  - intros a Ra Fa. rewrite A6 in Ra. apply no_cells_reach in Ra.
    destruct (sh_reach _ _ _ _ _ _ _ S a Ra) as (j & Hj & Hin).
    destruct (Nat.eq_dec j i) as [->|Ne]; [exact Hin|]. exfalso.
    pose proof (sh_obj _ _ _ _ _ _ _ S j a Hj Hin). pose proof (sh_apart _ _ _ MOK _ _ _ _ S i j ltac:(lia) Hj ltac:(lia)).
    pose proof (sh_space _ _ _ _ _ _ _ S j Hj). lia.
  - intros a Ra Fa. destruct (sh_reach _ _ _ _ _ _ _ S a Ra) as (j & Hj & Hin).
    pose proof (sh_obj _ _ _ _ _ _ _ S j a Hj Hin) as Ob.
    assert (Hj2 : (i < j)%nat).
    { destruct (Compare_dec.lt_eq_lt_dec j i) as [[L|Eji]|L]; [|subst j; exfalso; lia|exact L].
      rewrite He in Hin by exact L. destruct Hin. }
    pose proof (sh_apart _ _ _ MOK _ _ _ _ S i j ltac:(lia) Hj ltac:(lia)) as Ap2.
    destruct (sh_space _ _ _ _ _ _ _ S j Hj) as (C1 & C2 & C3).
    destruct (sh_info _ _ _ MOK _ _ _ _ S j Hj) as (D1 & D2 & D3 & D4).
    rewrite A6. split; [lia|]. split; [|split; [|split]].
    + intros x Hx. split; [lia|]. split.
      * destruct (Nat.eq_dec j (Datatypes.S i)) as [->|Ne]; [lia|].
        pose proof (sh_apart _ _ _ MOK _ _ _ _ S (Datatypes.S i) j ltac:(lia) Hj ltac:(lia)). lia.
      * intros Hr. apply (sh_roots _ _ _ _ _ _ _ S _ Hr). apply D4. lia.
    + apply no_cells.
    + intros x _ _. apply no_cells.
    + intros x Hx NR P Fx. exfalso. assert (Fx2 : sp_start (h i) <= m (a + 8 * x) < sp_rem (h i)) by lia.
      destruct (sh_field _ _ _ _ _ _ _ S j a x Hj Hin NR Hx P (A4 (m (a + 8 * x)) Fx2)) as (j' & Hj' & Hin').
      pose proof (sh_obj _ _ _ _ _ _ _ S j' _ ltac:(lia) Hin') as Ob'.
      pose proof (sh_apart _ _ _ MOK _ _ _ _ S i j' ltac:(lia) ltac:(lia) ltac:(lia)) as Ap3.
      pose proof (sh_space _ _ _ _ _ _ _ S j' ltac:(lia)). lia.
Qed.

Lemma step_shape h k objs m i from' to' m' phi news : shape h k objs m -> (S i <= k)%nat ->
  (forall j, (j < i)%nat -> objs j = []) -> fits h i ->
  step_result H R m m' (objs i) (h i) (h (S i)) from' to' phi news ->
  shape (set_space (set_space h i from') (S i) to') k (objs_after objs i news) m' /\
  (forall a, ~ H a -> ~ R a -> m' a = m a).
Proof.
  intros S Hi He Hf SR.
  destruct (sh_info _ _ _ MOK _ _ _ _ S i ltac:(lia)) as (A1 & A2 & A3 & A4).
  destruct (sh_info _ _ _ MOK _ _ _ _ S (Datatypes.S i) ltac:(lia)) as (B1 & B2 & B3 & B4).
  destruct (sh_space _ _ _ _ _ _ _ S i ltac:(lia)) as (A5 & A6 & A7).
  destruct (sh_space _ _ _ _ _ _ _ S (Datatypes.S i) ltac:(lia)) as (B5 & B6 & B7).
  unfold fits in Hf.
  pose proof (sr_graph _ _ _ _ _ _ _ _ _ _ _ SR) as SG.
  pose proof (sr_from _ _ _ _ _ _ _ _ _ _ _ SR) as Ef. subst from'.
  destruct (sr_to _ _ _ _ _ _ _ _ _ _ _ SR) as (T1 & T2 & T3 & T4 & T5 & T6 & T7).
  pose proof (sr_news _ _ _ _ _ _ _ _ _ _ _ SR) as NW.
  pose proof (sr_copy _ _ _ _ _ _ _ _ _ _ _ SR) as CP.
  pose proof (sr_moved _ _ _ _ _ _ _ _ _ _ _ SR) as MV.
  pose proof (sr_fixed _ _ _ _ _ _ _ _ _ _ _ SR) as FX.
  pose proof (sr_frame _ _ _ _ _ _ _ _ _ _ _ SR) as FR.
  rewrite A6 in *.
  assert (FR' : forall a, ~ (sp_start (h i) <= a < sp_next (h i)) ->
     ~ (sp_next (h (Datatypes.S i)) <= a < sp_limit (h (Datatypes.S i))) -> ~ R a -> m' a = m a).
  { intros a N1 N2 N3. apply FR; auto. apply no_cells. }
  assert (Old : forall j, (j <= k)%nat -> (i < j)%nat -> forall a, sp_start (h j) <= a < sp_next (h j) -> m' a = m a).
  { intros j Hj Hlt a Ha. pose proof (sh_apart _ _ _ MOK _ _ _ _ S i j ltac:(lia) Hj ltac:(lia)) as Ap.
    destruct (sh_space _ _ _ _ _ _ _ S j Hj) as (C1 & C2 & C3).
    destruct (sh_info _ _ _ MOK _ _ _ _ S j Hj) as (D1 & D2 & D3 & D4).
    apply FR'; [lia| |].
    - destruct (Nat.eq_dec j (Datatypes.S i)) as [->|Ne]; [lia|].
      pose proof (sh_apart _ _ _ MOK _ _ _ _ S (Datatypes.S i) j ltac:(lia) Hj ltac:(lia)). lia.
    - intros Hr. apply (sh_roots _ _ _ _ _ _ _ S _ Hr). apply D4. lia. }
  (* where a heap pointer found in a reachable place goes *)
  assert (Go : forall w, (exists j', (i <= j' <= k)%nat /\ In w (objs j')) -> reachable H m R w ->
            exists j', (i < j' <= k)%nat /\ In (phi w) (objs_after objs i news j')).
  { intros w (j' & Hj' & Hin) Rw. pose proof (sh_obj _ _ _ _ _ _ _ S j' w ltac:(lia) Hin) as Ob.
    destruct (Nat.eq_dec j' i) as [->|Ne].
    - exists (Datatypes.S i). split; [lia|]. unfold objs_after. rewrite (proj2 (Nat.eqb_neq _ _)) by lia.
      rewrite Nat.eqb_refl. apply in_or_app. right. apply MV; [exact Rw|lia].
    - exists j'. split; [lia|]. rewrite FX.
      + unfold objs_after. rewrite (proj2 (Nat.eqb_neq _ _)) by lia.
        destruct (Nat.eqb_spec j' (Datatypes.S i)) as [->|]; [apply in_or_app; left|]; exact Hin.
      + intros [_ X]. pose proof (sh_apart _ _ _ MOK _ _ _ _ S i j' ltac:(lia) ltac:(lia) ltac:(lia)) as Ap.
        pose proof (sh_space _ _ _ _ _ _ _ S j' ltac:(lia)). lia. }
  assert (PH : forall w, pointer (phi w) -> H (phi w) -> pointer w /\ H w).
  { intros w P Q. destruct (Z.even w) eqn:Ew.
    - destruct (Z.le_gt_cases (sp_start (h i)) w) as [L1|L1].
      + destruct (Z.lt_ge_cases w (sp_rem (h i))) as [L2|L2].
        * split; [exact Ew|apply A4; lia].
        * rewrite FX in P, Q by (intros [_ X]; lia). auto.
      + rewrite FX in P, Q by (intros [_ X]; lia). auto.
    - rewrite FX in P, Q by (intros [X _]; unfold pointer in X; congruence). auto. }
  split.
  2: { intros a Na Nr. apply FR'; auto; intros X; apply Na; [apply A4|apply B4]; lia. }
  assert (SS : forall j, set_space (set_space h i {| sp_start := sp_start (h i); sp_next := sp_start (h i);
        sp_limit := sp_rem (h i); sp_rem := sp_rem (h i) |}) (Datatypes.S i) to' j =
        if Nat.eqb j (Datatypes.S i) then to' else if Nat.eqb j i then {| sp_start := sp_start (h i); sp_next := sp_start (h i);
        sp_limit := sp_rem (h i); sp_rem := sp_rem (h i) |} else h j) by reflexivity.
  assert (Sst : forall j, sp_start (set_space (set_space h i {| sp_start := sp_start (h i); sp_next := sp_start (h i);
        sp_limit := sp_rem (h i); sp_rem := sp_rem (h i) |}) (Datatypes.S i) to' j) = sp_start (h j)).
  { intros j. rewrite SS. destruct (Nat.eqb_spec j (Datatypes.S i)) as [->|]; [exact T1|].
    destruct (Nat.eqb_spec j i) as [->|]; reflexivity. }
  assert (Srm : forall j, sp_rem (set_space (set_space h i {| sp_start := sp_start (h i); sp_next := sp_start (h i);
        sp_limit := sp_rem (h i); sp_rem := sp_rem (h i) |}) (Datatypes.S i) to' j) = sp_rem (h j)).
  { intros j. rewrite SS. destruct (Nat.eqb_spec j (Datatypes.S i)) as [->|]; [exact T2|].
    destruct (Nat.eqb_spec j i) as [->|]; reflexivity. }
  constructor.
  - apply (sh_k _ _ _ _ _ _ _ S).
  - intros j Hj. rewrite Sst. apply (sh_null _ _ _ _ _ _ _ S j Hj).
  - rewrite Sst, Srm. apply (sh_nursery _ _ _ _ _ _ _ S).
  - intros j Hj. rewrite Sst, Srm. apply (sh_malloc _ _ _ _ _ _ _ S j Hj).
  - intros j Hj. rewrite Sst, Srm, SS. destruct (Nat.eqb_spec j (Datatypes.S i)) as [->|].
    + repeat split; try lia. 
    + destruct (Nat.eqb_spec j i) as [->|]; cbn [sp_next sp_limit].
      * repeat split; try lia; auto.
      * apply (sh_space _ _ _ _ _ _ _ S j Hj).
  - intros j Hj. rewrite !Sst, !Srm. apply (sh_grow _ _ _ _ _ _ _ S j Hj).
  - intros j Hj. rewrite Sst, SS. unfold objs_after. destruct (Nat.eqb_spec j (Datatypes.S i)) as [->|N1].
    + rewrite (proj2 (Nat.eqb_neq _ _)) by lia. eapply objects_in_app; [|exact NW].
      eapply objects_in_ext; [apply (sh_objs _ _ _ _ _ _ _ S); lia|].
      intros x Hx. apply (Old (Datatypes.S i)); lia.
    + destruct (Nat.eqb_spec j i) as [->|N2]; cbn [sp_next]; [constructor|].
      destruct (Compare_dec.lt_eq_lt_dec j i) as [[L|L]|L]; [|lia|].
      * pose proof (sh_objs _ _ _ _ _ _ _ S j Hj) as O. rewrite (He j L) in O |- *. inversion O. constructor.
      * eapply objects_in_ext; [apply (sh_objs _ _ _ _ _ _ _ S); lia|].
        intros x Hx. apply (Old j); lia.
  - apply (sh_roots _ _ _ _ _ _ _ S).
  - intros p Hp P Q. rewrite (sg_slot _ _ _ _ _ SG p Hp) in *.
    destruct (PH _ P Q) as [P' Q'].
    pose proof (sh_rootv _ _ _ _ _ _ _ S p Hp P' Q') as (j & Hj & Hin).
    assert (i <= j)%nat.
    { destruct (Nat.le_gt_cases i j) as [L|L]; [exact L|]. rewrite He in Hin by exact L. destruct Hin. }
    destruct (Go (m p)) as (j' & Hj' & X); [exists j; split; [lia|exact Hin]|apply reach_slot; assumption|].
    exists j'. split; [lia|exact X].
  - intros j a x Hj Hin NR Hx P Q.
    assert (OldCase : forall j, (i < j <= k)%nat -> In a (objs j) -> exists j', (j <= j' <= k)%nat /\ In (m' (a + 8 * x)) (objs_after objs i news j')).
    { clear j Hj Hin. intros j Hj Hin. pose proof (sh_obj _ _ _ _ _ _ _ S j a ltac:(lia) Hin) as Ob.
      assert (Eh : m' (a - 8) = m (a - 8)) by (apply (Old j); lia).
      unfold raw, tag in NR. unfold size in Hx. rewrite Eh in NR, Hx.
      assert (Ev : m' (a + 8 * x) = m (a + 8 * x)) by (apply (Old j); fold (size m a) in Hx; lia).
      rewrite Ev in *.
      destruct (sh_field _ _ _ _ _ _ _ S j a x ltac:(lia) Hin NR Hx P Q) as (j' & Hj' & Hin').
      exists j'. split; [exact Hj'|]. unfold objs_after. rewrite (proj2 (Nat.eqb_neq _ _)) by lia.
      destruct (Nat.eqb_spec j' (Datatypes.S i)) as [->|]; [apply in_or_app; left|]; exact Hin'. }
    unfold objs_after in Hin. destruct (Nat.eqb_spec j i) as [->|N1]; [destruct Hin|].
    destruct (Nat.eqb_spec j (Datatypes.S i)) as [->|N2].
    + apply in_app_or in Hin. destruct Hin as [Hin|Hin]; [apply OldCase; [lia|exact Hin]|].
      destruct (CP a Hin) as (a0 & Ha0 & Ea & Ra0 & Eh & Ev). apply no_cells_reach in Ra0.
      unfold raw, tag in NR. unfold size in Hx. rewrite Eh in NR, Hx.
      specialize (Ev x Hx). destruct Ev as [Ev _].
      destruct (No_scan (Tag_hd (m (a0 - 8)))) eqn:Es; [apply No_scan_raw in Es; destruct (NR Es)|].
      rewrite Ev in *. destruct (PH _ P Q) as [P' Q'].
      destruct (sh_field _ _ _ _ _ _ _ S i a0 x ltac:(lia) Ha0 NR Hx P' Q') as (j' & Hj' & Hin').
      destruct (Go (m (a0 + 8 * x))) as (j'' & Hj'' & X); [exists j'; split; [lia|exact Hin']|apply reach_field; assumption|].
      exists j''. split; [lia|exact X].
    + destruct (Compare_dec.lt_eq_lt_dec j i) as [[L|L]|L]; [|lia|apply OldCase; [lia|exact Hin]].
      rewrite He in Hin by exact L. destruct Hin.
Qed.

(** ** The loop *)

(** A new generation, twice as large. *)
Lemma create_shape h k objs m s : shape h k objs m -> (S k < MAX_SPACES)%nat ->
  create_space malloc (S k) (2 * ((sp_rem (h k) - sp_start (h k)) / 8)) = Ok s ->
  shape (set_space h (S k) s) (S k) (fun j => if Nat.eqb j (S k) then [] else objs j) m /\
  sp_next s = sp_start s /\ sp_limit s = sp_rem s /\ sp_rem s - sp_start s = 2 * (sp_rem (h k) - sp_start (h k)).
Proof.
  intros S Hk. unfold create_space. destruct (malloc (Datatypes.S k) _) as [p|] eqn:Em; [|discriminate].
  set (w := 2 * ((sp_rem (h k) - sp_start (h k)) / 8)) in *.
  intros Es. assert (Es' : {| sp_start := p; sp_next := p; sp_limit := p + 8 * w; sp_rem := p + 8 * w |} = s) by congruence.
  clear Es. subst s. cbn [sp_next sp_limit sp_rem sp_start]. unfold w in *. clear w.
  destruct (sh_malloc _ _ _ _ _ _ _ S k ltac:(lia)) as (n & En & Er).
  destruct (sh_space _ _ _ _ _ _ _ S k ltac:(lia)) as (A5 & A6 & A7).
  assert (Ew : (sp_rem (h k) - sp_start (h k)) / 8 = n).
  { rewrite Er. replace (sp_start (h k) + 8 * n - sp_start (h k)) with (n * 8) by lia. apply Z.div_mul. lia. }
  rewrite Ew in Em |- *.
  destruct (proj1 MOK _ _ _ Em) as (P1 & P2 & P3).
  split; [|repeat split; lia].
  set (s := {| sp_start := p; sp_next := p; sp_limit := p + 8 * (2 * n); sp_rem := p + 8 * (2 * n) |}).
  assert (Old : forall j, (j <= k)%nat -> set_space h (Datatypes.S k) s j = h j).
  { intros j Hj. unfold set_space. rewrite (proj2 (Nat.eqb_neq _ _)) by lia. reflexivity. }
  assert (New : set_space h (Datatypes.S k) s (Datatypes.S k) = s).
  { unfold set_space. rewrite Nat.eqb_refl. reflexivity. }
  constructor.
  - exact Hk.
  - intros i Hi. unfold set_space. rewrite (proj2 (Nat.eqb_neq _ _)) by lia. apply (sh_null _ _ _ _ _ _ _ S). lia.
  - rewrite Old by lia. apply (sh_nursery _ _ _ _ _ _ _ S).
  - intros i Hi. destruct (Nat.eq_dec i (Datatypes.S k)) as [->|Ne].
    + rewrite New. exists (2 * n). cbn. auto.
    + rewrite Old by lia. apply (sh_malloc _ _ _ _ _ _ _ S). lia.
  - intros i Hi. destruct (Nat.eq_dec i (Datatypes.S k)) as [->|Ne].
    + rewrite New. cbn [sp_next sp_limit sp_rem sp_start s]. repeat split; try lia; auto.
    + rewrite Old by lia. apply (sh_space _ _ _ _ _ _ _ S). lia.
  - intros i Hi. destruct (Nat.eq_dec i k) as [->|Ne].
    + rewrite New, Old by lia. cbn [sp_rem sp_start s]. lia.
    + rewrite !Old by lia. apply (sh_grow _ _ _ _ _ _ _ S). lia.
  - intros i Hi. destruct (Nat.eqb_spec i (Datatypes.S k)) as [->|Ne].
    + rewrite New. constructor.
    + rewrite Old by lia. apply (sh_objs _ _ _ _ _ _ _ S). lia.
  - apply (sh_roots _ _ _ _ _ _ _ S).
  - intros p0 Hp P Q. destruct (sh_rootv _ _ _ _ _ _ _ S p0 Hp P Q) as (i & Hi & Hin). exists i. split; [lia|].
    rewrite (proj2 (Nat.eqb_neq _ _)) by lia. exact Hin.
  - intros j a i Hj Hin NR Hi P Q. destruct (Nat.eqb_spec j (Datatypes.S k)) as [->|Ne]; [destruct Hin|].
    destruct (sh_field _ _ _ _ _ _ _ S j a i ltac:(lia) Hin NR Hi P Q) as (j' & Hj' & Hin').
    exists j'. split; [lia|]. rewrite (proj2 (Nat.eqb_neq _ _)) by lia. exact Hin'.
Qed.

(** What a finished collection leaves. *)
Definition collected (ti : thread) (m : mem) (ti' : thread) (m' : mem) : Prop :=
  exists k' objs' phi,
    same_graph H R m m' phi /\
    heap_ok malloc H R (th_heap ti') k' objs' m' /\
    (forall a, ~ H a -> ~ R a -> m' a = m a) /\
    th_alloc ti' = sp_start (th_heap ti' 0%nat) /\ th_limit ti' = sp_limit (th_heap ti' 0%nat) /\
    sp_next (th_heap ti' 0%nat) = sp_start (th_heap ti' 0%nat) /\
    th_fp ti' = th_fp ti /\ th_nalloc ti' = th_nalloc ti /\
    th_nalloc ti' <= (th_limit ti' - th_alloc ti') / 8.

(** [malloc] has no array for a generation the runtime may ask for. *)
Definition malloc_fails : Prop :=
  exists i, (1 <= i <= 42)%nat /\ malloc i (NURSERY_SIZE * 2 ^ Z.of_nat i) = None.

Lemma sh_size h k objs m : shape h k objs m -> forall i, (i <= k)%nat ->
  sp_rem (h i) - sp_start (h i) = 8 * (NURSERY_SIZE * 2 ^ Z.of_nat i).
Proof.
  intros S i. induction i as [|i IH]; intros Hi; [rewrite (sh_nursery _ _ _ _ _ _ _ S); change (2 ^ Z.of_nat 0) with 1; lia|].
  rewrite (sh_grow _ _ _ _ _ _ _ S i ltac:(lia)), (IH ltac:(lia)), Nat2Z.inj_succ, Z.pow_succ_r by lia. ring.
Qed.

Lemma resume_ok ti h k objs m : shape h k objs m -> sp_limit (h 0%nat) = sp_rem (h 0%nat) ->
  resume ti h = (if NURSERY_SIZE <? th_nalloc ti then Abort else
    Ok {| th_alloc := sp_start (h 0%nat); th_limit := sp_limit (h 0%nat); th_heap := h; th_fp := th_fp ti; th_nalloc := th_nalloc ti |}).
Proof.
  intros S El. unfold resume. rewrite El, (sh_nursery _ _ _ _ _ _ _ S). rewrite Z.mul_comm, Z.div_mul by lia. reflexivity.
Qed.

Lemma gc_loop_ok n : forall i ti h k objs m, th_fp ti = frs -> shape h k objs m -> (i <= k)%nat -> (n + i = 42)%nat ->
  (forall j, (j < i)%nat -> sp_next (h j) = sp_start (h j)) ->
  (forall j, (i <= j < k)%nat -> fits h j) ->
  match gc_loop malloc n i ti h m with
  | Ok (ti', m') => collected ti m ti' m'
  | Abort => NURSERY_SIZE < th_nalloc ti \/ malloc_fails \/ k = 42%nat
  | UB => False
  end.
Proof.
  induction n as [|n IH]; intros i ti h k objs m Efp S Hik Hni He Hf.
  { cbn [gc_loop]. right. right. pose proof (sh_k _ _ _ _ _ _ _ S) as K. unfold MAX_SPACES in K. lia. }
  cbn [gc_loop].
  (* the next generation exists *)
  assert (Ex : match (if sp_start (h (Datatypes.S i)) =? 0
                 then cbind (create_space malloc (Datatypes.S i) (2 * ((sp_rem (h i) - sp_start (h i)) / 8))) (fun s => Ok (set_space h (Datatypes.S i) s))
                 else Ok h) with
          | Ok h1 => exists k1 objs1, shape h1 k1 objs1 m /\ (Datatypes.S i <= k1)%nat /\
              (forall j, (j < i)%nat -> sp_next (h1 j) = sp_start (h1 j)) /\
              (forall j, (i <= j < k1)%nat -> fits h1 j) /\
              (k1 = k \/ (i = k /\ k1 = Datatypes.S k /\ sp_limit (h1 k1) - sp_next (h1 k1) = 2 * (sp_rem (h1 i) - sp_start (h1 i))))
          | Abort => malloc_fails
          | UB => False
          end).
  { destruct (Z.eqb_spec (sp_start (h (Datatypes.S i))) 0) as [E0|E0].
    - assert (i = k).
      { destruct (Nat.eq_dec i k) as [|Ne]; [assumption|]. exfalso.
        pose proof (sh_info _ _ _ MOK _ _ _ _ S (Datatypes.S i) ltac:(lia)). lia. }
      subst i. destruct (create_space malloc (Datatypes.S k) (2 * ((sp_rem (h k) - sp_start (h k)) / 8))) as [s| |] eqn:Ec; cbn [cbind].
      + destruct (create_shape _ _ _ _ _ S ltac:(unfold MAX_SPACES; lia) Ec) as (S' & N1 & N2 & N3).
        assert (Old : forall j, (j <= k)%nat -> set_space h (Datatypes.S k) s j = h j).
        { intros j Hj. unfold set_space. rewrite (proj2 (Nat.eqb_neq _ _)) by lia. reflexivity. }
        assert (New : set_space h (Datatypes.S k) s (Datatypes.S k) = s).
        { unfold set_space. rewrite Nat.eqb_refl. reflexivity. }
        exists (Datatypes.S k), (fun j => if Nat.eqb j (Datatypes.S k) then [] else objs j).
        split; [exact S'|]. split; [lia|]. split; [intros j Hj; rewrite Old by lia; apply He; exact Hj|].
        split.
        * intros j Hj. assert (j = k) by lia. subst j. unfold fits. rewrite New, Old by lia.
          destruct (sh_space _ _ _ _ _ _ _ S k ltac:(lia)). lia.
        * right. rewrite New, Old by lia. repeat split; lia.
      + unfold create_space in Ec. match type of Ec with (match ?x with _ => _ end) = _ => destruct x; discriminate end.
      + unfold create_space in Ec. match type of Ec with (match ?x with _ => _ end) = _ => destruct x eqn:Em; [discriminate|] end.
        exists (Datatypes.S k). split; [lia|]. rewrite (sh_size _ _ _ _ S k ltac:(lia)) in Em.
        rewrite (Z.mul_comm 8 (NURSERY_SIZE * 2 ^ Z.of_nat k)), Z.div_mul in Em by lia.
        rewrite Nat2Z.inj_succ, Z.pow_succ_r by lia. rewrite <- Em. f_equal. ring.
    - assert (i < k)%nat.
      { destruct (Nat.le_gt_cases k i) as [L|L]; [|exact L]. destruct E0. apply (sh_null _ _ _ _ _ _ _ S). lia. }
      exists k, objs. split; [exact S|]. split; [lia|]. split; [exact He|]. split; [exact Hf|]. left. reflexivity. }
  destruct (if sp_start (h (Datatypes.S i)) =? 0 then _ else Ok h) as [h1| |]; cbn [cbind].
  2: { exact Ex. }
  2: { right. left. exact Ex. }
  destruct Ex as (k1 & objs1 & S1 & Hk1 & He1 & Hf1 & HK).
  assert (Ob : forall j, (j < i)%nat -> objs1 j = []).
  { intros j Hj. pose proof (sh_objs _ _ _ _ _ _ _ S1 j ltac:(lia)) as O. rewrite (He1 j Hj) in O.
    apply (objects_in_empty _ _ _ O). }
  pose proof (Hf1 i ltac:(lia)) as Hfi.
  pose proof (step_collectable _ _ _ _ _ S1 Hk1 Ob Hfi) as CO.
  rewrite Efp.
  destruct (do_generation_ok H m (objs1 i) (h1 i) (h1 (Datatypes.S i)) frs CO) as (from' & to' & m' & phi & news & Er & SR).
  rewrite Er. cbn [cbind].
  destruct (step_shape _ _ _ _ _ _ _ _ _ _ S1 Hk1 Ob Hfi SR) as [S2 FR].
  pose proof (sr_graph _ _ _ _ _ _ _ _ _ _ _ SR) as SG.
  pose proof (sr_from _ _ _ _ _ _ _ _ _ _ _ SR) as Ef.
  destruct (sr_to _ _ _ _ _ _ _ _ _ _ _ SR) as (T1 & T2 & T3 & T4 & T5 & T6 & T7).
  set (h2 := set_space (set_space h1 i from') (Datatypes.S i) to') in *.
  assert (Hi2 : h2 i = from').
  { unfold h2, set_space. rewrite (proj2 (Nat.eqb_neq i (Datatypes.S i))) by lia. rewrite Nat.eqb_refl. reflexivity. }
  assert (HS2 : h2 (Datatypes.S i) = to').
  { unfold h2, set_space. rewrite Nat.eqb_refl. reflexivity. }
  assert (Ho2 : forall j, j <> i -> j <> Datatypes.S i -> h2 j = h1 j).
  { intros j N1 N2. unfold h2, set_space. rewrite !(proj2 (Nat.eqb_neq _ _)) by lia. reflexivity. }
  assert (He2 : forall j, (j < Datatypes.S i)%nat -> sp_next (h2 j) = sp_start (h2 j)).
  { intros j Hj. destruct (Nat.eq_dec j i) as [->|Ne]; [rewrite Hi2, Ef; reflexivity|].
    rewrite Ho2 by lia. apply He1. lia. }
  assert (Hf2 : forall j, (Datatypes.S i <= j < k1)%nat -> fits h2 j).
  { intros j Hj. pose proof (Hf1 j ltac:(lia)) as X. unfold fits in *.
    destruct (Nat.eq_dec j (Datatypes.S i)) as [->|Ne].
    - rewrite HS2, T1, T2, (Ho2 (Datatypes.S (Datatypes.S i))) by lia. exact X.
    - rewrite !Ho2 by lia. exact X. }
  assert (Room : (sp_rem (h2 i) - sp_start (h2 i)) / 8 <= (sp_limit (h2 (Datatypes.S i)) - sp_next (h2 (Datatypes.S i))) / 8 -> fits h2 i).
  { intros X. unfold fits. destruct (sh_info _ _ _ MOK _ _ _ _ S2 i ltac:(lia)) as (_ & A2 & A3 & _).
    destruct (sh_info _ _ _ MOK _ _ _ _ S2 (Datatypes.S i) ltac:(lia)) as (_ & B2 & B3 & _).
    destruct (sh_space _ _ _ _ _ _ _ S2 (Datatypes.S i) ltac:(lia)) as (_ & C2 & C3).
    rewrite C2 in *.
    assert (D1 : (sp_rem (h2 i) - sp_start (h2 i)) mod 8 = 0) by (rewrite Zminus_mod, A2, A3; reflexivity).
    assert (D2 : (sp_rem (h2 (Datatypes.S i)) - sp_next (h2 (Datatypes.S i))) mod 8 = 0) by (rewrite Zminus_mod, B3, C3; reflexivity).
    pose proof (Z.div_mod (sp_rem (h2 i) - sp_start (h2 i)) 8). pose proof (Z.div_mod (sp_rem (h2 (Datatypes.S i)) - sp_next (h2 (Datatypes.S i))) 8). lia. }
  destruct (Z.leb_spec ((sp_rem (h2 i) - sp_start (h2 i)) / 8) ((sp_limit (h2 (Datatypes.S i)) - sp_next (h2 (Datatypes.S i))) / 8)) as [Le|Gt].
  - destruct (sh_space _ _ _ _ _ _ _ S2 0%nat ltac:(lia)) as (_ & L0 & _).
    rewrite (resume_ok ti h2 k1 _ _ S2 L0).
    destruct (Z.ltb_spec NURSERY_SIZE (th_nalloc ti)) as [Lt|Ge]; cbn [cbind].
    + left. exact Lt.
    + exists k1, (objs_after objs1 i news), phi. cbn [th_heap th_alloc th_limit th_fp th_nalloc].
      split; [exact SG|]. split; [split; [exact S2|]|].
      * intros j Hj. destruct (Compare_dec.lt_eq_lt_dec j i) as [[L|L]|L].
        -- unfold fits. rewrite (He2 (Datatypes.S j)) by lia.
           destruct (sh_space _ _ _ _ _ _ _ S2 (Datatypes.S j) ltac:(lia)) as (_ & L1 & _). rewrite L1.
           pose proof (sh_grow _ _ _ _ _ _ _ S2 j ltac:(lia)). pose proof (sh_space _ _ _ _ _ _ _ S2 j ltac:(lia)). lia.
        -- subst j. apply Room. exact Le.
        -- apply Hf2. lia.
      * split; [exact FR|]. split; [reflexivity|]. split; [reflexivity|]. split; [apply He2; lia|].
        split; [reflexivity|]. split; [reflexivity|].
        rewrite L0, (sh_nursery _ _ _ _ _ _ _ S2), Z.mul_comm, Z.div_mul by lia. exact Ge.
  - destruct (Nat.eq_dec i 41) as [E41|N41].
    + (* no iteration left *)
      assert (n = 0%nat) by lia. subst n. cbn [gc_loop].
      (* if the last generation was just created, it has room *)
      destruct HK as [Ek|(Ek & Ek1 & Er2)]; [right; right; pose proof (sh_k _ _ _ _ _ _ _ S) as K; unfold MAX_SPACES in K; lia|].
      subst k1 i. rewrite Hi2, HS2, Ef in Gt. cbn [sp_rem sp_start] in Gt.
      assert (sp_rem (h1 k) - sp_start (h1 k) <= sp_limit to' - sp_next to').
      { destruct (sh_space _ _ _ _ _ _ _ S1 k ltac:(lia)) as (X1 & X2 & _). lia. }
      pose proof (Z.div_le_mono (sp_rem (h1 k) - sp_start (h1 k)) (sp_limit to' - sp_next to') 8 ltac:(lia) H0). lia.
    + specialize (IH (Datatypes.S i) ti h2 k1 (objs_after objs1 i news) m' Efp S2 ltac:(lia) ltac:(lia) He2 Hf2).
      destruct (gc_loop malloc n (Datatypes.S i) ti h2 m') as [[ti' m'']| |].
      * destruct IH as (k' & objs' & psi & Q1 & Q2 & Q3 & Q4). exists k', objs', (fun w => psi (phi w)).
        split; [eapply same_graph_trans; eassumption|]. split; [exact Q2|]. split; [|exact Q4].
        intros a Na Nr. rewrite Q3 by assumption. apply FR; assumption.
      * exact IH.
      * destruct HK as [Ek|(Ek & Ek1 & Er2)]; [destruct IH as [Y|[Y|Y]]; [left; exact Y|right; left; exact Y|right; right; lia]|].
        (* the new generation has room, so the loop would have stopped *)
        subst k1 i. rewrite Hi2, HS2, Ef in Gt. cbn [sp_rem sp_start] in Gt.
        assert (X : sp_rem (h1 k) - sp_start (h1 k) <= sp_limit to' - sp_next to').
        { destruct (sh_space _ _ _ _ _ _ _ S1 k ltac:(lia)) as (X1 & X2 & _). lia. }
        pose proof (Z.div_le_mono (sp_rem (h1 k) - sp_start (h1 k)) (sp_limit to' - sp_next to') 8 ltac:(lia) X). lia.
Qed.

End Heap.
