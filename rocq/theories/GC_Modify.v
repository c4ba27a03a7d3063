(** Programs that overwrite fields through the write barrier [certirocq_modify], with
    collections of the nursery. *)
From Coq Require Import ZArith Bool List Lia.
From Verif Require Import RT_Word RT_Values GC_Model GC_Spec GC_Proofs GC_Step GC_Heap GC_Mutator.
Import ListNotations.
Open Scope Z_scope.
Ltac Zify.zify_post_hook ::= idtac.

(** [c] is the address of a field of an object that holds values. *)
Definition is_field (objs : nat -> list Z) (k : nat) (m : mem) (c : Z) : Prop :=
  exists j a x, (j <= k)%nat /\ In a (objs j) /\ ~ raw m a /\ 0 <= x < size m a /\ c = a + 8 * x.

(** Like [shape], but fields may point anywhere; fields of older objects that point into the
    nursery are recorded in the nursery's remembered set. *)
Record mshape (malloc : nat -> Z -> option Z) (H R : Z -> Prop) (h : heap) (k : nat) (objs : nat -> list Z) (m : mem) : Prop := {
  ms_k : (k < MAX_SPACES)%nat;
  ms_null : forall i, (k < i)%nat -> sp_start (h i) = 0;
  ms_nursery : sp_rem (h 0%nat) - sp_start (h 0%nat) = 8 * NURSERY_SIZE;
  ms_malloc : forall i, (i <= k)%nat -> exists n, malloc i n = Some (sp_start (h i)) /\ sp_rem (h i) = sp_start (h i) + 8 * n;
  ms_space : forall i, (i <= k)%nat -> sp_start (h i) <= sp_next (h i) <= sp_limit (h i) /\ sp_limit (h i) <= sp_rem (h i) /\
     sp_next (h i) mod 8 = 0 /\ sp_limit (h i) mod 8 = 0;
  ms_objs : forall i, (i <= k)%nat -> objects_in m (sp_start (h i)) (objs i) (sp_next (h i));
  ms_roots : forall p, R p -> ~ H p;
  ms_rootv : forall p, R p -> pointer (m p) -> H (m p) -> exists i, (i <= k)%nat /\ In (m p) (objs i);
  ms_field : forall c, is_field objs k m c -> pointer (m c) -> H (m c) -> exists j', (j' <= k)%nat /\ In (m c) (objs j');
  ms_rec : forall q, 0 <= q < (sp_rem (h 0%nat) - sp_limit (h 0%nat)) / 8 -> is_field objs k m (m (sp_limit (h 0%nat) + 8 * q));
  ms_young : forall c, is_field objs k m c -> ~ (sp_start (h 0%nat) <= c < sp_limit (h 0%nat)) ->
     In (m c) (objs 0%nat) -> exists q, 0 <= q < (sp_rem (h 0%nat) - sp_limit (h 0%nat)) / 8 /\ c = m (sp_limit (h 0%nat) + 8 * q);
  ms_fits : (0 < k)%nat -> fits h 0%nat }.

Section MS.
Variables (malloc : nat -> Z -> option Z) (H : Z -> Prop).
Hypothesis MOK : malloc_ok malloc H.

Section One.
Variables (R : Z -> Prop) (h : heap) (k : nat) (objs : nat -> list Z) (m : mem).
Hypothesis S : mshape malloc H R h k objs m.

Lemma ms_info i : (i <= k)%nat ->
  0 < sp_start (h i) /\ sp_start (h i) mod 8 = 0 /\ sp_rem (h i) mod 8 = 0 /\
  (forall a, sp_start (h i) <= a < sp_rem (h i) -> H a).
Proof.
  intros Hi. destruct (ms_malloc _ _ _ _ _ _ _ S i Hi) as (n & E & Er).
  destruct (proj1 MOK _ _ _ E) as (A & B & C). repeat split; auto.
  - rewrite Er. rewrite Z.mul_comm, Z.mod_add by lia. exact B.
  - rewrite Er. exact C.
Qed.

Lemma ms_apart i j : (i <= k)%nat -> (j <= k)%nat -> i <> j ->
  sp_rem (h i) <= sp_start (h j) \/ sp_rem (h j) <= sp_start (h i).
Proof.
  intros Hi Hj Ne. destruct (ms_malloc _ _ _ _ _ _ _ S i Hi) as (n & E & Er).
  destruct (ms_malloc _ _ _ _ _ _ _ S j Hj) as (n' & E' & Er'). rewrite Er, Er'.
  apply (proj2 MOK i j n _ n' _ E E' Ne).
Qed.

Lemma ms_obj i a : (i <= k)%nat -> In a (objs i) ->
  sp_start (h i) + 8 <= a /\ a + 8 * size m a <= sp_next (h i) /\ 1 <= size m a /\ a mod 8 = 0.
Proof.
  intros Hi Ha. destruct (objects_in_range _ _ _ _ (ms_objs _ _ _ _ _ _ _ S i Hi)) as [_ X].
  destruct (X a Ha) as (A & B & C & D). rewrite (proj1 (proj2 (ms_info i Hi))) in D. auto.
Qed.

Lemma ms_recorded c : remembered m (sp_start (h 0%nat)) (sp_limit (h 0%nat)) (sp_rem (h 0%nat)) c -> is_field objs k m c.
Proof. intros [_ (q & Hq & ->)]. apply (ms_rec _ _ _ _ _ _ _ S q Hq). Qed.

Lemma ms_reach a : reachable H m (fun p => R p \/ remembered m (sp_start (h 0%nat)) (sp_limit (h 0%nat)) (sp_rem (h 0%nat)) p) a ->
  exists i, (i <= k)%nat /\ In a (objs i).
Proof.
  intros Ra. induction Ra as [r Hr P Hh | a i Ra IH NR Hi P Hh].
  - destruct Hr as [Hr|Hr]; [apply (ms_rootv _ _ _ _ _ _ _ S); assumption|].
    apply (ms_field _ _ _ _ _ _ _ S); auto. apply ms_recorded. exact Hr.
  - destruct IH as (j & Hj & Hin). apply (ms_field _ _ _ _ _ _ _ S); auto.
    exists j, a, i. auto.
Qed.

(** Fields of different objects, and headers, are different words. *)
Lemma ms_word i a j b x y : (i <= k)%nat -> (j <= k)%nat -> In a (objs i) -> In b (objs j) ->
  -1 <= x < size m a -> -1 <= y < size m b -> a + 8 * x = b + 8 * y -> a = b /\ x = y.
Proof.
  intros Hi Hj Ha Hb Hx Hy E. pose proof (ms_obj i a Hi Ha) as Oa. pose proof (ms_obj j b Hj Hb) as Ob.
  pose proof (ms_space _ _ _ _ _ _ _ S i Hi) as Si. pose proof (ms_space _ _ _ _ _ _ _ S j Hj) as Sj.
  destruct (Nat.eq_dec i j) as [->|N].
  - destruct (objects_in_disjoint _ _ _ _ (ms_objs _ _ _ _ _ _ _ S j Hj) a b Ha Hb) as [->|[D|D]]; lia.
  - pose proof (ms_apart i j Hi Hj N). lia.
Qed.
End One.

(** ** Collecting the nursery *)

Lemma nursery_collectable frs h k objs m : mshape malloc H (slot_of frs) h k objs m -> (1 <= k)%nat ->
  collectable H (slot_of frs) m (objs 0%nat) (sp_start (h 0%nat)) (sp_next (h 0%nat)) (sp_limit (h 0%nat)) (sp_rem (h 0%nat))
    (sp_start (h 1%nat)) (sp_next (h 1%nat)) (sp_limit (h 1%nat)).
Proof.
  intros S Hk.
  destruct (ms_info _ _ _ _ _ S 0%nat ltac:(lia)) as (A1 & A2 & A3 & A4).
  destruct (ms_info _ _ _ _ _ S 1%nat ltac:(lia)) as (B1 & B2 & B3 & B4).
  destruct (ms_space _ _ _ _ _ _ _ S 0%nat ltac:(lia)) as (A5 & A6 & A7 & A8).
  destruct (ms_space _ _ _ _ _ _ _ S 1%nat ltac:(lia)) as (B5 & B6 & B7 & B8).
  pose proof (ms_fits _ _ _ _ _ _ _ S ltac:(lia)) as Hf. unfold fits in Hf.
  pose proof (ms_apart _ _ _ _ _ S 0%nat 1%nat ltac:(lia) ltac:(lia) ltac:(lia)) as Ap.
  assert (RecOld : forall c, remembered m (sp_start (h 0%nat)) (sp_limit (h 0%nat)) (sp_rem (h 0%nat)) c ->
    exists j a x, (1 <= j <= k)%nat /\ In a (objs j) /\ ~ raw m a /\ 0 <= x < size m a /\ c = a + 8 * x).
  { intros c Hc. pose proof (proj1 Hc) as N. destruct (ms_recorded _ _ _ _ _ S c Hc) as (j & a & x & Hj & Ha & Nr & Hx & E).
    exists j, a, x. split; [|auto]. split; [|exact Hj].
    destruct j; [|lia]. exfalso. pose proof (ms_obj _ _ _ _ _ S 0%nat a Hj Ha). lia. }
  constructor.
  - repeat split; auto; lia.
  - repeat split; auto; lia.
  - apply (ms_objs _ _ _ _ _ _ _ S). lia.
  - lia.
  - lia.
  - intros a [Ha|Ha]; [apply A4; lia|apply B4; lia].
  - intros p Hp. pose proof (ms_roots _ _ _ _ _ _ _ S p Hp) as N. split; intros X; apply N; [apply A4|apply B4]; lia.
  - intros c Hc. destruct (RecOld c Hc) as (j & a & x & Hj & Ha & Nr & Hx & ->).
    pose proof (ms_obj _ _ _ _ _ S j a ltac:(lia) Ha) as Ob. pose proof (ms_space _ _ _ _ _ _ _ S j ltac:(lia)) as Sj.
    pose proof (ms_apart _ _ _ _ _ S 0%nat j ltac:(lia) ltac:(lia) ltac:(lia)).
    split; [lia|]. destruct (Nat.eq_dec j 1) as [->|N]; [lia|].
    pose proof (ms_apart _ _ _ _ _ S 1%nat j ltac:(lia) ltac:(lia) ltac:(lia)). lia.
  - intros a Ra Fa. destruct (ms_reach _ _ _ _ _ S a Ra) as (j & Hj & Hin).
    destruct j; [exact Hin|]. exfalso. pose proof (ms_obj _ _ _ _ _ S (Datatypes.S j) a Hj Hin).
    pose proof (ms_apart _ _ _ _ _ S 0%nat (Datatypes.S j) ltac:(lia) Hj ltac:(lia)).
    pose proof (ms_space _ _ _ _ _ _ _ S (Datatypes.S j) Hj). lia.
  - intros a Ra Fa. destruct (ms_reach _ _ _ _ _ S a) as (j & Hj & Hin).
    { eapply reachable_mono; [|exact Ra]. auto. }
    pose proof (ms_obj _ _ _ _ _ S j a Hj Hin) as Ob.
    assert (Hj1 : (1 <= j)%nat) by (destruct j; [exfalso; lia|lia]).
    pose proof (ms_space _ _ _ _ _ _ _ S j Hj) as Sj.
    pose proof (ms_apart _ _ _ _ _ S 0%nat j ltac:(lia) Hj ltac:(lia)) as Ap2.
    destruct (ms_info _ _ _ _ _ S j Hj) as (_ & _ & _ & D4).
    split; [lia|]. split; [|split; [|split]].
    + intros x Hx. split; [lia|]. split.
      * destruct (Nat.eq_dec j 1) as [->|N]; [lia|].
        pose proof (ms_apart _ _ _ _ _ S 1%nat j ltac:(lia) Hj ltac:(lia)). lia.
      * intros Hr. apply (ms_roots _ _ _ _ _ _ _ S _ Hr). apply D4. lia.
    + intros Hc. destruct (RecOld _ Hc) as (j' & b & x & Hj' & Hb & Nr & Hx & E).
      destruct (ms_word _ _ _ _ _ S j a j' b (-1) x) as [_ X]; auto; lia.
    + intros x Hx Hraw Hc. destruct (RecOld _ Hc) as (j' & b & y & Hj' & Hb & Nr & Hy & E).
      destruct (ms_word _ _ _ _ _ S j a j' b x y) as [-> _]; auto; lia.
    + intros x Hx NR P Fx. split; [lia|].
      assert (IF : is_field objs k m (a + 8 * x)) by (exists j, a, x; auto).
      destruct (ms_field _ _ _ _ _ _ _ S _ IF P) as (j' & Hj' & Hin'); [apply A4; lia|].
      apply (ms_young _ _ _ _ _ _ _ S _ IF); [lia|].
      destruct j'; [exact Hin'|]. exfalso. pose proof (ms_obj _ _ _ _ _ S (Datatypes.S j') _ Hj' Hin').
      pose proof (ms_apart _ _ _ _ _ S 0%nat (Datatypes.S j') ltac:(lia) Hj' ltac:(lia)).
      pose proof (ms_space _ _ _ _ _ _ _ S (Datatypes.S j') Hj'). lia.
Qed.

Lemma nursery_shape frs h k objs m from' to' m' phi news : mshape malloc H (slot_of frs) h k objs m -> (1 <= k)%nat ->
  step_result H (slot_of frs) m m' (objs 0%nat) (h 0%nat) (h 1%nat) from' to' phi news ->
  (* what the loop checks before stopping *)
  sp_rem from' - sp_start from' <= sp_limit to' - sp_next to' -> sp_limit to' mod 8 = 0 ->
  mshape malloc H (slot_of frs) (set_space (set_space h 0 from') 1 to') k (objs_after objs 0 news) m' /\
  (forall a, ~ H a -> ~ slot_of frs a -> m' a = m a).
Proof.
  intros S Hk SR Hroom Hal.
  destruct (ms_info _ _ _ _ _ S 0%nat ltac:(lia)) as (A1 & A2 & A3 & A4).
  destruct (ms_info _ _ _ _ _ S 1%nat ltac:(lia)) as (B1 & B2 & B3 & B4).
  destruct (ms_space _ _ _ _ _ _ _ S 0%nat ltac:(lia)) as (A5 & A6 & A7 & A8).
  destruct (ms_space _ _ _ _ _ _ _ S 1%nat ltac:(lia)) as (B5 & B6 & B7 & B8).
  pose proof (sr_graph _ _ _ _ _ _ _ _ _ _ _ SR) as SG.
  pose proof (sr_from _ _ _ _ _ _ _ _ _ _ _ SR) as Ef. subst from'. cbn [sp_rem sp_start] in Hroom.
  destruct (sr_to _ _ _ _ _ _ _ _ _ _ _ SR) as (T1 & T2 & T3 & T4 & T5 & T6 & T7).
  pose proof (sr_news _ _ _ _ _ _ _ _ _ _ _ SR) as NW.
  pose proof (sr_copy _ _ _ _ _ _ _ _ _ _ _ SR) as CP.
  pose proof (sr_moved _ _ _ _ _ _ _ _ _ _ _ SR) as MV.
  pose proof (sr_fixed _ _ _ _ _ _ _ _ _ _ _ SR) as FX.
  pose proof (sr_cells _ _ _ _ _ _ _ _ _ _ _ SR) as CE.
  pose proof (sr_frame _ _ _ _ _ _ _ _ _ _ _ SR) as FR.
  set (cell := remembered m (sp_start (h 0%nat)) (sp_limit (h 0%nat)) (sp_rem (h 0%nat))) in *.
  assert (Cdec : forall c, is_field objs k m c -> pointer (m c) -> H (m c) -> ~ (sp_start (h 0%nat) <= c < sp_limit (h 0%nat)) ->
      cell c \/ ~ (In (m c) (objs 0%nat))).
  { intros c IF P Q N. destruct (in_dec Z.eq_dec (m c) (objs 0%nat)) as [Y|Y]; [left|right; exact Y].
    split; [exact N|]. apply (ms_young _ _ _ _ _ _ _ S c IF N Y). }
  assert (Young : forall j w, (j <= k)%nat -> In w (objs j) -> sp_start (h 0%nat) <= w < sp_limit (h 0%nat) -> j = 0%nat).
  { intros j w Hj Hw Fw. destruct j; [reflexivity|]. exfalso. pose proof (ms_obj _ _ _ _ _ S _ w Hj Hw).
    pose proof (ms_apart _ _ _ _ _ S 0%nat (Datatypes.S j) ltac:(lia) Hj ltac:(lia)).
    pose proof (ms_space _ _ _ _ _ _ _ S (Datatypes.S j) Hj). lia. }
  assert (YoungIn : forall w, In w (objs 0%nat) -> pointer w /\ sp_start (h 0%nat) <= w < sp_limit (h 0%nat)).
  { intros w Hw. pose proof (ms_obj _ _ _ _ _ S 0%nat w ltac:(lia) Hw) as X. split; [|lia].
    unfold pointer. rewrite (Z.div_mod w 8) by lia. rewrite (proj2 (proj2 (proj2 X))), Z.add_0_r, Z.even_mul. reflexivity. }
  (* words of older objects that are not recorded cells are unchanged *)
  assert (OldW : forall j a x, (1 <= j <= k)%nat -> In a (objs j) -> -1 <= x < size m a -> ~ cell (a + 8 * x) ->
            m' (a + 8 * x) = m (a + 8 * x)).
  { intros j a x Hj Ha Hx Nc. pose proof (ms_obj _ _ _ _ _ S j a ltac:(lia) Ha) as Ob.
    pose proof (ms_space _ _ _ _ _ _ _ S j ltac:(lia)) as Sj.
    pose proof (ms_apart _ _ _ _ _ S 0%nat j ltac:(lia) ltac:(lia) ltac:(lia)) as Ap2.
    destruct (ms_info _ _ _ _ _ S j ltac:(lia)) as (_ & _ & _ & D4).
    apply FR; [lia| | |exact Nc].
    - destruct (Nat.eq_dec j 1) as [->|N]; [lia|].
      pose proof (ms_apart _ _ _ _ _ S 1%nat j ltac:(lia) ltac:(lia) ltac:(lia)). lia.
    - intros Hr. apply (ms_roots _ _ _ _ _ _ _ S _ Hr). apply D4. lia. }
  assert (NcHd : forall j a, (1 <= j <= k)%nat -> In a (objs j) -> ~ cell (a + 8 * (-1))).
  { intros j a Hj Ha Hc. destruct (ms_recorded _ _ _ _ _ S _ Hc) as (j' & b & y & Hj' & Hb & Nr & Hy & E).
    pose proof (ms_obj _ _ _ _ _ S j a ltac:(lia) Ha) as Ob.
    destruct (ms_word _ _ _ _ _ S j a j' b (-1) y) as [_ X]; auto; lia. }
  assert (OldHd : forall j a, (1 <= j <= k)%nat -> In a (objs j) -> m' (a - 8) = m (a - 8)).
  { intros j a Hj Ha. pose proof (ms_obj _ _ _ _ _ S j a ltac:(lia) Ha) as Ob.
    replace (a - 8) with (a + 8 * (-1)) by lia. apply (OldW j); auto; [lia|]. apply (NcHd j); auto. }
  assert (Go : forall j w, (j <= k)%nat -> In w (objs j) -> (j = 0%nat -> In (phi w) news) ->
            exists j', (1 <= j' <= k)%nat /\ In (phi w) (objs_after objs 0 news j')).
  { intros j w Hj Hw Hn. destruct j as [|j].
    - exists 1%nat. split; [lia|]. unfold objs_after. cbn [Nat.eqb]. apply in_or_app. right. auto.
    - exists (Datatypes.S j). split; [lia|]. rewrite FX.
      + unfold objs_after. destruct j; cbn [Nat.eqb]; [apply in_or_app; left|]; exact Hw.
      + intros [_ X]. pose proof (Young _ _ Hj Hw X). lia. }
  assert (PH : forall w, pointer (phi w) -> H (phi w) -> pointer w /\ H w).
  { intros w P Q. destruct (Z.even w) eqn:Ew.
    - destruct (Z.le_gt_cases (sp_start (h 0%nat)) w) as [L1|L1].
      + destruct (Z.lt_ge_cases w (sp_limit (h 0%nat))) as [L2|L2].
        * split; [exact Ew|apply A4; lia].
        * rewrite FX in P, Q by (intros [_ X]; lia). auto.
      + rewrite FX in P, Q by (intros [_ X]; lia). auto.
    - rewrite FX in P, Q by (intros [X _]; unfold pointer in X; congruence). auto. }
  (* objects afterwards *)
  assert (Objs' : forall j, (j <= k)%nat -> objects_in m' (sp_start (set_space (set_space h 0 {| sp_start := sp_start (h 0%nat); sp_next := sp_start (h 0%nat);
        sp_limit := sp_rem (h 0%nat); sp_rem := sp_rem (h 0%nat) |}) 1 to' j)) (objs_after objs 0 news j)
        (sp_next (set_space (set_space h 0 {| sp_start := sp_start (h 0%nat); sp_next := sp_start (h 0%nat);
        sp_limit := sp_rem (h 0%nat); sp_rem := sp_rem (h 0%nat) |}) 1 to' j))).
  { assert (Keep : forall j l a b, (1 <= j <= k)%nat -> objects_in m a l b -> incl l (objs j) -> objects_in m' a l b).
    { intros j l a b Hj O. induction O as [|a l b S1 O IH]; intros Hi; [constructor|].
      assert (Es : size m' (a + 8) = size m (a + 8)).
      { unfold size. rewrite (OldHd j) by (auto; apply Hi; left; reflexivity). reflexivity. }
      constructor; rewrite Es; [exact S1|]. apply IH. intros x Hx. apply Hi. right. exact Hx. }
    intros j Hj. unfold set_space, objs_after. destruct j as [|[|j]]; cbn [Nat.eqb sp_start sp_next].
    - constructor.
    - rewrite T1. eapply objects_in_app; [|exact NW].
      eapply (Keep 1%nat); [lia|apply (ms_objs _ _ _ _ _ _ _ S); lia|apply incl_refl].
    - eapply (Keep (Datatypes.S (Datatypes.S j))); [lia|apply (ms_objs _ _ _ _ _ _ _ S); lia|apply incl_refl]. }
  (* fields afterwards hold objects *)
  assert (Field' : forall c, is_field (objs_after objs 0 news) k m' c -> pointer (m' c) -> H (m' c) ->
            exists j', (1 <= j' <= k)%nat /\ In (m' c) (objs_after objs 0 news j')).
  { intros c (j & a & x & Hj & Ha & NR & Hx & ->) P Q.
    assert (OldCase : (1 <= j)%nat -> In a (objs j) -> exists j', (1 <= j' <= k)%nat /\ In (m' (a + 8 * x)) (objs_after objs 0 news j')).
    { intros Hj1 Hin. pose proof (OldHd j a ltac:(lia) Hin) as Eh. unfold raw, tag in NR. unfold size in Hx. rewrite Eh in NR, Hx.
      fold (size m a) in Hx. assert (IF : is_field objs k m (a + 8 * x)) by (exists j, a, x; auto).
      pose proof (ms_obj _ _ _ _ _ S j a ltac:(lia) Hin) as Ob.
      assert (Nn : ~ (sp_start (h 0%nat) <= a + 8 * x < sp_limit (h 0%nat))).
      { pose proof (ms_apart _ _ _ _ _ S 0%nat j ltac:(lia) Hj ltac:(lia)). pose proof (ms_space _ _ _ _ _ _ _ S j Hj). lia. }
      (* is it a recorded cell? *)
      assert (Dec : cell (a + 8 * x) \/ ~ cell (a + 8 * x)).
      { unfold cell, remembered. set (n := (sp_rem (h 0%nat) - sp_limit (h 0%nat)) / 8).
        assert (D : forall t, (exists q, 0 <= q < Z.of_nat t /\ a + 8 * x = m (sp_limit (h 0%nat) + 8 * q)) \/
                     ~ (exists q, 0 <= q < Z.of_nat t /\ a + 8 * x = m (sp_limit (h 0%nat) + 8 * q))).
        { induction t as [|t IHt]; [right; intros (q & Hq & _); lia|].
          destruct IHt as [(q & Hq & Eq)|Nq]; [left; exists q; split; [lia|exact Eq]|].
          destruct (Z.eq_dec (a + 8 * x) (m (sp_limit (h 0%nat) + 8 * Z.of_nat t))) as [e|ne]; [left; exists (Z.of_nat t); split; [lia|exact e]|].
          right. intros (q & Hq & Eq). destruct (Z.eq_dec q (Z.of_nat t)) as [->|nk]; [auto|].
          apply Nq. exists q. split; [lia|exact Eq]. }
        assert (0 <= n) by (apply Z.div_pos; lia).
        destruct (D (Z.to_nat n)) as [W|W]; rewrite Z2Nat.id in W by lia; [left; split; [exact Nn|exact W]|right; intros [_ W']; auto]. }
      destruct Dec as [Hc|Hc].
      - destruct (CE _ Hc) as [Ev En]. rewrite Ev in *. destruct (PH _ P Q) as [P' Q'].
        destruct (ms_field _ _ _ _ _ _ _ S _ IF P' Q') as (j' & Hj' & Hin').
        apply (Go j'); auto. intros ->. destruct (YoungIn _ Hin') as [Y1 Y2]. auto.
      - rewrite (OldW j a x) in * by (auto; lia).
        destruct (ms_field _ _ _ _ _ _ _ S _ IF P Q) as (j' & Hj' & Hin').
        destruct j' as [|j'].
        + exfalso. apply Hc. split; [exact Nn|]. apply (ms_young _ _ _ _ _ _ _ S _ IF Nn Hin').
        + exists (Datatypes.S j'). split; [lia|]. unfold objs_after. destruct j'; cbn [Nat.eqb]; [apply in_or_app; left|]; exact Hin'. }
    unfold objs_after in Ha. destruct j as [|j]; cbn [Nat.eqb] in Ha; [destruct Ha|].
    destruct j as [|j]; cbn [Nat.eqb] in Ha; [|apply OldCase; [lia|exact Ha]].
    apply in_app_or in Ha. destruct Ha as [Ha|Ha]; [apply OldCase; [lia|exact Ha]|].
    destruct (CP a Ha) as (a0 & Ha0 & Ea & Ra0 & Eh & Ev).
    unfold raw, tag in NR. unfold size in Hx. rewrite Eh in NR, Hx.
    destruct (Ev x Hx) as [Ev1 Ev2].
    destruct (No_scan (Tag_hd (m (a0 - 8)))) eqn:Es; [apply No_scan_raw in Es; destruct (NR Es)|].
    rewrite Ev1 in *. destruct (PH _ P Q) as [P' Q'].
    destruct (ms_field _ _ _ _ _ _ _ S (a0 + 8 * x)) as (j' & Hj' & Hin'); auto.
    { exists 0%nat, a0, x. split; [lia|]. auto. }
    apply (Go j'); auto. intros ->. destruct (YoungIn _ Hin') as [Y1 Y2]. auto. }
  split.
  2: { intros a Na Nr. apply FR; auto; try (intros X; apply Na; first [apply A4; lia|apply B4; lia]).
       intros Hc. apply Na. destruct (ms_recorded _ _ _ _ _ S _ Hc) as (j & b & y & Hj & Hb & _ & Hy & ->).
       pose proof (ms_obj _ _ _ _ _ S j b Hj Hb). pose proof (ms_space _ _ _ _ _ _ _ S j Hj).
       apply (ms_info _ _ _ _ _ S j Hj). lia. }
  assert (Sst : forall j, sp_start (set_space (set_space h 0 {| sp_start := sp_start (h 0%nat); sp_next := sp_start (h 0%nat);
        sp_limit := sp_rem (h 0%nat); sp_rem := sp_rem (h 0%nat) |}) 1 to' j) = sp_start (h j)).
  { intros [|[|j]]; cbn; auto. }
  assert (Srm : forall j, sp_rem (set_space (set_space h 0 {| sp_start := sp_start (h 0%nat); sp_next := sp_start (h 0%nat);
        sp_limit := sp_rem (h 0%nat); sp_rem := sp_rem (h 0%nat) |}) 1 to' j) = sp_rem (h j)).
  { intros [|[|j]]; cbn; auto. }
  constructor.
  - apply (ms_k _ _ _ _ _ _ _ S).
  - intros j Hj. rewrite Sst. apply (ms_null _ _ _ _ _ _ _ S j Hj).
  - rewrite Sst, Srm. apply (ms_nursery _ _ _ _ _ _ _ S).
  - intros j Hj. rewrite Sst, Srm. apply (ms_malloc _ _ _ _ _ _ _ S j Hj).
  - intros j Hj. rewrite Sst, Srm. destruct j as [|[|j]]; cbn [set_space Nat.eqb sp_next sp_limit].
    + repeat split; auto; lia.
    + repeat split; auto; lia.
    + apply (ms_space _ _ _ _ _ _ _ S _ Hj).
  - exact Objs'.
  - apply (ms_roots _ _ _ _ _ _ _ S).
  - intros p Hp P Q. rewrite (sg_slot _ _ _ _ _ SG p Hp) in *.
    destruct (PH _ P Q) as [P' Q'].
    pose proof (ms_rootv _ _ _ _ _ _ _ S p Hp P' Q') as (j & Hj & Hin).
    destruct (Go j (m p) Hj Hin) as (j' & Hj' & X).
    + intros ->. destruct (YoungIn _ Hin) as [Y1 Y2]. apply MV; [apply reach_slot; assumption|exact Y2].
    + exists j'. split; [lia|exact X].
  - intros c IF P Q. destruct (Field' c IF P Q) as (j' & Hj' & X). exists j'. split; [lia|exact X].
  - intros q. cbn [set_space Nat.eqb sp_rem sp_limit]. rewrite Z.sub_diag. cbn. lia.
  - intros c IF N Hin. exfalso. unfold objs_after in Hin. cbn [Nat.eqb] in Hin. destruct Hin.
  - intros _. unfold fits. cbn [set_space Nat.eqb sp_rem sp_start]. lia.
Qed.

End MS.
