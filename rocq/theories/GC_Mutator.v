(** Programs over the collected heap: sequences of allocations, root stores, frame pushes and
    pops, and collections, starting from a fresh heap. *)
From Coq Require Import ZArith Bool List Lia.
From Verif Require Import RT_Word RT_Values GC_Model GC_Spec GC_Proofs GC_Step GC_Heap.
Import ListNotations.
Open Scope Z_scope.
Ltac Zify.zify_post_hook ::= idtac.

(** A block of [n] consecutive words from [a]. *)
Fixpoint store_words (m : mem) (a : Z) (ws : list Z) : mem :=
  match ws with
  | [] => m
  | w :: ws => store_words (upd m a w) (a + 8) ws
  end.

Lemma store_words_out ws : forall m a b, ~ (a <= b < a + 8 * Z.of_nat (length ws)) -> store_words m a ws b = m b.
Proof.
  induction ws as [|w ws IH]; intros m a b Hb; [reflexivity|].
  cbn [store_words length] in *. rewrite Nat2Z.inj_succ in Hb. rewrite IH by lia. apply upd_other. lia.
Qed.

Lemma store_words_in ws : forall m a i, 0 <= i < Z.of_nat (length ws) ->
  store_words m a ws (a + 8 * i) = nth (Z.to_nat i) ws 0.
Proof.
  induction ws as [|w ws IH]; intros m a i Hi; cbn [length] in Hi; [lia|].
  rewrite Nat2Z.inj_succ in Hi. cbn [store_words]. destruct (Z.eq_dec i 0) as [->|N].
  - rewrite store_words_out by lia. replace (a + 8 * 0) with a by lia. apply upd_same.
  - replace (a + 8 * i) with (a + 8 + 8 * (i - 1)) by lia. rewrite IH by lia.
    replace (Z.to_nat i) with (S (Z.to_nat (i - 1))) by lia. reflexivity.
Qed.

Section Mut.
Variables (malloc : nat -> Z -> option Z) (H : Z -> Prop).
Hypothesis MOK : malloc_ok malloc H.

Definition state := (thread * mem)%type.
Definition slots_of (ti : thread) : Z -> Prop := slot_of (th_fp ti).

(** A word the program may hold: not a heap address, or an object it can reach. *)
Definition live (s : state) (w : Z) : Prop :=
  ~ (pointer w /\ H w) \/ reachable H (snd s) (slots_of (fst s)) w.

Definition with_alloc (ti : thread) (a : Z) : thread :=
  {| th_alloc := a; th_limit := th_limit ti; th_heap := th_heap ti; th_fp := th_fp ti; th_nalloc := th_nalloc ti |}.
Definition with_fp (ti : thread) (fp : frames) : thread :=
  {| th_alloc := th_alloc ti; th_limit := th_limit ti; th_heap := th_heap ti; th_fp := fp; th_nalloc := th_nalloc ti |}.
Definition with_nalloc (ti : thread) (n : Z) : thread :=
  {| th_alloc := th_alloc ti; th_limit := th_limit ti; th_heap := th_heap ti; th_fp := th_fp ti; th_nalloc := n |}.

(** One step of the program itself. *)
Inductive pstep : state -> state -> Prop :=
| st_alloc ti m tag ws r :
    (* header and fields at the allocation pointer, the address of the object to a root slot *)
    (1 <= length ws)%nat -> 0 <= tag < 256 -> th_alloc ti + 8 * (1 + Z.of_nat (length ws)) <= th_limit ti ->
    slots_of ti r -> (251 <= tag \/ forall w, In w ws -> live (ti, m) w) ->
    pstep (ti, m) (with_alloc ti (th_alloc ti + 8 * (1 + Z.of_nat (length ws))),
                   upd (store_words m (th_alloc ti) ((1024 * Z.of_nat (length ws) + tag) :: ws)) r (th_alloc ti + 8))
| st_root ti m r w : slots_of ti r -> live (ti, m) w -> pstep (ti, m) (ti, upd m r w)
| st_push ti m start n : (forall k, 0 <= k < Z.of_nat n -> ~ H (start + 8 * k) /\ live (ti, m) (m (start + 8 * k))) ->
    pstep (ti, m) (with_fp ti ((start, n) :: th_fp ti), m)
| st_pop ti m f fs : th_fp ti = f :: fs -> pstep (ti, m) (with_fp ti fs, m)
| st_other ti m a w : ~ H a -> ~ slots_of ti a -> pstep (ti, m) (ti, upd m a w)
| st_nalloc ti m n : pstep (ti, m) (with_nalloc ti n, m).

(** A step of the program or a collection. *)
Inductive mstep : state -> state -> Prop :=
| st_plain s s' : pstep s s' -> mstep s s'
| st_gc ti m ti' m' : garbage_collect malloc ti m = Ok (ti', m') -> mstep (ti, m) (ti', m').

Inductive mrun : state -> state -> Prop :=
| mrun_refl s : mrun s s
| mrun_step s1 s2 s3 : mrun s1 s2 -> mstep s2 s3 -> mrun s1 s3.

(** The invariant. *)
Definition mut_ok (s : state) : Prop :=
  exists k objs, heap_ok malloc H (slots_of (fst s)) (sync_nursery (fst s)) k objs (snd s).

Lemma shape_ext R h h' k objs m : (forall i, h' i = h i) -> shape malloc H R h k objs m -> shape malloc H R h' k objs m.
Proof.
  intros E S. constructor.
  - apply (sh_k _ _ _ _ _ _ _ S).
  - intros i. rewrite E. apply (sh_null _ _ _ _ _ _ _ S).
  - rewrite E. apply (sh_nursery _ _ _ _ _ _ _ S).
  - intros i. rewrite E. apply (sh_malloc _ _ _ _ _ _ _ S).
  - intros i. rewrite E. apply (sh_space _ _ _ _ _ _ _ S).
  - intros i. rewrite !E. apply (sh_grow _ _ _ _ _ _ _ S).
  - intros i. rewrite E. apply (sh_objs _ _ _ _ _ _ _ S).
  - apply (sh_roots _ _ _ _ _ _ _ S).
  - apply (sh_rootv _ _ _ _ _ _ _ S).
  - apply (sh_field _ _ _ _ _ _ _ S).
Qed.

(** Other root slots and other memory outside the heap. *)
Lemma shape_reroot (R R' : Z -> Prop) h k objs m m' : shape malloc H R h k objs m ->
  (forall a, H a -> m' a = m a) -> (forall p, R' p -> ~ H p) ->
  (forall p, R' p -> pointer (m' p) -> H (m' p) -> exists i, (i <= k)%nat /\ In (m' p) (objs i)) ->
  shape malloc H R' h k objs m'.
Proof.
  intros S Em Hr Hv.
  assert (IH : forall i a, (i <= k)%nat -> In a (objs i) -> H (a - 8) /\ size m' a = size m a /\
           (raw m' a <-> raw m a) /\ forall x, 0 <= x < size m a -> m' (a + 8 * x) = m (a + 8 * x)).
  { intros i a Hi Ha. pose proof (sh_obj _ _ _ _ _ _ _ S i a Hi Ha) as Ob.
    destruct (sh_space _ _ _ _ _ _ _ S i Hi) as (A & B & _).
    assert (SI : forall x, sp_start (h i) <= x < sp_rem (h i) -> H x).
    { destruct (sh_malloc _ _ _ _ _ _ _ S i Hi) as (n & En & Er). rewrite Er. apply (proj1 MOK _ _ _ En). }
    assert (Hh : H (a - 8)) by (apply SI; lia).
    split; [exact Hh|]. unfold size, raw, tag. rewrite Em by exact Hh. split; [reflexivity|]. split; [reflexivity|].
    intros x Hx. apply Em. apply SI. fold (size m a) in Hx. lia. }
  constructor.
  - apply (sh_k _ _ _ _ _ _ _ S).
  - apply (sh_null _ _ _ _ _ _ _ S).
  - apply (sh_nursery _ _ _ _ _ _ _ S).
  - apply (sh_malloc _ _ _ _ _ _ _ S).
  - apply (sh_space _ _ _ _ _ _ _ S).
  - apply (sh_grow _ _ _ _ _ _ _ S).
  - intros i Hi. eapply objects_in_ext; [apply (sh_objs _ _ _ _ _ _ _ S i Hi)|].
    intros x Hx. apply Em. destruct (sh_space _ _ _ _ _ _ _ S i Hi) as (A & B & _).
    destruct (sh_malloc _ _ _ _ _ _ _ S i Hi) as (n & En & Er). apply (proj1 MOK _ _ _ En). lia.
  - exact Hr.
  - exact Hv.
  - intros j a i Hj Hin NR Hi P Q. destruct (IH j a Hj Hin) as (_ & Es & Ew & Ev).
    rewrite Es in Hi. rewrite (Ev i Hi) in *. rewrite Ew in NR.
    apply (sh_field _ _ _ _ _ _ _ S); assumption.
Qed.

Lemma live_obj ti h k objs m w : shape malloc H (slots_of ti) h k objs m -> live (ti, m) w -> pointer w -> H w ->
  exists i, (i <= k)%nat /\ In w (objs i).
Proof.
  intros S [N|Rw] P Q; [destruct (N (conj P Q))|]. apply (sh_reach _ _ _ _ _ _ _ S w Rw).
Qed.

Lemma slot_not_heap ti h k objs m r : shape malloc H (slots_of ti) h k objs m -> slots_of ti r -> ~ H r.
Proof. intros S. apply (sh_roots _ _ _ _ _ _ _ S). Qed.

Lemma sync_fits R ti k objs m : shape malloc H R (sync_nursery ti) k objs m ->
  sp_rem (th_heap ti 0%nat) = th_limit ti.
Proof. intros S. destruct (sh_space _ _ _ _ _ _ _ S 0%nat ltac:(lia)) as (_ & E & _). cbn in E. auto. Qed.

Lemma step_alloc_ok ti m tag ws r :
  (1 <= length ws)%nat -> 0 <= tag < 256 -> th_alloc ti + 8 * (1 + Z.of_nat (length ws)) <= th_limit ti ->
  slots_of ti r -> (251 <= tag \/ forall w, In w ws -> live (ti, m) w) -> mut_ok (ti, m) ->
  mut_ok (with_alloc ti (th_alloc ti + 8 * (1 + Z.of_nat (length ws))),
          upd (store_words m (th_alloc ti) ((1024 * Z.of_nat (length ws) + tag) :: ws)) r (th_alloc ti + 8)).
Proof.
  intros Hl Ht Hroom Hr Hw (k & objs & S & F). cbn [fst snd] in *.
  set (n := Z.of_nat (length ws)) in *. set (a0 := th_alloc ti) in *. set (hd := 1024 * n + tag) in *.
  assert (Hn : 1 <= n) by (unfold n; lia).
  set (m1 := store_words m a0 (hd :: ws)). set (m2 := upd m1 r (a0 + 8)).
  destruct (sh_space _ _ _ _ _ _ _ S 0%nat ltac:(lia)) as (A1 & A2 & A3).
  destruct (sh_info _ _ _ MOK _ _ _ _ S 0%nat ltac:(lia)) as (A4 & A5 & A6 & A7).
  cbn [sync_nursery set_space Nat.eqb sp_start sp_next sp_limit sp_rem] in A1, A2, A3, A4, A5, A6, A7. fold a0 in A1, A3.
  assert (Hrh : ~ H r) by (apply (slot_not_heap _ _ _ _ _ _ S Hr)).
  assert (Ha0 : forall x, a0 <= x < a0 + 8 * (1 + n) -> H x) by (intros x Hx; apply A7; lia).
  assert (Out : forall x, ~ (a0 <= x < a0 + 8 * (1 + n)) -> m1 x = m x).
  { intros x Hx. apply store_words_out. cbn [length]. unfold n in Hx. lia. }
  assert (Ehd : m2 a0 = hd).
  { unfold m2. rewrite upd_other by (intros ->; apply Hrh; apply Ha0; lia).
    pose proof (store_words_in (hd :: ws) m a0 0 ltac:(cbn [length]; lia)) as X.
    replace (a0 + 8 * 0) with a0 in X by lia. exact X. }
  assert (Efl : forall i, 0 <= i < n -> m2 (a0 + 8 + 8 * i) = nth (Z.to_nat i) ws 0).
  { intros i Hi. unfold m2. rewrite upd_other by (intros Eq; apply Hrh; rewrite <- Eq; apply Ha0; lia).
    pose proof (store_words_in (hd :: ws) m a0 (1 + i) ltac:(cbn [length]; unfold n in Hi; lia)) as X.
    replace (a0 + 8 * (1 + i)) with (a0 + 8 + 8 * i) in X by lia. unfold m1. rewrite X.
    replace (Z.to_nat (1 + i)) with (Datatypes.S (Z.to_nat i)) by lia. reflexivity. }
  assert (Esz : size m2 (a0 + 8) = n).
  { unfold size. replace (a0 + 8 - 8) with a0 by lia. rewrite Ehd. unfold hd.
    rewrite Z.mul_comm, Z.div_add_l, Z.div_small by lia. lia. }
  assert (Etag : GC_Spec.tag m2 (a0 + 8) = tag).
  { unfold GC_Spec.tag. replace (a0 + 8 - 8) with a0 by lia. rewrite Ehd. unfold hd.
    replace (1024 * n + tag) with (tag + (4 * n) * 256) by lia. rewrite Z.mod_add, Z.mod_small by lia. reflexivity. }
  set (objs' := fun j => if Nat.eqb j 0 then objs 0%nat ++ [a0 + 8] else objs j).
  set (h' := sync_nursery (with_alloc ti (a0 + 8 * (1 + n)))).
  assert (H0 : h' 0%nat = {| sp_start := sp_start (th_heap ti 0%nat); sp_next := a0 + 8 * (1 + n);
                sp_limit := th_limit ti; sp_rem := sp_rem (th_heap ti 0%nat) |}) by reflexivity.
  assert (HS : forall j, (0 < j)%nat -> h' j = sync_nursery ti j) by (intros [|j] Hj; [lia|reflexivity]).
  assert (Hst : forall j, sp_start (h' j) = sp_start (sync_nursery ti j)) by (intros [|j]; reflexivity).
  assert (Hrm : forall j, sp_rem (h' j) = sp_rem (sync_nursery ti j)) by (intros [|j]; reflexivity).
  assert (Sub : forall j w, In w (objs j) -> In w (objs' j)).
  { intros j w X. unfold objs'. destruct (Nat.eqb_spec j 0) as [->|_]; [apply in_or_app; left|]; exact X. }
  assert (Old : forall j, (j <= k)%nat -> forall x, sp_start (sync_nursery ti j) <= x < sp_next (sync_nursery ti j) -> m2 x = m x).
  { intros j Hj x Hx. destruct (sh_info _ _ _ MOK _ _ _ _ S j Hj) as (_ & _ & _ & B).
    destruct (sh_space _ _ _ _ _ _ _ S j Hj) as (C1 & C2 & C3).
    unfold m2. rewrite upd_other by (intros ->; apply Hrh; apply B; lia). apply Out.
    destruct (Nat.eq_dec j 0) as [->|N].
    - cbn [sync_nursery set_space Nat.eqb sp_start sp_next] in Hx. fold a0 in Hx. lia.
    - pose proof (sh_apart _ _ _ MOK _ _ _ _ S 0%nat j ltac:(lia) Hj ltac:(lia)) as Ap.
      cbn [sync_nursery set_space Nat.eqb sp_start sp_rem] in Ap.
      change (set_space (th_heap ti) 0 {| sp_start := sp_start (th_heap ti 0%nat); sp_next := th_alloc ti; sp_limit := th_limit ti; sp_rem := sp_rem (th_heap ti 0%nat) |} j) with (sync_nursery ti j) in Ap.
      lia. }
  assert (Lv : forall w, live (ti, m) w -> pointer w -> H w -> exists i, (i <= k)%nat /\ In w (objs' i)).
  { intros w Lw P Q. destruct (live_obj _ _ _ _ _ _ S Lw P Q) as (i & Hi & X). exists i. auto. }
  exists k, objs'. cbn [fst snd]. split.
  - constructor.
    + apply (sh_k _ _ _ _ _ _ _ S).
    + intros j Hj. fold h'. rewrite HS by lia. apply (sh_null _ _ _ _ _ _ _ S j Hj).
    + fold h'. rewrite Hst, Hrm. apply (sh_nursery _ _ _ _ _ _ _ S).
    + intros j Hj. fold h'. rewrite Hst, Hrm. apply (sh_malloc _ _ _ _ _ _ _ S j Hj).
    + intros j Hj. fold h'. destruct (Nat.eq_dec j 0) as [->|N].
      * rewrite H0. cbn [sp_start sp_next sp_limit sp_rem]. split; [lia|]. split; [exact A2|].
        replace (a0 + 8 * (1 + n)) with (a0 + (1 + n) * 8) by lia. rewrite Z.mod_add by lia. exact A3.
      * rewrite HS by lia. apply (sh_space _ _ _ _ _ _ _ S j Hj).
    + intros j Hj. fold h'. rewrite !Hst, !Hrm. apply (sh_grow _ _ _ _ _ _ _ S j Hj).
    + intros j Hj. fold h'. rewrite Hst. destruct (Nat.eq_dec j 0) as [->|N].
      * rewrite H0. cbn [sp_next]. unfold objs'. cbn [Nat.eqb]. eapply objects_in_app.
        -- eapply objects_in_ext; [apply (sh_objs _ _ _ _ _ _ _ S 0%nat); lia|]. apply Old. lia.
        -- cbn [sync_nursery set_space Nat.eqb sp_next]. fold a0. constructor; rewrite Esz; [exact Hn|].
           replace (a0 + 8 + 8 * n) with (a0 + 8 * (1 + n)) by lia. constructor.
      * rewrite HS by lia. unfold objs'. rewrite (proj2 (Nat.eqb_neq _ _)) by lia.
        eapply objects_in_ext; [apply (sh_objs _ _ _ _ _ _ _ S j); lia|]. apply Old. lia.
    + exact (sh_roots _ _ _ _ _ _ _ S).
    + intros p Hp P Q. change (slots_of ti p) in Hp. fold m1 in P, Q |- *. fold m2 in P, Q |- *.
      destruct (Z.eq_dec p r) as [->|N].
      * unfold m2. rewrite upd_same. exists 0%nat. split; [lia|]. unfold objs'. cbn [Nat.eqb]. apply in_or_app. right. left. reflexivity.
      * assert (Ep : m2 p = m p).
        { unfold m2. rewrite upd_other by exact N. apply Out. intros X. apply (sh_roots _ _ _ _ _ _ _ S p Hp). apply Ha0. exact X. }
        rewrite Ep in *. destruct (sh_rootv _ _ _ _ _ _ _ S p Hp P Q) as (i & Hi & X). exists i. auto.
    + fold m1. fold m2. intros j a i Hj Hin NR Hi P Q.
      assert (OC : In a (objs j) -> exists j', (j <= j' <= k)%nat /\ In (m2 (a + 8 * i)) (objs' j')).
      { intros X. pose proof (sh_obj _ _ _ _ _ _ _ S j a Hj X) as Ob.
        assert (Eh : m2 (a - 8) = m (a - 8)) by (apply (Old j Hj); lia).
        unfold raw, GC_Spec.tag in NR. unfold size in Hi. rewrite Eh in NR, Hi.
        assert (Ev : m2 (a + 8 * i) = m (a + 8 * i)) by (apply (Old j Hj); fold (size m a) in Hi; lia).
        rewrite Ev in *. destruct (sh_field _ _ _ _ _ _ _ S j a i Hj X NR Hi P Q) as (j' & Hj' & Y).
        exists j'. split; [exact Hj'|auto]. }
      unfold objs' in Hin. destruct (Nat.eqb_spec j 0) as [->|N]; [|auto].
      apply in_app_or in Hin. destruct Hin as [Hin|[Ea|[]]]; [auto|]. subst a.
      rewrite Esz in Hi. unfold raw in NR. rewrite Etag in NR. rewrite (Efl i Hi) in *.
      destruct Hw as [Hw|Hw]; [lia|].
      destruct (Lv (nth (Z.to_nat i) ws 0)) as (j' & Hj' & Y); auto.
      * apply Hw. apply nth_In. unfold n in Hi. lia.
      * exists j'. split; [lia|exact Y].
  - intros j Hj. pose proof (F j Hj) as X. unfold fits in *. fold h'. rewrite Hst, Hrm, (HS (Datatypes.S j)) by lia. exact X.
Qed.

Lemma pstep_ok s s' : mut_ok s -> pstep s s' -> mut_ok s'.
Proof.
  intros Ok0 St. destruct St as [ti m tag ws r H1 H2 H3 H4 H5|ti m r w Hr Hw|ti m start n Hs|ti m f fs Hf|ti m a w Ha Hs|ti m n].
  - apply step_alloc_ok; assumption.
  - destruct Ok0 as (k & objs & S & F). cbn [fst snd] in *. exists k, objs. cbn [fst snd]. split; [|exact F].
    pose proof (slot_not_heap _ _ _ _ _ _ S Hr) as Nr.
    eapply shape_reroot; [exact S| |apply (sh_roots _ _ _ _ _ _ _ S)|].
    + intros a Ha. apply upd_other. intros ->. auto.
    + intros p Hp P Q. destruct (Z.eq_dec p r) as [->|N].
      * rewrite upd_same in *. eapply live_obj; eassumption.
      * rewrite upd_other in * by exact N. apply (sh_rootv _ _ _ _ _ _ _ S); assumption.
  - destruct Ok0 as (k & objs & S & F). cbn [fst snd] in *. exists k, objs. cbn [fst snd]. split; [|exact F].
    assert (SL : forall p, slots_of (with_fp ti ((start, n) :: th_fp ti)) p -> slots_of ti p \/ exists k, 0 <= k < Z.of_nat n /\ p = start + 8 * k).
    { intros p (st & n' & k' & [Eq|Hin] & Hk' & ->).
      - injection Eq as -> ->. right. exists k'. auto.
      - left. exists st, n', k'. auto. }
    change (sync_nursery (with_fp ti ((start, n) :: th_fp ti))) with (sync_nursery ti).
    eapply shape_reroot; [exact S|reflexivity| |].
    + intros p Hp. destruct (SL p Hp) as [X|(k' & Hk' & ->)]; [apply (sh_roots _ _ _ _ _ _ _ S); exact X|apply Hs; exact Hk'].
    + intros p Hp P Q. destruct (SL p Hp) as [X|(k' & Hk' & ->)]; [apply (sh_rootv _ _ _ _ _ _ _ S); assumption|].
      eapply live_obj; try eassumption. apply Hs. exact Hk'.
  - destruct Ok0 as (k & objs & S & F). cbn [fst snd] in *. exists k, objs. cbn [fst snd]. split; [|exact F].
    assert (SL : forall p, slots_of (with_fp ti fs) p -> slots_of ti p).
    { intros p (st & n' & k' & Hin & Hk' & ->). exists st, n', k'. rewrite Hf. split; [right; exact Hin|auto]. }
    change (sync_nursery (with_fp ti fs)) with (sync_nursery ti).
    eapply shape_reroot; [exact S|reflexivity| |].
    + intros p Hp. apply (sh_roots _ _ _ _ _ _ _ S). auto.
    + intros p Hp P Q. apply (sh_rootv _ _ _ _ _ _ _ S); auto.
  - destruct Ok0 as (k & objs & S & F). cbn [fst snd] in *. exists k, objs. cbn [fst snd]. split; [|exact F].
    eapply shape_reroot; [exact S| |apply (sh_roots _ _ _ _ _ _ _ S)|].
    + intros x Hx. apply upd_other. intros ->. auto.
    + intros p Hp P Q. assert (N : p <> a) by (intros ->; auto).
      rewrite upd_other in * by exact N. apply (sh_rootv _ _ _ _ _ _ _ S); assumption.
  - exact Ok0.
Qed.

Lemma mstep_ok s s' : mut_ok s -> mstep s s' -> mut_ok s'.
Proof.
  intros Ok0 St. destruct St as [s s' St|ti m ti' m' Hg].
  - eapply pstep_ok; eassumption.
  - destruct Ok0 as (k & objs & S & F). cbn [fst snd] in *.
    pose proof (gc_loop_ok malloc H (th_fp ti) MOK (MAX_SPACES - 1) 0 ti (sync_nursery ti) k objs m eq_refl S ltac:(lia) eq_refl
      ltac:(intros; lia) ltac:(intros; apply F; lia)) as X.
    unfold garbage_collect in Hg. rewrite Hg in X.
    destruct X as (k' & objs' & phi & _ & [S' F'] & _ & Ea & El & En & Ef & _).
    exists k', objs'. cbn [fst snd].
    assert (Ex : forall i, sync_nursery ti' i = th_heap ti' i).
    { intros [|i]; [|reflexivity]. cbn [sync_nursery set_space Nat.eqb]. rewrite Ea, El.
      destruct (th_heap ti' 0%nat); cbn in *. subst. reflexivity. }
    unfold slots_of. rewrite Ef. split; [eapply shape_ext; [exact Ex|exact S']|].
    intros i Hi. unfold fits. rewrite !Ex. apply F'. exact Hi.
Qed.

Lemma mrun_ok s s' : mut_ok s -> mrun s s' -> mut_ok s'.
Proof. intros H0 Rn. induction Rn; auto. eapply mstep_ok; [apply IHRn; exact H0|eassumption]. Qed.

Lemma make_tinfo_ok ti m : make_tinfo malloc = Ok ti -> mut_ok (ti, m).
Proof.
  unfold make_tinfo, create_heap, create_space. destruct (malloc 0%nat NURSERY_SIZE) as [p|] eqn:Em; [|discriminate].
  cbn [cbind]. intros Eq. injection Eq as Eq. subst ti.
  destruct (proj1 MOK _ _ _ Em) as (P1 & P2 & P3).
  exists 0%nat, (fun _ => []). cbn [fst snd]. split; [|intros i Hi; lia].
  constructor.
  - unfold MAX_SPACES. lia.
  - intros [|i] Hi; [lia|reflexivity].
  - cbn. lia.
  - intros i Hi. assert (i = 0%nat) by lia. subst i. exists NURSERY_SIZE. cbn. auto.
  - intros i Hi. assert (i = 0%nat) by lia. subst i. cbn. repeat split; try lia; auto.
  - intros i Hi. lia.
  - intros i Hi. assert (i = 0%nat) by lia. subst i. cbn. constructor.
  - intros p0 (st & n & k & [] & _).
  - intros p0 (st & n & k & [] & _).
  - intros j a i Hj [].
Qed.

(** ** Consequences for every state a program can reach *)

Theorem run_collect ti0 m0 ti m : make_tinfo malloc = Ok ti0 -> mrun (ti0, m0) (ti, m) ->
  match garbage_collect malloc ti m with
  | Ok (ti', m') => collected malloc H (th_fp ti) ti m ti' m'
  | Abort => NURSERY_SIZE < th_nalloc ti \/ malloc_fails malloc \/ sp_start (th_heap ti 42%nat) <> 0
  | UB => False
  end.
Proof.
  intros Hm Hr. pose proof (mrun_ok _ _ (make_tinfo_ok ti0 m0 Hm) Hr) as (k & objs & S & F). cbn [fst snd] in *.
  pose proof (gc_loop_ok malloc H (th_fp ti) MOK (MAX_SPACES - 1) 0 ti (sync_nursery ti) k objs m eq_refl S ltac:(lia) eq_refl
      ltac:(intros; lia) ltac:(intros; apply F; lia)) as X.
  fold (garbage_collect malloc ti m) in X. destruct (garbage_collect malloc ti m) as [[ti' m']| |]; auto.
  destruct X as [X|[X|Ek]]; [left; exact X|right; left; exact X|subst k].
  right. right. pose proof (sh_info _ _ _ MOK _ _ _ _ S 42%nat ltac:(lia)) as (Y & _).
  change (sync_nursery ti 42%nat) with (th_heap ti 42%nat) in Y. lia.
Qed.

End Mut.
