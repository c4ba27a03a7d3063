(** C03 - C08, C57, C58: the garbage collector. *)
From Coq Require Import ZArith Bool List Lia.
From Verif Require Import RT_Word RT_Values GC_Model GC_Spec GC_Proofs GC_Step GC_Heap GC_Mutator GC_Export GC_Modify GC_Update GC_Counter.
Import ListNotations.
Open Scope Z_scope.
Ltac Zify.zify_post_hook ::= idtac.

(** ** C03, C04: one generation into the next *)

(** From every state in which a generation can be collected, [do_generation] succeeds and keeps
    the reachable graph.  Objects outside the collected generation stay where they are. *)
Theorem C03_generation : forall H m objs from to frs,
  collectable H (slot_of frs) m objs (sp_start from) (sp_next from) (sp_limit from) (sp_rem from)
     (sp_start to) (sp_next to) (sp_limit to) ->
  exists from' to' m' phi, do_generation from to frs m = Ok (from', to', m') /\
    same_graph H (slot_of frs) m m' phi /\
    (forall w, ~ (pointer w /\ sp_start from <= w < sp_limit from) -> phi w = w) /\
    (forall a, reachable H m (slot_of frs) a -> sp_start from <= a < sp_limit from ->
       sp_next to <= phi a - 8 /\ phi a + 8 * size m a <= sp_next to').
Proof.
  intros H m objs from to frs C. destruct (do_generation_ok H m objs from to frs C) as (f & t & m' & phi & news & E & SR).
  exists f, t, m', phi. split; [exact E|]. split; [apply (sr_graph _ _ _ _ _ _ _ _ _ _ _ SR)|].
  split; [apply (sr_fixed _ _ _ _ _ _ _ _ _ _ _ SR)|]. intros a Ra Ha.
  pose proof (sr_moved _ _ _ _ _ _ _ _ _ _ _ SR a Ra Ha) as Hin.
  destruct (objects_in_range _ _ _ _ (sr_news _ _ _ _ _ _ _ _ _ _ _ SR)) as [_ X].
  destruct (X _ Hin) as (A1 & A2 & _).
  pose proof (sg_header _ _ _ _ _ (sr_graph _ _ _ _ _ _ _ _ _ _ _ SR) a Ra) as Eh.
  unfold size in *. rewrite Eh in A2. lia.
Qed.

(** The bump pointer of the destination stays below its limit, and only the collected space, the
    free part of the destination, root slots and remembered cells are written. *)
Theorem C04_no_overflow : forall H m objs from to frs,
  collectable H (slot_of frs) m objs (sp_start from) (sp_next from) (sp_limit from) (sp_rem from)
     (sp_start to) (sp_next to) (sp_limit to) ->
  exists from' to' m', do_generation from to frs m = Ok (from', to', m') /\
    sp_next to <= sp_next to' <= sp_limit to' /\ sp_limit to' <= sp_limit to /\
    (* at most the size of the objects and of the remembered set is used *)
    sp_next to' <= sp_next to + (sp_next from - sp_start from) /\
    sp_limit to - (sp_rem from - sp_limit from) <= sp_limit to' /\
    (forall a, ~ (sp_start from <= a < sp_next from) -> ~ (sp_next to <= a < sp_limit to) ->
       ~ slot_of frs a -> ~ remembered m (sp_start from) (sp_limit from) (sp_rem from) a -> m' a = m a) /\
    (* the collected generation is empty, with its whole array available *)
    from' = {| sp_start := sp_start from; sp_next := sp_start from; sp_limit := sp_rem from; sp_rem := sp_rem from |}.
Proof.
  intros H m objs from to frs C. destruct (do_generation_ok H m objs from to frs C) as (f & t & m' & phi & news & E & SR).
  exists f, t, m'. destruct (sr_to _ _ _ _ _ _ _ _ _ _ _ SR) as (T1 & T2 & T3 & T4 & T5 & T6 & T7).
  split; [exact E|]. split; [exact T3|]. split; [exact T4|]. split; [exact T6|]. split; [exact T5|].
  split; [exact (sr_frame _ _ _ _ _ _ _ _ _ _ _ SR)|exact (sr_from _ _ _ _ _ _ _ _ _ _ _ SR)].
Qed.

(** Cyclic data with sharing: a cycle of two objects and a string with raw contents that look
    like a pointer, in the nursery at 800..872; root slots 16 and 24; destination at 1600.
    A remembered cell at 2408 (field of an object at 2400 elsewhere). *)
Definition cyc_from : space := {| sp_start := 800; sp_next := 872; sp_limit := 952; sp_rem := 960 |}.
Definition cyc_to : space := {| sp_start := 1600; sp_next := 1600; sp_limit := 1760; sp_rem := 1760 |}.
Definition cyc_m : mem := fun a =>
  if a =? 16 then 808 else if a =? 24 then 2408 else
  if a =? 800 then 2048 else if a =? 808 then 832 else if a =? 816 then 7 else           (* (832, 7) *)
  if a =? 824 then 3072 + 1 else if a =? 832 then 808 else if a =? 840 then 808 else if a =? 848 then 2408 else
  if a =? 856 then 1024 + 252 else if a =? 864 then 808 else                             (* raw word *)
  if a =? 952 then 2408 else
  if a =? 2400 then 1024 else if a =? 2408 then 864 else 0.
Definition cyc_frs : frames := [(16, 2%nat)].
Definition cyc_H (a : Z) : Prop := 800 <= a.

Lemma cyc_slots p : slot_of cyc_frs p <-> p = 16 \/ p = 24.
Proof.
  unfold slot_of, cyc_frs. split.
  - intros (st & n & k & [E|[]] & Hk & ->). injection E as <- <-. lia.
  - intros [E|E]; subst p; [exists 16, 2%nat, 0|exists 16, 2%nat, 1]; (split; [left; reflexivity|lia]).
Qed.
Lemma cyc_rem c : remembered cyc_m 800 952 960 c <-> c = 2408.
Proof.
  unfold remembered. split.
  - intros [_ (k & Hk & ->)]. change ((960 - 952) / 8) with 1 in Hk. assert (k = 0) by lia. subst k. reflexivity.
  - intros ->. split; [lia|]. exists 0. split; [vm_compute; split; [discriminate|reflexivity]|reflexivity].
Qed.
Lemma cyc_reach a : reachable cyc_H cyc_m (fun p => slot_of cyc_frs p \/ remembered cyc_m 800 952 960 p) a ->
  a = 808 \/ a = 832 \/ a = 864 \/ a = 2408.
Proof.
  intros R. induction R as [r Hr P Hh | a i R IH NR Hi P Hh].
  - rewrite cyc_slots, cyc_rem in Hr. destruct Hr as [[E|E]|E]; subst r; cbn; auto.
  - destruct IH as [E|[E|[E|E]]]; subst a.
    + change (size cyc_m 808) with 2 in Hi. assert (E : i = 0 \/ i = 1) by lia. destruct E; subst i; [cbn; auto|discriminate P].
    + change (size cyc_m 832) with 3 in Hi. assert (E : i = 0 \/ i = 1 \/ i = 2) by lia. destruct E as [E|[E|E]]; subst i; cbn; auto.
    + exfalso. apply NR. vm_compute. discriminate.
    + change (size cyc_m 2408) with 1 in Hi. assert (E : i = 0) by lia. subst i. cbn. auto.
Qed.
Example C03_generation_ex :
  collectable cyc_H (slot_of cyc_frs) cyc_m [808; 832; 864] (sp_start cyc_from) (sp_next cyc_from) (sp_limit cyc_from) (sp_rem cyc_from)
     (sp_start cyc_to) (sp_next cyc_to) (sp_limit cyc_to) /\
  match do_generation cyc_from cyc_to cyc_frs cyc_m with
  | Ok (_, t, m') => sp_next t = 1672 /\ sp_limit t = 1752 /\ m' 1752 = 2408 /\ m' 2408 = 1608 /\ m' 1608 = 808
      /\ m' 16 = 1624 /\ m' 1624 = 1648 /\ m' 1632 = 7 /\ map m' [1648; 1656; 1664] = [1624; 1624; 2408]
  | _ => False
  end.
Proof.
  split; [|vm_compute; repeat split].
  constructor; cbn [sp_start sp_next sp_limit sp_rem cyc_from cyc_to].
  - repeat split; lia || reflexivity.
  - repeat split; lia || reflexivity.
  - apply (oi_cons cyc_m 800); [vm_compute; discriminate|]. apply (oi_cons cyc_m 824); [vm_compute; discriminate|].
    apply (oi_cons cyc_m 856); [vm_compute; discriminate|]. apply oi_nil.
  - lia.
  - lia.
  - unfold cyc_H. lia.
  - intros p Hp. apply cyc_slots in Hp. lia.
  - intros c Hc. apply cyc_rem in Hc. lia.
  - intros a Ra Ha. apply cyc_reach in Ra. cbn. intuition lia.
  - intros a Ra Ha. assert (Ra' : a = 808 \/ a = 832 \/ a = 864 \/ a = 2408).
    { apply cyc_reach. eapply reachable_mono; [|exact Ra]. auto. }
    assert (a = 2408) by lia. subst a. change (size cyc_m 2408) with 1.
    split; [lia|]. split; [|split; [|split]].
    + intros i Hi. split; [lia|]. split; [lia|]. intros X. apply cyc_slots in X. lia.
    + rewrite cyc_rem. lia.
    + intros i _ Hr. exfalso. apply Hr. reflexivity.
    + intros i Hi _ _ _. apply cyc_rem. lia.
Qed.
Print Assumptions C03_generation.
Print Assumptions C04_no_overflow.

(** ** C03, C05, C06: every run of a program that does not overwrite fields *)

(** In every state of every run from a fresh heap, [garbage_collect] either keeps the graph
    reachable from the stack frames, or aborts for lack of memory; nothing outside the heap and
    the root slots is written.  It never has undefined behaviour. *)
Theorem C03_run : forall malloc H ti0 m0 ti m, malloc_ok malloc H ->
  make_tinfo malloc = Ok ti0 -> mrun malloc H (ti0, m0) (ti, m) ->
  match garbage_collect malloc ti m with
  | Ok (ti', m') => exists phi, same_graph H (slot_of (th_fp ti)) m m' phi /\ th_fp ti' = th_fp ti /\
      forall a, ~ H a -> ~ slot_of (th_fp ti) a -> m' a = m a
  | Abort => NURSERY_SIZE < th_nalloc ti \/ malloc_fails malloc \/ sp_start (th_heap ti 42%nat) <> 0
  | UB => False
  end.
Proof.
  intros malloc H ti0 m0 ti m MOK E R. pose proof (run_collect malloc H MOK ti0 m0 ti m E R) as X.
  destruct (garbage_collect malloc ti m) as [[ti' m']| |]; [|exact X|exact X].
  destruct X as (k & objs & phi & A & B & C & D1 & D2 & D3 & D4 & _). exists phi. auto.
Qed.

(** The room asked for is there. *)
Theorem C05_room : forall malloc H ti0 m0 ti m, malloc_ok malloc H ->
  make_tinfo malloc = Ok ti0 -> mrun malloc H (ti0, m0) (ti, m) ->
  forall ti' m', garbage_collect malloc ti m = Ok (ti', m') ->
    th_nalloc ti' = th_nalloc ti /\ th_nalloc ti <= (th_limit ti' - th_alloc ti') / 8 /\
    (* the whole nursery, and inside the heap *)
    th_limit ti' - th_alloc ti' = 8 * NURSERY_SIZE /\
    forall a, th_alloc ti' <= a < th_limit ti' -> H a.
Proof.
  intros malloc H ti0 m0 ti m MOK E R ti' m' G. pose proof (run_collect malloc H MOK ti0 m0 ti m E R) as X.
  rewrite G in X. destruct X as (k & objs & phi & A & [S F] & C & D1 & D2 & D3 & D4 & D5 & D6).
  split; [exact D5|]. split; [rewrite <- D5; exact D6|]. rewrite D1, D2.
  destruct (sh_space _ _ _ _ _ _ _ S 0%nat ltac:(lia)) as (_ & L & _). rewrite L.
  split; [apply (sh_nursery _ _ _ _ _ _ _ S)|]. apply (sh_info _ _ _ MOK _ _ _ _ S 0%nat ltac:(lia)).
Qed.

(** The discipline: a generation always fits in what is free in the next one, if that exists. *)
Theorem C06_discipline : forall malloc H ti0 m0 ti m, malloc_ok malloc H ->
  make_tinfo malloc = Ok ti0 -> mrun malloc H (ti0, m0) (ti, m) ->
  forall i, sp_start (th_heap ti (S i)) <> 0 ->
    sp_rem (th_heap ti i) - sp_start (th_heap ti i) <= sp_limit (th_heap ti (S i)) - sp_next (th_heap ti (S i)).
Proof.
  intros malloc H ti0 m0 ti m MOK E R i Ne.
  pose proof (mrun_ok malloc H MOK _ _ (make_tinfo_ok malloc H MOK ti0 m0 E) R) as (k & objs & S & F). cbn [fst snd] in *.
  assert (Hi : (i < k)%nat).
  { destruct (Nat.le_gt_cases k i) as [L|L]; [|exact L]. destruct Ne.
    exact (sh_null _ _ _ _ _ _ _ S (Datatypes.S i) ltac:(lia)). }
  specialize (F i Hi). unfold fits in F. destruct i; exact F.
Qed.

(** A program that allocates a pair of an immediate and a string, collects, and overwrites the
    root. *)
Definition run_m0 : mem := fun _ => 1.
Definition run_t0 : thread := okv ex_ti (make_tinfo ex_malloc).
Definition run_s1 : state := (with_fp run_t0 [(16, 2%nat)], run_m0).
Definition run_s2 : state :=
  (with_alloc (fst run_s1) (B0 + 16), upd (store_words run_m0 B0 [1024 * 1 + 252; 808]) 16 (B0 + 8)).
Definition run_s3 : state :=
  (with_alloc (fst run_s2) (B0 + 40), upd (store_words (snd run_s2) (B0 + 16) [1024 * 2 + 0; B0 + 8; 5]) 24 (B0 + 24)).
Definition run_s4 : state := okv run_s3 (garbage_collect ex_malloc (fst run_s3) (snd run_s3)).
Lemma run_eq : make_tinfo ex_malloc = Ok run_t0.
Proof. apply okv_eq. reflexivity. Qed.
Lemma run_slots p : p = 16 \/ p = 24 -> slots_of (fst run_s1) p.
Proof. intros [->| ->]; [exists 16, 2%nat, 0|exists 16, 2%nat, 1]; (split; [left; reflexivity|lia]). Qed.
Lemma run_plain : mrun ex_malloc ex_H (run_t0, run_m0) run_s3.
Proof.
  apply (mrun_step _ _ _ run_s2); [apply (mrun_step _ _ _ run_s1); [apply (mrun_step _ _ _ (run_t0, run_m0)); [apply mrun_refl|]|]|]; apply st_plain.
  - apply (st_push ex_H run_t0 run_m0 16 2). intros k Hk. split; [unfold ex_H; lia|]. left. intros [P _]. discriminate P.
  - apply (st_alloc ex_H (fst run_s1) run_m0 252 [808] 16); [cbn; lia|lia|vm_compute; discriminate|apply run_slots; auto|left; lia].
  - apply (st_alloc ex_H (fst run_s2) (snd run_s2) 0 [B0 + 8; 5] 24); [cbn; lia|lia|vm_compute; discriminate|apply run_slots; auto|right].
    intros w [E|[E|[]]]; subst w.
    + right. change (B0 + 8) with (snd run_s2 16) at 1. apply reach_slot; [apply run_slots; auto|vm_compute; reflexivity|vm_compute; discriminate].
    + left. intros [P _]. discriminate P.
Qed.
Example C03_run_ex : malloc_ok ex_malloc ex_H /\ make_tinfo ex_malloc = Ok run_t0 /\
  mrun ex_malloc ex_H (run_t0, run_m0) (run_s4) /\
  garbage_collect ex_malloc (fst run_s3) (snd run_s3) = Ok run_s4 /\
  snd run_s4 16 = B1 + 8 /\ snd run_s4 24 = B1 + 24 /\ map (snd run_s4) [B1; B1 + 8; B1 + 16; B1 + 24; B1 + 32] = [1276; 808; 2048; B1 + 8; 5] /\
  sp_start (th_heap (fst run_s4) 1%nat) <> 0.
Proof.
  split; [exact ex_malloc_ok|]. split; [exact run_eq|].
  assert (E : garbage_collect ex_malloc (fst run_s3) (snd run_s3) = Ok run_s4) by (apply okv_eq; vm_compute; reflexivity).
  split.
  - eapply mrun_step; [exact run_plain|]. rewrite (surjective_pairing run_s3). rewrite (surjective_pairing run_s4).
    apply st_gc. rewrite <- surjective_pairing. exact E.
  - split; [exact E|]. repeat split; try (vm_compute; reflexivity). vm_compute. discriminate.
Qed.
Print Assumptions C03_run.
Print Assumptions C05_room.
Print Assumptions C06_discipline.

(** ** C07: updates

    Runs that also overwrite fields through [certirocq_modify].  What is missing: collections
    that go beyond the nursery (see [C57_refuted]). *)
Theorem C07_recorded : forall malloc H ti0 m0 ti m, malloc_ok malloc H ->
  make_tinfo malloc = Ok ti0 -> urun malloc H (ti0, m0) (ti, m) ->
  let st := sp_start (th_heap ti 0%nat) in
  forall a i, reachable H m (slot_of (th_fp ti)) a -> ~ raw m a -> 0 <= i < size m a ->
    ~ (st <= a + 8 * i < th_limit ti) -> pointer (m (a + 8 * i)) -> st <= m (a + 8 * i) < th_limit ti ->
    remembered m st (th_limit ti) (sp_rem (th_heap ti 0%nat)) (a + 8 * i).
Proof.
  intros malloc H ti0 m0 ti m MOK E R st a i Ra NR Hi N P Hin.
  destruct (urun_ok malloc H MOK _ _ (make_tinfo_upd malloc H MOK ti0 m0 E) R) as (k & objs & S). cbn [fst snd] in S.
  destruct (ms_space _ _ _ _ _ _ _ S 0%nat ltac:(lia)) as (A1 & A2 & A3 & A4).
  destruct (ms_info malloc H MOK _ _ _ _ _ S 0%nat ltac:(lia)) as (_ & _ & _ & A7).
  assert (Ro : exists j, (j <= k)%nat /\ In a (objs j)).
  { apply (ms_reach malloc H _ _ _ _ _ S). eapply reachable_mono; [|exact Ra]. auto. }
  destruct Ro as (j & Hj & Ha).
  assert (IF : is_field objs k m (a + 8 * i)) by (exists j, a, i; auto).
  assert (HH : H (m (a + 8 * i))).
  { apply A7. cbn [sync_nursery set_space Nat.eqb sp_start sp_next sp_limit sp_rem] in *. fold st. lia. }
  destruct (ms_field _ _ _ _ _ _ _ S _ IF P HH) as (j' & Hj' & Hin').
  assert (j' = 0%nat).
  { destruct (Nat.eq_dec j' 0) as [|Ne]; [assumption|]. exfalso.
    pose proof (ms_apart malloc H MOK _ _ _ _ _ S 0%nat j' ltac:(lia) Hj' ltac:(lia)) as Ap.
    pose proof (ms_obj malloc H MOK _ _ _ _ _ S j' _ Hj' Hin') as Ob. pose proof (ms_space _ _ _ _ _ _ _ S j' Hj') as Sj.
    cbn [sync_nursery set_space Nat.eqb sp_start sp_next sp_limit sp_rem] in A1, A2.
    unfold sync_nursery in Ap at 1 4. cbn [set_space Nat.eqb sp_start sp_rem] in Ap. fold st in Ap, A1. lia. }
  subst j'. split; [exact N|].
  exact (ms_young _ _ _ _ _ _ _ S _ IF N Hin').
Qed.

Theorem C07_minor_partial : forall malloc H ti0 m0 ti m, malloc_ok malloc H ->
  make_tinfo malloc = Ok ti0 -> urun malloc H (ti0, m0) (ti, m) ->
  (* the collection stops at the nursery *)
  sp_start (th_heap ti 1%nat) = 0 \/
  (forall from to m', do_generation (sync_nursery ti 0%nat) (th_heap ti 1%nat) (th_fp ti) m = Ok (from, to, m') ->
     sp_rem from - sp_start from <= sp_limit to - sp_next to) ->
  match garbage_collect malloc ti m with
  | Ok (ti', m') => exists phi, same_graph H (slot_of (th_fp ti)) m m' phi /\
      (forall c, remembered m (sp_start (th_heap ti 0%nat)) (th_limit ti) (sp_rem (th_heap ti 0%nat)) c -> m' c = phi (m c)) /\
      (forall a, ~ H a -> ~ slot_of (th_fp ti) a -> m' a = m a) /\
      th_nalloc ti <= (th_limit ti' - th_alloc ti') / 8
  | Abort => NURSERY_SIZE < th_nalloc ti \/ malloc 1%nat (2 * NURSERY_SIZE) = None
  | UB => False
  end.
Proof.
  intros malloc H ti0 m0 ti m MOK E R Mi. pose proof (urun_collect malloc H MOK ti0 m0 ti m E R Mi) as X.
  destruct (garbage_collect malloc ti m) as [[ti' m']| |]; [|exact X|exact X].
  destruct X as (_ & phi & A & B & C1 & C2 & C3 & C4 & C5). exists phi. split; [exact A|]. split; [exact C5|]. split; [exact B|].
  rewrite <- C2. exact C4.
Qed.

(** A pair and a string; collect; a new string; store it in the old pair through the barrier;
    collect again: the old cell is redirected. *)
Definition upd_s5 : state :=
  (with_alloc (fst run_s4) (B0 + 16), upd (store_words (snd run_s4) B0 [1024 * 1 + 252; 99]) 16 (B0 + 8)).
Definition upd_s6 : state := okv upd_s5 (certirocq_modify (fst upd_s5) (snd upd_s5) (B1 + 24 + 8 * 1) (B0 + 8)).
Example C07_ex : urun ex_malloc ex_H (run_t0, run_m0) upd_s6 /\
  minor (fst upd_s6) (snd upd_s6) /\
  snd upd_s6 (B1 + 32) = B0 + 8 /\
  match garbage_collect ex_malloc (fst upd_s6) (snd upd_s6) with
  | Ok (ti', m') => m' (B1 + 32) = B1 + 48 /\ m' (B1 + 40) = 1276 /\ m' (B1 + 48) = 99
  | _ => False
  end.
Proof.
  assert (E4 : garbage_collect ex_malloc (fst run_s3) (snd run_s3) = Ok run_s4) by (apply okv_eq; vm_compute; reflexivity).
  assert (E6 : certirocq_modify (fst upd_s5) (snd upd_s5) (B1 + 24 + 8 * 1) (B0 + 8) = Ok upd_s6) by (apply okv_eq; vm_compute; reflexivity).
  assert (Fp : th_fp (fst run_s4) = [(16, 2%nat)]) by (vm_compute; reflexivity).
  assert (S16 : slots_of (fst run_s4) 16) by (unfold slots_of; rewrite Fp; exists 16, 2%nat, 0; split; [left; reflexivity|lia]).
  assert (S24 : slots_of (fst run_s4) 24) by (unfold slots_of; rewrite Fp; exists 16, 2%nat, 1; split; [left; reflexivity|lia]).
  assert (R3 : urun ex_malloc ex_H (run_t0, run_m0) run_s3).
  { apply (urun_step _ _ _ run_s2); [apply (urun_step _ _ _ run_s1); [apply (urun_step _ _ _ (run_t0, run_m0)); [apply urun_refl|]|]|]; apply us_plain.
    - apply (st_push ex_H run_t0 run_m0 16 2). intros k Hk. split; [unfold ex_H; lia|]. left. intros [P _]. discriminate P.
    - apply (st_alloc ex_H (fst run_s1) run_m0 252 [808] 16); [cbn; lia|lia|vm_compute; discriminate|apply run_slots; auto|left; lia].
    - apply (st_alloc ex_H (fst run_s2) (snd run_s2) 0 [B0 + 8; 5] 24); [cbn; lia|lia|vm_compute; discriminate|apply run_slots; auto|right].
      intros w [E|[E|[]]]; subst w.
      + right. change (B0 + 8) with (snd run_s2 16) at 1. apply reach_slot; [apply run_slots; auto|vm_compute; reflexivity|vm_compute; discriminate].
      + left. intros [P _]. discriminate P. }
  split; [|split; [|split]].
  - apply (urun_step _ _ _ upd_s5).
    + apply (urun_step _ _ _ run_s4).
      * apply (urun_step _ _ _ run_s3); [exact R3|]. rewrite (surjective_pairing run_s3), (surjective_pairing run_s4).
        apply us_gc; [left; reflexivity|]. rewrite <- surjective_pairing. exact E4.
      * apply us_plain. rewrite (surjective_pairing run_s4) at 1.
        apply (st_alloc ex_H (fst run_s4) (snd run_s4) 252 [99] 16); [cbn; lia|lia|vm_compute; discriminate|exact S16|left; lia].
    + rewrite (surjective_pairing upd_s5), (surjective_pairing upd_s6).
      apply (us_modify _ _ _ _ (B1 + 24) 1 (B0 + 8)).
      * replace (B1 + 24) with (snd upd_s5 24) at 1 by (vm_compute; reflexivity).
        apply reach_slot; [exact S24|vm_compute; reflexivity|vm_compute; discriminate].
      * unfold raw. replace (tag (snd upd_s5) (B1 + 24)) with 0 by (vm_compute; reflexivity). lia.
      * replace (size (snd upd_s5) (B1 + 24)) with 2 by (vm_compute; reflexivity). lia.
      * right. cbn [fst snd]. replace (B0 + 8) with (snd upd_s5 16) at 1 by (vm_compute; reflexivity).
        apply reach_slot; [exact S16|vm_compute; reflexivity|vm_compute; discriminate].
      * rewrite <- surjective_pairing. exact E6.
  - right. intros from to m' E. apply Z.leb_le.
    assert (X : match do_generation (sync_nursery (fst upd_s6) 0%nat) (th_heap (fst upd_s6) 1%nat) (th_fp (fst upd_s6)) (snd upd_s6) with
                | Ok (f, t, _) => sp_rem f - sp_start f <=? sp_limit t - sp_next t | _ => true end = true) by (vm_compute; reflexivity).
    rewrite E in X. exact X.
  - vm_compute. reflexivity.
  - vm_compute. auto.
Qed.
Print Assumptions C07_recorded.
Print Assumptions C07_minor_partial.

(** ** C08: exporting *)
Theorem C08_export : forall malloc H, malloc_ok malloc H -> forall ti m root slot a1 a2 e,
  (forall a, H a \/ ~ H a) ->
  mut_ok malloc H (ti, m) -> reachable H m (slot_of (th_fp ti)) root -> ~ H slot -> ~ slot_of (th_fp ti) slot ->
  fresh_array H (th_heap ti) a1 e -> fresh_array H (th_heap ti) a2 e -> a1 + e <= a2 \/ a2 + e <= a1 ->
  (forall i, sp_rem (th_heap ti i) - sp_start (th_heap ti i) <= e) ->
  exists v m' phi size_of_copy, export_heap ti m root slot a1 a2 = Ok (v, m') /\
    same_graph H (slot_of [(slot, 1%nat)]) (upd m slot root) m' phi /\
    v = phi root /\ v = a2 + 8 /\ m' slot = v /\
    0 <= size_of_copy <= e /\
    (forall b, reachable H m' (slot_of [(slot, 1%nat)]) b -> a2 <= b - 8 /\ b + 8 * size m' b <= a2 + size_of_copy) /\
    (forall a, ~ H a -> a <> slot -> m' a = m a).
Proof. exact export_ok. Qed.

Example C08_export_ex :
  mut_ok ex_malloc ex_H (ex_ti, ex_m) /\ reachable ex_H ex_m (slot_of (th_fp ex_ti)) (B1 + 8) /\
  fresh_array ex_H ex_heap (2 ^ 60 * 5) (8 * 262144) /\ fresh_array ex_H ex_heap (2 ^ 60 * 6) (8 * 262144) /\
  (forall i, sp_rem (ex_heap i) - sp_start (ex_heap i) <= 8 * 262144) /\
  match export_heap ex_ti ex_m (B1 + 8) 8 (2 ^ 60 * 5) (2 ^ 60 * 6) with
  | Ok (v, m') => v = 2 ^ 60 * 6 + 8 /\ m' v = 7 /\ m' (v - 8) = 1024
  | _ => False
  end.
Proof.
  assert (FA : forall x, x = 5 \/ x = 6 -> fresh_array ex_H ex_heap (2 ^ 60 * x) (8 * 262144)).
  { intros x Hx. split; [lia|]. split; [destruct Hx; subst x; reflexivity|]. split; [unfold ex_H; lia|].
    intros [|[|[|i]]] Hi; cbn [ex_heap sp_rem sp_start] in *; unfold B0, B1, B2; try lia. cbn in Hi. lia. }
  split; [exact ex_ok|]. split.
  { change (B1 + 8) with (ex_m 24) at 1. apply reach_slot; [apply ex_slots; auto|reflexivity|vm_compute; discriminate]. }
  split; [apply FA; auto|]. split; [apply FA; auto|]. split.
  - intros [|[|[|i]]]; vm_compute; discriminate.
  - vm_compute. auto.
Qed.
Print Assumptions C08_export.

(** ** C57: pointers between old generations

    The remembered set of the nursery also records cells that hold pointers to older objects;
    a collection of the nursery drops those records ([forward_remset] keeps a record only if
    the contents of the cell changed).  A later collection of the older generation leaves the
    cell dangling.  The first state below satisfies the invariant that all runs without updates
    keep; then follow one update through the barrier, a collection, an allocation, and a
    collection after which the reachable graph is destroyed. *)
Theorem C57_refuted : exists malloc H ti m a v s1 s2 s3 s4,
  malloc_ok malloc H /\ mut_ok malloc H (ti, m) /\
  reachable H m (slots_of ti) a /\ ~ raw m a /\ 0 < size m a /\ reachable H m (slots_of ti) v /\
  certirocq_modify ti m a v = Ok s1 /\
  garbage_collect malloc (fst s1) (snd s1) = Ok s2 /\
  pstep H s2 s3 /\
  garbage_collect malloc (fst s3) (snd s3) = Ok s4 /\
  ~ exists phi, same_graph H (slots_of (fst s3)) (snd s3) (snd s4) phi.
Proof.
  exists ex_malloc, ex_H, ex_ti, ex_m, (B2 + 8), (B1 + 8), q1, q2, q3, q4.
  split; [exact ex_malloc_ok|]. split; [exact ex_ok|].
  split. { change (B2 + 8) with (ex_m 16) at 1. apply reach_slot; [apply ex_slots; auto|reflexivity|vm_compute; discriminate]. }
  split; [intros X; apply X; reflexivity|]. split; [reflexivity|].
  split. { change (B1 + 8) with (ex_m 24) at 1. apply reach_slot; [apply ex_slots; auto|reflexivity|vm_compute; discriminate]. }
  split; [exact q1_eq|]. split; [exact q2_eq|]. split; [exact q3_step|]. split; [exact q4_eq|]. exact q4_dangling.
Qed.
Print Assumptions C57_refuted.

(** ** C58: [garbage_collect_all] leaves the allocation pointer after objects that have moved

    It does not call [resume], so the program goes on in a nursery whose lower part is rubbish:
    the invariant of program runs is lost. *)
Theorem C58_refuted : exists malloc H ti m lvl ti' m',
  malloc_ok malloc H /\ mut_ok malloc H (ti, m) /\
  garbage_collect_all ti m = Ok (lvl, ti', m') /\
  sp_next (th_heap ti' 0%nat) = sp_start (th_heap ti' 0%nat) /\ sp_start (th_heap ti' 0%nat) < th_alloc ti' /\
  ~ mut_ok malloc H (ti', m').
Proof.
  exists ex_malloc, ex_H, (fst g0), (snd g0), (fst (fst g1)), (snd (fst g1)), (snd g1).
  split; [exact ex_malloc_ok|]. split; [exact g0_ok|].
  split; [rewrite g1_eq; destruct g1 as [[? ?] ?]; reflexivity|].
  split; [vm_compute; reflexivity|]. split; [vm_compute; reflexivity|]. exact g1_not_ok.
Qed.
Print Assumptions C58_refuted.
