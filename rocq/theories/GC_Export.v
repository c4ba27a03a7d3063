(** [garbage_collect_all] and [export_heap]. *)
From Coq Require Import ZArith Bool List Lia.
From Verif Require Import RT_Word RT_Values GC_Model GC_Spec GC_Proofs GC_Step GC_Heap GC_Mutator.
Import ListNotations.
Open Scope Z_scope.
Ltac Zify.zify_post_hook ::= idtac.

(** With a decidable heap region every object reachable afterwards is the image of one that was
    reachable before. *)
Lemma same_graph_onto H slots m m' phi : (forall a, H a \/ ~ H a) -> same_graph H slots m m' phi ->
  forall b, reachable H m' slots b -> exists a, reachable H m slots a /\ phi a = b.
Proof.
  intros Hd S.
  assert (K : forall w, pointer (phi w) -> H (phi w) -> pointer w /\ H w).
  { intros w P Q. destruct (Z.even w) eqn:Ew.
    - destruct (Hd w) as [Y|N]; [auto|]. rewrite (sg_const _ _ _ _ _ S w) in P, Q by (intros [_ X]; auto). auto.
    - rewrite (sg_const _ _ _ _ _ S w) in P, Q by (intros [X _]; unfold pointer in X; congruence). auto. }
  intros b Rb. induction Rb as [r Hr P Q | b i Rb IH NR Hi P Q].
  - rewrite (sg_slot _ _ _ _ _ S r Hr) in *. destruct (K _ P Q) as [P' Q'].
    exists (m r). split; [apply reach_slot; assumption|reflexivity].
  - destruct IH as (a & Ra & <-). pose proof (sg_header _ _ _ _ _ S a Ra) as Eh.
    unfold raw, tag in NR. unfold size in Hi. rewrite Eh in NR, Hi.
    rewrite (sg_field _ _ _ _ _ S a i Ra NR Hi) in *. destruct (K _ P Q) as [P' Q'].
    exists (m (a + 8 * i)). split; [apply reach_field; assumption|reflexivity].
Qed.

Section Export.
Variables (malloc : nat -> Z -> option Z) (H : Z -> Prop).
Hypothesis MOK : malloc_ok malloc H.

(** Collecting every generation into the next. *)
Lemma gc_all_loop_ok frs n : forall i h k objs m, shape malloc H (slot_of frs) h k objs m -> (i <= k)%nat -> (n + i = 42)%nat ->
  (forall j, (j < i)%nat -> sp_next (h j) = sp_start (h j)) ->
  (forall j, (i <= j < k)%nat -> fits h j) ->
  exists h' objs' m' phi, gc_all_loop n i frs h m = Ok (k, h', m') /\
    shape malloc H (slot_of frs) h' k objs' m' /\ same_graph H (slot_of frs) m m' phi /\
    (forall j, (j < k)%nat -> objs' j = []) /\
    (forall j, sp_start (h' j) = sp_start (h j) /\ sp_rem (h' j) = sp_rem (h j)) /\
    (forall a, ~ H a -> ~ slot_of frs a -> m' a = m a).
Proof.
  induction n as [|n IH]; intros i h k objs m S Hik Hni He Hf.
  - pose proof (sh_k _ _ _ _ _ _ _ S) as K. unfold MAX_SPACES in K. assert (i = k) by lia. subst i.
    exists h, objs, m, (fun w => w). cbn [gc_all_loop]. split; [reflexivity|]. split; [exact S|].
    split; [apply same_graph_refl|]. split; [|split; [auto|auto]].
    intros j Hj. pose proof (sh_objs _ _ _ _ _ _ _ S j ltac:(lia)) as O. rewrite (He j Hj) in O. apply (objects_in_empty _ _ _ O).
  - cbn [gc_all_loop]. assert (Ob : forall j, (j < i)%nat -> objs j = []).
    { intros j Hj. pose proof (sh_objs _ _ _ _ _ _ _ S j ltac:(lia)) as O. rewrite (He j Hj) in O. apply (objects_in_empty _ _ _ O). }
    destruct (Nat.eq_dec i k) as [->|Ne].
    + rewrite (sh_null _ _ _ _ _ _ _ S (Datatypes.S k)) by lia. cbn [Z.eqb].
      exists h, objs, m, (fun w => w). split; [reflexivity|]. split; [exact S|].
      split; [apply same_graph_refl|]. split; [exact Ob|split; [auto|auto]].
    + rewrite (proj2 (Z.eqb_neq _ _)).
      2: { pose proof (sh_info _ _ _ MOK _ _ _ _ S (Datatypes.S i) ltac:(lia)). lia. }
      pose proof (Hf i ltac:(lia)) as Hfi.
      pose proof (step_collectable malloc H frs MOK _ _ _ _ i S ltac:(lia) Ob Hfi) as CO.
      destruct (do_generation_ok H m (objs i) (h i) (h (Datatypes.S i)) frs CO) as (from' & to' & m' & phi & news & Er & SR).
      rewrite Er. cbn [cbind].
      destruct (step_shape malloc H frs MOK _ _ _ _ i _ _ _ _ _ S ltac:(lia) Ob Hfi SR) as [S2 FR].
      pose proof (sr_from _ _ _ _ _ _ _ _ _ _ _ SR) as Ef.
      destruct (sr_to _ _ _ _ _ _ _ _ _ _ _ SR) as (T1 & T2 & _).
      set (h2 := set_space (set_space h i from') (Datatypes.S i) to') in *.
      assert (Hi2 : h2 i = from').
      { unfold h2, set_space. rewrite (proj2 (Nat.eqb_neq i (Datatypes.S i))) by lia. rewrite Nat.eqb_refl. reflexivity. }
      assert (HS2 : h2 (Datatypes.S i) = to').
      { unfold h2, set_space. rewrite Nat.eqb_refl. reflexivity. }
      assert (Ho2 : forall j, j <> i -> j <> Datatypes.S i -> h2 j = h j).
      { intros j N1 N2. unfold h2, set_space. rewrite !(proj2 (Nat.eqb_neq _ _)) by lia. reflexivity. }
      assert (SE : forall j, sp_start (h2 j) = sp_start (h j) /\ sp_rem (h2 j) = sp_rem (h j)).
      { intros j. destruct (Nat.eq_dec j i) as [->|N1]; [rewrite Hi2, Ef; auto|].
        destruct (Nat.eq_dec j (Datatypes.S i)) as [->|N2]; [rewrite HS2; auto|]. rewrite Ho2 by assumption. auto. }
      destruct (IH (Datatypes.S i) h2 k _ m' S2) as (h' & objs' & m'' & psi & E' & S' & G' & Z' & SE' & F').
      * lia.
      * lia.
      * intros j Hj. destruct (Nat.eq_dec j i) as [->|N]; [rewrite Hi2, Ef; reflexivity|]. rewrite Ho2 by lia. apply He. lia.
      * intros j Hj. pose proof (Hf j ltac:(lia)) as X. unfold fits in *.
        rewrite (proj1 (SE j)), (proj2 (SE j)), (Ho2 (Datatypes.S j)) by lia. exact X.
      * exists h', objs', m'', (fun w => psi (phi w)). split; [exact E'|]. split; [exact S'|].
        split; [eapply same_graph_trans; [apply (sr_graph _ _ _ _ _ _ _ _ _ _ _ SR)|exact G']|].
        split; [exact Z'|]. split.
        -- intros j. destruct (SE' j) as [X1 X2], (SE j) as [Y1 Y2]. split; congruence.
        -- intros a Na Nr. rewrite F' by assumption. apply FR; assumption.
Qed.

(** ** Compacting into a fresh array *)

(** All that is reachable from the single slot lies in one space as objects. *)
Lemma compact m slot (sp to : space) objs :
  let frs := [(slot, 1%nat)] in
  sp_start sp <= sp_next sp <= sp_limit sp -> sp_limit sp = sp_rem sp -> sp_start sp mod 8 = 0 -> sp_limit sp mod 8 = 0 ->
  objects_in m (sp_start sp) objs (sp_next sp) ->
  sp_next to = sp_start to -> sp_limit to = sp_start to + (sp_next sp - sp_start sp) -> sp_start to mod 8 = 0 -> sp_limit to mod 8 = 0 ->
  sp_rem sp <= sp_start to \/ sp_limit to <= sp_start sp ->
  (forall a, sp_start sp <= a < sp_limit sp \/ sp_start to <= a < sp_limit to -> H a) ->
  ~ H slot -> In (m slot) objs ->
  (forall a, reachable H m (slot_of frs) a -> In a objs) ->
  exists from' to' m' phi news, do_generation sp to frs m = Ok (from', to', m') /\
    step_result H (slot_of frs) m m' objs sp to from' to' phi news /\ phi (m slot) = sp_start to + 8 /\
    (forall a, reachable H m (slot_of frs) a -> In (phi a) news).
Proof.
  intros frs A1 A2 A3 A4 A5 B1 B2 B3 B4 Ap HH Hs Hin Hre.
  destruct (objects_in_range _ _ _ _ A5) as [_ OR].
  assert (Rm : forall p, slot_of frs p -> p = slot).
  { intros p (st & n & k & [Eq|[]] & Hk & ->). injection Eq as <- <-. lia. }
  assert (C : collectable H (slot_of frs) m objs (sp_start sp) (sp_next sp) (sp_limit sp) (sp_rem sp) (sp_start to) (sp_next to) (sp_limit to)).
  { constructor.
    - rewrite <- A2. repeat split; auto; lia.
    - rewrite B1. repeat split; auto; lia.
    - exact A5.
    - lia.
    - exact Ap.
    - rewrite B1. exact HH.
    - intros p Hp. rewrite (Rm p Hp). rewrite B1, <- A2. split; intros X; apply Hs; apply HH; auto.
    - intros c Hc. exfalso. rewrite <- A2 in Hc. exact (no_cells _ _ _ _ Hc).
    - intros a Ra _. rewrite <- A2 in Ra. apply Hre. eapply no_cells_reach. exact Ra.
    - intros a Ra Na. exfalso. specialize (OR a (Hre a Ra)). lia. }
  destruct (do_generation_first H m objs sp to frs C slot 0%nat [] eq_refl) as (from' & to' & m' & phi & news & E & SR & Ep).
  - symmetry. exact A2.
  - exact Hin.
  - exists from', to', m', phi, news. split; [exact E|]. split; [exact SR|]. split; [rewrite Ep, B1; reflexivity|].
    intros a Ra. apply (sr_moved _ _ _ _ _ _ _ _ _ _ _ SR); [exact Ra|]. specialize (OR a (Hre a Ra)). lia.
Qed.

(** The arrays malloc returns for the export: in the heap region, apart from every generation
    and from each other, of [e] bytes. *)
Definition fresh_array (h : heap) (a e : Z) : Prop :=
  0 < a /\ a mod 8 = 0 /\ (forall x, a <= x < a + e -> H x) /\
  forall i, sp_start (h i) <> 0 -> sp_rem (h i) <= a \/ a + e <= sp_start (h i).

Theorem export_ok ti m root slot a1 a2 e :
  (forall a, H a \/ ~ H a) ->
  mut_ok malloc H (ti, m) -> reachable H m (slot_of (th_fp ti)) root -> ~ H slot -> ~ slot_of (th_fp ti) slot ->
  fresh_array (th_heap ti) a1 e -> fresh_array (th_heap ti) a2 e -> a1 + e <= a2 \/ a2 + e <= a1 ->
  (forall i, sp_rem (th_heap ti i) - sp_start (th_heap ti i) <= e) ->
  exists v m' phi size_of_copy, export_heap ti m root slot a1 a2 = Ok (v, m') /\
    same_graph H (slot_of [(slot, 1%nat)]) (upd m slot root) m' phi /\
    v = phi root /\ v = a2 + 8 /\ m' slot = v /\
    0 <= size_of_copy <= e /\
    (* every object of the copy lies in the returned array *)
    (forall b, reachable H m' (slot_of [(slot, 1%nat)]) b -> a2 <= b - 8 /\ b + 8 * size m' b <= a2 + size_of_copy) /\
    (forall a, ~ H a -> a <> slot -> m' a = m a).
Proof.
  intros Hd (k & objs & S & F) Rr Hs Hns FA1 FA2 Ap12 He. cbn [fst snd] in *. unfold slots_of in S.
  set (m1 := upd m slot root). set (frs := [(slot, 1%nat)]).
  assert (Rm : forall p, slot_of frs p <-> p = slot).
  { intros p. split.
    - intros (st & n & k' & [Eq|[]] & Hk & ->). injection Eq as <- <-. lia.
    - intros ->. exists slot, 1%nat, 0. split; [left; reflexivity|]. split; lia. }
  assert (PR : pointer root /\ H root) by (inversion Rr; auto).
  destruct PR as [Pr Qr].
  assert (S1 : shape malloc H (slot_of frs) (sync_nursery ti) k objs m1).
  { eapply shape_reroot; [exact MOK|exact S| | |].
    - intros a Ha. apply upd_other. intros ->. auto.
    - intros p Hp. apply Rm in Hp. subst p. exact Hs.
    - intros p Hp _ _. apply Rm in Hp. subst p. unfold m1. rewrite upd_same. apply (sh_reach _ _ _ _ _ _ _ S root Rr). }
  unfold export_heap. fold m1. fold frs.
  assert (Ip : is_ptr root = true) by (apply is_ptr_pointer; exact Pr).
  rewrite Ip. cbn [negb].
  unfold garbage_collect_all. cbn [th_fp th_alloc th_limit th_heap th_nalloc].
  match goal with |- context [sync_nursery ?t] => change (sync_nursery t) with (sync_nursery ti) end.
  destruct (gc_all_loop_ok frs (MAX_SPACES - 1) 0 (sync_nursery ti) k objs m1 S1 ltac:(lia) eq_refl ltac:(intros; lia) ltac:(intros; apply F; lia))
    as (h2 & objs2 & m2 & phi1 & E2 & S2 & G2 & Z2 & SE & F2).
  rewrite E2. cbn [cbind th_heap th_fp].
  assert (SE' : forall j, sp_start (h2 j) = sp_start (th_heap ti j) /\ sp_rem (h2 j) = sp_rem (th_heap ti j)).
  { intros j. destruct (SE j) as [X Y]. rewrite X, Y. destruct j; auto. }
  destruct (sh_info _ _ _ MOK _ _ _ _ S2 k ltac:(lia)) as (K1 & K2 & K3 & K4).
  destruct (sh_space _ _ _ _ _ _ _ S2 k ltac:(lia)) as (K5 & K6 & K7).
  set (sp := h2 k) in *.
  assert (Esp : sp_start sp = sp_start (th_heap ti k) /\ sp_rem sp = sp_rem (th_heap ti k)) by apply SE'.
  assert (N1 : (sp_next sp - sp_start sp) = 8 * ((sp_next sp - sp_start sp) / 8)).
  { assert ((sp_next sp - sp_start sp) mod 8 = 0) by (rewrite Zminus_mod, K7, K2; reflexivity).
    pose proof (Z.div_mod (sp_next sp - sp_start sp) 8). lia. }
  pose proof (He k) as Hek.
  destruct FA1 as (P1 & P2 & P3 & P4). destruct FA2 as (Q1 & Q2 & Q3 & Q4).
  set (n1 := (sp_next sp - sp_start sp) / 8) in *.
  set (fake := {| sp_start := a1; sp_next := a1; sp_limit := a1 + 8 * n1; sp_rem := a1 + 8 * n1 |}).
  assert (Re2 : forall a, reachable H m2 (slot_of frs) a -> In a (objs2 k)).
  { intros a Ra. destruct (sh_reach _ _ _ _ _ _ _ S2 a Ra) as (j & Hj & Hin).
    destruct (Nat.eq_dec j k) as [->|N]; [exact Hin|]. rewrite Z2 in Hin by lia. destruct Hin. }
  assert (Rs : slot_of frs slot) by (apply Rm; reflexivity).
  assert (Rm1 : reachable H m1 (slot_of frs) root).
  { unfold m1. pose proof (reach_slot H (upd m slot root) (slot_of frs) slot Rs) as X. rewrite upd_same in X. apply X; assumption. }
  assert (Em2 : m2 slot = phi1 root).
  { rewrite (sg_slot _ _ _ _ _ G2 slot Rs). unfold m1. rewrite upd_same. reflexivity. }
  assert (In2 : In (m2 slot) (objs2 k)).
  { apply Re2. rewrite Em2. apply (same_graph_reach _ _ _ _ _ G2). exact Rm1. }
  destruct (compact m2 slot sp fake (objs2 k)) as (from' & to' & m3 & phi2 & news & E3 & SR3 & Ep3 & Al3); fold frs.
  - lia.
  - exact K6.
  - exact K2.
  - rewrite K6. exact K3.
  - apply (sh_objs _ _ _ _ _ _ _ S2). lia.
  - reflexivity.
  - cbn [fake sp_limit sp_start]. lia.
  - exact P2.
  - cbn [fake sp_limit]. rewrite Z.mul_comm, Z.mod_add by lia. exact P2.
  - cbn [fake sp_limit sp_start]. specialize (P4 k). lia.
  - cbn [fake sp_limit sp_start]. intros a [Ha|Ha]; [apply K4; lia|apply P3; lia].
  - exact Hs.
  - exact In2.
  - exact Re2.
  - fold frs in E3. rewrite E3. cbn [cbind].
    pose proof (sr_graph _ _ _ _ _ _ _ _ _ _ _ SR3) as G3.
    destruct (sr_to _ _ _ _ _ _ _ _ _ _ _ SR3) as (T1 & T2 & T3 & T4 & T5 & T6 & T7).
    pose proof (sr_news _ _ _ _ _ _ _ _ _ _ _ SR3) as NW3.
    cbn [fake sp_start sp_next sp_limit sp_rem] in T1, T2, T3, T4, T5, T6, NW3, Ep3.
    rewrite T1.
    assert (N2 : (sp_next to' - a1) = 8 * ((sp_next to' - a1) / 8)).
    { assert ((sp_next to' - a1) mod 8 = 0) by (rewrite Zminus_mod, T7, P2; reflexivity).
      pose proof (Z.div_mod (sp_next to' - a1) 8). lia. }
    set (n2 := (sp_next to' - a1) / 8) in *.
    set (val := {| sp_start := a2; sp_next := a2; sp_limit := a2 + 8 * n2; sp_rem := a2 + 8 * n2 |}).
    pose proof (same_graph_onto _ _ _ _ _ Hd G3) as On3.
    assert (Re3 : forall a, reachable H m3 (slot_of frs) a -> In a news).
    { intros b Rb. destruct (On3 b Rb) as (a & Ra & <-). apply Al3. exact Ra. }
    assert (Em3 : m3 slot = phi2 (m2 slot)) by (apply (sg_slot _ _ _ _ _ G3); exact Rs).
    assert (R2 : reachable H m2 (slot_of frs) (m2 slot)) by (rewrite Em2; apply (same_graph_reach _ _ _ _ _ G2); exact Rm1).
    assert (R3 : reachable H m3 (slot_of frs) (m3 slot)) by (rewrite Em3; apply (same_graph_reach _ _ _ _ _ G3); exact R2).
    assert (Tl : sp_limit to' = sp_rem to') by lia.
    destruct (compact m3 slot to' val news) as (from4 & to4 & m4 & phi3 & news4 & E4 & SR4 & Ep4 & Al4); fold frs.
    + lia.
    + exact Tl.
    + rewrite T1. exact P2.
    + rewrite Tl, T2. rewrite Z.mul_comm, Z.mod_add by lia. exact P2.
    + rewrite T1. exact NW3.
    + reflexivity.
    + cbn [val sp_limit sp_start]. lia.
    + exact Q2.
    + cbn [val sp_limit]. rewrite Z.mul_comm, Z.mod_add by lia. exact Q2.
    + cbn [val sp_limit sp_start]. lia.
    + cbn [val sp_limit sp_start]. intros a [Ha|Ha]; [apply P3; lia|apply Q3; lia].
    + exact Hs.
    + apply Re3. exact R3.
    + exact Re3.
    + fold frs in E4. rewrite E4. cbn [cbind].
      pose proof (sr_graph _ _ _ _ _ _ _ _ _ _ _ SR4) as G4.
      destruct (sr_to _ _ _ _ _ _ _ _ _ _ _ SR4) as (U1 & U2 & U3 & U4 & U5 & U6 & U7).
      pose proof (sr_news _ _ _ _ _ _ _ _ _ _ _ SR4) as NW4.
      cbn [val sp_start sp_next sp_limit sp_rem] in U1, U2, U3, U4, U5, U6, NW4, Ep4.
      pose proof (same_graph_trans _ _ _ _ _ _ _ G2 (same_graph_trans _ _ _ _ _ _ _ G3 G4)) as GG.
      exists (sp_start to4 + 8), m4, (fun w => phi3 (phi2 (phi1 w))), (8 * n2).
      split; [reflexivity|]. split; [exact GG|].
      rewrite U1. split; [rewrite <- Ep4, Em3, Em2; reflexivity|]. split; [reflexivity|].
      split; [rewrite (sg_slot _ _ _ _ _ G4 slot Rs); exact Ep4|].
      split; [lia|]. split.
      * intros b Rb. destruct (same_graph_onto _ _ _ _ _ Hd G4 b Rb) as (a & Ra & <-).
        destruct (objects_in_range _ _ _ _ NW4) as [_ X]. specialize (X _ (Al4 a Ra)). lia.
      * intros a Na Ns. assert (Nsl : ~ slot_of frs a) by (rewrite Rm; exact Ns).
        rewrite (sr_frame _ _ _ _ _ _ _ _ _ _ _ SR4); [|intros X; apply Na; apply P3; lia|intros X; apply Na; apply Q3; cbn [val sp_next sp_limit] in X; lia|exact Nsl|].
        2: { rewrite Tl. apply no_cells. }
        rewrite (sr_frame _ _ _ _ _ _ _ _ _ _ _ SR3); [|intros X; apply Na; apply K4; lia|intros X; apply Na; apply P3; cbn [fake sp_next sp_limit] in X; lia|exact Nsl|].
        2: { rewrite K6. apply no_cells. }
        rewrite F2 by assumption. unfold m1. apply upd_other. exact Ns.
Qed.

End Export.
