(** Proofs about the integer primitives that allocate their result. *)
From Coq Require Import ZArith Lia Bool List.
From Verif Require Import RT_Word RT_Values RT_Int63Model RT_Int63Spec RT_Int63Proofs.
Open Scope Z_scope.

Ltac Zify.zify_post_hook ::= idtac.

(** Decide the address comparisons in the goal. *)
Ltac eqbs := repeat match goal with |- context[?a =? ?b] => destruct (Z.eqb_spec a b); try (exfalso; lia) end.

(** A sane allocation area: word-aligned, [alloc] not past [limit]. *)
Definition ti_ok (ti : tinfo) : Prop :=
  ti_alloc ti mod 8 = 0 /\ ti_limit ti mod 8 = 0 /\ ti_alloc ti <= ti_limit ti.

(** Number of free words. *)
Definition room (ti : tinfo) : Z := (ti_limit ti - ti_alloc ti) / 8.

(** What the primitives rely on when they call the collector: it aborts, or returns a sane
    allocation area with the requested room (gc_stack.h:181-200, see C05). *)
Definition gc_gives_room (gc : tinfo -> Z -> cres tinfo) : Prop :=
  forall ti n, ti_ok ti ->
    gc ti n = Abort \/ exists ti', gc ti n = Ok ti' /\ ti_ok ti' /\ n <= room ti'.

(** The outcome is an abort or a state/value satisfying [P]; in particular it is not UB.  The
    free area starts where the block returned ends, so later allocations leave it alone. *)
Definition returns (m : cres (tinfo * Z)) (P : (Z -> Z) -> Z -> Prop) : Prop :=
  m = Abort \/ exists ti' v, m = Ok (ti', v) /\ ti_ok ti' /\
    ti_alloc ti' = v + 8 * (ti_mem ti' (v - 8) / 1024) /\ P (ti_mem ti') v.

Lemma store_fresh_ok ti a v :
  ti_alloc ti <= a -> a + 8 <= ti_limit ti ->
  store_fresh ti a v = Ok {| ti_alloc := ti_alloc ti; ti_limit := ti_limit ti;
                             ti_mem := fun b => if b =? a then v else ti_mem ti b |}.
Proof.
  intros. unfold store_fresh.
  replace ((ti_alloc ti <=? a) && (a + 8 <=? ti_limit ti)) with true; [reflexivity|].
  symmetry. apply andb_true_intro; split; lia.
Qed.

Lemma alloc_carry_ok gc ti (c : bool) n :
  gc_gives_room gc -> ti_ok ti ->
  returns (alloc_carry gc (if c then 1025 else 1024) ti (word_of_int n))
          (fun mem v => is_carry mem v (c, n)).
Proof.
  intros Hgc Hti. unfold alloc_carry.
  assert (Hroom : (exists ti', (if 2 <=? (ti_limit ti - ti_alloc ti) / 8 then Ok ti else gc ti 2) = Ok ti' /\ ti_ok ti' /\ 2 <= room ti')
                  \/ (if 2 <=? (ti_limit ti - ti_alloc ti) / 8 then Ok ti else gc ti 2) = Abort).
  { destruct (Z.leb_spec 2 ((ti_limit ti - ti_alloc ti) / 8)).
    - left. exists ti. auto.
    - destruct (Hgc ti 2 Hti) as [->|(ti' & -> & ? & ?)]; eauto. }
  destruct Hroom as [(ti' & -> & (A & L & _) & R)| ->]; [|left; reflexivity].
  right. cbn [cbind]. unfold room in R.
  assert (Hb : ti_alloc ti' + 16 <= ti_limit ti') by dlia.
  rewrite store_fresh_ok by lia. cbn [cbind].
  rewrite store_fresh_ok by (cbn; lia). cbn [cbind bump ti_alloc ti_limit ti_mem].
  eexists _, _. split; [reflexivity|]. split; [|split].
  - unfold ti_ok; cbn. repeat split; dlia.
  - cbn [ti_alloc ti_mem bump].
    replace (ti_alloc ti' + 8 - 8 =? ti_alloc ti' + 8) with false by lia.
    replace (ti_alloc ti' + 8 - 8 =? ti_alloc ti' + 0) with true by lia.
    destruct c; [change (1025 / 1024) with 1|change (1024 / 1024) with 1]; lia.
  - unfold is_carry, is_block; cbn [ti_mem fst snd length bump].
    split; [dlia|]. split.
    + replace (ti_alloc ti' + 8 - 8 =? ti_alloc ti' + 8) with false by lia.
      replace (ti_alloc ti' + 8 - 8 =? ti_alloc ti' + 0) with true by lia.
      destruct c; reflexivity.
    + intros [|[|i]] w; cbn; intros E; inversion E; subst.
      rewrite Z.add_0_r. rewrite Z.eqb_refl. reflexivity.
Qed.

Lemma mk_pair_ok ti a b :
  ti_ok ti -> 3 <= room ti ->
  exists ti' v, mk_pair ti (word_of_int a) (word_of_int b) = Ok (ti', v) /\ ti_ok ti' /\
    is_pair (ti_mem ti') v (a, b) /\ room ti' = room ti - 3 /\ v = ti_alloc ti + 8.
Proof.
  intros (A & L & B) R. unfold room in *. unfold mk_pair.
  assert (Hb : ti_alloc ti + 24 <= ti_limit ti) by dlia.
  rewrite store_fresh_ok by lia. cbn [cbind].
  rewrite store_fresh_ok by (cbn; lia). cbn [cbind bump ti_alloc ti_limit ti_mem].
  rewrite store_fresh_ok by (cbn; lia). cbn [cbind bump ti_alloc ti_limit ti_mem].
  eexists _, _. split; [reflexivity|]. split; [|split; [|split; [|reflexivity]]].
  - unfold ti_ok; cbn. repeat split; dlia.
  - unfold is_pair, is_block; cbn [ti_mem fst snd length bump].
    split; [dlia|]. split.
    + replace (ti_alloc ti + 8 - 8 =? ti_alloc ti + 16) with false by lia.
      replace (ti_alloc ti + 8 - 8 =? ti_alloc ti + 8) with false by lia.
      replace (ti_alloc ti + 8 - 8 =? ti_alloc ti + 0) with true by lia.
      reflexivity.
    + intros [|[|[|i]]] w; cbn [nth_error]; intros E; inversion E; subst; clear E.
      * eqbs; reflexivity.
      * eqbs; reflexivity.
  - cbn [ti_limit ti_alloc bump]. dlia.
Qed.

(** Without room for three words the pair allocator writes past the limit. *)
Lemma mk_pair_overflow ti a b :
  ti_ok ti -> room ti < 3 -> mk_pair ti a b = UB.
Proof.
  intros (A & L & B) R. unfold room in *. unfold mk_pair, store_fresh.
  assert (Hb : ti_limit ti < ti_alloc ti + 24) by dlia.
  destruct ((_ <=? _) && (_ <=? _)) eqn:E1; [|reflexivity]. cbn [cbind ti_alloc ti_limit].
  destruct ((ti_alloc ti <=? ti_alloc ti + 8) && (_ <=? _)) eqn:E2; [|reflexivity]. cbn [cbind ti_alloc ti_limit].
  replace (ti_alloc ti + 16 + 8 <=? ti_limit ti) with false by lia.
  rewrite andb_false_r. reflexivity.
Qed.

(** ** Carry operations *)

Lemma addc_code gc ti x y : gc_gives_room gc -> ti_ok ti -> u63 x -> u63 y ->
  returns (prim_int63_addc gc ti (word_of_int x) (word_of_int y))
          (fun mem v => is_carry mem v (false, (x + y) mod wB)).
Proof.
  intros Hgc Hti Hx Hy. unfold prim_int63_addc. rewrite !Unsigned_long_val_word by assumption.
  unfold u63 in *. rewrite u64_small by lia.
  replace (x + y <? x) with false by lia. rewrite Val_long_any.
  apply (alloc_carry_ok gc ti false); assumption.
Qed.

Lemma addc_partial gc ti x y : gc_gives_room gc -> ti_ok ti -> u63 x -> u63 y -> x + y < wB ->
  returns (prim_int63_addc gc ti (word_of_int x) (word_of_int y))
          (fun mem v => is_carry mem v (spec_addc x y)).
Proof.
  intros Hgc Hti Hx Hy Hs. unfold spec_addc. replace (wB <=? x + y) with false by lia.
  apply addc_code; assumption.
Qed.

Lemma addcarryc_code gc ti x y : gc_gives_room gc -> ti_ok ti -> u63 x -> u63 y -> x < hB -> y < hB ->
  returns (prim_int63_addcarryc gc ti (word_of_int x) (word_of_int y))
          (fun mem v => is_carry mem v (y <=? x, (x + y + 1) mod wB)).
Proof.
  intros Hgc Hti Hx Hy Hxs Hys. unfold prim_int63_addcarryc. rewrite !Unsigned_long_val_word by assumption.
  rewrite s64_word by assumption.
  unfold u63, signed in *. rewrite u64_small by lia.
  replace (x <? hB) with true by lia.
  rewrite s64_fits by lia. rewrite Val_long_any.
  destruct (Z.leb_spec (x + y + 1) (2 * x + 1)).
  - replace (y <=? x) with true by lia. apply (alloc_carry_ok gc ti true); assumption.
  - replace (y <=? x) with false by lia. apply (alloc_carry_ok gc ti false); assumption.
Qed.

Lemma addcarryc_partial gc ti x y : gc_gives_room gc -> ti_ok ti -> u63 x -> u63 y -> x < y -> y < hB ->
  returns (prim_int63_addcarryc gc ti (word_of_int x) (word_of_int y))
          (fun mem v => is_carry mem v (spec_addcarryc x y)).
Proof.
  intros Hgc Hti Hx Hy Hxs Hys. unfold spec_addcarryc.
  replace (wB <=? x + y + 1) with (y <=? x) by (unfold u63 in *; lia).
  apply addcarryc_code; auto; lia.
Qed.

Lemma subc_code gc ti x y : gc_gives_room gc -> ti_ok ti -> u63 x -> u63 y ->
  returns (prim_int63_subc gc ti (word_of_int x) (word_of_int y))
          (fun mem v => is_carry mem v (signed x <? signed y, (x - y) mod wB)).
Proof.
  intros Hgc Hti Hx Hy. unfold prim_int63_subc. rewrite !Unsigned_long_val_word by assumption.
  rewrite !s64_word by assumption. rewrite Val_long_any. unfold u64. rewrite mod_W64_wB.
  destruct (Z.leb_spec (2 * signed y + 1) (2 * signed x + 1)).
  - replace (signed x <? signed y) with false by lia. apply (alloc_carry_ok gc ti false); assumption.
  - replace (signed x <? signed y) with true by lia. apply (alloc_carry_ok gc ti true); assumption.
Qed.

Lemma subc_partial gc ti x y : gc_gives_room gc -> ti_ok ti -> u63 x -> u63 y -> (x < hB <-> y < hB) ->
  returns (prim_int63_subc gc ti (word_of_int x) (word_of_int y))
          (fun mem v => is_carry mem v (spec_subc x y)).
Proof.
  intros Hgc Hti Hx Hy Hh. unfold spec_subc.
  replace (x - y <? 0) with (signed x <? signed y).
  - apply subc_code; assumption.
  - unfold signed, u63 in *. destruct (Z.ltb_spec x hB); destruct (Z.ltb_spec y hB); lia.
Qed.

Lemma subcarryc_code gc ti x y : gc_gives_room gc -> ti_ok ti -> u63 x -> u63 y ->
  returns (prim_int63_subcarryc gc ti (word_of_int x) (word_of_int y))
          (fun mem v => is_carry mem v (signed x <=? signed y, (x - y - 1) mod wB)).
Proof.
  intros Hgc Hti Hx Hy. unfold prim_int63_subcarryc. rewrite !Unsigned_long_val_word by assumption.
  rewrite !s64_word by assumption. rewrite Val_long_any. unfold u64. rewrite mod_W64_wB.
  destruct (Z.ltb_spec (2 * signed y + 1) (2 * signed x + 1)).
  - replace (signed x <=? signed y) with false by lia. apply (alloc_carry_ok gc ti false); assumption.
  - replace (signed x <=? signed y) with true by lia. apply (alloc_carry_ok gc ti true); assumption.
Qed.

Lemma subcarryc_partial gc ti x y : gc_gives_room gc -> ti_ok ti -> u63 x -> u63 y -> (x < hB <-> y < hB) ->
  returns (prim_int63_subcarryc gc ti (word_of_int x) (word_of_int y))
          (fun mem v => is_carry mem v (spec_subcarryc x y)).
Proof.
  intros Hgc Hti Hx Hy Hh. unfold spec_subcarryc.
  replace (x - y - 1 <? 0) with (signed x <=? signed y).
  - apply subcarryc_code; assumption.
  - unfold signed, u63 in *. destruct (Z.ltb_spec x hB); destruct (Z.ltb_spec y hB); lia.
Qed.

(** Two different carry values are told apart by the memory. *)
Lemma is_carry_inj mem v c c' : is_carry mem v c -> is_carry mem v c' -> c = c'.
Proof.
  destruct c as [b n], c' as [b' n']. unfold is_carry, is_block; cbn [fst snd length].
  intros (_ & H1 & F1) (_ & H2 & F2). rewrite H1 in H2.
  specialize (F1 0%nat _ eq_refl). specialize (F2 0%nat _ eq_refl). rewrite F1 in F2.
  unfold word_of_int in F2. f_equal; [|lia]. destruct b, b'; auto; lia.
Qed.

Lemma mod_add_l a b c : b <> 0 -> (a * b + c) mod b = c mod b.
Proof. intros. rewrite Z.add_comm. apply Z.mod_add. assumption. Qed.

(** ** Double-width multiplication *)

Lemma mulc_aux_words_ok x y : u63 x -> u63 y -> (x < hB \/ y < hB) ->
  mulc_aux_words x y = Ok ((x * y) / wB, (x * y) mod wB).
Proof.
  unfold u63. intros Hx Hy Hs. unfold mulc_aux_words, shl_u, shr_u.
  change ((0 <=? 31) && (31 <? 64)) with true. change ((0 <=? 62) && (62 <? 64)) with true.
  change ((0 <=? 1) && (1 <? 64)) with true. change ((0 <=? 32) && (32 <? 64)) with true.
  cbn [cbind].
  change 2147483647 with (2 ^ 31 - 1). unfold maxuint63.
  change 9223372036854775807 with (2 ^ 63 - 1). rewrite !land_mask by lia.
  change (2 ^ 31) with 2147483648. change (2 ^ 63) with wB. change (2 ^ 62) with hB. change (2 ^ 1) with 2.
  change (2 ^ 32) with 4294967296.
  set (lx := x mod 2147483648). set (hx := x / 2147483648).
  set (ly := y mod 2147483648). set (hy := y / 2147483648).
  assert (Ex : x = hx * 2147483648 + lx) by (unfold hx, lx; dlia).
  assert (Ey : y = hy * 2147483648 + ly) by (unfold hy, ly; dlia).
  assert (Blx : 0 <= lx < 2147483648) by (unfold lx; dlia).
  assert (Bly : 0 <= ly < 2147483648) by (unfold ly; dlia).
  assert (Bhx : 0 <= hx < 4294967296) by (unfold hx; dlia).
  assert (Bhy : 0 <= hy < 4294967296) by (unfold hy; dlia).
  assert (Bs : hx < 2147483648 \/ hy < 2147483648) by (unfold hx, hy; dlia).
  assert (Exy : x * y = hx * hy * 4611686018427387904 + (hx * ly + lx * hy) * 2147483648 + lx * ly).
  { rewrite Ex, Ey. ring. }
  rewrite Exy. clearbody lx hx ly hy. clear Ex Ey Exy Hx Hy Hs x y.
  assert (BA : 0 <= hx * hy < wB) by nia.
  assert (BB : 0 <= hx * ly < wB) by nia.
  assert (BC : 0 <= lx * hy < wB) by nia.
  assert (BD : 0 <= lx * ly < hB) by nia.
  assert (BS : hx * ly + lx * hy < 2 * wB) by nia.
  assert (BT : hx * hy * hB + (hx * ly + lx * hy) * 2147483648 + lx * ly < wB * wB) by nia.
  generalize dependent (hx * hy). intros A BA BT. generalize dependent (hx * ly). intros B BB BS BT.
  generalize dependent (lx * hy). intros C BC BS BT. generalize dependent (lx * ly). intros D BD BT.
  clear lx hx ly hy Blx Bly Bhx Bhy Bs.
  rewrite !(u64_small A), !(u64_small B), !(u64_small C), !(u64_small D) by lia.
  rewrite (u64_small (B + C)) by lia.
  set (A4 := u64 (A * hB)).
  assert (EA4 : A4 = (A mod 4) * hB).
  { unfold A4, u64. change W64 with (4 * hB). rewrite Z.mul_mod_distr_r by lia. reflexivity. }
  rewrite (Z.lor_comm D A4).
  rewrite (lor_add A4 D 62); [|lia|assumption|rewrite EA4; exists (A mod 4); reflexivity].
  set (hl := (B + C) mod wB).
  assert (Hhl : 0 <= hl < wB /\ (hl < B -> B + C = wB + hl) /\ (B <= hl -> B + C = hl)) by (unfold hl; dlia).
  set (hl2 := u64 (hl * 2147483648) mod wB).
  assert (Ehl2 : hl * 2147483648 = (hl / 4294967296) * wB + hl2 /\ 0 <= hl2 < wB).
  { unfold hl2, u64. rewrite mod_W64_wB. change wB with (4294967296 * 2147483648).
    rewrite Z.mul_mod_distr_r by lia. split; dlia. }
  assert (Hq32 : 0 <= hl / 4294967296 < 2147483648) by dlia.
  set (l := u64 (A4 + D + hl2) mod wB).
  assert (El : l = (A mod 2 * hB + D + hl2) mod wB).
  { unfold l, u64. rewrite mod_W64_wB. rewrite EA4.
    replace (A mod 4 * hB + D + hl2) with (A mod 2 * hB + D + hl2 + (A mod 4 / 2) * wB) by dlia.
    rewrite Z.mod_add by lia. reflexivity. }
  assert (Hl : 0 <= l < wB /\ (l < hl2 -> A mod 2 * hB + D + hl2 = wB + l) /\ (hl2 <= l -> A mod 2 * hB + D + hl2 = l)).
  { rewrite El. dlia. }
  clearbody l hl2 hl A4. clear El EA4 A4.
  assert (EA : A = 2 * (A / 2) + A mod 2) by dlia.
  assert (BA2 : 0 <= A / 2 < hB) by dlia. assert (BA3 : 0 <= A mod 2 < 2) by dlia.
  set (A2 := A / 2) in *. set (A1 := A mod 2) in *. set (q32 := hl / 4294967296) in *. clearbody A2 A1 q32.
  assert (Htot : forall h, h * wB + l = A * hB + (B + C) * 2147483648 + D ->
     (h, l) = ((A * hB + (B + C) * 2147483648 + D) / wB, (A * hB + (B + C) * 2147483648 + D) mod wB)).
  { intros h E. f_equal; [apply Z.div_unique with l | apply Z.mod_unique with h]; lia. }
  destruct (Z.ltb_spec hl B); destruct (Z.ltb_spec l hl2);
    rewrite ?(u64_small (A2 + 2147483648)), ?(u64_small (A2 + 1)), ?(u64_small (A2 + 2147483648 + 1)) by lia;
    (rewrite u64_small by lia; f_equal; apply Htot; lia).
Qed.

Lemma wB_div_mod z : z = z / wB * wB + z mod wB.
Proof. dlia. Qed.

Lemma mul_wB_range x y : u63 x -> u63 y -> u63 ((x * y) / wB) /\ u63 ((x * y) mod wB).
Proof.
  unfold u63. intros. assert (0 <= x * y < wB * wB) by nia.
  split; [|dlia]. split; [apply Z.div_pos; lia|apply Z.div_lt_upper_bound; lia].
Qed.

Lemma is_pair_fields mem v a b : u63 a -> u63 b -> is_pair mem v (a, b) ->
  Unsigned_long_val (mem (v + 0)) = a /\ Unsigned_long_val (mem (v + 8)) = b.
Proof.
  intros Ha Hb (_ & _ & F). pose proof (F 0%nat _ eq_refl) as F0. pose proof (F 1%nat _ eq_refl) as F1.
  cbn [fst snd] in *. change (8 * Z.of_nat 0) with 0 in F0. change (8 * Z.of_nat 1) with 8 in F1.
  rewrite F0, F1, !Unsigned_long_val_word by assumption. auto.
Qed.

(** When the second branch of [mulc] loses the carry. *)
Definition mulc_bad (x y : Z) : Prop :=
  hB <= x /\ hB <= y /\ x mod 4 = 1 /\ hB <= (x * (y - hB)) mod wB.

Lemma mulc_code ti x y : ti_ok ti -> 6 <= room ti -> u63 x -> u63 y ->
  exists ti' v, prim_int63_mulc ti (word_of_int x) (word_of_int y) = Ok (ti', v) /\ ti_ok ti' /\
    (~ mulc_bad x y -> is_pair (ti_mem ti') v (spec_mulc x y)) /\
    (mulc_bad x y -> is_pair (ti_mem ti') v ((x * y) / wB - 1, (x * y) mod wB)).
Proof.
  intros Hti Hr Hx Hy. unfold prim_int63_mulc, mulc_aux. rewrite !Unsigned_long_val_word by assumption.
  unfold shr_u, shl_u. change ((0 <=? 62) && (62 <? 64)) with true. change ((0 <=? 1) && (1 <? 64)) with true.
  cbn [cbind]. change (2 ^ 62) with hB. change (2 ^ 1) with 2.
  destruct ((x / hB =? 0) || (y / hB =? 0)) eqn:E.
  - assert (Hlt : x < hB \/ y < hB).
    { unfold u63 in *. apply orb_true_iff in E. rewrite !Z.eqb_eq in E. dlia. }
    rewrite mulc_aux_words_ok by assumption. cbn [cbind].
    destruct (mul_wB_range x y Hx Hy) as [U1 U2]. rewrite !Val_long_u63 by assumption.
    destruct (mk_pair_ok ti ((x * y) / wB) ((x * y) mod wB) Hti ltac:(lia)) as (ti' & v & -> & T & P & _).
    exists ti', v. split; [reflexivity|]. split; [assumption|]. split; [auto|].
    unfold mulc_bad. intros; exfalso; lia.
  - assert (Hge : hB <= x /\ hB <= y).
    { unfold u63 in *. apply orb_false_iff in E. rewrite !Z.eqb_neq in E. dlia. }
    clear E. unfold u63 in Hx, Hy.
    assert (Eyl : Z.lxor y hB = y - hB).
    { assert (Hy' : y = (y - hB) + hB) by lia.
      assert (L0 : Z.land (y - hB) hB = 0).
      { change hB with ((2 ^ 1 - 1) * 2 ^ 62) at 2. rewrite land_shift_mask by lia.
        change (2 ^ 62) with hB. rewrite Z.div_small by lia. reflexivity. }
      rewrite Hy' at 1. rewrite (Z.add_nocarry_lxor (y - hB) hB) by assumption.
      rewrite Z.lxor_assoc, Z.lxor_nilpotent, Z.lxor_0_r. reflexivity. }
    rewrite Eyl.
    set (yl := y - hB) in *. assert (Hyl : 0 <= yl < hB) by lia.
    rewrite mulc_aux_words_ok by (unfold u63; lia). cbn [cbind].
    destruct (mul_wB_range x yl) as [U1 U2]; [unfold u63; lia|unfold u63; lia|].
    rewrite !Val_long_u63 by assumption.
    destruct (mk_pair_ok ti ((x * yl) / wB) ((x * yl) mod wB) Hti ltac:(lia)) as (ti' & v & -> & T & P & R' & _).
    cbn [cbind]. destruct (is_pair_fields _ _ _ _ U1 U2 P) as [F0 F1]. rewrite F0, F1.
    set (h := x * yl / wB) in *. set (l := (x * yl) mod wB) in *.
    assert (Exy : x * yl = h * wB + l) by (unfold h, l; apply wB_div_mod).
    assert (Bl : 0 <= l < wB) by (exact U2).
    assert (Bh : 0 <= h < hB).
    { unfold h. split; [apply U1|]. apply Z.div_lt_upper_bound; [lia|]. nia. }
    assert (Ex62 : u64 (x * hB) = (x mod 4) * hB).
    { unfold u64. change W64 with (4 * hB). rewrite Z.mul_mod_distr_r by lia. reflexivity. }
    rewrite Ex62.
    assert (Etot : x * y = (h + x / 2) * wB + (l + (x mod 2) * hB)).
    { replace y with (yl + hB) by (unfold yl; lia). rewrite Z.mul_add_distr_l, Exy. dlia. }
    set (l2 := u64 (l + x mod 4 * hB)).
    assert (El2 : l2 mod wB = (x * y) mod wB).
    { unfold l2, u64. rewrite mod_W64_wB. rewrite Etot, mod_add_l by lia.
      replace (l + x mod 4 * hB) with (l + x mod 2 * hB + (x mod 4 / 2) * wB) by dlia.
      rewrite Z.mod_add by lia. reflexivity. }
    assert (Hbad : mulc_bad x y <-> (x mod 4 = 1 /\ hB <= l)).
    { unfold mulc_bad. fold yl. fold l. tauto. }
    assert (Bx4 : 0 <= x mod 4 < 4) by dlia.
    assert (Ecar : (l2 <? l) = (if (x mod 4 =? 3) then (hB <=? l) else false)).
    { unfold l2, u64. destruct (Z.eqb_spec (x mod 4) 3) as [E3|N3].
      - rewrite E3. clear - Bl. destruct (Z.leb_spec hB l).
        + replace ((l + 3 * hB) mod W64) with (l + 3 * hB - W64) by dlia. lia.
        + rewrite Z.mod_small by lia. lia.
      - rewrite Z.mod_small by nia. apply Z.ltb_ge. nia. }
    rewrite Ecar.
    assert (Ehi : (x * y) / wB = h + x / 2 + (if (x mod 2 =? 1) && (hB <=? l) then 1 else 0)).
    { rewrite Etot. rewrite Z.div_add_l by lia. f_equal.
      destruct (Z.eqb_spec (x mod 2) 1) as [E1|N1]; destruct (Z.leb_spec hB l); cbn [andb].
      - rewrite E1. clear - Bl H. dlia.
      - rewrite E1. apply Z.div_small. lia.
      - replace (x mod 2) with 0 by dlia. apply Z.div_small. lia.
      - replace (x mod 2) with 0 by dlia. apply Z.div_small. lia. }
    assert (Bx2 : hB / 2 <= x / 2 < hB) by dlia. change (hB / 2) with 2305843009213693952 in Bx2.
    assert (Hu2 : u63 ((x * y) mod wB)) by (unfold u63; dlia).
    assert (Elw : Val_long l2 = word_of_int ((x * y) mod wB)).
    { rewrite Val_long_any, El2. reflexivity. }
    rewrite Elw.
    set (c := if (if x mod 4 =? 3 then hB <=? l else false) then u64 (h + 1) else h).
    assert (Hc : u64 (c + x / 2) = h + x / 2 + (if (x mod 4 =? 3) && (hB <=? l) then 1 else 0)).
    { unfold c. destruct (x mod 4 =? 3), (hB <=? l); cbn [andb]; rewrite ?(u64_small (h + 1)) by lia; rewrite u64_small by lia; lia. }
    rewrite Hc.
    assert (Bres : u63 (h + x / 2 + (if (x mod 4 =? 3) && (hB <=? l) then 1 else 0))).
    { unfold u63. destruct ((x mod 4 =? 3) && (hB <=? l)); lia. }
    rewrite Val_long_u63 by assumption.
    destruct (mk_pair_ok ti' (h + x / 2 + (if (x mod 4 =? 3) && (hB <=? l) then 1 else 0)) ((x * y) mod wB) T ltac:(lia))
      as (ti2 & v2 & -> & T2 & P2 & _).
    exists ti2, v2. split; [reflexivity|]. split; [assumption|]. rewrite Hbad. unfold spec_mulc.
    assert (Bx24 : x mod 2 = (x mod 4) mod 2) by dlia.
    split; intros Hb.
    + rewrite Ehi. replace ((x mod 2 =? 1) && (hB <=? l)) with ((x mod 4 =? 3) && (hB <=? l)); [assumption|].
      destruct (Z.leb_spec hB l); rewrite ?andb_false_r, ?andb_true_r; [|reflexivity].
      rewrite Bx24. assert (x mod 4 <> 1) by tauto.
      destruct (Z.eqb_spec (x mod 4) 3) as [->|]; [reflexivity|].
      symmetry. apply Z.eqb_neq. dlia.
    + destruct Hb as [E1 Hl]. rewrite Ehi, Bx24, E1. change (1 mod 2 =? 1) with true.
      rewrite E1 in P2. change (1 =? 3) with false in P2. cbn [andb] in *.
      replace (hB <=? l) with true by lia. rewrite Z.add_0_r in P2. rewrite Z.add_simpl_r. assumption.
Qed.

(** ** Euclidean division *)

Lemma diveucl_ok ti x y : ti_ok ti -> 3 <= room ti -> u63 x -> u63 y ->
  exists ti' v, prim_int63_diveucl ti (word_of_int x) (word_of_int y) = Ok (ti', v) /\ ti_ok ti' /\
    is_pair (ti_mem ti') v (spec_diveucl x y).
Proof.
  intros Hti Hr Hx Hy. unfold prim_int63_diveucl, spec_diveucl, spec_div, spec_mod, div_u, rem_u.
  rewrite !Unsigned_long_val_word by assumption.
  destruct (Z.eqb_spec y 0) as [E|E].
  - rewrite !Val_long_u63 by (unfold u63 in *; lia).
    destruct (mk_pair_ok ti 0 x Hti Hr) as (ti' & v & -> & T & P & _). eauto.
  - cbn [cbind]. unfold u63 in *.
    assert (0 <= x / y < wB).
    { split; [apply Z.div_pos; lia|]. apply Z.le_lt_trans with x; [apply Z.div_le_upper_bound; nia|lia]. }
    pose proof (Z.mod_pos_bound x y ltac:(lia)).
    rewrite !Val_long_u63 by (unfold u63; lia).
    destruct (mk_pair_ok ti (x / y) (x mod y) Hti Hr) as (ti' & v & -> & T & P & _). eauto.
Qed.

Lemma pow_S n : 2 ^ Z.of_nat (S n) = 2 * 2 ^ Z.of_nat n.
Proof. rewrite Nat2Z.inj_succ, Z.pow_succ_r by lia. reflexivity. Qed.

(** The loop: invariant in terms of the remaining number of iterations. *)
Lemma diveucl_21_loop_ok y n : 0 < y < wB ->
  forall nh nl q, (n <= 63)%nat -> 0 <= nh < y -> 0 <= nl < wB -> 0 <= q < 2 ^ (63 - Z.of_nat n) ->
  exists nh' nl' q', diveucl_21_loop n y (nh, nl, q) = Ok (nh', nl', q') /\
    0 <= nh' < y /\ 0 <= q' < wB /\
    (q * y + nh) * 2 ^ Z.of_nat n + nl / 2 ^ (63 - Z.of_nat n) = q' * y + nh'.
Proof.
  intros Hy. induction n as [|n IH]; intros nh nl q Hn Hnh Hnl Hq.
  - exists nh, nl, q. cbn [diveucl_21_loop]. split; [reflexivity|].
    change (Z.of_nat 0) with 0 in *. rewrite Z.sub_0_r in *. change (2 ^ 63) with wB in *. change (2 ^ 0) with 1.
    rewrite Z.div_small by lia. lia.
  - cbn [diveucl_21_loop]. unfold diveucl_21_step, shl_u, shr_u.
    change ((0 <=? 62) && (62 <? 64)) with true. change ((0 <=? 1) && (1 <? 64)) with true.
    cbn [cbind]. change (2 ^ 62) with hB. change (2 ^ 1) with 2. unfold maxuint63.
    change 9223372036854775807 with (2 ^ 63 - 1). rewrite !land_mask by lia. change (2 ^ 63) with wB.
    rewrite (u64_small (nh * 2)), (u64_small (nl * 2)) by lia.
    set (k := 63 - Z.of_nat (S n)) in *.
    assert (Hk : 0 <= k <= 62) by lia. assert (Ek : 63 - Z.of_nat n = k + 1) by lia.
    assert (Bk : 2 ^ (k + 1) <= 2 ^ 63) by (apply Z.pow_le_mono_r; lia). change (2 ^ 63) with wB in Bk.
    rewrite Z.pow_add_r in Bk by lia. change (2 ^ 1) with 2 in Bk.
    rewrite (u64_small (q * 2)) by lia.
    assert (Hb : 0 <= nl / hB < 2) by dlia.
    rewrite (lor_add (nh * 2) (nl / hB) 1); [|lia|exact Hb|exists nh; reflexivity].
    rewrite (lor_add (q * 2) 1 1); [|lia|cbn; lia|exists q; reflexivity].
    set (b := nl / hB) in *. set (nl0 := nl mod hB).
    assert (Enl : nl = b * hB + nl0) by (unfold b, nl0; dlia).
    assert (Bnl0 : 0 <= nl0 < hB) by (unfold nl0; dlia).
    assert (Enl' : (nl * 2) mod wB = nl0 * 2) by (rewrite Enl; dlia).
    rewrite Enl'.
    (* the quotient of the remaining digits *)
    assert (Hpk : 0 < 2 ^ k) by (apply pow_pos; lia).
    assert (EhB : hB = 2 ^ Z.of_nat n * 2 ^ k).
    { rewrite <- Z.pow_add_r by lia. change hB with (2 ^ 62). f_equal. lia. }
    assert (Hdiv : nl / 2 ^ k = b * 2 ^ Z.of_nat n + (nl0 * 2) / 2 ^ (k + 1)).
    { rewrite Enl at 1. rewrite EhB, Z.mul_assoc. rewrite Z.div_add_l by lia. f_equal.
      rewrite Z.pow_add_r by lia. change (2 ^ 1) with 2. rewrite Z.div_mul_cancel_r by lia. reflexivity. }
    rewrite Hdiv, pow_S.
    assert (Hp1 : 2 ^ (63 - Z.of_nat n) = 2 * 2 ^ k) by (rewrite Ek, Z.pow_add_r by lia; change (2 ^ 1) with 2; lia).
    destruct (Z.leb_spec y (nh * 2 + b)).
    + rewrite u64_small by lia. cbn [cbind].
      destruct (IH (nh * 2 + b - y) (nl0 * 2) (q * 2 + 1)) as (nh' & nl' & q' & E & B1 & B2 & Inv); [lia|lia|lia| |].
      { rewrite Hp1. lia. }
      exists nh', nl', q'. split; [exact E|]. split; [exact B1|]. split; [exact B2|].
      rewrite <- Inv, Ek. ring.
    + cbn [cbind].
      destruct (IH (nh * 2 + b) (nl0 * 2) (q * 2)) as (nh' & nl' & q' & E & B1 & B2 & Inv); [lia|lia|lia| |].
      { rewrite Hp1. lia. }
      exists nh', nl', q'. split; [exact E|]. split; [exact B1|]. split; [exact B2|].
      rewrite <- Inv, Ek. ring.
Qed.

Lemma diveucl_21_ok ti xh xl y : ti_ok ti -> 3 <= room ti -> u63 xh -> u63 xl -> u63 y ->
  exists ti' v, prim_int63_diveucl_21 ti (word_of_int xh) (word_of_int xl) (word_of_int y) = Ok (ti', v) /\ ti_ok ti' /\
    is_pair (ti_mem ti') v (if xh <? y then spec_diveucl_21 xh xl y else (0, 0)).
Proof.
  intros Hti Hr Hxh Hxl Hy. unfold prim_int63_diveucl_21. rewrite !Unsigned_long_val_word by assumption.
  destruct (Z.leb_spec y xh).
  - replace (xh <? y) with false by lia. rewrite !Val_long_u63 by (unfold u63; lia).
    destruct (mk_pair_ok ti 0 0 Hti Hr) as (ti' & v & -> & T & P & _). eauto.
  - replace (xh <? y) with true by lia. unfold prim_int63_diveucl_21_long, maxuint63.
    change 9223372036854775807 with (2 ^ 63 - 1). rewrite !land_mask by lia. change (2 ^ 63) with wB.
    unfold u63 in *. rewrite !(Z.mod_small _ wB) by lia.
    destruct (diveucl_21_loop_ok y 63 ltac:(lia) xh xl 0) as (nh & nl & q & -> & B1 & B2 & Inv); try lia.
    cbn [cbind]. change 18446744073709551615 with (2 ^ 64 - 1). rewrite land_mask by lia.
    change (2 ^ 64) with W64. rewrite (Z.mod_small nh) by lia.
    rewrite !Val_long_u63 by (unfold u63; lia).
    change (Z.of_nat 63) with 63 in Inv. change (2 ^ (63 - 63)) with 1 in Inv. change (2 ^ 63) with wB in Inv.
    rewrite Z.div_1_r in Inv.
    destruct (mk_pair_ok ti q nh Hti Hr) as (ti' & v & -> & T & P & _).
    exists ti', v. split; [reflexivity|]. split; [assumption|]. unfold spec_diveucl_21.
    replace (xh * wB + xl) with (q * y + nh) by lia.
    rewrite Z.div_add_l, (Z.div_small nh), Z.add_0_r by lia.
    rewrite mod_add_l, Z.mod_small by lia. assumption.
Qed.
