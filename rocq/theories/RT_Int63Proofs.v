(** Proofs about the C integer primitives. *)
From Coq Require Import ZArith Lia Bool.
From Verif Require Import RT_Word RT_Values RT_Int63Model RT_Int63Spec.
Open Scope Z_scope.

Ltac Zify.zify_post_hook ::= Z.div_mod_to_equations.

(** ** values.h *)

Lemma Val_long_u63 n : u63 n -> Val_long n = word_of_int n.
Proof.
  unfold u63, Val_long, word_of_int, u64. intros H.
  rewrite (Z.mod_small n) by lia.
  rewrite (Z.mod_small (n * 2)) by lia. rewrite Z.mod_small; lia.
Qed.

(** Only the low 63 bits of the argument of [Val_long] matter. *)
Lemma Val_long_any n : Val_long n = word_of_int (n mod wB).
Proof. unfold Val_long, word_of_int, u64. lia. Qed.

Lemma Unsigned_long_val_word n : u63 n -> Unsigned_long_val (word_of_int n) = n.
Proof. unfold u63, Unsigned_long_val, word_of_int, u64. intros. lia. Qed.

Lemma word_of_int_range n : u63 n -> 0 <= word_of_int n < W64.
Proof. unfold u63, word_of_int. lia. Qed.

Lemma s64_word n : u63 n -> s64 (word_of_int n) = 2 * signed n + 1.
Proof.
  unfold u63, s64, word_of_int, signed. intros.
  destruct (_ <? H64) eqn:E; destruct (n <? hB) eqn:E2; lia.
Qed.

Lemma Long_val_word n : u63 n -> Long_val (word_of_int n) = signed n.
Proof. intros. unfold Long_val. rewrite s64_word by assumption. lia. Qed.

Lemma SLong_val_word n : u63 n -> SLong_val (word_of_int n) = Ok (signed n).
Proof.
  intros. unfold SLong_val, shr_s. rewrite s64_word by assumption. cbn -[Z.mul Z.div].
  f_equal. change (2 ^ 1) with 2. lia.
Qed.

Lemma signed_range n : u63 n -> - hB <= signed n < hB.
Proof. unfold u63, signed. intros. destruct (n <? hB) eqn:E; lia. Qed.

Lemma signed_mod n : u63 n -> signed n mod wB = n.
Proof. unfold u63, signed. intros. destruct (n <? hB) eqn:E; lia. Qed.

(** ** Plain arithmetic *)

Ltac prims := intros; rewrite ?Unsigned_long_val_word by assumption.

Lemma add_ok x y : u63 x -> u63 y ->
  prim_int63_add (word_of_int x) (word_of_int y) = Ok (word_of_int (spec_add x y)).
Proof.
  unfold prim_int63_add, spec_add. prims. unfold u63 in *.
  rewrite Val_long_any. unfold u64. do 2 f_equal. lia.
Qed.

Lemma sub_ok x y : u63 x -> u63 y ->
  prim_int63_sub (word_of_int x) (word_of_int y) = Ok (word_of_int (spec_sub x y)).
Proof.
  unfold prim_int63_sub, spec_sub. prims. unfold u63 in *.
  rewrite Val_long_any. unfold u64. do 2 f_equal. lia.
Qed.

Lemma mod_W64_wB z : (z mod W64) mod wB = z mod wB.
Proof. lia. Qed.

Lemma mul_ok x y : u63 x -> u63 y ->
  prim_int63_mul (word_of_int x) (word_of_int y) = Ok (word_of_int (spec_mul x y)).
Proof.
  unfold prim_int63_mul, spec_mul. prims.
  rewrite Val_long_any. unfold u64. rewrite mod_W64_wB. reflexivity.
Qed.

Lemma div_ok x y : u63 x -> u63 y ->
  prim_int63_div (word_of_int x) (word_of_int y) = Ok (word_of_int (spec_div x y)).
Proof.
  unfold prim_int63_div, spec_div, div_u. prims.
  destruct (y =? 0) eqn:E; [reflexivity|]. cbn.
  rewrite Val_long_u63; [reflexivity|]. unfold u63 in *.
  assert (0 < y) by lia.
  split; [apply Z.div_pos; lia|].
  apply Z.le_lt_trans with x; [apply Z.div_le_upper_bound; nia|lia].
Qed.

Lemma mod_ok x y : u63 x -> u63 y ->
  prim_int63_mod (word_of_int x) (word_of_int y) = Ok (word_of_int (spec_mod x y)).
Proof.
  unfold prim_int63_mod, spec_mod, rem_u. prims.
  destruct (y =? 0) eqn:E; [reflexivity|]. cbn.
  rewrite Val_long_u63; [reflexivity|]. unfold u63 in *.
  assert (0 < y) by lia. pose proof (Z.mod_pos_bound x y). lia.
Qed.

Lemma bits_u63 z : u63 z <-> (0 <= z /\ Z.log2 z < 63) .
Proof.
  unfold u63. change wB with (2 ^ 63). split; intros [H1 H2]; split; auto.
  - destruct (Z.eq_dec z 0) as [->|]; [reflexivity|]. apply Z.log2_lt_pow2; lia.
  - destruct (Z.eq_dec z 0) as [->|]; [reflexivity|]. apply Z.log2_lt_pow2; lia.
Qed.

Lemma land_u63 x y : u63 x -> u63 y -> u63 (Z.land x y).
Proof.
  rewrite !bits_u63. intros [? ?] [? ?]. split; [apply Z.land_nonneg; auto|].
  pose proof (Z.log2_land x y). lia.
Qed.
Lemma lor_u63 x y : u63 x -> u63 y -> u63 (Z.lor x y).
Proof.
  rewrite !bits_u63. intros [? ?] [? ?]. split; [apply Z.lor_nonneg; auto|].
  rewrite Z.log2_lor by assumption. lia.
Qed.
Lemma lxor_u63 x y : u63 x -> u63 y -> u63 (Z.lxor x y).
Proof.
  rewrite !bits_u63. intros [? ?] [? ?]. split; [apply Z.lxor_nonneg; tauto|].
  pose proof (Z.log2_lxor x y). lia.
Qed.

Lemma land_ok x y : u63 x -> u63 y ->
  prim_int63_land (word_of_int x) (word_of_int y) = Ok (word_of_int (spec_land x y)).
Proof.
  unfold prim_int63_land, spec_land. prims. rewrite Val_long_u63; auto using land_u63.
Qed.
Lemma lor_ok x y : u63 x -> u63 y ->
  prim_int63_lor (word_of_int x) (word_of_int y) = Ok (word_of_int (spec_lor x y)).
Proof.
  unfold prim_int63_lor, spec_lor. prims. rewrite Val_long_u63; auto using lor_u63.
Qed.
Lemma lxor_ok x y : u63 x -> u63 y ->
  prim_int63_lxor (word_of_int x) (word_of_int y) = Ok (word_of_int (spec_lxor x y)).
Proof.
  unfold prim_int63_lxor, spec_lxor. prims. rewrite Val_long_u63; auto using lxor_u63.
Qed.

Lemma pow2_split p : 63 <= p -> 2 ^ p = 2 ^ (p - 63) * wB.
Proof. intros. change wB with (2 ^ 63). rewrite <- Z.pow_add_r by lia. f_equal. lia. Qed.

Lemma lsl_ok x y : u63 x -> u63 y ->
  prim_int63_lsl (word_of_int x) (word_of_int y) = Ok (word_of_int (spec_lsl x y)).
Proof.
  unfold prim_int63_lsl, spec_lsl, shl_u. prims. unfold u63 in *.
  destruct ((0 <=? y) && (y <? 63)) eqn:E.
  - replace ((0 <=? y) && (y <? 64)) with true by (symmetry; apply andb_true_intro; split; lia).
    cbn -[Z.pow Z.mul]. rewrite Val_long_any. unfold u64. rewrite mod_W64_wB. reflexivity.
  - rewrite Val_long_any. do 2 f_equal.
    rewrite pow2_split by lia. rewrite Z.mul_assoc, Z.mod_mul by lia. reflexivity.
Qed.

Lemma lsr_ok x y : u63 x -> u63 y ->
  prim_int63_lsr (word_of_int x) (word_of_int y) = Ok (word_of_int (spec_lsr x y)).
Proof.
  unfold prim_int63_lsr, spec_lsr, shr_u. prims. unfold u63 in *.
  destruct ((0 <=? y) && (y <? 63)) eqn:E.
  - replace ((0 <=? y) && (y <? 64)) with true by (symmetry; apply andb_true_intro; split; lia).
    cbn -[Z.pow Z.div]. rewrite Val_long_u63; [reflexivity|].
    assert (0 < 2 ^ y) by (apply Z.pow_pos_nonneg; lia).
    split; [apply Z.div_pos; lia|].
    apply Z.le_lt_trans with x; [apply Z.div_le_upper_bound; nia|lia].
  - rewrite Val_long_any. do 2 f_equal. symmetry.
    assert (wB <= 2 ^ y) by (change wB with (2 ^ 63); apply Z.pow_le_mono_r; lia).
    rewrite Z.div_small by lia. reflexivity.
Qed.

Lemma eqb_ok x y : u63 x -> u63 y ->
  prim_int63_eqb (word_of_int x) (word_of_int y) = Ok (word_of_bool (x =? y)).
Proof. unfold prim_int63_eqb. prims. reflexivity. Qed.

Lemma compare_ok x y : u63 x -> u63 y ->
  prim_int63_compare (word_of_int x) (word_of_int y) = Ok (word_of_comparison (x ?= y)).
Proof.
  unfold prim_int63_compare, sub_s. prims. unfold u63 in *.
  rewrite !s64_fits by lia. rewrite fits_s64_true by lia. cbn -[Z.sub Z.compare].
  f_equal. destruct (Z.compare_spec x y); unfold word_of_comparison.
  - replace (x - y =? 0) with true by lia. reflexivity.
  - replace (x - y =? 0) with false by lia. replace (x - y <? 0) with true by lia. reflexivity.
  - replace (x - y =? 0) with false by lia. replace (x - y <? 0) with false by lia. reflexivity.
Qed.

(** ** Order *)

Lemma signed_same x y : u63 x -> u63 y ->
  (x <? hB) = (y <? hB) -> signed x - signed y = x - y.
Proof. unfold signed. intros _ _ ->. destruct (y <? hB); lia. Qed.

Lemma signed_diff x y : u63 x -> u63 y ->
  (x <? hB) <> (y <? hB) -> (x < y <-> signed y < signed x) /\ x <> y /\ signed x <> signed y.
Proof.
  unfold u63, signed. intros.
  destruct (x <? hB) eqn:E; destruct (y <? hB) eqn:E2; try congruence; lia.
Qed.

Lemma leb_code x y : u63 x -> u63 y ->
  prim_int63_leb (word_of_int x) (word_of_int y) = Ok (word_of_bool (signed x <=? signed y)).
Proof.
  intros. unfold prim_int63_leb. rewrite !s64_word by assumption.
  change mk_bool with word_of_bool. do 2 f_equal. lia.
Qed.
Lemma ltb_code x y : u63 x -> u63 y ->
  prim_int63_ltb (word_of_int x) (word_of_int y) = Ok (word_of_bool (signed x <? signed y)).
Proof.
  intros. unfold prim_int63_ltb. rewrite !s64_word by assumption.
  change mk_bool with word_of_bool. do 2 f_equal. lia.
Qed.

Lemma word_of_bool_inj a b : word_of_bool a = word_of_bool b -> a = b.
Proof. destruct a, b; cbn; congruence. Qed.

(** The exact set of operands on which the unsigned order tests are right. *)
Lemma leb_exact x y : u63 x -> u63 y ->
  (prim_int63_leb (word_of_int x) (word_of_int y) = Ok (word_of_bool (x <=? y))
   <-> (x < hB <-> y < hB)).
Proof.
  intros Hx Hy. rewrite leb_code by assumption. split.
  - intros H. injection H as H. apply word_of_bool_inj in H.
    unfold signed, u63 in *. destruct (x <? hB) eqn:E; destruct (y <? hB) eqn:E2; lia.
  - intros H. do 2 f_equal.
    unfold signed, u63 in *. destruct (x <? hB) eqn:E; destruct (y <? hB) eqn:E2; lia.
Qed.
Lemma ltb_exact x y : u63 x -> u63 y ->
  (prim_int63_ltb (word_of_int x) (word_of_int y) = Ok (word_of_bool (x <? y))
   <-> (x < hB <-> y < hB)).
Proof.
  intros Hx Hy. rewrite ltb_code by assumption. split.
  - intros H. injection H as H. apply word_of_bool_inj in H.
    unfold signed, u63 in *. destruct (x <? hB) eqn:E; destruct (y <? hB) eqn:E2; lia.
  - intros H. do 2 f_equal.
    unfold signed, u63 in *. destruct (x <? hB) eqn:E; destruct (y <? hB) eqn:E2; lia.
Qed.

Lemma lesb_ok x y : u63 x -> u63 y ->
  prim_int63_lesb (word_of_int x) (word_of_int y) = Ok (word_of_bool (signed x <=? signed y)).
Proof. intros. unfold prim_int63_lesb. rewrite !SLong_val_word by assumption. reflexivity. Qed.
Lemma ltsb_ok x y : u63 x -> u63 y ->
  prim_int63_ltsb (word_of_int x) (word_of_int y) = Ok (word_of_bool (signed x <? signed y)).
Proof. intros. unfold prim_int63_ltsb. rewrite !SLong_val_word by assumption. reflexivity. Qed.
Lemma compares_ok x y : u63 x -> u63 y ->
  prim_int63_compares (word_of_int x) (word_of_int y) = Ok (word_of_comparison (signed x ?= signed y)).
Proof.
  intros. unfold prim_int63_compares, sub_s. rewrite !SLong_val_word by assumption.
  pose proof (signed_range x). pose proof (signed_range y). cbn -[Z.sub Z.compare].
  rewrite fits_s64_true by lia. cbn -[Z.sub Z.compare].
  f_equal. destruct (Z.compare_spec (signed x) (signed y)); unfold word_of_comparison.
  - replace (_ =? 0) with true by lia. reflexivity.
  - replace (_ =? 0) with false by lia. replace (_ <? 0) with true by lia. reflexivity.
  - replace (_ =? 0) with false by lia. replace (_ <? 0) with false by lia. reflexivity.
Qed.

(** ** Signed arithmetic *)

Lemma divs_ok x y : u63 x -> u63 y ->
  prim_int63_divs (word_of_int x) (word_of_int y) = Ok (word_of_int (spec_divs x y)).
Proof.
  intros. unfold prim_int63_divs, spec_divs, div_s. rewrite !Long_val_word by assumption.
  destruct (signed y =? 0) eqn:E; [reflexivity|].
  pose proof (signed_range x). pose proof (signed_range y).
  assert (- H64 <= Z.quot (signed x) (signed y) < H64).
  { assert (Z.abs (Z.quot (signed x) (signed y)) <= Z.abs (signed x)); [|lia].
    rewrite <- Z.quot_abs by lia.
    apply Z.quot_le_upper_bound; [lia|]. nia. }
  rewrite fits_s64_true by lia. cbn -[Z.quot]. rewrite Val_long_any. reflexivity.
Qed.

Lemma mods_code x y : u63 x -> u63 y ->
  prim_int63_mods (word_of_int x) (word_of_int y) = Ok (word_of_int (spec_mod x y)).
Proof.
  intros. unfold prim_int63_mods, spec_mod, rem_u. rewrite Long_val_word, !Unsigned_long_val_word by assumption.
  replace (signed y =? 0) with (y =? 0).
  2: { unfold u63, signed in *. destruct (y <? hB) eqn:E; lia. }
  destruct (y =? 0) eqn:E; [reflexivity|]. cbn.
  rewrite Val_long_u63; [reflexivity|]. unfold u63 in *.
  assert (0 < y) by lia. pose proof (Z.mod_pos_bound x y). lia.
Qed.

Lemma mods_nonneg x y : x < hB -> y < hB -> u63 x -> u63 y ->
  prim_int63_mods (word_of_int x) (word_of_int y) = Ok (word_of_int (spec_mods x y)).
Proof.
  intros Hx Hy Ux Uy. rewrite mods_code by assumption. do 2 f_equal.
  unfold spec_mod, spec_mods, signed, u63 in *.
  replace (x <? hB) with true by lia. replace (y <? hB) with true by lia.
  destruct (y =? 0) eqn:E; [lia|].
  rewrite Z.rem_mod_nonneg by lia. pose proof (Z.mod_pos_bound x y). lia.
Qed.

(** What [asr] really computes: the logical shift. *)
Lemma asr_code x y : u63 x -> u63 y ->
  prim_int63_asr (word_of_int x) (word_of_int y) = Ok (word_of_int (spec_lsr x y)).
Proof.
  intros. rewrite <- lsr_ok by assumption. unfold prim_int63_asr, prim_int63_lsr, shr_s, shr_u.
  rewrite !Unsigned_long_val_word by assumption. unfold u63 in *.
  rewrite s64_fits by lia. reflexivity.
Qed.

Lemma asr_exact x y : u63 x -> u63 y ->
  (prim_int63_asr (word_of_int x) (word_of_int y) = Ok (word_of_int (spec_asr x y))
   <-> (x < hB \/ y = 0 \/ hB <= y)).
Proof.
  intros Hx Hy. rewrite asr_code by assumption.
  unfold spec_asr, spec_lsr.
  assert (E0 : (Ok (word_of_int (x / 2 ^ y)) = Ok (word_of_int ((signed x / 2 ^ signed y) mod wB)))
           <-> x / 2 ^ y = (signed x / 2 ^ signed y) mod wB).
  { split; [intros H; injection H; unfold word_of_int; lia | intros ->; reflexivity]. }
  rewrite E0. clear E0. unfold u63 in *.
  assert (Hxy : 0 <= x / 2 ^ y < wB).
  { assert (0 < 2 ^ y) by (apply Z.pow_pos_nonneg; lia).
    split; [apply Z.div_pos; lia|].
    apply Z.le_lt_trans with x; [apply Z.div_le_upper_bound; nia|lia]. }
  destruct (Z_lt_le_dec y hB) as [Hyl|Hyl].
  2: { split; [auto|intros _]. replace (signed y) with (y - wB) by (unfold signed; destruct (y <? hB) eqn:E; lia).
       rewrite (Z.pow_neg_r 2 (y - wB)) by lia. rewrite Zdiv_0_r.
       assert (wB <= 2 ^ y) by (change wB with (2 ^ 63); apply Z.pow_le_mono_r; lia).
       rewrite Z.div_small by lia. reflexivity. }
  replace (signed y) with y by (unfold signed; destruct (y <? hB) eqn:E; lia).
  destruct (Z_lt_le_dec x hB) as [Hxl|Hxl].
  { replace (signed x) with x by (unfold signed; destruct (x <? hB) eqn:E; lia).
    rewrite (Z.mod_small (x / 2 ^ y)) by lia. tauto. }
  replace (signed x) with (x - wB) by (unfold signed; destruct (x <? hB) eqn:E; lia).
  destruct (Z.eq_dec y 0) as [->|Hy0].
  { change (2 ^ 0) with 1. rewrite !Z.div_1_r. split; [auto|lia]. }
  split; [|lia]. intros H. exfalso.
  destruct (Z_lt_le_dec y 64) as [Hs|Hs].
  - assert (E : (x - wB) / 2 ^ y = x / 2 ^ y - 2 ^ (63 - y) \/ y = 63).
    { destruct (Z.eq_dec y 63); [auto|left].
      replace (x - wB) with (x + (- 2 ^ (63 - y)) * 2 ^ y).
      2: { rewrite Z.mul_opp_l, <- Z.pow_add_r by lia. replace (63 - y + y) with 63 by lia.
           change (2 ^ 63) with wB. lia. }
      rewrite Z.div_add; [lia|]. apply Z.pow_nonzero; lia. }
    destruct E as [E| ->].
    + rewrite E in H.
      assert (2 ^ 1 <= 2 ^ (63 - y) <= 2 ^ 62).
      { assert (y <> 63). { intros ->. change (2 ^ 63) with wB in E. change (2 ^ (63 - 63)) with 1 in E.
          change (2^63) with wB in H. change (2 ^ (63 - 63)) with 1 in H.
          rewrite (Z.div_small x) in H by lia. lia. }
        split; apply Z.pow_le_mono_r; lia. }
      change (2 ^ 1) with 2 in *. change (2 ^ 62) with hB in *. lia.
    + change (2 ^ 63) with wB in *. lia.
  - assert (2 * wB <= 2 ^ y) by (change (2 * wB) with (2 ^ 64); apply Z.pow_le_mono_r; lia).
    rewrite (Z.div_small x) in H by lia.
    assert (E : (x - wB) / 2 ^ y = -1).
    { symmetry. apply (Z.div_unique_pos (x - wB) (2 ^ y) (-1) (x - wB + 2 ^ y)); lia. }
    rewrite E in H. lia.
Qed.

(** ** Bit counting *)

Lemma land_shift_mask x n k : 0 <= n -> 0 <= k ->
  Z.land x ((2 ^ n - 1) * 2 ^ k) = (x / 2 ^ k mod 2 ^ n) * 2 ^ k.
Proof.
  intros. rewrite <- !Z.shiftl_mul_pow2, <- Z.shiftr_div_pow2 by assumption.
  rewrite <- land_mask by assumption.
  apply Z.bits_inj'. intros i Hi.
  rewrite Z.land_spec, !Z.shiftl_spec by assumption.
  rewrite Z.land_spec.
  destruct (Z_lt_le_dec (i - k) 0) as [L|L].
  - rewrite !(Z.testbit_neg_r _ (i - k)) by assumption. rewrite !andb_false_r. reflexivity.
  - rewrite Z.shiftr_spec by assumption. replace (i - k + k) with i by lia. reflexivity.
Qed.

Lemma pow_pos n : 0 <= n -> 0 < 2 ^ n.
Proof. intros. apply Z.pow_pos_nonneg; lia. Qed.

(** The mask of a [head0] step tests whether the top [sh] of 32 bits are zero. *)
Lemma head0_mask x sh : 0 <= x < 4294967296 -> 0 < sh < 32 ->
  (Z.land x ((2 ^ sh - 1) * 2 ^ (32 - sh)) =? 0) = (x <? 2 ^ (32 - sh)).
Proof.
  intros Hx Hs. rewrite land_shift_mask by lia.
  pose proof (pow_pos (32 - sh)). pose proof (pow_pos sh).
  assert (E : 2 ^ (32 - sh) * 2 ^ sh = 4294967296).
  { rewrite <- Z.pow_add_r by lia. replace (32 - sh + sh) with 32 by lia. reflexivity. }
  rewrite Z.mod_small.
  2: { split; [apply Z.div_pos; lia|]. apply Z.div_lt_upper_bound; lia. }
  destruct (Z.ltb_spec x (2 ^ (32 - sh))).
  - rewrite Z.div_small by lia. reflexivity.
  - apply Z.eqb_neq. assert (1 <= x / 2 ^ (32 - sh)) by (apply Z.div_le_lower_bound; lia). nia.
Qed.

Lemma head0_step_spec mask sh x r :
  mask = (2 ^ sh - 1) * 2 ^ (32 - sh) -> 0 < sh < 32 ->
  0 <= x < 4294967296 -> 0 <= r <= 1000 ->
  exists d, head0_step mask sh (x, r) = Ok (x * 2 ^ d, r + d) /\ 0 <= d <= sh /\
    0 <= x * 2 ^ d < 4294967296 /\
    (x = 0 -> d = sh) /\
    (forall k, 0 <= k -> k + 2 * sh = 32 -> 2 ^ k <= x -> 2 ^ (32 - sh) <= x * 2 ^ d).
Proof.
  intros -> Hs Hx Hr. unfold head0_step. rewrite head0_mask by assumption.
  pose proof (pow_pos (32 - sh)). pose proof (pow_pos sh).
  assert (E : 2 ^ (32 - sh) * 2 ^ sh = 4294967296).
  { rewrite <- Z.pow_add_r by lia. replace (32 - sh + sh) with 32 by lia. reflexivity. }
  destruct (Z.ltb_spec x (2 ^ (32 - sh))).
  - exists sh. assert (0 <= x * 2 ^ sh < 4294967296) by nia.
    unfold shl_u. replace ((0 <=? sh) && (sh <? 64)) with true by (symmetry; apply andb_true_intro; split; lia).
    cbn [cbind]. rewrite (u64_small (x * _)) by lia. rewrite (u64_small (r + sh)) by lia.
    unfold maxuint63. change 9223372036854775807 with (2 ^ 63 - 1). rewrite land_mask by lia.
    change (2 ^ 63) with wB. rewrite Z.mod_small by lia.
    repeat split; auto; try lia.
    intros k Hk Hkk Hle. replace (32 - sh) with (k + sh) by lia. rewrite Z.pow_add_r by lia. nia.
  - exists 0. rewrite Z.mul_1_r, Z.add_0_r. repeat split; auto; try lia.
Qed.

Ltac Zify.zify_post_hook ::= idtac.

(** The last five tests count the leading zeroes of a 32-bit number. *)
Lemma clz32 x1 r1 : 0 <= x1 < 4294967296 -> 0 <= r1 <= 31 ->
  exists d,
  (p <- head0_step 4294901760 16 (x1, r1) ;;
   p <- head0_step 4278190080 8 p ;;
   p <- head0_step 4026531840 4 p ;;
   p <- head0_step 3221225472 2 p ;;
   '(x, r) <- head0_step 2147483648 1 p ;;
   Ok (Val_long (if Z.land x 2147483648 =? 0 then u64 (r + 1) else r)))%c = Ok (Val_long (r1 + d)) /\
  ((x1 = 0 /\ d = 32) \/ (0 <= d <= 31 /\ 2147483648 <= x1 * 2 ^ d < 4294967296)).
Proof.
  intros Hx1 Hr1.
  destruct (head0_step_spec 4294901760 16 x1 r1 eq_refl) as (d1 & -> & Hd1 & B1 & Z1 & L1); try lia. cbn [cbind].
  specialize (L1 0 ltac:(lia) eq_refl). set (x2 := x1 * 2 ^ d1) in *.
  destruct (head0_step_spec 4278190080 8 x2 (r1 + d1) eq_refl) as (d2 & -> & Hd2 & B2 & Z2 & L2); try lia. cbn [cbind].
  specialize (L2 16 ltac:(lia) eq_refl). set (x3 := x2 * 2 ^ d2) in *.
  destruct (head0_step_spec 4026531840 4 x3 (r1 + d1 + d2) eq_refl) as (d3 & -> & Hd3 & B3 & Z3 & L3); try lia. cbn [cbind].
  specialize (L3 24 ltac:(lia) eq_refl). set (x4 := x3 * 2 ^ d3) in *.
  destruct (head0_step_spec 3221225472 2 x4 (r1 + d1 + d2 + d3) eq_refl) as (d4 & -> & Hd4 & B4 & Z4 & L4); try lia. cbn [cbind].
  specialize (L4 28 ltac:(lia) eq_refl). set (x5 := x4 * 2 ^ d4) in *.
  destruct (head0_step_spec 2147483648 1 x5 (r1 + d1 + d2 + d3 + d4) eq_refl) as (d5 & -> & Hd5 & B5 & Z5 & L5); try lia. cbn [cbind].
  specialize (L5 30 ltac:(lia) eq_refl). set (x6 := x5 * 2 ^ d5) in *.
  assert (Hmask : (Z.land x6 2147483648 =? 0) = (x6 <? 2147483648)).
  { apply (head0_mask x6 1); lia. }
  rewrite Hmask. clear Hmask.
  destruct (Z.eq_dec x1 0) as [H0|Hnz].
  - assert (E2 : x2 = 0) by (unfold x2; rewrite H0; reflexivity).
    assert (E3 : x3 = 0) by (unfold x3; rewrite E2; reflexivity).
    assert (E4 : x4 = 0) by (unfold x4; rewrite E3; reflexivity).
    assert (E5 : x5 = 0) by (unfold x5; rewrite E4; reflexivity).
    assert (E6 : x6 = 0) by (unfold x6; rewrite E5; reflexivity).
    rewrite E6. replace (0 <? 2147483648) with true by reflexivity.
    rewrite Z1, Z2, Z3, Z4, Z5 by assumption.
    exists 32. rewrite u64_small by lia. split; [do 2 f_equal; lia|auto].
  - change (2 ^ (32 - 16)) with (2 ^ 16) in L1. change (2 ^ (32 - 8)) with (2 ^ 24) in L2.
    change (2 ^ (32 - 4)) with (2 ^ 28) in L3. change (2 ^ (32 - 2)) with (2 ^ 30) in L4.
    change (2 ^ (32 - 1)) with 2147483648 in L5.
    assert (X5 : 2147483648 <= x6).
    { apply L5, L4, L3, L2, L1. change (2 ^ 0) with 1. lia. }
    replace (x6 <? 2147483648) with false by (symmetry; apply Z.ltb_ge; assumption).
    exists (d1 + d2 + d3 + d4 + d5). split; [do 2 f_equal; lia|]. right. split; [clear - Hd1 Hd2 Hd3 Hd4 Hd5; lia|].
    replace (x1 * 2 ^ (d1 + d2 + d3 + d4 + d5)) with x6; [lia|].
    unfold x6, x5, x4, x3, x2. rewrite !Z.pow_add_r by (clear - Hd1 Hd2 Hd3 Hd4 Hd5; lia). ring.
Qed.

Ltac Zify.zify_post_hook ::= Z.div_mod_to_equations.

Lemma head0_exists x : u63 x -> exists r, prim_int63_head0 (word_of_int x) = Ok (word_of_int r) /\ u63 r /\ is_head0 x r.
Proof.
  intros Hx. unfold prim_int63_head0. rewrite Unsigned_long_val_word by assumption. unfold u63 in Hx.
  change 9223372032559808512 with ((2 ^ 31 - 1) * 2 ^ 32). rewrite land_shift_mask by lia.
  change (2 ^ 32) with 4294967296. change (2 ^ 31) with 2147483648.
  assert (Hfirst : exists x1 r1,
    (if x / 4294967296 mod 2147483648 * 4294967296 =? 0 then Ok (x, 31) else x' <- shr_u x 31 ;; Ok (x', 0))%c = Ok (x1, r1)
    /\ 0 <= x1 < 4294967296 /\ 0 <= r1 <= 31 /\
    ((x < 4294967296 /\ x1 = x /\ r1 = 31) \/ (4294967296 <= x /\ x1 = x / 2147483648 /\ r1 = 0))).
  { destruct (x / 4294967296 mod 2147483648 * 4294967296 =? 0) eqn:E.
    - exists x, 31. repeat split; lia.
    - exists (x / 2147483648), 0. cbn -[Z.div]. repeat split; lia. }
  destruct Hfirst as (x1 & r1 & -> & Hx1 & Hr1 & Hcase). cbn [cbind].
  destruct (clz32 x1 r1 Hx1 Hr1) as (d & -> & Hd).
  exists (r1 + d).
  assert (Hd' : 0 <= d <= 32) by (clear - Hd; lia).
  split; [rewrite Val_long_u63 by (unfold u63; clear - Hd' Hr1; lia); reflexivity|].
  split; [unfold u63; clear - Hd' Hr1; lia|].
  destruct Hd as [[Hz ->]|[Hd Hb]].
  - left. destruct Hcase as [(Hs & -> & ->)|(Hs & -> & ->)]; [lia|exfalso; lia].
  - right. split; [lia|].
    pose proof (pow_pos d ltac:(lia)) as Hp.
    destruct Hcase as [(Hs & -> & ->)|(Hs & -> & ->)].
    + replace (x * 2 ^ (31 + d)) with (x * 2 ^ d * 2147483648); [lia|].
      rewrite Z.pow_add_r by lia. change (2 ^ 31) with 2147483648. ring.
    + rewrite Z.add_0_l.
      assert (E32 : 4294967296 = 2 ^ (32 - d) * 2 ^ d).
      { rewrite <- Z.pow_add_r by lia. replace (32 - d + d) with 32 by lia. reflexivity. }
      set (h := x / 2147483648) in *.
      assert (Hh : h * 2147483648 <= x < (h + 1) * 2147483648) by (unfold h; lia).
      assert (h < 2 ^ (32 - d)) by (clear - E32 Hb Hp; nia).
      clear Hx1 Hr1 Hs Hd Hd'. clearbody h.
      assert ((h + 1) * 2 ^ d <= 4294967296) by (rewrite E32; nia).
      nia.
Qed.

(** ** Trailing zeroes *)

Lemma tail0_step_spec mask sh x r :
  mask = 2 ^ sh - 1 -> 0 < sh <= 32 -> 0 <= x -> 0 <= r <= 1000 ->
  exists d y, tail0_step mask sh (x, r) = Ok (y, r + d) /\ 0 <= y /\ 0 <= d <= sh /\ x = y * 2 ^ d /\
    (x = 0 -> d = sh) /\
    (forall m, 0 <= m -> x mod 2 ^ (sh + m) <> 0 -> m <= sh -> y mod 2 ^ sh <> 0).
Proof.
  intros -> Hs Hx Hr. unfold tail0_step. rewrite land_mask by lia.
  pose proof (pow_pos sh ltac:(lia)) as Hp.
  destruct (x mod 2 ^ sh =? 0) eqn:E.
  - exists sh, (x / 2 ^ sh). unfold shr_u.
    replace ((0 <=? sh) && (sh <? 64)) with true by (symmetry; apply andb_true_intro; split; lia).
    cbn [cbind]. rewrite u64_small by lia.
    apply Z.eqb_eq in E.
    assert (Ex : x = x / 2 ^ sh * 2 ^ sh) by (pose proof (Z.div_mod x (2 ^ sh)); lia).
    repeat split; try lia.
    intros m Hm Hne Hle Heq. apply Hne.
    rewrite Z.pow_add_r by lia. rewrite Z.rem_mul_r by (try apply Z.pow_nonzero; try apply pow_pos; lia).
    rewrite E. 
    assert (Hd : (2 ^ m | x / 2 ^ sh)).
    { apply Z.divide_trans with (2 ^ sh).
      - exists (2 ^ (sh - m)). rewrite <- Z.pow_add_r by lia. f_equal. lia.
      - apply Z.mod_divide; [lia|assumption]. }
    apply Z.mod_divide in Hd; [|apply Z.pow_nonzero; lia]. rewrite Hd. lia.
  - exists 0, x. change (2 ^ 0) with 1. rewrite Z.mul_1_r, Z.add_0_r. apply Z.eqb_neq in E.
    repeat split; auto; try lia.
    + intros ->. rewrite Z.mod_0_l in E by lia. lia.
Qed.

Ltac Zify.zify_post_hook ::= idtac.
Ltac dlia := Z.div_mod_to_equations; lia.

Lemma tail0_exists x : u63 x -> exists r, prim_int63_tail0 (word_of_int x) = Ok (word_of_int r) /\ u63 r /\ is_tail0 x r.
Proof.
  intros Hx. unfold prim_int63_tail0. rewrite Unsigned_long_val_word by assumption. unfold u63 in Hx.
  destruct (tail0_step_spec 4294967295 32 x 0 eq_refl) as (d1 & y1 & -> & P1 & D1 & E1 & Z1 & N1); try lia. cbn [cbind].
  destruct (tail0_step_spec 65535 16 y1 (0 + d1) eq_refl) as (d2 & y2 & -> & P2 & D2 & E2 & Z2 & N2); try lia. cbn [cbind].
  destruct (tail0_step_spec 255 8 y2 (0 + d1 + d2) eq_refl) as (d3 & y3 & -> & P3 & D3 & E3 & Z3 & N3); try lia. cbn [cbind].
  destruct (tail0_step_spec 15 4 y3 (0 + d1 + d2 + d3) eq_refl) as (d4 & y4 & -> & P4 & D4 & E4 & Z4 & N4); try lia. cbn [cbind].
  destruct (tail0_step_spec 3 2 y4 (0 + d1 + d2 + d3 + d4) eq_refl) as (d5 & y5 & -> & P5 & D5 & E5 & Z5 & N5); try lia. cbn [cbind].
  assert (Hl : Z.land y5 1 = y5 mod 2) by (apply (land_mask y5 1); lia).
  rewrite Hl. clear Hl.
  assert (Ex : x = y5 * 2 ^ (d1 + d2 + d3 + d4 + d5)).
  { rewrite E1, E2, E3, E4, E5. rewrite !Z.pow_add_r by (clear - D1 D2 D3 D4 D5; lia). ring. }
  destruct (Z.eq_dec x 0) as [H0|Hnz].
  - assert (Y1 : y1 = 0). { pose proof (pow_pos d1 ltac:(lia)). clear - H0 E1 H. rewrite H0 in E1. nia. }
    assert (Y2 : y2 = 0). { pose proof (pow_pos d2 ltac:(lia)). clear - Y1 E2 H. rewrite Y1 in E2. nia. }
    assert (Y3 : y3 = 0). { pose proof (pow_pos d3 ltac:(lia)). clear - Y2 E3 H. rewrite Y2 in E3. nia. }
    assert (Y4 : y4 = 0). { pose proof (pow_pos d4 ltac:(lia)). clear - Y3 E4 H. rewrite Y3 in E4. nia. }
    assert (Y5 : y5 = 0). { pose proof (pow_pos d5 ltac:(lia)). clear - Y4 E5 H. rewrite Y4 in E5. nia. }
    rewrite Y5. rewrite Z1, Z2, Z3, Z4, Z5 by assumption. exists 63.
    split; [reflexivity|]. split; [unfold u63; lia|]. left; auto.
  - assert (M5 : y5 mod 4 <> 0).
    { apply (N5 2); [lia| |lia]. apply (N4 4); [lia| |lia]. apply (N3 8); [lia| |lia].
      apply (N2 16); [lia| |lia]. apply (N1 32); [lia| |lia].
      change (2 ^ (32 + 32)) with W64. rewrite Z.mod_small; lia. }
    set (d := d1 + d2 + d3 + d4 + d5) in *.
    assert (Hd : 0 <= d <= 62) by (unfold d; clear - D1 D2 D3 D4 D5; lia).
    replace (0 + d1 + d2 + d3 + d4 + d5) with d by (unfold d; clear; lia).
    clearbody d. clear - M5 Hd Ex Hx Hnz.
    destruct (Z.eqb_spec (y5 mod 2) 0) as [Hev|Hodd].
    + exists (d + 1). rewrite u64_small by lia. rewrite Val_long_u63 by (unfold u63; lia).
      split; [reflexivity|]. split; [unfold u63; lia|]. right. split; [lia|].
      exists (y5 / 4). rewrite Z.pow_add_r by lia. change (2 ^ 1) with 2.
      assert (Ey : y5 = (2 * (y5 / 4) + 1) * 2) by (clear - M5 Hev; dlia). rewrite Ex. rewrite Ey at 1. ring.
    + exists d. rewrite Val_long_u63 by (unfold u63; lia).
      split; [reflexivity|]. split; [unfold u63; lia|]. right. split; [lia|].
      exists (y5 / 2). replace (2 * (y5 / 2) + 1) with y5 by (clear - Hodd; dlia). exact Ex.
Qed.

(** ** addmuldiv *)

Lemma lor_add a b n : 0 <= n -> 0 <= b < 2 ^ n -> (2 ^ n | a) -> Z.lor a b = a + b.
Proof.
  intros Hn Hb [k ->]. rewrite <- Z.lxor_lor.
  - symmetry. apply Z.add_nocarry_lxor.
    rewrite Z.land_comm. apply Z.bits_inj'. intros i Hi. rewrite Z.land_spec, Z.bits_0.
    destruct (Z_lt_le_dec i n).
    + rewrite Z.mul_pow2_bits_low by lia. apply andb_false_r.
    + replace (Z.testbit b i) with false; [reflexivity|].
      symmetry. destruct (Z.eq_dec b 0) as [->|]; [apply Z.bits_0|].
      apply Z.bits_above_log2; [lia|]. apply Z.log2_lt_pow2; [lia|].
      apply Z.lt_le_trans with (2 ^ n); [lia|]. apply Z.pow_le_mono_r; lia.
  - apply Z.bits_inj'. intros i Hi. rewrite Z.land_spec, Z.bits_0.
    destruct (Z_lt_le_dec i n).
    + rewrite Z.mul_pow2_bits_low by lia. reflexivity.
    + replace (Z.testbit b i) with false; [apply andb_false_r|].
      symmetry. destruct (Z.eq_dec b 0) as [->|]; [apply Z.bits_0|].
      apply Z.bits_above_log2; [lia|]. apply Z.log2_lt_pow2; [lia|].
      apply Z.lt_le_trans with (2 ^ n); [lia|]. apply Z.pow_le_mono_r; lia.
Qed.

Lemma addmuldiv_ok p x y : u63 p -> u63 x -> u63 y ->
  prim_int63_addmuldiv (word_of_int p) (word_of_int x) (word_of_int y)
  = Ok (word_of_int (if p <=? 63 then spec_addmuldiv p x y else 0)).
Proof.
  intros Hp Hx Hy. unfold prim_int63_addmuldiv, shl_u, shr_u. rewrite !Unsigned_long_val_word by assumption.
  unfold u63 in *.
  destruct (Z.leb_spec p 63) as [Hle|Hgt].
  2: { replace (63 <? p) with true by (symmetry; apply Z.ltb_lt; assumption). reflexivity. }
  replace (63 <? p) with false by (symmetry; apply Z.ltb_ge; assumption).
  replace ((0 <=? p) && (p <? 64)) with true by (symmetry; apply andb_true_intro; split; lia).
  cbn [cbind]. rewrite (u64_small (63 - p)) by lia.
  replace ((0 <=? 63 - p) && (63 - p <? 64)) with true by (symmetry; apply andb_true_intro; split; lia).
  cbn [cbind]. unfold maxuint63. change 9223372036854775807 with (2 ^ 63 - 1). rewrite land_mask by lia.
  change (2 ^ 63) with wB. unfold u64. rewrite mod_W64_wB.
  assert (Ew : wB = 2 ^ (63 - p) * 2 ^ p).
  { rewrite <- Z.pow_add_r by lia. replace (63 - p + p) with 63 by lia. reflexivity. }
  pose proof (pow_pos p ltac:(lia)) as Hpp. pose proof (pow_pos (63 - p) ltac:(lia)) as Hqq.
  assert (Hyd : 0 <= y / 2 ^ (63 - p) < 2 ^ p).
  { split; [apply Z.div_pos; lia|]. apply Z.div_lt_upper_bound; lia. }
  assert (Ex : (x * 2 ^ p) mod wB = (x mod 2 ^ (63 - p)) * 2 ^ p).
  { rewrite Ew. rewrite Z.mul_mod_distr_r by lia. reflexivity. }
  rewrite (lor_add _ _ p); [|lia|assumption|rewrite Ex; exists (x mod 2 ^ (63 - p)); reflexivity].
  unfold spec_addmuldiv. rewrite Val_long_any. do 2 f_equal.
  rewrite Zplus_mod_idemp_l. reflexivity.
Qed.
