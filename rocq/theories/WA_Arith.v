(** * Arithmetic facts behind the primitive operations *)
From Coq Require Import ZArith NArith List Lia Bool.
Import ListNotations.
From Verif Require Import RT_Int63Spec RT_Int63Proofs WA_Wasm WA_Model.
Local Open Scope Z_scope.
Ltac Zify.zify_post_hook ::= idtac.

Notation W := 18446744073709551616 (only parsing).

Lemma land_mask z : Z.land (z mod W) maxuint63 = z mod wB.
Proof.
  unfold maxuint63. change 9223372036854775807 with (Z.ones 63). rewrite Z.land_ones by lia.
  change (2 ^ 63) with wB. apply mod_W64_wB.
Qed.

Lemma land_mask' z : 0 <= z < W -> Z.land z maxuint63 = z mod wB.
Proof. intro H. rewrite <- (Z.mod_small z W H) at 1. apply land_mask. Qed.

Lemma low32_mod z : Z.land z 4294967295 = z mod 4294967296.
Proof. change 4294967295 with (Z.ones 32). rewrite Z.land_ones by lia. reflexivity. Qed.
Lemma high32_div z : Z.shiftr z 32 = z / 4294967296.
Proof. rewrite Z.shiftr_div_pow2 by lia. reflexivity. Qed.

Lemma shl_mask x y : 0 <= x -> 0 <= y -> y < 63 -> Z.land (Z.shiftl x (y mod 64) mod W) maxuint63 = spec_lsl x y.
Proof. intros Hx H0 H1. rewrite (Z.mod_small y 64) by lia. rewrite Z.shiftl_mul_pow2 by lia. apply land_mask. Qed.
Lemma lsl_big x y : 63 <= y -> spec_lsl x y = 0.
Proof. intro H. unfold spec_lsl. rewrite pow2_split by lia. rewrite Z.mul_assoc. apply Z.mod_mul. lia. Qed.
Lemma shr_small x y : 0 <= y -> y < 63 -> Z.shiftr x (y mod 64) = spec_lsr x y.
Proof. intros H0 H1. rewrite (Z.mod_small y 64) by lia. rewrite Z.shiftr_div_pow2 by lia. reflexivity. Qed.
Lemma lsr_big x y : u63 x -> 63 <= y -> spec_lsr x y = 0.
Proof.
  intros Hx H. unfold spec_lsr. apply Z.div_small. unfold u63 in Hx. split; [lia|].
  apply Z.lt_le_trans with wB; [lia|]. change wB with (2 ^ 63). apply Z.pow_le_mono_r; lia.
Qed.

(** ** Leading and trailing zeroes *)

Lemma pow_log x : 0 < x -> 2 ^ Z.log2 x <= x < 2 * 2 ^ Z.log2 x.
Proof. intro H. destruct (Z.log2_spec x H) as [H1 H2]. rewrite Z.pow_succ_r in H2 by apply Z.log2_nonneg. lia. Qed.

Lemma head0_val x r : u63 x -> is_head0 x r -> wun_eval T64 Wclz x - 1 = r.
Proof.
  intros Hx H. cbn [wun_eval width]. destruct (Z.eqb_spec x 0) as [->|N].
  - destruct H as [[_ ->]|[H1 H2]]; lia.
  - destruct H as [[-> _]|[H1 H2]]; [contradiction|].
    assert (L : Z.log2 (x * 2 ^ r) = 62).
    { apply Z.log2_unique; [lia|]. change (2 ^ 62) with hB. change (2 ^ Z.succ 62) with wB. exact H2. }
    unfold u63 in Hx. rewrite Z.log2_mul_pow2 in L by lia. lia.
Qed.

Lemma head0_range x r : u63 x -> is_head0 x r -> 0 <= r <= 63.
Proof.
  intros Hx [[_ ->]|[H1 H2]]; [lia|]. split; [exact H1|]. unfold u63 in Hx.
  destruct (Z_le_gt_dec r 63) as [|G]; [assumption|]. exfalso.
  assert (2 ^ 63 <= 2 ^ r) by (apply Z.pow_le_mono_r; lia). change (2 ^ 63) with wB in *.
  assert (N : x <> 0) by (intros ->; lia).
  assert (1 * 2 ^ r <= x * 2 ^ r) by (apply Z.mul_le_mono_nonneg_r; lia). lia.
Qed.

Lemma ctz_odd n z : Z.odd z = true -> ctz_from (S n) z = 0.
Proof. intro H. cbn [ctz_from]. rewrite H. reflexivity. Qed.

Lemma ctz_pow k : forall r n, (Z.to_nat r < n)%nat -> 0 <= r -> ctz_from n ((2 * k + 1) * 2 ^ r) = r.
Proof.
  intros r n H Hr. revert n H. pattern r. apply natlike_ind; [| |exact Hr]; clear r Hr.
  - intros n H. destruct n as [|n]; [lia|]. rewrite Z.pow_0_r, Z.mul_1_r. apply ctz_odd.
    rewrite Z.odd_add_mul_2 || (rewrite Z.odd_spec; exists k; reflexivity).
  - intros r Hr IH n H. destruct n as [|n]; [lia|]. cbn [ctz_from].
    rewrite Z.pow_succ_r by exact Hr. replace ((2 * k + 1) * (2 * 2 ^ r)) with (2 * ((2 * k + 1) * 2 ^ r)) by ring.
    rewrite Z.odd_mul. cbn [Z.odd andb]. rewrite Z.mul_comm, Z.div_mul by lia. rewrite IH by lia. lia.
Qed.

Lemma tail0_range x r : u63 x -> is_tail0 x r -> 0 <= r <= 63.
Proof.
  intros Hx [[_ ->]|[H1 [k E]]]; [lia|]. split; [exact H1|]. unfold u63 in Hx.
  destruct (Z_le_gt_dec r 63) as [|G]; [assumption|]. exfalso.
  assert (2 ^ 63 <= 2 ^ r) by (apply Z.pow_le_mono_r; lia). change (2 ^ 63) with wB in *.
  assert (P : 0 < 2 ^ r) by lia.
  assert (1 <= 2 * k + 1 \/ 2 * k + 1 <= -1) as [K|K] by lia.
  - assert (1 * 2 ^ r <= (2 * k + 1) * 2 ^ r) by (apply Z.mul_le_mono_nonneg_r; lia). lia.
  - assert ((2 * k + 1) * 2 ^ r <= -1 * 2 ^ r) by (apply Z.mul_le_mono_nonneg_r; lia). lia.
Qed.

Lemma tail0_val x r : u63 x -> is_tail0 x r -> (if x =? 0 then 63 else wun_eval T64 Wctz x) = r.
Proof.
  intros Hx H. pose proof (tail0_range x r Hx H) as Hr. cbn [wun_eval width]. destruct (Z.eqb_spec x 0) as [->|N].
  - destruct H as [[_ ->]|[H1 [k E]]]; [reflexivity|]. exfalso. assert (0 < 2 ^ r) by (apply Z.pow_pos_nonneg; lia).
    symmetry in E. apply Z.mul_eq_0 in E. lia.
  - destruct H as [[-> _]|[H1 [k E]]]; [contradiction|]. rewrite E. apply ctz_pow; [|exact H1].
    change (Z.to_nat 64) with 64%nat. lia.
Qed.

(** ** addmuldiv *)

Lemma addmuldiv_val p x y : 0 <= p <= 63 -> u63 x -> u63 y ->
  Z.land (Z.lor (Z.shiftl x (p mod 64) mod W) (Z.shiftr y ((63 - p) mod W mod 64))) maxuint63 = spec_addmuldiv p x y.
Proof.
  intros Hp Hx Hy. unfold u63 in *. rewrite (Z.mod_small p 64) by lia.
  rewrite (Z.mod_small (63 - p) W) by lia. rewrite (Z.mod_small (63 - p) 64) by lia.
  rewrite Z.shiftl_mul_pow2, Z.shiftr_div_pow2 by lia.
  assert (Ew : W = 2 ^ (64 - p) * 2 ^ p).
  { rewrite <- Z.pow_add_r by lia. replace (64 - p + p) with 64 by lia. reflexivity. }
  assert (Ew' : wB = 2 ^ (63 - p) * 2 ^ p).
  { rewrite <- Z.pow_add_r by lia. replace (63 - p + p) with 63 by lia. reflexivity. }
  pose proof (pow_pos p ltac:(lia)) as Hpp. pose proof (pow_pos (63 - p) ltac:(lia)) as Hqq. pose proof (pow_pos (64 - p) ltac:(lia)).
  assert (Hyd : 0 <= y / 2 ^ (63 - p) < 2 ^ p).
  { split; [apply Z.div_pos; lia|]. apply Z.div_lt_upper_bound; lia. }
  assert (Ex : (x * 2 ^ p) mod W = (x mod 2 ^ (64 - p)) * 2 ^ p).
  { rewrite Ew. rewrite Z.mul_mod_distr_r by lia. reflexivity. }
  rewrite (lor_add _ _ p); [|lia|assumption|rewrite Ex; exists (x mod 2 ^ (64 - p)); reflexivity].
  unfold spec_addmuldiv. unfold maxuint63. change 9223372036854775807 with (Z.ones 63). rewrite Z.land_ones by lia.
  change (2 ^ 63) with wB. rewrite <- Zplus_mod_idemp_l. rewrite mod_W64_wB. rewrite Zplus_mod_idemp_l. reflexivity.
Qed.

Lemma addmuldiv_big p x y : 63 < p -> spec_addmuldiv p x y = 0.
Proof.
  intro H. unfold spec_addmuldiv. rewrite (Z.pow_neg_r 2 (63 - p)) by lia. rewrite Zdiv_0_r, Z.add_0_r.
  rewrite pow2_split by lia. rewrite Z.mul_assoc. apply Z.mod_mul. lia.
Qed.

(** ** Double-width multiplication *)

Lemma mulc_val x y : u63 x -> u63 y ->
  let B := 4294967296 in
  let t1 := (x mod B) * (y mod B) in
  let t2 := (x / B) * (y mod B) in
  let t3 := (x mod B) * (y / B) in
  let t4 := (x / B) * (y / B) in
  let u3 := t1 / B + t2 mod B + t3 in
  let u2 := t2 / B + u3 / B + t4 in
  let u1 := (u3 mod B) * B + t1 mod B in
  (0 <= t1 < W /\ 0 <= t2 < W /\ 0 <= t3 < W /\ 0 <= t4 < W /\ 0 <= t1 / B + t2 mod B < W /\ 0 <= u3 < W /\
   0 <= t2 / B + u3 / B < W /\ 0 <= u2 < hB /\ 0 <= u1 < W) /\
  2 * u2 + u1 / wB = (x * y) / wB /\ u1 mod wB = (x * y) mod wB.
Proof.
  intros Hx Hy B t1 t2 t3 t4 u3 u2 u1. unfold u63 in *.
  assert (X : x = B * (x / B) + x mod B /\ 0 <= x mod B < B /\ 0 <= x / B < 2147483648).
  { unfold B. pose proof (Z.div_mod x 4294967296 ltac:(lia)). pose proof (Z.mod_pos_bound x 4294967296 ltac:(lia)).
    split; [assumption|]. split; [assumption|]. split; [apply Z.div_pos; lia|apply Z.div_lt_upper_bound; lia]. }
  assert (Y : y = B * (y / B) + y mod B /\ 0 <= y mod B < B /\ 0 <= y / B < 2147483648).
  { unfold B. pose proof (Z.div_mod y 4294967296 ltac:(lia)). pose proof (Z.mod_pos_bound y 4294967296 ltac:(lia)).
    split; [assumption|]. split; [assumption|]. split; [apply Z.div_pos; lia|apply Z.div_lt_upper_bound; lia]. }
  destruct X as (Ex & Hx0 & Hx1). destruct Y as (Ey & Hy0 & Hy1).
  set (x0 := x mod B) in *. set (x1 := x / B) in *. set (y0 := y mod B) in *. set (y1 := y / B) in *.
  assert (D : forall z, z = B * (z / B) + z mod B /\ 0 <= z mod B < B).
  { intro z. unfold B. split; [apply Z.div_mod; lia|apply Z.mod_pos_bound; lia]. }
  assert (T1 : 0 <= t1 <= (B - 1) * (B - 1)) by (unfold t1, B in *; nia).
  assert (T2 : 0 <= t2 <= 2147483647 * (B - 1)) by (unfold t2, B in *; nia).
  assert (T3 : 0 <= t3 <= 2147483647 * (B - 1)) by (unfold t3, B in *; nia).
  assert (T4 : 0 <= t4 <= 2147483647 * 2147483647) by (unfold t4 in *; nia).
  assert (P : x * y = t1 + B * (t2 + t3) + B * B * t4).
  { rewrite Ex, Ey. unfold t1, t2, t3, t4. ring. }
  pose proof (D t1) as D1. pose proof (D t2) as D2. pose proof (D u3) as D3.
  assert (Hxy : 0 <= x * y <= 9223372036854775807 * 9223372036854775807) by nia.
  clearbody t1 t2 t3 t4.
  assert (P' : x * y = u2 * W + u1).
  { unfold u2, u1. fold u3. replace 18446744073709551616 with (B * B) by reflexivity. rewrite P.
    destruct D1 as [D1 _]. destruct D2 as [D2 _]. destruct D3 as [D3 _]. unfold u3 in D3 at 1. nia. }
  unfold B in *. set (q1 := t1 / 4294967296) in *. set (q2 := t2 / 4294967296) in *. set (q3 := u3 / 4294967296) in *.
  set (r1 := t1 mod 4294967296) in *. set (r2 := t2 mod 4294967296) in *. set (r3 := u3 mod 4294967296) in *.
  assert (U1 : 0 <= u1 < W) by (unfold u1; lia).
  assert (U2 : 0 <= u2 < hB) by (clear P; nia).
  split.
  { repeat split; try lia; unfold u3, u2 in *; lia. }
  rewrite P'. replace (u2 * 18446744073709551616 + u1) with (u1 + (2 * u2) * wB) by lia.
  rewrite Z.div_add, Z.mod_add by lia. split; lia.
Qed.

(** ** Division of a double-width integer, bit by bit *)

(** one round: remainder, low half (shifting out), quotient *)
Definition d21 (y : Z) (s : Z * Z * Z) : Z * Z * Z :=
  let '(xh, xl, q) := s in
  let xl' := (2 * xl) mod W in
  let h := 2 * xh + xl' / wB in
  if y <=? h then (h - y, xl', 2 * q + 1) else (h, xl', 2 * q).

Definition d21_inv (xh xl y : Z) (i : Z) (s : Z * Z * Z) : Prop :=
  let '(r, l, q) := s in
  0 <= r < y /\ l = (xl * 2 ^ i) mod W /\ 0 <= q < 2 ^ i /\ xh * 2 ^ i + xl / 2 ^ (63 - i) = q * y + r.

Lemma d21_init xh xl y : u63 xh -> u63 xl -> xh < y -> d21_inv xh xl y 0 (xh, xl, 0).
Proof.
  intros H1 H2 H3. unfold u63 in *. cbn [d21_inv]. rewrite Z.pow_0_r, !Z.mul_1_r.
  split; [lia|]. split; [symmetry; apply Z.mod_small; lia|]. split; [lia|].
  change (2 ^ (63 - 0)) with wB. rewrite Z.div_small by lia. lia.
Qed.

Lemma d21_step xh xl y i s : u63 xh -> u63 xl -> u63 y -> 0 <= i < 63 -> d21_inv xh xl y i s -> d21_inv xh xl y (i + 1) (d21 y s).
Proof.
  intros Hh Hl Hy Hi. destruct s as [[r l] q]. unfold d21_inv. intros (Hr & El & Hq & E). cbn [d21]. unfold u63 in *.
  assert (El' : (2 * l) mod W = (xl * 2 ^ (i + 1)) mod W).
  { rewrite El. rewrite Z.mul_mod_idemp_r by lia. rewrite Z.pow_add_r by lia. change (2 ^ 1) with 2. f_equal. ring. }
  rewrite El'.
  set (D := 2 ^ (62 - i)).
  assert (HD : 0 < D) by (apply Z.pow_pos_nonneg; lia).
  assert (ED : 2 ^ (63 - i) = 2 * D). { unfold D. replace (63 - i) with (Z.succ (62 - i)) by lia. apply Z.pow_succ_r. lia. }
  assert (ED' : 2 ^ (63 - (i + 1)) = D). { unfold D. f_equal. lia. }
  set (P := 2 ^ (i + 1)). assert (HP : 0 < P) by (apply Z.pow_pos_nonneg; lia).
  assert (EW : W = (2 * D) * P). { unfold P. rewrite <- ED, <- Z.pow_add_r by lia. replace (63 - i + (i + 1)) with 64 by lia. reflexivity. }
  assert (EB : wB = D * P). { unfold P, D. rewrite <- Z.pow_add_r by lia. replace (62 - i + (i + 1)) with 63 by lia. reflexivity. }
  assert (EP : P = 2 * 2 ^ i). { unfold P. rewrite Z.pow_add_r by lia. change (2 ^ 1) with 2. ring. }
  assert (Eb : ((xl * P) mod W) / wB = (xl mod (2 * D)) / D).
  { rewrite EW, EB. rewrite Z.mul_mod_distr_r by lia. apply Z.div_mul_cancel_r; lia. }
  rewrite Eb. rewrite ED' in *. rewrite ED in E.
  assert (Ed : xl / D = 2 * (xl / (2 * D)) + (xl mod (2 * D)) / D).
  { rewrite (Z.div_mod xl (2 * D)) at 1 by lia. rewrite (Z.mul_comm 2 D) at 1. rewrite <- Z.mul_assoc, Z.mul_comm.
    rewrite Z.div_add_l by lia. reflexivity. }
  assert (Hb : 0 <= (xl mod (2 * D)) / D <= 1).
  { pose proof (Z.mod_pos_bound xl (2 * D) ltac:(lia)). split; [apply Z.div_pos; lia|].
    enough ((xl mod (2 * D)) / D < 2) by lia. apply Z.div_lt_upper_bound; lia. }
  set (b := (xl mod (2 * D)) / D) in *.
  assert (En : xh * P + xl / D = 2 * (q * y + r) + b). { rewrite <- E, Ed, EP. ring. }
  destruct (Z.leb_spec y (2 * r + b)) as [L|L]; rewrite En; (split; [lia|]; split; [reflexivity|]; split; [lia|]; lia).
Qed.

Lemma d21_end xh xl y s : u63 xh -> u63 xl -> u63 y -> xh < y -> d21_inv xh xl y 63 s ->
  (snd s, fst (fst s)) = spec_diveucl_21 xh xl y.
Proof.
  intros Hh Hl Hy L. destruct s as [[r l] q]. unfold d21_inv. intros (Hr & _ & Hq & E). cbn [fst snd]. unfold u63 in *.
  change (2 ^ (63 - 63)) with 1 in E. rewrite Z.div_1_r in E. change (2 ^ 63) with wB in *. unfold spec_diveucl_21.
  rewrite E. rewrite Z.div_add_l by lia. rewrite (Z.div_small r y) by lia.
  rewrite (Z.add_comm (q * y) r), Z.mod_add by lia. rewrite Z.mod_small by lia. f_equal. lia.
Qed.

(** the instructions of one round compute [d21] *)
Lemma d21_bits xh xl y i r l q : u63 xh -> u63 xl -> u63 y -> 0 <= i < 63 -> d21_inv xh xl y i (r, l, q) ->
  0 <= l < W /\
  Z.shiftl l (1 mod 64) mod W = (2 * l) mod W /\
  Z.lor (Z.shiftl r (1 mod 64) mod W) (Z.shiftr ((2 * l) mod W) (63 mod 64)) = 2 * r + (2 * l) mod W / wB /\
  Z.shiftl q (1 mod 64) mod W = 2 * q /\ Z.lor (2 * q) 1 = 2 * q + 1 /\
  0 <= 2 * r + (2 * l) mod W / wB < W /\ 0 <= q < hB.
Proof.
  intros Hh Hl Hy Hi (Hr & El & Hq & E). unfold u63 in *. change (1 mod 64) with 1. change (63 mod 64) with 63.
  assert (Hq' : q < hB). { apply Z.lt_le_trans with (2 ^ i); [lia|]. change hB with (2 ^ 62). apply Z.pow_le_mono_r; lia. }
  rewrite !Z.shiftl_mul_pow2 by lia. change (2 ^ 1) with 2. rewrite Z.shiftr_div_pow2 by lia. change (2 ^ 63) with wB.
  pose proof (Z.mod_pos_bound (2 * l) W ltac:(lia)) as Hm.
  assert (Hb : 0 <= (2 * l) mod W / wB < 2). { split; [apply Z.div_pos; lia|]. apply Z.div_lt_upper_bound; lia. }
  split; [rewrite El; apply Z.mod_pos_bound; lia|].
  split; [f_equal; lia|]. rewrite (Z.mod_small (r * 2)) by lia. split.
  { rewrite (lor_add (r * 2) _ 1); [lia|lia|exact Hb|exists r; reflexivity]. }
  rewrite (Z.mod_small (q * 2)) by lia. split; [lia|]. split.
  { rewrite (lor_add (2 * q) 1 1); [lia|lia|change (2 ^ 1) with 2; lia|exists q; change (2 ^ 1) with 2; lia]. }
  lia.
Qed.
