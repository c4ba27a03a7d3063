(** C20: unbounded integers.  Interface: /repo/plugin/GMP.v, which refers to Zarith's z.mli for the
    meaning of the operations ([div] and [rem] truncate towards zero, [compare] returns an integer of
    the sign of the difference). *)
From Coq Require Import ZArith Lia Bool List.
From Verif Require Import RT_Word RT_Values RT_Int63Spec RT_Int63Model RT_Int63Proofs
  RT_Int63AllocProofs RT_Gmp.
Import ListNotations.
Open Scope Z_scope.
Ltac Zify.zify_post_hook ::= idtac.

(** * Specification *)

(** The integer a value stands for: a 63-bit signed immediate or any boxed number. *)
Inductive means : gmp_int -> Z -> Prop :=
| means_imm n : - hB <= n < hB -> means (Imm ((2 * n + 1) mod W64)) n
| means_big z : means (Big z) z.

(** The operation succeeds and its result stands for [z]. *)
Definition gives (m : cres gmp_int) (z : Z) : Prop := exists r, m = Ok r /\ means r z.

(** Not a negative immediate. *)
Definition nonneg_imm (x : gmp_int) (n : Z) : Prop := forall w, x = Imm w -> 0 <= n.

Definition is_imm (x : gmp_int) : Prop := exists w, x = Imm w.
Definition is_big (x : gmp_int) : Prop := exists z, x = Big z.

(** What the GMP manual says about [mpz_cmp]. *)
Definition is_cmp (f : Z -> Z -> Z) : Prop :=
  forall a b, (f a b < 0 <-> a < b) /\ (f a b = 0 <-> a = b) /\ - 2147483648 <= f a b < 2147483648.

(** * Lemmas *)

Lemma Val_long_eq n : Val_long n = (2 * n + 1) mod W64.
Proof.
  unfold Val_long, u64. rewrite Zmult_mod_idemp_l, Zplus_mod_idemp_l. f_equal. lia.
Qed.

Lemma means_val n : - hB <= n < hB -> means (Imm (Val_long n)) n.
Proof. rewrite Val_long_eq. apply means_imm. Qed.

Lemma Long_val_mean n : - hB <= n < hB -> Long_val ((2 * n + 1) mod W64) = n.
Proof.
  intros. unfold Long_val. replace (s64 ((2 * n + 1) mod W64)) with (2 * n + 1).
  - rewrite Z.mul_comm, Z.add_comm, Z.div_add by lia. reflexivity.
  - change ((2 * n + 1) mod W64) with (u64 (2 * n + 1)). rewrite s64_u64, s64_fits; lia.
Qed.

Lemma mpz_of_imm n : 0 <= n < hB -> mpz_of_value (Imm ((2 * n + 1) mod W64)) = n.
Proof. intros. cbn [mpz_of_value]. rewrite Long_val_mean by lia. apply u64_small. lia. Qed.

Lemma mpz_of_mean x n : means x n -> nonneg_imm x n -> mpz_of_value x = n.
Proof.
  destruct 1; intros N; [|reflexivity]. apply mpz_of_imm. specialize (N _ eq_refl). lia.
Qed.

(** A negative immediate is read as 2^64 more. *)
Lemma mpz_of_neg n : - hB <= n < 0 -> mpz_of_value (Imm ((2 * n + 1) mod W64)) = n + W64.
Proof.
  intros. cbn [mpz_of_value]. rewrite Long_val_mean by lia. unfold u64.
  rewrite <- (Z.mod_add n 1) by lia. rewrite Z.mod_small; lia.
Qed.

Lemma gives_imm n : - hB <= n < hB -> gives (Ok (Imm (Val_long n))) n.
Proof. intros. eexists; split; [reflexivity|]. apply means_val; assumption. Qed.
Lemma gives_big z : gives (Ok (Big z)) z.
Proof. eexists; split; [reflexivity|]. constructor. Qed.
Local Hint Resolve gives_imm gives_big : core.

(** Two immediates with the same meaning are the same word. *)
Lemma imm_inj n m : - hB <= n < hB -> - hB <= m < hB ->
  (2 * n + 1) mod W64 = (2 * m + 1) mod W64 -> n = m.
Proof. intros N M E. rewrite <- (Long_val_mean n), <- (Long_val_mean m), E by assumption. reflexivity. Qed.

Lemma range62 n : - hB <= n < hB <-> Z.shiftr n 62 = 0 \/ Z.shiftr n 62 = -1.
Proof.
  rewrite Z.shiftr_div_pow2 by lia. change (2 ^ 62) with hB. split.
  - intros. destruct (Z.le_gt_cases 0 n).
    + left. apply Z.div_small. lia.
    + right. symmetry. apply Z.div_unique with (n + hB); lia.
  - pose proof (Z.div_mod n hB). pose proof (Z.mod_pos_bound n hB). intros [E|E]; rewrite E in *; lia.
Qed.

Lemma bits62 f : (forall a b, Z.shiftr (f a b) 62 = f (Z.shiftr a 62) (Z.shiftr b 62)) ->
  (f 0 0 = 0 \/ f 0 0 = -1) -> (f 0 (-1) = 0 \/ f 0 (-1) = -1) ->
  (f (-1) 0 = 0 \/ f (-1) 0 = -1) -> (f (-1) (-1) = 0 \/ f (-1) (-1) = -1) ->
  forall a b, - hB <= a < hB -> - hB <= b < hB -> - hB <= f a b < hB.
Proof.
  intros S A B C D a b Ra Rb. apply range62. rewrite S.
  apply range62 in Ra. apply range62 in Rb. destruct Ra as [-> | ->], Rb as [-> | ->]; assumption.
Qed.

Ltac two := match goal with |- _ \/ _ => (left; reflexivity) || (right; reflexivity) end.
Lemma land62 a b : - hB <= a < hB -> - hB <= b < hB -> - hB <= Z.land a b < hB.
Proof. apply bits62; [intros; apply Z.shiftr_land|two..]. Qed.
Lemma lor62 a b : - hB <= a < hB -> - hB <= b < hB -> - hB <= Z.lor a b < hB.
Proof. apply bits62; [intros; apply Z.shiftr_lor|two..]. Qed.
Lemma lxor62 a b : - hB <= a < hB -> - hB <= b < hB -> - hB <= Z.lxor a b < hB.
Proof. apply bits62; [intros; apply Z.shiftr_lxor|two..]. Qed.

Lemma means_imm_inv w n : means (Imm w) n -> w = (2 * n + 1) mod W64 /\ - hB <= n < hB.
Proof. intros M. remember (Imm w) as x eqn:E. destruct M as [n R|]; [|discriminate]. injection E as <-. auto. Qed.

(** * Operations on one number *)

Theorem C20_constants : means z_zero 0 /\ means z_one 1.
Proof. split; apply means_val; lia. Qed.

(** [succ] is exact for every integer, also across the boundary of the immediates. *)
Theorem C20_succ x n : means x n -> gives (z_succ x) (n + 1).
Proof.
  destruct 1; cbn [z_succ]; [|apply gives_big].
  rewrite Long_val_mean by assumption. unfold Max_long. change (2 ^ (8 * 8 - 2) - 1) with 4611686018427387903.
  destruct (Z.ltb_spec n 4611686018427387903).
  - unfold add_s. rewrite fits_s64_true by lia. cbn [cbind]. apply gives_imm. lia.
  - rewrite mpz_of_imm by lia. apply gives_big.
Qed.

Example C20_succ_ex : means (Imm 9223372036854775807) 4611686018427387903 /\
  z_succ (Imm 9223372036854775807) = Ok (Big 4611686018427387904).
Proof. split; [apply (means_imm 4611686018427387903); lia|vm_compute; reflexivity]. Qed.

Theorem C20_pred_partial x n : means x n -> (is_imm x -> n <> - hB) -> gives (z_pred x) (n - 1).
Proof.
  destruct 1; cbn [z_pred]; intros B; [|apply gives_big].
  rewrite Long_val_mean by assumption. unfold Min_long. change (- 2 ^ (8 * 8 - 2)) with (- hB).
  rewrite Z.gtb_ltb. destruct (Z.ltb_spec (- hB) n).
  - unfold sub_s. rewrite fits_s64_true by lia. cbn [cbind]. apply gives_imm. lia.
  - destruct B; [eexists; reflexivity|lia].
Qed.

Example C20_pred_ex : means (Big (- 2 ^ 80)) (- 2 ^ 80) /\ z_pred (Big (- 2 ^ 80)) = Ok (Big (- 2 ^ 80 - 1)).
Proof. split; [constructor|vm_compute; reflexivity]. Qed.

(** The predecessor of the smallest immediate is read back as an unsigned number. *)
Theorem C20_pred_refuted : exists x n, means x n /\ ~ gives (z_pred x) (n - 1).
Proof.
  exists (Imm ((2 * (- hB) + 1) mod W64)), (- hB). split; [constructor; lia|].
  intros (r & E & M). cbn [z_pred] in E. rewrite Long_val_mean in E by lia.
  change (- hB >? Min_long) with false in E. rewrite mpz_of_neg in E by lia.
  apply (f_equal (fun r => match r with Ok a => a | _ => Big 0 end)) in E.
  cbn in E. subst r. inversion M.
Qed.

(** [nat_pred] on naturals (its use in [nat_case]). *)
Theorem C20_nat_pred x n : means x n -> 0 <= n -> gives (z_nat_pred x) (Z.max 0 (n - 1)).
Proof.
  destruct 1 as [n R|z]; intros N; cbn [z_nat_pred].
  - assert (E : Unsigned_long_val ((2 * n + 1) mod W64) = n).
    { unfold Unsigned_long_val, u64. rewrite Z.mod_mod, Z.mod_small by lia.
      rewrite Z.mul_comm, Z.add_comm, Z.div_add by lia. reflexivity. }
    rewrite E. destruct (Z.eqb_spec n 0) as [->|].
    + eexists; split; [reflexivity|]. apply (means_imm 0). lia.
    + rewrite u64_small by lia. rewrite Z.max_r by lia. apply gives_imm. lia.
  - unfold gmp_nat_pred. destruct (Z.eqb_spec z 0) as [->|]; [apply gives_big|].
    rewrite Z.max_r by lia. apply gives_big.
Qed.

Example C20_nat_pred_ex : z_nat_pred (Big 4611686018427387904) = Ok (Big 4611686018427387903).
Proof. vm_compute. reflexivity. Qed.

(** Case analysis of a natural: zero goes to the first branch, anything else to the second one with
    the predecessor. *)
Theorem C20_nat_case x n : means x n -> 0 <= n ->
  (n = 0 -> exists r, z_nat_case x = Ok (CallZero r) /\ means r 0) /\
  (n <> 0 -> exists r, z_nat_case x = Ok (CallSucc r) /\ means r (n - 1)).
Proof.
  intros M N. assert (Z0 : z_is_zero x = (n =? 0)).
  { destruct M; cbn [z_is_zero]; [rewrite Long_val_mean by assumption|]; reflexivity. }
  unfold z_nat_case. rewrite Z0. split; intros C.
  - subst n. cbn. eauto.
  - replace (n =? 0) with false by lia. destruct (C20_nat_pred x n M N) as (r & -> & Mr).
    rewrite Z.max_r in Mr by lia. cbn. eauto.
Qed.

Example C20_nat_case_ex : z_nat_case (Imm 11) = Ok (CallSucc (Imm 9)) /\ z_nat_case (Big 0) = Ok (CallZero (Big 0)).
Proof. split; vm_compute; reflexivity. Qed.

Theorem C20_neg_partial x n : means x n -> (is_imm x -> n <> - hB) -> gives (z_neg x) (- n).
Proof.
  destruct 1; cbn [z_neg]; intros B; [|apply gives_big].
  rewrite Long_val_mean by assumption. unfold Max_long. change (2 ^ (8 * 8 - 2) - 1) with 4611686018427387903.
  assert (n <> - hB) by (apply B; eexists; reflexivity).
  destruct (Z.ltb_spec n 4611686018427387903).
  - unfold neg_s. rewrite fits_s64_true by lia. cbn [cbind]. apply gives_imm. lia.
  - apply gives_big.
Qed.

Example C20_neg_ex : z_neg (Imm 9223372036854775807) = Ok (Big (- 4611686018427387903)) /\
  z_neg (Imm 3) = Ok (Imm 18446744073709551615).
Proof. split; vm_compute; reflexivity. Qed.

Lemma gives_word w z : - hB <= z < hB -> gives (Ok (Imm w)) z -> w = (2 * z + 1) mod W64.
Proof.
  intros R (r & E & M). apply (f_equal (fun r => match r with Ok a => a | _ => Big 0 end)) in E.
  subst r. inversion M. reflexivity.
Qed.

Lemma gives_range w z : gives (Ok (Imm w)) z -> - hB <= z < hB.
Proof.
  intros (r & E & M). apply (f_equal (fun r => match r with Ok a => a | _ => Big 0 end)) in E.
  subst r. inversion M. assumption.
Qed.

Lemma gives_boxed a z : gives (Ok (Big a)) z -> a = z.
Proof.
  intros (r & E & M). apply (f_equal (fun r => match r with Ok a => a | _ => Big 0 end)) in E.
  subst r. inversion M. reflexivity.
Qed.

Theorem C20_neg_refuted : exists x n, means x n /\ ~ gives (z_neg x) (- n).
Proof.
  exists (Imm ((2 * (- hB) + 1) mod W64)), (- hB). split; [constructor; lia|].
  cbn [z_neg]. rewrite Long_val_mean by lia. change (- hB <? Max_long) with true. cbn iota.
  unfold neg_s. rewrite fits_s64_true by lia. cbn [cbind]. intros G. apply gives_range in G. lia.
Qed.

(** [abs] untags what it should tag: it returns its argument below 2^61. *)
Theorem C20_abs_partial x n : means x n -> (is_imm x -> 0 <= n < 2 ^ 61) -> gives (z_abs x) (Z.abs n).
Proof.
  change (2 ^ 61) with 2305843009213693952.
  destruct 1; cbn [z_abs]; intros B; [|apply gives_big].
  assert (0 <= n < 2305843009213693952) by (apply B; eexists; reflexivity).
  rewrite Val_long_eq. rewrite (Z.mod_small (2 * n + 1)) by lia.
  rewrite (Z.mod_small (2 * (2 * n + 1) + 1)) by lia. rewrite s64_fits by lia.
  unfold labs. rewrite Z.abs_eq by lia. rewrite fits_s64_true by lia. cbn [cbind].
  unfold Long_val. rewrite s64_fits by lia.
  replace (2 * (2 * n + 1) + 1) with (1 + (2 * n + 1) * 2) by lia. rewrite Z.div_add by lia.
  change (1 / 2 + (2 * n + 1)) with (0 + (2 * n + 1)). rewrite Z.add_0_l, u64_small, Z.abs_eq by lia.
  eexists; split; [reflexivity|]. rewrite <- (Z.mod_small (2 * n + 1) W64) by lia. constructor. lia.
Qed.

Example C20_abs_ex : z_abs (Imm 15) = Ok (Imm 15) /\ z_abs (Big (-7)) = Ok (Big 7).
Proof. split; vm_compute; reflexivity. Qed.

(** For -1 it returns an even word, that the collector takes for a pointer. *)
Theorem C20_abs_refuted : exists x n w, means x n /\ z_abs x = Ok (Imm w) /\ Is_block w = true /\
  ~ gives (z_abs x) (Z.abs n).
Proof.
  exists (Imm ((2 * (-1) + 1) mod W64)), (-1), 0. split; [constructor; lia|].
  assert (E : z_abs (Imm ((2 * (-1) + 1) mod W64)) = Ok (Imm 0)) by (vm_compute; reflexivity).
  split; [exact E|]. split; [reflexivity|]. rewrite E. intros G. apply gives_word in G; [|cbn; lia].
  vm_compute in G. discriminate.
Qed.

(** * Arithmetic *)

Lemma top_bit z : 0 <= z < W64 -> (Z.land H64 z =? 0) = (z <? H64).
Proof.
  intros R. destruct (Z.ltb_spec z H64) as [L|L].
  - apply Z.eqb_eq. change H64 with (2 ^ 63). apply Z.bits_inj'. intros i Hi.
    rewrite Z.land_spec, Z.bits_0. destruct (Z.eq_dec i 63) as [->|Hn].
    + replace (Z.testbit z 63) with false; [apply andb_false_r|].
      symmetry. destruct (Z.eq_dec z 0) as [->|]; [reflexivity|]. apply Z.bits_above_log2; [lia|].
      apply Z.log2_lt_pow2; change (2 ^ 63) with H64; lia.
    + rewrite Z.pow2_bits_false by lia. reflexivity.
  - apply Z.eqb_neq. intros E. assert (T : Z.testbit (Z.land H64 z) 63 = true).
    { rewrite Z.land_spec. change (Z.testbit H64 63) with true. rewrite andb_true_l.
      replace z with (H64 + (z - H64)) by lia. change H64 with (2 ^ 63) at 1.
      rewrite Z.testbit_true by lia.
      replace (2 ^ 63 + (z - H64)) with ((z - H64) + 1 * 2 ^ 63) by lia.
      rewrite Z.div_add by lia. rewrite Z.div_small by (change (2 ^ 63) with H64; lia). reflexivity. }
    rewrite E in T. rewrite Z.bits_0 in T. discriminate.
Qed.

(** Addition of two immediates is exact when the sum is a natural that is an immediate again;
    everything else goes wrong (next theorems). *)
Theorem C20_add_partial x y n m : means x n -> means y m -> is_imm x -> is_imm y ->
  0 <= n + m < hB -> gives (z_add x y) (n + m).
Proof.
  intros Mx My (v & ->) (w & ->) R. apply means_imm_inv in Mx as [-> N]. apply means_imm_inv in My as [-> M].
  cbn [z_add]. rewrite !Long_val_mean by assumption. unfold add_s. rewrite fits_s64_true by lia.
  cbn [cbind]. rewrite u64_small by lia.
  change (shl_u 1 63) with (@Ok Z H64). cbn [cbind]. rewrite top_bit by lia.
  replace (n + m <? H64) with true by lia. apply gives_imm. lia.
Qed.

Example C20_add_ex : z_add (Imm 11) (Imm 18446744073709551613) = Ok (Imm 7).
Proof. vm_compute. reflexivity. Qed.

(** A sum that is an integer of 63 bits but not an immediate wraps around. *)
Theorem C20_add_overflow n m : - hB <= n < hB -> - hB <= m < hB -> hB <= n + m ->
  z_add (Imm (Val_long n)) (Imm (Val_long m)) = Ok (Imm (Val_long (n + m - wB))).
Proof.
  intros N M R. rewrite !Val_long_eq. cbn [z_add]. rewrite !Long_val_mean by assumption.
  unfold add_s. rewrite fits_s64_true by lia. cbn [cbind]. rewrite u64_small by lia.
  change (shl_u 1 63) with (@Ok Z H64). cbn [cbind]. rewrite top_bit by lia.
  replace (n + m <? H64) with true by lia. do 2 f_equal.
  rewrite !Val_long_eq.
  replace (2 * (n + m) + 1) with (2 * (n + m - wB) + 1 + 1 * W64) by lia. apply Z.mod_add. lia.
Qed.

(** Any sum that leaves the naturals, or has a boxed operand, uses a GMP number that has not been
    initialised. *)
Theorem C20_add_uninitialised x y n m : means x n -> means y m ->
  is_big x \/ is_big y \/ n + m < 0 -> z_add x y = UB.
Proof.
  intros Mx My C. destruct Mx as [n N|n], My as [m M|m]; try reflexivity.
  destruct C as [(z & C)|[(z & C)|C]]; try discriminate.
  cbn [z_add]. rewrite !Long_val_mean by assumption. unfold add_s. rewrite fits_s64_true by lia.
  cbn [cbind]. change (shl_u 1 63) with (@Ok Z H64). cbn [cbind].
  assert (E : u64 (n + m) = n + m + W64).
  { unfold u64. rewrite <- (Z.mod_add (n + m) 1) by lia. rewrite Z.mod_small; lia. }
  rewrite E, top_bit by lia. replace (n + m + W64 <? H64) with false by lia. reflexivity.
Qed.

Theorem C20_add_refuted : exists x y n m, means x n /\ means y m /\ ~ gives (z_add x y) (n + m).
Proof.
  exists (Imm ((2 * 0 + 1) mod W64)), (Imm ((2 * (-1) + 1) mod W64)), 0, (-1).
  assert (A : means (Imm ((2 * 0 + 1) mod W64)) 0) by (constructor; lia).
  assert (B : means (Imm ((2 * (-1) + 1) mod W64)) (-1)) by (constructor; lia).
  split; [exact A|]. split; [exact B|].
  rewrite (C20_add_uninitialised _ _ 0 (-1) A B) by lia. intros (r & E & _). discriminate.
Qed.

(** Two immediates: subtraction is exact when the difference is an immediate; a boxed operand is
    fine unless the other is a negative immediate. *)
Theorem C20_sub_partial x y n m : means x n -> means y m ->
  (is_imm x -> is_imm y -> - hB <= n - m < hB) ->
  (is_big x \/ is_big y -> nonneg_imm x n /\ nonneg_imm y m) ->
  gives (z_sub x y) (n - m).
Proof.
  intros Mx My A B. pose proof Mx as Mx'. pose proof My as My'.
  destruct Mx as [n N|n], My as [m M|m]; cbn [z_sub].
  - rewrite !Long_val_mean by assumption. unfold sub_s. rewrite fits_s64_true by lia. cbn [cbind].
    apply gives_imm. apply A; eexists; reflexivity.
  - destruct B as [N1 N2]; [right; eexists; reflexivity|]. rewrite !(mpz_of_mean _ _ Mx'), ?(mpz_of_mean _ _ My') by assumption.
    apply gives_big.
  - destruct B as [N1 N2]; [left; eexists; reflexivity|]. rewrite ?(mpz_of_mean _ _ My') by assumption.
    apply gives_big.
  - apply gives_big.
Qed.

Example C20_sub_ex : z_sub (Imm 11) (Imm 21) = Ok (Imm 18446744073709551607) /\ z_sub (Imm 11) (Big (2 ^ 64)) = Ok (Big (5 - 2 ^ 64)).
Proof. split; vm_compute; reflexivity. Qed.

(** Subtracting 1 from the smallest immediate gives the largest one; and -1 minus a boxed 2^64 is -1
    too large by 2^64. *)
Theorem C20_sub_refuted :
  (exists x y n m, means x n /\ means y m /\ is_imm x /\ is_imm y /\ ~ gives (z_sub x y) (n - m)) /\
  (exists x y n m, means x n /\ means y m /\ is_big y /\ ~ gives (z_sub x y) (n - m)).
Proof.
  split.
  - exists (Imm ((2 * (- hB) + 1) mod W64)), (Imm ((2 * 1 + 1) mod W64)), (- hB), 1.
    split; [constructor; lia|]. split; [constructor; lia|]. split; [eexists; reflexivity|]. split; [eexists; reflexivity|].
    cbn [z_sub]. rewrite !Long_val_mean by lia. unfold sub_s. rewrite fits_s64_true by lia. cbn [cbind].
    intros G. apply gives_range in G. lia.
  - exists (Imm ((2 * (-1) + 1) mod W64)), (Big W64), (-1), W64.
    split; [constructor; lia|]. split; [constructor|]. split; [eexists; reflexivity|].
    intros G. vm_compute in G. apply gives_boxed in G. lia.
Qed.

(** Multiplication is exact without negative immediates. *)
Theorem C20_mul_partial x y n m : means x n -> means y m -> nonneg_imm x n -> nonneg_imm y m ->
  gives (z_mul x y) (n * m).
Proof.
  intros Mx My Nx Ny. unfold z_mul. rewrite (mpz_of_mean x n), (mpz_of_mean y m) by assumption. apply gives_big.
Qed.

Example C20_mul_ex : z_mul (Imm 9223372036854775807) (Big (-3)) = Ok (Big (-13835058055282163709)).
Proof. vm_compute. reflexivity. Qed.

(** (-1) * 1 = 2^64 - 1 *)
Theorem C20_mul_refuted : exists x y n m, means x n /\ means y m /\ ~ gives (z_mul x y) (n * m).
Proof.
  exists (Imm ((2 * (-1) + 1) mod W64)), (Imm ((2 * 1 + 1) mod W64)), (-1), 1.
  split; [constructor; lia|]. split; [constructor; lia|].
  intros G. vm_compute in G. apply gives_boxed in G. lia.
Qed.

Lemma quot62 n m : - hB <= n < hB -> - hB <= m < hB -> m <> 0 -> - hB <= Z.quot n m <= hB.
Proof.
  intros N M Z0. pose proof (Z.quot_rem' n m) as E. pose proof (Z.quot_abs n m Z0) as A.
  assert (Z.abs (Z.quot n m) <= Z.abs n); [|lia].
  rewrite <- A. rewrite Z.quot_div_nonneg by lia.
  apply Z.div_le_upper_bound; [lia|]. nia.
Qed.

(** Division of two immediates truncates, except for the one quotient that is not an immediate; of
    boxed numbers it is exact when the division is, because GMP rounds upwards. *)
Theorem C20_div_partial x y n m : means x n -> means y m -> m <> 0 ->
  (is_imm x -> is_imm y -> ~ (n = - hB /\ m = -1)) ->
  (is_big x \/ is_big y -> nonneg_imm x n /\ nonneg_imm y m /\ (m | n)) ->
  gives (z_div x y) (Z.quot n m).
Proof.
  intros Mx My Z0 A B.
  assert (C : is_big x \/ is_big y -> gives (gmp_div (mpz_of_value x) (mpz_of_value y)) (Z.quot n m)).
  { intros D. destruct (B D) as (N1 & N2 & (q & Q)). rewrite (mpz_of_mean x n), (mpz_of_mean y m) by assumption.
    unfold gmp_div. replace (m =? 0) with false by lia. subst n.
    replace (Z.quot (q * m) m) with (cdiv (q * m) m); [apply gives_big|].
    unfold cdiv. rewrite Z.quot_mul by assumption. replace (- (q * m)) with (- q * m) by lia.
    rewrite Z.div_mul by assumption. lia. }
  destruct Mx as [n N|n], My as [m M|m]; cbn [z_div]; try (apply C; eauto using ex_intro; fail).
  - rewrite !Long_val_mean by assumption. pose proof (quot62 n m N M Z0).
    unfold div_s. replace (m =? 0) with false by lia. rewrite fits_s64_true by lia. cbn [cbind].
    apply gives_imm. assert (~ (n = - hB /\ m = -1)) by (apply A; eexists; reflexivity).
    assert (Z.quot n m <> hB); [|lia]. intros E. pose proof (Z.quot_rem' n m) as QR. rewrite E in QR.
    pose proof (Z.rem_bound_abs n m Z0). nia.
  - apply C. right. eexists; reflexivity.
  - apply C. left. eexists; reflexivity.
  - apply C. left. eexists; reflexivity.
Qed.

Example C20_div_ex : z_div (Imm 18446744073709551603) (Imm 9) = Ok (Imm 18446744073709551615) /\ z_div (Big 12) (Big 4) = Ok (Big 3).
Proof. split; vm_compute; reflexivity. Qed.

(** 7 / 2 = 4 when boxed; -2^62 / -1 = -2^62; division by zero is undefined behaviour. *)
Theorem C20_div_refuted :
  (exists x y n m, means x n /\ means y m /\ m <> 0 /\ is_big x /\ is_big y /\ ~ gives (z_div x y) (Z.quot n m)) /\
  (exists x y n m, means x n /\ means y m /\ m <> 0 /\ is_imm x /\ is_imm y /\ ~ gives (z_div x y) (Z.quot n m)) /\
  (exists x y, means x 1 /\ means y 0 /\ z_div x y = UB).
Proof.
  split; [|split].
  - exists (Big 7), (Big 2), 7, 2. split; [constructor|]. split; [constructor|]. split; [lia|].
    split; [eexists; reflexivity|]. split; [eexists; reflexivity|].
    intros G. vm_compute in G. apply gives_boxed in G. lia.
  - exists (Imm ((2 * (- hB) + 1) mod W64)), (Imm ((2 * (-1) + 1) mod W64)), (- hB), (-1).
    split; [constructor; lia|]. split; [constructor; lia|]. split; [lia|].
    split; [eexists; reflexivity|]. split; [eexists; reflexivity|].
    cbn [z_div]. rewrite !Long_val_mean by lia.
    intros G. change (div_s (- hB) (-1)) with (@Ok Z hB) in G. cbn [cbind] in G.
    apply gives_range in G. vm_compute in G. destruct G as [_ G]. discriminate.
  - exists (Imm ((2 * 1 + 1) mod W64)), (Imm ((2 * 0 + 1) mod W64)).
    split; [constructor; lia|]. split; [constructor; lia|]. vm_compute. reflexivity.
Qed.

(** Remainder: exact on immediates, undefined behaviour as soon as an operand is boxed. *)
Theorem C20_rem_partial x y n m : means x n -> means y m -> m <> 0 -> is_imm x -> is_imm y ->
  gives (z_rem x y) (Z.rem n m).
Proof.
  intros Mx My Z0 (v & ->) (w & ->). apply means_imm_inv in Mx as [-> N]. apply means_imm_inv in My as [-> M].
  cbn [z_rem]. rewrite !Long_val_mean by assumption. pose proof (quot62 n m N M Z0).
  unfold rem_s. replace (m =? 0) with false by lia. rewrite fits_s64_true by lia. cbn [cbind].
  apply gives_imm. pose proof (Z.rem_bound_abs n m Z0). lia.
Qed.

Example C20_rem_ex : z_rem (Imm 18446744073709551603) (Imm 9) = Ok (Imm 18446744073709551611).
Proof. vm_compute. reflexivity. Qed.

Theorem C20_rem_refuted : exists x y n m, means x n /\ means y m /\ m <> 0 /\ z_rem x y = UB.
Proof.
  exists (Big 7), (Big 2), 7, 2. split; [constructor|]. split; [constructor|]. split; [lia|]. reflexivity.
Qed.

(** Powers of anything but a negative immediate, with an exponent of 64 bits. *)
Theorem C20_pow_partial x y n m : means x n -> means y m -> nonneg_imm x n -> 0 <= m < W64 ->
  gives (z_pow x y) (n ^ m).
Proof.
  intros Mx My Nx R. unfold z_pow. rewrite (mpz_of_mean x n), (mpz_of_mean y m) by (assumption || (intros ? _; lia)).
  unfold gmp_op2; cbn [mpz_op2 mpz_init fresh_mpz cbind mk_gmp_int].
  rewrite Z.abs_eq, u64_small by lia. apply gives_big.
Qed.

Example C20_pow_ex : z_pow (Imm 7) (Imm 11) = Ok (Big 243).
Proof. vm_compute. reflexivity. Qed.

(** (-1) ^ 1 = 2^64 - 1 *)
Theorem C20_pow_refuted : exists x y n m, means x n /\ means y m /\ 0 <= m /\ ~ gives (z_pow x y) (n ^ m).
Proof.
  exists (Imm ((2 * (-1) + 1) mod W64)), (Imm ((2 * 1 + 1) mod W64)), (-1), 1.
  split; [constructor; lia|]. split; [constructor; lia|]. split; [lia|].
  intros G. vm_compute in G. apply gives_boxed in G. lia.
Qed.

(** * Bitwise operations: two's complement, infinitely extended *)

Theorem C20_bits_partial x y n m : means x n -> means y m ->
  (is_big x \/ is_big y -> nonneg_imm x n /\ nonneg_imm y m) ->
  gives (z_logand x y) (Z.land n m) /\ gives (z_logor x y) (Z.lor n m) /\ gives (z_logxor x y) (Z.lxor n m).
Proof.
  intros Mx My B. pose proof Mx as Mx'. pose proof My as My'.
  destruct Mx as [n N|n], My as [m M|m]; cbn [z_logand z_logor z_logxor].
  - rewrite !Long_val_mean by assumption.
    repeat split; apply gives_imm; [apply land62|apply lor62|apply lxor62]; assumption.
  - destruct B as [N1 N2]; [right; eexists; reflexivity|].
    rewrite !(mpz_of_mean _ _ Mx') by assumption. repeat split; apply gives_big.
  - destruct B as [N1 N2]; [left; eexists; reflexivity|].
    rewrite !(mpz_of_mean _ _ My') by assumption. repeat split; apply gives_big.
  - repeat split; apply gives_big.
Qed.

Example C20_bits_ex : z_logand (Imm 18446744073709551613) (Imm 11) = Ok (Imm 9) /\ z_logxor (Imm 13) (Imm 11) = Ok (Imm 7).
Proof. split; vm_compute; reflexivity. Qed.

(** -1 land 2^64 is 0 instead of 2^64; likewise the others. *)
Theorem C20_bits_refuted : exists x y n m, means x n /\ means y m /\
  ~ gives (z_logand x y) (Z.land n m) /\ ~ gives (z_logor x y) (Z.lor n m) /\ ~ gives (z_logxor x y) (Z.lxor n m).
Proof.
  exists (Imm ((2 * (-1) + 1) mod W64)), (Big W64), (-1), W64.
  split; [constructor; lia|]. split; [constructor|].
  repeat split; intros G; vm_compute in G; apply gives_boxed in G; discriminate.
Qed.

Theorem C20_lognot x n : means x n -> gives (z_lognot x) (Z.lnot n).
Proof.
  destruct 1; cbn [z_lognot]; [|apply gives_big]. rewrite Long_val_mean by assumption.
  apply gives_imm. unfold Z.lnot. lia.
Qed.

Example C20_lognot_ex : z_lognot (Imm 11) = Ok (Imm 18446744073709551605).
Proof. vm_compute. reflexivity. Qed.

(** * Comparisons *)

(** A comparison operator returns the boolean. *)
Definition decides (m : cres Z) (b : bool) : Prop := m = Ok (word_of_bool b).

Lemma imm_word n : - hB <= n < hB -> u63 (n mod wB) /\ word_of_int (n mod wB) = (2 * n + 1) mod W64 /\ signed (n mod wB) = n.
Proof.
  intros R. pose proof (Z.mod_pos_bound n wB). split; [unfold u63; lia|].
  destruct (Z.le_gt_cases 0 n).
  - rewrite (Z.mod_small n), (Z.mod_small (2 * n + 1)) by lia. split; [reflexivity|]. unfold signed.
    replace (n <? hB) with true by lia. reflexivity.
  - rewrite <- (Z.mod_add n 1) by lia. rewrite <- (Z.mod_add (2 * n + 1) 1) by lia.
    rewrite !Z.mod_small by lia. unfold word_of_int. split; [lia|]. unfold signed.
    replace (n + 1 * wB <? hB) with false by lia. lia.
Qed.

Section Cmp.
Variable cmp : Z -> Z -> Z.
Hypothesis cmp_ok : is_cmp cmp.

Lemma cmp_sign a b : (cmp a b <? 0) = (a <? b) /\ (cmp a b =? 0) = (a =? b) /\
  (cmp a b >=? 0) = (b <=? a) /\ (cmp a b >? 0) = (b <? a).
Proof. destruct (cmp_ok a b) as (A & B & _). rewrite Z.geb_leb, Z.gtb_ltb. repeat split; lia. Qed.

Lemma equal_exact x y n m : means x n -> means y m ->
  (is_big x \/ is_big y -> nonneg_imm x n /\ nonneg_imm y m) -> decides (z_equal cmp x y) (n =? m).
Proof.
  intros Mx My B. pose proof Mx as Mx'. pose proof My as My'. unfold decides.
  destruct Mx as [n N|n], My as [m M|m]; cbn [z_equal];
    try (destruct B as [N1 N2]; [(left; eexists; reflexivity) || (right; eexists; reflexivity)|];
         rewrite ?(mpz_of_mean _ _ Mx'), ?(mpz_of_mean _ _ My') by assumption;
         destruct (cmp_sign n m) as (_ & -> & _); reflexivity).
  f_equal. change mk_bool with word_of_bool. f_equal. apply eq_true_iff_eq. rewrite !Z.eqb_eq. split.
  - apply imm_inj; assumption.
  - intros ->. reflexivity.
Qed.

Lemma lt_exact x y n m : means x n -> means y m ->
  (is_big x \/ is_big y -> nonneg_imm x n /\ nonneg_imm y m) -> decides (z_lt cmp x y) (n <? m).
Proof.
  intros Mx My B. pose proof Mx as Mx'. pose proof My as My'. unfold decides.
  destruct Mx as [n N|n], My as [m M|m]; cbn [z_lt];
    try (destruct B as [N1 N2]; [(left; eexists; reflexivity) || (right; eexists; reflexivity)|];
         rewrite ?(mpz_of_mean _ _ Mx'), ?(mpz_of_mean _ _ My') by assumption;
         destruct (cmp_sign n m) as (-> & _); reflexivity).
  change ((2 * n + 1) mod W64) with (u64 (2 * n + 1)). change ((2 * m + 1) mod W64) with (u64 (2 * m + 1)).
  rewrite !s64_u64, !s64_fits by lia. f_equal. change mk_bool with word_of_bool. f_equal. lia.
Qed.

Lemma gt_exact x y n m : means x n -> means y m ->
  (is_big x \/ is_big y -> nonneg_imm x n /\ nonneg_imm y m) -> decides (z_gt cmp x y) (m <? n).
Proof.
  intros Mx My B. pose proof Mx as Mx'. pose proof My as My'. unfold decides.
  destruct Mx as [n N|n], My as [m M|m]; cbn [z_gt];
    try (destruct B as [N1 N2]; [(left; eexists; reflexivity) || (right; eexists; reflexivity)|];
         rewrite ?(mpz_of_mean _ _ Mx'), ?(mpz_of_mean _ _ My') by assumption;
         destruct (cmp_sign n m) as (_ & _ & _ & ->); reflexivity).
  destruct (imm_word n N) as (A1 & A2 & A3), (imm_word m M) as (B1 & B2 & B3).
  rewrite <- A2, <- B2, ltsb_ok by assumption. rewrite A3, B3. reflexivity.
Qed.

Lemma geq_exact x y n m : means x n -> means y m ->
  (is_big x \/ is_big y -> nonneg_imm x n /\ nonneg_imm y m) -> decides (z_geq cmp x y) (m <=? n).
Proof.
  intros Mx My B. pose proof Mx as Mx'. pose proof My as My'. unfold decides.
  destruct Mx as [n N|n], My as [m M|m]; cbn [z_geq];
    try (destruct B as [N1 N2]; [(left; eexists; reflexivity) || (right; eexists; reflexivity)|];
         rewrite ?(mpz_of_mean _ _ Mx'), ?(mpz_of_mean _ _ My') by assumption;
         destruct (cmp_sign n m) as (_ & _ & -> & _); reflexivity).
  destruct (imm_word n N) as (A1 & A2 & A3), (imm_word m M) as (B1 & B2 & B3).
  rewrite <- A2, <- B2, lesb_ok by assumption. rewrite A3, B3. reflexivity.
Qed.
End Cmp.

(** Equality and the orders other than [leq], unless a negative immediate meets a boxed number. *)
Theorem C20_order_partial cmp x y n m : is_cmp cmp -> means x n -> means y m ->
  (is_big x \/ is_big y -> nonneg_imm x n /\ nonneg_imm y m) ->
  decides (z_equal cmp x y) (n =? m) /\ decides (z_lt cmp x y) (n <? m) /\
  decides (z_gt cmp x y) (m <? n) /\ decides (z_geq cmp x y) (m <=? n).
Proof.
  intros C Mx My B. split; [|split; [|split]];
    [apply equal_exact|apply lt_exact|apply gt_exact|apply geq_exact]; assumption.
Qed.

Lemma sgn_cmp : is_cmp (fun a b => Z.sgn (a - b)).
Proof. intros a b. destruct (Z.sgn_spec (a - b)) as [(?&->)|[(?&->)|(?&->)]]; lia. Qed.

Example C20_order_ex : is_cmp (fun a b => Z.sgn (a - b)) /\
  z_geq (fun a b => Z.sgn (a - b)) (Big (2 ^ 70)) (Imm 11) = Ok (word_of_bool true) /\
  z_lt (fun a b => Z.sgn (a - b)) (Imm 18446744073709551615) (Imm 1) = Ok (word_of_bool true).
Proof. split; [exact sgn_cmp|]. split; vm_compute; reflexivity. Qed.

(** -1 is not below a boxed 0: it is read as 2^64 - 1. *)
Theorem C20_order_refuted : exists x y n m, means x n /\ means y m /\
  forall cmp, is_cmp cmp -> ~ decides (z_lt cmp x y) (n <? m) /\ ~ decides (z_gt cmp x y) (m <? n) /\ ~ decides (z_geq cmp x y) (m <=? n).
Proof.
  exists (Imm ((2 * (-1) + 1) mod W64)), (Big 0), (-1), 0. split; [constructor; lia|]. split; [constructor|].
  intros cmp C. unfold decides. cbn [z_lt z_gt z_geq]. rewrite mpz_of_neg by lia.
  cbn [mpz_of_value]. destruct (cmp_sign cmp C (-1 + W64) 0) as (-> & _ & -> & ->).
  repeat split; vm_compute; discriminate.
Qed.

(** [leq]: exact on immediates; with a boxed operand only when the operands are equal or the first is
    the larger. *)
Theorem C20_leq_partial cmp x y n m : is_cmp cmp -> means x n -> means y m ->
  (is_big x \/ is_big y -> nonneg_imm x n /\ nonneg_imm y m /\ m <= n) ->
  decides (z_leq cmp x y) (n <=? m).
Proof.
  intros C Mx My B. pose proof Mx as Mx'. pose proof My as My'. unfold decides.
  destruct Mx as [n N|n], My as [m M|m]; cbn [z_leq];
    try (destruct B as (N1 & N2 & N3); [(left; eexists; reflexivity) || (right; eexists; reflexivity)|];
         rewrite ?(mpz_of_mean _ _ Mx'), ?(mpz_of_mean _ _ My') by assumption; cbn [mpz_of_value];
         destruct (cmp_sign cmp C n m) as (_ & -> & _); change mk_bool with word_of_bool; do 2 f_equal;
         destruct (Z.eqb_spec n m); cbn [negb]; lia).
  destruct (imm_word n N) as (A1 & A2 & A3), (imm_word m M) as (B1 & B2 & B3).
  rewrite <- A2, <- B2, lesb_ok by assumption. rewrite A3, B3. reflexivity.
Qed.

Example C20_leq_ex : z_leq (fun a b => Z.sgn (a - b)) (Imm 18446744073709551615) (Imm 1) = Ok 3.
Proof. vm_compute. reflexivity. Qed.

(** No boxed number is below another one. *)
Theorem C20_leq_refuted : exists x y n m, means x n /\ means y m /\ 0 <= n < m /\
  forall cmp, is_cmp cmp -> ~ decides (z_leq cmp x y) (n <=? m).
Proof.
  exists (Big hB), (Big (hB + 1)), hB, (hB + 1). split; [constructor|]. split; [constructor|]. split; [lia|].
  intros cmp C. unfold decides. cbn [z_leq mpz_of_value].
  destruct (cmp_sign cmp C hB (hB + 1)) as (_ & -> & _). vm_compute. discriminate.
Qed.

(** [max] and [min]: exact on immediates; with a boxed operand the first (second) operand is taken
    unless they are equal. *)
Theorem C20_max_min_partial cmp x y n m : is_cmp cmp -> means x n -> means y m ->
  (is_big x \/ is_big y -> nonneg_imm x n /\ nonneg_imm y m /\ m <= n) ->
  gives (z_max cmp x y) (Z.max n m) /\ gives (z_min cmp x y) (Z.min n m).
Proof.
  intros C Mx My B. pose proof Mx as Mx'. pose proof My as My'.
  assert (E : forall b, (b = true -> gives (Ok (if b then x else y)) n) /\ (b = false -> gives (Ok (if b then x else y)) m)
                     /\ (b = true -> gives (Ok (if b then y else x)) m) /\ (b = false -> gives (Ok (if b then y else x)) n)).
  { intros b. repeat split; intros ->; eexists; split; try reflexivity; assumption. }
  destruct Mx as [n N|n], My as [m M|m]; cbn [z_max z_min];
    try (destruct B as (N1 & N2 & N3); [(left; eexists; reflexivity) || (right; eexists; reflexivity)|];
         rewrite ?(mpz_of_mean _ _ Mx'), ?(mpz_of_mean _ _ My') by assumption; cbn [mpz_of_value];
         destruct (cmp_sign cmp C n m) as (_ & -> & _);
         rewrite Z.max_l, Z.min_r by assumption;
         destruct (E (negb (n =? m))) as (E1 & E2 & E3 & E4);
         destruct (Z.eqb_spec n m) as [->|]; cbn [negb] in *; split; auto; fail).
  rewrite !Long_val_mean by assumption. split.
  - destruct (E (n >? m)) as (E1 & E2 & _). rewrite Z.gtb_ltb in *.
    destruct (Z.ltb_spec m n); [rewrite Z.max_l by lia|rewrite Z.max_r by lia]; auto.
  - destruct (E (n <? m)) as (E1 & E2 & _).
    destruct (Z.ltb_spec n m); [rewrite Z.min_l by lia|rewrite Z.min_r by lia]; auto.
Qed.

Example C20_max_min_ex : z_max (fun a b => Z.sgn (a - b)) (Imm 18446744073709551615) (Imm 1) = Ok (Imm 1).
Proof. vm_compute. reflexivity. Qed.

(** The maximum of two boxed numbers can be the smaller one, the minimum the larger one. *)
Theorem C20_max_min_refuted : exists x y n m, means x n /\ means y m /\
  forall cmp, is_cmp cmp -> ~ gives (z_max cmp x y) (Z.max n m) /\ ~ gives (z_min cmp x y) (Z.min n m).
Proof.
  exists (Big hB), (Big (hB + 1)), hB, (hB + 1). split; [constructor|]. split; [constructor|].
  intros cmp C. cbn [z_max z_min mpz_of_value].
  destruct (cmp_sign cmp C hB (hB + 1)) as (_ & -> & _). change (negb (hB =? hB + 1)) with true. cbn iota.
  split; intros G; apply gives_boxed in G; lia.
Qed.

(** [compare] returns the constructors of Rocq's [comparison] on immediates and the sign on boxed
    numbers. *)
Theorem C20_compare_partial cmp x y n m : is_cmp cmp -> means x n -> means y m -> is_imm x -> is_imm y ->
  z_compare cmp x y = Ok (word_of_comparison (n ?= m)).
Proof.
  intros C Mx My (v & ->) (w & ->). apply means_imm_inv in Mx as [-> N]. apply means_imm_inv in My as [-> M]. cbn [z_compare].
  destruct (imm_word n N) as (A1 & A2 & A3), (imm_word m M) as (B1 & B2 & B3).
  rewrite <- A2, <- B2, compares_ok by assumption. rewrite A3, B3. reflexivity.
Qed.

Example C20_compare_ex : z_compare (fun a b => Z.sgn (a - b)) (Imm 18446744073709551615) (Imm 1) = Ok (word_of_comparison Lt).
Proof. vm_compute. reflexivity. Qed.

(** The sign read from a result, as OCaml and [compare_signed] (/repo/plugin/GMP.v:107) do. *)
Definition sign_of (w : Z) : Z := Z.sgn (Long_val w).

(** Whichever reading of the result the program uses, it is wrong for some operands: immediates do
    not give the sign, boxed numbers do not give the constructor. *)
Theorem C20_compare_refuted : forall cmp, is_cmp cmp ->
  (exists x y n m r, means x n /\ means y m /\ z_compare cmp x y = Ok r /\ sign_of r <> Z.sgn (n - m)) /\
  (exists x y n m r, means x n /\ means y m /\ z_compare cmp x y = Ok r /\ r <> word_of_comparison (n ?= m)).
Proof.
  intros cmp C. split.
  - exists (Imm 1), (Imm 3), 0, 1, 3. split; [apply (means_imm 0); lia|]. split; [apply (means_imm 1); lia|].
    split; [vm_compute; reflexivity|]. vm_compute. discriminate.
  - exists (Big 0), (Big 1), 0, 1, (Val_long (cmp 0 1)). split; [constructor|]. split; [constructor|].
    split; [reflexivity|]. destruct (C 0 1) as (A & _ & R1 & R2).
    change (word_of_comparison (0 ?= 1)) with 3. rewrite Val_long_eq.
    assert (cmp 0 1 < 0) by (apply A; lia).
    rewrite <- (Z.mod_add _ 1) by lia. rewrite Z.mod_small; lia.
Qed.

(** * Conversions and memory *)

(** [of_int] reads the 63-bit integer as signed. *)
Theorem C20_of_int k : u63 k -> means (z_of_int (word_of_int k)) (signed k).
Proof.
  intros K. pose proof (signed_range k K) as R. unfold z_of_int.
  destruct (imm_word (signed k) R) as (_ & E & _). rewrite signed_mod in E by assumption.
  rewrite E. constructor. exact R.
Qed.

Example C20_of_int_ex : u63 9223372036854775807 /\ means (z_of_int (word_of_int 9223372036854775807)) (-1).
Proof. split; [unfold u63; lia|]. apply (C20_of_int 9223372036854775807). unfold u63; lia. Qed.

(** [of_string] never succeeds: the GMP number is not initialised, whatever the string. *)
Theorem C20_of_string_refuted : exists bytes, forall parse, parse bytes = Some 5 -> z_of_string parse bytes = UB.
Proof. exists [53]. reflexivity. Qed.

(** The block of a boxed number: one word that the collector does not scan, holding the pointer; the
    words are reserved. *)
Theorem C20_block gc ti p : gc_gives_room gc -> ti_ok ti ->
  returns (mk_gmp_int_block gc ti p)
    (fun mem v => v mod 2 = 0 /\ mem v = p /\ Wosize_hd (mem (v - 8)) = 1 /\ No_scan (Tag_hd (mem (v - 8))) = true).
Proof.
  intros Hgc Hti. unfold mk_gmp_int_block.
  assert (Hroom : (exists ti', (if 2 <=? (ti_limit ti - ti_alloc ti) / 8 then Ok ti else gc ti 2) = Ok ti' /\ ti_ok ti' /\ 2 <= room ti')
                  \/ (if 2 <=? (ti_limit ti - ti_alloc ti) / 8 then Ok ti else gc ti 2) = Abort).
  { destruct (Z.leb_spec 2 ((ti_limit ti - ti_alloc ti) / 8)).
    - left. exists ti. auto.
    - destruct (Hgc ti 2 Hti) as [->|(ti' & -> & ? & ?)]; eauto. }
  destruct Hroom as [(ti' & -> & (A & L & _) & R)| ->]; [|left; reflexivity].
  right. cbn [cbind]. unfold room in R.
  assert (Hb : ti_alloc ti' + 16 <= ti_limit ti') by dlia.
  rewrite store_fresh_ok by lia. cbn [cbind].
  rewrite store_fresh_ok by (cbn; lia). cbn [cbind bump ti_alloc ti_limit ti_mem].
  eexists _, _. split; [reflexivity|].
  cbn [ti_alloc ti_limit ti_mem bump].
  replace (ti_alloc ti' + 8 - 8 =? ti_alloc ti' + 8) with false by lia.
  replace (ti_alloc ti' + 8 - 8 =? ti_alloc ti' + 0) with true by lia.
  rewrite Z.eqb_refl. change (Z.lor No_scan_tag (1 * 2 ^ 10)) with 1275.
  change (1275 / 1024) with 1. split; [|split; [lia|]].
  - unfold ti_ok; cbn. repeat split; dlia.
  - repeat split; dlia.
Qed.

Definition ex_ti : tinfo := {| ti_alloc := 800; ti_limit := 816; ti_mem := fun _ => 7 |}.
Example C20_block_ex :
  ti_ok ex_ti /\ exists ti v, mk_gmp_int_block (fun _ _ => Abort) ex_ti 4096 = Ok (ti, v) /\ ti_mem ti v = 4096.
Proof.
  split; [vm_compute; repeat split; try reflexivity; discriminate|].
  eexists _, _. split; [vm_compute; reflexivity|]. vm_compute. reflexivity.
Qed.

(** The allocator given to GMP hands out the same memory twice and clears it in between: two
    successive requests of one limb, with room for both, return the same address, and what was stored
    through the first is gone. *)
Theorem C20_allocator_refuted : exists ti ti1 ti2 ti3 p q, ti_ok ti /\ 4 <= room ti /\
  allocate_function (fun _ _ => Abort) ti 8 = Ok (ti1, p) /\
  store_fresh ti1 p 42 = Ok ti2 /\
  allocate_function (fun _ _ => Abort) ti2 8 = Ok (ti3, q) /\ p = q /\ ti_mem ti3 p <> 42.
Proof.
  exists {| ti_alloc := 800; ti_limit := 880; ti_mem := fun _ => 7 |}.
  eexists _, _, _, _, _. split; [vm_compute; repeat split; try reflexivity; discriminate|].
  split; [vm_compute; discriminate|]. split; [reflexivity|]. split; [reflexivity|]. split; [reflexivity|].
  split; [reflexivity|]. vm_compute. discriminate.
Qed.

Print Assumptions C20_constants.
Print Assumptions C20_succ.
Print Assumptions C20_pred_partial.
Print Assumptions C20_pred_refuted.
Print Assumptions C20_nat_pred.
Print Assumptions C20_nat_case.
Print Assumptions C20_neg_partial.
Print Assumptions C20_neg_refuted.
Print Assumptions C20_abs_partial.
Print Assumptions C20_abs_refuted.
Print Assumptions C20_add_partial.
Print Assumptions C20_add_overflow.
Print Assumptions C20_add_uninitialised.
Print Assumptions C20_add_refuted.
Print Assumptions C20_sub_partial.
Print Assumptions C20_sub_refuted.
Print Assumptions C20_mul_partial.
Print Assumptions C20_mul_refuted.
Print Assumptions C20_div_partial.
Print Assumptions C20_div_refuted.
Print Assumptions C20_rem_partial.
Print Assumptions C20_rem_refuted.
Print Assumptions C20_pow_partial.
Print Assumptions C20_pow_refuted.
Print Assumptions C20_bits_partial.
Print Assumptions C20_bits_refuted.
Print Assumptions C20_lognot.
Print Assumptions C20_order_partial.
Print Assumptions C20_order_refuted.
Print Assumptions C20_leq_partial.
Print Assumptions C20_leq_refuted.
Print Assumptions C20_max_min_partial.
Print Assumptions C20_max_min_refuted.
Print Assumptions C20_compare_partial.
Print Assumptions C20_compare_refuted.
Print Assumptions C20_of_int.
Print Assumptions C20_of_string_refuted.
Print Assumptions C20_block.
Print Assumptions C20_allocator_refuted.
