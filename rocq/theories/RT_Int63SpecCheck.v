(** The specification [RT_Int63Spec], written on Z, is the one of Rocq's own primitive
    integers: each operation agrees with the axioms of the standard library's [Uint63] and
    [Sint63].  Only this file depends on those axioms. *)
From Coq Require Import ZArith Lia Bool.
From Coq Require Import Uint63 Sint63.
From Verif Require Import RT_Int63Spec.
Open Scope Z_scope.

Notation val := Uint63.to_Z.

Lemma wB_eq : Uint63.wB = wB.
Proof. reflexivity. Qed.

Lemma val_u63 x : u63 (val x).
Proof. unfold u63. rewrite <- wB_eq. apply Uint63.to_Z_bounded. Qed.

Theorem uint63_range n : u63 n <-> exists x, val x = n.
Proof.
  split.
  - intros H. exists (Uint63.of_Z n). rewrite Uint63.of_Z_spec, wB_eq. apply Z.mod_small. exact H.
  - intros [x <-]. apply val_u63.
Qed.

Theorem uint63_add x y : val (x + y)%uint63 = spec_add (val x) (val y).
Proof. apply Uint63.add_spec. Qed.
Theorem uint63_sub x y : val (x - y)%uint63 = spec_sub (val x) (val y).
Proof. apply Uint63.sub_spec. Qed.
Theorem uint63_mul x y : val (x * y)%uint63 = spec_mul (val x) (val y).
Proof. apply Uint63.mul_spec. Qed.
Theorem uint63_div x y : val (x / y)%uint63 = spec_div (val x) (val y).
Proof. rewrite Uint63.div_spec. unfold spec_div. destruct (Z.eqb_spec (val y) 0) as [->|]; [apply Zdiv_0_r|reflexivity]. Qed.
Theorem uint63_mod x y : val (x mod y)%uint63 = spec_mod (val x) (val y).
Proof. rewrite Uint63.mod_spec. unfold spec_mod. destruct (Z.eqb_spec (val y) 0) as [->|]; [apply Zmod_0_r|reflexivity]. Qed.
Theorem uint63_land x y : val (x land y)%uint63 = spec_land (val x) (val y).
Proof. apply Uint63.land_spec'. Qed.
Theorem uint63_lor x y : val (x lor y)%uint63 = spec_lor (val x) (val y).
Proof. apply Uint63.lor_spec'. Qed.
Theorem uint63_lxor x y : val (x lxor y)%uint63 = spec_lxor (val x) (val y).
Proof. apply Uint63.lxor_spec'. Qed.
Theorem uint63_lsl x y : val (x << y)%uint63 = spec_lsl (val x) (val y).
Proof. apply Uint63.lsl_spec. Qed.
Theorem uint63_lsr x y : val (x >> y)%uint63 = spec_lsr (val x) (val y).
Proof. apply Uint63.lsr_spec. Qed.
Theorem uint63_eqb x y : (x =? y)%uint63 = (val x =? val y).
Proof.
  destruct (Z.eqb_spec (val x) (val y)) as [E|E].
  - apply Uint63.eqb_spec. apply Uint63.to_Z_inj. exact E.
  - apply Uint63.eqb_false_spec. congruence.
Qed.
Theorem uint63_ltb x y : (x <? y)%uint63 = (val x <? val y).
Proof. apply eq_true_iff_eq. rewrite Uint63.ltb_spec, Z.ltb_lt. reflexivity. Qed.
Theorem uint63_leb x y : (x <=? y)%uint63 = (val x <=? val y).
Proof. apply eq_true_iff_eq. rewrite Uint63.leb_spec, Z.leb_le. reflexivity. Qed.
Theorem uint63_compare x y : (x ?= y)%uint63 = (val x ?= val y).
Proof. apply Uint63.compare_spec. Qed.

(** Carry values as a flag and a number. *)
Definition carry_val (c : carry int) : bool * Z :=
  match c with C0 n => (false, val n) | C1 n => (true, val n) end.

Ltac bd := repeat match goal with x : int |- _ => lazymatch goal with
  | _ : u63 (val x) |- _ => fail | _ => pose proof (val_u63 x) end end; unfold u63 in *.

Theorem uint63_addc x y : carry_val (x +c y)%uint63 = spec_addc (val x) (val y).
Proof.
  pose proof (Uint63.addc_spec x y) as H. bd. unfold interp_carry, spec_addc in *.
  destruct (x +c y)%uint63 as [r|r]; cbn [carry_val]; bd; rewrite ?wB_eq in H; f_equal.
  - lia.
  - rewrite <- H. symmetry. apply Z.mod_small. assumption.
  - lia.
  - rewrite <- H. symmetry. change (1 * wB + val r) with (wB + val r). replace (wB + val r) with (val r + 1 * wB) by lia.
    rewrite Z.mod_add by lia. apply Z.mod_small. assumption.
Qed.
Theorem uint63_addcarryc x y : carry_val (addcarryc x y) = spec_addcarryc (val x) (val y).
Proof.
  pose proof (Uint63.addcarryc_spec x y) as H. bd. unfold interp_carry, spec_addcarryc in *.
  destruct (addcarryc x y)%uint63 as [r|r]; cbn [carry_val]; bd; rewrite ?wB_eq in H; f_equal.
  - lia.
  - rewrite <- H. symmetry. apply Z.mod_small. assumption.
  - lia.
  - rewrite <- H. symmetry. replace (1 * wB + val r) with (val r + 1 * wB) by lia.
    rewrite Z.mod_add by lia. apply Z.mod_small. assumption.
Qed.
Theorem uint63_subc x y : carry_val (x -c y)%uint63 = spec_subc (val x) (val y).
Proof.
  pose proof (Uint63.subc_spec x y) as H. bd. unfold interp_carry, spec_subc in *.
  destruct (x -c y)%uint63 as [r|r]; cbn [carry_val]; bd; rewrite ?wB_eq in H; f_equal.
  - lia.
  - rewrite <- H. symmetry. apply Z.mod_small. assumption.
  - lia.
  - rewrite <- H. symmetry. replace (-1 * wB + val r) with (val r + (-1) * wB) by lia.
    rewrite Z.mod_add by lia. apply Z.mod_small. assumption.
Qed.
Theorem uint63_subcarryc x y : carry_val (subcarryc x y) = spec_subcarryc (val x) (val y).
Proof.
  pose proof (Uint63.subcarryc_spec x y) as H. bd. unfold interp_carry, spec_subcarryc in *.
  destruct (subcarryc x y)%uint63 as [r|r]; cbn [carry_val]; bd; rewrite ?wB_eq in H; f_equal.
  - lia.
  - rewrite <- H. symmetry. apply Z.mod_small. assumption.
  - lia.
  - rewrite <- H. symmetry. replace (-1 * wB + val r) with (val r + (-1) * wB) by lia.
    rewrite Z.mod_add by lia. apply Z.mod_small. assumption.
Qed.

Theorem uint63_mulc x y :
  (val (fst (mulc x y)), val (snd (mulc x y))) = spec_mulc (val x) (val y).
Proof.
  pose proof (Uint63.mulc_spec x y) as H. destruct (mulc x y) as [h l]; cbn [fst snd] in *.
  rewrite wB_eq in H. unfold spec_mulc. bd.
  f_equal; [apply Z.div_unique with (val l)|apply Z.mod_unique with (val h)]; lia.
Qed.
Theorem uint63_diveucl x y :
  (val (fst (diveucl x y)), val (snd (diveucl x y))) = spec_diveucl (val x) (val y).
Proof.
  rewrite Uint63.diveucl_def_spec. unfold diveucl_def, spec_diveucl; cbn [fst snd].
  rewrite uint63_div, uint63_mod. reflexivity.
Qed.
(** [Uint63] fixes [diveucl_21] only when the high word is below the divisor. *)
Theorem uint63_diveucl_21 a1 a2 b : val a1 < val b ->
  (val (fst (diveucl_21 a1 a2 b)), val (snd (diveucl_21 a1 a2 b)))
  = spec_diveucl_21 (val a1) (val a2) (val b).
Proof.
  intros Hlt. pose proof (Uint63.diveucl_21_spec a1 a2 b) as H.
  destruct (diveucl_21 a1 a2 b) as [q r]; cbn [fst snd] in *. rewrite wB_eq in H.
  unfold spec_diveucl_21.
  destruct (Z.div_eucl (val a1 * wB + val a2) (val b)) as [q' r'] eqn:E.
  unfold Z.div, Z.modulo. rewrite E. destruct (H Hlt) as [-> ->]. reflexivity.
Qed.
Theorem uint63_addmuldiv p x y : val p <= 63 ->
  val (addmuldiv p x y) = spec_addmuldiv (val p) (val x) (val y).
Proof. intros H. apply Uint63.addmuldiv_spec. exact H. Qed.
Theorem uint63_head0 x : is_head0 (val x) (val (head0 x)).
Proof.
  unfold is_head0. bd. destruct (Z.eq_dec (val x) 0) as [E|E].
  - left. split; [assumption|]. apply Uint63.head00_spec. assumption.
  - right. split; [apply (val_u63 (head0 x))|]. pose proof (Uint63.head0_spec x ltac:(lia)) as P.
    rewrite wB_eq in P. change (wB / 2) with hB in P. rewrite Z.mul_comm. exact P.
Qed.
Theorem uint63_tail0 x : is_tail0 (val x) (val (tail0 x)).
Proof.
  unfold is_tail0. bd. destruct (Z.eq_dec (val x) 0) as [E|E].
  - left. split; [assumption|]. apply Uint63.tail00_spec. assumption.
  - right. split; [apply (val_u63 (tail0 x))|].
    destruct (Uint63.tail0_spec x ltac:(lia)) as (k & _ & P). exists k. exact P.
Qed.

(** ** Signed operations *)

Theorem sint63_signed x : Sint63.to_Z x = signed (val x).
Proof.
  unfold Sint63.to_Z, signed. rewrite uint63_ltb. change (val Sint63.min_int) with hB.
  destruct (Z.ltb_spec (val x) hB); [reflexivity|].
  rewrite Uint63.opp_spec, wB_eq. bd. rewrite Z.mod_opp_l_nz; [|lia|rewrite Z.mod_small; lia].
  rewrite Z.mod_small by lia. lia.
Qed.

Lemma signed_back x : val x = signed (val x) mod wB.
Proof.
  bd. unfold signed. destruct (Z.ltb_spec (val x) hB); [symmetry; apply Z.mod_small; lia|].
  apply Z.mod_unique with (-1); lia.
Qed.

Theorem sint63_asr x p : val (asr x p) = spec_asr (val x) (val p).
Proof.
  rewrite (signed_back (asr x p)), <- sint63_signed, Sint63.asr_spec, !sint63_signed. reflexivity.
Qed.

Theorem sint63_mods x y : val (mods x y) = spec_mods (val x) (val y).
Proof.
  rewrite (signed_back (mods x y)), <- sint63_signed, Sint63.mod_spec, !sint63_signed.
  unfold spec_mods. destruct (Z.eqb_spec (signed (val y)) 0) as [->|]; [|reflexivity].
  f_equal. destruct (signed (val x)); reflexivity.
Qed.

(** [Sint63] fixes [divs] except for the smallest integer divided by -1. *)
Theorem sint63_divs x y : signed (val x) <> - hB \/ signed (val y) <> -1 ->
  val (divs x y) = spec_divs (val x) (val y).
Proof.
  intros H. rewrite (signed_back (divs x y)), <- sint63_signed, Sint63.div_spec, !sint63_signed.
  - unfold spec_divs. destruct (Z.eqb_spec (signed (val y)) 0) as [->|]; [|reflexivity].
    f_equal. destruct (signed (val x)); reflexivity.
  - rewrite !sint63_signed. exact H.
Qed.
