(** * Conversions of the printer: machine integers *)
From Coq Require Import ZArith NArith List String Ascii Bool Lia.
From Verif Require Import PR_Model PR_Spec PR_Lex.
Import ListNotations.
Local Open Scope string_scope.
Local Open Scope Z_scope.

Definition wrap (h : Z) (z : Z) : Z := (z + h) mod (2 * h) - h.

Lemma wrap63_eq : forall z, wrap63 z = wrap (2 ^ 62) z.
Proof. reflexivity. Qed.
Lemma wrap64_eq : forall z, wrap64 z = wrap (2 ^ 63) z.
Proof. reflexivity. Qed.
Lemma wrap32_eq : forall z, wrap32 z = wrap (2 ^ 31) z.
Proof. reflexivity. Qed.

Lemma wrap_add : forall h x y, wrap h (wrap h x + y) = wrap h (x + y).
Proof.
  intros h x y. unfold wrap. f_equal.
  replace ((x + h) mod (2 * h) - h + y + h) with ((x + h) mod (2 * h) + y) by ring.
  rewrite Zplus_mod_idemp_l. f_equal. ring.
Qed.

Lemma wrap_add_r : forall h x y, wrap h (x + wrap h y) = wrap h (x + y).
Proof. intros. rewrite Z.add_comm, wrap_add. f_equal. ring. Qed.

Lemma wrap_id : forall h z, 0 < h -> - h <= z < h -> wrap h z = z.
Proof. intros h z H B. unfold wrap. rewrite Z.mod_small by lia. ring. Qed.

Lemma wrap_range : forall h z, 0 < h -> - h <= wrap h z < h.
Proof. intros h z H. unfold wrap. pose proof (Z.mod_pos_bound (z + h) (2 * h)). lia. Qed.

Lemma wrap_mod : forall h z, 0 < h -> (wrap h z) mod (2 * h) = z mod (2 * h).
Proof.
  intros h z H. unfold wrap. rewrite Zminus_mod_idemp_l. f_equal. ring.
Qed.

Lemma wrap_neg : forall h z, 0 < h -> wrap h (- wrap h z) = wrap h (- z).
Proof.
  intros h z H. unfold wrap. f_equal.
  replace (- ((z + h) mod (2 * h) - h) + h) with (2 * h - (z + h) mod (2 * h)) by ring.
  rewrite Zminus_mod_idemp_r. f_equal. ring.
Qed.

Lemma wrap_idem : forall h z, wrap h (wrap h z) = wrap h z.
Proof. intros. rewrite <- (Z.add_0_r (wrap h z)) at 1. rewrite wrap_add. f_equal. ring. Qed.

Lemma pow62 : 0 < 2 ^ 62. Proof. reflexivity. Qed.
Lemma pow63 : 0 < 2 ^ 63. Proof. reflexivity. Qed.
Lemma pow31 : 0 < 2 ^ 31. Proof. reflexivity. Qed.

Lemma wrap_dbl : forall h x c, wrap h (wrap h x + (wrap h x + c)) = wrap h (x + (x + c)).
Proof.
  intros. rewrite wrap_add. replace (x + (wrap h x + c)) with (wrap h x + (x + c)) by ring.
  now rewrite wrap_add.
Qed.

Lemma P_to_int_eq : forall p, P_to_int p = wrap63 (Zpos p).
Proof.
  induction p; cbn [P_to_int]; [| |reflexivity]; rewrite IHp; change wrap63 with (wrap (2 ^ 62)).
  - rewrite wrap_add, <- Z.add_assoc, wrap_dbl. f_equal. lia.
  - rewrite wrap_add, wrap_add_r. f_equal. lia.
Qed.

Lemma P_to_int64_eq : forall p, P_to_int64 p = wrap64 (Zpos p).
Proof.
  induction p; cbn [P_to_int64]; [| |reflexivity]; rewrite IHp; change wrap64 with (wrap (2 ^ 63)).
  - rewrite wrap_add_r, wrap_dbl. f_equal. lia.
  - rewrite wrap_add, wrap_add_r. f_equal. lia.
Qed.

Lemma Z_to_int_eq : forall z, Z_to_int z = wrap63 z.
Proof.
  intros [|p|p]; cbn [Z_to_int]; [reflexivity|apply P_to_int_eq|].
  rewrite P_to_int_eq; change wrap63 with (wrap (2 ^ 62)); rewrite wrap_neg by reflexivity. reflexivity.
Qed.

Lemma Z_to_int64_eq : forall z, Z_to_int64 z = wrap64 z.
Proof.
  intros [|p|p]; cbn [Z_to_int64]; [reflexivity|apply P_to_int64_eq|].
  rewrite P_to_int64_eq; change wrap64 with (wrap (2 ^ 63)); rewrite wrap_neg by reflexivity. reflexivity.
Qed.

Lemma camlint_eq : forall z, camlint_of_coqint z = wrap32 z.
Proof.
  intros z. unfold camlint_of_coqint. rewrite Z_to_int_eq. unfold wrap32, wrap63. f_equal.
  change (2 ^ 63) with (2 ^ 32 * 2 ^ 31).
  assert (E : forall y, (y mod (2 ^ 32 * 2 ^ 31)) mod 2 ^ 32 = y mod 2 ^ 32).
  { intros y. rewrite Z.rem_mul_r by lia.
    rewrite (Z.mul_comm (2 ^ 32)), Z_mod_plus_full. apply Zmod_mod. }
  rewrite <- Z.add_sub_swap, <- Z.add_sub_assoc, <- Zplus_mod_idemp_l, E, Zplus_mod_idemp_l.
  replace (z + 2 ^ 62 + (2 ^ 31 - 2 ^ 62)) with (z + 2 ^ 31) by ring. reflexivity.
Qed.

Lemma signed_wrap : forall b z, 0 < b -> signed b z = wrap (2 ^ (b - 1)) z.
Proof.
  intros b z H. unfold signed, wrap.
  assert (P : 2 ^ b = 2 * 2 ^ (b - 1)).
  { rewrite <- Z.pow_succ_r by lia. f_equal. lia. }
  assert (Q : 0 < 2 ^ (b - 1)) by (apply Z.pow_pos_nonneg; lia).
  rewrite P. set (h := 2 ^ (b - 1)) in *. clearbody h. clear P H b.
  pose proof (Z.mod_pos_bound z (2 * h)). pose proof (Z.div_mod z (2 * h)).
  rewrite <- Zplus_mod_idemp_l. set (u := z mod (2 * h)) in *.
  destruct (u <? h) eqn:E; [apply Z.ltb_lt in E|apply Z.ltb_ge in E].
  - rewrite Z.mod_small by lia. ring.
  - replace (u + h) with (u - h + 1 * (2 * h)) by ring. rewrite Z_mod_plus_full.
    rewrite Z.mod_small by lia. ring.
Qed.

Lemma caml32_signed : forall z, camlint_of_coqint z = signed 32 z.
Proof. intros. rewrite camlint_eq, signed_wrap by lia. reflexivity. Qed.

Lemma caml64_signed : forall z, camlint64_of_coqint z = signed 64 z.
Proof. intros. unfold camlint64_of_coqint. rewrite Z_to_int64_eq, signed_wrap by lia. reflexivity. Qed.

Lemma sdec_nonneg : forall z, 0 <= z -> sdec z = dec (Z.to_N z).
Proof. intros [|p|p] H; [reflexivity|reflexivity|lia]. Qed.

Lemma sdec_neg : forall z, z < 0 -> sdec z = ("-" ++ dec (Z.abs_N z))%string.
Proof. intros [|p|p] H; [lia|lia|reflexivity]. Qed.

Lemma udec32_eq : forall z, udec32 (camlint_of_coqint z) = dec (Z.to_N (z mod 2 ^ 32)).
Proof.
  intros. unfold udec32. rewrite camlint_eq, wrap32_eq. do 2 f_equal. apply (wrap_mod (2 ^ 31)). reflexivity.
Qed.

Lemma udec64_eq : forall z, udec64 (camlint64_of_coqint z) = dec (Z.to_N (z mod 2 ^ 64)).
Proof.
  intros. unfold udec64, camlint64_of_coqint. rewrite Z_to_int64_eq, wrap64_eq. do 2 f_equal.
  apply (wrap_mod (2 ^ 63)). reflexivity.
Qed.

Lemma pow_align : forall l, (l < 63)%N -> wrap64 (2 ^ Z.of_N l) = 2 ^ Z.of_N l.
Proof.
  intros l H. rewrite wrap64_eq. apply wrap_id; [reflexivity|].
  assert (A : 0 < 2 ^ Z.of_N l) by (apply Z.pow_pos_nonneg; lia).
  assert (B : 2 ^ Z.of_N l < 2 ^ 63) by (apply Z.pow_lt_mono_r; lia).
  change (2 ^ 63) with 9223372036854775808 in *. lia.
Qed.

Lemma array_size : forall n, 0 <= n -> n < 2 ^ 31 -> camlint_of_coqint n = n.
Proof.
  intros n A B. rewrite camlint_eq, wrap32_eq. apply wrap_id; [reflexivity|].
  change (2 ^ 31) with 2147483648 in *. lia.
Qed.

Lemma label_value : forall z, - 2 ^ 62 <= z < 2 ^ 62 -> Z_to_int z = z.
Proof. intros z H. rewrite Z_to_int_eq, wrap63_eq. apply wrap_id; [reflexivity|exact H]. Qed.

Lemma P_of_int_succ : forall n, P_of_int n = Pos.of_succ_nat n.
Proof. induction n; cbn [P_of_int Pos.of_succ_nat]; [reflexivity|now rewrite IHn]. Qed.
