(** Proofs about the value representation. *)
From Coq Require Import ZArith Lia Bool.
From Verif Require Import RT_Word RT_Values RT_Int63Spec RT_Int63Proofs.
Open Scope Z_scope.
Ltac Zify.zify_post_hook ::= idtac.

(** The documented range of immediate integers, values.h:92-93. *)
Definition immediate_range (n : Z) : Prop := - 2 ^ 62 <= n <= 2 ^ 62 - 1.

Lemma immediate_range_macros n : immediate_range n <-> Min_long <= n <= Max_long.
Proof. reflexivity. Qed.

Lemma Long_val_Val_long n : Long_val (Val_long n) = (n + hB) mod wB - hB.
Proof.
  unfold Long_val. rewrite Val_long_any.
  assert (U : u63 (n mod wB)) by (unfold u63; dlia).
  rewrite s64_word by exact U. rewrite Z.mul_comm, Z.div_add_l by lia. change (1 / 2) with 0.
  unfold signed. destruct (Z.ltb_spec (n mod wB) hB); dlia.
Qed.

Lemma long_roundtrip n : immediate_range n <-> Long_val (Val_long n) = n.
Proof.
  rewrite Long_val_Val_long. unfold immediate_range. change (2 ^ 62) with hB. split; intros; dlia.
Qed.

Lemma Val_long_odd n : Z.odd (Val_long n) = true.
Proof. rewrite Val_long_any. unfold word_of_int. rewrite Z.add_comm. rewrite Z.odd_add_mul_2. reflexivity. Qed.

Lemma Is_long_odd v : Is_long v = Z.odd v.
Proof. unfold Is_long. change 1 with (Z.ones 1) at 1. rewrite Z.land_ones by lia.
  change (2 ^ 1) with 2. rewrite Zmod_odd. destruct (Z.odd v); reflexivity. Qed.

Lemma Is_block_even v : Is_block v = negb (Is_long v).
Proof. unfold Is_block, Is_long. rewrite negb_involutive. reflexivity. Qed.

Lemma Val_long_range n : 0 <= Val_long n < W64.
Proof. unfold Val_long. apply u64_range. Qed.

Lemma Val_long_inj n m : immediate_range n -> immediate_range m -> Val_long n = Val_long m -> n = m.
Proof.
  intros Hn Hm E. apply long_roundtrip in Hn. apply long_roundtrip in Hm. congruence.
Qed.

(** Every odd word is the encoding of exactly one immediate integer. *)
Lemma odd_word_is_long v : 0 <= v < W64 -> Is_long v = true ->
  immediate_range (Long_val v) /\ Val_long (Long_val v) = v.
Proof.
  rewrite Is_long_odd. intros Hv Ho. apply Z.odd_spec in Ho. destruct Ho as [k ->].
  assert (U : u63 k) by (unfold u63; lia).
  change (2 * k + 1) with (word_of_int k). rewrite Long_val_word by assumption.
  split.
  - pose proof (signed_range k U). unfold immediate_range. change (2 ^ 62) with hB. lia.
  - rewrite Val_long_any, signed_mod by assumption. reflexivity.
Qed.

(** ** Headers *)

Lemma Make_header_add wosize tag : 0 <= wosize <= Max_wosize -> 0 <= tag < 256 ->
  Make_header wosize tag = wosize * 1024 + tag.
Proof.
  unfold Max_wosize. intros Hw Ht. unfold Make_header.
  rewrite (lor_add (wosize * 2 ^ 10) tag 10); [|lia|cbn; lia|exists wosize; reflexivity].
  change (2 ^ 10) with 1024. change (2 ^ 54) with 18014398509481984 in Hw. apply u64_small. lia.
Qed.

Lemma Wosize_Make_header wosize tag : 0 <= wosize <= Max_wosize -> 0 <= tag < 256 ->
  Wosize_hd (Make_header wosize tag) = wosize.
Proof.
  intros Hw Ht. rewrite Make_header_add by assumption. unfold Wosize_hd.
  rewrite Z.shiftr_div_pow2 by lia. change (2 ^ 10) with 1024. dlia.
Qed.

Lemma Tag_Make_header wosize tag : 0 <= wosize <= Max_wosize -> 0 <= tag < 256 ->
  Tag_hd (Make_header wosize tag) = tag.
Proof.
  intros Hw Ht. rewrite Make_header_add by assumption. unfold Tag_hd.
  change 255 with (2 ^ 8 - 1). rewrite land_mask by lia. change (2 ^ 8) with 256. dlia.
Qed.

Lemma scan_depends_on_tag wosize tag : 0 <= wosize <= Max_wosize -> 0 <= tag < 256 ->
  (No_scan (Tag_hd (Make_header wosize tag)) = true <-> 251 <= tag).
Proof.
  intros Hw Ht. rewrite Tag_Make_header by assumption. unfold No_scan, No_scan_tag. apply Z.leb_le.
Qed.

(** One past the largest size the header loses the size. *)
Lemma Wosize_overflow : Wosize_hd (Make_header (2 ^ 54) 0) <> 2 ^ 54.
Proof. vm_compute. discriminate. Qed.
