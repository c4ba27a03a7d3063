(** C01, C02: tagged integers and block headers of the C runtime. *)
From Coq Require Import ZArith Bool Lia.
From Verif Require Import RT_Word RT_Values RT_ValuesProofs.
Open Scope Z_scope.

(** ** C01 *)

(** Boxing and reading back is the identity exactly on [-2^62, 2^62-1]. *)
Theorem C01_roundtrip : forall n, - 2 ^ 62 <= n <= 2 ^ 62 - 1 <-> Long_val (Val_long n) = n.
Proof. exact long_roundtrip. Qed.
Example C01_roundtrip_ex : Long_val (Val_long (-5)) = -5 /\ Val_long (-5) = 18446744073709551607 /\
  Long_val (Val_long (2 ^ 62)) = - 2 ^ 62.
Proof. repeat split. Qed.
Print Assumptions C01_roundtrip.

(** The range is the documented one. *)
Theorem C01_range : forall n, - 2 ^ 62 <= n <= 2 ^ 62 - 1 <-> Min_long <= n <= Max_long.
Proof. exact immediate_range_macros. Qed.
Print Assumptions C01_range.

(** The encoded word is a 64-bit word, classified as immediate and never as a block. *)
Theorem C01_immediate : forall n,
  0 <= Val_long n < 2 ^ 64 /\ Is_long (Val_long n) = true /\ Is_block (Val_long n) = false.
Proof.
  exact (fun n => conj (Val_long_range n)
    (conj (eq_trans (Is_long_odd _) (Val_long_odd n))
          (eq_trans (Is_block_even _) (f_equal negb (eq_trans (Is_long_odd _) (Val_long_odd n)))))).
Qed.
Print Assumptions C01_immediate.

(** Different integers have different words. *)
Theorem C01_injective : forall n m,
  - 2 ^ 62 <= n <= 2 ^ 62 - 1 -> - 2 ^ 62 <= m <= 2 ^ 62 - 1 -> Val_long n = Val_long m -> n = m.
Proof. exact Val_long_inj. Qed.
Print Assumptions C01_injective.

(** Every word classified as immediate is the encoding of the integer read from it. *)
Theorem C01_every_immediate : forall v, 0 <= v < 2 ^ 64 -> Is_long v = true ->
  - 2 ^ 62 <= Long_val v <= 2 ^ 62 - 1 /\ Val_long (Long_val v) = v.
Proof. exact odd_word_is_long. Qed.
Example C01_every_immediate_ex : 0 <= 18446744073709551607 < 2 ^ 64 /\ Is_long 18446744073709551607 = true.
Proof. split; [lia|reflexivity]. Qed.
Print Assumptions C01_every_immediate.

(** ** C02 *)

Theorem C02_size : forall wosize tag, 0 <= wosize <= 2 ^ 54 - 1 -> 0 <= tag < 256 ->
  Wosize_hd (Make_header wosize tag) = wosize.
Proof. exact Wosize_Make_header. Qed.
Example C02_size_ex : Wosize_hd (Make_header (2 ^ 54 - 1) 255) = 2 ^ 54 - 1 /\ Make_header 2 1 = 2049.
Proof. split; reflexivity. Qed.
Print Assumptions C02_size.

Theorem C02_tag : forall wosize tag, 0 <= wosize <= 2 ^ 54 - 1 -> 0 <= tag < 256 ->
  Tag_hd (Make_header wosize tag) = tag.
Proof. exact Tag_Make_header. Qed.
Example C02_tag_ex : Tag_hd (Make_header (2 ^ 54 - 1) 255) = 255.
Proof. reflexivity. Qed.
Print Assumptions C02_tag.

(** Two headers with the same tag are scanned or skipped alike, whatever their sizes; blocks
    with tags 251..255 are opaque. *)
Theorem C02_scan_depends_on_tag : forall wosize tag, 0 <= wosize <= 2 ^ 54 - 1 -> 0 <= tag < 256 ->
  (No_scan (Tag_hd (Make_header wosize tag)) = true <-> 251 <= tag).
Proof. exact scan_depends_on_tag. Qed.
Print Assumptions C02_scan_depends_on_tag.

(** The size bound is sharp. *)
Theorem C02_bound_sharp : Wosize_hd (Make_header (2 ^ 54) 0) <> 2 ^ 54.
Proof. exact Wosize_overflow. Qed.
Print Assumptions C02_bound_sharp.
