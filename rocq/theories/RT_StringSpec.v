(** Specification of runtime strings, independent of the C code: the layout of
    OCaml strings (which the collector and the rest of the runtime presume,
    /repo/runtime/prim_string.c:15-16) and the operations of Rocq's
    [PrimString] on lists of bytes. *)
From Coq Require Import ZArith List.
Import ListNotations.
Open Scope Z_scope.

Definition byte (b : Z) : Prop := 0 <= b < 256.

(** The [n] low bytes of [v], lowest first *)
Fixpoint le (n : nat) (v : Z) : list Z :=
  match n with
  | O => []
  | S n => v mod 256 :: le n (v / 256)
  end.

(** Size in words of the block for [n] bytes *)
Definition wsize (n : Z) : Z := n / 8 + 1.

(** What follows the header: the bytes, zeros up to the last byte of the block,
    which tells how many bytes were added *)
Definition string_body (bs : list Z) : list Z :=
  let n := Z.of_nat (length bs) in
  let pad := 8 * wsize n - 1 - n in
  bs ++ repeat 0 (Z.to_nat pad) ++ [pad].

(** Header word: tag 252 and size. *)
Definition string_header (n : Z) : Z := 252 + 1024 * wsize n.

Definition bytes_at (m : Z -> option Z) (a : Z) (l : list Z) : Prop :=
  forall i, (i < length l)%nat -> m (a + Z.of_nat i) = Some (nth i l 0).

(** [v] points to a runtime string with contents [bs]. *)
Definition is_string (m : Z -> option Z) (v : Z) (bs : list Z) : Prop :=
  bytes_at m (v - 8) (le 8 (string_header (Z.of_nat (length bs))) ++ string_body bs).

(** Operations of [PrimString]: /repo uses those of the Rocq standard library
    (PrimString.v, PrimStringAxioms.v).  [max_length] on 64 bits. *)
Definition spec_max_length : Z := 16777211.
Definition spec_get (bs : list Z) (i : Z) : Z := nth (Z.to_nat i) bs 0.
Definition spec_make (n c : Z) : list Z := repeat (c mod 256) (Z.to_nat (Z.min spec_max_length n)).
Definition spec_sub (bs : list Z) (off len : Z) : list Z :=
  firstn (Z.to_nat len) (skipn (Z.to_nat off) bs).
Definition spec_cat (xs ys : list Z) : list Z := firstn (Z.to_nat spec_max_length) (xs ++ ys).

(** Lexicographic comparison *)
Fixpoint spec_compare (xs ys : list Z) : comparison :=
  match xs, ys with
  | [], [] => Eq
  | [], _ => Lt
  | _, [] => Gt
  | x :: xs, y :: ys => match x ?= y with Eq => spec_compare xs ys | c => c end
  end.
