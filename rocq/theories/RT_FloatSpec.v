(** Specification of floats: patterns as numbers of Rocq's [SpecFloat], the reference the axioms of
    Rocq's primitive floats refer to (FloatAxioms.v). *)
From Coq Require Import ZArith SpecFloat FloatClass.
Open Scope Z_scope.

(** IEEE 754 binary64. *)
Definition sf_of_bits (u : Z) : spec_float :=
  let s := 2 ^ 63 <=? u in
  let e := u / 2 ^ 52 mod 2 ^ 11 in
  let m := u mod 2 ^ 52 in
  if e =? 2047 then if m =? 0 then S754_infinity s else S754_nan
  else if e =? 0 then if m =? 0 then S754_zero s else S754_finite s (Z.to_pos m) (-1074)
  else S754_finite s (Z.to_pos (m + 2 ^ 52)) (e - 1075).

(** A 64-bit pattern. *)
Definition is_bits (u : Z) : Prop := 0 <= u < 2 ^ 64.

(** Comparison results as words: FEq, FLt, FGt, FNotComparable are the constructors 0, 1, 2, 3 of
    [float_comparison] (Corelib FloatClass / PrimFloat). *)
Definition word_of_fcomparison (c : option comparison) : Z :=
  match c with Some Eq => 1 | Some Lt => 3 | Some Gt => 5 | None => 7 end.

(** The constructors of [float_class] in order. *)
Definition word_of_class (c : float_class) : Z :=
  match c with
  | PNormal => 1 | NNormal => 3 | PSubn => 5 | NSubn => 7 | PZero => 9 | NZero => 11
  | PInf => 13 | NInf => 15 | NaN => 17
  end.

(** [r] is the least double above [u] / the greatest below. *)
Definition sf_lt (u v : Z) : Prop := SFltb (sf_of_bits u) (sf_of_bits v) = true.
Definition sf_le (u v : Z) : Prop := SFleb (sf_of_bits u) (sf_of_bits v) = true.
Definition is_succ (u r : Z) : Prop :=
  is_bits r /\ sf_lt u r /\ forall v, is_bits v -> sf_lt u v -> sf_le r v.
Definition is_pred (u r : Z) : Prop :=
  is_bits r /\ sf_lt r u /\ forall v, is_bits v -> sf_lt v u -> sf_le v r.

(** A boxed float: a block of one word that is not scanned, holding the pattern. *)
Definition is_float (mem : Z -> Z) (v u : Z) : Prop :=
  v mod 8 = 0 /\ mem (v - 8) = 1 * 1024 + 253 /\ mem v = u.
