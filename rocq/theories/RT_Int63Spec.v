(** Specification of the primitive 63-bit integers, independent of the C code.

    Integers are the mathematical integers 0 <= n < 2^63, the operations are those of
    Rocq's Uint63 / Sint63 libraries written on Z.  The file [RT_Int63SpecCheck] relates
    them to the axioms of Rocq's own [Uint63]. *)
From Coq Require Import ZArith Bool List.
Open Scope Z_scope.

(** Number of 63-bit integers. *)
Notation wB := 9223372036854775808.
Notation hB := 4611686018427387904.

(** [n] is a 63-bit unsigned integer. *)
Definition u63 (n : Z) : Prop := 0 <= n < wB.

(** Signed reading of a 63-bit integer. *)
Definition signed (n : Z) : Z := if n <? hB then n else n - wB.

(** How the C back end represents the 63-bit integer [n] as a machine word: shifted left
    with the low bit set. *)
Definition word_of_int (n : Z) : Z := 2 * n + 1.

(** How it represents booleans ([bool] with [false] = constructor 0, [true] = constructor
    1, /repo/cplugin/Loader.v:3) and comparison results (Eq, Lt, Gt = constructors
    0, 1, 2): constant constructor number k is the word 2k+1. *)
Definition word_of_bool (b : bool) : Z := if b then 3 else 1.
Definition word_of_comparison (c : comparison) : Z :=
  match c with Eq => 1 | Lt => 3 | Gt => 5 end.

(** Uint63 operations on Z. *)
Definition spec_add x y := (x + y) mod wB.
Definition spec_sub x y := (x - y) mod wB.
Definition spec_mul x y := (x * y) mod wB.
Definition spec_div x y := if y =? 0 then 0 else x / y.
Definition spec_mod x y := if y =? 0 then x else x mod y.
Definition spec_land := Z.land.
Definition spec_lor := Z.lor.
Definition spec_lxor := Z.lxor.
Definition spec_lsl x p := (x * 2 ^ p) mod wB.
Definition spec_lsr x p := x / 2 ^ p.

(** Sint63 operations: arithmetic on the signed readings, brought back modulo 2^63 (for
    [asr] Sint63 reads the shift amount as signed too). *)
Definition spec_asr x p := (signed x / 2 ^ (signed p)) mod wB.
Definition spec_divs x y := (if signed y =? 0 then 0 else Z.quot (signed x) (signed y)) mod wB.
Definition spec_mods x y := (if signed y =? 0 then signed x else Z.rem (signed x) (signed y)) mod wB.

(** Carry results: the flag tells whether the exact result left the range. *)
Definition spec_addc x y : bool * Z := (wB <=? x + y, (x + y) mod wB).
Definition spec_addcarryc x y : bool * Z := (wB <=? x + y + 1, (x + y + 1) mod wB).
Definition spec_subc x y : bool * Z := (x - y <? 0, (x - y) mod wB).
Definition spec_subcarryc x y : bool * Z := (x - y - 1 <? 0, (x - y - 1) mod wB).

(** Double-width results (first component is the high half / the quotient). *)
Definition spec_mulc x y : Z * Z := ((x * y) / wB, (x * y) mod wB).
Definition spec_diveucl x y : Z * Z := (spec_div x y, spec_mod x y).
Definition spec_diveucl_21 xh xl y : Z * Z :=
  ((xh * wB + xl) / y, (xh * wB + xl) mod y).
Definition spec_addmuldiv p x y := (x * 2 ^ p + y / 2 ^ (63 - p)) mod wB.

(** [r] is the number of leading zeroes (of 63) of [x]. *)
Definition is_head0 (x r : Z) : Prop :=
  (x = 0 /\ r = 63) \/ (0 <= r /\ hB <= x * 2 ^ r < wB).
(** [r] is the number of trailing zeroes of [x]. *)
Definition is_tail0 (x r : Z) : Prop :=
  (x = 0 /\ r = 63) \/ (0 <= r /\ exists k, x = (2 * k + 1) * 2 ^ r).

(** Heap blocks: [v] is the address of the first field; the header word before it holds
    the number of fields times 1024 plus the constructor number.  [mem] maps byte
    addresses of words to words. *)
Definition is_block (mem : Z -> Z) (v : Z) (tag : Z) (fields : list Z) : Prop :=
  v mod 8 = 0 /\ mem (v - 8) = Z.of_nat (length fields) * 1024 + tag /\
  forall i w, nth_error fields i = Some w -> mem (v + 8 * Z.of_nat i) = w.

(** The value [C0 n] or [C1 n] of type [carry int]. *)
Definition is_carry (mem : Z -> Z) (v : Z) (c : bool * Z) : Prop :=
  is_block mem v (if fst c then 1 else 0) (word_of_int (snd c) :: nil).

(** The pair [(a, b)] of type [int * int]. *)
Definition is_pair (mem : Z -> Z) (v : Z) (p : Z * Z) : Prop :=
  is_block mem v 0 (word_of_int (fst p) :: word_of_int (snd p) :: nil).
