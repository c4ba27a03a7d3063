(** Floating-point primitives of the runtime.

    Models: /repo/runtime/prim_floats.c.  A double is its 64-bit pattern.  Trusted, as in Annex F of
    the C standard: the comparison operators compare the numbers, [fpclassify] and [signbit] look at
    the pattern, [fabs] and [-] act on the sign bit, [frexp] and [ldexp] scale exactly, conversion of
    an integer rounds to nearest even.  The arithmetic operators and [sqrt] are the hardware's and are
    not modelled; what they do with memory is [mk_float]. *)
From Coq Require Import ZArith Lia Bool List.
From Verif Require Import RT_Word RT_Values RT_Int63Model.
Import ListNotations.
Open Scope Z_scope.
Open Scope c_scope.

Notation E52 := 4503599627370496.

(** The fields of a double (IEEE 754 binary64): sign, biased exponent, fraction. *)
Definition d_sign (u : Z) : bool := H64 <=? u.
Definition d_exp (u : Z) : Z := u / E52 mod 2048.
Definition d_frac (u : Z) : Z := u mod E52.

(** Magnitude of a number that is not a NaN, in units of 2^-1074 (infinity is 2^1024). *)
Definition d_mag (u : Z) : Z :=
  if d_exp u =? 0 then d_frac u else (d_frac u + E52) * 2 ^ (d_exp u - 1).
Definition d_val (u : Z) : Z := if d_sign u then - d_mag u else d_mag u.

(** [fpclassify], math.h. *)
Inductive fpclass : Type := FP_NAN | FP_INFINITE | FP_ZERO | FP_SUBNORMAL | FP_NORMAL.
Definition fpclassify (u : Z) : fpclass :=
  if d_exp u =? 2047 then if d_frac u =? 0 then FP_INFINITE else FP_NAN
  else if d_exp u =? 0 then if d_frac u =? 0 then FP_ZERO else FP_SUBNORMAL
  else FP_NORMAL.
Definition isnan (u : Z) : bool := match fpclassify u with FP_NAN => true | _ => false end.

(** The C comparison operators on doubles: false when an operand is a NaN. *)
Definition d_lt (x y : Z) : bool := negb (isnan x) && negb (isnan y) && (d_val x <? d_val y).
Definition d_le (x y : Z) : bool := negb (isnan x) && negb (isnan y) && (d_val x <=? d_val y).
Definition d_eq (x y : Z) : bool := negb (isnan x) && negb (isnan y) && (d_val x =? d_val y).

(** The constants [INFINITY], [-INFINITY], 0.5 and 1.0 of prim_floats.c:154,235,247. *)
Definition d_inf : Z := 9218868437227405312.
Definition d_ninf : Z := 18442240474082181120.
Definition d_half : Z := 4602678819172646912.
Definition d_one : Z := 4607182418800017408.

(** [fabs] and unary minus. *)
Definition fabs (u : Z) : Z := if d_sign u then u - H64 else u.
Definition d_opp (u : Z) : Z := if d_sign u then u - H64 else u + H64.

(** [frexp] on a finite number that is not zero: a pattern with magnitude in [1/2, 1), and the
    exponent; subnormal numbers are normalised. *)
Definition frexp (u : Z) : Z * Z :=
  let s := if d_sign u then H64 else 0 in
  if d_exp u =? 0 then
    let k := 52 - Z.log2 (d_frac u) in
    (s + 1022 * E52 + (d_frac u * 2 ^ k - E52), - 1021 - k)
  else (s + 1022 * E52 + d_frac u, d_exp u - 1022).

(** [(unsigned long long) ldexp(f, n)] for a positive [f] whose product is below 2^64. *)
Definition ldexp_int (f n : Z) : Z := d_mag f * 2 ^ n / 2 ^ 1074.

(** values.h [Double_val(v)]: the pattern stored at the address [v]. *)
Definition Double_val (ti : tinfo) (v : Z) : Z := ti_mem ti v.

(** prim_floats.c:39-42 *)
Definition FEq : Z := 1.
Definition FLt : Z := 3.
Definition FGt : Z := 5.
Definition FNotComparable : Z := 7.

(** prim_floats.c:44-52: the values themselves are compared, as signed words. *)
Definition prim_float_compare (ti : tinfo) (x y : Z) : Z :=
  if s64 x <? s64 y then FLt
  else if s64 x >? s64 y then FGt
  else if s64 x =? s64 y then FEq
  else FNotComparable.

(** prim_floats.c:54-59 *)
Definition prim_float_eqb (ti : tinfo) (x y : Z) : Z := mk_bool (d_eq (Double_val ti x) (Double_val ti y)).

Section Division.
(** The quotient of two doubles (hardware). *)
Variable d_div : Z -> Z -> Z.

(** prim_floats.c:61-81 *)
Definition prim_float_equal (ti : tinfo) (x y : Z) : Z :=
  let xv := Double_val ti x in
  let yv := Double_val ti y in
  match fpclassify xv with
  | FP_NORMAL | FP_SUBNORMAL | FP_INFINITE => mk_bool (d_eq xv yv)
  | FP_NAN => mk_bool (isnan yv)
  | FP_ZERO => mk_bool (d_eq xv yv && d_eq (d_div d_one xv) (d_div d_one yv))
  end.
End Division.

(** prim_floats.c:83-88 *)
Definition prim_float_ltb (ti : tinfo) (x y : Z) : Z := mk_bool (d_lt (Double_val ti x) (Double_val ti y)).

(** prim_floats.c:90-94 *)
Definition prim_float_leb (ti : tinfo) (x y : Z) : Z := mk_bool (d_le (Double_val ti x) (Double_val ti y)).

(** prim_floats.c:147-157 *)
Definition prim_float_normfr_mantissa (ti : tinfo) (x : Z) : Z :=
  let f := fabs (Double_val ti x) in
  if d_le d_half f && d_lt f d_one then Val_long (ldexp_int f 53) else Val_long 0.

(** prim_floats.c:159-171 *)
Definition prim_float_classify (ti : tinfo) (x : Z) : Z :=
  let xv := Double_val ti x in
  match fpclassify xv with
  | FP_NAN => 8 * 2 + 1
  | FP_INFINITE => if d_sign xv then 7 * 2 + 1 else 6 * 2 + 1
  | FP_ZERO => if d_sign xv then 5 * 2 + 1 else 4 * 2 + 1
  | FP_SUBNORMAL => if d_sign xv then 3 * 2 + 1 else 2 * 2 + 1
  | FP_NORMAL => if d_sign xv then 1 * 2 + 1 else 1
  end.

(** prim_floats.c:231-242; [bits.u] is an unsigned 64-bit number. *)
Definition next_up (x : Z) : Z :=
  if negb (d_lt x d_inf) then x
  else
    let i := s64 x in
    if i >=? 0 then u64 (x + 1)
    else if u64 (x + x) =? 0 then 1
    else u64 (x - 1).

(** prim_floats.c:244-254 *)
Definition next_down (x : Z) : Z :=
  if negb (d_lt d_ninf x) then x
  else
    let i := s64 x in
    if i =? 0 then u64 (- H64 + 1)
    else if i <? 0 then u64 (x + 1)
    else u64 (x - 1).

Section Alloc.
Variable gc : tinfo -> Z -> cres tinfo.

(** prim_floats.c:17-37 with [Double_block] 1277. *)
Definition mk_float (ti : tinfo) (x : Z) : cres (tinfo * Z) :=
  ti <- (if 2 <=? (ti_limit ti - ti_alloc ti) / 8 then Ok ti else gc ti 2) ;;
  let alloc := ti_alloc ti in
  ti <- store_fresh ti (alloc + 0) 1277 ;;
  ti <- store_fresh ti (alloc + 8) x ;;
  Ok (bump ti 2, alloc + 8).

(** prim_floats.c:97 *)
Definition eshift : Z := 2101.

(** prim_floats.c:99-122; [e + eshift] is an unsigned 64-bit sum. *)
Definition prim_float_frshiftexp (ti : tinfo) (x : Z) : cres (tinfo * Z) :=
  let xv := Double_val ti x in
  match fpclassify xv with
  | FP_NAN | FP_INFINITE | FP_ZERO => mk_pair ti x (Val_long 0)
  | FP_NORMAL | FP_SUBNORMAL =>
      '(ti, frac) <- mk_float ti (fst (frexp xv)) ;;
      mk_pair ti frac (Val_long (u64 (snd (frexp xv) + eshift)))
  end.

(** prim_floats.c:124-145: the second argument is not used. *)
Definition prim_float_ldshiftexp (ti : tinfo) (x y : Z) : cres (tinfo * Z) :=
  let xv := Double_val ti x in
  match fpclassify xv with
  | FP_NAN | FP_INFINITE | FP_ZERO => mk_pair ti x (Val_long 0)
  | FP_NORMAL | FP_SUBNORMAL =>
      '(ti, frac) <- mk_float ti (fst (frexp xv)) ;;
      mk_pair ti frac (Val_long (u64 (snd (frexp xv) + eshift)))
  end.

(** prim_floats.c:173-177 *)
Definition prim_float_abs (ti : tinfo) (x : Z) : cres (tinfo * Z) := mk_float ti (fabs (Double_val ti x)).

(** prim_floats.c:185-189 *)
Definition prim_float_opp (ti : tinfo) (x : Z) : cres (tinfo * Z) := mk_float ti (d_opp (Double_val ti x)).

(** prim_floats.c:191-217 (div, mul, add, sub), the operator being the hardware's. *)
Definition prim_float_arith (op : Z -> Z -> Z) (ti : tinfo) (x y : Z) : cres (tinfo * Z) :=
  mk_float ti (op (Double_val ti x) (Double_val ti y)).

(** prim_floats.c:219-223; [of_long] is the conversion of a signed 64-bit integer to double. *)
Definition prim_float_of_uint63 (of_long : Z -> Z) (ti : tinfo) (x : Z) : cres (tinfo * Z) :=
  mk_float ti (of_long (Long_val x)).

(** prim_floats.c:256-264 *)
Definition prim_float_next_up (ti : tinfo) (x : Z) : cres (tinfo * Z) := mk_float ti (next_up (Double_val ti x)).
Definition prim_float_next_down (ti : tinfo) (x : Z) : cres (tinfo * Z) := mk_float ti (next_down (Double_val ti x)).
End Alloc.
