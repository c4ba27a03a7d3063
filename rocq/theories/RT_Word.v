(** Machine words and the C integer operations the runtime uses.

    Models: the integer types fixed by /repo/runtime/m.h:1-20 and
    /repo/runtime/config.h (intnat = long, uintnat = unsigned long, both 64 bit,
    two's complement).  The C compiler itself is trusted.

    A word is a [Z] in [0, 2^64) (the unsigned view).  The signed view is [s64].
    Operations that C leaves undefined return the distinct outcome [UB]. *)
From Coq Require Import ZArith Lia Bool.
Open Scope Z_scope.

(** Outcome of running a piece of C: a result, undefined behaviour, or a call to
    abort/exit (/repo/runtime/gc_stack.c:153-156 [abort_with]). *)
Inductive cres (A : Type) : Type :=
| Ok (a : A)
| UB
| Abort.
Arguments Ok {A} a.
Arguments UB {A}.
Arguments Abort {A}.

(** Sequencing of C statements (C language, no particular source line). *)
Definition cbind {A B} (m : cres A) (k : A -> cres B) : cres B :=
  match m with Ok a => k a | UB => UB | Abort => Abort end.

Declare Scope c_scope.
Delimit Scope c_scope with c.
Notation "x <- e ;; k" := (cbind e (fun x => k))
  (at level 61, e at next level, right associativity) : c_scope.
Notation "' p <- e ;; k" := (cbind e (fun p => k))
  (at level 61, p pattern, e at next level, right associativity) : c_scope.

(** 2^64 and 2^63 as literals, so that [lia] sees constants. *)
Notation W64 := 18446744073709551616.
Notation H64 := 9223372036854775808.

(** Conversion to an unsigned 64-bit type: reduction modulo 2^64
    (casts [(uintnat)], [unsigned long long] in /repo/runtime/values.h:90,96). *)
Definition u64 (x : Z) : Z := x mod W64.

(** Reinterpretation of a word as a signed 64-bit integer
    (casts [(intnat)], [signed long long] in /repo/runtime/values.h:90 and
    /repo/runtime/prim_int63.c:159). *)
Definition s64 (x : Z) : Z := if x mod W64 <? H64 then x mod W64 else x mod W64 - W64.

(** In range for a signed 64-bit type. *)
Definition fits_s64 (x : Z) : bool := (- H64 <=? x) && (x <? H64).

(** Unsigned left shift; shifting by the width or more is undefined in C. *)
Definition shl_u (x n : Z) : cres Z :=
  if (0 <=? n) && (n <? 64) then Ok (u64 (x * 2 ^ n)) else UB.

(** Unsigned right shift. *)
Definition shr_u (x n : Z) : cres Z :=
  if (0 <=? n) && (n <? 64) then Ok (x / 2 ^ n) else UB.

(** Right shift of a signed operand (given and returned in the signed view).
    Implementation-defined for negative operands; the source relies on the
    arithmetic shift (/repo/runtime/prim_int63.c:158), so does the model. *)
Definition shr_s (x n : Z) : cres Z :=
  if (0 <=? n) && (n <? 64) then Ok (x / 2 ^ n) else UB.

(** Signed addition, subtraction, multiplication and negation: overflow is
    undefined. *)
Definition add_s (x y : Z) : cres Z := if fits_s64 (x + y) then Ok (x + y) else UB.
Definition sub_s (x y : Z) : cres Z := if fits_s64 (x - y) then Ok (x - y) else UB.
Definition mul_s (x y : Z) : cres Z := if fits_s64 (x * y) then Ok (x * y) else UB.
Definition neg_s (x : Z) : cres Z := if fits_s64 (- x) then Ok (- x) else UB.

(** Unsigned division and remainder: division by zero is undefined. *)
Definition div_u (x y : Z) : cres Z := if y =? 0 then UB else Ok (x / y).
Definition rem_u (x y : Z) : cres Z := if y =? 0 then UB else Ok (x mod y).

(** Signed division and remainder truncate towards zero; division by zero and
    overflow of the quotient are undefined. *)
Definition div_s (x y : Z) : cres Z :=
  if y =? 0 then UB else if fits_s64 (Z.quot x y) then Ok (Z.quot x y) else UB.
Definition rem_s (x y : Z) : cres Z :=
  if y =? 0 then UB else if fits_s64 (Z.quot x y) then Ok (Z.rem x y) else UB.

Ltac Zify.zify_post_hook ::= Z.div_mod_to_equations.

Lemma u64_small x : 0 <= x < W64 -> u64 x = x.
Proof. unfold u64. intros; rewrite Z.mod_small; lia. Qed.

Lemma u64_range x : 0 <= u64 x < W64.
Proof. unfold u64. lia. Qed.

Lemma s64_u64 x : s64 (u64 x) = s64 x.
Proof. unfold s64, u64. rewrite Z.mod_mod by lia. reflexivity. Qed.

Lemma u64_s64 x : u64 (s64 x) = u64 x.
Proof. unfold s64, u64. destruct (x mod W64 <? H64) eqn:E; lia. Qed.

Lemma s64_range x : - H64 <= s64 x < H64.
Proof. unfold s64. destruct (x mod W64 <? H64) eqn:E; lia. Qed.

Lemma s64_fits x : - H64 <= x < H64 -> s64 x = x.
Proof. unfold s64. intros. destruct (x mod W64 <? H64) eqn:E; lia. Qed.

Lemma s64_inj x y : 0 <= x < W64 -> 0 <= y < W64 -> s64 x = s64 y -> x = y.
Proof.
  unfold s64. intros.
  destruct (x mod W64 <? H64) eqn:E; destruct (y mod W64 <? H64) eqn:E2; lia.
Qed.

Lemma fits_s64_true x : - H64 <= x < H64 -> fits_s64 x = true.
Proof. unfold fits_s64. intros. apply andb_true_intro; split; lia. Qed.

(** Masks are reductions modulo powers of two. *)
Lemma land_mask x n : 0 <= n -> Z.land x (2 ^ n - 1) = x mod 2 ^ n.
Proof. intros. rewrite <- Z.land_ones by assumption. rewrite Z.ones_equiv. now rewrite Z.sub_1_r. Qed.
