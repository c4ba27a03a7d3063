(** C09-C14: the 63-bit integer primitives of the C runtime.

    Numbers are mathematical integers in [0, 2^63) ([u63]); [word_of_int n] is the machine
    word 2n+1; [Ok w] means the C function returned [w] without undefined behaviour.  The
    right-hand sides are the functions of [RT_Int63Spec], which [RT_Int63SpecCheck] proves
    equal to Rocq's own [Uint63]/[Sint63] operations. *)
From Coq Require Import ZArith Bool Lia.
From Verif Require Import RT_Word RT_Values RT_Int63Model RT_Int63Spec RT_Int63Proofs RT_Int63AllocProofs.
Open Scope Z_scope.

(** ** C09 *)

Theorem C09_add :
  forall x y, u63 x -> u63 y ->
    prim_int63_add (word_of_int x) (word_of_int y) = Ok (word_of_int (spec_add x y)).
Proof. exact add_ok. Qed.
Example C09_add_ex :
  u63 9223372036854775807 /\ u63 5 /\
  prim_int63_add (word_of_int 9223372036854775807) (word_of_int 5) = Ok (word_of_int 4).
Proof. unfold u63; repeat split; try lia. Qed.
Print Assumptions C09_add.

Theorem C09_sub :
  forall x y, u63 x -> u63 y ->
    prim_int63_sub (word_of_int x) (word_of_int y) = Ok (word_of_int (spec_sub x y)).
Proof. exact sub_ok. Qed.
Example C09_sub_ex :
  u63 3 /\ u63 5 /\
  prim_int63_sub (word_of_int 3) (word_of_int 5) = Ok (word_of_int 9223372036854775806).
Proof. unfold u63; repeat split; try lia. Qed.
Print Assumptions C09_sub.

Theorem C09_mul :
  forall x y, u63 x -> u63 y ->
    prim_int63_mul (word_of_int x) (word_of_int y) = Ok (word_of_int (spec_mul x y)).
Proof. exact mul_ok. Qed.
Example C09_mul_ex :
  u63 9223372036854775807 /\ u63 9223372036854775807 /\
  prim_int63_mul (word_of_int 9223372036854775807) (word_of_int 9223372036854775807) = Ok (word_of_int 1).
Proof. unfold u63; repeat split; try lia. Qed.
Print Assumptions C09_mul.

Theorem C09_div :
  forall x y, u63 x -> u63 y ->
    prim_int63_div (word_of_int x) (word_of_int y) = Ok (word_of_int (spec_div x y)).
Proof. exact div_ok. Qed.
Example C09_div_ex :
  u63 9223372036854775807 /\ u63 10 /\
  prim_int63_div (word_of_int 9223372036854775807) (word_of_int 10) = Ok (word_of_int 922337203685477580).
Proof. unfold u63; repeat split; try lia. Qed.
Print Assumptions C09_div.

Theorem C09_mod :
  forall x y, u63 x -> u63 y ->
    prim_int63_mod (word_of_int x) (word_of_int y) = Ok (word_of_int (spec_mod x y)).
Proof. exact mod_ok. Qed.
Example C09_mod_ex :
  u63 9223372036854775807 /\ u63 10 /\
  prim_int63_mod (word_of_int 9223372036854775807) (word_of_int 10) = Ok (word_of_int 7).
Proof. unfold u63; repeat split; try lia. Qed.
Print Assumptions C09_mod.

Theorem C09_land :
  forall x y, u63 x -> u63 y ->
    prim_int63_land (word_of_int x) (word_of_int y) = Ok (word_of_int (spec_land x y)).
Proof. exact land_ok. Qed.
Example C09_land_ex :
  u63 12 /\ u63 10 /\
  prim_int63_land (word_of_int 12) (word_of_int 10) = Ok (word_of_int 8).
Proof. unfold u63; repeat split; try lia. Qed.
Print Assumptions C09_land.

Theorem C09_lor :
  forall x y, u63 x -> u63 y ->
    prim_int63_lor (word_of_int x) (word_of_int y) = Ok (word_of_int (spec_lor x y)).
Proof. exact lor_ok. Qed.
Example C09_lor_ex :
  u63 12 /\ u63 10 /\
  prim_int63_lor (word_of_int 12) (word_of_int 10) = Ok (word_of_int 14).
Proof. unfold u63; repeat split; try lia. Qed.
Print Assumptions C09_lor.

Theorem C09_lxor :
  forall x y, u63 x -> u63 y ->
    prim_int63_lxor (word_of_int x) (word_of_int y) = Ok (word_of_int (spec_lxor x y)).
Proof. exact lxor_ok. Qed.
Example C09_lxor_ex :
  u63 12 /\ u63 10 /\
  prim_int63_lxor (word_of_int 12) (word_of_int 10) = Ok (word_of_int 6).
Proof. unfold u63; repeat split; try lia. Qed.
Print Assumptions C09_lxor.

Theorem C09_lsl :
  forall x y, u63 x -> u63 y ->
    prim_int63_lsl (word_of_int x) (word_of_int y) = Ok (word_of_int (spec_lsl x y)).
Proof. exact lsl_ok. Qed.
Example C09_lsl_ex :
  u63 5 /\ u63 62 /\
  prim_int63_lsl (word_of_int 5) (word_of_int 62) = Ok (word_of_int 4611686018427387904).
Proof. unfold u63; repeat split; try lia. Qed.
Print Assumptions C09_lsl.

Theorem C09_lsr :
  forall x y, u63 x -> u63 y ->
    prim_int63_lsr (word_of_int x) (word_of_int y) = Ok (word_of_int (spec_lsr x y)).
Proof. exact lsr_ok. Qed.
Example C09_lsr_ex :
  u63 9223372036854775807 /\ u63 62 /\
  prim_int63_lsr (word_of_int 9223372036854775807) (word_of_int 62) = Ok (word_of_int 1).
Proof. unfold u63; repeat split; try lia. Qed.
Print Assumptions C09_lsr.

Theorem C09_eqb :
  forall x y, u63 x -> u63 y ->
    prim_int63_eqb (word_of_int x) (word_of_int y) = Ok (word_of_bool (x =? y)).
Proof. exact eqb_ok. Qed.
Example C09_eqb_ex :
  u63 7 /\ prim_int63_eqb (word_of_int 7) (word_of_int 7) = Ok 3 /\
  prim_int63_eqb (word_of_int 7) (word_of_int 9223372036854775807) = Ok 1.
Proof. unfold u63; repeat split; try lia. Qed.
Print Assumptions C09_eqb.

Theorem C09_compare :
  forall x y, u63 x -> u63 y ->
    prim_int63_compare (word_of_int x) (word_of_int y) = Ok (word_of_comparison (x ?= y)).
Proof. exact compare_ok. Qed.
Example C09_compare_ex :
  u63 9223372036854775807 /\
  prim_int63_compare (word_of_int 9223372036854775807) (word_of_int 0) = Ok (word_of_comparison Gt).
Proof. unfold u63; repeat split; try lia. Qed.
Print Assumptions C09_compare.

(** ** C10: the order tests look at the words as signed numbers. *)

(** What is missing: operands in different halves of the range, where the answer is always wrong; the full statement [forall x y, prim_int63_leb ... = Ok (word_of_bool (x <=? y))] is refuted below. *)
Theorem C10_leb_exact_partial :
  forall x y, u63 x -> u63 y ->
    (prim_int63_leb (word_of_int x) (word_of_int y) = Ok (word_of_bool (x <=? y))
     <-> (x < 2 ^ 62 <-> y < 2 ^ 62)).
Proof. exact leb_exact. Qed.
Example C10_leb_ex :
  u63 3 /\ u63 5 /\ (3 < 2 ^ 62 <-> 5 < 2 ^ 62).
Proof. unfold u63; lia. Qed.
Print Assumptions C10_leb_exact_partial.

Theorem C10_leb_refuted :
  exists x y, u63 x /\ u63 y /\
    prim_int63_leb (word_of_int x) (word_of_int y) <> Ok (word_of_bool (x <=? y)).
Proof. exists 0, 4611686018427387904. unfold u63. repeat split; try lia. vm_compute. discriminate. Qed.
Print Assumptions C10_leb_refuted.

(** What is missing: operands in different halves of the range, where the answer is always wrong; the full statement [forall x y, prim_int63_ltb ... = Ok (word_of_bool (x <? y))] is refuted below. *)
Theorem C10_ltb_exact_partial :
  forall x y, u63 x -> u63 y ->
    (prim_int63_ltb (word_of_int x) (word_of_int y) = Ok (word_of_bool (x <? y))
     <-> (x < 2 ^ 62 <-> y < 2 ^ 62)).
Proof. exact ltb_exact. Qed.
Example C10_ltb_ex :
  u63 3 /\ u63 5 /\ (3 < 2 ^ 62 <-> 5 < 2 ^ 62).
Proof. unfold u63; lia. Qed.
Print Assumptions C10_ltb_exact_partial.

Theorem C10_ltb_refuted :
  exists x y, u63 x /\ u63 y /\
    prim_int63_ltb (word_of_int x) (word_of_int y) <> Ok (word_of_bool (x <? y)).
Proof. exists 0, 4611686018427387904. unfold u63. repeat split; try lia. vm_compute. discriminate. Qed.
Print Assumptions C10_ltb_refuted.

(** ** C11 *)

Theorem C11_divs :
  forall x y, u63 x -> u63 y ->
    prim_int63_divs (word_of_int x) (word_of_int y) = Ok (word_of_int (spec_divs x y)).
Proof. exact divs_ok. Qed.
Example C11_divs_ex :
  u63 9223372036854775801 /\ signed 9223372036854775801 = -7 /\
  prim_int63_divs (word_of_int 9223372036854775801) (word_of_int 2) = Ok (word_of_int (spec_divs 9223372036854775801 2)) /\
  signed (spec_divs 9223372036854775801 2) = -3.
Proof. unfold u63; repeat split; try lia. Qed.
Print Assumptions C11_divs.

(** What is missing: negative operands, where the code computes the unsigned remainder ([C11_mods_unsigned]). *)
Theorem C11_mods_partial :
  forall x y, x < 2 ^ 62 -> y < 2 ^ 62 -> u63 x -> u63 y ->
    prim_int63_mods (word_of_int x) (word_of_int y) = Ok (word_of_int (spec_mods x y)).
Proof. exact mods_nonneg. Qed.
Example C11_mods_ex :
  u63 17 /\ prim_int63_mods (word_of_int 17) (word_of_int 5) = Ok (word_of_int 2).
Proof. unfold u63; repeat split; try lia. Qed.
Print Assumptions C11_mods_partial.

Theorem C11_mods_unsigned :
  forall x y, u63 x -> u63 y ->
    prim_int63_mods (word_of_int x) (word_of_int y) = Ok (word_of_int (spec_mod x y)).
Proof. exact mods_code. Qed.
Print Assumptions C11_mods_unsigned.

(** -7 rem 2 is -1, the runtime says 1. *)
Theorem C11_mods_refuted :
  exists x y, u63 x /\ u63 y /\
    prim_int63_mods (word_of_int x) (word_of_int y) <> Ok (word_of_int (spec_mods x y)).
Proof. exists 9223372036854775801, 2. unfold u63. repeat split; try lia. vm_compute. discriminate. Qed.
Print Assumptions C11_mods_refuted.

(** What is missing: a negative number shifted by 1 or more, where the code shifts in zeroes. *)
Theorem C11_asr_exact_partial :
  forall x y, u63 x -> u63 y ->
    (prim_int63_asr (word_of_int x) (word_of_int y) = Ok (word_of_int (spec_asr x y))
     <-> (x < 2 ^ 62 \/ y = 0 \/ 2 ^ 62 <= y)).
Proof. exact asr_exact. Qed.
Example C11_asr_ex :
  u63 17 /\ prim_int63_asr (word_of_int 17) (word_of_int 2) = Ok (word_of_int 4).
Proof. unfold u63; repeat split; try lia. Qed.
Print Assumptions C11_asr_exact_partial.

(** -2 shifted right by 1. *)
Theorem C11_asr_refuted :
  exists x y, u63 x /\ u63 y /\
    prim_int63_asr (word_of_int x) (word_of_int y) <> Ok (word_of_int (spec_asr x y)).
Proof. exists 9223372036854775806, 1. unfold u63. repeat split; try lia. vm_compute. discriminate. Qed.
Print Assumptions C11_asr_refuted.

Theorem C11_lesb :
  forall x y, u63 x -> u63 y ->
    prim_int63_lesb (word_of_int x) (word_of_int y) = Ok (word_of_bool (signed x <=? signed y)).
Proof. exact lesb_ok. Qed.
Example C11_lesb_ex :
  u63 9223372036854775807 /\ prim_int63_lesb (word_of_int 9223372036854775807) (word_of_int 0) = Ok 3.
Proof. unfold u63; repeat split; try lia. Qed.
Print Assumptions C11_lesb.

Theorem C11_ltsb :
  forall x y, u63 x -> u63 y ->
    prim_int63_ltsb (word_of_int x) (word_of_int y) = Ok (word_of_bool (signed x <? signed y)).
Proof. exact ltsb_ok. Qed.
Example C11_ltsb_ex :
  u63 9223372036854775807 /\ prim_int63_ltsb (word_of_int 9223372036854775807) (word_of_int 0) = Ok 3.
Proof. unfold u63; repeat split; try lia. Qed.
Print Assumptions C11_ltsb.

Theorem C11_compares :
  forall x y, u63 x -> u63 y ->
    prim_int63_compares (word_of_int x) (word_of_int y) = Ok (word_of_comparison (signed x ?= signed y)).
Proof. exact compares_ok. Qed.
Example C11_compares_ex :
  u63 9223372036854775807 /\ prim_int63_compares (word_of_int 9223372036854775807) (word_of_int 0) = Ok (word_of_comparison Lt).
Proof. unfold u63; repeat split; try lia. Qed.
Print Assumptions C11_compares.

(** ** C12: carry operations.  [returns m P]: the call aborts or returns a value satisfying
    [P], never undefined behaviour; [gc_gives_room gc]: the collector aborts or gives the
    requested room. *)

(** An allocation area with [n] free words and a collector that always aborts. *)
Definition area (n : Z) : tinfo := {| ti_alloc := 4096; ti_limit := 4096 + 8 * n; ti_mem := fun _ => 0 |}.
Definition gc_abort (ti : tinfo) (n : Z) : cres tinfo := Abort.
Lemma gc_abort_ok : gc_gives_room gc_abort.
Proof. left. reflexivity. Qed.
Lemma area_ok n : 0 <= n -> ti_ok (area n).
Proof.
  intros. unfold ti_ok, area; cbn [ti_alloc ti_limit]. repeat split; try lia; try reflexivity.
  replace (4096 + 8 * n) with ((512 + n) * 8) by lia. apply Z.mod_mul. lia.
Qed.

(** What is missing: sums that overflow; the code never returns C1 ([C12_addc_flag]). *)
Theorem C12_addc_partial :
  forall gc ti x y, gc_gives_room gc -> ti_ok ti -> u63 x -> u63 y ->
    x + y < 2 ^ 63 ->
    returns (prim_int63_addc gc ti (word_of_int x) (word_of_int y))
            (fun mem v => is_carry mem v (spec_addc x y)).
Proof. exact addc_partial. Qed.
Example C12_addc_ex :
  gc_gives_room gc_abort /\ ti_ok (area 2) /\ u63 5 /\ u63 6 /\
  match prim_int63_addc gc_abort (area 2) (word_of_int 5) (word_of_int 6) with
  | Ok (ti, v) => ti_mem ti (v - 8) = 1024 /\ ti_mem ti v = word_of_int 11 | _ => False end.
Proof. unfold u63; repeat split; try lia; try apply gc_abort_ok; try (apply area_ok; lia). Qed.
Print Assumptions C12_addc_partial.

Theorem C12_addc_flag :
  forall gc ti x y, gc_gives_room gc -> ti_ok ti -> u63 x -> u63 y ->
    returns (prim_int63_addc gc ti (word_of_int x) (word_of_int y))
            (fun mem v => is_carry mem v (false, (x + y) mod 2 ^ 63)).
Proof. exact addc_code. Qed.
Print Assumptions C12_addc_flag.

Theorem C12_addc_refuted :
  exists ti x y, ti_ok ti /\ u63 x /\ u63 y /\
    ~ returns (prim_int63_addc gc_abort ti (word_of_int x) (word_of_int y))
              (fun mem v => is_carry mem v (spec_addc x y)).
Proof. exists (area 2), 9223372036854775807, 1. repeat split; try (unfold u63; lia); try (apply area_ok; lia).
  intros [H|(ti' & v & E & _ & _ & _ & H & _)]; [discriminate|].
  vm_compute in E. injection E as <- <-. vm_compute in H. discriminate. Qed.
Print Assumptions C12_addc_refuted.

(** What is missing: all other operands; for operands below 2^62 the flag is set whenever y <= x ([C12_addcarryc_flag]). *)
Theorem C12_addcarryc_partial :
  forall gc ti x y, gc_gives_room gc -> ti_ok ti -> u63 x -> u63 y ->
    x < y -> y < 2 ^ 62 ->
    returns (prim_int63_addcarryc gc ti (word_of_int x) (word_of_int y))
            (fun mem v => is_carry mem v (spec_addcarryc x y)).
Proof. exact addcarryc_partial. Qed.
Example C12_addcarryc_ex :
  gc_gives_room gc_abort /\ ti_ok (area 2) /\ u63 5 /\ u63 6 /\
  match prim_int63_addcarryc gc_abort (area 2) (word_of_int 5) (word_of_int 6) with
  | Ok (ti, v) => ti_mem ti (v - 8) = 1024 /\ ti_mem ti v = word_of_int 12 | _ => False end.
Proof. unfold u63; repeat split; try lia; try apply gc_abort_ok; try (apply area_ok; lia). Qed.
Print Assumptions C12_addcarryc_partial.

Theorem C12_addcarryc_flag :
  forall gc ti x y, gc_gives_room gc -> ti_ok ti -> u63 x -> u63 y -> x < 2 ^ 62 -> y < 2 ^ 62 ->
    returns (prim_int63_addcarryc gc ti (word_of_int x) (word_of_int y))
            (fun mem v => is_carry mem v (y <=? x, (x + y + 1) mod 2 ^ 63)).
Proof. exact addcarryc_code. Qed.
Print Assumptions C12_addcarryc_flag.

Theorem C12_addcarryc_refuted :
  exists ti x y, ti_ok ti /\ u63 x /\ u63 y /\
    ~ returns (prim_int63_addcarryc gc_abort ti (word_of_int x) (word_of_int y))
              (fun mem v => is_carry mem v (spec_addcarryc x y)).
Proof. exists (area 2), 5, 3. repeat split; try (unfold u63; lia); try (apply area_ok; lia).
  intros [H|(ti' & v & E & _ & _ & _ & H & _)]; [discriminate|].
  vm_compute in E. injection E as <- <-. vm_compute in H. discriminate. Qed.
Print Assumptions C12_addcarryc_refuted.

(** What is missing: operands in different halves of the range, where the flag is always wrong ([C12_subc_flag]). *)
Theorem C12_subc_partial :
  forall gc ti x y, gc_gives_room gc -> ti_ok ti -> u63 x -> u63 y ->
    (x < 2 ^ 62 <-> y < 2 ^ 62) ->
    returns (prim_int63_subc gc ti (word_of_int x) (word_of_int y))
            (fun mem v => is_carry mem v (spec_subc x y)).
Proof. exact subc_partial. Qed.
Example C12_subc_ex :
  gc_gives_room gc_abort /\ ti_ok (area 2) /\ u63 5 /\ u63 6 /\
  match prim_int63_subc gc_abort (area 2) (word_of_int 5) (word_of_int 6) with
  | Ok (ti, v) => ti_mem ti (v - 8) = 1025 /\ ti_mem ti v = word_of_int 9223372036854775807 | _ => False end.
Proof. unfold u63; repeat split; try lia; try apply gc_abort_ok; try (apply area_ok; lia). Qed.
Print Assumptions C12_subc_partial.

Theorem C12_subc_flag :
  forall gc ti x y, gc_gives_room gc -> ti_ok ti -> u63 x -> u63 y ->
    returns (prim_int63_subc gc ti (word_of_int x) (word_of_int y))
            (fun mem v => is_carry mem v (signed x <? signed y, (x - y) mod 2 ^ 63)).
Proof. exact subc_code. Qed.
Print Assumptions C12_subc_flag.

Theorem C12_subc_refuted :
  exists ti x y, ti_ok ti /\ u63 x /\ u63 y /\
    ~ returns (prim_int63_subc gc_abort ti (word_of_int x) (word_of_int y))
              (fun mem v => is_carry mem v (spec_subc x y)).
Proof. exists (area 2), 9223372036854775807, 1. repeat split; try (unfold u63; lia); try (apply area_ok; lia).
  intros [H|(ti' & v & E & _ & _ & _ & H & _)]; [discriminate|].
  vm_compute in E. injection E as <- <-. vm_compute in H. discriminate. Qed.
Print Assumptions C12_subc_refuted.

(** What is missing: operands in different halves of the range, where the flag is always wrong ([C12_subcarryc_flag]). *)
Theorem C12_subcarryc_partial :
  forall gc ti x y, gc_gives_room gc -> ti_ok ti -> u63 x -> u63 y ->
    (x < 2 ^ 62 <-> y < 2 ^ 62) ->
    returns (prim_int63_subcarryc gc ti (word_of_int x) (word_of_int y))
            (fun mem v => is_carry mem v (spec_subcarryc x y)).
Proof. exact subcarryc_partial. Qed.
Example C12_subcarryc_ex :
  gc_gives_room gc_abort /\ ti_ok (area 2) /\ u63 6 /\ u63 6 /\
  match prim_int63_subcarryc gc_abort (area 2) (word_of_int 6) (word_of_int 6) with
  | Ok (ti, v) => ti_mem ti (v - 8) = 1025 /\ ti_mem ti v = word_of_int 9223372036854775807 | _ => False end.
Proof. unfold u63; repeat split; try lia; try apply gc_abort_ok; try (apply area_ok; lia). Qed.
Print Assumptions C12_subcarryc_partial.

Theorem C12_subcarryc_flag :
  forall gc ti x y, gc_gives_room gc -> ti_ok ti -> u63 x -> u63 y ->
    returns (prim_int63_subcarryc gc ti (word_of_int x) (word_of_int y))
            (fun mem v => is_carry mem v (signed x <=? signed y, (x - y - 1) mod 2 ^ 63)).
Proof. exact subcarryc_code. Qed.
Print Assumptions C12_subcarryc_flag.

Theorem C12_subcarryc_refuted :
  exists ti x y, ti_ok ti /\ u63 x /\ u63 y /\
    ~ returns (prim_int63_subcarryc gc_abort ti (word_of_int x) (word_of_int y))
              (fun mem v => is_carry mem v (spec_subcarryc x y)).
Proof. exists (area 2), 9223372036854775807, 1. repeat split; try (unfold u63; lia); try (apply area_ok; lia).
  intros [H|(ti' & v & E & _ & _ & _ & H & _)]; [discriminate|].
  vm_compute in E. injection E as <- <-. vm_compute in H. discriminate. Qed.
Print Assumptions C12_subcarryc_refuted.

(** ** C13 *)

(** What is missing: the operands for which [mulc_bad] holds (both at least 2^62, x = 1 mod 4 and the low half of x * (y - 2^62) at least 2^62).  There the high half is one too small, the low half is right. *)
Theorem C13_mulc_exact_partial :
  forall ti x y, ti_ok ti -> 6 <= room ti -> u63 x -> u63 y ->
    exists ti' v, prim_int63_mulc ti (word_of_int x) (word_of_int y) = Ok (ti', v) /\ ti_ok ti' /\
      (~ mulc_bad x y -> is_pair (ti_mem ti') v (spec_mulc x y)) /\
      (mulc_bad x y -> is_pair (ti_mem ti') v ((x * y) / 2 ^ 63 - 1, (x * y) mod 2 ^ 63)).
Proof. exact mulc_code. Qed.
Example C13_mulc_ex :
  ti_ok (area 6) /\ 6 <= room (area 6) /\ match prim_int63_mulc (area 6) (word_of_int 9223372036854775807) (word_of_int 9223372036854775807) with
  | Ok (ti, v) => ti_mem ti v = word_of_int 9223372036854775806 /\ ti_mem ti (v + 8) = word_of_int 1 | _ => False end.
Proof. split; [apply area_ok; lia|]. split; [vm_compute; discriminate|]. vm_compute. split; reflexivity. Qed.
Print Assumptions C13_mulc_exact_partial.

Theorem C13_mulc_refuted :
  exists ti x y, ti_ok ti /\ 6 <= room ti /\ u63 x /\ u63 y /\
    forall ti' v, prim_int63_mulc ti (word_of_int x) (word_of_int y) = Ok (ti', v) ->
      ~ is_pair (ti_mem ti') v (spec_mulc x y).
Proof. exists (area 6), 4611686018427387905, 9223372036854775807. repeat split; try (unfold u63; lia); try (apply area_ok; lia); try (vm_compute; discriminate).
  intros ti' v E (_ & _ & F). specialize (F 0%nat _ eq_refl).
  vm_compute in E. injection E as <- <-. vm_compute in F. discriminate. Qed.
Print Assumptions C13_mulc_refuted.

Theorem C13_diveucl :
  forall ti x y, ti_ok ti -> 3 <= room ti -> u63 x -> u63 y ->
    exists ti' v, prim_int63_diveucl ti (word_of_int x) (word_of_int y) = Ok (ti', v) /\ ti_ok ti' /\
      is_pair (ti_mem ti') v (spec_diveucl x y).
Proof. exact diveucl_ok. Qed.
Example C13_diveucl_ex :
  ti_ok (area 3) /\ 3 <= room (area 3) /\ match prim_int63_diveucl (area 3) (word_of_int 9223372036854775807) (word_of_int 10) with
  | Ok (ti, v) => ti_mem ti v = word_of_int 922337203685477580 /\ ti_mem ti (v + 8) = word_of_int 7 | _ => False end.
Proof. split; [apply area_ok; lia|]. split; [vm_compute; discriminate|]. vm_compute. split; reflexivity. Qed.
Print Assumptions C13_diveucl.

(** [Uint63] leaves the case y <= xh open; the code answers (0, 0) there. *)
Theorem C13_diveucl_21 :
  forall ti xh xl y, ti_ok ti -> 3 <= room ti -> u63 xh -> u63 xl -> u63 y ->
    exists ti' v, prim_int63_diveucl_21 ti (word_of_int xh) (word_of_int xl) (word_of_int y) = Ok (ti', v) /\ ti_ok ti' /\
      is_pair (ti_mem ti') v (if xh <? y then spec_diveucl_21 xh xl y else (0, 0)).
Proof. exact diveucl_21_ok. Qed.
Example C13_diveucl_21_ex :
  ti_ok (area 3) /\ 3 <= room (area 3) /\ match prim_int63_diveucl_21 (area 3) (word_of_int 4) (word_of_int 3) (word_of_int 5) with
  | Ok (ti, v) => ti_mem ti v = word_of_int 7378697629483820647 /\ ti_mem ti (v + 8) = word_of_int 0 | _ => False end.
Proof. split; [apply area_ok; lia|]. split; [vm_compute; discriminate|]. vm_compute. split; reflexivity. Qed.
Print Assumptions C13_diveucl_21.

(** [Uint63] specifies shifts p <= 63; the code answers 0 above. *)
Theorem C13_addmuldiv :
  forall p x y, u63 p -> u63 x -> u63 y ->
    prim_int63_addmuldiv (word_of_int p) (word_of_int x) (word_of_int y)
    = Ok (word_of_int (if p <=? 63 then spec_addmuldiv p x y else 0)).
Proof. exact addmuldiv_ok. Qed.
Example C13_addmuldiv_ex :
  prim_int63_addmuldiv (word_of_int 4) (word_of_int 1) (word_of_int 9223372036854775807) = Ok (word_of_int 31).
Proof. reflexivity. Qed.
Print Assumptions C13_addmuldiv.

Theorem C13_head0 :
  forall x, u63 x -> exists r, prim_int63_head0 (word_of_int x) = Ok (word_of_int r) /\ u63 r /\ is_head0 x r.
Proof. exact head0_exists. Qed.
Example C13_head0_ex :
  u63 1 /\ prim_int63_head0 (word_of_int 1) = Ok (word_of_int 62).
Proof. unfold u63; repeat split; try lia. Qed.
Print Assumptions C13_head0.

Theorem C13_tail0 :
  forall x, u63 x -> exists r, prim_int63_tail0 (word_of_int x) = Ok (word_of_int r) /\ u63 r /\ is_tail0 x r.
Proof. exact tail0_exists. Qed.
Example C13_tail0_ex :
  u63 4611686018427387904 /\ prim_int63_tail0 (word_of_int 4611686018427387904) = Ok (word_of_int 62).
Proof. unfold u63; repeat split; try lia. Qed.
Print Assumptions C13_tail0.

(** ** C14: room for the result.

    The carry operations check and call the collector: [C12_addc_flag], [C12_addcarryc_flag],
    [C12_subc_flag] and [C12_subcarryc_flag] exclude undefined behaviour for every area.  The
    operations returning pairs do not check. *)

Theorem C14_mulc_refuted :
  exists ti x y, ti_ok ti /\ u63 x /\ u63 y /\ prim_int63_mulc ti (word_of_int x) (word_of_int y) = UB.
Proof. exists (area 2), 7, 3. repeat split; try (unfold u63; lia); apply area_ok; lia. Qed.
Print Assumptions C14_mulc_refuted.

Theorem C14_diveucl_refuted :
  exists ti x y, ti_ok ti /\ u63 x /\ u63 y /\ prim_int63_diveucl ti (word_of_int x) (word_of_int y) = UB.
Proof. exists (area 2), 7, 3. repeat split; try (unfold u63; lia); apply area_ok; lia. Qed.
Print Assumptions C14_diveucl_refuted.

Theorem C14_diveucl_21_refuted :
  exists ti x y z, ti_ok ti /\ u63 x /\ u63 y /\ u63 z /\ prim_int63_diveucl_21 ti (word_of_int x) (word_of_int y) (word_of_int z) = UB.
Proof. exists (area 2), 1, 7, 3. repeat split; try (unfold u63; lia); apply area_ok; lia. Qed.
Print Assumptions C14_diveucl_21_refuted.

(** What is missing: the check.  Exactly when three words are free the pair can be written. *)
Theorem C14_pair_partial :
  forall ti a b, ti_ok ti ->
    (3 <= room ti -> exists ti' v, mk_pair ti (word_of_int a) (word_of_int b) = Ok (ti', v) /\ ti_ok ti' /\
                       is_pair (ti_mem ti') v (a, b) /\ room ti' = room ti - 3 /\ v = ti_alloc ti + 8)
    /\ (room ti < 3 -> mk_pair ti (word_of_int a) (word_of_int b) = UB).
Proof. exact (fun ti a b H => conj (mk_pair_ok ti a b H) (mk_pair_overflow ti (word_of_int a) (word_of_int b) H)). Qed.
Example C14_pair_ex :
  ti_ok (area 3) /\ 3 <= room (area 3) /\ ti_ok (area 2) /\ room (area 2) < 3.
Proof. repeat split; try (apply area_ok; lia); vm_compute; try reflexivity; discriminate. Qed.
Print Assumptions C14_pair_partial.

