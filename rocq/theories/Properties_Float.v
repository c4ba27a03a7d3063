(** C17 (comparison), C18 (successor, predecessor), C19 (conversions), C14 (room, float part). *)
From Coq Require Import ZArith Lia Bool List SpecFloat FloatClass.
From Verif Require Import RT_Word RT_Values RT_Int63Spec RT_Int63Model RT_Int63Proofs
  RT_Int63AllocProofs RT_Float RT_FloatSpec RT_FloatProofs.
Import ListNotations.
Open Scope Z_scope.
Ltac Zify.zify_post_hook ::= idtac.

(** The words [x], [y] point to floats. *)
Definition holds (ti : tinfo) (x u : Z) : Prop := is_bits u /\ is_float (ti_mem ti) x u.

Lemma holds_val ti x u : holds ti x u -> Double_val ti x = u.
Proof. intros (_ & _ & _ & E). exact E. Qed.

(** A memory with 1.0 at 1000 and -0.0 at 2000, 0.0 at 3000, a NaN at 4000, 1.0 again at 5000. *)
Definition ex_ti : tinfo :=
  {| ti_alloc := 8000; ti_limit := 8040;
     ti_mem := fun a => if a =? 1000 then d_one else if a =? 2000 then H64 else if a =? 3000 then 0
                        else if a =? 4000 then d_inf + 1 else if a =? 5000 then d_one else 1277 |}.
Lemma ex_holds : holds ex_ti 1000 d_one /\ holds ex_ti 2000 H64 /\ holds ex_ti 3000 0 /\
  holds ex_ti 4000 (d_inf + 1) /\ holds ex_ti 5000 d_one.
Proof. repeat split; vm_compute; congruence. Qed.

(** * C17 *)

(** [eqb], [ltb] and [leb] are the comparisons of [SpecFloat], wherever the floats are stored. *)
Theorem C17_order ti x y u v : holds ti x u -> holds ti y v ->
  prim_float_eqb ti x y = word_of_bool (SFeqb (sf_of_bits u) (sf_of_bits v)) /\
  prim_float_ltb ti x y = word_of_bool (SFltb (sf_of_bits u) (sf_of_bits v)) /\
  prim_float_leb ti x y = word_of_bool (SFleb (sf_of_bits u) (sf_of_bits v)).
Proof.
  intros U V. unfold prim_float_eqb, prim_float_ltb, prim_float_leb.
  rewrite (holds_val ti x u U), (holds_val ti y v V). destruct U as [U _], V as [V _].
  rewrite lt_bits, le_bits, eq_bits by assumption. auto.
Qed.

Example C17_order_ex : prim_float_eqb ex_ti 2000 3000 = 3 /\ prim_float_leb ex_ti 4000 4000 = 1 /\
  prim_float_ltb ex_ti 2000 1000 = 3.
Proof. repeat split; vm_compute; reflexivity. Qed.

(** [classify] returns the class. *)
Theorem C17_classify ti x u : holds ti x u ->
  prim_float_classify ti x = word_of_class (SFclassify 53 (sf_of_bits u)).
Proof.
  intros U. unfold prim_float_classify. rewrite (holds_val ti x u U). destruct U as [U _].
  rewrite classify_bits by assumption. destruct (fpclassify u), (d_sign u); reflexivity.
Qed.

Example C17_classify_ex : prim_float_classify ex_ti 2000 = word_of_class NZero /\ prim_float_classify ex_ti 4000 = word_of_class NaN.
Proof. split; vm_compute; reflexivity. Qed.

(** One divided by a zero is the infinity of the same sign (IEEE 754, 7.3). *)
Definition divides_by_zero (d_div : Z -> Z -> Z) : Prop :=
  d_div d_one 0 = d_inf /\ d_div d_one H64 = d_ninf.

(** [equal] decides whether the two doubles are the same number of [SpecFloat] (Leibniz equality of
    floats: all NaNs are equal, the two zeroes are not). *)
Theorem C17_equal d_div ti x y u v : divides_by_zero d_div -> holds ti x u -> holds ti y v ->
  exists b, prim_float_equal d_div ti x y = word_of_bool b /\ (b = true <-> sf_of_bits u = sf_of_bits v).
Proof.
  intros [D1 D2] U V. unfold prim_float_equal. rewrite (holds_val ti x u U), (holds_val ti y v V).
  destruct U as [U _], V as [V _].
  destruct (bits_fields u U) as (s & e & m & A & ->), (bits_fields v V) as (s' & e' & m' & B & ->).
  rewrite !sf_bits by assumption.
  assert (Q : isnan_em e m = false -> ~ (e = 0 /\ m = 0) ->
              (d_eq (bits s e m) (bits s' e' m') = true <-> sf s e m = sf s' e' m')).
  { intros N NZ. unfold d_eq. rewrite !isnan_bits, N, !val_bits by assumption. cbn [negb andb]. split.
    - intros E. destruct (isnan_em e' m'); [discriminate|]. cbn [negb andb] in E. apply Z.eqb_eq in E.
      destruct (val_inj _ _ _ _ _ _ A B E) as [(-> & -> & ->)|]; [reflexivity|tauto].
    - intros E. apply sf_inj in E as (-> & -> & ->); try assumption. rewrite N. cbn. apply Z.eqb_refl. }
  assert (C : fpclassify (bits s e m) =
    if e =? 2047 then if m =? 0 then FP_INFINITE else FP_NAN
    else if e =? 0 then if m =? 0 then FP_ZERO else FP_SUBNORMAL else FP_NORMAL).
  { unfold fpclassify. rewrite exp_bits, frac_bits by assumption. reflexivity. }
  rewrite C. unfold isnan_em in Q. destruct (Z.eqb_spec e 2047) as [->|N1].
  - destruct (Z.eqb_spec m 0) as [->|N2].
    + eexists. split; [reflexivity|]. apply Q; [reflexivity|lia].
    + eexists. split; [reflexivity|]. rewrite isnan_bits by assumption. unfold isnan_em, sf.
      change (2047 =? 2047) with true. replace (m =? 0) with false by lia. cbn iota.
      destruct (e' =? 2047), (m' =? 0), (e' =? 0); cbn; split; congruence.
  - destruct (Z.eqb_spec e 0) as [->|N2]; [destruct (Z.eqb_spec m 0) as [->|N3]|].
    + eexists. split; [reflexivity|]. unfold d_eq at 1. rewrite !isnan_bits, !val_bits by assumption.
      change (isnan_em 0 0) with false. cbn [negb andb].
      assert (V0 : val s 0 0 = 0) by (destruct s; reflexivity). rewrite V0.
      assert (R : sf s 0 0 = S754_zero s) by reflexivity. rewrite R.
      assert (W : (e' = 0 /\ m' = 0) \/ (isnan_em e' m' = false -> val s' e' m' <> 0) /\ sf s' e' m' <> S754_zero s).
      { destruct (Z.eq_dec e' 0), (Z.eq_dec m' 0); [left; auto| | |]; right.
        all: pose proof (mag_zero e' m' B) as MZ.
        all: (split; [intros _; unfold val; destruct s'; lia|unfold sf]).
        all: try replace (e' =? 0) with true by lia; try replace (e' =? 0) with false by lia.
        all: try replace (m' =? 0) with true by lia; try replace (m' =? 0) with false by lia.
        all: destruct (e' =? 2047); discriminate. }
      destruct W as [[-> ->]|[W1 W2]].
      * change (isnan_em 0 0) with false. assert (V1 : val s' 0 0 = 0) by (destruct s'; reflexivity). rewrite V1.
        change (sf s' 0 0) with (S754_zero s').
        destruct s, s'; change (bits true 0 0) with H64; change (bits false 0 0) with 0; rewrite ?D1, ?D2;
          vm_compute; split; congruence.
      * split; intros E; [|congruence]. exfalso. destruct (isnan_em e' m'); [discriminate E|].
        specialize (W1 eq_refl). cbn [negb] in E. replace (0 =? val s' e' m') with false in E by lia. discriminate E.
    + eexists. split; [reflexivity|]. apply Q; [reflexivity|lia].
    + eexists. split; [reflexivity|]. apply Q; [reflexivity|lia].
Qed.

Definition ex_div (a b : Z) : Z := if b =? 0 then d_inf else d_ninf.
Example C17_equal_ex : divides_by_zero ex_div /\
  prim_float_equal ex_div ex_ti 2000 3000 = word_of_bool false /\ prim_float_equal ex_div ex_ti 4000 4000 = word_of_bool true /\
  prim_float_equal ex_div ex_ti 1000 5000 = word_of_bool true.
Proof. repeat split; vm_compute; reflexivity. Qed.

(** [compare] compares the addresses: 1.0 differs from 1.0 stored elsewhere, a NaN equals itself. *)
Theorem C17_compare_refuted :
  (exists ti x y u v, holds ti x u /\ holds ti y v /\
     prim_float_compare ti x y <> word_of_fcomparison (SFcompare (sf_of_bits u) (sf_of_bits v))) /\
  (exists ti x u, holds ti x u /\
     prim_float_compare ti x x <> word_of_fcomparison (SFcompare (sf_of_bits u) (sf_of_bits u))).
Proof.
  split.
  - exists ex_ti, 1000, 5000, d_one, d_one. split; [apply ex_holds|]. split; [apply ex_holds|]. vm_compute. discriminate.
  - exists ex_ti, 4000, (d_inf + 1). split; [apply ex_holds|]. vm_compute. discriminate.
Qed.

(** * C18 *)

Lemma holds_class ti x u : holds ti x u -> exists s e m, em e m /\ u = bits s e m.
Proof. intros [U _]. apply bits_fields. exact U. Qed.

(** [next_up]: the least double above, except that NaN and plus infinity are returned. *)
Theorem C18_next_up u : is_bits u ->
  match sf_of_bits u with
  | S754_nan | S754_infinity false => next_up u = u
  | _ => is_succ u (next_up u)
  end.
Proof.
  intros U. destruct (bits_fields u U) as (s & e & m & A & ->). rewrite sf_bits by assumption.
  assert (NX : isnan_em e m = true \/ e = 2047 /\ m = 0 /\ s = false -> next_up (bits s e m) = bits s e m).
  { intros C. unfold next_up. replace (d_lt (bits s e m) d_inf) with false; [reflexivity|]. symmetry.
    change d_inf with (bits false 2047 0). unfold d_lt. assert (AI : em 2047 0) by (unfold em; lia).
    rewrite !isnan_bits by assumption. destruct C as [C|(-> & -> & ->)]; [rewrite C; reflexivity|].
    rewrite Z.ltb_irrefl. apply andb_false_r. }
  assert (OK : isnan_em e m = false -> ~ (e = 2047 /\ m = 0 /\ s = false) -> is_succ (bits s e m) (next_up (bits s e m))).
  { intros N C. destruct (next_up_key s e m A N) as (s' & e' & m' & -> & B & N' & K).
    { pose proof (key_inf e m A N). unfold key, em in *. destruct s; lia. }
    apply succ_fields; try assumption.
    - apply val_lt; try assumption. lia.
    - intros s2 e2 m2 B2 _ L. apply val_lt in L; try assumption. apply val_le; try assumption. lia. }
  unfold sf, isnan_em in *. destruct (Z.eqb_spec e 2047) as [->|].
  - destruct (Z.eqb_spec m 0) as [->|].
    + destruct s; [apply OK; [reflexivity|intros (_ & _ & X); discriminate]|apply NX; auto].
    + apply NX. left. reflexivity.
  - cbn [andb] in OK. destruct (e =? 0); [destruct (m =? 0)|]; apply OK; try reflexivity; tauto.
Qed.

(** [next_down]: the greatest double below, except that NaN and minus infinity are returned. *)
Theorem C18_next_down u : is_bits u ->
  match sf_of_bits u with
  | S754_nan | S754_infinity true => next_down u = u
  | _ => is_pred u (next_down u)
  end.
Proof.
  intros U. destruct (bits_fields u U) as (s & e & m & A & ->). rewrite sf_bits by assumption.
  assert (NX : isnan_em e m = true \/ e = 2047 /\ m = 0 /\ s = true -> next_down (bits s e m) = bits s e m).
  { intros C. unfold next_down. replace (d_lt d_ninf (bits s e m)) with false; [reflexivity|]. symmetry.
    change d_ninf with (bits true 2047 0). unfold d_lt. assert (AI : em 2047 0) by (unfold em; lia).
    rewrite !isnan_bits by assumption. destruct C as [C|(-> & -> & ->)]; [rewrite C, andb_false_r; reflexivity|].
    rewrite Z.ltb_irrefl. apply andb_false_r. }
  assert (OK : isnan_em e m = false -> ~ (e = 2047 /\ m = 0 /\ s = true) -> is_pred (bits s e m) (next_down (bits s e m))).
  { intros N C. destruct (next_down_key s e m A N) as (s' & e' & m' & -> & B & N' & K).
    { pose proof (key_inf e m A N). unfold key, em in *. destruct s; lia. }
    apply pred_fields; try assumption.
    - apply val_lt; try assumption. lia.
    - intros s2 e2 m2 B2 _ L. apply val_lt in L; try assumption. apply val_le; try assumption. lia. }
  unfold sf, isnan_em in *. destruct (Z.eqb_spec e 2047) as [->|].
  - destruct (Z.eqb_spec m 0) as [->|].
    + destruct s; [apply NX; auto|apply OK; [reflexivity|intros (_ & _ & X); discriminate]].
    + apply NX. left. reflexivity.
  - cbn [andb] in OK. destruct (e =? 0); [destruct (m =? 0)|]; apply OK; try reflexivity; tauto.
Qed.

(** At the specification's own special cases. *)
Example C18_next_ex :
  next_up H64 = 1 /\ next_down 0 = H64 + 1 /\
  sf_of_bits (next_up d_ninf) = SFsucc 53 1024 (S754_infinity true) /\
  next_up (d_inf - 1) = d_inf /\ next_up (E52 - 1) = E52.
Proof. repeat split; vm_compute; reflexivity. Qed.

(** The primitives store that double in a new block, or the collector aborts. *)
Theorem C18_prim gc ti x u : gc_gives_room gc -> ti_ok ti -> holds ti x u ->
  returns (prim_float_next_up gc ti x) (fun mem v => is_float mem v (next_up u)) /\
  returns (prim_float_next_down gc ti x) (fun mem v => is_float mem v (next_down u)).
Proof.
  intros G T U. unfold prim_float_next_up, prim_float_next_down. rewrite (holds_val ti x u U).
  split; apply mk_float_ok; assumption.
Qed.

(** * Sign operations *)

Theorem C17_sign gc ti x u : gc_gives_room gc -> ti_ok ti -> holds ti x u ->
  returns (prim_float_abs gc ti x) (fun mem v => exists w, is_float mem v w /\ is_bits w /\ sf_of_bits w = SFabs (sf_of_bits u)) /\
  returns (prim_float_opp gc ti x) (fun mem v => exists w, is_float mem v w /\ is_bits w /\ sf_of_bits w = SFopp (sf_of_bits u)).
Proof.
  intros G T U. unfold prim_float_abs, prim_float_opp. rewrite (holds_val ti x u U).
  destruct (holds_class ti x u U) as (s & e & m & A & ->).
  rewrite fabs_bits, opp_bits, sf_bits by assumption.
  assert (X : forall b, returns (mk_float gc ti (bits b e m)) (fun mem v => exists w, is_float mem v w /\ is_bits w /\ sf_of_bits w = sf b e m)).
  { intros b. destruct (mk_float_ok gc ti (bits b e m) G T) as [->|(ti' & v & -> & T' & L & F)]; [left; reflexivity|].
    right. eexists _, _. split; [reflexivity|]. split; [assumption|]. split; [assumption|].
    exists (bits b e m). split; [assumption|]. split; [apply bits_range; assumption|apply sf_bits; assumption]. }
  rewrite sf_abs, sf_opp. split; apply X.
Qed.

Example C17_sign_ex : exists ti v, prim_float_opp (fun _ _ => Abort) ex_ti 2000 = Ok (ti, v) /\ is_float (ti_mem ti) v 0.
Proof. eexists _, _. split; [vm_compute; reflexivity|]. repeat split; vm_compute; reflexivity. Qed.

(** * C19 *)

(** Conversion of a signed integer rounds to nearest even (C standard, Annex F.4). *)
Definition converts (of_long : Z -> Z) : Prop :=
  forall z, - H64 <= z < H64 -> is_bits (of_long z) /\ sf_of_bits (of_long z) = binary_normalize 53 1024 z 0 false.

(** [of_uint63] below 2^62. *)
Theorem C19_of_uint63_partial of_long gc ti n : converts of_long -> gc_gives_room gc -> ti_ok ti ->
  0 <= n < 2 ^ 62 ->
  returns (prim_float_of_uint63 gc of_long ti (word_of_int n))
    (fun mem v => exists w, is_float mem v w /\ sf_of_bits w = binary_normalize 53 1024 n 0 false).
Proof.
  change (2 ^ 62) with hB. intros C G T R. unfold prim_float_of_uint63. rewrite Long_val_word by (unfold u63; lia).
  unfold signed. replace (n <? hB) with true by lia.
  destruct (C n) as [_ E]; [lia|].
  destruct (mk_float_ok gc ti (of_long n) G T) as [->|(ti' & v & -> & T' & L & F)]; [left; reflexivity|].
  right. eexists _, _. split; [reflexivity|]. split; [assumption|]. split; [assumption|]. eauto.
Qed.

(** Words from 2^62 on are read as negative: the float 2^62 becomes -2^62. *)
Theorem C19_of_uint63_refuted : exists n, u63 n /\
  forall of_long gc ti, converts of_long ->
    forall ti' v, prim_float_of_uint63 gc of_long ti (word_of_int n) = Ok (ti', v) ->
      sf_of_bits (ti_mem ti' v) <> binary_normalize 53 1024 n 0 false.
Proof.
  exists hB. split; [unfold u63; lia|]. intros of_long gc ti C ti' v E.
  unfold prim_float_of_uint63 in E. rewrite Long_val_word in E by (unfold u63; lia).
  change (signed hB) with (- hB) in E. destruct (C (- hB)) as [_ F]; [lia|].
  unfold mk_float in E.
  destruct (if 2 <=? (ti_limit ti - ti_alloc ti) / 8 then Ok ti else gc ti 2) as [t| |]; cbn [cbind] in E; try discriminate.
  destruct (store_fresh t (ti_alloc t + 0) 1277) as [t1| |] eqn:S1; cbn [cbind] in E; try discriminate.
  destruct (store_fresh t1 (ti_alloc t + 8) (of_long (- hB))) as [t2| |] eqn:S2; cbn [cbind] in E; try discriminate.
  unfold store_fresh in S2. destruct ((ti_alloc t1 <=? ti_alloc t + 8) && (ti_alloc t + 8 + 8 <=? ti_limit t1)); [|discriminate].
  injection S2 as <-.
  injection E as <- <-. cbn [bump ti_mem]. rewrite Z.eqb_refl. change (of_long (-4611686018427387904)) with (of_long (- hB)). rewrite F. vm_compute. discriminate.
Qed.

(** The conversion exists (the hardware's), e.g. on the two integers used here. *)
Example C19_of_uint63_ex :
  sf_of_bits 4607182418800017408 = binary_normalize 53 1024 1 0 false /\
  sf_of_bits 4886405595696988160 = binary_normalize 53 1024 (2 ^ 62) 0 false.
Proof. split; vm_compute; reflexivity. Qed.

(** [normfr_mantissa] is the mantissa of a number in [1/2, 1) and 0 for all others. *)
Theorem C19_normfr_mantissa ti x u : holds ti x u ->
  prim_float_normfr_mantissa ti x = word_of_int (Z.of_N (SFnormfr_mantissa 53 (sf_of_bits u))).
Proof.
  intros U. unfold prim_float_normfr_mantissa. rewrite (holds_val ti x u U).
  destruct (holds_class ti x u U) as (s & e & m & A & ->). rewrite fabs_bits, sf_bits by assumption.
  assert (B : em 1022 0) by (unfold em; lia). assert (B' : em 1023 0) by (unfold em; lia).
  assert (C : d_le d_half (bits false e m) && d_lt (bits false e m) d_one = (e =? 1022)).
  { change d_half with (bits false 1022 0). change d_one with (bits false 1023 0).
    unfold d_le, d_lt. rewrite !isnan_bits, !val_bits by assumption.
    change (isnan_em 1022 0) with false. change (isnan_em 1023 0) with false.
    assert (L1 : (val false 1022 0 <=? val false e m) = (1022 * E52 + 0 <=? e * E52 + m)).
    { apply eq_true_iff_eq. rewrite !Z.leb_le. apply (val_le false 1022 0 false e m B A). }
    assert (L2 : (val false e m <? val false 1023 0) = (e * E52 + m <? 1023 * E52 + 0)).
    { apply eq_true_iff_eq. rewrite !Z.ltb_lt. apply (val_lt false e m false 1023 0 A B'). }
    rewrite L1, L2. unfold em, isnan_em in *. destruct (Z.eqb_spec e 1022) as [->|].
    - change (1022 =? 2047) with false. cbn [negb andb]. apply andb_true_intro. split; lia.
    - destruct (e =? 2047), (m =? 0); cbn [negb andb]; try reflexivity; lia. }
  rewrite C. destruct (Z.eqb_spec e 1022) as [->|N].
  - unfold ldexp_int. rewrite mag_bits by assumption. unfold mag. change (1022 =? 0) with false. cbn iota.
    change (1022 - 1) with 1021. rewrite <- Z.mul_assoc, <- Z.pow_add_r by lia. change (1021 + 53) with 1074.
    rewrite Z.div_mul by (apply Z.pow_nonzero; lia).
    unfold sf. change (1022 =? 2047) with false. change (1022 =? 0) with false. cbn iota. cbn [SFnormfr_mantissa].
    change (1022 - 1075 =? - (53)) with true. cbn iota. unfold em in A.
    rewrite Val_long_u63 by (unfold u63; lia). f_equal. cbn [Z.of_N]. rewrite Z2Pos.id; lia.
  - change (Val_long 0) with 1. unfold sf. unfold em in A.
    destruct (e =? 2047); [destruct (m =? 0); reflexivity|].
    destruct (Z.eqb_spec e 0); [destruct (m =? 0); reflexivity|]. cbn [SFnormfr_mantissa].
    replace (e - 1075 =? - (53)) with false by lia. reflexivity.
Qed.

Example C19_normfr_ex : holds {| ti_alloc := 0; ti_limit := 0; ti_mem := fun a => if a =? 800 then d_half + 1 else 1277 |} 800 (d_half + 1) /\
  prim_float_normfr_mantissa {| ti_alloc := 0; ti_limit := 0; ti_mem := fun a => if a =? 800 then d_half + 1 else 1277 |} 800
  = word_of_int 4503599627370497.
Proof. repeat split; vm_compute; congruence. Qed.

(** [frshiftexp], when five words are free: a pair of a float and the exponent plus 2101, exactly those
    of the specification. *)
Theorem C19_frshiftexp_partial gc ti x u : ti_ok ti -> 5 <= room ti -> x < ti_alloc ti -> holds ti x u ->
  exists ti' p f w, prim_float_frshiftexp gc ti x = Ok (ti', p) /\ ti_ok ti' /\
    is_block (ti_mem ti') p 0 [f; word_of_int (snd (SFfrexp 53 1024 (sf_of_bits u)) + 2101)] /\
    is_float (ti_mem ti') f w /\ sf_of_bits w = fst (SFfrexp 53 1024 (sf_of_bits u)).
Proof.
  intros T R X U. unfold prim_float_frshiftexp. rewrite (holds_val ti x u U).
  destruct (holds_class ti x u U) as (s & e & m & A & E). subst u. rewrite sf_bits by assumption.
  assert (SP : (e = 2047 \/ e = 0 /\ m = 0) ->
    exists ti' p f w, mk_pair ti x (Val_long 0) = Ok (ti', p) /\ ti_ok ti' /\
    is_block (ti_mem ti') p 0 [f; word_of_int (snd (SFfrexp 53 1024 (sf s e m)) + 2101)] /\
    is_float (ti_mem ti') f w /\ sf_of_bits w = fst (SFfrexp 53 1024 (sf s e m))).
  { intros C. destruct (mk_pair_room ti x (Val_long 0) T) as (ti' & -> & T' & B & F); [lia|].
    exists ti', (ti_alloc ti + 8), x, (bits s e m). split; [reflexivity|]. split; [assumption|].
    assert (Q : SFfrexp 53 1024 (sf s e m) = (sf s e m, -2101)).
    { unfold sf. destruct C as [->|[-> ->]]; [|reflexivity]. change (2047 =? 2047) with true. destruct (m =? 0); reflexivity. }
    rewrite Q. split; [exact B|]. split; [|apply sf_bits; assumption].
    destruct U as (_ & M & H & V). unfold is_float. rewrite !F by lia. auto. }
  unfold fpclassify. rewrite exp_bits, frac_bits by assumption.
  assert (FIN : e <> 2047 -> ~ (e = 0 /\ m = 0) ->
    exists ti' p f w, cbind (mk_float gc ti (fst (frexp (bits s e m)))) (fun '(ti, frac) =>
        mk_pair ti frac (Val_long (u64 (snd (frexp (bits s e m)) + eshift)))) = Ok (ti', p) /\ ti_ok ti' /\
    is_block (ti_mem ti') p 0 [f; word_of_int (snd (SFfrexp 53 1024 (sf s e m)) + 2101)] /\
    is_float (ti_mem ti') f w /\ sf_of_bits w = fst (SFfrexp 53 1024 (sf s e m))).
  { intros N NZ. destruct (frexp_ok s e m A N NZ) as [FB ->]. cbn [fst snd].
    destruct (mk_float_room gc ti (fst (frexp (bits s e m))) T) as (t1 & -> & T1 & R1 & A1 & L1 & F1 & K1); [lia|].
    cbn [cbind].
    assert (ER : 0 <= snd (frexp (bits s e m)) + 2101 < wB).
    { unfold frexp. rewrite exp_bits, frac_bits by assumption. unfold em in A.
      destruct (Z.eqb_spec e 0); cbn [snd]; [pose proof (log2_small m)|]; lia. }
    destruct (mk_pair_room t1 (ti_alloc ti + 8) (Val_long (u64 (snd (frexp (bits s e m)) + eshift))) T1) as (t2 & -> & T2 & B2 & K2); [lia|].
    exists t2, (ti_alloc t1 + 8), (ti_alloc ti + 8), (fst (frexp (bits s e m))).
    split; [reflexivity|]. split; [assumption|]. split; [|split; [|reflexivity]].
    - unfold eshift in B2. rewrite u64_small, Val_long_u63 in B2 by (unfold u63; lia). exact B2.
    - destruct F1 as (F1 & F2 & F3). unfold is_float. rewrite !K2 by lia. auto. }
  unfold em in A. destruct (Z.eqb_spec e 2047); [destruct (m =? 0); apply SP; auto|].
  destruct (Z.eqb_spec e 0); [destruct (Z.eqb_spec m 0)|]; [apply SP; auto|apply FIN; lia|apply FIN; lia].
Qed.

Example C19_frshiftexp_ex : ti_ok ex_ti /\ room ex_ti = 5 /\
  exists ti p, prim_float_frshiftexp (fun _ _ => Abort) ex_ti 1000 = Ok (ti, p) /\ ti_mem ti (p + 8) = word_of_int 2102 /\
    ti_mem ti (ti_mem ti p) = d_half.
Proof.
  split; [vm_compute; repeat split; try reflexivity; discriminate|]. split; [reflexivity|].
  eexists _, _. split; [vm_compute; reflexivity|]. split; vm_compute; reflexivity.
Qed.

(** [ldshiftexp] ignores the exponent and returns a pair, not a float. *)
Theorem C19_ldshiftexp_refuted :
  (forall gc ti x y y', prim_float_ldshiftexp gc ti x y = prim_float_ldshiftexp gc ti x y') /\
  (exists ti x, ti_ok ti /\ 5 <= room ti /\ holds ti x d_one /\ forall gc y, exists ti' p,
     prim_float_ldshiftexp gc ti x y = Ok (ti', p) /\ forall u, ~ is_float (ti_mem ti') p u).
Proof.
  split; [reflexivity|]. exists ex_ti, 1000.
  split; [vm_compute; repeat split; try reflexivity; discriminate|]. split; [vm_compute; discriminate|].
  split; [apply ex_holds|]. intros gc y. eexists _, _. split; [vm_compute; reflexivity|].
  intros u (_ & H & _). vm_compute in H. discriminate.
Qed.

(** * C14: room *)

(** Every primitive that returns a float reserves its two words. *)
Theorem C14_float gc ti x y op of_long : gc_gives_room gc -> ti_ok ti ->
  returns (prim_float_arith gc op ti x y) (fun mem v => is_float mem v (op (Double_val ti x) (Double_val ti y))) /\
  returns (prim_float_of_uint63 gc of_long ti x) (fun mem v => is_float mem v (of_long (Long_val x))).
Proof. intros G T. split; apply mk_float_ok; assumption. Qed.

Example C14_float_ex : ti_ok ex_ti /\ exists ti v, prim_float_arith (fun _ _ => Abort) Z.max ex_ti 1000 3000 = Ok (ti, v) /\ v = 8008.
Proof.
  split; [vm_compute; repeat split; try reflexivity; discriminate|]. eexists _, _. split; vm_compute; reflexivity.
Qed.

(** [frshiftexp] does not reserve the words of the pair: with the two words it asked for it writes past
    the limit. *)
Theorem C14_float_pair_refuted : exists ti x u, ti_ok ti /\ 2 <= room ti /\ holds ti x u /\
  forall gc, prim_float_frshiftexp gc ti x = UB.
Proof.
  exists {| ti_alloc := 8000; ti_limit := 8016; ti_mem := fun a => if a =? 1000 then d_one else 1277 |}, 1000, d_one.
  split; [vm_compute; repeat split; try reflexivity; discriminate|]. split; [vm_compute; discriminate|].
  split; [repeat split; vm_compute; congruence|]. intros gc. vm_compute. reflexivity.
Qed.

Print Assumptions C17_order.
Print Assumptions C17_classify.
Print Assumptions C17_equal.
Print Assumptions C17_compare_refuted.
Print Assumptions C17_sign.
Print Assumptions C18_next_up.
Print Assumptions C18_next_down.
Print Assumptions C18_prim.
Print Assumptions C19_of_uint63_partial.
Print Assumptions C19_of_uint63_refuted.
Print Assumptions C19_normfr_mantissa.
Print Assumptions C19_frshiftexp_partial.
Print Assumptions C19_ldshiftexp_refuted.
Print Assumptions C14_float.
Print Assumptions C14_float_pair_refuted.
