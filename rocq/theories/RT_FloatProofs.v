(** Proofs about the floating-point primitives. *)
From Coq Require Import ZArith Lia Bool List SpecFloat FloatClass.
From Verif Require Import RT_Word RT_Values RT_Int63Spec RT_Int63Model RT_Int63Proofs
  RT_Int63AllocProofs RT_Float RT_FloatSpec.
Import ListNotations.
Open Scope Z_scope.
Ltac Zify.zify_post_hook ::= idtac.

(** ** Fields *)

Definition bits (s : bool) (e m : Z) : Z := (if s then H64 else 0) + e * E52 + m.
Definition em (e m : Z) : Prop := 0 <= e < 2048 /\ 0 <= m < E52.

Lemma bits_fields u : is_bits u -> exists s e m, em e m /\ u = bits s e m.
Proof.
  unfold is_bits. change (2 ^ 64) with W64. intros R.
  exists (H64 <=? u), ((if H64 <=? u then u - H64 else u) / E52), ((if H64 <=? u then u - H64 else u) mod E52).
  assert (A : 0 <= (if H64 <=? u then u - H64 else u) < H64) by (destruct (Z.leb_spec H64 u); lia).
  unfold em, bits. split; [split|].
  - split; [apply Z.div_pos; lia|apply Z.div_lt_upper_bound; lia].
  - apply Z.mod_pos_bound; lia.
  - pose proof (Z.div_mod (if H64 <=? u then u - H64 else u) E52). destruct (Z.leb_spec H64 u); lia.
Qed.

Lemma bits_range s e m : em e m -> is_bits (bits s e m).
Proof. unfold em, is_bits, bits. change (2 ^ 64) with W64. destruct s; lia. Qed.

Lemma sign_bits s e m : em e m -> d_sign (bits s e m) = s.
Proof. unfold em, d_sign, bits. destruct s; lia. Qed.

Lemma frac_bits s e m : em e m -> d_frac (bits s e m) = m.
Proof.
  unfold em, d_frac, bits. intros.
  replace ((if s then H64 else 0) + e * E52 + m) with (m + ((if s then 2048 else 0) + e) * E52) by (destruct s; lia).
  rewrite Z.mod_add by lia. apply Z.mod_small; lia.
Qed.

Lemma exp_bits s e m : em e m -> d_exp (bits s e m) = e.
Proof.
  unfold em, d_exp, bits. intros.
  replace ((if s then H64 else 0) + e * E52 + m) with (m + ((if s then 2048 else 0) + e) * E52) by (destruct s; lia).
  rewrite Z.div_add, (Z.div_small m) by lia.
  replace (0 + ((if s then 2048 else 0) + e)) with (e + (if s then 1 else 0) * 2048) by (destruct s; lia).
  rewrite Z.mod_add by lia. apply Z.mod_small; lia.
Qed.

(** ** Magnitudes *)

Definition mag (e m : Z) : Z := if e =? 0 then m else (m + E52) * 2 ^ (e - 1).

Lemma mag_bits s e m : em e m -> d_mag (bits s e m) = mag e m.
Proof. intros. unfold d_mag. rewrite exp_bits, frac_bits by assumption. reflexivity. Qed.

Lemma mag_upper e m : em e m -> mag e m < E52 * 2 ^ e.
Proof.
  unfold em, mag. intros. destruct (Z.eqb_spec e 0) as [->|]; [change (2 ^ 0) with 1; lia|].
  replace e with (1 + (e - 1)) at 2 by lia. rewrite Z.pow_add_r by lia. change (2 ^ 1) with 2.
  pose proof (pow_pos (e - 1)). nia.
Qed.

Lemma mag_nonneg e m : em e m -> 0 <= mag e m.
Proof.
  unfold em, mag. intros. destruct (Z.eqb_spec e 0) as [->|]; [lia|].
  pose proof (pow_pos (e - 1)). nia.
Qed.

Lemma mag_mono e m e' m' : em e m -> em e' m' -> e < e' \/ e = e' /\ m < m' -> mag e m < mag e' m'.
Proof.
  intros A B [L|[-> L]].
  - apply Z.lt_le_trans with (E52 * 2 ^ e); [apply mag_upper; assumption|].
    unfold em, mag in *. replace (e' =? 0) with false by lia.
    pose proof (pow_pos e). assert (2 ^ e <= 2 ^ (e' - 1)) by (apply Z.pow_le_mono_r; lia). nia.
  - unfold em, mag in *. destruct (Z.eqb_spec e' 0); [lia|]. pose proof (pow_pos (e' - 1)). nia.
Qed.

(** The magnitude orders as the pattern without the sign. *)
Lemma mag_compare e m e' m' : em e m -> em e' m' ->
  (mag e m ?= mag e' m') = (e * E52 + m ?= e' * E52 + m').
Proof.
  intros A B. destruct (Z.compare_spec (e * E52 + m) (e' * E52 + m')) as [E|L|L].
  - assert (e = e' /\ m = m') as [-> ->] by (unfold em in *; lia). apply Z.compare_refl.
  - apply Z.compare_lt_iff. apply mag_mono; try assumption. unfold em in *. lia.
  - apply Z.compare_gt_iff. apply mag_mono; try assumption. unfold em in *. lia.
Qed.

Lemma mag_zero e m : em e m -> (mag e m = 0 <-> e = 0 /\ m = 0).
Proof.
  intros A. assert (B : em 0 0) by (unfold em; lia). pose proof (mag_compare e m 0 0 A B) as C.
  change (mag 0 0) with 0 in C. unfold em in *. split.
  - intros Z0. rewrite Z0 in C. change (0 ?= 0) with Eq in C. symmetry in C. apply Z.compare_eq in C. lia.
  - intros [-> ->]. reflexivity.
Qed.

Definition val (s : bool) (e m : Z) : Z := if s then - mag e m else mag e m.
Lemma val_bits s e m : em e m -> d_val (bits s e m) = val s e m.
Proof. intros. unfold d_val. rewrite sign_bits, mag_bits by assumption. reflexivity. Qed.

Definition isnan_em (e m : Z) : bool := (e =? 2047) && negb (m =? 0).
Lemma isnan_bits s e m : em e m -> isnan (bits s e m) = isnan_em e m.
Proof.
  intros. unfold isnan, fpclassify, isnan_em. rewrite exp_bits, frac_bits by assumption.
  destruct (e =? 2047), (m =? 0), (e =? 0); reflexivity.
Qed.

(** ** Numbers of [SpecFloat] *)

Definition sf (s : bool) (e m : Z) : spec_float :=
  if e =? 2047 then if m =? 0 then S754_infinity s else S754_nan
  else if e =? 0 then if m =? 0 then S754_zero s else S754_finite s (Z.to_pos m) (-1074)
  else S754_finite s (Z.to_pos (m + E52)) (e - 1075).

Lemma sf_bits s e m : em e m -> sf_of_bits (bits s e m) = sf s e m.
Proof.
  intros A. unfold sf_of_bits. change (2 ^ 63) with H64. change (2 ^ 52) with E52. change (2 ^ 11) with 2048.
  change (bits s e m / E52 mod 2048) with (d_exp (bits s e m)). change (bits s e m mod E52) with (d_frac (bits s e m)).
  change (H64 <=? bits s e m) with (d_sign (bits s e m)).
  rewrite exp_bits, frac_bits, sign_bits by assumption. reflexivity.
Qed.

Lemma pcompare_Z a b : 0 < a -> 0 < b -> Pos.compare_cont Eq (Z.to_pos a) (Z.to_pos b) = (a ?= b).
Proof. intros. destruct a, b; try lia. reflexivity. Qed.

(** Exponent and mantissa of a finite number. *)
Definition ex (e : Z) := Z.max e 1 - 1075.
Definition mx (e m : Z) := if e =? 0 then m else m + E52.

Lemma sf_finite s e m : em e m -> e <> 2047 -> ~ (e = 0 /\ m = 0) ->
  sf s e m = S754_finite s (Z.to_pos (mx e m)) (ex e) /\ 0 < mx e m.
Proof.
  unfold em, sf, mx, ex. intros. replace (e =? 2047) with false by lia.
  destruct (Z.eqb_spec e 0) as [->|].
  - replace (m =? 0) with false by lia. split; [reflexivity|lia].
  - split; [f_equal; lia|lia].
Qed.

Lemma lex_compare e m e' m' : em e m -> em e' m' ->
  match ex e ?= ex e' with Lt => Lt | Gt => Gt | Eq => mx e m ?= mx e' m' end = (e * E52 + m ?= e' * E52 + m').
Proof.
  unfold em, ex, mx. intros.
  destruct (Z.compare_spec (Z.max e 1 - 1075) (Z.max e' 1 - 1075));
    destruct (Z.eqb_spec e 0), (Z.eqb_spec e' 0); symmetry;
    try (apply Z.compare_lt_iff; lia); try (apply Z.compare_gt_iff; lia);
    try match goal with |- _ = (?a ?= ?b) => destruct (Z.compare_spec a b) end;
    try (apply Z.compare_lt_iff; lia); try (apply Z.compare_gt_iff; lia); try (apply Z.compare_eq_iff; lia).
Qed.

Lemma CompOpp_lex e m e' m' :
  match ex e ?= ex e' with Lt => Gt | Gt => Lt | Eq => CompOpp (mx e m ?= mx e' m') end
  = CompOpp match ex e ?= ex e' with Lt => Lt | Gt => Gt | Eq => mx e m ?= mx e' m' end.
Proof. destruct (ex e ?= ex e'); reflexivity. Qed.

Lemma mag_inf e m : em e m -> e <> 2047 -> mag e m < mag 2047 0.
Proof. intros A N. apply mag_mono; [assumption|unfold em; lia|]. unfold em in A; lia. Qed.

Lemma mag_pos e m : em e m -> ~ (e = 0 /\ m = 0) -> 0 < mag e m.
Proof. intros A N. pose proof (mag_nonneg e m A). pose proof (mag_zero e m A). lia. Qed.

Lemma infinity_pos : 0 < mag 2047 0.
Proof. apply mag_pos; unfold em; lia. Qed.

(** Comparison of [SpecFloat] is comparison of the numbers. *)
Lemma compare_fields s e m s' e' m' : em e m -> em e' m' ->
  SFcompare (sf s e m) (sf s' e' m')
  = if isnan_em e m || isnan_em e' m' then None else Some (val s e m ?= val s' e' m').
Proof.
  intros A B. pose proof infinity_pos as IP.
  destruct (isnan_em e m) eqn:N.
  { unfold isnan_em in N. unfold sf at 1. destruct (e =? 2047), (m =? 0); try discriminate. reflexivity. }
  destruct (isnan_em e' m') eqn:N'.
  { unfold isnan_em in N'. unfold sf at 2. destruct (e' =? 2047), (m' =? 0); try discriminate.
    destruct (sf s e m); reflexivity. }
  cbn [orb].
  (* three kinds for each operand *)
  assert (K : forall s e m, em e m -> isnan_em e m = false ->
     (e = 2047 /\ m = 0 /\ sf s e m = S754_infinity s) \/
     (e = 0 /\ m = 0 /\ sf s e m = S754_zero s /\ mag e m = 0) \/
     (e <> 2047 /\ ~ (e = 0 /\ m = 0) /\ 0 < mag e m < mag 2047 0 /\ 0 < mx e m /\
        sf s e m = S754_finite s (Z.to_pos (mx e m)) (ex e))).
  { clear. intros s e m A N. unfold isnan_em in N. destruct (Z.eqb_spec e 2047) as [->|N1].
    - left. destruct (Z.eqb_spec m 0) as [->|]; [|discriminate]. auto.
    - right. destruct (Z.eqb_spec e 0) as [->|]; [destruct (Z.eqb_spec m 0) as [->|]|].
      + left. auto.
      + right. assert (~ (0 = 0 /\ m = 0)) by lia.
        destruct (sf_finite s 0 m A N1 H) as [-> P]. pose proof (mag_inf 0 m A N1). pose proof (mag_pos 0 m A H). auto.
      + right. assert (~ (e = 0 /\ m = 0)) by lia.
        destruct (sf_finite s e m A N1 H) as [-> P]. pose proof (mag_inf e m A N1). pose proof (mag_pos e m A H). auto. }
  assert (Lt' : forall a b, a < b -> Lt = (a ?= b)) by (intros; symmetry; apply Z.compare_lt_iff; assumption).
  assert (Gt' : forall a b, b < a -> Gt = (a ?= b)) by (intros; symmetry; apply Z.compare_gt_iff; assumption).
  assert (Eq' : forall a b, a = b -> Eq = (a ?= b)) by (intros; symmetry; apply Z.compare_eq_iff; assumption).
  destruct (K s e m A N) as [(-> & -> & ->)|[(-> & -> & -> & Z1)|(C1 & C2 & C3 & C4 & ->)]];
  destruct (K s' e' m' B N') as [(-> & -> & ->)|[(-> & -> & -> & Z2)|(D1 & D2 & D3 & D4 & ->)]];
  unfold val; cbn [SFcompare]; f_equal.
  1-8: destruct s; destruct s'; (apply Lt'; lia) || (apply Gt'; lia) || (apply Eq'; lia).
  rewrite pcompare_Z by assumption. rewrite CompOpp_lex, lex_compare by assumption.
  rewrite <- mag_compare by assumption.
  destruct s, s'.
  - rewrite <- Z.compare_opp. symmetry. apply Z.compare_antisym.
  - apply Lt'; lia.
  - apply Gt'; lia.
  - reflexivity.
Qed.

Lemma compare_bits u v : is_bits u -> is_bits v ->
  SFcompare (sf_of_bits u) (sf_of_bits v) = if isnan u || isnan v then None else Some (d_val u ?= d_val v).
Proof.
  intros U V. destruct (bits_fields u U) as (s & e & m & A & ->), (bits_fields v V) as (s' & e' & m' & B & ->).
  rewrite !sf_bits, !isnan_bits, !val_bits by assumption. apply compare_fields; assumption.
Qed.

Lemma lt_bits u v : is_bits u -> is_bits v -> d_lt u v = SFltb (sf_of_bits u) (sf_of_bits v).
Proof.
  intros. unfold d_lt, SFltb. rewrite compare_bits by assumption.
  destruct (isnan u), (isnan v); cbn [negb andb orb]; try reflexivity; unfold Z.ltb; destruct (d_val u ?= d_val v); reflexivity.
Qed.
Lemma le_bits u v : is_bits u -> is_bits v -> d_le u v = SFleb (sf_of_bits u) (sf_of_bits v).
Proof.
  intros. unfold d_le, SFleb. rewrite compare_bits by assumption.
  destruct (isnan u), (isnan v); cbn [negb andb orb]; try reflexivity; unfold Z.leb; destruct (d_val u ?= d_val v); reflexivity.
Qed.
Lemma eq_bits u v : is_bits u -> is_bits v -> d_eq u v = SFeqb (sf_of_bits u) (sf_of_bits v).
Proof.
  intros. unfold d_eq, SFeqb. rewrite compare_bits by assumption.
  destruct (isnan u), (isnan v); cbn [negb andb orb]; try reflexivity.
  destruct (Z.eqb_spec (d_val u) (d_val v)) as [E|N].
  - rewrite E, Z.compare_refl. reflexivity.
  - destruct (Z.compare_spec (d_val u) (d_val v)); [contradiction|reflexivity|reflexivity].
Qed.

(** ** Equality of numbers *)

Lemma val_inj s e m s' e' m' : em e m -> em e' m' -> val s e m = val s' e' m' ->
  (s = s' /\ e = e' /\ m = m') \/ (e = 0 /\ m = 0 /\ e' = 0 /\ m' = 0).
Proof.
  intros A B E. pose proof (mag_nonneg e m A). pose proof (mag_nonneg e' m' B).
  pose proof (mag_zero e m A) as Z1. pose proof (mag_zero e' m' B) as Z2.
  assert (S : mag e m = mag e' m' -> e = e' /\ m = m').
  { intros Q. pose proof (mag_compare e m e' m' A B) as C. rewrite Q, Z.compare_refl in C. symmetry in C.
    apply Z.compare_eq in C. unfold em in *. lia. }
  unfold val in E. destruct s, s'.
  - left. destruct S as [-> ->]; [lia|auto].
  - right. lia.
  - right. lia.
  - left. destruct S as [-> ->]; [lia|auto].
Qed.

Lemma sf_inj s e m s' e' m' : em e m -> em e' m' -> isnan_em e m = false -> sf s e m = sf s' e' m' ->
  s = s' /\ e = e' /\ m = m'.
Proof.
  unfold em, isnan_em, sf. intros A B N E.
  destruct (Z.eqb_spec e 2047) as [->|N1].
  - destruct (Z.eqb_spec m 0) as [->|]; [|discriminate].
    destruct (Z.eqb_spec e' 2047) as [->|]; [destruct (Z.eqb_spec m' 0) as [->|]|destruct (Z.eqb_spec e' 0); [destruct (Z.eqb_spec m' 0)|]]; try discriminate.
    injection E as ->. auto.
  - destruct (Z.eqb_spec e' 2047) as [->|N2].
    { destruct (Z.eqb_spec m' 0); destruct (Z.eqb_spec e 0); [destruct (Z.eqb_spec m 0)| |destruct (Z.eqb_spec m 0)|]; discriminate. }
    destruct (Z.eqb_spec e 0) as [->|N3], (Z.eqb_spec e' 0) as [->|N4].
    + destruct (Z.eqb_spec m 0) as [->|], (Z.eqb_spec m' 0) as [->|]; try discriminate; injection E; intros; subst; auto.
      apply Z2Pos.inj in H; [subst; auto|lia|lia].
    + destruct (Z.eqb_spec m 0); [discriminate|]. injection E as _ M X.
      apply Z2Pos.inj in M; [lia|lia|lia].
    + destruct (Z.eqb_spec m' 0); [discriminate|]. injection E as _ M X.
      apply Z2Pos.inj in M; [lia|lia|lia].
    + injection E as -> M X. apply Z2Pos.inj in M; [|lia|lia]. repeat split; lia.
Qed.

(** ** Digits *)

Lemma digits_log2 p : Zpos (digits2_pos p) = Z.log2 (Zpos p) + 1.
Proof.
  induction p; cbn [digits2_pos].
  - rewrite Pos2Z.inj_succ, IHp. change (Zpos p~1) with (2 * Zpos p + 1). rewrite Z.log2_succ_double by lia. lia.
  - rewrite Pos2Z.inj_succ, IHp. change (Zpos p~0) with (2 * Zpos p). rewrite Z.log2_double by lia. lia.
  - reflexivity.
Qed.

Lemma log2_52 m : 0 <= m < E52 -> Z.log2 (m + E52) = 52.
Proof.
  intros. apply Z.log2_unique; [lia|]. change (2 ^ Z.succ 52) with (2 * E52). change (2 ^ 52) with E52. lia.
Qed.

Lemma log2_small m : 0 < m < E52 -> 0 <= Z.log2 m < 52.
Proof. intros. split; [apply Z.log2_nonneg|]. apply Z.log2_lt_pow2; [lia|]. change (2 ^ 52) with E52. lia. Qed.

Lemma classify_bits u : is_bits u ->
  SFclassify 53 (sf_of_bits u) =
  match fpclassify u, d_sign u with
  | FP_NAN, _ => NaN
  | FP_INFINITE, false => PInf | FP_INFINITE, true => NInf
  | FP_ZERO, false => PZero | FP_ZERO, true => NZero
  | FP_SUBNORMAL, false => PSubn | FP_SUBNORMAL, true => NSubn
  | FP_NORMAL, false => PNormal | FP_NORMAL, true => NNormal
  end.
Proof.
  intros U. destruct (bits_fields u U) as (s & e & m & A & ->).
  rewrite sf_bits, sign_bits by assumption. unfold fpclassify. rewrite exp_bits, frac_bits by assumption.
  unfold sf. destruct (e =? 2047).
  { destruct (m =? 0); cbn; destruct s; reflexivity. }
  assert (D : forall p n, Zpos p = n -> 0 <= Z.log2 n -> (digits2_pos p =? Z.to_pos 53)%positive = (Z.log2 n =? 52)).
  { intros p n <- L. pose proof (digits_log2 p). destruct (Z.eqb_spec (Z.log2 (Zpos p)) 52) as [E|E].
    - apply Pos.eqb_eq. apply Pos2Z.inj. rewrite H, E. reflexivity.
    - apply Pos.eqb_neq. intros Q. apply (f_equal Zpos) in Q. rewrite H in Q. change (Zpos (Z.to_pos 53)) with 53 in Q. lia. }
  destruct A as [A1 A2]. destruct (Z.eqb_spec e 0) as [->|].
  - destruct (Z.eqb_spec m 0) as [->|]; [cbn; destruct s; reflexivity|].
    cbn [SFclassify]. rewrite (D _ m) by (try apply Z2Pos.id; try apply Z.log2_nonneg; lia).
    pose proof (log2_small m). replace (Z.log2 m =? 52) with false by lia. destruct s; reflexivity.
  - cbn [SFclassify]. rewrite (D _ (m + E52)) by (try apply Z2Pos.id; try apply Z.log2_nonneg; lia).
    rewrite log2_52 by lia. destruct s; reflexivity.
Qed.

(** ** Sign operations *)

Lemma fabs_bits s e m : em e m -> fabs (bits s e m) = bits false e m.
Proof. intros. unfold fabs. rewrite sign_bits by assumption. unfold bits. destruct s; lia. Qed.
Lemma opp_bits s e m : em e m -> d_opp (bits s e m) = bits (negb s) e m.
Proof. intros. unfold d_opp. rewrite sign_bits by assumption. unfold bits. destruct s; cbn [negb]; lia. Qed.

Lemma sf_abs s e m : SFabs (sf s e m) = sf false e m.
Proof. unfold sf. destruct (e =? 2047), (m =? 0), (e =? 0); reflexivity. Qed.
Lemma sf_opp s e m : SFopp (sf s e m) = sf (negb s) e m.
Proof. unfold sf. destruct (e =? 2047), (m =? 0), (e =? 0); reflexivity. Qed.

(** ** Successors *)

Lemma succ_fields s e m s' e' m' :
  em e m -> em e' m' -> isnan_em e m = false -> isnan_em e' m' = false ->
  val s e m < val s' e' m' ->
  (forall s2 e2 m2, em e2 m2 -> isnan_em e2 m2 = false -> val s e m < val s2 e2 m2 -> val s' e' m' <= val s2 e2 m2) ->
  is_succ (bits s e m) (bits s' e' m').
Proof.
  intros A B N N' L G. split; [apply bits_range; assumption|]. split.
  - unfold sf_lt. rewrite <- lt_bits by (apply bits_range; assumption). unfold d_lt.
    rewrite !isnan_bits, N, N', !val_bits by assumption. cbn. lia.
  - intros v V. destruct (bits_fields v V) as (s2 & e2 & m2 & C & ->). unfold sf_lt, sf_le.
    rewrite <- lt_bits, <- le_bits by (apply bits_range; assumption). unfold d_lt, d_le.
    rewrite !isnan_bits, N, N', !val_bits by assumption. cbn [negb andb].
    destruct (isnan_em e2 m2) eqn:N2; cbn; [discriminate|]. intros H. specialize (G s2 e2 m2 C N2). lia.
Qed.

Lemma pred_fields s e m s' e' m' :
  em e m -> em e' m' -> isnan_em e m = false -> isnan_em e' m' = false ->
  val s' e' m' < val s e m ->
  (forall s2 e2 m2, em e2 m2 -> isnan_em e2 m2 = false -> val s2 e2 m2 < val s e m -> val s2 e2 m2 <= val s' e' m') ->
  is_pred (bits s e m) (bits s' e' m').
Proof.
  intros A B N N' L G. split; [apply bits_range; assumption|]. split.
  - unfold sf_lt. rewrite <- lt_bits by (apply bits_range; assumption). unfold d_lt.
    rewrite !isnan_bits, N, N', !val_bits by assumption. cbn. lia.
  - intros v V. destruct (bits_fields v V) as (s2 & e2 & m2 & C & ->). unfold sf_lt, sf_le.
    rewrite <- lt_bits, <- le_bits by (apply bits_range; assumption). unfold d_lt, d_le.
    rewrite !isnan_bits, N, N', !val_bits by assumption. rewrite !andb_true_r. cbn [negb andb].
    destruct (isnan_em e2 m2) eqn:N2; cbn; [discriminate|]. intros H. specialize (G s2 e2 m2 C N2). lia.
Qed.

(** The pattern after one, as fields. *)
Definition inc (e m : Z) : Z * Z := if m =? E52 - 1 then (e + 1, 0) else (e, m + 1).

Lemma inc_ok e m : em e m -> e < 2047 ->
  em (fst (inc e m)) (snd (inc e m)) /\ fst (inc e m) * E52 + snd (inc e m) = e * E52 + m + 1 /\
  isnan_em (fst (inc e m)) (snd (inc e m)) = false.
Proof.
  unfold em, inc, isnan_em. intros. destruct (Z.eqb_spec m (E52 - 1)); cbn [fst snd].
  - repeat split; try lia.
  - repeat split; try lia.
Qed.

Definition dec (e m : Z) : Z * Z := if m =? 0 then (e - 1, E52 - 1) else (e, m - 1).

Lemma dec_ok e m : em e m -> ~ (e = 0 /\ m = 0) -> isnan_em e m = false ->
  em (fst (dec e m)) (snd (dec e m)) /\ fst (dec e m) * E52 + snd (dec e m) = e * E52 + m - 1 /\
  isnan_em (fst (dec e m)) (snd (dec e m)) = false.
Proof.
  unfold em, dec, isnan_em. intros A B N. destruct (Z.eqb_spec m 0); cbn [fst snd].
  - repeat split; try lia.
  - destruct (Z.eqb_spec e 2047); [discriminate|]. repeat split; try lia.
Qed.

Lemma mag_lt e m e' m' : em e m -> em e' m' -> (mag e m < mag e' m' <-> e * E52 + m < e' * E52 + m').
Proof.
  intros A B. pose proof (mag_compare e m e' m' A B) as C. rewrite <- !Z.compare_lt_iff, C. reflexivity.
Qed.
Lemma mag_le e m e' m' : em e m -> em e' m' -> (mag e m <= mag e' m' <-> e * E52 + m <= e' * E52 + m').
Proof.
  intros A B. pose proof (mag_compare e m e' m' A B) as C. rewrite <- !Z.compare_le_iff, C. reflexivity.
Qed.

(** Values order as: positive by pattern, negative by opposite pattern. *)
Definition key (s : bool) (e m : Z) : Z := if s then - (e * E52 + m) else e * E52 + m.

Lemma val_lt s e m s' e' m' : em e m -> em e' m' -> (val s e m < val s' e' m' <-> key s e m < key s' e' m').
Proof.
  intros A B. pose proof (mag_lt e m e' m' A B). pose proof (mag_lt e' m' e m B A).
  pose proof (mag_nonneg e m A). pose proof (mag_nonneg e' m' B).
  pose proof (mag_zero e m A). pose proof (mag_zero e' m' B). unfold val, key, em in *. destruct s, s'; lia.
Qed.
Lemma val_le s e m s' e' m' : em e m -> em e' m' -> (val s e m <= val s' e' m' <-> key s e m <= key s' e' m').
Proof. intros A B. pose proof (val_lt s' e' m' s e m B A). lia. Qed.

Lemma u64_is_bits u : is_bits u -> u64 u = u.
Proof. unfold is_bits. change (2 ^ 64) with W64. apply u64_small. Qed.

Lemma key_inf e m : em e m -> isnan_em e m = false -> e * E52 + m <= 2047 * E52.
Proof. unfold em, isnan_em. intros. destruct (Z.eqb_spec e 2047); [|lia]. destruct (Z.eqb_spec m 0); [lia|discriminate]. Qed.

Lemma next_up_key s e m : em e m -> isnan_em e m = false -> key s e m < 2047 * E52 ->
  exists s' e' m', next_up (bits s e m) = bits s' e' m' /\ em e' m' /\ isnan_em e' m' = false /\
    key s' e' m' = key s e m + 1.
Proof.
  intros A N K. unfold next_up. pose proof (key_inf e m A N) as KI.
  assert (AI : em 2047 0) by (unfold em; lia).
  assert (L : d_lt (bits s e m) d_inf = true).
  { change d_inf with (bits false 2047 0). unfold d_lt. rewrite !isnan_bits, N, !val_bits by assumption.
    change (isnan_em 2047 0) with false. cbn [negb andb]. apply Z.ltb_lt. apply val_lt; try assumption. }
  rewrite L. cbn [negb]. destruct s.
  - assert (S : s64 (bits true e m) = e * E52 + m - H64).
    { unfold s64, bits. unfold em in A. rewrite Z.mod_small by lia. replace (H64 + e * E52 + m <? H64) with false by lia. lia. }
    rewrite S. unfold em in A. rewrite Z.geb_leb. replace (0 <=? e * E52 + m - H64) with false by lia.
    assert (U2 : u64 (bits true e m + bits true e m) = 2 * (e * E52 + m)).
    { unfold u64, bits. replace (H64 + e * E52 + m + (H64 + e * E52 + m)) with (2 * (e * E52 + m) + 1 * W64) by lia.
      rewrite Z.mod_add by lia. apply Z.mod_small. lia. }
    rewrite U2. destruct (Z.eqb_spec (2 * (e * E52 + m)) 0) as [E|E].
    + exists false, 0, 1. repeat split; try lia. unfold key. lia.
    + destruct (dec_ok e m) as (D1 & D2 & D3); [unfold em; lia|lia|assumption|].
      exists true, (fst (dec e m)), (snd (dec e m)). repeat split; try assumption; try apply D1.
      * rewrite u64_is_bits; [unfold bits; lia|]. unfold is_bits, bits. change (2 ^ 64) with W64. lia.
      * unfold key. lia.
  - assert (S : s64 (bits false e m) = e * E52 + m).
    { unfold s64, bits. unfold em in A. rewrite Z.mod_small by lia. replace (0 + e * E52 + m <? H64) with true by lia. lia. }
    rewrite S. unfold em in A. rewrite Z.geb_leb. replace (0 <=? e * E52 + m) with true by lia.
    unfold key in K. destruct (inc_ok e m) as (D1 & D2 & D3); [unfold em; lia|lia|].
    exists false, (fst (inc e m)), (snd (inc e m)). repeat split; try assumption; try apply D1.
    + rewrite u64_is_bits; [unfold bits; lia|]. unfold is_bits, bits. change (2 ^ 64) with W64. lia.
Qed.

Lemma next_down_key s e m : em e m -> isnan_em e m = false -> - (2047 * E52) < key s e m ->
  exists s' e' m', next_down (bits s e m) = bits s' e' m' /\ em e' m' /\ isnan_em e' m' = false /\
    key s' e' m' = key s e m - 1.
Proof.
  intros A N K. unfold next_down. pose proof (key_inf e m A N) as KI.
  assert (AI : em 2047 0) by (unfold em; lia).
  assert (L : d_lt d_ninf (bits s e m) = true).
  { change d_ninf with (bits true 2047 0). unfold d_lt. rewrite !isnan_bits, N, !val_bits by assumption.
    change (isnan_em 2047 0) with false. cbn [negb andb]. apply Z.ltb_lt. apply val_lt; try assumption. }
  rewrite L. cbn [negb]. destruct s.
  - assert (S : s64 (bits true e m) = e * E52 + m - H64).
    { unfold s64, bits. unfold em in A. rewrite Z.mod_small by lia. replace (H64 + e * E52 + m <? H64) with false by lia. lia. }
    rewrite S. unfold em in A. replace (e * E52 + m - H64 =? 0) with false by lia. replace (e * E52 + m - H64 <? 0) with true by lia.
    unfold key in K. destruct (inc_ok e m) as (D1 & D2 & D3); [unfold em; lia|lia|].
    exists true, (fst (inc e m)), (snd (inc e m)). repeat split; try assumption; try apply D1.
    + rewrite u64_is_bits; [unfold bits; lia|]. unfold is_bits, bits. change (2 ^ 64) with W64. lia.
    + unfold key. lia.
  - assert (S : s64 (bits false e m) = e * E52 + m).
    { unfold s64, bits. unfold em in A. rewrite Z.mod_small by lia. replace (0 + e * E52 + m <? H64) with true by lia. lia. }
    rewrite S. unfold em in A. destruct (Z.eqb_spec (e * E52 + m) 0) as [E|E].
    + exists true, 0, 1. repeat split; try lia. unfold key. lia.
    + replace (e * E52 + m <? 0) with false by lia.
      destruct (dec_ok e m) as (D1 & D2 & D3); [unfold em; lia|lia|assumption|].
      exists false, (fst (dec e m)), (snd (dec e m)). repeat split; try assumption; try apply D1.
      * rewrite u64_is_bits; [unfold bits; lia|]. unfold is_bits, bits. change (2 ^ 64) with W64. lia.
Qed.

(** ** Blocks *)

Lemma reserve2 gc ti : gc_gives_room gc -> ti_ok ti ->
  (exists ti', (if 2 <=? (ti_limit ti - ti_alloc ti) / 8 then Ok ti else gc ti 2) = Ok ti' /\ ti_ok ti' /\ 2 <= room ti')
  \/ (if 2 <=? (ti_limit ti - ti_alloc ti) / 8 then Ok ti else gc ti 2) = Abort.
Proof.
  intros Hgc Hti. destruct (Z.leb_spec 2 ((ti_limit ti - ti_alloc ti) / 8)).
  - left. exists ti. auto.
  - destruct (Hgc ti 2 Hti) as [->|(ti' & -> & ? & ?)]; eauto.
Qed.

Lemma mk_float_ok gc ti x : gc_gives_room gc -> ti_ok ti ->
  returns (mk_float gc ti x) (fun mem v => is_float mem v x).
Proof.
  intros Hgc Hti. unfold mk_float.
  destruct (reserve2 gc ti Hgc Hti) as [(ti' & -> & (A & L & _) & R)| ->]; [|left; reflexivity].
  right. cbn [cbind]. unfold room in R.
  assert (Hb : ti_alloc ti' + 16 <= ti_limit ti') by dlia.
  rewrite store_fresh_ok by lia. cbn [cbind].
  rewrite store_fresh_ok by (cbn; lia). cbn [cbind bump ti_alloc ti_limit ti_mem].
  eexists _, _. split; [reflexivity|]. unfold is_float. cbn [ti_alloc ti_limit ti_mem bump].
  replace (ti_alloc ti' + 8 - 8 =? ti_alloc ti' + 8) with false by lia.
  replace (ti_alloc ti' + 8 - 8 =? ti_alloc ti' + 0) with true by lia.
  rewrite Z.eqb_refl. change (1277 / 1024) with 1. split; [|split; [lia|]].
  - unfold ti_ok; cbn. repeat split; dlia.
  - repeat split; dlia.
Qed.

(** With room, no collection. *)
Lemma mk_float_room gc ti x : ti_ok ti -> 2 <= room ti ->
  exists ti', mk_float gc ti x = Ok (ti', ti_alloc ti + 8) /\ ti_ok ti' /\ room ti' = room ti - 2 /\
    ti_alloc ti' = ti_alloc ti + 16 /\ ti_limit ti' = ti_limit ti /\
    is_float (ti_mem ti') (ti_alloc ti + 8) x /\
    (forall a, a < ti_alloc ti -> ti_mem ti' a = ti_mem ti a).
Proof.
  intros (A & L & _) R. unfold mk_float. unfold room in *.
  replace (2 <=? (ti_limit ti - ti_alloc ti) / 8) with true by lia. cbn [cbind].
  assert (Hb : ti_alloc ti + 16 <= ti_limit ti) by dlia.
  rewrite store_fresh_ok by lia. cbn [cbind].
  rewrite store_fresh_ok by (cbn; lia). cbn [cbind bump ti_alloc ti_limit ti_mem].
  eexists. split; [reflexivity|]. unfold is_float, ti_ok, bump. cbn [ti_alloc ti_limit ti_mem].
  replace (ti_alloc ti + 8 - 8 =? ti_alloc ti + 8) with false by lia.
  replace (ti_alloc ti + 8 - 8 =? ti_alloc ti + 0) with true by lia.
  rewrite Z.eqb_refl. repeat split; try dlia.
  intros a La. replace (a =? ti_alloc ti + 8) with false by lia. replace (a =? ti_alloc ti + 0) with false by lia. reflexivity.
Qed.

Lemma mk_pair_room ti a b : ti_ok ti -> 3 <= room ti ->
  exists ti', mk_pair ti a b = Ok (ti', ti_alloc ti + 8) /\ ti_ok ti' /\
    is_block (ti_mem ti') (ti_alloc ti + 8) 0 [a; b] /\
    (forall c, c < ti_alloc ti -> ti_mem ti' c = ti_mem ti c).
Proof.
  intros (A & L & B) R. unfold room in *. unfold mk_pair.
  assert (Hb : ti_alloc ti + 24 <= ti_limit ti) by dlia.
  rewrite store_fresh_ok by lia. cbn [cbind].
  rewrite store_fresh_ok by (cbn; lia). cbn [cbind bump ti_alloc ti_limit ti_mem].
  rewrite store_fresh_ok by (cbn; lia). cbn [cbind bump ti_alloc ti_limit ti_mem].
  eexists. split; [reflexivity|]. unfold ti_ok, bump. cbn [ti_alloc ti_limit ti_mem].
  split; [repeat split; dlia|]. split.
  - unfold is_block. cbn [length].
    split; [dlia|]. split.
    + replace (ti_alloc ti + 8 - 8 =? ti_alloc ti + 16) with false by lia.
      replace (ti_alloc ti + 8 - 8 =? ti_alloc ti + 8) with false by lia.
      replace (ti_alloc ti + 8 - 8 =? ti_alloc ti + 0) with true by lia. reflexivity.
    + intros i w Hi. destruct i as [|[|i]]; [| |destruct i; discriminate]; injection Hi as <-.
      * change (Z.of_nat 0) with 0.
        replace (ti_alloc ti + 8 + 8 * 0 =? ti_alloc ti + 16) with false by lia.
        replace (ti_alloc ti + 8 + 8 * 0 =? ti_alloc ti + 8) with true by lia. reflexivity.
      * change (Z.of_nat 1) with 1.
        replace (ti_alloc ti + 8 + 8 * 1 =? ti_alloc ti + 16) with true by lia. reflexivity.
  - intros c Hc. replace (c =? ti_alloc ti + 16) with false by lia.
    replace (c =? ti_alloc ti + 8) with false by lia. replace (c =? ti_alloc ti + 0) with false by lia. reflexivity.
Qed.

(** ** frexp *)

Lemma frexp_ok s e m : em e m -> e <> 2047 -> ~ (e = 0 /\ m = 0) ->
  is_bits (fst (frexp (bits s e m))) /\
  SFfrexp 53 1024 (sf s e m) = (sf_of_bits (fst (frexp (bits s e m))), snd (frexp (bits s e m))).
Proof.
  intros A N NZ. unfold frexp. rewrite exp_bits, frac_bits, sign_bits by assumption.
  unfold sf. replace (e =? 2047) with false by lia. unfold em in A.
  destruct (Z.eqb_spec e 0) as [->|E0]; cbn [fst snd].
  - replace (m =? 0) with false by lia. cbn [SFfrexp].
    assert (M : 0 < m < E52) by lia. pose proof (log2_small m M) as LM. pose proof (Z.log2_spec m) as LS.
    destruct LS as [L1 L2]; [lia|]. set (k := 52 - Z.log2 m) in *.
    assert (K : 0 < k <= 52) by lia.
    assert (PK : 2 ^ Z.log2 m * 2 ^ k = E52).
    { rewrite <- Z.pow_add_r by lia. unfold k. replace (Z.log2 m + (52 - Z.log2 m)) with 52 by lia. reflexivity. }
    assert (PK2 : 2 ^ Z.succ (Z.log2 m) * 2 ^ k = 2 * E52).
    { rewrite Z.pow_succ_r by lia. rewrite <- Z.mul_assoc, PK. reflexivity. }
    pose proof (pow_pos k).
    assert (MK : E52 <= m * 2 ^ k < 2 * E52) by nia.
    assert (B : em 1022 (m * 2 ^ k - E52)) by (unfold em; lia).
    change (Z.to_pos 53) with 53%positive.
    assert (DG : Zpos (digits2_pos (Z.to_pos m)) = Z.log2 m + 1).
    { rewrite digits_log2, Z2Pos.id by lia. reflexivity. }
    destruct (Pos.leb_spec 53 (digits2_pos (Z.to_pos m))) as [G|G].
    { exfalso. apply Pos2Z.pos_le_pos in G. rewrite DG in G. lia. }
    change ((if s then H64 else 0) + 1022 * E52 + (m * 2 ^ k - E52)) with (bits s 1022 (m * 2 ^ k - E52)).
    split; [apply bits_range; assumption|]. rewrite sf_bits by assumption. unfold sf. cbn [Z.eqb Pos.eqb].
    rewrite DG. replace (53 - (Z.log2 m + 1)) with k by (unfold k; lia).
    apply f_equal2; [|unfold k; lia].
    change (1022 =? 2047) with false. change (1022 =? 0) with false. cbn iota. f_equal.
    replace (m * 2 ^ k - E52 + E52) with (m * 2 ^ k) by lia.
    apply Pos2Z.inj. rewrite Z2Pos.id by lia. rewrite shift_pos_correct.
    rewrite Z.pow_pos_fold. rewrite !Z2Pos.id by lia. lia.
  - assert (B : em 1022 m) by (unfold em; lia). cbn [SFfrexp]. change (Z.to_pos 53) with 53%positive.
    change ((if s then H64 else 0) + 1022 * E52 + m) with (bits s 1022 m).
    split; [apply bits_range; assumption|]. rewrite sf_bits by assumption.
    assert (DG : Zpos (digits2_pos (Z.to_pos (m + E52))) = 53).
    { rewrite digits_log2, Z2Pos.id by lia. rewrite log2_52 by lia. reflexivity. }
    destruct (Pos.leb_spec 53 (digits2_pos (Z.to_pos (m + E52)))) as [G|G].
    2:{ exfalso. apply Pos2Z.pos_lt_pos in G. rewrite DG in G. lia. }
    unfold sf. change (1022 =? 2047) with false. change (1022 =? 0) with false. cbn iota.
    f_equal. lia.
Qed.
