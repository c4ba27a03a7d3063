(** * The text of a float *)
From Coq Require Import ZArith NArith List String Ascii Bool Lia DecimalString Decimal DecimalFacts DecimalN.
From Coq.Floats Require Import SpecFloat.
From Coq Require Import QArith Qpower Qabs Lqa.
From Verif Require Import PR_Model PR_Spec PR_Lex PR_Exprs.
Import ListNotations.
Local Open Scope string_scope.
Local Open Scope Z_scope.

(** ** Digits *)

Definition dig (c : ascii) : Z := Z.of_nat (nat_of_ascii c - 48).

Fixpoint val (s : string) (acc : Z) : Z :=
  match s with EmptyString => acc | String c s => val s (10 * acc + dig c) end.

Definition len (s : string) : Z := Z.of_nat (String.length s).

Lemma len_cons : forall c s, len (String c s) = 1 + len s.
Proof. intros. unfold len. cbn [String.length]. lia. Qed.
Lemma len_nonneg : forall s, 0 <= len s.
Proof. intros. unfold len. lia. Qed.

Lemma val_acc : forall s acc, val s acc = acc * 10 ^ len s + val s 0.
Proof.
  induction s as [|c s IH]; intros acc; [cbn; lia|]. cbn [val]. rewrite (IH (10 * acc + dig c)), (IH (10 * 0 + dig c)), len_cons.
  rewrite Z.pow_add_r by (pose proof (len_nonneg s); lia). ring.
Qed.

Lemma val_app : forall a b acc, val (a ++ b) acc = val b (val a acc).
Proof. induction a as [|c a IH]; intros; [reflexivity|]. cbn [val String.append]. apply IH. Qed.

Lemma len_app : forall a b, len (a ++ b) = len a + len b.
Proof.
  induction a as [|c a IH]; intros; [reflexivity|]. cbn [String.append]. rewrite !len_cons, IH. lia.
Qed.

Lemma run_spec : forall s r acc n, all_chars is_digit s = true ->
  match r with String c _ => is_digit c = false | EmptyString => True end ->
  digit_run (s ++ r) acc n = (val s acc, n + len s, r).
Proof.
  induction s as [|c s IH]; intros r acc n H R.
  - cbn [String.append val]. destruct r as [|c r]; cbn [digit_run]; [|rewrite R];
      (replace (n + len "") with n by (cbn; lia)); reflexivity.
  - cbn [all_chars] in H. apply andb_true_iff in H. destruct H as [H1 H2].
    cbn [String.append digit_run val]. rewrite H1, IH by assumption. rewrite len_cons.
    unfold dig. f_equal. f_equal. lia.
Qed.

Lemma dig_range : forall c, is_digit c = true -> 0 <= dig c <= 9.
Proof.
  intros c H. unfold is_digit, between in H. apply andb_true_iff in H. destruct H as [A B].
  apply Nat.leb_le in A, B. cbn in A, B. unfold dig. lia.
Qed.

Lemma val_bound : forall s, all_chars is_digit s = true -> 0 <= val s 0 < 10 ^ len s.
Proof.
  induction s as [|c s IH]; intros H; [cbn; lia|]. cbn [all_chars] in H. apply andb_true_iff in H. destruct H as [H1 H2].
  specialize (IH H2). apply dig_range in H1. cbn [val]. rewrite val_acc, len_cons.
  rewrite Z.pow_add_r by (pose proof (len_nonneg s); lia).
  set (P := 10 ^ len s) in *. clearbody P. nia.
Qed.

(** ** [dec] *)

Lemma val_uint : forall u p, val (NilEmpty.string_of_uint u) (Zpos p) = Zpos (Pos.of_uint_acc u p).
Proof.
  induction u; intros p; cbn [NilEmpty.string_of_uint val Pos.of_uint_acc]; [reflexivity|..];
    rewrite <- IHu; f_equal; change (dig _) with (Zpos 1) || idtac; cbn [dig nat_of_ascii]; 
    match goal with |- context [dig ?c] => let v := eval compute in (dig c) in change (dig c) with v end; lia.
Qed.

Lemma val_uint0 : forall u, val (NilEmpty.string_of_uint u) 0 = Z.of_N (Pos.of_uint u).
Proof.
  induction u; cbn [NilEmpty.string_of_uint val Pos.of_uint]; [reflexivity|exact IHu|..];
    match goal with |- context [dig ?c] => let v := eval compute in (10 * 0 + dig c) in change (10 * 0 + dig c) with v end;
    rewrite val_uint; reflexivity.
Qed.

Lemma val_dec : forall n, val (dec n) 0 = Z.of_N n.
Proof.
  intros n. unfold dec. rewrite val_uint0. f_equal. exact (Unsigned.of_to n).
Qed.

Lemma nzhead_D0 : forall u v, nzhead u <> D0 v.
Proof. induction u; intros v; cbn [nzhead]; try discriminate. apply IHu. Qed.

Lemma dec_head : forall n c r, (0 < n)%N -> dec n = String c r -> 1 <= dig c.
Proof.
  intros n c r H E.
  assert (U : unorm (N.to_uint n) = N.to_uint n).
  { rewrite <- (Unsigned.to_of (N.to_uint n)). now rewrite Unsigned.of_to. }
  unfold dec in E.
  destruct (N.to_uint n) as [|u|u|u|u|u|u|u|u|u|u] eqn:T; cbn [NilEmpty.string_of_uint] in E; try discriminate E;
    inversion E; subst; try (cbv; discriminate).
  exfalso. unfold unorm in U. cbn [nzhead] in U. pose proof (nzhead_D0 u) as Z0.
  destruct (nzhead u) eqn:NZ; try discriminate U.
  - inversion U; subst u. pose proof (Unsigned.of_to n) as R. rewrite T in R. cbn in R. subst n. discriminate H.
  - apply (Z0 _ eq_refl).
Qed.

Lemma dec_len : forall n k, 0 <= k -> 10 ^ k <= Z.of_N n < 10 ^ (k + 1) -> len (dec n) = k + 1.
Proof.
  intros n k K H. pose proof (dec_all n) as A. pose proof (val_bound _ A) as B. rewrite val_dec in B.
  assert (P : (0 < n)%N) by (pose proof (Z.pow_pos_nonneg 10 k); lia).
  destruct (dec n) as [|c r] eqn:E; [cbn in B; lia|].
  pose proof (dec_head n c r P E) as Hd.
  cbn [all_chars] in A. apply andb_true_iff in A. destruct A as [_ A]. apply val_bound in A.
  pose proof (val_dec n) as V. rewrite E in V. cbn [val] in V. rewrite val_acc in V.
  pose proof (len_nonneg r) as L0. rewrite len_cons in *.
  assert (L : 10 ^ len r <= Z.of_N n).
  { pose proof (Z.pow_pos_nonneg 10 (len r)). nia. }
  assert (len r < k + 1) by (apply (Z.pow_lt_mono_r_iff 10); lia).
  assert (k < 1 + len r) by (apply (Z.pow_lt_mono_r_iff 10); lia).
  lia.
Qed.

(** ** Cutting and stripping *)

Lemma take_drop : forall n s, (take n s ++ drop n s)%string = s.
Proof. induction n as [|n IH]; intros [|c s]; try reflexivity. cbn [take drop String.append]. now rewrite IH. Qed.

Lemma take_len : forall n s, Z.of_nat n <= len s -> len (take n s) = Z.of_nat n.
Proof.
  induction n as [|n IH]; intros [|c s] H; cbn [take]; try reflexivity; [cbn in H; lia|].
  rewrite len_cons in *. rewrite IH by lia. lia.
Qed.

Lemma digits_take : forall n s, all_chars is_digit s = true ->
  all_chars is_digit (take n s) = true /\ all_chars is_digit (drop n s) = true.
Proof.
  intros n s H. rewrite <- (take_drop n s), all_app in H. now apply andb_true_iff in H.
Qed.

Lemma strip0_spec : forall s, all_chars is_digit s = true ->
  all_chars is_digit (strip0 s) = true /\ len (strip0 s) <= len s /\
  val (strip0 s) 0 * 10 ^ (len s - len (strip0 s)) = val s 0.
Proof.
  induction s as [|c s IH]; intros H; [repeat split; cbn; lia|].
  cbn [all_chars] in H. apply andb_true_iff in H. destruct H as [H1 H2].
  destruct (IH H2) as (A & B & C). cbn [strip0]. destruct (strip0 s) as [|c' r] eqn:E.
  - cbn [val] in C. change (0 * 10 ^ (len s - len "")) with 0 in C.
    destruct (c =? "0")%char eqn:E0.
    + apply Ascii.eqb_eq in E0. subst c. repeat split; [rewrite len_cons; change (len "") with 0; pose proof (len_nonneg s); lia|].
      cbn [val]. change (10 * 0 + dig "0") with 0. rewrite Z.mul_0_l. exact C.
    + cbn [all_chars]. rewrite H1. repeat split; [rewrite !len_cons; change (len "") with 0; pose proof (len_nonneg s); lia|].
      cbn [val]. rewrite (val_acc s), !len_cons. change (len "") with 0. rewrite <- C.
      replace (1 + len s - (1 + 0)) with (len s) by lia. ring.
  - cbn [all_chars] in *. rewrite H1. repeat split; [exact A|rewrite !len_cons in *; lia|].
    rewrite (len_cons c (String c' r)), (len_cons c s).
    replace (1 + len s - (1 + len (String c' r))) with (len s - len (String c' r)) by lia.
    change (val (String c (String c' r)) 0) with (val (String c' r) (10 * 0 + dig c)).
    change (val (String c s) 0) with (val s (10 * 0 + dig c)).
    rewrite (val_acc (String c' r)), (val_acc s), <- C. rewrite Z.mul_add_distr_r, <- Z.mul_assoc, <- Z.pow_add_r.
    + replace (len (String c' r) + (len s - len (String c' r))) with (len s) by lia. reflexivity.
    + apply len_nonneg.
    + lia.
Qed.

Lemma zeros_spec : forall n, all_chars is_digit (zeros n) = true /\ len (zeros n) = Z.of_nat n /\
  forall acc, val (zeros n) acc = acc * 10 ^ Z.of_nat n.
Proof.
  induction n as [|n (A & B & C)]; [repeat split; intros; cbn; lia|]. cbn [zeros]. repeat split.
  - cbn [all_chars]. now rewrite A.
  - rewrite len_cons, B. lia.
  - intros acc. cbn [val]. rewrite C. change (dig "0") with 0.
    rewrite Nat2Z.inj_succ, Z.pow_succ_r by lia. ring.
Qed.

(** ** The value of a layout *)

Local Open Scope Q_scope.

Definition p10 (k : Z) : Q := (10 # 1) ^ k.

Lemma p10_add : forall a b, p10 (a + b) == p10 a * p10 b.
Proof. intros. apply Qpower_plus. discriminate. Qed.
Lemma p10_pos : forall k, 0 < p10 k.
Proof. intros. apply Qpower_0_lt. reflexivity. Qed.
Lemma p10_Z : forall k, (0 <= k)%Z -> inject_Z (10 ^ k) == p10 k.
Proof. intros k H. rewrite Zpower_Qpower by assumption. reflexivity. Qed.

Lemma dec_value_shift : forall d k j, (0 <= j)%Z -> dec_value (d * 10 ^ j) k == dec_value d (k + j).
Proof.
  intros d k j H. unfold dec_value. fold (p10 k) (p10 (k + j)).
  rewrite inject_Z_mult, p10_Z by assumption. rewrite p10_add. ring.
Qed.

Local Open Scope Z_scope.

(** digits, a point, digits *)
Lemma decimal_point : forall a b x tail, all_chars is_digit a = true -> a <> "" -> all_chars is_digit b = true ->
  exponent_part tail = Some x ->
  match tail with String c _ => c = "e"%char | EmptyString => True end ->
  decimal (a ++ point b ++ tail) = Some (val b (val a 0), x - len b).
Proof.
  intros a b x tail Ha Na Hb Ht Hc. unfold decimal.
  rewrite run_spec; [|assumption|].
  2:{ destruct b as [|c b]; cbn [point String.append]; [destruct tail as [|c t]; [exact I|subst c; reflexivity]|reflexivity]. }
  assert ((0 + len a =? 0) = false) as ->.
  { apply Z.eqb_neq. destruct a as [|c a]; [congruence|]. rewrite len_cons. pose proof (len_nonneg a). lia. }
  destruct b as [|c b].
  - cbn [point String.append val]. assert (X : match tail with String c r1 => if (c =? ".")%char then digit_run r1 (val a 0) 0
       else (val a 0, 0, tail) | EmptyString => (val a 0, 0, tail) end = (val a 0, 0, tail)).
    { destruct tail as [|c t]; [reflexivity|]. subst c. reflexivity. }
    rewrite X, Ht. reflexivity.
  - change (point (String c b)) with ("." ++ String c b)%string. cbn [String.append].
    change ("." =? ".")%char with true. cbn iota.
    change (String c (b ++ tail)) with (String c b ++ tail)%string.
    rewrite run_spec; [|assumption|destruct tail; [exact I|subst; reflexivity]].
    rewrite Ht. reflexivity.
Qed.

Lemma decimal_layout : forall ds X, all_chars is_digit ds = true -> len ds = 18 -> 0 < val ds 0 ->
  exists d k, decimal (layout18 ds X) = Some (d, k) /\ (dec_value d k == dec_value (val ds 0) (X - 17))%Q.
Proof.
  intros ds X A L PV.
  (* the digits, cut after [n] of them and stripped *)
  assert (CUT : forall n, (n <= 18)%nat ->
    (dec_value (val (strip0 (drop n ds)) (val (take n ds) 0)) (X - (Z.of_nat n - 1) + (Z.of_nat n - 1 - len (strip0 (drop n ds)) - (Z.of_nat n - 1)))
     == dec_value (val ds 0) (X - 17))%Q).
  { intros n Hn. destruct (digits_take n ds A) as [T1 T2]. destruct (strip0_spec _ T2) as (S1 & S2 & S3).
    assert (LT : len (take n ds) = Z.of_nat n) by (apply take_len; lia).
    assert (LD : len (drop n ds) = 18 - Z.of_nat n).
    { pose proof (len_app (take n ds) (drop n ds)) as LA. rewrite take_drop in LA. lia. }
    set (t := strip0 (drop n ds)) in *.
    assert (V : val ds 0 = val t (val (take n ds) 0) * 10 ^ (len (drop n ds) - len t)).
    { rewrite <- (take_drop n ds) at 1. rewrite val_app, (val_acc (drop n ds) (val (take n ds) 0)), <- S3, (val_acc t (val (take n ds) 0)), Z.mul_add_distr_r, <- Z.mul_assoc, <- Z.pow_add_r.
      - replace (len t + (len (drop n ds) - len t)) with (len (drop n ds)) by lia. reflexivity.
      - apply len_nonneg.
      - lia. }
    rewrite V, dec_value_shift by lia.
    replace (X - 17 + (len (drop n ds) - len t)) with (X - (Z.of_nat n - 1) + (Z.of_nat n - 1 - len t - (Z.of_nat n - 1))) by lia.
    reflexivity. }
  unfold layout18. destruct ((X <? -4) || (18 <=? X)) eqn:E1; [|destruct (0 <=? X) eqn:E2].
  - (* scientific *)
    specialize (CUT 1%nat ltac:(lia)).
    destruct (digits_take 1 ds A) as [T1 T2]. destruct (strip0_spec _ T2) as (S1 & _ & _).
    eexists _, _. split.
    + apply decimal_point with (x := X); [exact T1| |exact S1| |reflexivity].
      * destruct ds; [cbn in L; lia|discriminate].
      * cbn [String.append]. unfold expo.
        set (ed := ((if (Z.abs X <? 10)%Z then "0" else "") ++ dec (Z.abs_N X))%string).
        assert (DE : all_chars is_digit ed = true).
        { unfold ed. rewrite all_app, dec_all. destruct (Z.abs X <? 10); reflexivity. }
        assert (VE : val ed 0 = Z.abs X).
        { unfold ed. rewrite val_app. destruct (Z.abs X <? 10); cbn [val]; change (10 * 0 + dig "0") with 0;
            rewrite val_dec; apply N2Z.inj_abs_N. }
        assert (LE : 0 < len ed).
        { unfold ed. rewrite len_app. pose proof (dec_nonempty (Z.abs_N X)) as N0. destruct (dec (Z.abs_N X)) as [|c r]; [congruence|].
          rewrite len_cons. pose proof (len_nonneg r). pose proof (len_nonneg (if Z.abs X <? 10 then "0" else "")). lia. }
        assert (R : digit_run ed 0 0 = (Z.abs X, len ed, "")).
        { rewrite <- (sapp_nil ed) at 1. rewrite run_spec; [|exact DE|exact I]. now rewrite VE. }
        unfold exponent_part.
        destruct (X <? 0) eqn:EX; cbn [String.append]; change ("e" =? "e")%char with true; cbn iota;
          rewrite R; (assert (len ed =? 0 = false) as -> by (apply Z.eqb_neq; lia)); cbn iota.
        -- change ("-" =? "+")%char with false. change ("-" =? "-")%char with true. cbn iota.
           apply Z.ltb_lt in EX. f_equal. lia.
        -- change ("+" =? "+")%char with true. cbn iota. apply Z.ltb_ge in EX. f_equal. lia.
    + replace (X - len (strip0 (drop 1 ds))) with
        (X - (Z.of_nat 1 - 1) + (Z.of_nat 1 - 1 - len (strip0 (drop 1 ds)) - (Z.of_nat 1 - 1))) by lia.
      exact CUT.
  - (* integer part *)
    apply orb_false_iff in E1. destruct E1 as [E3 E4]. apply Z.ltb_ge in E3. apply Z.leb_gt in E4. apply Z.leb_le in E2.
    specialize (CUT (Z.to_nat (X + 1)) ltac:(lia)).
    destruct (digits_take (Z.to_nat (X + 1)) ds A) as [T1 T2]. destruct (strip0_spec _ T2) as (S1 & _ & _).
    set (n := Z.to_nat (X + 1)) in *.
    eexists _, _. split.
    + rewrite <- (sapp_nil (point (strip0 (drop n ds)))).
      apply decimal_point with (x := 0); [exact T1| |exact S1|reflexivity|exact I].
      intros Z0. pose proof (take_len n ds) as TL. rewrite Z0 in TL. cbn in TL. lia.
    + replace (0 - len (strip0 (drop n ds))) with
        (X - (Z.of_nat n - 1) + (Z.of_nat n - 1 - len (strip0 (drop n ds)) - (Z.of_nat n - 1))) by lia.
      exact CUT.
  - (* leading zeros *)
    apply orb_false_iff in E1. destruct E1 as [E3 E4]. apply Z.ltb_ge in E3. apply Z.leb_gt in E2.
    specialize (CUT 0%nat ltac:(lia)). cbn [take drop val] in CUT.
    destruct (strip0_spec _ A) as (S1 & _ & _).
    destruct (zeros_spec (Z.to_nat (- X - 1))) as (Z1 & Z2 & Z3).
    eexists _, _. split.
    + assert (P : ("0." ++ zeros (Z.to_nat (- X - 1)) ++ strip0 ds)%string =
                  ("0" ++ point (zeros (Z.to_nat (- X - 1)) ++ strip0 ds) ++ "")%string).
      { rewrite sapp_nil. destruct (zeros (Z.to_nat (- X - 1)) ++ strip0 ds)%string eqn:EE; [|reflexivity].
        exfalso. assert (SZ : strip0 ds = "") by (destruct (zeros (Z.to_nat (- X - 1))); [exact EE|discriminate EE]).
        destruct (strip0_spec _ A) as (_ & _ & S3). rewrite SZ in S3. cbn [val] in S3. rewrite Z.mul_0_l in S3. lia. }
      rewrite P. apply decimal_point with (x := 0); [reflexivity|discriminate| |reflexivity|exact I].
      now rewrite all_app, Z1.
    + rewrite val_app, Z3. change (val "0" 0) with 0. rewrite Z.mul_0_l, len_app, Z2.
      replace (0 - (Z.of_nat (Z.to_nat (- X - 1)) + len (strip0 ds))) with
        (X - (Z.of_nat 0 - 1) + (Z.of_nat 0 - 1 - len (strip0 ds) - (Z.of_nat 0 - 1))) by lia.
      exact CUT.
Qed.

(** ** The digits *)

Lemma ndig_spec : forall fuel q, 1 <= q < 2 ^ (Z.of_nat fuel + 1) ->
  1 <= ndig fuel q /\ 10 ^ (ndig fuel q - 1) <= q < 10 ^ ndig fuel q.
Proof.
  induction fuel as [|fuel IH]; intros q H.
  - cbn [ndig]. change (Z.of_nat 0 + 1) with 1 in H. change (10 ^ (1 - 1)) with 1. change (10 ^ 1) with 10. lia.
  - cbn [ndig]. destruct (q <? 10) eqn:E.
    + apply Z.ltb_lt in E. change (10 ^ (1 - 1)) with 1. change (10 ^ 1) with 10. lia.
    + apply Z.ltb_ge in E.
      rewrite Nat2Z.inj_succ, Z.add_1_r, Z.pow_succ_r in H by lia. rewrite <- Z.add_1_r in H.
      assert (D := Z.div_mod q 10 ltac:(lia)). assert (M := Z.mod_pos_bound q 10 ltac:(lia)).
      destruct (IH (q / 10)) as (A & B & C).
      { split; [nia|]. apply Z.div_lt_upper_bound; [lia|]. nia. }
      set (k := ndig fuel (q / 10)) in *. split; [lia|].
      replace (1 + k - 1) with (Z.succ (k - 1)) by lia. replace (1 + k) with (Z.succ k) by lia.
      rewrite !Z.pow_succ_r by lia. nia.
Qed.

Lemma ndigits_spec : forall q, 1 <= q -> 1 <= ndigits q /\ 10 ^ (ndigits q - 1) <= q < 10 ^ ndigits q.
Proof.
  intros q H. unfold ndigits. apply ndig_spec. split; [assumption|].
  rewrite Z2Nat.id by apply Z.log2_nonneg. rewrite Z.add_1_r. apply Z.log2_spec. lia.
Qed.

(** scaled bounds: for [s = 17 - exp10 n d], [n/d * 10^s] has 18 digits before the point *)
Definition up (s : Z) : Z := if 0 <=? s then 10 ^ s else 1.
Definition down (s : Z) : Z := if 0 <=? s then 1 else 10 ^ (- s).

Lemma exp10_spec : forall n d, 0 < n -> 0 < d ->
  let s := 17 - exp10 n d in
  10 ^ 17 * (d * down s) <= n * up s < 10 ^ 18 * (d * down s).
Proof.
  intros n d Hn Hd. cbv zeta. unfold exp10.
  set (X := if d <=? n then ndigits (n / d) - 1 else - ndigits ((d - 1) / n)).
  (* 10^X <= n/d < 10^(X+1), in integers *)
  assert (B : (0 <= X /\ 10 ^ X * d <= n < 10 ^ (X + 1) * d) \/ (X < 0 /\ d <= n * 10 ^ (- X) /\ n * 10 ^ (- X - 1) < d)).
  { subst X. destruct (d <=? n) eqn:E.
    - left. apply Z.leb_le in E.
      assert (Q : 1 <= n / d) by (apply Z.div_le_lower_bound; lia).
      destruct (ndigits_spec _ Q) as (A & B & C). set (k := ndigits (n / d)) in *.
      assert (D := Z.div_mod n d ltac:(lia)). assert (M := Z.mod_pos_bound n d ltac:(lia)).
      replace (k - 1 + 1) with k by lia. split; [lia|]. nia.
    - right. apply Z.leb_gt in E.
      assert (Q : 1 <= (d - 1) / n) by (apply Z.div_le_lower_bound; lia).
      destruct (ndigits_spec _ Q) as (A & B & C). set (k := ndigits ((d - 1) / n)) in *.
      assert (D := Z.div_mod (d - 1) n ltac:(lia)). assert (M := Z.mod_pos_bound (d - 1) n ltac:(lia)).
      rewrite Z.opp_involutive. split; [lia|]. nia. }
  clearbody X. unfold up, down.
  destruct B as [(X0 & B)|(X0 & B1 & B2)].
  - destruct (0 <=? 17 - X) eqn:E.
    + apply Z.leb_le in E. assert (P : 10 ^ 17 = 10 ^ X * 10 ^ (17 - X)).
      { rewrite <- Z.pow_add_r by lia. f_equal; lia. }
      assert (P' : 10 ^ 18 = 10 ^ (X + 1) * 10 ^ (17 - X)).
      { rewrite <- Z.pow_add_r by lia. f_equal; lia. }
      rewrite P, P'. assert (0 < 10 ^ (17 - X)) by (apply Z.pow_pos_nonneg; lia). nia.
    + apply Z.leb_gt in E. assert (P : 10 ^ X = 10 ^ 17 * 10 ^ (- (17 - X))).
      { rewrite <- Z.pow_add_r by lia. f_equal; lia. }
      assert (P' : 10 ^ (X + 1) = 10 ^ 18 * 10 ^ (- (17 - X))).
      { rewrite <- Z.pow_add_r by lia. f_equal; lia. }
      rewrite P, P' in B. lia.
  - assert ((0 <=? 17 - X) = true) as -> by (apply Z.leb_le; lia).
    assert (P : 10 ^ (17 - X) = 10 ^ 17 * 10 ^ (- X)).
    { rewrite <- Z.pow_add_r by lia. f_equal; lia. }
    assert (P' : 10 ^ (17 - X) = 10 ^ 18 * 10 ^ (- X - 1)).
    { rewrite <- Z.pow_add_r by lia. f_equal; lia. }
    split; [rewrite P|rewrite P']; lia.
Qed.

Lemma round_div_spec : forall n d, 0 < d -> 2 * Z.abs (round_div n d * d - n) <= d /\
  forall k, k * d <= n -> k <= round_div n d.
Proof.
  intros n d H. unfold round_div.
  assert (D := Z.div_mod n d ltac:(lia)). assert (M := Z.mod_pos_bound n d H).
  set (q := n / d) in *. set (r := n mod d) in *. clearbody q r. subst n.
  assert (K0 : forall k, k * d <= d * q + r -> k <= q) by (intros; nia).
  destruct (2 * r <? d) eqn:E1; [|destruct (d <? 2 * r) eqn:E2; [|destruct (Z.even q)]];
    rewrite ?Z.ltb_lt, ?Z.ltb_ge in *; (split; [nia|intros k Hk; specialize (K0 k Hk); lia]).
Qed.

Local Open Scope Q_scope.

Lemma frac2_value : forall m e n d, frac2 m e = (n, d) -> (0 < n)%Z /\ (0 < d)%Z /\ bin_value m e * inject_Z d == inject_Z n.
Proof.
  intros m e n d H. unfold frac2 in H. unfold bin_value.
  destruct (0 <=? e)%Z eqn:E; injection H as <- <-.
  - apply Z.leb_le in E. split; [|split; [reflexivity|]].
    + apply (Z.mul_pos_pos (Zpos m) (2 ^ e)); [reflexivity|]. apply Z.pow_pos_nonneg; lia.
    + change (inject_Z (Zpos m) * (2 # 1) ^ e * inject_Z 1 == inject_Z (Zpos m * 2 ^ e)).
      rewrite inject_Z_mult, Zpower_Qpower by assumption. change (inject_Z 1) with 1. change (inject_Z 2) with (2 # 1). ring.
  - apply Z.leb_gt in E. split; [reflexivity|]. split.
    + apply Z.pow_pos_nonneg; lia.
    + rewrite Zpower_Qpower by lia. change (inject_Z 2) with (2 # 1). rewrite <- Qmult_assoc, <- Qpower_plus by discriminate.
      replace (e + - e)%Z with 0%Z by lia. change ((2 # 1) ^ 0) with 1. ring.
Qed.

Lemma up_down : forall s, inject_Z (up s) == p10 s * inject_Z (down s).
Proof.
  intros s. unfold up, down. destruct (0 <=? s)%Z eqn:E.
  - apply Z.leb_le in E. rewrite p10_Z by assumption. change (inject_Z 1) with 1. ring.
  - apply Z.leb_gt in E. rewrite p10_Z by lia. rewrite <- p10_add. replace (s + - s)%Z with 0%Z by lia. reflexivity.
Qed.

Lemma down_pos : forall s, (0 < down s)%Z.
Proof.
  intros s. unfold down. destruct (0 <=? s)%Z eqn:E; [reflexivity|]. apply Z.leb_gt in E. apply Z.pow_pos_nonneg; lia.
Qed.

Lemma inject_lt0 : forall z, (0 < z)%Z -> 0 < inject_Z z.
Proof. intros z H. change 0 with (inject_Z 0). now rewrite <- Zlt_Qlt. Qed.

(** eighteen digits, and a relative error of at most half a unit of the seventeenth *)
Lemma digits18_spec : forall m e D X, digits18 m e = (D, X) ->
  (10 ^ 17 <= D < 10 ^ 18)%Z /\
  2 * p10 17 * Qabs (dec_value D (X - 17) - bin_value m e) <= bin_value m e.
Proof.
  intros m e D X H. unfold digits18 in H. destruct (frac2 m e) as [n d] eqn:EF.
  destruct (frac2_value m e n d EF) as (Hn & Hd & HV).
  pose proof (exp10_spec n d Hn Hd) as HB. cbv zeta in HB.
  set (X0 := exp10 n d) in *. clearbody X0. set (s := (17 - X0)%Z) in *.
  set (N := (n * up s)%Z) in *. set (M := (d * down s)%Z) in *.
  assert (ED : (if (0 <=? s)%Z then round_div (n * 10 ^ s) d else round_div n (d * 10 ^ (- s))) = round_div N M).
  { unfold N, M, up, down. destruct (0 <=? s)%Z; rewrite ?Z.mul_1_r; reflexivity. }
  rewrite ED in H. clear ED.
  assert (HM : (0 < M)%Z) by (unfold M; pose proof (down_pos s); nia).
  destruct (round_div_spec N M HM) as [R1 R2].
  set (D0 := round_div N M) in *. clearbody D0.
  assert (L0 : (10 ^ 17 <= D0)%Z) by (apply R2; lia).
  assert (U0 : (D0 <= 10 ^ 18)%Z).
  { change (10 ^ 18)%Z with 1000000000000000000%Z in *. nia. }
  (* in rationals *)
  assert (SV : bin_value m e * p10 s * inject_Z M == inject_Z N).
  { unfold N, M. rewrite !inject_Z_mult, up_down, <- HV. ring. }
  assert (PM : 0 < inject_Z M) by (apply inject_lt0; exact HM).
  set (v := bin_value m e) in *.
  assert (PS : 0 < p10 s) by apply p10_pos.
  (* w = v * 10^s *)
  set (w := v * p10 s) in *.
  assert (W1 : 2 * Qabs (inject_Z D0 - w) <= 1).
  { assert (Z1 : (-M <= 2 * (D0 * M - N))%Z /\ (2 * (D0 * M - N) <= M)%Z) by lia.
    destruct Z1 as [Z1 Z2]. rewrite Zle_Qle in Z1, Z2.
    assert (EQ : inject_Z (2 * (D0 * M - N)) == 2 * (inject_Z D0 - w) * inject_Z M).
    { rewrite inject_Z_mult. unfold Zminus. rewrite inject_Z_plus, inject_Z_opp, inject_Z_mult, <- SV.
      change (inject_Z 2) with 2. ring. }
    rewrite EQ in Z1, Z2. rewrite inject_Z_opp in Z1.
    assert (A1 : -1 <= 2 * (inject_Z D0 - w)).
    { apply Qmult_le_r with (z := inject_Z M); [assumption|]. lra. }
    assert (A2 : 2 * (inject_Z D0 - w) <= 1).
    { apply Qmult_le_r with (z := inject_Z M); [assumption|]. lra. }
    apply (Qabs_case (inject_Z D0 - w) (fun x => 2 * x <= 1)); intros; lra. }
  assert (W2 : p10 17 <= w).
  { destruct HB as [HB _]. rewrite Zle_Qle in HB. rewrite inject_Z_mult, <- SV in HB.
    apply Qmult_le_r with (z := inject_Z M); [assumption|]. exact HB. }
  (* back from w to v *)
  assert (VW : v == w * p10 (X0 - 17)).
  { unfold w. rewrite <- Qmult_assoc, <- p10_add. unfold s. replace (17 - X0 + (X0 - 17))%Z with 0%Z by lia.
    change (p10 0) with 1. ring. }
  assert (PX : 0 < p10 (X0 - 17)) by apply p10_pos.
  assert (MAIN : 2 * p10 17 * Qabs (dec_value D0 (X0 - 17) - v) <= v).
  { unfold dec_value. fold (p10 (X0 - 17)).
    assert (E1 : inject_Z D0 * p10 (X0 - 17) - v == (inject_Z D0 - w) * p10 (X0 - 17)) by (rewrite VW; ring).
    rewrite E1, Qabs_Qmult, (Qabs_pos (p10 (X0 - 17))) by (apply Qlt_le_weak; assumption).
    set (a := Qabs (inject_Z D0 - w)) in *. clearbody a.
    rewrite VW at 1.
    assert (E2 : 2 * p10 17 * (a * p10 (X0 - 17)) == (2 * a) * p10 17 * p10 (X0 - 17)) by ring.
    rewrite E2.
    apply Qmult_le_compat_r; [|apply Qlt_le_weak; assumption].
    apply Qle_trans with (1 * p10 17); [|lra].
    apply Qmult_le_compat_r; [assumption|]. apply Qlt_le_weak, p10_pos. }
  destruct (D0 =? 10 ^ 18)%Z eqn:ED.
  - apply Z.eqb_eq in ED. injection H as <- <-. split; [split; [apply Z.le_refl|reflexivity]|].
    assert (E3 : dec_value (10 ^ 17) (X0 + 1 - 17) == dec_value D0 (X0 - 17)).
    { replace (X0 + 1 - 17)%Z with (X0 - 17 + 1)%Z by lia. rewrite <- dec_value_shift by lia. rewrite ED. reflexivity. }
    rewrite E3. exact MAIN.
  - apply Z.eqb_neq in ED. injection H as <- <-. split; [lia|exact MAIN].
Qed.

(** ** Neighbouring doubles *)

Definition p2 (k : Z) : Q := (2 # 1) ^ k.
Lemma p2_add : forall a b, p2 (a + b) == p2 a * p2 b.
Proof. intros. apply Qpower_plus. discriminate. Qed.
Lemma p2_pos : forall k, 0 < p2 k.
Proof. intros. apply Qpower_0_lt. reflexivity. Qed.
Lemma p2_Z : forall k, (0 <= k)%Z -> inject_Z (2 ^ k) == p2 k.
Proof. intros k H. rewrite Zpower_Qpower by assumption. reflexivity. Qed.

Lemma digits2_log : forall m, Zpos (digits2_pos m) = (Z.log2 (Zpos m) + 1)%Z.
Proof.
  assert (X : forall m, digits2_pos m = Pos.size m) by (induction m; cbn [digits2_pos Pos.size]; congruence).
  intros m. rewrite X. destruct m; cbn [Z.log2 Pos.size]; lia.
Qed.

Lemma double_facts : forall m e, double m e -> (Zpos m < 2 ^ 53)%Z /\ (-1074 <= e)%Z /\ ((2 ^ 52 <= Zpos m)%Z \/ e = (-1074)%Z).
Proof.
  intros m e H. unfold double, bounded, canonical_mantissa, fexp, emin in H. apply andb_true_iff in H. destruct H as [H _].
  apply Zeq_bool_eq in H. rewrite digits2_log in H.
  pose proof (Z.log2_spec (Zpos m) ltac:(lia)) as [L1 L2]. set (l := Z.log2 (Zpos m)) in *.
  assert (0 <= l)%Z by apply Z.log2_nonneg. clearbody l.
  split; [|split].
  - apply Z.lt_le_trans with (2 ^ Z.succ l)%Z; [assumption|]. apply Z.pow_le_mono_r; lia.
  - lia.
  - destruct (Z.le_gt_cases (l + 1 + e - 53) (3 - 1024 - 53)) as [C|C]; [right; lia|left].
    assert (l = 52%Z) as -> by lia. assumption.
Qed.

Lemma gap : forall m e m' e', double m e -> double m' e' -> ~ bin_value m' e' == bin_value m e ->
  bin_value m e <= p2 53 * Qabs (bin_value m e - bin_value m' e').
Proof.
  intros m e m' e' H H' N. destruct (double_facts _ _ H) as (A1 & A2 & A3). destruct (double_facts _ _ H') as (B1 & B2 & B3).
  unfold bin_value in *. fold (p2 e) (p2 e') in *.
  destruct (Z.le_gt_cases e e') as [C|C].
  - (* multiples of 2^e *)
    assert (E : inject_Z (Zpos m') * p2 e' == inject_Z (Zpos m' * 2 ^ (e' - e)) * p2 e).
    { rewrite inject_Z_mult, p2_Z by lia. rewrite <- Qmult_assoc, <- p2_add. now replace (e' - e + e)%Z with e' by lia. }
    rewrite E in *. set (k := (Zpos m' * 2 ^ (e' - e))%Z) in *. clearbody k.
    assert (Nk : k <> Zpos m) by (intros ->; apply N; reflexivity).
    assert (E1 : inject_Z (Zpos m) * p2 e - inject_Z k * p2 e == inject_Z (Zpos m - k) * p2 e).
    { unfold Zminus. rewrite inject_Z_plus, inject_Z_opp. ring. }
    pose proof (p2_pos e) as P.
    rewrite E1, Qabs_Qmult, (Qabs_pos (p2 e)) by (apply Qlt_le_weak; assumption).
    rewrite Qmult_assoc. apply Qmult_le_compat_r; [|apply Qlt_le_weak; assumption].
    rewrite <- p2_Z by lia.
    assert (E2 : Qabs (inject_Z (Zpos m - k)) == inject_Z (Z.abs (Zpos m - k))) by reflexivity.
    rewrite E2, <- inject_Z_mult, <- Zle_Qle. change (2 ^ 53)%Z with 9007199254740992%Z in *. lia.
  - (* a lower binade *)
    assert (A4 : (2 ^ 52 <= Zpos m)%Z) by lia.
    assert (E : inject_Z (Zpos m) * p2 e == inject_Z (Zpos m * 2 ^ (e - e')) * p2 e').
    { rewrite inject_Z_mult, p2_Z by lia. rewrite <- Qmult_assoc, <- p2_add. now replace (e - e' + e')%Z with e by lia. }
    rewrite E. pose proof (p2_pos e') as P.
    set (j := (2 ^ (e - e'))%Z) in *. assert (J : (2 <= j)%Z).
    { unfold j. change 2%Z with (2 ^ 1)%Z at 1. apply Z.pow_le_mono_r; lia. }
    assert (E1 : inject_Z (Zpos m * j) * p2 e' - inject_Z (Zpos m') * p2 e' == inject_Z (Zpos m * j - Zpos m') * p2 e').
    { unfold Zminus. rewrite inject_Z_plus, inject_Z_opp. ring. }
    rewrite E1, Qabs_Qmult, (Qabs_pos (p2 e')) by (apply Qlt_le_weak; assumption).
    rewrite Qmult_assoc. apply Qmult_le_compat_r; [|apply Qlt_le_weak; assumption].
    rewrite <- p2_Z by lia.
    assert (E2 : Qabs (inject_Z (Zpos m * j - Zpos m')) == inject_Z (Z.abs (Zpos m * j - Zpos m'))) by reflexivity.
    rewrite E2, <- inject_Z_mult, <- Zle_Qle. clearbody j.
    change (2 ^ 53)%Z with 9007199254740992%Z in *. change (2 ^ 52)%Z with 4503599627370496%Z in *.
    assert (4503599627370496 * 2 <= Zpos m * j)%Z by nia. lia.
Qed.

(** ** The text is closest to the number itself *)

Lemma p10_17 : p10 17 == 100000000000000000 # 1.
Proof. reflexivity. Qed.
Lemma p2_53 : p2 53 == 9007199254740992 # 1.
Proof. reflexivity. Qed.

Lemma bin_pos : forall m e, 0 < bin_value m e.
Proof. intros. unfold bin_value. apply Qmult_lt_0_compat; [apply inject_lt0; reflexivity|apply p2_pos]. Qed.

Lemma text_value : forall m e, exists d k, decimal (pos18g m e) = Some (d, k) /\
  2 * p10 17 * Qabs (dec_value d k - bin_value m e) <= bin_value m e.
Proof.
  intros m e. unfold pos18g. destruct (digits18 m e) as [D X] eqn:E. destruct (digits18_spec _ _ _ _ E) as (B & C).
  assert (DN : Z.of_N (Z.to_N D) = D) by (apply Z2N.id; lia).
  destruct (decimal_layout (dec (Z.to_N D)) X) as (d & k & P & V).
  - apply dec_all.
  - apply (dec_len _ 17); [lia|]. rewrite DN. exact B.
  - rewrite val_dec, DN. change (10 ^ 17)%Z with 100000000000000000%Z in B. lia.
  - exists d, k. split; [exact P|]. rewrite V, val_dec, DN. exact C.
Qed.

Lemma text_closest : forall m e m' e' d k, double m e -> double m' e' -> ~ bin_value m' e' == bin_value m e ->
  2 * p10 17 * Qabs (dec_value d k - bin_value m e) <= bin_value m e ->
  Qabs (dec_value d k - bin_value m e) < Qabs (dec_value d k - bin_value m' e').
Proof.
  intros m e m' e' d k H H' N T. pose proof (gap m e m' e' H H' N) as Gp. pose proof (bin_pos m e) as P.
  rewrite p10_17 in T. rewrite p2_53 in Gp.
  set (t := dec_value d k) in *. set (v := bin_value m e) in *. set (v' := bin_value m' e') in *.
  pose proof (Qabs_triangle (v - t) (t - v')) as TR.
  assert (E : v - t + (t - v') == v - v') by ring. rewrite E in TR.
  assert (E2 : Qabs (v - t) == Qabs (t - v)) by (rewrite <- Qabs_opp; apply Qabs_wd; ring).
  rewrite E2 in TR.
  set (a := Qabs (t - v)) in *. set (b := Qabs (t - v')) in *. set (c := Qabs (v - v')) in *.
  clearbody a b c t v v'. lra.
Qed.

Local Open Scope Z_scope.

(** ** The text as a token *)

Fixpoint lastc (p : ascii) (s : string) : ascii := match s with EmptyString => p | String c s => lastc c s end.

Lemma num_tail_app : forall a b p, num_tail p (a ++ b) = num_tail p a && num_tail (lastc p a) b.
Proof.
  induction a as [|c a IH]; intros b p; [reflexivity|]. cbn [String.append num_tail lastc]. rewrite IH. apply andb_assoc.
Qed.

Lemma digits_num : forall s, all_chars is_digit s = true -> all_chars num_char s = true.
Proof.
  intros s. apply all_impl. exact digit_num.
Qed.

Lemma point_num : forall s, all_chars is_digit s = true -> all_chars num_char (point s) = true.
Proof.
  intros [|c s] H; [reflexivity|]. unfold point. change ("." ++ String c s)%string with (String "." (String c s)).
  cbn [all_chars]. change (num_char ".") with true. cbn [andb].
  change (all_chars num_char (String c s) = true). apply digits_num, H.
Qed.

Lemma expo_tail : forall x, num_tail "e" (expo x) = true.
Proof.
  intros x. unfold expo.
  assert (A : all_chars num_char ((if (Z.abs x <? 10)%Z then "0" else "") ++ dec (Z.abs_N x)) = true).
  { apply digits_num. rewrite all_app, dec_all. destruct (Z.abs x <? 10); reflexivity. }
  destruct (x <? 0); cbn [String.append num_tail];
    (apply andb_true_iff; split; [reflexivity|apply num_tail_chars, A]).
Qed.

Lemma strip0_digits : forall s, all_chars is_digit s = true -> all_chars is_digit (strip0 s) = true.
Proof. intros s H. apply strip0_spec, H. Qed.

(** digits first, then whatever may continue a number *)
Lemma wf_text : forall a b, all_chars is_digit a = true -> a <> "" -> (forall p, num_tail p b = true) ->
  wf_tok (TNum (a ++ b)) = true.
Proof.
  intros [|c a] b A N B; [congruence|]. cbn [all_chars] in A. apply andb_true_iff in A. destruct A as [A1 A2].
  cbn [String.append wf_tok]. rewrite A1. cbn [andb]. rewrite num_tail_app, B, andb_true_r.
  apply num_tail_chars, digits_num, A2.
Qed.

Lemma layout_wf : forall ds X, all_chars is_digit ds = true -> ds <> "" -> wf_tok (TNum (layout18 ds X)) = true.
Proof.
  intros ds X A N. unfold layout18.
  assert (T : forall n, (0 < n)%nat -> take n ds <> "").
  { intros [|n] H; [lia|]. destruct ds; [congruence|discriminate]. }
  destruct ((X <? -4) || (18 <=? X)) eqn:E1; [|destruct (0 <=? X) eqn:E2].
  - destruct (digits_take 1 ds A) as [T1 T2]. apply wf_text; [exact T1|apply T; lia|].
    intros p. rewrite num_tail_app. apply andb_true_iff. split.
    + apply num_tail_chars, point_num, strip0_digits, T2.
    + cbn [String.append num_tail]. apply andb_true_iff. split; [reflexivity|apply expo_tail].
  - apply Z.leb_le in E2. destruct (digits_take (Z.to_nat (X + 1)) ds A) as [T1 T2].
    apply wf_text; [exact T1|apply T; lia|].
    intros p. apply num_tail_chars, point_num, strip0_digits, T2.
  - change ("0." ++ zeros (Z.to_nat (- X - 1)) ++ strip0 ds)%string
      with ("0" ++ ("." ++ zeros (Z.to_nat (- X - 1)) ++ strip0 ds))%string.
    apply wf_text; [reflexivity|discriminate|].
    intros p. apply num_tail_chars. change ("." ++ zeros (Z.to_nat (- X - 1)) ++ strip0 ds)%string
      with (String "." (zeros (Z.to_nat (- X - 1)) ++ strip0 ds)). cbn [all_chars].
    apply andb_true_iff. split; [reflexivity|]. apply digits_num. rewrite all_app.
    apply andb_true_iff. split; [apply zeros_spec|apply strip0_digits, A].
Qed.

Lemma mag_wf : forall f, finite f = true -> wf_tok (TNum (mag_text f)) = true.
Proof.
  intros [[]|s| |s m e] H; try discriminate H; [reflexivity|]. cbn [mag_text]. unfold pos18g.
  destruct (digits18 m e) as [D X]. apply layout_wf; [apply dec_all|apply dec_nonempty].
Qed.

Lemma uint_total : forall s, all_chars is_digit s = true -> exists u, NilEmpty.uint_of_string s = Some u.
Proof.
  induction s as [|c s IH]; intros H; [exists Nil; reflexivity|].
  cbn [all_chars] in H. apply andb_true_iff in H. destruct H as [H1 H2]. destruct (IH H2) as [u Hu].
  cbn [NilEmpty.uint_of_string]. rewrite Hu. 
  destruct c as [b0 b1 b2 b3 b4 b5 b6 b7].
  destruct b0, b1, b2, b3, b4, b5, b6, b7; first [discriminate H1|eexists; reflexivity].
Qed.

Lemma split_all : forall s, all_chars is_digit (fst (split_digits s)) = true.
Proof.
  induction s as [|c s IH]; [reflexivity|]. cbn [split_digits]. destruct (is_digit c) eqn:E; [|reflexivity].
  destruct (split_digits s) as [a b]. cbn [fst all_chars] in *. now rewrite E, IH.
Qed.

Lemma mag_literal : forall f, finite f = true -> exists c, literal (mag_text f) = Some c.
Proof.
  intros f H. apply mag_wf in H. set (s := mag_text f) in *. clearbody s. clear f. unfold literal.
  destruct s as [|c s]; [discriminate H|]. cbn [wf_tok] in H. apply andb_true_iff in H. destruct H as [H _].
  pose proof (split_all (String c s)) as A.
  destruct (split_digits (String c s)) as [ds suf] eqn:E. cbn [fst] in A.
  assert (N : ds <> "").
  { cbn [split_digits] in E. rewrite H in E. destruct (split_digits s). inversion E; subst. discriminate. }
  destruct ds as [|d ds]; [congruence|]. destruct (mem suf [""; "U"; "LL"; "LLU"]); [|eauto].
  unfold read_nat. destruct (uint_total _ A) as [u ->]. eauto.
Qed.
