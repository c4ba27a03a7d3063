From Coq Require Import List ZArith Lia Ascii Bool.
From Coq Require Import Strings.Byte.
From Verif Require Import CV_Model CV_Spec.
Import ListNotations.
Local Open Scope Z_scope.

Lemma pow_split : forall w, 1 <= w -> 2 ^ w = 2 * 2 ^ (w - 1) /\ 0 < 2 ^ (w - 1).
Proof.
  intros w H. split; [|apply Z.pow_pos_nonneg; lia].
  replace w with (Z.succ (w - 1)) at 1 by lia. rewrite Z.pow_succ_r by lia. reflexivity.
Qed.

Lemma wrap_stands : forall w z, 1 <= w -> stands_for w (wrap w z) z.
Proof.
  intros w z H. destruct (pow_split w H) as [E P]. unfold stands_for, word, wrap. rewrite E.
  set (h := 2 ^ (w - 1)) in *.
  pose proof (Z.mod_pos_bound (z + h) (2 * h)). pose proof (Z.div_mod (z + h) (2 * h)).
  split; [lia|]. exists ((z + h) / (2 * h)). lia.
Qed.

Lemma stands_unique : forall w n m z, 1 <= w -> stands_for w n z -> stands_for w m z -> n = m.
Proof.
  intros w n m z H [[A B] [k K]] [[C D] [l L]]. destruct (pow_split w H) as [E P].
  rewrite E in *. set (h := 2 ^ (w - 1)) in *. assert (k = l) by nia. subst. lia.
Qed.

Lemma wrap_id : forall w z, 1 <= w -> word w z -> wrap w z = z.
Proof.
  intros w z H W. apply (stands_unique w) with (z := z); auto using wrap_stands.
  split; auto. exists 0. lia.
Qed.

Lemma wrap_eq : forall w a b k, 1 <= w -> a = b + k * 2 ^ w -> wrap w a = wrap w b.
Proof.
  intros w a b k H E. apply (stands_unique w) with (z := a); auto using wrap_stands.
  destruct (wrap_stands w b H) as [W [l L]]. split; auto. exists (k + l). lia.
Qed.

Lemma wrap_double : forall w a, 1 <= w -> wrap w (wrap w a + wrap w a) = wrap w (2 * a).
Proof.
  intros w a H. destruct (wrap_stands w a H) as [W [l L]].
  apply wrap_eq with (k := - 2 * l); auto. lia.
Qed.

Lemma wrap_succ : forall w a, 1 <= w -> wrap w (wrap w a + 1) = wrap w (a + 1).
Proof.
  intros w a H. destruct (wrap_stands w a H) as [W [l L]].
  apply wrap_eq with (k := - l); auto. lia.
Qed.

Lemma P_to_wrap : forall w p, 2 <= w -> P_to w p = wrap w (Zpos p).
Proof.
  intros w p H. assert (H1 : 1 <= w) by lia. induction p as [p IH|p IH|]; cbn [P_to].
  - rewrite IH, wrap_double, wrap_succ by auto. f_equal.
  - rewrite IH, wrap_double by auto. f_equal.
  - rewrite wrap_id; auto. unfold word.
    assert (2 ^ 1 <= 2 ^ (w - 1)) by (apply Z.pow_le_mono_r; lia). lia.
Qed.

Lemma Z_to_wrap : forall w z, 2 <= w -> Z_to w z = wrap w z.
Proof.
  intros w z H. assert (H1 : 1 <= w) by lia. destruct z as [|p|p]; cbn [Z_to].
  - rewrite wrap_id; auto. unfold word. destruct (pow_split w H1). lia.
  - apply P_to_wrap; auto.
  - rewrite P_to_wrap by auto. destruct (wrap_stands w (Zpos p) H1) as [W [l L]].
    apply wrap_eq with (k := l); auto. lia.
Qed.

Lemma Z_to_small : forall w z, 2 <= w -> word w z -> Z_to w z = z.
Proof. intros. rewrite Z_to_wrap by auto. apply wrap_id; auto. lia. Qed.

(** ** From words *)
Lemma P_of_spec : forall fuel w n, 2 <= w -> word w n ->
  0 < n mod 2 ^ w -> n mod 2 ^ w < 2 ^ Z.of_nat fuel ->
  P_of fuel w n = Some (Z.to_pos (n mod 2 ^ w)).
Proof.
  induction fuel as [|f IH]; intros w n Hw W P B.
  - cbn in B. lia.
  - assert (H1 : 1 <= w) by lia. destruct (pow_split w H1) as [E Q].
    assert (Q2 : 2 <= 2 ^ (w - 1)).
    { change 2 with (2 ^ 1) at 1. apply Z.pow_le_mono_r; lia. }
    assert (U : exists k, n = n mod 2 ^ w + k * 2 ^ w).
    { exists (n / 2 ^ w). pose proof (Z.div_mod n (2 ^ w)). lia. }
    destruct U as [k U]. set (u := n mod 2 ^ w) in *.
    assert (UB : u < 2 ^ w) by (apply Z.mod_pos_bound; lia).
    assert (M : n mod 2 = u mod 2).
    { rewrite U, E. replace (u + k * (2 * 2 ^ (w - 1))) with (u + (k * 2 ^ (w - 1)) * 2) by ring.
      apply Z.mod_add. lia. }
    assert (L : lsr1 w n = u / 2).
    { unfold lsr1. fold u. apply wrap_id; auto. unfold word.
      pose proof (Z.div_pos u 2). assert (u / 2 < 2 ^ (w - 1)) by (apply Z.div_lt_upper_bound; lia).
      lia. }
    assert (D : u = 2 * (u / 2) + u mod 2) by (apply Z.div_mod; lia).
    pose proof (Z.mod_pos_bound u 2) as MB.
    assert (R : 0 < u / 2 -> P_of f w (u / 2) = Some (Z.to_pos (u / 2))).
    { intro P2. assert (u / 2 < 2 ^ (w - 1)) by (apply Z.div_lt_upper_bound; lia).
      assert (S0 : (u / 2) mod 2 ^ w = u / 2) by (apply Z.mod_small; lia).
      rewrite <- S0 at 2. apply IH; auto; try rewrite S0; auto.
      - unfold word. lia.
      - rewrite Nat2Z.inj_succ, Z.pow_succ_r in B by lia. apply Z.div_lt_upper_bound; lia. }
    cbn [P_of]. unfold land1. rewrite M, L.
    unfold word in W.
    destruct (Z.eqb_spec (u mod 2) 0) as [Z0|Z1].
    + destruct (Z.eqb_spec n 0) as [N0|N0].
      * exfalso. unfold u in P. rewrite N0, Z.mod_0_l in P; lia.
      * rewrite R by lia. cbn [option_map]. f_equal. rewrite D at 2. rewrite Z0.
        destruct (u / 2); first [reflexivity|lia].
    + assert (u mod 2 = 1) as Z2 by lia. destruct (Z.eqb_spec n 1) as [N1|N1].
      * unfold u. rewrite N1, Z.mod_1_l by lia. reflexivity.
      * assert (u <> 1).
        { intro. apply N1. rewrite U in W. rewrite U. rewrite E in *.
          assert (k = 0) by nia. subst k. lia. }
        rewrite R by lia. cbn [option_map]. f_equal. rewrite D at 2. rewrite Z2.
        destruct (u / 2); first [reflexivity|lia].
Qed.

Lemma P_of_word_spec : forall w n, 2 <= w -> word w n -> n <> 0 ->
  P_of_word w n = Some (Z.to_pos (n mod 2 ^ w)) /\ 0 < n mod 2 ^ w.
Proof.
  intros w n Hw W N. assert (H1 : 1 <= w) by lia. destruct (pow_split w H1) as [E Q].
  assert (P : 0 < n mod 2 ^ w).
  { pose proof (Z.mod_pos_bound n (2 ^ w)). assert (n mod 2 ^ w <> 0); [|lia].
    intro M. pose proof (Z.div_mod n (2 ^ w)). unfold word in W. rewrite E in *.
    set (k := n / (2 * 2 ^ (w - 1))) in *. assert (k = 0) by nia. subst k. nia. }
  split; auto. apply P_of_spec; auto. rewrite Z2Nat.id by lia. apply Z.mod_pos_bound. lia.
Qed.

Lemma of_uint_spec : forall w n, 2 <= w -> word w n -> Z_of_uint w n = Some (n mod 2 ^ w).
Proof.
  intros w n Hw W. unfold Z_of_uint. destruct (Z.eqb_spec n 0) as [->|N].
  - rewrite Z.mod_0_l; auto. apply Z.pow_nonzero; lia.
  - destruct (P_of_word_spec w n Hw W N) as [-> P]. cbn. rewrite Z2Pos.id; auto.
Qed.

Lemma N_of_spec : forall w n, 2 <= w -> word w n -> N_of w n = Some (Z.to_N (n mod 2 ^ w)).
Proof.
  intros w n Hw W. unfold N_of. destruct (Z.eqb_spec n 0) as [->|N].
  - rewrite Z.mod_0_l; auto. apply Z.pow_nonzero; lia.
  - destruct (P_of_word_spec w n Hw W N) as [-> P]. cbn. destruct (n mod 2 ^ w); try lia. reflexivity.
Qed.

Lemma of_sint_spec : forall w n, 2 <= w -> word w n -> Z_of_sint w n = Some n.
Proof.
  intros w n Hw W. assert (H1 : 1 <= w) by lia. destruct (pow_split w H1) as [E Q].
  unfold Z_of_sint. destruct (Z.eqb_spec n 0) as [->|N]; auto.
  destruct (Z.ltb_spec 0 n).
  - destruct (P_of_word_spec w n Hw W N) as [-> P]. cbn. rewrite Z.mod_small by (unfold word in W; lia).
    rewrite Z2Pos.id; auto.
  - destruct (wrap_stands w (- n) H1) as [W' [k K]].
    assert (K2 : wrap w (- n) mod 2 ^ w = - n).
    { replace (wrap w (- n)) with (- n + (- k) * 2 ^ w) by lia. rewrite Z.mod_add by lia.
      apply Z.mod_small. unfold word in W. lia. }
    assert (N' : wrap w (- n) <> 0).
    { intro A. rewrite A, Z.mod_0_l in K2; lia. }
    destruct (P_of_word_spec w _ Hw W' N') as [-> P]. cbn. rewrite K2 in *.
    destruct n; try lia. reflexivity.
Qed.

(** ** Bytes *)
Lemma char_of_byte_code : forall b, char_of_byte b = Z.of_N (Byte.to_N b).
Proof. destruct b; reflexivity. Qed.

Lemma byte_of_char_code : forall b, byte_of_char (char_of_byte b) = Some b.
Proof. destruct b; vm_compute; reflexivity. Qed.

Lemma first_case_in : forall l c b, first_case l c = Some b -> In (c, b) l.
Proof.
  induction l as [|[d e] l IH]; cbn; intros c b H; [discriminate|].
  destruct (Z.eqb_spec c d); [injection H as ->; subst; auto|auto].
Qed.

Lemma first_case_hit : forall l c b, In (c, b) l -> exists b', first_case l c = Some b'.
Proof.
  induction l as [|[d e] l IH]; cbn; intros c b H; [contradiction|].
  destruct (Z.eqb_spec c d); [eauto|]. destruct H as [H|H]; [congruence|eauto].
Qed.

Lemma cases_agree : forallb (fun p => fst p =? char_of_byte (snd p)) byte_cases = true.
Proof. vm_compute. reflexivity. Qed.

Lemma char_of_byte_range : forall b, 0 <= char_of_byte b <= 255.
Proof. destruct b; vm_compute; split; discriminate. Qed.

Lemma byte_of_char_some : forall c b, byte_of_char c = Some b <-> char_of_byte b = c.
Proof.
  intros c b. split.
  - intro H. apply first_case_in in H. pose proof cases_agree as C. rewrite forallb_forall in C.
    specialize (C _ H). cbn in C. apply Z.eqb_eq in C. auto.
  - intros <-. apply byte_of_char_code.
Qed.

Lemma byte_of_char_total : forall c, 0 <= c <= 255 -> exists b, byte_of_char c = Some b.
Proof.
  intros c H. destruct (Byte.of_N (Z.to_N c)) as [b|] eqn:E.
  - exists b. apply byte_of_char_some. rewrite char_of_byte_code.
    apply Byte.to_of_N in E. rewrite E. lia.
  - apply Byte.of_N_None_iff in E. lia.
Qed.

Lemma ascii_of_char_some : forall c a, ascii_of_char c = Some a <-> char_of_ascii a = c.
Proof.
  intros c a. unfold ascii_of_char, char_of_ascii. split.
  - destruct (byte_of_char c) as [b|] eqn:E; cbn; intro H; [|discriminate]. injection H as <-.
    rewrite byte_of_ascii_of_byte. apply byte_of_char_some. auto.
  - intro H. apply byte_of_char_some in H. rewrite H. cbn. f_equal. apply ascii_of_byte_of_ascii.
Qed.

Lemma char_of_ascii_code : forall a, char_of_ascii a = Z.of_N (N_of_ascii a).
Proof. destruct a as [[] [] [] [] [] [] [] []]; reflexivity. Qed.

(** ** Strings *)
Lemma max_string_small : max_string < 2 ^ 62.
Proof. reflexivity. Qed.

Lemma word63 : forall z, - 2 ^ 62 <= z < 2 ^ 62 -> wrap 63 z = z.
Proof. intros z H. apply wrap_id; [lia|exact H]. Qed.

Section Strings.
Context {A : Type}.
Variable char_of : A -> Z.
Variable of_char : Z -> option A.
Hypothesis back : forall a, of_char (char_of a) = Some a.

Lemma length_aux_spec : forall (s : list A) acc, 0 <= acc -> acc + Z.of_nat (length s) < 2 ^ 62 ->
  length_aux s acc = acc + Z.of_nat (length s).
Proof.
  induction s as [|a s IH]; intros acc H B; cbn [length_aux length] in *; [lia|].
  rewrite word63 by lia. rewrite IH by lia. lia.
Qed.

Lemma set_at_app : forall pre d rest c,
  set_at (pre ++ d :: rest) (length pre) c = Some (pre ++ c :: rest).
Proof. induction pre as [|e pre IH]; intros; cbn; [reflexivity|]. rewrite IH. reflexivity. Qed.

Lemma fill_spec : forall (s : list A) pre rest, length rest = length s ->
  Z.of_nat (length pre + length s) < 2 ^ 62 ->
  fill char_of (pre ++ rest) (Z.of_nat (length pre)) s = Some (pre ++ map char_of s).
Proof.
  induction s as [|a s IH]; intros pre rest L B; destruct rest as [|d rest]; cbn in L; try discriminate.
  - reflexivity.
  - cbn [fill map]. unfold bytes_set. destruct (Z.ltb_spec (Z.of_nat (length pre)) 0); [lia|].
    rewrite Nat2Z.id, set_at_app.
    replace (pre ++ char_of a :: rest) with ((pre ++ [char_of a]) ++ rest)
      by (rewrite <- app_assoc; reflexivity).
    cbn [length] in B. rewrite word63 by lia.
    replace (Z.of_nat (length pre) + 1) with (Z.of_nat (length (pre ++ [char_of a])))
      by (rewrite app_length; cbn [length]; lia).
    rewrite IH; [rewrite <- app_assoc; reflexivity|lia|rewrite app_length; cbn [length]; lia].
Qed.

Lemma caml_string_of_spec : forall junk (l : list A), Z.of_nat (length l) <= max_string ->
  caml_string_of char_of junk l = Some (map char_of l).
Proof.
  intros junk l B. pose proof max_string_small. unfold caml_string_of, caml_length.
  rewrite length_aux_spec by lia. rewrite Z.add_0_l. unfold bytes_create.
  destruct (Z.leb_spec 0 (Z.of_nat (length l))); [|lia].
  destruct (Z.leb_spec (Z.of_nat (length l)) max_string); [|lia]. cbn [andb].
  rewrite Nat2Z.id. apply (fill_spec l [] (map junk (seq 0 (length l)))).
  - rewrite map_length, seq_length. reflexivity.
  - cbn [length Nat.add]. lia.
Qed.

Lemma caml_string_of_long : forall junk (l : list A),
  max_string < Z.of_nat (length l) < 2 ^ 62 -> caml_string_of char_of junk l = None.
Proof.
  intros junk l B. unfold caml_string_of, caml_length. rewrite length_aux_spec by lia.
  rewrite Z.add_0_l. unfold bytes_create.
  destruct (Z.leb_spec (Z.of_nat (length l)) max_string); [lia|]. rewrite andb_false_r. reflexivity.
Qed.

Lemma gather_spec : forall (l1 l2 : list A) fuel, (length l1 < fuel)%nat ->
  Z.of_nat (length l1) < 2 ^ 62 ->
  gather of_char fuel (map char_of (l1 ++ l2)) l2 (Z.of_nat (length l1) - 1) = Some (l1 ++ l2).
Proof.
  induction l1 as [|a l1 IH] using rev_ind; intros l2 fuel F B.
  - destruct fuel; [cbn in F; lia|]. reflexivity.
  - rewrite app_length in *. cbn [length] in *. destruct fuel as [|fuel]; [lia|]. cbn [gather].
    destruct (Z.ltb_spec (Z.of_nat (length l1 + 1) - 1) 0); [lia|].
    unfold string_get. destruct (Z.ltb_spec (Z.of_nat (length l1 + 1) - 1) 0); [lia|].
    replace (Z.to_nat (Z.of_nat (length l1 + 1) - 1)) with (length l1) by lia.
    rewrite <- app_assoc. cbn [app]. rewrite map_app. cbn [map].
    rewrite nth_error_app2 by (rewrite map_length; lia). rewrite map_length, Nat.sub_diag.
    cbn [nth_error]. rewrite back. rewrite word63 by lia.
    replace (Z.of_nat (length l1 + 1) - 1 - 1) with (Z.of_nat (length l1) - 1) by lia.
    change (char_of a :: map char_of l2) with (map char_of (a :: l2)). rewrite <- map_app.
    apply IH; lia.
Qed.

Lemma of_caml_string_spec : forall l : list A, Z.of_nat (length l) < 2 ^ 62 ->
  of_caml_string of_char (map char_of l) = Some l.
Proof.
  intros l B. unfold of_caml_string. rewrite map_length. rewrite word63 by lia.
  pose proof (gather_spec l [] (S (length l))) as G. rewrite app_nil_r in G. apply G; [lia|exact B].
Qed.

Hypothesis total : forall c, 0 <= c <= 255 -> exists a, char_of a = c.

Lemma chars_from : forall s, Forall (fun c => 0 <= c <= 255) s -> exists l, s = map char_of l.
Proof.
  induction 1 as [|c s H _ [l ->]]; [exists []; reflexivity|].
  destruct (total c H) as [a <-]. exists (a :: l). reflexivity.
Qed.
End Strings.

(** ** Unary numbers *)
Lemma nat_aux_spec : forall fuel acc i, -1 <= i < 2 ^ 62 -> i + 2 <= Z.of_nat fuel ->
  nat_aux fuel acc i = Some (acc + Z.to_nat (i + 1))%nat.
Proof.
  induction fuel as [|f IH]; intros acc i B F; [lia|]. cbn [nat_aux].
  destruct (Z.ltb_spec i 0).
  - f_equal. lia.
  - rewrite word63 by lia. rewrite IH by lia. f_equal. lia.
Qed.

Lemma nat_aux_neg : forall fuel acc i, i < 0 -> nat_aux (S fuel) acc i = Some acc.
Proof. intros. cbn [nat_aux]. destruct (Z.ltb_spec i 0); [reflexivity|lia]. Qed.

Lemma nat_of_int_nonneg : forall n, 0 <= n < 2 ^ 62 -> nat_of_caml_int n = Some (Z.to_nat n).
Proof.
  intros n B. unfold nat_of_caml_int. rewrite word63 by lia. rewrite nat_aux_spec by lia.
  f_equal. lia.
Qed.

Lemma nat_of_int_neg : forall n, - 2 ^ 62 < n < 0 -> nat_of_caml_int n = Some O.
Proof. intros n B. unfold nat_of_caml_int. rewrite word63 by lia. apply nat_aux_neg. lia. Qed.

Lemma wrap_min : wrap 63 (- 2 ^ 62 - 1) = 2 ^ 62 - 1.
Proof. reflexivity. Qed.

Lemma nat_of_int_min : nat_of_caml_int (- 2 ^ 62) = Some (Z.to_nat (2 ^ 62)).
Proof.
  unfold nat_of_caml_int. rewrite wrap_min. cbv zeta. rewrite nat_aux_spec by lia.
  rewrite Nat.add_0_l. do 2 f_equal.
Qed.

Lemma int_of_nat_aux_spec : forall n acc, word 63 acc ->
  caml_int_of_nat_aux n acc = wrap 63 (acc + Z.of_nat n).
Proof.
  induction n as [|n IH]; intros acc W; cbn [caml_int_of_nat_aux].
  - rewrite Z.add_0_r. rewrite wrap_id; auto. lia.
  - rewrite IH by (apply wrap_stands; lia).
    destruct (wrap_stands 63 (acc + 1)) as [_ [k K]]; [lia|].
    apply wrap_eq with (k := - k); lia.
Qed.

(** ** Numerals *)
Lemma read_digits_app : forall b t1 t2 a, read_digits b a (t1 ++ t2) =
  match read_digits b a t1 with Some v => read_digits b v t2 | None => None end.
Proof.
  induction t1 as [|c t1 IH]; intros t2 a; cbn [read_digits app]; [reflexivity|].
  destruct (digit_value c) as [d|]; [|reflexivity]. destruct (d <? b); [apply IH|reflexivity].
Qed.

Lemma digit_spec : forall r, 0 <= r < 36 -> exists c, digit_char (Z_to 63 r) = Some c /\
  digit_value c = Some r /\ (c = 48 -> r = 0) /\ c <> 45.
Proof.
  intros r B. rewrite Z_to_small by (unfold word; lia). unfold digit_char.
  exists (if r <? 10 then 48 + r else 55 + r).
  destruct (Z.ltb_spec r 10).
  - rewrite word63 by lia. unfold digit_value.
    destruct (Z.leb_spec 0 (48 + r)), (Z.leb_spec (48 + r) 255), (Z.leb_spec 48 (48 + r)),
      (Z.leb_spec (48 + r) 57); try lia. cbn [andb].
    split; [reflexivity|]. split; [f_equal; lia|]. lia.
  - rewrite (word63 (65 + r)) by lia. rewrite word63 by lia.
    replace (65 + r - 10) with (55 + r) by lia. unfold digit_value.
    destruct (Z.leb_spec 0 (55 + r)), (Z.leb_spec (55 + r) 255), (Z.leb_spec (55 + r) 57),
      (Z.leb_spec 65 (55 + r)), (Z.leb_spec (55 + r) 90); try lia. rewrite andb_false_r. cbn [andb].
    split; [reflexivity|]. split; [f_equal; lia|]. lia.
Qed.

Lemma to_string_rec_spec : forall base, 2 <= base <= 36 -> forall fuel buff x,
  0 <= x < 2 ^ (Z.of_nat fuel - 1) -> exists ds,
  to_string_rec fuel base buff x = Some (buff ++ ds) /\ read_digits base 0 ds = Some x /\
  (x = 0 -> ds = []) /\ (0 < x -> exists c t, ds = c :: t /\ c <> 48 /\ c <> 45).
Proof.
  intros base HB. induction fuel as [|f IH]; intros buff x B.
  - change (Z.of_nat 0 - 1) with (-1) in B. rewrite Z.pow_neg_r in B by lia. lia.
  - cbn [to_string_rec]. destruct (Z.eqb_spec x 0) as [->|N].
    + exists []. rewrite app_nil_r. repeat split; auto. lia.
    + pose proof (Z_div_mod x base) as D. destruct (Z.div_eucl x base) as [q r].
      destruct D as [D R]; [lia|].
      assert (F : 1 <= Z.of_nat f).
      { destruct f; [cbn in B; lia|lia]. }
      assert (Q : 0 <= q < 2 ^ (Z.of_nat f - 1)).
      { replace (Z.of_nat (S f) - 1) with (Z.succ (Z.of_nat f - 1)) in B by lia.
        rewrite Z.pow_succ_r in B by lia. split; nia. }
      destruct (IH buff q Q) as [ds [-> [RD [E0 EP]]]].
      destruct (digit_spec r) as [c [-> [DV [C0 CM]]]]; [lia|].
      exists (ds ++ [c]). rewrite app_assoc. split; [reflexivity|]. split; [|split].
      * rewrite read_digits_app, RD. cbn [read_digits]. rewrite DV.
        destruct (Z.ltb_spec r base); [|lia]. f_equal. lia.
      * lia.
      * intros _. destruct (Z.eq_dec q 0) as [Z|NZ].
        -- rewrite (E0 Z). exists c, []. split; [reflexivity|]. split; [|exact CM].
           intro. apply N. rewrite D, Z, (C0 H). lia.
        -- destruct EP as [c' [t [-> [A1 A2]]]]; [lia|]. exists c', (t ++ [c]). auto.
Qed.

Lemma size_bound : forall p, Zpos p < 2 ^ (Z.of_nat (S (Pos.size_nat p)) - 1).
Proof.
  intro p. replace (Z.of_nat (S (Pos.size_nat p)) - 1) with (Z.of_nat (Pos.size_nat p)) by lia.
  induction p as [p IH|p IH|]; cbn [Pos.size_nat]; [| |reflexivity];
    rewrite Nat2Z.inj_succ, Z.pow_succ_r by lia; lia.
Qed.

Lemma read_number_plain : forall base c t, c <> 45 ->
  read_number base (c :: t) = read_digits base 0 (c :: t).
Proof.
  intros base c t H. unfold read_number. destruct c as [|p|p]; try reflexivity.
  do 6 (destruct p as [p|p|]; try reflexivity). congruence.
Qed.

Lemma to_string_spec : forall base x, 2 <= base <= 36 -> exists t,
  to_string_aux base x = Some t /\ read_number base t = Some x /\ no_leading_zero t.
Proof.
  intros base x HB. destruct x as [|p|p]; cbn [to_string_aux].
  - exists [48]. split; [reflexivity|]. split; [|left; reflexivity].
    cbn. destruct (Z.ltb_spec 0 base); [|lia]. f_equal.
  - destruct (to_string_rec_spec base HB (S (Pos.size_nat p)) [] (Zpos p)) as [ds [E [R [_ P]]]].
    { split; [lia|apply size_bound]. }
    destruct P as [c [t [-> [A B]]]]; [lia|]. exists (c :: t). split; [exact E|]. split.
    + rewrite read_number_plain by auto. exact R.
    + right. left. eauto.
  - destruct (to_string_rec_spec base HB (S (Pos.size_nat p)) [45] (Zpos p)) as [ds [E [R [_ P]]]].
    { split; [lia|apply size_bound]. }
    destruct P as [c [t [-> [A B]]]]; [lia|]. exists (45 :: c :: t). split; [exact E|]. split.
    + cbn [read_number]. rewrite R. reflexivity.
    + right. right. eauto.
Qed.

Lemma is_power2_spec : forall x, is_power2 x = true <-> exists n, 0 <= n /\ x = 2 ^ n.
Proof.
  intro x. unfold is_power2. rewrite andb_true_iff, Z.ltb_lt, Z.eqb_eq. split.
  - intros [P L]. exists (Z.log2 x). split; [apply Z.log2_nonneg|].
    destruct (Z.log2_spec x P) as [A B]. destruct (Z.eq_dec x (2 ^ Z.log2 x)) as [E|N]; [exact E|].
    exfalso. assert (G : Z.log2 (Z.pred x) = Z.log2 x).
    { apply Z.log2_unique; [apply Z.log2_nonneg|lia]. }
    assert (T : Z.testbit (Z.land x (Z.pred x)) (Z.log2 x) = true).
    { rewrite Z.land_spec, Z.bit_log2 by auto. rewrite <- G, Z.bit_log2; [reflexivity|].
      pose proof (Z.pow_pos_nonneg 2 (Z.log2 x)). pose proof (Z.log2_nonneg x). lia. }
    rewrite L, Z.bits_0 in T. discriminate.
  - intros [n [H ->]]. split; [apply Z.pow_pos_nonneg; lia|].
    rewrite <- Z.ones_equiv, Z.land_ones by auto. apply Z.mod_same. apply Z.pow_nonzero; lia.
Qed.
