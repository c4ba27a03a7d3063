(** C93: conversions between the data of the extracted compiler and of OCaml lose nothing.
    Model: CV_Model.v; specification: CV_Spec.v; proofs: CV_Proofs.v. *)
From Coq Require Import List ZArith Lia Ascii Bool.
From Coq Require Import Strings.Byte.
From Verif Require Import CV_Model CV_Spec CV_Proofs.
Import ListNotations.
Local Open Scope Z_scope.

(** ** Bytes *)

(** The character made from a byte has the code that is the number of the byte.  Every character has
    a byte, and the two tables of 256 cases are inverse to each other; so are the versions for
    [ascii]. *)
Theorem C93_bytes :
  (forall b, char_of_byte b = Z.of_N (Byte.to_N b)) /\
  (forall c, 0 <= c <= 255 -> exists b, byte_of_char c = Some b) /\
  (forall c b, byte_of_char c = Some b <-> char_of_byte b = c) /\
  (forall a, char_of_ascii a = Z.of_N (N_of_ascii a)) /\
  (forall c a, ascii_of_char c = Some a <-> char_of_ascii a = c).
Proof.
  exact (conj char_of_byte_code (conj byte_of_char_total (conj byte_of_char_some
    (conj char_of_ascii_code ascii_of_char_some)))).
Qed.

Example C93_bytes_ex :
  char_of_byte x7e = 126 /\ byte_of_char 126 = Some x7e /\ ascii_of_char 126 = Some "~"%char.
Proof. repeat split; reflexivity. Qed.

(** ** Strings *)

Lemma char_total : forall c, 0 <= c <= 255 -> exists a, char_of_byte a = c.
Proof. intros c H. destruct (byte_of_char_total c H) as [b E]. exists b. apply byte_of_char_some; auto. Qed.

Lemma ascii_total : forall c, 0 <= c <= 255 -> exists a, char_of_ascii a = c.
Proof.
  intros c H. destruct (char_total c H) as [b E]. exists (ascii_of_byte b).
  unfold char_of_ascii. rewrite byte_of_ascii_of_byte. exact E.
Qed.

(** Whatever the fresh buffer contains, a byte string no longer than OCaml allows becomes the OCaml
    string with the same characters in the same order, and that string becomes the byte string again.
    A longer one is refused.  Every OCaml string has a byte string, from which it comes back. *)
Theorem C93_strings :
  (forall junk l, Z.of_nat (length l) <= max_string ->
     exists s, caml_string_of_bytestring junk l = Some s /\
       s = map (fun b => Z.of_N (Byte.to_N b)) l /\ bytestring_of_caml_string s = Some l) /\
  (forall junk l, max_string < Z.of_nat (length l) < 2 ^ 62 ->
     caml_string_of_bytestring junk l = None) /\
  (forall junk s, Z.of_nat (length s) <= max_string -> Forall (fun c => 0 <= c <= 255) s ->
     exists l, bytestring_of_caml_string s = Some l /\ caml_string_of_bytestring junk l = Some s).
Proof.
  pose proof max_string_small as M. split; [|split].
  - intros junk l B. exists (map char_of_byte l). split; [|split].
    + apply caml_string_of_spec; auto.
    + apply map_ext. apply char_of_byte_code.
    + apply of_caml_string_spec; [exact byte_of_char_code|lia].
  - intros junk l B. apply caml_string_of_long; auto.
  - intros junk s B F. destruct (chars_from char_of_byte char_total s F) as [l ->].
    rewrite map_length in B. exists l. split.
    + apply of_caml_string_spec; [exact byte_of_char_code|lia].
    + apply caml_string_of_spec; auto.
Qed.

(** The same for strings of [ascii] *)
Theorem C93_ascii_strings :
  (forall junk l, Z.of_nat (length l) <= max_string ->
     exists s, caml_string_of_ascii_string junk l = Some s /\
       s = map (fun a => Z.of_N (N_of_ascii a)) l /\ ascii_string_of_caml_string s = Some l) /\
  (forall junk l, max_string < Z.of_nat (length l) < 2 ^ 62 ->
     caml_string_of_ascii_string junk l = None) /\
  (forall junk s, Z.of_nat (length s) <= max_string -> Forall (fun c => 0 <= c <= 255) s ->
     exists l, ascii_string_of_caml_string s = Some l /\ caml_string_of_ascii_string junk l = Some s).
Proof.
  pose proof max_string_small as M.
  assert (back : forall a, ascii_of_char (char_of_ascii a) = Some a)
    by (intro a; apply ascii_of_char_some; reflexivity).
  split; [|split].
  - intros junk l B. exists (map char_of_ascii l). split; [|split].
    + apply caml_string_of_spec; auto.
    + apply map_ext. apply char_of_ascii_code.
    + apply of_caml_string_spec; [exact back|lia].
  - intros junk l B. apply caml_string_of_long; auto.
  - intros junk s B F. destruct (chars_from char_of_ascii ascii_total s F) as [l ->].
    rewrite map_length in B. exists l. split.
    + apply of_caml_string_spec; [exact back|lia].
    + apply caml_string_of_spec; auto.
Qed.

Example C93_strings_ex :
  Z.of_nat (length [x61; xff; x00]) <= max_string /\
  caml_string_of_bytestring (fun _ => 99) [x61; xff; x00] = Some [97; 255; 0] /\
  bytestring_of_caml_string [97; 255; 0] = Some [x61; xff; x00] /\
  ascii_string_of_caml_string [97; 98] = Some ["a"; "b"]%char /\
  caml_string_of_ascii_string (fun _ => 99) ["a"; "b"]%char = Some [97; 98].
Proof. repeat split; vm_compute; try reflexivity; discriminate. Qed.

(** ** Unary numbers *)

(** An OCaml integer that is not negative becomes that number; a negative one becomes 0, except the
    smallest (see below).  Back, the number is taken modulo [2 ^ 63], so it is kept if it fits. *)
Theorem C93_nats :
  (forall n, 0 <= n < 2 ^ 62 -> nat_of_caml_int n = Some (Z.to_nat n)) /\
  (forall n, - 2 ^ 62 < n < 0 -> nat_of_caml_int n = Some O) /\
  (forall n, stands_for 63 (caml_int_of_nat n) (Z.of_nat n)) /\
  (forall n, Z.of_nat n < 2 ^ 62 ->
     caml_int_of_nat n = Z.of_nat n /\ nat_of_caml_int (caml_int_of_nat n) = Some n).
Proof.
  assert (W : forall n, caml_int_of_nat n = wrap 63 (Z.of_nat n)).
  { intro n. unfold caml_int_of_nat. rewrite int_of_nat_aux_spec; [f_equal|]. unfold word. lia. }
  split; [exact nat_of_int_nonneg|]. split; [exact nat_of_int_neg|]. split.
  - intro n. rewrite W. apply wrap_stands. lia.
  - intros n B. rewrite W, word63 by lia. split; [reflexivity|].
    rewrite nat_of_int_nonneg by lia. f_equal. lia.
Qed.

Example C93_nats_ex :
  nat_of_caml_int 5 = Some 5%nat /\ nat_of_caml_int (-5) = Some O /\ caml_int_of_nat 5 = 5.
Proof. repeat split; reflexivity. Qed.

(** The smallest integer is negative but does not become 0: [i - 1] overflows before the test, and the
    loop starts from the greatest integer. *)
Theorem C93_nat_min_refuted : exists n, word 63 n /\ n < 0 /\ nat_of_caml_int n <> Some O.
Proof.
  exists (- 2 ^ 62). split; [unfold word; lia|]. split; [lia|]. rewrite nat_of_int_min. intro H.
  assert (E : Z.to_nat (2 ^ 62) = O) by congruence. lia.
Qed.

(** ** Binary numbers and machine words (cplugin) *)

(** For [int], [int32], [int64] alike: a word read as signed becomes that integer, read as unsigned
    its residue; an integer becomes the word that stands for it.  So the two ways are inverse on
    all words, and on all integers that fit.  No assertion fails and no loop runs on. *)
Theorem C93_words : forall w, w = 63 \/ w = 32 \/ w = 64 ->
  (forall z, stands_for w (Z_to w z) z) /\
  (forall n, word w n -> Z_of_sint w n = Some n /\ Z_to w n = n) /\
  (forall n, word w n -> exists z, Z_of_uint w n = Some z /\ 0 <= z < 2 ^ w /\ Z_to w z = n) /\
  (forall z, 0 <= z < 2 ^ w -> Z_of_uint w (Z_to w z) = Some z) /\
  (forall n, word w n -> exists m, N_of w n = Some m /\ N_to w m = n) /\
  (forall m, Z.of_N m < 2 ^ w -> N_of w (N_to w m) = Some m).
Proof.
  intros w Hw. assert (H2 : 2 <= w) by (destruct Hw as [->|[->| ->]]; lia).
  assert (H1 : 1 <= w) by lia. destruct (pow_split w H1) as [E Q].
  assert (NZ : forall m, N_to w m = Z_to w (Z.of_N m)) by (intros [|p]; reflexivity).
  assert (R : forall n, word w n -> Z_to w (n mod 2 ^ w) = n).
  { intros n W. rewrite Z_to_wrap by auto. apply (stands_unique w) with (z := n mod 2 ^ w); auto.
    - apply wrap_stands; auto.
    - split; auto. exists (- (n / 2 ^ w)). pose proof (Z.div_mod n (2 ^ w)). lia. }
  assert (T : forall z, 0 <= z < 2 ^ w -> Z_to w z mod 2 ^ w = z).
  { intros z B. rewrite Z_to_wrap by auto. destruct (wrap_stands w z H1) as [_ [k K]].
    replace (wrap w z) with (z + (- k) * 2 ^ w) by lia. rewrite Z.mod_add by lia.
    apply Z.mod_small; auto. }
  assert (W : forall z, word w (Z_to w z)).
  { intro z. rewrite Z_to_wrap by auto. apply wrap_stands; auto. }
  split; [intro z; rewrite Z_to_wrap by auto; apply wrap_stands; auto|].
  split; [intros n Wn; split; [apply of_sint_spec; auto|apply Z_to_small; auto]|].
  split.
  { intros n Wn. exists (n mod 2 ^ w). split; [apply of_uint_spec; auto|].
    split; [apply Z.mod_pos_bound; lia|auto]. }
  split; [intros z B; rewrite of_uint_spec by auto; f_equal; auto|]. split.
  - intros n Wn. exists (Z.to_N (n mod 2 ^ w)). split; [apply N_of_spec; auto|].
    pose proof (Z.mod_pos_bound n (2 ^ w)). rewrite NZ, Z2N.id by lia. auto.
  - intros m B. rewrite NZ, N_of_spec by auto. rewrite T by lia. f_equal. lia.
Qed.

(** The unsigned reading of the smallest [int32] and the signed one, whose negation overflows *)
Example C93_words_ex :
  word 32 (- 2 ^ 31) /\ Z_of_uint 32 (- 2 ^ 31) = Some (2 ^ 31) /\
  Z_of_sint 32 (- 2 ^ 31) = Some (- 2 ^ 31) /\ Z_to 32 (2 ^ 31) = - 2 ^ 31 /\
  Z_of_uint 64 (-1) = Some (2 ^ 64 - 1) /\ Z_to 63 (2 ^ 63 + 7) = 7 /\ N_of 63 6 = Some 6%N.
Proof. unfold word. repeat split; try reflexivity; lia. Qed.

(** ** Numerals *)

(** The text made from an integer, in any base from 2 to 36, is a numeral in that base, reads back as
    the integer, however large, and has no zero in front. *)
Theorem C93_numerals :
  (forall base x, 2 <= base <= 36 -> exists t,
     to_string_aux base x = Some t /\ read_number base t = Some x /\ no_leading_zero t) /\
  (forall x, exists t, Z_dec x = Some t /\ read_number 10 t = Some x /\ no_leading_zero t) /\
  (forall x, exists t, Z_hex x = Some t /\ read_number 16 t = Some x /\ no_leading_zero t).
Proof.
  split; [intros; apply to_string_spec; auto|].
  split; intro x; [unfold Z_dec|unfold Z_hex]; rewrite of_uint_spec by (unfold word; lia);
    apply to_string_spec; lia.
Qed.

(** [-2000000000000000000000], and [2 ^ 80 + 11] as [1000...B] *)
Example C93_numerals_ex :
  Z_dec (- 2 * 10 ^ 21) = Some (45 :: 50 :: repeat 48 21) /\
  Z_hex (2 ^ 80 + 11) = Some (49 :: repeat 48 19 ++ [66]).
Proof. split; vm_compute; reflexivity. Qed.

(** ** Powers of two *)

(** The test is right on every integer. *)
Theorem C93_power_of_two : forall x, is_power2 x = true <-> exists n, 0 <= n /\ x = 2 ^ n.
Proof. exact is_power2_spec. Qed.

Example C93_power_ex : is_power2 (2 ^ 70) = true /\ is_power2 (2 ^ 70 + 2) = false /\
  is_power2 0 = false /\ is_power2 (- 2) = false.
Proof. repeat split; reflexivity. Qed.

Print Assumptions C93_bytes.
Print Assumptions C93_strings.
Print Assumptions C93_ascii_strings.
Print Assumptions C93_nats.
Print Assumptions C93_nat_min_refuted.
Print Assumptions C93_words.
Print Assumptions C93_numerals.
Print Assumptions C93_power_of_two.
