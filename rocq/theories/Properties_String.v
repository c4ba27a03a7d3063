(** Properties of runtime strings and string literals: C15, C16, C39 and the
    string part of C14. *)
From Coq Require Import ZArith Lia Bool List.
From Verif Require Import RT_Word RT_Values RT_Int63Spec RT_Int63Proofs RT_String RT_StringSpec RT_StringProofs.
Import ListNotations.
Open Scope Z_scope.

Ltac Zify.zify_post_hook ::= idtac.

(** ** A memory to try things on *)

(** Words 0.. hold what [l] says, byte by byte; the area from [a] to [b] is free. *)
Definition mem_of (l : list Z) : Z -> option Z :=
  fun a => if a <? 0 then None else nth_error l (Z.to_nat a).
Definition area_of (l : list Z) (a b : Z) : sinfo :=
  {| si_alloc := a; si_limit := b; si_mem := mem_of l |}.
Definition no_gc : sinfo -> Z -> cres sinfo := fun _ _ => Abort.
Lemma no_gc_ok : sgc_gives_room no_gc.
Proof. left. reflexivity. Qed.

(** Two strings, "abcdefg\200" of eight bytes at 8 and "xyz" at 32 *)
Definition s_a := [97; 98; 99; 100; 101; 102; 103; 200].
Definition s_x := [120; 121; 122].
Definition two_strings : list Z :=
  le 8 (string_header 8) ++ string_body s_a ++ le 8 (string_header 3) ++ string_body s_x.

Lemma bytes_at_check m a l :
  forallb (fun i => match m (a + Z.of_nat i) with Some b => b =? nth i l 0 | None => false end) (seq 0 (length l)) = true ->
  bytes_at m a l.
Proof.
  intros H i Hi. rewrite forallb_forall in H. specialize (H i ltac:(apply in_seq; lia)).
  destruct (m (a + Z.of_nat i)); [|discriminate]. apply Z.eqb_eq in H. congruence.
Qed.

Lemma at_a s : si_mem s = mem_of two_strings -> is_string (si_mem s) 8 s_a.
Proof. intros ->. apply bytes_at_check. vm_compute. reflexivity. Qed.
Lemma at_x s : si_mem s = mem_of two_strings -> is_string (si_mem s) 32 s_x.
Proof. intros ->. apply bytes_at_check. vm_compute. reflexivity. Qed.

(** ** C15 *)

(** The string made from the bytes of a C string (none of them is zero) shorter
    than [2^25 - 8] is the string of those bytes; the free area starts right
    after it, and nothing else changes once the collector is done. *)
Theorem C15_create_partial : forall gc s str,
  sgc_gives_room gc -> si_ok s -> Forall (fun b => 0 < b < 256) str ->
  Z.of_nat (length str) < 2 ^ 25 - 8 ->
  mk_ocaml_string gc s str = Abort \/
  exists s1 s' v, mk_ocaml_string gc s str = Ok (s', v) /\
    (s1 = s \/ gc s (wsize (Z.of_nat (length str)) + 1) = Ok s1) /\
    is_string (si_mem s') v str /\ si_ok s' /\
    si_alloc s' = v + 8 * wsize (Z.of_nat (length str)) /\ si_alloc s1 = v - 8 /\ si_limit s' = si_limit s1 /\
    (forall b, b < v - 8 \/ si_alloc s' <= b -> si_mem s' b = si_mem s1 b).
Proof.
  intros gc s str Hgc Hs Hby Hl. change (2 ^ 25 - 8) with 33554424 in Hl.
  assert (Hb : Forall byte str) by (eapply Forall_impl; [|exact Hby]; unfold byte; cbn; intros; lia).
  destruct (mk_string_gen gc s str Hgc Hs Hb ltac:(lia)) as [E|(s1 & s' & v & E & Ok1 & R & Or & Ev & W & A)];
    [left; exact E|right].
  set (n := Z.of_nat (length str)) in *. pose proof (wsize_bounds n ltac:(lia)) as Hw.
  rewrite (Z.mod_small (wsize n)) in W by lia. fold (string_header n) in W.
  exists s1, s', v. split; [exact E|]. split; [exact Or|].
  split; [apply (wrote_string _ _ _ _ W)|].
  destruct W as (_ & WL & _ & WF). cbn [si_limit si_mem] in *.
  pose proof (room_bytes _ _ Ok1 R) as Hr.
  split; [|split; [exact A|split; [lia|split; [exact WL|]]]].
  - unfold si_ok in *. destruct Ok1 as (A1 & L1 & B1). rewrite WL, A, Ev. repeat split; [|exact L1|lia].
    replace (si_alloc s1 + 8 + 8 * wsize n) with (si_alloc s1 + (1 + wsize n) * 8) by lia.
    rewrite Z.mod_add by lia. exact A1.
  - intros b Hb'. apply WF. rewrite app_length, le_length, Nat2Z.inj_add, body_length. fold n. lia.
Qed.

Example C15_create_ex :
  exists s', mk_ocaml_string no_gc (area_of two_strings 48 200) [104; 105; 33] = Ok (s', 56) /\
    is_string (si_mem s') 56 [104; 105; 33] /\ si_alloc s' = 64 /\ is_string (si_mem s') 32 s_x.
Proof.
  eexists. split; [vm_compute; reflexivity|]. repeat split; apply bytes_at_check; vm_compute; reflexivity.
Qed.

(** Longer strings get a header with too small a size: the size is computed in
    32 bits. *)
Theorem C15_create_long_refuted : forall str,
  Forall (fun b => 0 < b < 256) str -> Z.of_nat (length str) = 2 ^ 25 ->
  forall gc s s' v, sgc_gives_room gc -> si_ok s -> mk_ocaml_string gc s str = Ok (s', v) ->
    load64 (si_mem s') (v - 8) = Ok 1276 /\ ~ is_string (si_mem s') v str.
Proof.
  intros str Hby Ln gc s s' v Hgc Hs E. change (2 ^ 25) with 33554432 in Ln.
  assert (Hb : Forall byte str) by (eapply Forall_impl; [|exact Hby]; unfold byte; cbn; intros; lia).
  destruct (mk_string_gen gc s _ Hgc Hs Hb ltac:(lia)) as [E'|(s1 & s2 & v2 & E' & _ & _ & _ & _ & W & _)];
    rewrite E in E'; [discriminate|]. injection E' as <- <-.
  rewrite Ln in W. destruct W as (_ & _ & W & _). cbn [si_mem] in W. apply bytes_at_app in W. destruct W as [W _].
  assert (Hw : load64 (si_mem s') (v - 8) = Ok 1276).
  { unfold load64. rewrite (load_n_le _ _ _ _ W). vm_compute. reflexivity. }
  split; [exact Hw|]. intros H.
  pose proof (is_string_header _ _ _ H ltac:(rewrite Ln; reflexivity)) as Hh. rewrite Ln in Hh.
  rewrite Hw in Hh. vm_compute in Hh. discriminate.
Qed.

(** There are such strings. *)
Example C15_create_long_ex : exists str, Forall (fun b => 0 < b < 256) str /\ Z.of_nat (length str) = 2 ^ 25.
Proof.
  assert (G : forall k, 0 <= k -> exists str, Forall (fun b => 0 < b < 256) str /\ Z.of_nat (length str) = k).
  { intros k Hk. exists (repeat 97 (Z.to_nat k)). split.
    - apply Forall_forall. intros x Hx. apply repeat_spec in Hx. subst. lia.
    - rewrite repeat_length. lia. }
  apply G. lia.
Qed.

(** The length of a string is computed correctly. *)
Theorem C15_length : forall m v bs,
  is_string m v bs -> Z.of_nat (length bs) < 2 ^ 56 ->
  prim_string_length m v = Ok (word_of_int (Z.of_nat (length bs))).
Proof.
  intros m v bs H Hl. unfold prim_string_length. rewrite (strlen_ok _ _ _ H Hl). cbn [cbind].
  rewrite Val_long_any. change (2 ^ 56) with 72057594037927936 in Hl.
  rewrite Z.mod_small by lia. reflexivity.
Qed.

Example C15_length_ex : is_string (mem_of two_strings) 8 s_a /\ prim_string_length (mem_of two_strings) 8 = Ok 17.
Proof. split; [apply (at_a (area_of two_strings 0 0)); reflexivity|vm_compute; reflexivity]. Qed.

(** Reading a byte below 128 at a position in the string gives that byte. *)
Theorem C15_get_partial : forall m v bs i,
  is_string m v bs -> Z.of_nat (length bs) < 2 ^ 56 -> Forall byte bs ->
  0 <= i < Z.of_nat (length bs) -> spec_get bs i < 128 ->
  prim_string_get m v (word_of_int i) = Ok (word_of_int (spec_get bs i)).
Proof.
  intros m v bs i H Hl Hb Hi Hg. unfold prim_string_get. change (2 ^ 56) with 72057594037927936 in Hl.
  assert (EL : Long_val (word_of_int i) = i).
  { unfold Long_val, word_of_int. rewrite s64_fits by lia. dlia. }
  rewrite EL. unfold load8. rewrite (is_string_byte _ _ _ _ H Hi). cbn [cbind].
  assert (B : byte (spec_get bs i)).
  { rewrite Forall_forall in Hb. apply Hb. unfold spec_get. apply nth_In. lia. }
  unfold byte in B. rewrite s8_small by lia. rewrite Val_long_any. rewrite Z.mod_small by lia. reflexivity.
Qed.

Example C15_get_ex : prim_string_get (mem_of two_strings) 8 (word_of_int 6) = Ok (word_of_int 103) /\ spec_get s_a 6 = 103.
Proof. vm_compute. auto. Qed.

(** Every byte from 128 on is read as a negative number: [char] is signed. *)
Theorem C15_get_refuted : forall m v bs i,
  is_string m v bs -> Z.of_nat (length bs) < 2 ^ 56 -> Forall byte bs ->
  0 <= i < Z.of_nat (length bs) -> 128 <= spec_get bs i ->
  prim_string_get m v (word_of_int i) = Ok (word_of_int (2 ^ 63 - 256 + spec_get bs i)) /\
  prim_string_get m v (word_of_int i) <> Ok (word_of_int (spec_get bs i)).
Proof.
  intros m v bs i H Hl Hb Hi Hg. change (2 ^ 56) with 72057594037927936 in Hl.
  assert (B : byte (spec_get bs i)).
  { rewrite Forall_forall in Hb. apply Hb. unfold spec_get. apply nth_In. lia. }
  unfold byte in B.
  assert (E : prim_string_get m v (word_of_int i) = Ok (word_of_int (2 ^ 63 - 256 + spec_get bs i))).
  { unfold prim_string_get.
    assert (EL : Long_val (word_of_int i) = i) by (unfold Long_val, word_of_int; rewrite s64_fits by lia; dlia).
    rewrite EL. unfold load8. rewrite (is_string_byte _ _ _ _ H Hi). cbn [cbind].
    rewrite s8_high by lia. rewrite Val_long_any. f_equal. unfold word_of_int. change (2 ^ 63) with wB. dlia. }
  split; [exact E|]. rewrite E. unfold word_of_int. change (2 ^ 63) with wB. intros X.
  apply (f_equal (fun r => match r with Ok a => a | _ => 0 end)) in X. cbv beta iota in X. lia.
Qed.

Example C15_get_refuted_ex : prim_string_get (mem_of two_strings) 8 (word_of_int 7) = Ok (2 ^ 64 - 111) /\ spec_get s_a 7 = 200.
Proof. vm_compute. auto. Qed.

(** Reading past the end, where the specification gives zero, returns other
    memory (the padding count here) or is undefined. *)
Theorem C15_get_past_end_refuted :
  exists m v bs i j, is_string m v bs /\ Forall byte bs /\ spec_get bs i = 0 /\ spec_get bs j = 0 /\
    prim_string_get m v (word_of_int i) = Ok (word_of_int 4) /\
    prim_string_get m v (word_of_int j) = UB.
Proof.
  exists (mem_of two_strings), 32, s_x, 7, 100.
  split; [apply (at_x (area_of two_strings 0 0)); reflexivity|].
  split; [repeat constructor; unfold byte; lia|]. vm_compute. auto.
Qed.

(** The greatest length is not that of the specification. *)
Theorem C15_max_length_refuted : prim_string_max_length <> Ok (word_of_int spec_max_length).
Proof. vm_compute. discriminate. Qed.

(** ** C16 *)

(** Concatenation with one spare word gives the string of the specification. *)
Theorem C16_cat_partial : forall gc s x y xs ys,
  si_ok s -> is_string (si_mem s) x xs -> is_string (si_mem s) y ys -> Forall byte xs -> Forall byte ys ->
  x + 8 * wsize (Z.of_nat (length xs)) <= si_alloc s \/ si_limit s <= x - 8 ->
  y + 8 * wsize (Z.of_nat (length ys)) <= si_alloc s \/ si_limit s <= y - 8 ->
  Z.of_nat (length (xs ++ ys)) <= spec_max_length ->
  wsize (Z.of_nat (length (xs ++ ys))) + 1 <= sroom s ->
  exists s', prim_string_cat gc s x y = Ok (s', si_alloc s + 8) /\
    is_string (si_mem s') (si_alloc s + 8) (spec_cat xs ys).
Proof.
  intros gc s x y xs ys Hs Hx Hy Bx By Sx Sy Hn R. unfold spec_max_length in *.
  destruct (cat_exact gc s x y xs ys Hs Hx Hy Bx By Sx Sy ltac:(lia) R) as (s' & E & S & _).
  exists s'. split; [exact E|]. unfold spec_cat, spec_max_length. rewrite firstn_all2 by lia. exact S.
Qed.

Example C16_cat_ex :
  exists s', prim_string_cat no_gc (area_of two_strings 48 200) 32 8 = Ok (s', 56) /\
    is_string (si_mem s') 56 (s_x ++ s_a) /\ spec_cat s_x s_a = (s_x ++ s_a)%list.
Proof. eexists. split; [vm_compute; reflexivity|]. split; [apply bytes_at_check; vm_compute; reflexivity|reflexivity]. Qed.

(** But the free area always starts inside the string that was returned, so that
    the next allocation destroys its last word, which holds its length. *)
Theorem C16_cat_overlap_refuted : forall gc s x y xs ys s' v,
  si_ok s -> is_string (si_mem s) x xs -> is_string (si_mem s) y ys -> Forall byte xs -> Forall byte ys ->
  x + 8 * wsize (Z.of_nat (length xs)) <= si_alloc s \/ si_limit s <= x - 8 ->
  y + 8 * wsize (Z.of_nat (length ys)) <= si_alloc s \/ si_limit s <= y - 8 ->
  Z.of_nat (length (xs ++ ys)) <= spec_max_length ->
  wsize (Z.of_nat (length (xs ++ ys))) + 1 <= sroom s ->
  prim_string_cat gc s x y = Ok (s', v) ->
  si_alloc s' = v + 8 * wsize (Z.of_nat (length (xs ++ ys))) - 8.
Proof.
  intros gc s x y xs ys s' v Hs Hx Hy Bx By Sx Sy Hn R E. unfold spec_max_length in *.
  destruct (cat_exact gc s x y xs ys Hs Hx Hy Bx By Sx Sy ltac:(lia) R) as (s2 & E2 & _ & A).
  rewrite E in E2. injection E2 as -> ->. lia.
Qed.

(** "xyz" ++ "xyz", then a new string: the length of the first is not 6 any more. *)
Example C16_cat_overlap_ex :
  exists s1 s2 v w, prim_string_cat no_gc (area_of two_strings 48 200) 32 32 = Ok (s1, v) /\
    prim_string_length (si_mem s1) v = Ok (word_of_int 6) /\
    mk_ocaml_string no_gc s1 [104; 105] = Ok (s2, w) /\
    prim_string_length (si_mem s2) v = Ok (word_of_int 7) /\ prim_string_get (si_mem s2) v (word_of_int 0) = Ok (2 ^ 64 - 7).
Proof. do 4 eexists. split; [vm_compute; reflexivity|]. split; [vm_compute; reflexivity|]. split; [vm_compute; reflexivity|]. vm_compute. auto. Qed.

(** The operands are not roots: when the collector reuses the space they are in,
    the result is undefined, although the operands were strings. *)
Definition reuse_gc : sinfo -> Z -> cres sinfo :=
  fun s n => Ok {| si_alloc := 0; si_limit := 8 * Z.max 10 n; si_mem := si_mem s |}.

Theorem C16_cat_moved_refuted :
  exists gc s x y xs ys, sgc_gives_room gc /\ si_ok s /\ is_string (si_mem s) x xs /\ is_string (si_mem s) y ys /\
    Forall byte xs /\ Forall byte ys /\ prim_string_cat gc s x y = UB.
Proof.
  exists reuse_gc, (area_of two_strings 48 56), 8, 32, s_a, s_x. repeat split.
  - intros s n Hs. right. eexists. split; [reflexivity|]. unfold si_ok, sroom; cbn [si_alloc si_limit].
    rewrite (Z.mul_comm 8 (Z.max 10 n)), Z.mod_mul, Z.sub_0_r, Z.div_mul by lia. repeat split; lia.
  - cbn. lia.
  - apply at_a. reflexivity.
  - apply at_x. reflexivity.
  - repeat constructor; unfold byte; lia.
  - repeat constructor; unfold byte; lia.
Qed.

(** [make n c] makes a string of [2n+1] characters [2c+1]: the arguments are not
    untagged; it is never the string of the specification. *)
Theorem C16_make_refuted : forall gc s n c,
  si_ok s -> 0 <= n < 2 ^ 29 -> wsize (2 * n + 1) + 1 <= sroom s ->
  exists s', prim_string_make gc s (word_of_int n) (word_of_int c) = Ok (s', si_alloc s + 8) /\
    is_string (si_mem s') (si_alloc s + 8) (repeat (word_of_int c mod 256) (Z.to_nat (2 * n + 1))) /\
    ~ is_string (si_mem s') (si_alloc s + 8) (spec_make n c).
Proof.
  intros gc s n c Hs Hn R. change (2 ^ 29) with 536870912 in Hn.
  destruct (make_exact gc s n c Hs ltac:(lia) R) as (s' & E & S & _).
  exists s'. split; [exact E|]. split; [exact S|]. intros H.
  assert (L1 : Z.of_nat (length (spec_make n c)) <= n) by (unfold spec_make; rewrite repeat_length; lia).
  assert (X : spec_make n c = repeat (word_of_int c mod 256) (Z.to_nat (2 * n + 1))).
  { apply (is_string_inj _ _ _ _) with (3 := H) (4 := S);
      [|rewrite repeat_length]; change (2 ^ 56) with 72057594037927936; lia. }
  rewrite X, repeat_length in L1. lia.
Qed.

(** [make 1 "a"] *)
Example C16_make_ex :
  exists s', prim_string_make no_gc (area_of [] 0 100) (word_of_int 1) (word_of_int 97) = Ok (s', 8) /\
    is_string (si_mem s') 8 [195; 195; 195] /\ spec_make 1 97 = [97].
Proof. eexists. split; [vm_compute; reflexivity|]. split; [apply bytes_at_check; vm_compute; reflexivity|reflexivity]. Qed.

(** [sub s f n] takes [2n+1] bytes from [2f+1] on; never the specified string. *)
Theorem C16_sub_refuted : forall gc s x bs f n,
  si_ok s -> is_string (si_mem s) x bs -> Forall byte bs ->
  x + 8 * wsize (Z.of_nat (length bs)) <= si_alloc s \/ si_limit s <= x - 8 ->
  0 <= f -> 0 <= n -> 2 * f + 1 + (2 * n + 1) <= Z.of_nat (length bs) -> Z.of_nat (length bs) <= spec_max_length ->
  wsize (2 * n + 1) + 1 <= sroom s ->
  exists s', prim_string_sub gc s x (word_of_int f) (word_of_int n) = Ok (s', si_alloc s + 8) /\
    is_string (si_mem s') (si_alloc s + 8) (spec_sub bs (2 * f + 1) (2 * n + 1)) /\
    ~ is_string (si_mem s') (si_alloc s + 8) (spec_sub bs f n).
Proof.
  intros gc s x bs f n Hs Hx Hb Sx Hf Hn Hfn Hl R. unfold spec_max_length in Hl.
  destruct (sub_exact gc s x bs f n Hs Hx Hb Sx Hf Hn Hfn ltac:(lia) R) as (s' & E & S & _).
  exists s'. split; [exact E|]. split; [exact S|]. intros H.
  assert (L1 : Z.of_nat (length (spec_sub bs f n)) <= n) by (unfold spec_sub; rewrite firstn_length; lia).
  assert (L2 : Z.of_nat (length (spec_sub bs (2 * f + 1) (2 * n + 1))) = 2 * n + 1)
    by (unfold spec_sub; rewrite firstn_length, skipn_length; lia).
  assert (X : spec_sub bs f n = spec_sub bs (2 * f + 1) (2 * n + 1)).
  { apply (is_string_inj _ _ _ _) with (3 := H) (4 := S); change (2 ^ 56) with 72057594037927936; lia. }
  rewrite X in L1. lia.
Qed.

Example C16_sub_ex :
  exists s', prim_string_sub no_gc (area_of two_strings 48 200) 8 (word_of_int 1) (word_of_int 1) = Ok (s', 56) /\
    is_string (si_mem s') 56 [100; 101; 102] /\ spec_sub s_a 1 1 = [98].
Proof. eexists. split; [vm_compute; reflexivity|]. split; [apply bytes_at_check; vm_compute; reflexivity|reflexivity]. Qed.

(** Comparing a string with an equal one gives the word 0, which is no
    constructor of [comparison] (it is the null pointer). *)
Theorem C16_compare_equal_refuted : forall m x y bs,
  is_string m x bs -> is_string m y bs -> Z.of_nat (length bs) < 2 ^ 56 ->
  spec_compare bs bs = Eq /\ prim_string_compare m x y = Ok 0 /\
  forall c, prim_string_compare m x y <> Ok (word_of_comparison c).
Proof.
  intros m x y bs Hx Hy Hl.
  assert (E : prim_string_compare m x y = Ok 0).
  { unfold prim_string_compare. rewrite (strlen_ok _ _ _ Hx Hl), (strlen_ok _ _ _ Hy Hl). cbn [cbind].
    rewrite Z.eqb_refl.
    assert (L : forall n i, 0 <= i -> i + Z.of_nat n <= Z.of_nat (length bs) -> cmp_loop n m x y i = Ok 0).
    { induction n; intros i H0 Hi; cbn [cmp_loop]; [reflexivity|]. unfold load8.
      rewrite (is_string_byte _ _ _ i Hx), (is_string_byte _ _ _ i Hy) by lia. cbn [cbind].
      rewrite Z.sub_diag. cbn [Z.eqb]. apply IHn; lia. }
    apply L; lia. }
  split; [|split; [exact E|]].
  - clear. induction bs; cbn [spec_compare]; [reflexivity|]. rewrite Z.compare_refl. exact IHbs.
  - intros c. rewrite E. destruct c; cbn; congruence.
Qed.

Example C16_compare_equal_ex : prim_string_compare (mem_of two_strings) 32 32 = Ok 0 /\ is_string (mem_of two_strings) 32 s_x.
Proof. split; [vm_compute; reflexivity|apply (at_x (area_of two_strings 0 0)); reflexivity]. Qed.

(** For different lengths it is the length that decides: "xyz" is greater than
    "abcdefg\200", the result is the word of -5, no constructor either. *)
Theorem C16_compare_length_refuted :
  exists m x y xs ys, is_string m x xs /\ is_string m y ys /\ Forall byte xs /\ Forall byte ys /\
    spec_compare xs ys = Gt /\ prim_string_compare m x y = Ok (2 ^ 64 - 9) /\
    forall c, prim_string_compare m x y <> Ok (word_of_comparison c).
Proof.
  exists (mem_of two_strings), 32, 8, s_x, s_a.
  split; [apply (at_x (area_of two_strings 0 0)); reflexivity|].
  split; [apply (at_a (area_of two_strings 0 0)); reflexivity|].
  split; [repeat constructor; unfold byte; lia|]. split; [repeat constructor; unfold byte; lia|].
  split; [reflexivity|]. split; [vm_compute; reflexivity|].
  intros c. destruct c; vm_compute; discriminate.
Qed.

(** ** C14: the string operations ask for a word too few *)

(** When the free area has exactly the words they ask for, the collector is not
    called and the write runs past the limit. *)
Theorem C14_string_make_refuted : forall gc s n c,
  si_ok s -> 0 <= n < 2 ^ 29 -> sroom s = wsize (2 * n + 1) ->
  prim_string_make gc s (word_of_int n) (word_of_int c) = UB.
Proof. intros. apply make_overflow; auto. change (2 ^ 29) with 536870912 in *. lia. Qed.

Theorem C14_string_sub_refuted : forall gc s x f n,
  si_ok s -> 0 <= n < 2 ^ 29 -> sroom s = wsize (2 * n + 1) ->
  prim_string_sub gc s x f (word_of_int n) = UB.
Proof. intros. apply sub_overflow; auto. change (2 ^ 29) with 536870912 in *. lia. Qed.

Theorem C14_string_cat_refuted : forall gc s x y xs ys,
  si_ok s -> is_string (si_mem s) x xs -> is_string (si_mem s) y ys ->
  Z.of_nat (length (xs ++ ys)) <= spec_max_length -> sroom s = wsize (Z.of_nat (length (xs ++ ys))) ->
  prim_string_cat gc s x y = UB.
Proof. intros. eapply cat_overflow; eauto. unfold spec_max_length in *. lia. Qed.

Example C14_string_ex :
  si_ok (area_of two_strings 48 56) /\ sroom (area_of two_strings 48 56) = wsize 3 /\
  prim_string_make no_gc (area_of two_strings 48 56) (word_of_int 1) (word_of_int 97) = UB /\
  prim_string_sub no_gc (area_of two_strings 48 56) 8 (word_of_int 0) (word_of_int 1) = UB /\
  prim_string_cat no_gc (area_of two_strings 48 56) 32 32 = UB.
Proof. vm_compute. intuition congruence. Qed.

(** ** C39 *)

(** The code for a literal builds the runtime string of its bytes, zero bytes
    included, and leaves the rest alone, given the room (C36). *)
Theorem C39_literal : forall s l,
  si_ok s -> Forall byte l -> Z.of_nat (length l) < 2 ^ 56 ->
  wsize (Z.of_nat (length l)) + 1 <= sroom s ->
  exists s' v, compile_string s l = Ok (s', v) /\ is_string (si_mem s') v l /\
    v = si_alloc s + 8 /\ si_alloc s' = v + 8 * wsize (Z.of_nat (length l)) /\ si_limit s' = si_limit s /\
    (forall b, b < si_alloc s \/ si_alloc s' <= b -> si_mem s' b = si_mem s b).
Proof.
  intros s l Hs Hb Hl R. destruct (literal_ok s l Hs Hb Hl R) as (s' & E & W & A).
  exists s', (si_alloc s + 8). split; [exact E|].
  destruct W as (_ & WL & WB & WF).
  split. { unfold is_string. replace (si_alloc s + 8 - 8) with (si_alloc s) by lia. exact WB. }
  cbn [si_limit si_mem] in *.
  split; [reflexivity|]. split; [exact A|]. split; [exact WL|].
  intros b Hb'. apply WF. rewrite app_length, le_length, Nat2Z.inj_add, body_length. lia.
Qed.

(** Hence the runtime reads the length and the bytes of the literal. *)
Theorem C39_literal_length : forall s l s' v,
  si_ok s -> Forall byte l -> Z.of_nat (length l) < 2 ^ 56 ->
  wsize (Z.of_nat (length l)) + 1 <= sroom s -> compile_string s l = Ok (s', v) ->
  prim_string_length (si_mem s') v = Ok (word_of_int (Z.of_nat (length l))) /\
  forall i, 0 <= i < Z.of_nat (length l) -> si_mem s' (v + i) = Some (nth (Z.to_nat i) l 0).
Proof.
  intros s l s' v Hs Hb Hl R E. destruct (C39_literal s l Hs Hb Hl R) as (s2 & v2 & E2 & S & _).
  rewrite E in E2. injection E2 as <- <-. split; [apply C15_length; assumption|].
  intros i Hi. apply (is_string_byte _ _ _ _ S Hi).
Qed.

Example C39_ex :
  exists s', compile_string (area_of [] 0 100) [0; 255; 65; 0; 0; 7; 1; 2; 3; 0] = Ok (s', 8) /\
    prim_string_length (si_mem s') 8 = Ok (word_of_int 10) /\ si_mem s' 9 = Some 255 /\ si_mem s' 17 = Some 0.
Proof. eexists. split; [vm_compute; reflexivity|]. vm_compute. auto. Qed.

(** The number of words emitted is the size in the header. *)
Theorem C39_words : forall l, Forall byte l ->
  Z.of_nat (length (encode_list l)) = wsize (Z.of_nat (length l)) /\
  Forall (fun w => 0 <= w < 2 ^ 64) (encode_list l).
Proof.
  intros l Hb. destruct (encode_bytes l Hb) as [R E]. split; [|exact R].
  pose proof (body_length l) as L. rewrite <- E, flat_map_le_length in L. lia.
Qed.

Example C39_words_ex : encode_list [97; 98; 99] = [4 * 2 ^ 56 + 97 + 256 * 98 + 65536 * 99] /\ wsize 3 = 1.
Proof. vm_compute. auto. Qed.

Print Assumptions C15_create_partial.
Print Assumptions C15_create_long_refuted.
Print Assumptions C15_length.
Print Assumptions C15_get_partial.
Print Assumptions C15_get_refuted.
Print Assumptions C16_cat_partial.
Print Assumptions C16_cat_overlap_refuted.
Print Assumptions C16_cat_moved_refuted.
Print Assumptions C16_make_refuted.
Print Assumptions C16_sub_refuted.
Print Assumptions C16_compare_equal_refuted.
Print Assumptions C14_string_cat_refuted.
Print Assumptions C39_literal.
Print Assumptions C39_literal_length.
