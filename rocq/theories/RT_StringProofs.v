(** Proofs about runtime strings. *)
From Coq Require Import ZArith Lia Bool List.
From Verif Require Import RT_Word RT_Values RT_Int63Spec RT_Int63Proofs RT_String RT_StringSpec.
Import ListNotations.
Open Scope Z_scope.

Ltac Zify.zify_post_hook ::= idtac.

Ltac bt := symmetry; repeat (apply andb_true_intro; split); lia.

(** ** Writing *)

(** [s'] is [s] after writing the bytes [l] from address [a] on *)
Definition wrote (s s' : sinfo) (a : Z) (l : list Z) : Prop :=
  si_alloc s' = si_alloc s /\ si_limit s' = si_limit s /\
  bytes_at (si_mem s') a l /\
  forall b, b < a \/ a + Z.of_nat (length l) <= b -> si_mem s' b = si_mem s b.

Lemma wrote_nil s a : wrote s s a [].
Proof. unfold wrote, bytes_at; cbn. repeat split; auto. intros; lia. Qed.

Lemma wrote_app s s1 s2 a l1 l2 :
  wrote s s1 a l1 -> wrote s1 s2 (a + Z.of_nat (length l1)) l2 -> wrote s s2 a (l1 ++ l2).
Proof.
  intros (A1 & L1 & B1 & F1) (A2 & L2 & B2 & F2). unfold wrote. repeat split; try congruence.
  - intros i Hi. rewrite app_length in Hi. destruct (Nat.lt_ge_cases i (length l1)).
    + rewrite app_nth1 by assumption. rewrite F2 by lia. auto.
    + rewrite app_nth2 by assumption.
      replace (a + Z.of_nat i) with (a + Z.of_nat (length l1) + Z.of_nat (i - length l1)) by lia.
      apply B2. lia.
  - intros b Hb. rewrite app_length in Hb. rewrite F2 by lia. apply F1. lia.
Qed.

Lemma store8_wrote s a v : si_alloc s <= a < si_limit s ->
  exists s', store8 s a v = Ok s' /\ wrote s s' a [v mod 256].
Proof.
  intros H. unfold store8. replace ((si_alloc s <=? a) && (a <? si_limit s)) with true by bt.
  eexists; split; [reflexivity|]. unfold wrote, bytes_at; cbn [si_alloc si_limit si_mem length].
  repeat split; auto.
  - intros [|i] Hi; [|lia]. cbn [nth]. change (Z.of_nat 0) with 0. rewrite Z.add_0_r, Z.eqb_refl. reflexivity.
  - intros b Hb. destruct (Z.eqb_spec b a); [lia|reflexivity].
Qed.

Lemma le_length n v : length (le n v) = n.
Proof. revert v; induction n; cbn; intros; auto. Qed.

Lemma le_mod n v : le n (v mod 256 ^ Z.of_nat n) = le n v.
Proof.
  revert v; induction n; intros v; [reflexivity|]. cbn [le].
  replace (256 ^ Z.of_nat (S n)) with (256 * 256 ^ Z.of_nat n)
    by (rewrite Nat2Z.inj_succ, Z.pow_succ_r by lia; reflexivity).
  assert (P : 0 < 256 ^ Z.of_nat n) by (apply Z.pow_pos_nonneg; lia).
  rewrite Z.rem_mul_r by lia.
  f_equal.
  - rewrite (Z.mul_comm 256), Z.mod_add by lia. apply Z.mod_mod. lia.
  - rewrite Z.add_comm, Z.mul_comm, Z.div_add_l by lia.
    rewrite (Z.div_small (v mod 256)) by (apply Z.mod_pos_bound; lia).
    rewrite Z.add_0_r. apply IHn.
Qed.

Lemma store_n_wrote n s a v : si_alloc s <= a -> a + Z.of_nat n <= si_limit s ->
  exists s', store_n n s a v = Ok s' /\ wrote s s' a (le n v).
Proof.
  revert s a v. induction n; intros s a v H1 H2; cbn [store_n le].
  - eexists; split; [reflexivity|apply wrote_nil].
  - destruct (store8_wrote s a (v mod 256)) as (s1 & E1 & W1); [lia|]. rewrite E1. cbn [cbind].
    destruct (IHn s1 (a + 1) (v / 256)) as (s2 & E2 & W2).
    { destruct W1 as (-> & _). lia. } { destruct W1 as (_ & -> & _). lia. }
    rewrite E2. eexists; split; [reflexivity|]. rewrite Z.mod_mod in W1 by lia.
    exact (wrote_app s s1 s2 a [_] _ W1 W2).
Qed.

Lemma fill_wrote n f g s strp i :
  (forall m k, (forall b, b < strp + i \/ strp + i + Z.of_nat n <= b -> m b = si_mem s b) ->
     (k < n)%nat -> f m (i + Z.of_nat k) = Ok (g k)) ->
  si_alloc s <= strp + i -> strp + i + Z.of_nat n <= si_limit s ->
  exists s', fill n f s strp i = Ok s' /\
    wrote s s' (strp + i) (map (fun k => g k mod 256) (seq 0 n)).
Proof.
  revert g s i. induction n; intros g s i Hf H1 H2; cbn [fill seq map].
  - eexists; split; [reflexivity|apply wrote_nil].
  - generalize (Hf (si_mem s) 0%nat (fun _ _ => eq_refl)); rewrite Z.add_0_r; intros ->; [|lia]. cbn [cbind].
    destruct (store8_wrote s (strp + i) (g 0%nat)) as (s1 & E1 & W1); [lia|]. rewrite E1. cbn [cbind].
    destruct (IHn (fun k => g (S k)) s1 (i + 1)) as (s2 & E2 & W2).
    { intros m k Hm Hk. rewrite <- (Hf m (S k)); [f_equal; lia| |lia].
      intros b Hb. destruct W1 as (_ & _ & _ & F). cbn [length] in F.
      rewrite Hm by lia. apply F. lia. }
    { destruct W1 as (-> & _). lia. } { destruct W1 as (_ & -> & _). lia. }
    rewrite E2. eexists; split; [reflexivity|].
    replace (strp + (i + 1)) with (strp + i + Z.of_nat (length [g 0%nat mod 256])) in W2 by (cbn; lia).
    pose proof (wrote_app _ _ _ _ _ _ W1 W2) as W. cbn [app] in W.
    rewrite <- seq_shift, map_map. exact W.
Qed.

Lemma map_nth_seq (l : list Z) : map (fun k => nth k l 0) (seq 0 (length l)) = l.
Proof.
  induction l; cbn [length seq map nth]; auto. rewrite <- seq_shift, map_map. f_equal. exact IHl.
Qed.

Lemma map_const {A B} (c : B) (l : list A) : map (fun _ => c) l = repeat c (length l).
Proof. induction l; cbn; f_equal; auto. Qed.

Lemma wsize_bounds n : 0 <= n -> n < 8 * wsize n <= n + 8.
Proof. unfold wsize. intros. dlia. Qed.

Lemma finish_wrote s strp n :
  0 <= n -> si_alloc s <= strp + n -> strp + 8 * wsize n <= si_limit s ->
  exists s', finish_string s strp (wsize n) n = Ok s' /\
    wrote s s' (strp + n) (repeat 0 (Z.to_nat (8 * wsize n - 1 - n)) ++ [8 * wsize n - 1 - n]).
Proof.
  intros Hn H1 H2. pose proof (wsize_bounds n Hn). unfold finish_string.
  rewrite Z.max_r by lia.
  destruct (fill_wrote (Z.to_nat (8 * wsize n - 1 - n)) (fun (_ : bmem) _ => Ok 0) (fun _ => 0) s strp n) as (s1 & E1 & W1);
    [reflexivity|lia|lia|].
  rewrite E1. cbn [cbind].
  change (0 mod 256) with 0 in W1. rewrite map_const, seq_length in W1.
  destruct (store8_wrote s1 (strp + (8 * wsize n - 1)) (8 * wsize n - 1 - n)) as (s2 & E2 & W2).
  { destruct W1 as (-> & -> & _). lia. }
  rewrite E2. eexists; split; [reflexivity|].
  rewrite Z.mod_small in W2 by lia.
  apply (wrote_app _ s1); [exact W1|].
  rewrite repeat_length. match goal with |- wrote _ _ ?b _ => replace b with (strp + (8 * wsize n - 1)) by lia end.
  exact W2.
Qed.

(** ** Reading *)

Lemma bytes_at_app m a l1 l2 :
  bytes_at m a (l1 ++ l2) <-> bytes_at m a l1 /\ bytes_at m (a + Z.of_nat (length l1)) l2.
Proof.
  unfold bytes_at. split.
  - intros H. split.
    + intros i Hi. rewrite H by (rewrite app_length; lia). rewrite app_nth1 by assumption. reflexivity.
    + intros i Hi. replace (a + Z.of_nat (length l1) + Z.of_nat i) with (a + Z.of_nat (length l1 + i)) by lia.
      rewrite H by (rewrite app_length; lia). rewrite app_nth2 by lia. do 2 f_equal. lia.
  - intros [H1 H2] i Hi. rewrite app_length in Hi. destruct (Nat.lt_ge_cases i (length l1)).
    + rewrite app_nth1 by assumption. auto.
    + rewrite app_nth2 by assumption.
      replace (a + Z.of_nat i) with (a + Z.of_nat (length l1) + Z.of_nat (i - length l1)) by lia.
      apply H2. lia.
Qed.

Lemma load_n_le n m a v : bytes_at m a (le n v) -> load_n n m a = Ok (v mod 256 ^ Z.of_nat n).
Proof.
  revert a v. induction n; intros a v H; cbn [load_n].
  - cbn. rewrite Z.mod_1_r. reflexivity.
  - cbn [le] in H. change (v mod 256 :: le n (v / 256)) with ([v mod 256] ++ le n (v / 256)) in H.
    apply bytes_at_app in H. destruct H as [H1 H2].
    generalize (H1 0%nat); cbn [length nth]. rewrite Z.add_0_r. unfold load8. intros ->; [|lia]. cbn [cbind].
    cbn [length] in H2. rewrite (IHn _ (v / 256)) by exact H2. cbn [cbind]. f_equal.
    replace (256 ^ Z.of_nat (S n)) with (256 * 256 ^ Z.of_nat n)
      by (rewrite Nat2Z.inj_succ, Z.pow_succ_r by lia; reflexivity).
    assert (P : 0 < 256 ^ Z.of_nat n) by (apply Z.pow_pos_nonneg; lia).
    rewrite Z.rem_mul_r by lia. reflexivity.
Qed.

Lemma is_string_parts m v bs : is_string m v bs <->
  bytes_at m (v - 8) (le 8 (string_header (Z.of_nat (length bs)))) /\ bytes_at m v (string_body bs).
Proof.
  unfold is_string. rewrite bytes_at_app, le_length.
  replace (v - 8 + Z.of_nat 8) with v by lia. reflexivity.
Qed.

Lemma is_string_header m v bs : is_string m v bs -> Z.of_nat (length bs) < 2 ^ 56 ->
  load64 m (v - 8) = Ok (string_header (Z.of_nat (length bs))).
Proof.
  intros H Hl. apply is_string_parts in H. destruct H as [H _].
  unfold load64. rewrite (load_n_le _ _ _ _ H). f_equal. apply Z.mod_small.
  unfold string_header. pose proof (wsize_bounds (Z.of_nat (length bs))).
  change (256 ^ Z.of_nat 8) with W64. change (2 ^ 56) with 72057594037927936 in Hl. lia.
Qed.

Lemma is_string_byte m v bs i : is_string m v bs -> 0 <= i < Z.of_nat (length bs) ->
  m (v + i) = Some (spec_get bs i).
Proof.
  intros H Hi. apply is_string_parts in H. destruct H as [_ H]. unfold string_body in H.
  apply bytes_at_app in H. destruct H as [H _].
  specialize (H (Z.to_nat i) ltac:(lia)). rewrite Z2Nat.id in H by lia. exact H.
Qed.

Lemma is_string_last m v bs : is_string m v bs ->
  let n := Z.of_nat (length bs) in
  m (v + (8 * wsize n - 1)) = Some (8 * wsize n - 1 - n).
Proof.
  intros H n. apply is_string_parts in H. destruct H as [_ H]. unfold string_body in H. fold n in H.
  apply bytes_at_app in H. destruct H as [_ H]. apply bytes_at_app in H. destruct H as [_ H].
  specialize (H 0%nat ltac:(cbn; lia)). rewrite repeat_length in H. cbn [nth] in H.
  pose proof (wsize_bounds n ltac:(lia)).
  replace (v + (8 * wsize n - 1)) with (v + Z.of_nat (length bs) + Z.of_nat (Z.to_nat (8 * wsize n - 1 - n)) + Z.of_nat 0) by lia.
  exact H.
Qed.

Lemma s8_small b : 0 <= b < 128 -> s8 b = b.
Proof. unfold s8. intros. rewrite Z.mod_small by lia. replace (b <? 128) with true by lia. reflexivity. Qed.

Lemma s8_high b : 128 <= b < 256 -> s8 b = b - 256.
Proof. unfold s8. intros. rewrite Z.mod_small by lia. replace (b <? 128) with false by lia. reflexivity. Qed.

Lemma Wosize_string n : 0 <= n -> Wosize_hd (string_header n) = wsize n.
Proof.
  intros. unfold Wosize_hd, string_header. rewrite Z.shiftr_div_pow2 by lia.
  change (2 ^ 10) with 1024. pose proof (wsize_bounds n). dlia.
Qed.

Lemma strlen_ok m v bs : is_string m v bs -> Z.of_nat (length bs) < 2 ^ 56 ->
  prim_strlen m v = Ok (Z.of_nat (length bs)).
Proof.
  intros H Hl. unfold prim_strlen, Bosize_val. rewrite (is_string_header _ _ _ H Hl). cbn [cbind].
  rewrite Wosize_string by lia.
  set (n := Z.of_nat (length bs)) in *. pose proof (wsize_bounds n ltac:(lia)).
  change (2 ^ 56) with 72057594037927936 in Hl.
  unfold u64. rewrite (Z.mod_small (wsize n * 8)) by lia. rewrite (Z.mod_small (wsize n * 8 - 1)) by lia.
  unfold s64. rewrite (Z.mod_small (wsize n * 8 - 1)) by lia.
  replace (wsize n * 8 - 1 <? H64) with true by lia.
  replace (wsize n * 8 - 1) with (8 * wsize n - 1) by lia.
  unfold load8. pose proof (is_string_last _ _ _ H) as HL; cbv zeta in HL; fold n in HL; rewrite HL. cbn [cbind]. rewrite s8_small by lia.
  unfold sub_s, fits_s64.
  replace (8 * wsize n - 1 - (8 * wsize n - 1 - n)) with n by lia.
  replace ((- H64 <=? n) && (n <? H64)) with true by bt. reflexivity.
Qed.

Lemma is_string_ext m m' v bs :
  (forall b, v - 8 <= b < v + 8 * wsize (Z.of_nat (length bs)) -> m' b = m b) ->
  is_string m v bs -> is_string m' v bs.
Proof.
  intros E H. unfold is_string, bytes_at in *. intros i Hi. rewrite E; [auto|].
  rewrite app_length, le_length in Hi. unfold string_body in Hi. rewrite !app_length, repeat_length in Hi.
  cbn [length] in Hi. pose proof (wsize_bounds (Z.of_nat (length bs))). lia.
Qed.

(** ** Reserving *)

(** A sane allocation area *)
Definition si_ok (s : sinfo) : Prop :=
  si_alloc s mod 8 = 0 /\ si_limit s mod 8 = 0 /\ si_alloc s <= si_limit s.
Definition sroom (s : sinfo) : Z := (si_limit s - si_alloc s) / 8.

(** The collector aborts or gives the room asked for (see C05). *)
Definition sgc_gives_room (gc : sinfo -> Z -> cres sinfo) : Prop :=
  forall s n, si_ok s -> gc s n = Abort \/ exists s', gc s n = Ok s' /\ si_ok s' /\ n <= sroom s'.

Lemma reserve_ok gc s n : sgc_gives_room gc -> si_ok s ->
  reserve gc s n = Abort \/
  exists s1, reserve gc s n = Ok s1 /\ si_ok s1 /\ n <= sroom s1 /\ (s1 = s \/ gc s n = Ok s1).
Proof.
  intros Hgc Hs. unfold reserve. destruct (Z.leb_spec n ((si_limit s - si_alloc s) / 8)).
  - right. exists s. cbn [cbind]. replace (n <=? (si_limit s - si_alloc s) / 8) with true by lia. auto.
  - destruct (Hgc s n Hs) as [->|(s' & -> & Ok' & R)]; [left; reflexivity|]. right. exists s'. cbn [cbind].
    unfold sroom in R. replace (n <=? (si_limit s' - si_alloc s') / 8) with true by lia. auto.
Qed.

Lemma reserve_enough gc s n : n <= sroom s -> reserve gc s n = Ok s.
Proof.
  unfold reserve, sroom. intros. replace (n <=? (si_limit s - si_alloc s) / 8) with true by lia. cbn [cbind].
  replace (n <=? (si_limit s - si_alloc s) / 8) with true by lia. reflexivity.
Qed.

Lemma room_bytes s n : si_ok s -> n <= sroom s -> si_alloc s + 8 * n <= si_limit s.
Proof. unfold si_ok, sroom. intros (A & L & B) H. dlia. Qed.

(** ** Building: the header, the bytes and the end make a string *)

Lemma header_u64 w : 0 <= w < 2 ^ 54 -> Z.lor 252 (u64 (w * 1024)) = 252 + 1024 * w.
Proof.
  change (2 ^ 54) with 18014398509481984. intros H. unfold u64. rewrite Z.mod_small by lia.
  rewrite Z.lor_comm. change 1024 with (2 ^ 10). rewrite <- Z.shiftl_mul_pow2 by lia.
  assert (D : Z.land (Z.shiftl w 10) 252 = 0).
  { apply Z.bits_inj'. intros k Hk. rewrite Z.land_spec, Z.bits_0.
    destruct (Z.ltb_spec k 10).
    - rewrite Z.shiftl_spec_low by lia. reflexivity.
    - rewrite (Z.bits_above_log2 252) by (change (Z.log2 252) with 7; lia). apply andb_false_r. }
  rewrite <- Z.lxor_lor by exact D. rewrite <- Z.add_nocarry_lxor by exact D.
  rewrite Z.shiftl_mul_pow2 by lia. lia.
Qed.

Lemma header_u32 w : 0 <= w -> Z.lor 252 (u32 (w * 1024)) = 252 + 1024 * (w mod 4194304).
Proof.
  intros H. unfold u32. replace ((w * 1024) mod 4294967296) with (w mod 4194304 * 1024).
  - pose proof (Z.mod_pos_bound w 4194304 ltac:(lia)). rewrite <- (header_u64 (w mod 4194304)).
    + unfold u64. rewrite (Z.mod_small (w mod 4194304 * 1024)) by lia. reflexivity.
    + change (2 ^ 54) with 18014398509481984. lia.
  - replace 4294967296 with (4194304 * 1024) by reflexivity. rewrite Z.mul_mod_distr_r by lia. reflexivity.
Qed.

Lemma build_string s sh sb sf a bs :
  wrote s sh a (le 8 (string_header (Z.of_nat (length bs)))) ->
  wrote sh sb (a + 8) bs ->
  wrote sb sf (a + 8 + Z.of_nat (length bs))
    (repeat 0 (Z.to_nat (8 * wsize (Z.of_nat (length bs)) - 1 - Z.of_nat (length bs)))
       ++ [8 * wsize (Z.of_nat (length bs)) - 1 - Z.of_nat (length bs)]) ->
  wrote s sf a (le 8 (string_header (Z.of_nat (length bs))) ++ string_body bs).
Proof.
  intros W1 W2 W3. apply (wrote_app _ sh); [exact W1|]. rewrite le_length.
  apply (wrote_app _ sb); [exact W2|exact W3].
Qed.

Lemma memcpy_wrote s dst src n :
  0 <= n -> si_alloc s <= dst -> dst + n <= si_limit s ->
  src + n <= si_alloc s \/ si_limit s <= src ->
  forall bs, Z.of_nat (length bs) = n -> bytes_at (si_mem s) src bs -> Forall byte bs ->
  exists s', memcpy s dst src n = Ok s' /\ wrote s s' dst bs.
Proof.
  intros Hn H1 H2 Hsrc bs El Hb Hby. unfold memcpy.
  replace ((0 <? n) && (dst <? src + n) && (src <? dst + n)) with false.
  2:{ symmetry. destruct (Z.ltb_spec 0 n); [|reflexivity].
      destruct (Z.ltb_spec dst (src + n)); [|reflexivity].
      destruct (Z.ltb_spec src (dst + n)); [lia|reflexivity]. }
  destruct (fill_wrote (Z.to_nat n) (fun (m : bmem) i => load8 m (src + i)) (fun k => nth k bs 0) s dst 0)
    as (s' & E & W).
  - intros m k Hm Hk. rewrite Z.add_0_l. unfold load8.
    rewrite Hm by lia. rewrite Hb by lia. reflexivity.
  - lia.
  - lia.
  - rewrite E. exists s'. split; [reflexivity|]. rewrite Z.add_0_r in W.
    replace (Z.to_nat n) with (length bs) in W by lia.
    replace (map _ _) with bs in W; [exact W|]. symmetry. rewrite <- (map_nth_seq bs) at 2.
    apply map_ext_in. intros k Hk. apply in_seq in Hk. apply Z.mod_small.
    rewrite Forall_forall in Hby. apply Hby, nth_In. lia.
Qed.

(** ** mk_ocaml_string *)

(** What it does for any length an [int] can count: only the header depends on
    the number of words fitting in 22 bits. *)
Lemma mk_string_gen gc s str :
  sgc_gives_room gc -> si_ok s -> Forall byte str -> Z.of_nat (length str) < 2147483640 ->
  let n := Z.of_nat (length str) in
  mk_ocaml_string gc s str = Abort \/
  exists s1 s' v, mk_ocaml_string gc s str = Ok (s', v) /\ si_ok s1 /\ wsize n + 1 <= sroom s1 /\
    (s1 = s \/ gc s (wsize n + 1) = Ok s1) /\ v = si_alloc s1 + 8 /\
    wrote s1 {| si_alloc := si_alloc s1; si_limit := si_limit s'; si_mem := si_mem s' |} (v - 8)
      (le 8 (252 + 1024 * (wsize n mod 4194304)) ++ string_body str) /\
    si_alloc s' = v + 8 * wsize n.
Proof.
  intros Hgc Hs Hby Hl n. pose proof (wsize_bounds n ltac:(lia)) as Hw.
  unfold mk_ocaml_string. fold n. fold (wsize n).
  assert (Eu : u32 (wsize n) = wsize n) by (unfold u32; apply Z.mod_small; lia).
  rewrite !Eu. replace (u32 (wsize n + 1)) with (wsize n + 1) by (unfold u32; rewrite Z.mod_small; lia).
  destruct (reserve_ok gc s (wsize n + 1) Hgc Hs) as [->|(s1 & -> & Ok1 & R & Or)]; [left; reflexivity|].
  right. cbn [cbind]. pose proof (room_bytes _ _ Ok1 R) as Hr.
  rewrite header_u32 by lia.
  destruct (store_n_wrote 8 s1 (si_alloc s1) (252 + 1024 * (wsize n mod 4194304))) as (sh & Eh & Wh); [lia|lia|].
  unfold store64. rewrite Eh. cbn [cbind].
  replace (fits_s32 (n + 8)) with true.
  2:{ unfold fits_s32. bt. }
  cbn [negb].
  assert (Ah := Wh). destruct Ah as (Ah & Lh & _).
  destruct (fill_wrote (length str) (fun (_ : bmem) i => Ok (nth (Z.to_nat i) str 0)) (fun k => nth k str 0) sh (si_alloc s1 + 8) 0)
    as (sb & Eb & Wb).
  { intros m k _ Hk. rewrite Z.add_0_l, Nat2Z.id. reflexivity. }
  { lia. } { lia. }
  rewrite Eb. cbn [cbind].
  assert (Ab := Wb). destruct Ab as (Ab & Lb & _).
  destruct (finish_wrote sb (si_alloc s1 + 8) n) as (sf & Ef & Wf); [lia|lia|lia|].
  rewrite Ef. cbn [cbind]. exists s1. eexists _, _. split; [reflexivity|].
  split; [exact Ok1|]. split; [exact R|]. split; [exact Or|]. split; [reflexivity|].
  assert (Af := Wf). destruct Af as (Af & Lf & _).
  assert (W : wrote s1 sf (si_alloc s1) (le 8 (252 + 1024 * (wsize n mod 4194304)) ++ string_body str)).
  { apply (wrote_app _ sh); [exact Wh|]. rewrite le_length. unfold string_body. fold n.
    apply (wrote_app _ sb).
    - replace (map _ _) with str in Wb; [rewrite Z.add_0_r in Wb; exact Wb|].
      symmetry. rewrite <- (map_nth_seq str) at 2. apply map_ext_in. intros k Hk. apply in_seq in Hk.
      apply Z.mod_small. rewrite Forall_forall in Hby. apply Hby, nth_In. lia.
    - exact Wf. }
  split.
  - replace (si_alloc s1 + 8 - 8) with (si_alloc s1) by lia. destruct W as (? & ? & ? & ?).
    unfold wrote. cbn [si_alloc si_limit si_mem sbump]. auto.
  - cbn [sbump si_alloc]. lia.
Qed.

Lemma wrote_string s s' v bs :
  wrote s s' (v - 8) (le 8 (string_header (Z.of_nat (length bs))) ++ string_body bs) -> is_string (si_mem s') v bs.
Proof. intros (_ & _ & H & _). exact H. Qed.

Lemma body_length bs : Z.of_nat (length (string_body bs)) = 8 * wsize (Z.of_nat (length bs)).
Proof.
  unfold string_body. rewrite !app_length, repeat_length. cbn [length].
  pose proof (wsize_bounds (Z.of_nat (length bs))). lia.
Qed.

(** A string is determined by the memory. *)
Lemma is_string_inj m v bs bs' :
  Z.of_nat (length bs) < 2 ^ 56 -> Z.of_nat (length bs') < 2 ^ 56 ->
  is_string m v bs -> is_string m v bs' -> bs = bs'.
Proof.
  intros L L' H H'. pose proof (strlen_ok _ _ _ H L) as E. rewrite (strlen_ok _ _ _ H' L') in E.
  injection E as E. apply (nth_ext _ _ 0 0); [lia|]. intros i Hi.
  pose proof (is_string_byte _ _ _ (Z.of_nat i) H ltac:(lia)) as B.
  rewrite (is_string_byte _ _ _ (Z.of_nat i) H' ltac:(lia)) in B. injection B as B.
  unfold spec_get in B. rewrite Nat2Z.id in B. auto.
Qed.

(** ** make, sub, cat *)

(** The common frame: header, bytes, end; the room is one word more than what the
    functions ask for. *)
Lemma frame_ok s bs :
  Forall byte bs -> Z.of_nat (length bs) < 2147483640 -> si_ok s ->
  let n := Z.of_nat (length bs) in
  wsize n + 1 <= sroom s ->
  exists sh, store64 s (si_alloc s) (Z.lor 252 (u64 (wsize n * 1024))) = Ok sh /\
    si_alloc sh = si_alloc s /\ si_limit sh = si_limit s /\
    (forall b, b < si_alloc s \/ si_alloc s + 8 <= b -> si_mem sh b = si_mem s b) /\
  forall sb, wrote sh sb (si_alloc s + 8) bs ->
  exists sf, finish_string sb (si_alloc s + 8) (wsize n) n = Ok sf /\
    wrote s sf (si_alloc s) (le 8 (string_header n) ++ string_body bs).
Proof.
  intros Hby Hl Hs n R. pose proof (wsize_bounds n ltac:(lia)) as Hw. pose proof (room_bytes _ _ Hs R) as Hr.
  rewrite header_u64 by (change (2 ^ 54) with 18014398509481984; lia). unfold store64.
  destruct (store_n_wrote 8 s (si_alloc s) (252 + 1024 * wsize n)) as (sh & Eh & Wh); [lia|lia|].
  exists sh. split; [exact Eh|]. assert (Ah := Wh). destruct Ah as (Ah & Lh & _ & Fh). rewrite le_length in Fh.
  split; [exact Ah|]. split; [exact Lh|]. split.
  { intros b Hb. apply Fh. lia. }
  intros sb Wb. assert (Ab := Wb). destruct Ab as (Ab & Lb & _).
  destruct (finish_wrote sb (si_alloc s + 8) n) as (sf & Ef & Wf); [lia|lia|lia|].
  exists sf. split; [exact Ef|]. apply (build_string s sh sb sf); assumption.
Qed.

Lemma quot8 x : 0 <= x -> Z.quot x 8 = x / 8.
Proof. intros. apply Z.quot_div_nonneg; lia. Qed.

Lemma u64_wsize n : 0 <= n < 2147483640 -> u64 (wsize n) = wsize n.
Proof. intros. pose proof (wsize_bounds n). unfold u64. apply Z.mod_small. lia. Qed.

(** Given one word more than it asks for, [prim_string_make] on the words for
    the integers [k] and [c] makes a string of [2k+1] characters [2c+1]. *)
Lemma make_exact gc s k c :
  si_ok s -> 0 <= k < 1073741800 -> 
  let n := 2 * k + 1 in
  wsize n + 1 <= sroom s ->
  exists s', prim_string_make gc s (word_of_int k) (word_of_int c) = Ok (s', si_alloc s + 8) /\
    is_string (si_mem s') (si_alloc s + 8) (repeat (word_of_int c mod 256) (Z.to_nat n)) /\
    si_alloc s' = si_alloc s + 8 * wsize n.
Proof.
  intros Hs Hk n R. unfold prim_string_make, word_of_int. fold n.
  assert (E64 : s64 n = n) by (apply s64_fits; lia). rewrite E64.
  rewrite quot8 by lia. fold (wsize n). rewrite u64_wsize by lia.
  rewrite reserve_enough by lia. cbn [cbind].
  set (ch := (2 * c + 1) mod 256).
  set (bs := repeat ch (Z.to_nat n)).
  assert (Eb : Z.of_nat (length bs) = n) by (unfold bs; rewrite repeat_length; lia).
  assert (Hch : byte ch) by (unfold ch, byte; pose proof (Z.mod_pos_bound (2 * c + 1) 256); lia).
  assert (Hby : Forall byte bs) by (apply Forall_forall; intros x Hx; apply repeat_spec in Hx; subst; exact Hch).
  destruct (frame_ok s bs Hby ltac:(lia) Hs ltac:(rewrite Eb; exact R)) as (sh & Eh & Ah & Lh & Fh & K).
  rewrite Eb in Eh, K. rewrite Eh. cbn [cbind].
  replace (fits_s32 (n + 8)) with true by (unfold fits_s32; bt). cbn [negb].
  pose proof (room_bytes _ _ Hs R) as Hr. pose proof (wsize_bounds n ltac:(lia)) as Hw.
  destruct (fill_wrote (Z.to_nat n) (fun (_ : bmem) _ => Ok ch) (fun _ => ch) sh (si_alloc s + 8) 0)
    as (sb & Es & Wb); [reflexivity|lia|lia|].
  rewrite Es. cbn [cbind]. rewrite Z.add_0_r, map_const, seq_length in Wb.
  rewrite (Z.mod_small ch) in Wb by exact Hch. fold bs in Wb.
  destruct (K sb Wb) as (sf & Ef & Wf). rewrite Z.max_r by lia. rewrite Ef. cbn [cbind].
  eexists. split; [reflexivity|]. assert (Af := Wf). destruct Af as (Af & _). split.
  - cbn [sbump si_mem]. apply (wrote_string s sf).
    replace (si_alloc s + 8 - 8) with (si_alloc s) by lia. rewrite Eb. exact Wf.
  - cbn [sbump si_alloc]. lia.
Qed.

Lemma sub_exact gc s x bs f k :
  si_ok s -> is_string (si_mem s) x bs -> Forall byte bs ->
  x + 8 * wsize (Z.of_nat (length bs)) <= si_alloc s \/ si_limit s <= x - 8 ->
  0 <= f -> 0 <= k -> let n := 2 * k + 1 in
  2 * f + 1 + n <= Z.of_nat (length bs) -> Z.of_nat (length bs) < 2147483640 ->
  wsize n + 1 <= sroom s ->
  exists s', prim_string_sub gc s x (word_of_int f) (word_of_int k) = Ok (s', si_alloc s + 8) /\
    is_string (si_mem s') (si_alloc s + 8) (spec_sub bs (2 * f + 1) (2 * k + 1)) /\
    si_alloc s' = si_alloc s + 8 * wsize n.
Proof.
  intros Hs Hx Hbs Hsep Hf Hk n Hfn Hlen R. unfold prim_string_sub, word_of_int. fold n.
  rewrite (s64_fits n) by lia. rewrite (s64_fits (2 * f + 1)) by lia.
  rewrite quot8 by lia. fold (wsize n). rewrite u64_wsize by lia.
  rewrite reserve_enough by lia. cbn [cbind].
  set (rs := spec_sub bs (2 * f + 1) n).
  assert (Er : Z.of_nat (length rs) = n).
  { unfold rs, spec_sub. rewrite firstn_length, skipn_length. lia. }
  assert (Hby : Forall byte rs).
  { unfold rs, spec_sub. rewrite Forall_forall in *. intros b Hb. apply Hbs.
    assert (In b (skipn (Z.to_nat (2 * f + 1)) bs)).
    { rewrite <- (firstn_skipn (Z.to_nat n) (skipn _ bs)). apply in_or_app. auto. }
    rewrite <- (firstn_skipn (Z.to_nat (2 * f + 1)) bs). apply in_or_app. auto. }
  destruct (frame_ok s rs Hby ltac:(lia) Hs ltac:(rewrite Er; exact R)) as (sh & Eh & Ah & Lh & Fh & K).
  rewrite Er in Eh, K. rewrite Eh. cbn [cbind].
  replace (fits_s32 (n + 8)) with true by (unfold fits_s32; bt). cbn [negb].
  pose proof (room_bytes _ _ Hs R) as Hr. pose proof (wsize_bounds n ltac:(lia)) as Hw.
  pose proof (wsize_bounds (Z.of_nat (length bs)) ltac:(lia)) as Hwb.
  assert (Nth : forall k, (k < Z.to_nat n)%nat -> nth k rs 0 = spec_get bs (2 * f + 1 + Z.of_nat k)).
  { intros i Hi. unfold rs, spec_sub, spec_get.
    transitivity (nth i (skipn (Z.to_nat (2 * f + 1)) bs) 0).
    - rewrite <- (firstn_skipn (Z.to_nat n) (skipn (Z.to_nat (2 * f + 1)) bs)) at 2.
      rewrite app_nth1; [reflexivity|]. rewrite firstn_length, skipn_length. lia.
    - rewrite <- (firstn_skipn (Z.to_nat (2 * f + 1)) bs) at 2.
      rewrite app_nth2 by (rewrite firstn_length; lia). f_equal. rewrite firstn_length. lia. }
  destruct (fill_wrote (Z.to_nat n) (fun (m : bmem) i => load8 m (x + (2 * f + 1 + i))) (fun k => nth k rs 0) sh (si_alloc s + 8) 0)
    as (sb & Es & Wb).
  { intros m i Hm Hi. unfold load8. rewrite Z.add_0_l. rewrite Hm by lia. rewrite Fh by lia.
    rewrite (is_string_byte _ _ _ _ Hx) by lia. rewrite Nth by lia. reflexivity. }
  { lia. } { lia. }
  rewrite Es. cbn [cbind]. rewrite Z.add_0_r in Wb.
  assert (Em : map (fun k => nth k rs 0 mod 256) (seq 0 (Z.to_nat n)) = rs).
  { replace (Z.to_nat n) with (length rs) by lia. rewrite <- (map_nth_seq rs) at 2.
    apply map_ext_in. intros i Hi. apply in_seq in Hi. apply Z.mod_small.
    rewrite Forall_forall in Hby. apply Hby, nth_In. lia. }
  rewrite Em in Wb.
  destruct (K sb Wb) as (sf & Ef & Wf). rewrite Z.max_r by lia. rewrite Ef. cbn [cbind].
  eexists. split; [reflexivity|]. assert (Af := Wf). destruct Af as (Af & _). split.
  - cbn [sbump si_mem]. apply (wrote_string s sf).
    replace (si_alloc s + 8 - 8) with (si_alloc s) by lia. rewrite Er. exact Wf.
  - cbn [sbump si_alloc]. lia.
Qed.

(** Given one word more than it asks for, [prim_string_cat] makes the right
    string, but the allocation pointer is left before its last word. *)
Lemma cat_exact gc s x y xs ys :
  si_ok s -> is_string (si_mem s) x xs -> is_string (si_mem s) y ys -> Forall byte xs -> Forall byte ys ->
  x + 8 * wsize (Z.of_nat (length xs)) <= si_alloc s \/ si_limit s <= x - 8 ->
  y + 8 * wsize (Z.of_nat (length ys)) <= si_alloc s \/ si_limit s <= y - 8 ->
  let n := Z.of_nat (length (xs ++ ys)) in
  n < 2147483640 ->
  wsize n + 1 <= sroom s ->
  exists s', prim_string_cat gc s x y = Ok (s', si_alloc s + 8) /\
    is_string (si_mem s') (si_alloc s + 8) (xs ++ ys) /\
    si_alloc s' = si_alloc s + 8 * wsize n.
Proof.
  intros Hs Hx Hy Bx By Sx Sy n Hn R. unfold prim_string_cat.
  assert (En : n = Z.of_nat (length xs) + Z.of_nat (length ys)) by (unfold n; rewrite app_length; lia).
  change (2 ^ 56) with 72057594037927936 in *.
  rewrite (strlen_ok _ _ _ Hx) by (change (2 ^ 56) with 72057594037927936; lia).
  rewrite (strlen_ok _ _ _ Hy) by (change (2 ^ 56) with 72057594037927936; lia). cbn [cbind].
  rewrite <- En. fold (wsize n). rewrite u64_wsize by lia.
  rewrite reserve_enough by lia. cbn [cbind].
  assert (Hby : Forall byte (xs ++ ys)) by (apply Forall_app; auto).
  destruct (frame_ok s (xs ++ ys) Hby Hn Hs R) as (sh & Eh & Ah & Lh & Fh & K). fold n in Eh, K.
  rewrite Eh. cbn [cbind].
  replace (fits_s32 (n + 8)) with true by (unfold fits_s32; bt). cbn [negb].
  pose proof (room_bytes _ _ Hs R) as Hr. pose proof (wsize_bounds n ltac:(lia)) as Hw.
  pose proof (wsize_bounds (Z.of_nat (length xs)) ltac:(lia)) as Hwx.
  pose proof (wsize_bounds (Z.of_nat (length ys)) ltac:(lia)) as Hwy.
  assert (Rx : bytes_at (si_mem sh) x xs).
  { intros i Hi. rewrite Fh by lia. rewrite (is_string_byte _ _ _ (Z.of_nat i) Hx) by lia.
    unfold spec_get. rewrite Nat2Z.id. reflexivity. }
  destruct (memcpy_wrote sh (si_alloc s + 8) x (Z.of_nat (length xs))) with (bs := xs) as (sx & Ex & Wx);
    try assumption; try lia.
  rewrite Ex. cbn [cbind]. assert (Ax := Wx). destruct Ax as (Ax & Lx & _ & Fx).
  assert (Ry : bytes_at (si_mem sx) y ys).
  { intros i Hi. rewrite Fx by lia. rewrite Fh by lia. rewrite (is_string_byte _ _ _ (Z.of_nat i) Hy) by lia.
    unfold spec_get. rewrite Nat2Z.id. reflexivity. }
  destruct (memcpy_wrote sx (si_alloc s + 8 + Z.of_nat (length xs)) y (Z.of_nat (length ys))) with (bs := ys) as (sy & Ey & Wy);
    try assumption; try lia.
  rewrite Ey. cbn [cbind].
  destruct (K sy (wrote_app _ _ _ _ _ _ Wx Wy)) as (sf & Ef & Wf). rewrite Ef. cbn [cbind].
  eexists. split; [reflexivity|]. assert (Af := Wf). destruct Af as (Af & _). split.
  - cbn [sbump si_mem]. apply (wrote_string s sf).
    replace (si_alloc s + 8 - 8) with (si_alloc s) by lia. exact Wf.
  - cbn [sbump si_alloc]. lia.
Qed.

(** ** Without that extra word they write past the limit *)

Lemma store8_frame s a v s' : store8 s a v = Ok s' -> si_alloc s' = si_alloc s /\ si_limit s' = si_limit s.
Proof. unfold store8. destruct (_ && _); [|discriminate]. intros E. inversion E. auto. Qed.

Lemma store_n_frame n s a v s' : store_n n s a v = Ok s' -> si_alloc s' = si_alloc s /\ si_limit s' = si_limit s.
Proof.
  revert s a v. induction n; cbn [store_n]; intros s a v E; [inversion E; auto|].
  destruct (store8 s a (v mod 256)) eqn:E1; cbn [cbind] in E; try discriminate.
  apply store8_frame in E1. apply IHn in E. intuition congruence.
Qed.

Lemma store8_na s a v : store8 s a v <> Abort.
Proof. unfold store8. destruct (_ && _); discriminate. Qed.

Lemma store_n_na n s a v : store_n n s a v <> Abort.
Proof.
  revert s a v. induction n; cbn [store_n]; intros s a v; [discriminate|].
  destruct (store8 s a (v mod 256)) eqn:E1; cbn [cbind]; try discriminate; [apply IHn|].
  exfalso; eapply store8_na; eauto.
Qed.

Lemma fill_frame n f s strp i s' : fill n f s strp i = Ok s' -> si_alloc s' = si_alloc s /\ si_limit s' = si_limit s.
Proof.
  revert s i. induction n; cbn [fill]; intros s i E; [inversion E; auto|].
  destruct (f (si_mem s) i); cbn [cbind] in E; try discriminate.
  destruct (store8 s (strp + i) a) eqn:E1; cbn [cbind] in E; try discriminate.
  apply store8_frame in E1. apply IHn in E. intuition congruence.
Qed.

Lemma fill_na n f s strp i : (forall m j, f m j <> Abort) -> fill n f s strp i <> Abort.
Proof.
  intros Hf. revert s i. induction n; cbn [fill]; intros s i; [discriminate|].
  destruct (f (si_mem s) i) eqn:Ef; cbn [cbind]; try discriminate; [|exfalso; eapply Hf; eauto].
  destruct (store8 s (strp + i) a) eqn:E1; cbn [cbind]; try discriminate; [apply IHn|].
  exfalso; eapply store8_na; eauto.
Qed.

Lemma load8_na m a : load8 m a <> Abort.
Proof. unfold load8. destruct (m a); discriminate. Qed.

Lemma memcpy_frame s d x n s' : memcpy s d x n = Ok s' -> si_alloc s' = si_alloc s /\ si_limit s' = si_limit s.
Proof. unfold memcpy. destruct (_ && _ && _); [discriminate|]. apply fill_frame. Qed.

Lemma memcpy_na s d x n : memcpy s d x n <> Abort.
Proof. unfold memcpy. destruct (_ && _ && _); [discriminate|]. apply fill_na. intros. apply load8_na. Qed.

(** The end of the string lies behind the limit. *)
Lemma finish_overflow s strp w i : si_limit s < strp + 8 * w -> finish_string s strp w i = UB.
Proof.
  intros H. unfold finish_string.
  destruct (fill _ _ s strp i) as [s1| |] eqn:E; cbn [cbind]; [|reflexivity|].
  - apply fill_frame in E. destruct E as [E1 E2]. unfold store8. rewrite E2.
    replace (strp + Z.max i (8 * w - 1) <? si_limit s) with false; [rewrite andb_false_r; reflexivity|].
    symmetry. apply Z.ltb_ge. lia.
  - exfalso. revert E. apply fill_na. discriminate.
Qed.

Lemma make_overflow gc s k c :
  si_ok s -> 0 <= k < 1073741800 -> sroom s = wsize (2 * k + 1) ->
  prim_string_make gc s (word_of_int k) (word_of_int c) = UB.
Proof.
  intros Hs Hk R. unfold prim_string_make, word_of_int. set (n := 2 * k + 1) in *.
  rewrite (s64_fits n) by lia. rewrite quot8 by lia. fold (wsize n). rewrite u64_wsize by lia.
  rewrite reserve_enough by lia. cbn [cbind]. unfold store64.
  match goal with |- context[store_n 8 s ?a ?v] => destruct (store_n 8 s a v) eqn:E1 end; cbn [cbind];
    [|reflexivity|exfalso; eapply store_n_na; eauto].
  apply store_n_frame in E1. destruct (negb _); [reflexivity|].
  match goal with |- context[fill ?n ?f a ?p 0] => destruct (fill n f a p 0) eqn:E2 end; cbn [cbind];
    [|reflexivity|exfalso; revert E2; apply fill_na; discriminate].
  apply fill_frame in E2. rewrite finish_overflow; [reflexivity|].
  unfold si_ok, sroom in *. destruct E1 as [_ E1], E2 as [_ E2]. rewrite E2, E1. dlia.
Qed.

Lemma sub_overflow gc s x f k :
  si_ok s -> 0 <= k < 1073741800 -> sroom s = wsize (2 * k + 1) ->
  prim_string_sub gc s x f (word_of_int k) = UB.
Proof.
  intros Hs Hk R. unfold prim_string_sub, word_of_int. set (n := 2 * k + 1) in *.
  rewrite (s64_fits n) by lia. rewrite quot8 by lia. fold (wsize n). rewrite u64_wsize by lia.
  rewrite reserve_enough by lia. cbn [cbind]. unfold store64.
  match goal with |- context[store_n 8 s ?a ?v] => destruct (store_n 8 s a v) eqn:E1 end; cbn [cbind];
    [|reflexivity|exfalso; eapply store_n_na; eauto].
  apply store_n_frame in E1. destruct (negb _); [reflexivity|].
  match goal with |- context[fill ?n ?f a ?p 0] => destruct (fill n f a p 0) eqn:E2 end; cbn [cbind];
    [|reflexivity|exfalso; revert E2; apply fill_na; intros; apply load8_na].
  apply fill_frame in E2. rewrite finish_overflow; [reflexivity|].
  unfold si_ok, sroom in *. destruct E1 as [_ E1], E2 as [_ E2]. rewrite E2, E1. dlia.
Qed.

Lemma cat_overflow gc s x y xs ys :
  si_ok s -> is_string (si_mem s) x xs -> is_string (si_mem s) y ys ->
  let n := Z.of_nat (length (xs ++ ys)) in
  n < 2147483640 -> sroom s = wsize n ->
  prim_string_cat gc s x y = UB.
Proof.
  intros Hs Hx Hy n Hn R. unfold prim_string_cat.
  assert (En : n = Z.of_nat (length xs) + Z.of_nat (length ys)) by (unfold n; rewrite app_length; lia).
  rewrite (strlen_ok _ _ _ Hx) by (change (2 ^ 56) with 72057594037927936; lia).
  rewrite (strlen_ok _ _ _ Hy) by (change (2 ^ 56) with 72057594037927936; lia). cbn [cbind].
  rewrite <- En. fold (wsize n). rewrite u64_wsize by lia.
  rewrite reserve_enough by lia. cbn [cbind]. unfold store64.
  match goal with |- context[store_n 8 s ?a ?v] => destruct (store_n 8 s a v) eqn:E1 end; cbn [cbind];
    [|reflexivity|exfalso; eapply store_n_na; eauto].
  apply store_n_frame in E1. destruct (negb _); [reflexivity|].
  match goal with |- context[memcpy a ?d x ?n] => destruct (memcpy a d x n) eqn:E2 end; cbn [cbind];
    [|reflexivity|exfalso; revert E2; apply memcpy_na].
  match goal with |- context[memcpy ?a ?d y ?n] => destruct (memcpy a d y n) eqn:E3 end; cbn [cbind];
    [|reflexivity|exfalso; revert E3; apply memcpy_na].
  apply memcpy_frame in E2. apply memcpy_frame in E3. rewrite finish_overflow; [reflexivity|].
  unfold si_ok, sroom in *. destruct E1 as [_ E1], E2 as [_ E2], E3 as [_ E3]. rewrite E3, E2, E1. dlia.
Qed.

(** ** Literals *)

Lemma le_cons n b v : byte b -> le (S n) (b + 256 * v) = b :: le n v.
Proof.
  unfold byte. intros H. cbn [le]. rewrite (Z.mul_comm 256), Z.mod_add, Z.mod_small by lia. f_equal. f_equal.
  rewrite Z.div_add by lia. rewrite Z.div_small by lia. reflexivity.
Qed.

(** A word from its eight bytes *)
Definition pack (a b c d e f g h : Z) : Z :=
  a + 256 * (b + 256 * (c + 256 * (d + 256 * (e + 256 * (f + 256 * (g + 256 * (h + 256 * 0))))))).

Lemma le_pack a b c d e f g h :
  byte a -> byte b -> byte c -> byte d -> byte e -> byte f -> byte g -> byte h ->
  le 8 (pack a b c d e f g h) = [a; b; c; d; e; f; g; h].
Proof. intros. unfold pack. rewrite !le_cons by assumption. reflexivity. Qed.

Lemma pack_range a b c d e f g h :
  byte a -> byte b -> byte c -> byte d -> byte e -> byte f -> byte g -> byte h ->
  0 <= pack a b c d e f g h < W64.
Proof. unfold byte, pack. intros. lia. Qed.

Ltac pows :=
  change (2 ^ 56) with 72057594037927936; change (2 ^ 48) with 281474976710656;
  change (2 ^ 40) with 1099511627776; change (2 ^ 32) with 4294967296; change (2 ^ 24) with 16777216;
  change (2 ^ 16) with 65536; change (2 ^ 8) with 256.

Lemma byte_lit k : 0 <= k < 256 -> byte k.
Proof. auto. Qed.

Ltac packs a b c d e f g h :=
  exists (pack a b c d e f g h);
  repeat match goal with H : Forall byte (_ :: _) |- _ => inversion H; subst; clear H end;
  split; [cbn [encode_list]; pows; unfold pack; f_equal; lia|];
  split; [apply pack_range; first [assumption|apply byte_lit; lia]|];
  rewrite le_pack by (first [assumption|apply byte_lit; lia]); reflexivity.

Lemma encode_short l : (length l < 8)%nat -> Forall byte l ->
  exists w, encode_list l = [w] /\ 0 <= w < W64 /\ le 8 w = string_body l.
Proof.
  intros Hl Hb.
  destruct l as [|a l]; [packs 0 0 0 0 0 0 0 7|].
  destruct l as [|b l]; [packs a 0 0 0 0 0 0 6|].
  destruct l as [|c l]; [packs a b 0 0 0 0 0 5|].
  destruct l as [|d l]; [packs a b c 0 0 0 0 4|].
  destruct l as [|e l]; [packs a b c d 0 0 0 3|].
  destruct l as [|f l]; [packs a b c d e 0 0 2|].
  destruct l as [|g l]; [packs a b c d e f 0 1|].
  destruct l as [|h l]; [packs a b c d e f g 0|].
  exfalso. cbn [length] in Hl. lia.
Qed.

Lemma string_body_8 a b c d e f g h l :
  string_body (a :: b :: c :: d :: e :: f :: g :: h :: l) = [a; b; c; d; e; f; g; h] ++ string_body l.
Proof.
  unfold string_body. cbn [length app].
  replace (Z.of_nat _) with (Z.of_nat (length l) + 8) by lia.
  unfold wsize. replace ((Z.of_nat (length l) + 8) / 8) with (Z.of_nat (length l) / 8 + 1) by dlia.
  replace (8 * (Z.of_nat (length l) / 8 + 1 + 1) - 1 - (Z.of_nat (length l) + 8))
    with (8 * (Z.of_nat (length l) / 8 + 1) - 1 - Z.of_nat (length l)) by lia.
  reflexivity.
Qed.

(** The words of a literal, byte by byte, are the body of the string. *)
Lemma encode_bytes l : Forall byte l ->
  Forall (fun w => 0 <= w < W64) (encode_list l) /\ flat_map (le 8) (encode_list l) = string_body l.
Proof.
  assert (IND : forall k l, (length l < 8 * k)%nat -> Forall byte l ->
    Forall (fun w => 0 <= w < W64) (encode_list l) /\ flat_map (le 8) (encode_list l) = string_body l).
  2:{ intros Hb. apply (IND (S (length l))); [lia|exact Hb]. }
  clear l. induction k; intros l Hl Hb; [lia|].
  destruct (Nat.lt_ge_cases (length l) 8) as [Hs|Hs].
  - destruct (encode_short l Hs Hb) as (w & -> & R & E). split; [auto|]. cbn [flat_map]. rewrite app_nil_r. exact E.
  - do 8 (destruct l as [|? l]; [cbn [length] in Hs; lia|]).
    repeat match goal with H : Forall byte (_ :: _) |- _ => inversion H; subst; clear H end.
    destruct (IHk l) as [IH1 IH2]; [cbn [length] in Hl; lia|assumption|].
    rewrite string_body_8.
    match goal with |- context[encode_list (?a :: ?b :: ?c :: ?d :: ?e :: ?f :: ?g :: ?h :: l)] =>
      replace (encode_list (a :: b :: c :: d :: e :: f :: g :: h :: l)) with (pack a b c d e f g h :: encode_list l)
    end.
    + split; [constructor; [apply pack_range; assumption|exact IH1]|].
      change (flat_map (le 8) (?x :: ?y)) with (le 8 x ++ flat_map (le 8) y).
      cbn [flat_map]. rewrite le_pack by assumption. rewrite IH2. reflexivity.
    + cbn [encode_list]. pows. unfold pack. f_equal. lia.
Qed.

Lemma store_words_wrote ws s a :
  Forall (fun w => 0 <= w < W64) ws -> si_alloc s <= a -> a + 8 * Z.of_nat (length ws) <= si_limit s ->
  exists s', store_words s a ws = Ok s' /\ wrote s s' a (flat_map (le 8) ws).
Proof.
  revert s a. induction ws as [|w ws IH]; intros s a Hw H1 H2; cbn [store_words flat_map].
  - eexists; split; [reflexivity|apply wrote_nil].
  - inversion Hw; subst. cbn [length] in H2.
    destruct (store_n_wrote 8 s a (w mod W64)) as (s1 & E1 & W1); [lia|lia|].
    unfold store64. rewrite E1. cbn [cbind]. rewrite (Z.mod_small w W64) in W1 by assumption.
    assert (A1 := W1). destruct A1 as (A1 & L1 & _).
    destruct (IH s1 (a + 8)) as (s2 & E2 & W2); [assumption|lia|lia|].
    rewrite E2. eexists; split; [reflexivity|]. apply (wrote_app _ s1); [exact W1|].
    rewrite le_length. exact W2.
Qed.

Lemma flat_map_le_length ws : length (flat_map (le 8) ws) = (8 * length ws)%nat.
Proof. induction ws; cbn [flat_map length]; [reflexivity|]. rewrite app_length, le_length, IHws. lia. Qed.

Lemma literal_ok s l :
  si_ok s -> Forall byte l -> Z.of_nat (length l) < 2 ^ 56 ->
  let n := Z.of_nat (length l) in
  wsize n + 1 <= sroom s ->
  exists s', compile_string s l = Ok (s', si_alloc s + 8) /\
    wrote s {| si_alloc := si_alloc s; si_limit := si_limit s'; si_mem := si_mem s' |} (si_alloc s)
      (le 8 (string_header n) ++ string_body l) /\
    si_alloc s' = si_alloc s + 8 + 8 * wsize n.
Proof.
  intros Hs Hb Hl n R. pose proof (room_bytes _ _ Hs R) as Hr. pose proof (wsize_bounds n ltac:(lia)) as Hw.
  change (2 ^ 56) with 72057594037927936 in Hl.
  destruct (encode_bytes l Hb) as [Rg Eb].
  assert (Lw : Z.of_nat (length (encode_list l)) = wsize n).
  { pose proof (body_length l) as L. rewrite <- Eb, flat_map_le_length in L. fold n in L. lia. }
  unfold compile_string. fold n. fold (wsize n).
  replace (si_alloc s + 8 - 8) with (si_alloc s) by lia.
  rewrite Z.mod_small by lia. replace (wsize n * 1024 + 252) with (string_header n) by (unfold string_header; lia).
  destruct (store_n_wrote 8 s (si_alloc s) (string_header n)) as (s1 & E1 & W1); [lia|lia|].
  unfold store64. rewrite E1. cbn [cbind]. assert (A1 := W1). destruct A1 as (A1 & L1 & _).
  destruct (store_words_wrote (encode_list l) s1 (si_alloc s + 8)) as (s2 & E2 & W2); [assumption|lia|lia|].
  rewrite E2. cbn [cbind]. eexists. split; [reflexivity|]. assert (A2 := W2). destruct A2 as (A2 & L2 & _).
  split; [|cbn [sbump si_alloc]; lia].
  rewrite Eb in W2.
  assert (W : wrote s s2 (si_alloc s) (le 8 (string_header n) ++ string_body l)).
  { apply (wrote_app _ s1); [exact W1|]. rewrite le_length. exact W2. }
  destruct W as (? & ? & ? & ?). unfold wrote. cbn [si_alloc si_limit si_mem sbump]. auto.
Qed.
