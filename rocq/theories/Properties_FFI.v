(** C21: the helpers C client code uses to take values apart. *)
From Coq Require Import ZArith Lia Bool List.
From Verif Require Import RT_Word RT_Values RT_Int63Proofs RT_FFI.
Import ListNotations.
Open Scope Z_scope.
Ltac Zify.zify_post_hook ::= idtac.

(** * Specification *)

(** A coq string in memory (/repo/theories/common and the representation of
    [bytestring.string]: [EmptyString] is the constant constructor 0, [String c s] a block of two
    fields whose first field is the immediate of the byte). *)
Inductive is_coq_string (m : wmem) : Z -> list Z -> Prop :=
| cs_nil : is_coq_string m 1 []
| cs_cons v c r cs :
    v mod 2 = 0 -> 0 <= c < 256 -> m v = Some (2 * c + 1) -> m (v + 8) = Some r ->
    is_coq_string m r cs -> is_coq_string m v (c :: cs).

(** A block in memory with a given header. *)
Definition has_header (m : wmem) (v h : Z) : Prop := 8 <= v < W64 /\ m (v - 8) = Some h.

(** * Proofs *)

Lemma is_block_even v : v mod 2 = 0 -> Is_block v = true.
Proof.
  unfold Is_block. intros H. change 1 with (2 ^ 1 - 1). rewrite land_mask by lia.
  change (2 ^ 1) with 2. rewrite H. reflexivity.
Qed.

Lemma length_loop m v cs : is_coq_string m v cs -> forall fuel len,
  (length cs < fuel)%nat -> 0 <= len -> len + Z.of_nat (length cs) < W64 ->
  length_of_coq_string fuel m v len = Ok (len + Z.of_nat (length cs)).
Proof.
  induction 1 as [|v c r cs E B L1 L2 _ IH]; intros fuel len F Z0 W; (destruct fuel; [cbn in F; lia|]).
  - cbn. f_equal. lia.
  - cbn [length_of_coq_string]. rewrite is_block_even by assumption. unfold load. rewrite L2. cbn [cbind].
    cbn [length] in *. rewrite Nat2Z.inj_succ in *. unfold u64. rewrite Z.mod_small by lia.
    rewrite IH by lia. f_equal. lia.
Qed.

Lemma put_ok (a : list Z) k c :
  put (map Some a ++ repeat None (S k)) (length a) c = Ok (map Some (a ++ [c]) ++ repeat None k).
Proof.
  unfold put. rewrite app_length, map_length, repeat_length.
  replace (length a <? length a + S k)%nat with true by (symmetry; apply Nat.ltb_lt; lia).
  f_equal. rewrite firstn_app, skipn_app, map_length.
  replace (length a - length a)%nat with 0%nat by lia.
  replace (S (length a) - length a)%nat with 1%nat by lia.
  rewrite firstn_all2 by (rewrite map_length; lia).
  rewrite skipn_all2 by (rewrite map_length; lia).
  cbn. rewrite map_app, <- !app_assoc. reflexivity.
Qed.

Lemma copy_loop m v cs : is_coq_string m v cs -> forall fuel a k,
  (length cs < fuel)%nat ->
  copy_coq_string fuel m v (length a) (map Some a ++ repeat None (length cs + k))
  = Ok (length (a ++ cs), map Some (a ++ cs) ++ repeat None k).
Proof.
  induction 1 as [|v c r cs E B L1 L2 _ IH]; intros fuel a k F; (destruct fuel; [cbn in F; lia|]).
  - cbn. rewrite app_nil_r. reflexivity.
  - cbn [copy_coq_string]. rewrite is_block_even by assumption. unfold load. rewrite L1, L2. cbn [cbind].
    replace (u64 (2 * c + 1) / 2 mod 256) with c.
    2:{ unfold u64. rewrite (Z.mod_small (2 * c + 1)) by lia.
        replace (2 * c + 1) with (1 + c * 2) by lia. rewrite Z.div_add by lia.
        change (1 / 2) with 0. rewrite Z.mod_small by lia. lia. }
    cbn [length Nat.add]. rewrite put_ok. cbn [cbind length] in *.
    replace (S (length a)) with (length (a ++ [c])) by (rewrite app_length; cbn; lia).
    rewrite IH by lia. rewrite <- app_assoc. reflexivity.
Qed.

(** * C21 *)

(** The length helper returns the number of characters, for every string of fewer than 2^64. *)
Theorem C21_length m v cs fuel :
  is_coq_string m v cs -> Z.of_nat (length cs) < W64 -> (length cs < fuel)%nat ->
  length_of_coq_string fuel m v 0 = Ok (Z.of_nat (length cs)).
Proof. intros. rewrite (length_loop m v cs) by (assumption || lia). reflexivity. Qed.

(** The copy is exactly the characters and a terminating zero, in a buffer just large enough;
    nothing outside is written. *)
Theorem C21_string_partial m v cs fuel :
  is_coq_string m v cs -> Z.of_nat (length cs) < W64 - 1 -> (length cs < fuel)%nat ->
  string_of_coq_string fuel true m v = Ok (map Some (cs ++ [0])).
Proof.
  intros H L F. unfold string_of_coq_string. rewrite (C21_length m v cs) by (assumption || lia).
  cbn [cbind]. unfold u64. rewrite Z.mod_small by lia.
  replace (Z.to_nat (Z.of_nat (length cs) + 1)) with (length cs + 1)%nat by lia.
  pose proof (copy_loop m v cs H fuel [] 1 F) as C. cbn [map app length] in C. rewrite C.
  cbn [cbind fst snd]. rewrite put_ok. cbn [repeat]. rewrite app_nil_r. reflexivity.
Qed.

(** A failed [malloc] is reported and then written through. *)
Theorem C21_string_malloc_refuted :
  exists m v cs, is_coq_string m v cs /\
    forall fuel, (length cs < fuel)%nat -> string_of_coq_string fuel false m v = UB.
Proof.
  exists (fun _ => None), 1, []. split; [constructor|].
  intros [|fuel] F; [cbn in F; lia|]. reflexivity.
Qed.

Definition example_mem : wmem := fun a =>
  if a =? 1000 then Some 145 else if a =? 1008 then Some 2000
  else if a =? 2000 then Some 211 else if a =? 2008 then Some 1 else None.

(** "Hi" *)
Example C21_string_ex :
  is_coq_string example_mem 1000 [72; 105] /\
  string_of_coq_string 3 true example_mem 1000 = Ok [Some 72; Some 105; Some 0].
Proof.
  split.
  - apply cs_cons with (r := 2000); [reflexivity|lia|reflexivity|reflexivity|].
    apply cs_cons with (r := 1); [reflexivity|lia|reflexivity|reflexivity|]. constructor.
  - vm_compute. reflexivity.
Qed.

Lemma c_text_ok cs : ~ In 0 cs -> forall l, c_text (map Some (cs ++ 0 :: l)) = Ok cs.
Proof.
  induction cs as [|c cs IH]; intros N l; cbn; [reflexivity|].
  destruct (Z.eqb_spec c 0) as [->|]; [destruct N; left; reflexivity|].
  rewrite IH by (intros X; apply N; right; exact X). reflexivity.
Qed.

(** The message functions print the string (when it has no zero byte) and return the unit value,
    the error function exits with status 1. *)
Theorem C21_messages_partial m v cs fuel :
  is_coq_string m v cs -> Z.of_nat (length cs) < W64 - 1 -> (length cs < fuel)%nat -> ~ In 0 cs ->
  rocq_msg_info fuel true m v = Ok (cs ++ [10], Returned 1) /\
  rocq_msg_debug fuel true m v = Ok (cs, Returned 1) /\
  rocq_msg_notice fuel true m v = Ok (cs, Returned 1) /\
  rocq_user_error fuel true m v = Ok (cs, Exited 1).
Proof.
  intros H L F N.
  unfold rocq_msg_info, rocq_msg_debug, rocq_msg_notice, rocq_user_error, rocq_msg.
  rewrite (C21_string_partial m v cs) by assumption. cbn [cbind].
  rewrite c_text_ok by assumption. cbn [cbind]. auto.
Qed.

(** A string with a zero byte is cut off. *)
Theorem C21_messages_refuted :
  exists m v cs, is_coq_string m v cs /\ rocq_msg_notice 5 true m v <> Ok (cs, Returned 1).
Proof.
  exists (fun a => if a =? 16 then Some 1 else if a =? 24 then Some 1 else None), 16, [0]. split.
  - apply cs_cons with (r := 1); [reflexivity|lia|reflexivity|reflexivity|constructor].
  - vm_compute. discriminate.
Qed.

Example C21_messages_ex : rocq_msg_info 3 true example_mem 1000 = Ok ([72; 105; 10], Returned 1).
Proof. vm_compute. reflexivity. Qed.

(** The ordinal of a block is its tag, for every arity and ordinal that fit the header. *)
Theorem C21_boxed m v arity ord :
  0 <= ord < 256 -> has_header m v (arity * 1024 + ord) ->
  get_boxed_ordinal m v = Ok ord.
Proof.
  intros O ([V1 V2] & H). unfold get_boxed_ordinal.
  replace (u64 (v + 8 * 18446744073709551615)) with (v - 8).
  2:{ unfold u64. replace (v + 8 * 18446744073709551615) with ((v - 8) + 8 * W64) by lia.
      rewrite Z.mod_add by lia. rewrite Z.mod_small; lia. }
  unfold load. rewrite H. cbn [cbind]. f_equal. change 255 with (2 ^ 8 - 1). rewrite land_mask by lia.
  change (2 ^ 8) with 256.
  replace (arity * 1024 + ord) with (ord + (arity * 4) * 256) by lia.
  rewrite Z.mod_add by lia. apply Z.mod_small; lia.
Qed.

Example C21_boxed_ex :
  has_header (fun a => if a =? 992 then Some 2051 else None) 1000 (2 * 1024 + 3) /\
  get_boxed_ordinal (fun a => if a =? 992 then Some 2051 else None) 1000 = Ok 3.
Proof. split; [split; [lia|reflexivity]|vm_compute; reflexivity]. Qed.

(** The ordinal of a constant constructor is never recovered: the argument is tagged once more
    instead of being untagged.  Neither the ordinal nor the immediate of the ordinal comes back. *)
Theorem C21_unboxed_always ord :
  0 <= ord < 2 ^ 62 ->
  get_unboxed_ordinal (2 * ord + 1) = 4 * ord + 3 /\
  get_unboxed_ordinal (2 * ord + 1) <> ord /\ get_unboxed_ordinal (2 * ord + 1) <> 2 * ord + 1.
Proof.
  change (2 ^ 62) with 4611686018427387904. intros O.
  assert (E : get_unboxed_ordinal (2 * ord + 1) = 4 * ord + 3).
  { unfold get_unboxed_ordinal, Val_long, u64.
    rewrite (Z.mod_small (2 * ord + 1)) by lia.
    rewrite (Z.mod_small ((2 * ord + 1) * 2)) by lia. rewrite Z.mod_small; lia. }
  rewrite E. repeat split; lia.
Qed.

Theorem C21_unboxed_refuted :
  exists ord, 0 <= ord < 2 ^ 62 /\
    get_unboxed_ordinal (2 * ord + 1) <> ord /\ get_unboxed_ordinal (2 * ord + 1) <> 2 * ord + 1.
Proof. exists 1. split; [lia|]. split; vm_compute; discriminate. Qed.

Example C21_unboxed_ex : get_unboxed_ordinal 1 = 3.
Proof. vm_compute. reflexivity. Qed.

Print Assumptions C21_length.
Print Assumptions C21_string_partial.
Print Assumptions C21_string_malloc_refuted.
Print Assumptions C21_messages_partial.
Print Assumptions C21_messages_refuted.
Print Assumptions C21_boxed.
Print Assumptions C21_unboxed_always.
Print Assumptions C21_unboxed_refuted.
