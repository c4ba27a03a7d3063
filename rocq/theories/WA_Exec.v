(** * Executing emitted instructions: memory and single steps *)
From Coq Require Import ZArith NArith List Lia Bool.
Import ListNotations.
From Verif Require Import ANF_Syntax WA_Wasm WA_Model.
Set Implicit Arguments.
Local Open Scope Z_scope.
Ltac Zify.zify_post_hook ::= idtac.

(** ** Memory *)

Definition b256 (n : nat) : Z := 256 ^ Z.of_nat n.

Lemma b256_S n : b256 (S n) = 256 * b256 n.
Proof. unfold b256. rewrite Nat2Z.inj_succ, Z.pow_succ_r by lia. reflexivity. Qed.
Lemma b256_pos n : 0 < b256 n.
Proof. unfold b256. apply Z.pow_pos_nonneg; lia. Qed.

Lemma rd_range m : forall n a, 0 <= rd n m a < b256 n.
Proof.
  induction n as [|n IH]; intro a; cbn [rd]; [unfold b256; cbn; lia|].
  rewrite b256_S. specialize (IH (a + 1)). pose proof (Z.mod_pos_bound (m a) 256 ltac:(lia)). nia.
Qed.

Lemma rd_ext m m' : forall n a, (forall x, a <= x < a + Z.of_nat n -> m x = m' x) -> rd n m a = rd n m' a.
Proof.
  induction n as [|n IH]; intros a H; cbn [rd]; [reflexivity|].
  rewrite (H a) by lia. rewrite (IH (a + 1)); [reflexivity|]. intros x Hx. apply H. lia.
Qed.

Lemma wr_other : forall n m a z x, x < a \/ a + Z.of_nat n <= x -> wr n m a z x = m x.
Proof.
  induction n as [|n IH]; intros m a z x H; cbn [wr]; [reflexivity|].
  rewrite IH by lia. destruct (Z.eqb_spec x a); [lia|reflexivity].
Qed.

Lemma rd_wr_same : forall n m a z, rd n (wr n m a z) a = z mod b256 n.
Proof.
  induction n as [|n IH]; intros m a z; cbn [rd wr].
  - unfold b256. cbn. rewrite Z.mod_1_r. reflexivity.
  - rewrite IH. rewrite wr_other by lia. rewrite Z.eqb_refl. rewrite Z.mod_mod by lia. rewrite b256_S.
    pose proof (b256_pos n). rewrite Z.rem_mul_r by lia. reflexivity.
Qed.

Lemma rd_wr_other k n m a b z : b + Z.of_nat k <= a \/ a + Z.of_nat n <= b -> rd k (wr n m a z) b = rd k m b.
Proof. intro H. apply rd_ext. intros x Hx. apply wr_other. lia. Qed.

Lemma rd_wr4 m a z : 0 <= z < 4294967296 -> rd 4 (wr 4 m a z) a = z.
Proof. intro H. rewrite rd_wr_same. change (b256 4) with 4294967296. apply Z.mod_small. exact H. Qed.
Lemma rd_wr8 m a z : 0 <= z < 18446744073709551616 -> rd 8 (wr 8 m a z) a = z.
Proof. intro H. rewrite rd_wr_same. change (b256 8) with 18446744073709551616. apply Z.mod_small. exact H. Qed.

Lemma rd4_range m a : 0 <= rd 4 m a < 4294967296.
Proof. exact (rd_range m 4 a). Qed.
Lemma rd8_range m a : 0 <= rd 8 m a < 18446744073709551616.
Proof. exact (rd_range m 8 a). Qed.

(** ** Lists *)

Lemma nthN_nth A : forall (l : list A) n, nthN l n = nth_error l (N.to_nat n).
Proof.
  induction l as [|x l IH]; intro n; cbn [nthN]; [destruct (N.to_nat n); reflexivity|].
  destruct (N.eqb_spec n 0) as [->|H]; [reflexivity|]. rewrite IH.
  replace (N.to_nat n) with (S (N.to_nat (n - 1))) by lia. reflexivity.
Qed.

Lemma replace_some A (x : A) : forall n l y, nth_error l n = Some y -> exists l', replace n x l = Some l' /\
  length l' = length l /\ nth_error l' n = Some x /\ (forall k, k <> n -> nth_error l' k = nth_error l k).
Proof.
  induction n as [|n IH]; intros [|z l] y H; try discriminate; cbn [replace].
  - exists (x :: l). repeat split. intros [|k] Hk; [contradiction|reflexivity].
  - destruct (IH l y H) as (l' & -> & L & S & O). exists (z :: l'). cbn [length]. split; [reflexivity|]. split; [lia|].
    split; [exact S|]. intros [|k] Hk; [reflexivity|]. apply O. lia.
Qed.

(** ** Steps *)

Section Steps.
  Variable grow : Z -> bool.
  Variable mp : Z.
  Variable lf : nat.
  Variable call : Z -> nat -> list wval -> store -> fres.
  Notation ex := (exec grow mp lf call).

  Lemma ex_nil l s k : ex [] l s k = Rnorm l s k.
  Proof. reflexivity. Qed.
  Lemma ex_cons i is l s k : ex (i :: is) l s k = bindr (exec1 grow mp lf call i l s k) (ex is).
  Proof. reflexivity. Qed.
  Lemma bindr_assoc r f g : bindr (bindr r f) g = bindr r (fun l s k => bindr (f l s k) g).
  Proof. destruct r; reflexivity. Qed.
  Lemma ex_app : forall a b l s k, ex (a ++ b) l s k = bindr (ex a l s k) (ex b).
  Proof.
    induction a as [|i a IH]; intros b l s k; [reflexivity|]. cbn [app]. rewrite !ex_cons, bindr_assoc.
    destruct (exec1 grow mp lf call i l s k); cbn [bindr]; auto.
  Qed.

  Lemma ex_const v is l s k : ex (Iconst v :: is) l s k = ex is l s (v :: k).
  Proof. reflexivity. Qed.
  Lemma ex_c32 z is l s k : ex (c32 z :: is) l s k = ex is l s (I32 (z mod 4294967296) :: k).
  Proof. reflexivity. Qed.
  Lemma ex_c64 z is l s k : ex (c64 z :: is) l s k = ex is l s (I64 (z mod 18446744073709551616) :: k).
  Proof. reflexivity. Qed.
  Lemma ex_lget x v is l s k : nthN l x = Some v -> ex (Ilget x :: is) l s k = ex is l s (v :: k).
  Proof. intro H. rewrite ex_cons. cbn [exec1]. rewrite H. reflexivity. Qed.
  Lemma ex_gget x v is l s k : nth_error (s_glob s) x = Some v -> ex (Igget x :: is) l s k = ex is l s (v :: k).
  Proof. intro H. rewrite ex_cons. cbn [exec1]. rewrite H. reflexivity. Qed.
  Lemma ex_gset x v w g is l s k : nth_error (s_glob s) x = Some w -> same_type v w = true ->
    replace x v (s_glob s) = Some g -> ex (Igset x :: is) l s (v :: k) = ex is l (set_glob s g) k.
  Proof. intros H T R. rewrite ex_cons. cbn [exec1]. rewrite H, T, R. reflexivity. Qed.
  Lemma ex_bin64 o x y z is l s k : wbin_eval T64 o x y = Some z ->
    ex (Ibin T64 o :: is) l s (I64 y :: I64 x :: k) = ex is l s (I64 z :: k).
  Proof. intro H. rewrite ex_cons. cbn [exec1 has]. rewrite H. reflexivity. Qed.
  Lemma ex_bin32 o x y z is l s k : wbin_eval T32 o x y = Some z ->
    ex (Ibin T32 o :: is) l s (I32 y :: I32 x :: k) = ex is l s (I32 z :: k).
  Proof. intro H. rewrite ex_cons. cbn [exec1 has]. rewrite H. reflexivity. Qed.
  Lemma ex_add32 x y is l s k : 0 <= x + y < 4294967296 ->
    ex (Ibin T32 Wadd :: is) l s (I32 y :: I32 x :: k) = ex is l s (I32 (x + y) :: k).
  Proof. intro H. apply ex_bin32. cbn [wbin_eval modulus]. rewrite Z.mod_small by exact H. reflexivity. Qed.
  Lemma ex_rel64 o x y is l s k : ex (Irel T64 o :: is) l s (I64 y :: I64 x :: k) = ex is l s (b2i (wrel_eval T64 o x y) :: k).
  Proof. reflexivity. Qed.
  Lemma ex_rel32 o x y is l s k : ex (Irel T32 o :: is) l s (I32 y :: I32 x :: k) = ex is l s (b2i (wrel_eval T32 o x y) :: k).
  Proof. reflexivity. Qed.
  Lemma ex_eqz64 x is l s k : ex (Ieqz T64 :: is) l s (I64 x :: k) = ex is l s (b2i (x =? 0) :: k).
  Proof. reflexivity. Qed.
  Lemma ex_eqz32 x is l s k : ex (Ieqz T32 :: is) l s (I32 x :: k) = ex is l s (b2i (x =? 0) :: k).
  Proof. reflexivity. Qed.
  Lemma ex_un64 o x is l s k : ex (Iun T64 o :: is) l s (I64 x :: k) = ex is l s (I64 (wun_eval T64 o x) :: k).
  Proof. reflexivity. Qed.
  Lemma ex_load32 off a is l s k : a + off + 4 <= page * s_pages s ->
    ex (Iload T32 off :: is) l s (I32 a :: k) = ex is l s (I32 (rd 4 (s_mem s) (a + off)) :: k).
  Proof. intro H. rewrite ex_cons. cbn [exec1 nbytes]. change (Z.of_nat 4) with 4. rewrite (proj2 (Z.leb_le _ _) H). reflexivity. Qed.
  Lemma ex_load64 off a is l s k : a + off + 8 <= page * s_pages s ->
    ex (Iload T64 off :: is) l s (I32 a :: k) = ex is l s (I64 (rd 8 (s_mem s) (a + off)) :: k).
  Proof. intro H. rewrite ex_cons. cbn [exec1 nbytes]. change (Z.of_nat 8) with 8. rewrite (proj2 (Z.leb_le _ _) H). reflexivity. Qed.
  Lemma ex_store32 off a z is l s k : a + off + 4 <= page * s_pages s ->
    ex (Istore T32 off :: is) l s (I32 z :: I32 a :: k) = ex is l (set_mem s (wr 4 (s_mem s) (a + off) z)) k.
  Proof. intro H. rewrite ex_cons. cbn [exec1 nbytes has]. change (Z.of_nat 4) with 4. rewrite (proj2 (Z.leb_le _ _) H). reflexivity. Qed.
  Lemma ex_store64 off a z is l s k : a + off + 8 <= page * s_pages s ->
    ex (Istore T64 off :: is) l s (I64 z :: I32 a :: k) = ex is l (set_mem s (wr 8 (s_mem s) (a + off) z)) k.
  Proof. intro H. rewrite ex_cons. cbn [exec1 nbytes has]. change (Z.of_nat 8) with 8. rewrite (proj2 (Z.leb_le _ _) H). reflexivity. Qed.
  Lemma ex_if bt a b (c : bool) is l s k : ex (Iif bt a b :: is) l s (b2i c :: k) =
    bindr (end_block (bt_len bt) k (if c then ex a l s [] else ex b l s [])) (ex is).
  Proof. rewrite ex_cons. destruct c; reflexivity. Qed.
  (** a block that ends normally with a result *)
  Lemma ex_if_norm bt a b (c : bool) is l s k l' s' k' :
    (if c then ex a l s [] else ex b l s []) = Rnorm l' s' k' -> length k' = bt_len bt ->
    ex (Iif bt a b :: is) l s (b2i c :: k) = ex is l' s' (k' ++ k).
  Proof. intros H L. rewrite ex_if, H. cbn [end_block]. rewrite L, Nat.eqb_refl. reflexivity. Qed.
  Lemma ex_lset x v w is l s k : nthN l x = Some w -> same_type v w = true ->
    exists l', replace (N.to_nat x) v l = Some l' /\ ex (Ilset x :: is) l s (v :: k) = ex is l' s k.
  Proof.
    intros H T. rewrite nthN_nth in H. destruct (replace_some v _ _ H) as (l' & R & _). exists l'. split; [exact R|].
    rewrite ex_cons. cbn [exec1]. rewrite nthN_nth, H, T, R. reflexivity.
  Qed.
End Steps.
