(** * The primitive operations compute Rocq's Uint63 operations *)
From Coq Require Import ZArith NArith List Lia Bool.
Import ListNotations.
From Verif Require Import ANF_Syntax RT_Int63Spec RT_Int63Proofs WA_Wasm WA_Model WA_Spec WA_Exec WA_Arith.
Set Implicit Arguments.
Local Open Scope Z_scope.
Ltac Zify.zify_post_hook ::= idtac.

(** a store with named globals *)
Definition st (gmp cap res oom t1 t2 t3 t4 : Z) (m : bytes) (p : Z) : store :=
  {| s_glob := [I32 gmp; I32 cap; I32 res; I32 oom; I64 t1; I64 t2; I64 t3; I64 t4]; s_mem := m; s_pages := p |}.

(** local [x] points to the integer [z] below [hi] *)
Definition opnd (l : list wval) (m : bytes) (hi : Z) (x : N) (z : Z) : Prop :=
  exists p, nthN l x = Some (I32 p) /\ int_at m hi z p.

Section Prim.
  Variable grow : Z -> bool.
  Variable mp : Z.
  Variable lf : nat.
  Variable call : Z -> nat -> list wval -> store -> fres.
  Notation ex := (exec grow mp lf call).

  (** ** Steps on such stores *)

  Lemma gget0 is l g c r o a b d e m p k : ex (Igget 0 :: is) l (st g c r o a b d e m p) k = ex is l (st g c r o a b d e m p) (I32 g :: k).
  Proof. reflexivity. Qed.
  Lemma gget1 is l g c r o a b d e m p k : ex (Igget 1 :: is) l (st g c r o a b d e m p) k = ex is l (st g c r o a b d e m p) (I32 c :: k).
  Proof. reflexivity. Qed.
  Lemma gget2 is l g c r o a b d e m p k : ex (Igget 2 :: is) l (st g c r o a b d e m p) k = ex is l (st g c r o a b d e m p) (I32 r :: k).
  Proof. reflexivity. Qed.
  Lemma gget3 is l g c r o a b d e m p k : ex (Igget 3 :: is) l (st g c r o a b d e m p) k = ex is l (st g c r o a b d e m p) (I32 o :: k).
  Proof. reflexivity. Qed.
  Lemma gget4 is l g c r o a b d e m p k : ex (Igget 4 :: is) l (st g c r o a b d e m p) k = ex is l (st g c r o a b d e m p) (I64 a :: k).
  Proof. reflexivity. Qed.
  Lemma gget5 is l g c r o a b d e m p k : ex (Igget 5 :: is) l (st g c r o a b d e m p) k = ex is l (st g c r o a b d e m p) (I64 b :: k).
  Proof. reflexivity. Qed.
  Lemma gget6 is l g c r o a b d e m p k : ex (Igget 6 :: is) l (st g c r o a b d e m p) k = ex is l (st g c r o a b d e m p) (I64 d :: k).
  Proof. reflexivity. Qed.
  Lemma gget7 is l g c r o a b d e m p k : ex (Igget 7 :: is) l (st g c r o a b d e m p) k = ex is l (st g c r o a b d e m p) (I64 e :: k).
  Proof. reflexivity. Qed.
  Lemma gset0 is l g c r o a b d e m p k z : ex (Igset 0 :: is) l (st g c r o a b d e m p) (I32 z :: k) = ex is l (st z c r o a b d e m p) k.
  Proof. reflexivity. Qed.
  Lemma gset1 is l g c r o a b d e m p k z : ex (Igset 1 :: is) l (st g c r o a b d e m p) (I32 z :: k) = ex is l (st g z r o a b d e m p) k.
  Proof. reflexivity. Qed.
  Lemma gset2 is l g c r o a b d e m p k z : ex (Igset 2 :: is) l (st g c r o a b d e m p) (I32 z :: k) = ex is l (st g c z o a b d e m p) k.
  Proof. reflexivity. Qed.
  Lemma gset3 is l g c r o a b d e m p k z : ex (Igset 3 :: is) l (st g c r o a b d e m p) (I32 z :: k) = ex is l (st g c r z a b d e m p) k.
  Proof. reflexivity. Qed.
  Lemma gset4 is l g c r o a b d e m p k z : ex (Igset 4 :: is) l (st g c r o a b d e m p) (I64 z :: k) = ex is l (st g c r o z b d e m p) k.
  Proof. reflexivity. Qed.
  Lemma gset5 is l g c r o a b d e m p k z : ex (Igset 5 :: is) l (st g c r o a b d e m p) (I64 z :: k) = ex is l (st g c r o a z d e m p) k.
  Proof. reflexivity. Qed.
  Lemma gset6 is l g c r o a b d e m p k z : ex (Igset 6 :: is) l (st g c r o a b d e m p) (I64 z :: k) = ex is l (st g c r o a b z e m p) k.
  Proof. reflexivity. Qed.
  Lemma gset7 is l g c r o a b d e m p k z : ex (Igset 7 :: is) l (st g c r o a b d e m p) (I64 z :: k) = ex is l (st g c r o a b d z m p) k.
  Proof. reflexivity. Qed.
  Lemma sto64 off x z is l g c r o a b d e m p k : x + off + 8 <= page * p ->
    ex (Istore T64 off :: is) l (st g c r o a b d e m p) (I64 z :: I32 x :: k) = ex is l (st g c r o a b d e (wr 8 m (x + off) z) p) k.
  Proof. intro H. rewrite ex_store64 by exact H. reflexivity. Qed.
  Lemma sto32 off x z is l g c r o a b d e m p k : x + off + 4 <= page * p ->
    ex (Istore T32 off :: is) l (st g c r o a b d e m p) (I32 z :: I32 x :: k) = ex is l (st g c r o a b d e (wr 4 m (x + off) z) p) k.
  Proof. intro H. rewrite ex_store32 by exact H. reflexivity. Qed.
  Lemma k32 z is l s k : 0 <= z < 4294967296 -> ex (c32 z :: is) l s k = ex is l s (I32 z :: k).
  Proof. intro H. rewrite ex_c32, Z.mod_small by exact H. reflexivity. Qed.
  Lemma k64 z is l s k : 0 <= z < 18446744073709551616 -> ex (c64 z :: is) l s k = ex is l s (I64 z :: k).
  Proof. intro H. rewrite ex_c64, Z.mod_small by exact H. reflexivity. Qed.
  Lemma ldl x z hi is l g c r o a b d e m p k : opnd l m hi x z -> hi <= page * p ->
    ex (load_local_i64 x ++ is) l (st g c r o a b d e m p) k = ex is l (st g c r o a b d e m p) (I64 z :: k).
  Proof.
    intros (q & G & H1 & H2 & _ & H3) L. unfold load_local_i64. cbn [app]. rewrite (@ex_lget _ _ _ _ _ _ _ _ _ _ G).
    rewrite ex_load64 by (cbn [st s_pages]; lia). cbn [st s_mem]. rewrite Z.add_0_r, H3. reflexivity.
  Qed.
  Lemma bump n is l g c r o a b d e m p k : 0 <= n -> 0 <= g -> g + n < 4294967296 ->
    ex (increment_glob_mem_ptr n ++ is) l (st g c r o a b d e m p) k = ex is l (st (g + n) c r o a b d e m p) k.
  Proof.
    intros H1 H2 H3. unfold increment_glob_mem_ptr. cbn [app]. rewrite gget0, k32 by lia. rewrite ex_add32 by lia. apply gset0.
  Qed.
  Lemma ex_split is l s k : ex is l s k = ex (is ++ []) l s k.
  Proof. rewrite app_nil_r. reflexivity. Qed.
  Lemma add64 x y is l s k : 0 <= x + y < 18446744073709551616 -> ex (Ibin T64 Wadd :: is) l s (I64 y :: I64 x :: k) = ex is l s (I64 (x + y) :: k).
  Proof. intro H. apply ex_bin64. cbn [wbin_eval modulus]. rewrite Z.mod_small by exact H. reflexivity. Qed.
  Lemma mul64 x y is l s k : 0 <= x * y < 18446744073709551616 -> ex (Ibin T64 Wmul :: is) l s (I64 y :: I64 x :: k) = ex is l s (I64 (x * y) :: k).
  Proof. intro H. apply ex_bin64. cbn [wbin_eval modulus]. rewrite Z.mod_small by exact H. reflexivity. Qed.
  Lemma lo32 z is l s k : ex (low32 ++ is) l s (I64 z :: k) = ex is l s (I64 (z mod 4294967296) :: k).
  Proof. unfold low32. cbn [app]. rewrite k64 by lia. apply ex_bin64. cbn [wbin_eval]. rewrite low32_mod. reflexivity. Qed.
  Lemma hi32 z is l s k : ex (high32 ++ is) l s (I64 z :: k) = ex is l s (I64 (z / 4294967296) :: k).
  Proof. unfold high32. cbn [app]. rewrite k64 by lia. apply ex_bin64. cbn [wbin_eval width]. change (32 mod 64) with 32. rewrite high32_div. reflexivity. Qed.

  (** ** The state before a primitive *)

  Variable l : list wval.
  Variables gmp cap res oom t1 t2 t3 t4 : Z.
  Variable m : bytes.
  Variable p : Z.
  Hypothesis G0 : 0 <= gmp.
  Hypothesis G4 : gmp mod 4 = 0.
  Hypothesis Room : gmp + 28 <= page * p.
  Hypothesis Pages : p <= 32767.
  Notation S0 := (st gmp cap res oom t1 t2 t3 t4 m p).

  (** what a primitive leaves: a pointer on the stack, memory below the old
      memory pointer and the result and out-of-memory globals unchanged *)
  Definition prim_post (k : list wval) (r : presult) (o : wres) : Prop :=
    exists w gmp' cap' a b d e m',
      o = Rnorm l (st gmp' cap' res oom a b d e m' p) (I32 w :: k) /\
      gmp <= gmp' <= gmp + 28 /\ gmp' mod 4 = 0 /\ (forall x, x < gmp -> m' x = m x) /\
      0 <= w < 4294967296 /\ res_at m' gmp' r w.

  Lemma gmp_lt : gmp + 28 < 4294967296.
  Proof. unfold page in Room. lia. Qed.

  Lemma mod4_2 z : z mod 4 = 0 -> z mod 2 = 0.
  Proof. intro H. dlia. Qed.

  Lemma stored k z a b d e c : u63 z -> prim_post k (RInt z) (Rnorm l (st (gmp + 8) c res oom a b d e (wr 8 m (gmp + 0) z) p) (I32 gmp :: k)).
  Proof.
    intro Hz. pose proof gmp_lt as GL. exists gmp, (gmp + 8), c, a, b, d, e, (wr 8 m (gmp + 0) z). split; [reflexivity|].
    split; [lia|]. split; [dlia|]. split; [intros x Hx; apply wr_other; lia|]. split; [lia|].
    cbn [res_at]. split; [lia|]. split; [lia|]. split; [exact Hz|].
    rewrite Z.add_0_r. apply rd_wr8. unfold u63 in Hz. lia.
  Qed.

  (** the common ending: store, push the address, move the pointer *)
  Lemma store_end k z : u63 z -> prim_post k (RInt z)
    (ex (Istore T64 0 :: Igget 0 :: increment_glob_mem_ptr 8) l S0 (I64 z :: I32 gmp :: k)).
  Proof.
    intro Hz. pose proof gmp_lt as GL. rewrite sto64 by lia. rewrite gget0.
    rewrite (ex_split (increment_glob_mem_ptr 8)). rewrite bump by lia. rewrite ex_nil. apply stored. exact Hz.
  Qed.

  Lemma u63_mod z : u63 (z mod wB).
  Proof. unfold u63. apply Z.mod_pos_bound. lia. Qed.

  Variables x y : N.
  Variables vx vy : Z.
  Hypothesis Ox : opnd l m gmp x vx.
  Hypothesis Oy : opnd l m gmp y vy.

  Lemma Ux : u63 vx. Proof. destruct Ox as (q & _ & _ & _ & H & _). exact H. Qed.
  Lemma Uy : u63 vy. Proof. destruct Oy as (q & _ & _ & _ & H & _). exact H. Qed.
  Lemma Hi : gmp <= page * p. Proof. lia. Qed.

  Lemma ldlx is c a b d e k : ex (load_local_i64 x ++ is) l (st gmp c res oom a b d e m p) k = ex is l (st gmp c res oom a b d e m p) (I64 vx :: k).
  Proof. eapply ldl; [exact Ox|exact Hi]. Qed.
  Lemma ldly is c a b d e k : ex (load_local_i64 y ++ is) l (st gmp c res oom a b d e m p) k = ex is l (st gmp c res oom a b d e m p) (I64 vy :: k).
  Proof. eapply ldl; [exact Oy|exact Hi]. Qed.
  Lemma ldx' is c a b d e k : ex (Ilget x :: Iload T64 0 :: is) l (st gmp c res oom a b d e m p) k = ex is l (st gmp c res oom a b d e m p) (I64 vx :: k).
  Proof. exact (ldlx is c a b d e k). Qed.
  Lemma ldy' is c a b d e k : ex (Ilget y :: Iload T64 0 :: is) l (st gmp c res oom a b d e m p) k = ex is l (st gmp c res oom a b d e m p) (I64 vy :: k).
  Proof. exact (ldly is c a b d e k). Qed.

  Lemma arith_masked op z k :
    (forall a b, wbin_eval T64 op a b = Some ((z a b) mod 18446744073709551616)) ->
    prim_post k (RInt (z vx vy mod wB)) (ex (apply_binop_and_store_i64 op x y true) l S0 k).
  Proof.
    intro H. unfold apply_binop_and_store_i64. rewrite gget0. rewrite ldlx.
    rewrite ldly. cbn [app]. rewrite (@ex_bin64 grow mp lf call op vx vy _ _ _ _ _ (H vx vy)).
    unfold bitmask_instrs. cbn [app]. rewrite k64 by (unfold maxuint63; lia).
    rewrite (@ex_bin64 _ _ _ _ Wand _ _ (z vx vy mod wB)); [|cbn [wbin_eval]; rewrite land_mask; reflexivity].
    apply store_end. apply u63_mod.
  Qed.

  Lemma arith_plain op z k : wbin_eval T64 op vx vy = Some z -> u63 z ->
    prim_post k (RInt z) (ex (apply_binop_and_store_i64 op x y false) l S0 k).
  Proof.
    intros H Hz. unfold apply_binop_and_store_i64. rewrite gget0. rewrite ldlx.
    rewrite ldly. cbn [app]. rewrite (@ex_bin64 grow mp lf call op vx vy _ _ _ _ _ H).
    apply store_end. exact Hz.
  Qed.

  Lemma u63_div a b : u63 a -> 0 < b -> u63 (a / b).
  Proof.
    intros Ha Hb. unfold u63 in *. split; [apply Z.div_pos; lia|].
    apply Z.le_lt_trans with a; [|lia]. apply Z.div_le_upper_bound; nia.
  Qed.

  (** after an [Iif] that leaves one i64 *)
  Lemma if64 a b (c : bool) is k z :
    (c = true -> ex a l S0 [] = Rnorm l S0 [I64 z]) -> (c = false -> ex b l S0 [] = Rnorm l S0 [I64 z]) ->
    ex (Iif (Some T64) a b :: is) l S0 (b2i c :: k) = ex is l S0 (I64 z :: k).
  Proof. intros H1 H2. rewrite (@ex_if_norm _ _ _ _ _ _ _ _ _ _ _ _ l S0 [I64 z]); [reflexivity|destruct c; auto|reflexivity]. Qed.

  Lemma div_ok k : prim_post k (RInt (spec_div vx vy)) (ex (div_instrs x y) l S0 k).
  Proof.
    pose proof Ux as Hx. pose proof Uy as Hy. unfold u63 in Hx, Hy.
    unfold div_instrs. rewrite gget0. rewrite ldly. cbn [app]. rewrite ex_eqz64.
    rewrite (@if64 _ _ _ _ _ (spec_div vx vy)).
    - apply store_end. unfold spec_div. destruct (Z.eqb_spec vy 0); [unfold u63; lia|]. apply u63_div; [exact Ux|lia].
    - intro E. unfold spec_div. rewrite E. rewrite k64 by lia. reflexivity.
    - intro E. unfold spec_div. rewrite E.
      rewrite ldlx, ldly.
      apply ex_bin64. cbn [wbin_eval]. rewrite E. reflexivity.
  Qed.

  Lemma mod_u63 a b : u63 a -> u63 b -> b <> 0 -> u63 (a mod b).
  Proof. intros Ha Hb N. unfold u63 in *. pose proof (Z.mod_pos_bound a b ltac:(lia)). lia. Qed.

  Lemma mod_ok k : prim_post k (RInt (spec_mod vx vy)) (ex (mod_instrs x y) l S0 k).
  Proof.
    pose proof Ux as Hx. pose proof Uy as Hy.
    unfold mod_instrs. rewrite gget0. rewrite ldly. cbn [app]. rewrite ex_eqz64.
    rewrite (@if64 _ _ _ _ _ (spec_mod vx vy)).
    - apply store_end. unfold spec_mod. destruct (Z.eqb_spec vy 0); [exact Hx|]. apply mod_u63; assumption.
    - intro E. unfold spec_mod. rewrite E. rewrite ex_split. rewrite ldlx. reflexivity.
    - intro E. unfold spec_mod. rewrite E.
      rewrite ldlx, ldly.
      apply ex_bin64. cbn [wbin_eval]. rewrite E. reflexivity.
  Qed.

  Lemma lsl_ok k : prim_post k (RInt (spec_lsl vx vy)) (ex (shift_instrs x y Wshl true) l S0 k).
  Proof.
    pose proof Ux as Hx. pose proof Uy as Hy. unfold u63 in Hx, Hy.
    unfold shift_instrs. rewrite gget0. rewrite ldly. cbn [app].
    rewrite k64 by lia. rewrite ex_rel64. cbn [wrel_eval].
    rewrite (@if64 _ _ _ _ _ (spec_lsl vx vy)).
    - apply store_end. apply u63_mod.
    - intro E. apply Z.ltb_lt in E.
      rewrite ldlx, ldly.
      erewrite ex_bin64 by reflexivity. unfold bitmask_instrs. rewrite k64 by (unfold maxuint63; lia).
      apply ex_bin64. cbn [wbin_eval modulus width]. f_equal. apply shl_mask; lia.
    - intro E. apply Z.ltb_ge in E. rewrite k64 by lia. rewrite lsl_big by exact E. reflexivity.
  Qed.

  Lemma lsr_ok k : prim_post k (RInt (spec_lsr vx vy)) (ex (shift_instrs x y Wshru false) l S0 k).
  Proof.
    pose proof Ux as Hx. pose proof Uy as Hy. pose proof Ux as Hx'. unfold u63 in Hx, Hy.
    unfold shift_instrs. rewrite gget0. rewrite ldly. cbn [app].
    rewrite k64 by lia. rewrite ex_rel64. cbn [wrel_eval].
    rewrite (@if64 _ _ _ _ _ (spec_lsr vx vy)).
    - apply store_end. unfold spec_lsr. apply u63_div; [exact Hx'|]. apply Z.pow_pos_nonneg; lia.
    - intro E. apply Z.ltb_lt in E.
      rewrite ldlx, ldly.
      apply ex_bin64. cbn [wbin_eval width]. f_equal. apply shr_small; lia.
    - intro E. apply Z.ltb_ge in E. rewrite k64 by lia. rewrite lsr_big by assumption. reflexivity.
  Qed.

  (** comparisons do not allocate *)
  Lemma nothing k r w : (match r with RBool _ | RCmp _ => True | _ => False end) -> 0 <= w < 4294967296 -> res_at m gmp r w ->
    prim_post k r (Rnorm l S0 (I32 w :: k)).
  Proof. intros _ Hw H. exists w, gmp, cap, t1, t2, t3, t4, m. split; [reflexivity|]. repeat split; auto; lia. Qed.

  Lemma cmp_ok op k : prim_post k (RBool (wrel_eval T64 op vx vy)) (ex (make_boolean_valued_comparison x y op) l S0 k).
  Proof.
    unfold make_boolean_valued_comparison.
    rewrite ldlx, ldly.
    rewrite ex_rel64. set (c := wrel_eval T64 op vx vy).
    rewrite (@ex_if_norm _ _ _ _ _ _ _ _ _ _ _ _ l S0 [I32 (if c then 3 else 1)]); [|destruct c; reflexivity|reflexivity].
    rewrite ex_nil. apply nothing; [exact Logic.I|destruct c; lia|reflexivity].
  Qed.

  Lemma compare_ok k : prim_post k (RCmp (vx ?= vy)) (ex (compare_instrs x y) l S0 k).
  Proof.
    unfold compare_instrs.
    replace (2 * Lt_ord + 1) with 3 by reflexivity. replace (2 * Eq_ord + 1) with 1 by reflexivity. replace (2 * Gt_ord + 1) with 5 by reflexivity.
    rewrite ldx', ldy'.
    rewrite ex_rel64. cbn [wrel_eval].
    rewrite (@ex_if_norm _ _ _ _ _ _ _ _ _ _ _ _ l S0 [I32 (match vx ?= vy with Eq => 1 | Lt => 3 | Gt => 5 end)]); [| |reflexivity].
    - rewrite ex_nil. apply nothing; [exact Logic.I|destruct (vx ?= vy); lia|reflexivity].
    - destruct (Z.ltb_spec vx vy) as [L|L].
      + replace (vx ?= vy) with Lt by (symmetry; apply Z.compare_lt_iff; exact L). reflexivity.
      + rewrite ldlx, ldly. rewrite ex_rel64. cbn [wrel_eval].
        rewrite (@ex_if_norm _ _ _ _ _ _ _ _ _ _ _ _ l S0 [I32 (match vx ?= vy with Eq => 1 | Lt => 3 | Gt => 5 end)]); [reflexivity| |reflexivity].
        destruct (Z.eqb_spec vx vy) as [E|E].
        * rewrite E, Z.compare_refl. reflexivity.
        * replace (vx ?= vy) with Gt by (symmetry; apply Z.compare_gt_iff; lia). reflexivity.
  Qed.

  (** ** Carries and pairs *)

  Ltac mem4 := repeat (rewrite rd_wr_other by lia).

  Lemma make_carry_ok (ord : Z) (c : bool) z b d e : u63 z -> ord = (if c then 1 else 0) ->
    prim_post [] (RCarry (c, z)) (ex (make_carry ord 4) l (st gmp cap res oom z b d e m p) []).
  Proof.
    intros Hz Eo. pose proof gmp_lt as GL. unfold make_carry. cbn [app].
    assert (Ho : 0 <= ord < 4294967296) by (destruct c; lia).
    rewrite gget0, gget4, sto64 by lia. rewrite gget0, k32, sto32 by lia. rewrite !gget0, sto32 by lia.
    rewrite gget0, k32, ex_add32 by lia.
    rewrite (ex_split (increment_glob_mem_ptr 16)). rewrite bump by lia. rewrite ex_nil.
    eexists (gmp + 8), (gmp + 16), cap, z, b, d, e, _. split; [reflexivity|].
    split; [lia|]. split; [dlia|]. split; [intros a Ha; rewrite !wr_other by lia; reflexivity|]. split; [lia|].
    rewrite !Z.add_0_r. cbn [res_at]. split; [lia|]. split; [clear - G4; dlia|]. split; [lia|].
    split; [mem4; rewrite rd_wr4 by lia; exact Eo|].
    replace (gmp + 8 + 4) with (gmp + 12) by lia. rewrite rd_wr4 by lia.
    split; [lia|]. split; [lia|]. split; [exact Hz|]. rewrite !(@rd_wr_other 8) by lia. apply rd_wr8. unfold u63 in Hz. lia.
  Qed.

  (** after an [Iif] with one i32 result, last in the sequence *)
  Lemma if32 a b (c : bool) k r z u v w :
    (c = true -> prim_post [] r (ex a l (st gmp cap res oom z u v w m p) [])) ->
    (c = false -> prim_post [] r (ex b l (st gmp cap res oom z u v w m p) [])) ->
    prim_post k r (ex [Iif (Some T32) a b] l (st gmp cap res oom z u v w m p) (b2i c :: k)).
  Proof.
    intros H1 H2.
    assert (H : prim_post [] r (if c then ex a l (st gmp cap res oom z u v w m p) [] else ex b l (st gmp cap res oom z u v w m p) [])).
    { destruct c; auto. }
    destruct H as (q & g' & c' & a' & b' & d' & e' & m' & E & R). erewrite ex_if_norm; [|exact E|reflexivity].
    cbn [app]. rewrite ex_nil. exists q, g', c', a', b', d', e', m'. split; [reflexivity|exact R].
  Qed.

  Lemma addc_ok k : prim_post k (RCarry (spec_addc vx vy)) (ex (apply_add_carry_operation x y false) l S0 k).
  Proof.
    pose proof Ux as Hx. pose proof Uy as Hy. unfold u63 in Hx, Hy.
    unfold apply_add_carry_operation, bitmask_instrs.
    rewrite ldlx, ldly. cbn [app].
    erewrite ex_bin64 by reflexivity. rewrite k64 by (unfold maxuint63; lia).
    rewrite (@ex_bin64 _ _ _ _ Wand _ _ ((vx + vy) mod wB)); [|cbn [wbin_eval modulus]; rewrite land_mask; reflexivity].
    rewrite gset4, gget4. rewrite ldlx. rewrite ex_rel64. cbn [wrel_eval].
    unfold spec_addc. apply if32; intro E.
    - replace (wB <=? vx + vy) with true; [apply make_carry_ok; [apply u63_mod|reflexivity]|].
      symmetry. apply Z.ltb_lt in E. apply Z.leb_le. clear - E Hx Hy. dlia.
    - replace (wB <=? vx + vy) with false; [apply make_carry_ok; [apply u63_mod|reflexivity]|].
      symmetry. apply Z.ltb_ge in E. apply Z.leb_gt. clear - E Hx Hy. dlia.
  Qed.

  Lemma addcarryc_ok k : prim_post k (RCarry (spec_addcarryc vx vy)) (ex (apply_add_carry_operation x y true) l S0 k).
  Proof.
    pose proof Ux as Hx. pose proof Uy as Hy. unfold u63 in Hx, Hy.
    unfold apply_add_carry_operation, bitmask_instrs.
    rewrite ldlx, ldly. cbn [app].
    rewrite add64 by lia. rewrite k64 by lia. erewrite ex_bin64 by reflexivity. rewrite k64 by (unfold maxuint63; lia).
    rewrite (@ex_bin64 _ _ _ _ Wand _ _ ((vx + vy + 1) mod wB)); [|cbn [wbin_eval modulus]; rewrite land_mask; reflexivity].
    rewrite gset4, gget4. rewrite ldlx. rewrite ex_rel64. cbn [wrel_eval].
    unfold spec_addcarryc. apply if32; intro E.
    - replace (wB <=? vx + vy + 1) with true; [apply make_carry_ok; [apply u63_mod|reflexivity]|].
      symmetry. apply Z.leb_le in E. apply Z.leb_le. clear - E Hx Hy. dlia.
    - replace (wB <=? vx + vy + 1) with false; [apply make_carry_ok; [apply u63_mod|reflexivity]|].
      symmetry. apply Z.leb_gt in E. apply Z.leb_gt. clear - E Hx Hy. dlia.
  Qed.

  Lemma subc_ok k : prim_post k (RCarry (spec_subc vx vy)) (ex (apply_sub_carry_operation x y false) l S0 k).
  Proof.
    pose proof Ux as Hx. pose proof Uy as Hy. unfold u63 in Hx, Hy.
    unfold apply_sub_carry_operation, bitmask_instrs.
    rewrite ldlx, ldly. cbn [app].
    erewrite ex_bin64 by reflexivity. rewrite k64 by (unfold maxuint63; lia).
    rewrite (@ex_bin64 _ _ _ _ Wand _ _ ((vx - vy) mod wB)); [|cbn [wbin_eval modulus]; rewrite land_mask; reflexivity].
    rewrite gset4. rewrite ldly, ldlx. rewrite ex_rel64. cbn [wrel_eval].
    unfold spec_subc. apply if32; intro E.
    - replace (vx - vy <? 0) with false; [apply make_carry_ok; [apply u63_mod|reflexivity]|].
      symmetry. apply Z.leb_le in E. apply Z.ltb_ge. lia.
    - replace (vx - vy <? 0) with true; [apply make_carry_ok; [apply u63_mod|reflexivity]|].
      symmetry. apply Z.leb_gt in E. apply Z.ltb_lt. lia.
  Qed.

  Lemma subcarryc_ok k : prim_post k (RCarry (spec_subcarryc vx vy)) (ex (apply_sub_carry_operation x y true) l S0 k).
  Proof.
    pose proof Ux as Hx. pose proof Uy as Hy. unfold u63 in Hx, Hy.
    unfold apply_sub_carry_operation, bitmask_instrs.
    rewrite ldlx, ldly. cbn [app].
    erewrite ex_bin64 by reflexivity. rewrite k64 by lia. erewrite ex_bin64 by reflexivity. rewrite k64 by (unfold maxuint63; lia).
    rewrite (@ex_bin64 _ _ _ _ Wand _ _ ((vx - vy - 1) mod wB)).
    2: { cbn [wbin_eval modulus]. rewrite Zminus_mod_idemp_l. rewrite land_mask. reflexivity. }
    rewrite gset4. rewrite ldly, ldlx. rewrite ex_rel64. cbn [wrel_eval].
    unfold spec_subcarryc. apply if32; intro E.
    - replace (vx - vy - 1 <? 0) with false; [apply make_carry_ok; [apply u63_mod|reflexivity]|].
      symmetry. apply Z.ltb_lt in E. apply Z.ltb_ge. lia.
    - replace (vx - vy - 1 <? 0) with true; [apply make_carry_ok; [apply u63_mod|reflexivity]|].
      symmetry. apply Z.ltb_ge in E. apply Z.ltb_lt. lia.
  Qed.

  Lemma make_product_ok i j za zb c a b d e k :
    nth_error [I32 gmp; I32 c; I32 res; I32 oom; I64 a; I64 b; I64 d; I64 e] i = Some (I64 za) ->
    nth_error [I32 gmp; I32 c; I32 res; I32 oom; I64 a; I64 b; I64 d; I64 e] j = Some (I64 zb) ->
    u63 za -> u63 zb ->
    prim_post k (RPair (za, zb)) (ex (make_product i j) l (st gmp c res oom a b d e m p) k).
  Proof.
    intros Ei Ej Ha Hb. pose proof gmp_lt as GL. unfold make_product. cbn [app]. change pair_ord with 0.
    rewrite gget0. rewrite (@ex_gget _ _ _ _ i (I64 za)) by exact Ei. rewrite sto64 by lia.
    rewrite gget0. rewrite (@ex_gget _ _ _ _ j (I64 zb)) by exact Ej. rewrite sto64 by lia.
    rewrite gget0, k32, sto32 by lia. rewrite !gget0, sto32 by lia.
    rewrite !gget0, k32, ex_add32, sto32 by lia. rewrite gget0, k32, ex_add32 by lia.
    rewrite (ex_split (increment_glob_mem_ptr 28)). rewrite bump by lia. rewrite ex_nil.
    eexists (gmp + 16), (gmp + 28), c, a, b, d, e, _. split; [reflexivity|].
    split; [lia|]. split; [clear - G4; dlia|]. split; [intros q Hq; rewrite !wr_other by lia; reflexivity|]. split; [lia|].
    rewrite !Z.add_0_r. cbn [res_at]. split; [lia|]. split; [clear - G4; dlia|]. split; [lia|].
    replace (gmp + 16 + 4) with (gmp + 20) by lia. replace (gmp + 16 + 8) with (gmp + 24) by lia.
    split; [mem4; apply rd_wr4; lia|]. unfold u63 in Ha, Hb. split.
    - rewrite (@rd_wr_other 4) by lia. rewrite rd_wr4 by lia. split; [lia|]. split; [lia|]. split; [exact Ha|].
      rewrite !(@rd_wr_other 8) by lia. apply rd_wr8. lia.
    - rewrite rd_wr4 by lia. split; [lia|]. split; [lia|]. split; [exact Hb|].
      rewrite !(@rd_wr_other 8) by lia. apply rd_wr8. lia.
  Qed.
  (** ** Double-width multiplication *)

  Lemma lor_halves u t : 0 <= t < 4294967296 ->
    Z.lor (Z.shiftl u (32 mod 64) mod 18446744073709551616) t = (u mod 4294967296) * 4294967296 + t.
  Proof.
    intro Ht. change (32 mod 64) with 32. rewrite Z.shiftl_mul_pow2 by lia. change (2 ^ 32) with 4294967296.
    replace 18446744073709551616 with (4294967296 * 4294967296) by reflexivity. rewrite Z.mul_mod_distr_r by lia.
    apply (lor_add _ _ 32); [lia|exact Ht|]. exists (u mod 4294967296). reflexivity.
  Qed.

  Lemma mulc_ok k : prim_post k (RPair (spec_mulc vx vy)) (ex (mulc_instrs x y) l S0 k).
  Proof.
    pose proof (mulc_val _ _ Ux Uy) as M. cbv zeta in M. destruct M as ((M1 & M2 & M3 & M4 & M5 & M6 & M7 & M8 & M9) & Eh & El).
    unfold mulc_instrs.
    rewrite ldlx, lo32, ldly, lo32. cbn [app]. rewrite mul64 by exact M1. rewrite gset4.
    rewrite ldlx, hi32, ldly, lo32. cbn [app]. rewrite mul64 by exact M2. rewrite gset5.
    rewrite ldlx, lo32, ldly, hi32. cbn [app]. rewrite mul64 by exact M3. rewrite gset6.
    rewrite ldlx, hi32, ldly, hi32. cbn [app]. rewrite mul64 by exact M4. rewrite gset7.
    rewrite gget4, hi32. cbn [app]. rewrite gget5, lo32. cbn [app]. rewrite add64 by exact M5. rewrite gget6, add64 by exact M6. rewrite gset6.
    rewrite gget5, hi32. cbn [app]. rewrite gget6, hi32. cbn [app]. rewrite add64 by exact M7. rewrite gget7, add64 by lia. rewrite gset5.
    rewrite gget6, k64 by lia. erewrite ex_bin64 by reflexivity. rewrite gget4, lo32. cbn [app].
    erewrite ex_bin64 by reflexivity. rewrite gset4. cbn [modulus width].
    rewrite lor_halves by (apply Z.mod_pos_bound; lia).
    rewrite gget5, k64 by lia. erewrite ex_bin64 by reflexivity. rewrite gget4, k64 by lia. erewrite ex_bin64 by reflexivity.
    cbn [modulus width]. change (1 mod 64) with 1. change (63 mod 64) with 63.
    rewrite Z.shiftl_mul_pow2, Z.shiftr_div_pow2 by lia. change (2 ^ 1) with 2. change (2 ^ 63) with wB.
    rewrite (Z.mod_small (_ * 2)) by lia.
    match type of Eh with 2 * ?u + ?v = _ => set (u2 := u) in *; set (c := v) in * end.
    replace (u2 * 2) with (2 * u2) by lia.
    pose proof Ux as Hx. pose proof Uy as Hy. unfold u63 in Hx, Hy.
    assert (B1 : 0 <= vx * vy / wB < wB).
    { split; [apply Z.div_pos; nia|apply Z.div_lt_upper_bound; nia]. }
    rewrite add64 by lia. rewrite Eh. rewrite gset5.
    rewrite gget4, k64 by (unfold maxuint63; lia).
    rewrite (@ex_bin64 _ _ _ _ Wand _ _ (vx * vy mod wB)).
    2: { cbn [wbin_eval]. f_equal. rewrite land_mask' by exact M9. exact El. }
    rewrite gset4. unfold spec_mulc. apply make_product_ok; [reflexivity|reflexivity|exact B1|apply u63_mod].
  Qed.

  Lemma diveucl_ok k : prim_post k (RPair (spec_diveucl vx vy)) (ex (diveucl_instrs x y) l S0 k).
  Proof.
    pose proof Ux as Hx. pose proof Uy as Hy. unfold diveucl_instrs. cbn [app]. rewrite ldx', ex_eqz64.
    assert (U : u63 (fst (spec_diveucl vx vy)) /\ u63 (snd (spec_diveucl vx vy))).
    { unfold spec_diveucl, spec_div, spec_mod. cbn [fst snd]. destruct (Z.eqb_spec vy 0).
      - split; [unfold u63; lia|assumption].
      - unfold u63 in Hy. split; [apply u63_div; [assumption|lia]|apply mod_u63; assumption]. }
    rewrite (@ex_if_norm _ _ _ _ _ _ _ _ _ _ _ _ l (st gmp cap res oom (fst (spec_diveucl vx vy)) (snd (spec_diveucl vx vy)) t3 t4 m p) []); [| |reflexivity].
    - cbn [app]. rewrite (surjective_pairing (spec_diveucl vx vy)) at 1.
      apply make_product_ok; [reflexivity|reflexivity|apply U|apply U].
    - unfold spec_diveucl, spec_div, spec_mod. cbn [fst snd]. destruct (Z.eqb_spec vx 0) as [E|E].
      + rewrite k64, gset4, k64, gset5, ex_nil by lia. rewrite E. destruct (vy =? 0); [reflexivity|].
        rewrite Zdiv_0_l, Zmod_0_l. reflexivity.
      + rewrite ldy', ex_eqz64.
        rewrite (@ex_if_norm _ _ _ _ _ _ _ _ _ _ _ _ l (st gmp cap res oom (fst (spec_diveucl vx vy)) (snd (spec_diveucl vx vy)) t3 t4 m p) []); [reflexivity| |reflexivity].
        unfold spec_diveucl, spec_div, spec_mod. cbn [fst snd]. destruct (vy =? 0) eqn:E2.
        * rewrite k64, gset4 by lia. rewrite ldx', gset5. reflexivity.
        * rewrite ldlx, ldly. cbn [app]. erewrite ex_bin64 by (cbn [wbin_eval]; rewrite E2; reflexivity). rewrite gset4.
          rewrite ldlx, ldly. cbn [app]. erewrite ex_bin64 by (cbn [wbin_eval]; rewrite E2; reflexivity). rewrite gset5. reflexivity.
  Qed.

  (** ** Leading and trailing zeros *)

  Lemma head0_ok r k : is_head0 vx r -> prim_post k (RInt r) (ex (head0_instrs x) l S0 k).
  Proof.
    intro H. pose proof (head0_val _ _ Ux H) as E. pose proof (head0_range _ _ Ux H) as R.
    unfold head0_instrs. rewrite gget0, ldlx. cbn [app]. rewrite ex_un64, k64 by lia.
    rewrite (@ex_bin64 _ _ _ _ Wsub _ _ r).
    2: { cbn [wbin_eval modulus]. rewrite E. rewrite Z.mod_small by lia. reflexivity. }
    apply store_end. unfold u63. lia.
  Qed.

  Lemma tail0_ok r k : is_tail0 vx r -> prim_post k (RInt r) (ex (tail0_instrs x) l S0 k).
  Proof.
    intro H. pose proof (tail0_val _ _ Ux H) as E. pose proof (tail0_range _ _ Ux H) as R.
    unfold tail0_instrs. rewrite gget0, ldlx. cbn [app]. rewrite ex_eqz64.
    rewrite (@if64 _ _ _ _ _ r).
    - apply store_end. unfold u63. lia.
    - intro C. rewrite C in E. rewrite k64 by lia. rewrite E. reflexivity.
    - intro C. rewrite C in E. rewrite ldlx, ex_un64, E. reflexivity.
  Qed.

  (** ** Three operands *)

  Variable z : N.
  Variable vz : Z.
  Hypothesis Oz : opnd l m gmp z vz.

  Lemma Uz : u63 vz. Proof. destruct Oz as (q & _ & _ & _ & H & _). exact H. Qed.
  Lemma ldlz is c a b d e k : ex (load_local_i64 z ++ is) l (st gmp c res oom a b d e m p) k = ex is l (st gmp c res oom a b d e m p) (I64 vz :: k).
  Proof. eapply ldl; [exact Oz|exact Hi]. Qed.

  Lemma addmuldiv_ok k : prim_post k (RInt (spec_addmuldiv vx vy vz)) (ex (addmuldiv_instrs x y z) l S0 k).
  Proof.
    pose proof Ux as Hx. pose proof Uy as Hy. pose proof Uz as Hz. unfold u63 in Hx.
    unfold addmuldiv_instrs. rewrite gget0, ldlx. cbn [app]. rewrite k64 by lia. rewrite ex_rel64. cbn [wrel_eval].
    rewrite (@if64 _ _ _ _ _ (spec_addmuldiv vx vy vz)).
    - apply store_end. unfold spec_addmuldiv. apply u63_mod.
    - intro C. apply Z.ltb_lt in C. rewrite k64 by lia. rewrite addmuldiv_big by exact C. reflexivity.
    - intro C. apply Z.ltb_ge in C. rewrite ldly, ldlx. cbn [app]. erewrite ex_bin64 by reflexivity.
      rewrite ldlz. cbn [app]. rewrite k64 by lia. rewrite ldlx. cbn [app].
      erewrite ex_bin64 by reflexivity. erewrite ex_bin64 by reflexivity. erewrite ex_bin64 by reflexivity.
      rewrite k64 by (unfold maxuint63; lia). apply ex_bin64. cbn [wbin_eval modulus width]. f_equal.
      apply addmuldiv_val; [lia|assumption|assumption].
  Qed.

  (** ** Division of a double-width integer *)

  Notation body := (diveucl_21_loop glob_tmp1 glob_tmp2 glob_tmp3 glob_tmp4 63).

  Lemma loop_last a b d e : ex body l (st gmp 63 res oom a b d e m p) [] = Rnorm l (st gmp 63 res oom a b d e m p) [].
  Proof. reflexivity. Qed.

  Lemma loop_round i r w q : 0 <= i < 63 -> d21_inv vx vy vz i (r, w, q) ->
    ex body l (st gmp i res oom r w vz q m p) [] =
    (let '(r', w', q') := d21 vz (r, w, q) in Rbr 0 l (st gmp (i + 1) res oom r' w' vz q' m p) []).
  Proof.
    intros Hi Inv. pose proof (d21_bits _ _ _ _ _ _ _ Ux Uy Uz Hi Inv) as (B0 & B1 & B2 & B3 & B4 & B5 & B6).
    pose proof Uz as Hz. unfold u63 in Hz.
    unfold diveucl_21_loop, diveucl_21_loop_body. cbn [app].
    rewrite gget1, k32 by lia. rewrite ex_rel32. cbn [wrel_eval]. replace (i <? 63) with true by (symmetry; apply Z.ltb_lt; lia).
    rewrite ex_if. cbn [app].
    rewrite gget5, k64 by lia. erewrite ex_bin64 by reflexivity. rewrite gset5. cbn [modulus width].
    rewrite B1. rewrite gget4, k64 by lia. erewrite ex_bin64 by reflexivity. rewrite gget5, k64 by lia.
    erewrite ex_bin64 by reflexivity. erewrite ex_bin64 by reflexivity. cbn [modulus width]. rewrite B2. rewrite gset4.
    rewrite gget7, k64 by lia. erewrite ex_bin64 by reflexivity. cbn [modulus width]. rewrite B3. rewrite gset7.
    rewrite gget4, gget6, ex_rel64. cbn [wrel_eval]. cbn [d21].
    set (h := 2 * r + (2 * w) mod 18446744073709551616 / wB) in *.
    set (w' := (2 * w) mod 18446744073709551616).
    erewrite (@ex_if_norm _ _ _ _ None _ _ (vz <=? h) _ l _ _ l
       (if vz <=? h then st gmp i res oom (h - vz) w' vz (2 * q + 1) m p else st gmp i res oom h w' vz (2 * q) m p) []); [| |reflexivity].
    - cbn [app]. destruct (vz <=? h).
      + rewrite gget1, k32 by lia. rewrite ex_add32 by lia. rewrite gset1. reflexivity.
      + rewrite gget1, k32 by lia. rewrite ex_add32 by lia. rewrite gset1. reflexivity.
    - destruct (Z.leb_spec vz h) as [L|L]; [|reflexivity].
      rewrite gget7, k64 by lia. erewrite ex_bin64 by reflexivity. rewrite B4, gset7.
      rewrite gget4, gget6. erewrite ex_bin64 by reflexivity. cbn [modulus]. rewrite (Z.mod_small (h - vz)) by lia. rewrite gset4. reflexivity.
  Qed.

  Lemma loop_all n : forall i s k f, n = Z.to_nat (63 - i) -> (n < f)%nat -> 0 <= i <= 63 -> d21_inv vx vy vz i s ->
    exists s', d21_inv vx vy vz 63 s' /\
      iter f (fun l s => ex body l s []) k l (let '(r, w, q) := s in st gmp i res oom r w vz q m p) =
      Rnorm l (let '(r, w, q) := s' in st gmp 63 res oom r w vz q m p) k.
  Proof.
    induction n as [|n IH]; intros i s k f En Hf Hi Inv.
    - assert (i = 63) by lia. subst i. exists s. split; [exact Inv|]. destruct f as [|f]; [lia|].
      destruct s as [[r w] q]. cbn [iter]. rewrite loop_last. reflexivity.
    - assert (Hi' : 0 <= i < 63) by lia. destruct f as [|f]; [lia|].
      pose proof (d21_step _ _ _ _ _ Ux Uy Uz Hi' Inv) as Inv'.
      destruct s as [[r w] q]. cbn [iter]. rewrite (loop_round Hi' Inv).
      destruct (d21 vz (r, w, q)) as [[r' w'] q'] eqn:Ed.
      destruct (IH (i + 1) (r', w', q') k f) as (s' & I' & E); [lia|lia|lia|exact Inv'|].
      exists s'. split; [exact I'|exact E].
  Qed.

  Lemma diveucl_21_ok k : (64 <= lf)%nat ->
    prim_post k (RPair (if vx <? vz then spec_diveucl_21 vx vy vz else (0, 0))) (ex (diveucl_21_instrs x y z) l S0 k).
  Proof.
    intro Hf. pose proof Ux as Hx. pose proof Uy as Hy. pose proof Uz as Hz.
    unfold diveucl_21_instrs. rewrite ldlz, ldlx. cbn [app]. rewrite ex_rel64. cbn [wrel_eval].
    apply if32; intro C.
    - apply Z.leb_le in C. replace (vx <? vz) with false by (symmetry; apply Z.ltb_ge; lia).
      rewrite k64 by lia. rewrite gset4. apply make_product_ok; try reflexivity; unfold u63; lia.
    - apply Z.leb_gt in C. replace (vx <? vz) with true by (symmetry; apply Z.ltb_lt; lia).
      rewrite ldlx. cbn [app]. rewrite gset4, ldly. cbn [app]. rewrite gset5, ldlz. cbn [app]. rewrite gset6.
      rewrite k64 by lia. rewrite gset7. rewrite k32 by lia. rewrite gset1. rewrite ex_cons.
      pose proof (d21_init _ _ _ Hx Hy C) as I0.
      destruct (@loop_all 63 0 (vx, vy, 0) [] lf eq_refl ltac:(lia) ltac:(lia) I0) as (s' & I' & E).
      cbn [exec1]. change (iter lf (fun l s => seqr (exec1 grow mp lf call) body l s [])) with (iter lf (fun l s => ex body l s [])).
      rewrite E. cbn [bindr]. pose proof (d21_end _ _ _ s' Hx Hy Hz C I') as Es.
      destruct s' as [[r w] q]. cbn [fst snd] in Es. rewrite <- Es.
      apply make_product_ok; try reflexivity.
      + destruct I' as (_ & _ & Hq & _). change (2 ^ 63) with wB in Hq. exact Hq.
      + destruct I' as (Hr & _). unfold u63 in *. lia.
  Qed.
End Prim.
