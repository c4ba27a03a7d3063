(** * Proofs about the shadow stack and the collector call *)
From Coq Require Import ZArith NArith List Lia Bool.
Import ListNotations.
From Verif Require Import ANF_Syntax CG_Clight CG_Model CG_Spec.
Set Implicit Arguments.
Local Open Scope Z_scope.
Ltac Zify.zify_post_hook ::= idtac.

(** ** Representation *)

Lemma hrepr_mono h lo hi v w (H : hrepr h lo hi v w) : forall h' lo' hi',
  (forall x, outside lo hi x -> outside lo' hi' x /\ h' x = h x) -> hrepr h' lo' hi' v w.
Proof.
  induction H as [z|f|hdr vs p ws H1 H2 H3 H4 H5 H6 IH]; intros h' lo' hi' K.
  - constructor.
  - constructor.
  - destruct (K _ H2) as [K1 K2].
    apply HR_block with (ws := ws); [congruence|exact K1|exact H3|exact H4| |].
    + intros i v E. destruct (H5 i v E) as [A B]. destruct (K _ A) as [C D]. split; [exact C|congruence].
    + intros i v E. exact (IH i v E _ _ _ K).
Qed.

Lemma hr_mono m a m' a' v w : hr m a v w ->
  (forall x, outside a (m_hi m) x -> outside a' (m_hi m') x /\ m_heap m' x = m_heap m x) -> hr m' a' v w.
Proof. intros H K. eapply hrepr_mono; [exact H|exact K]. Qed.

(** same heap and area *)
Definition same_heap (m m' : mem) : Prop :=
  m_heap m' = m_heap m /\ m_lo m' = m_lo m /\ m_hi m' = m_hi m.

Lemma hr_same m m' a v w : same_heap m m' -> hr m a v w -> hr m' a v w.
Proof. intros (E1 & E2 & E3) H. unfold hr in *. rewrite E1, E3. exact H. Qed.

Lemma same_heap_refl m : same_heap m m. Proof. repeat split. Qed.
Lemma same_heap_sym m m' : same_heap m m' -> same_heap m' m.
Proof. intros (A & B & C). repeat split; congruence. Qed.
Lemma same_heap_trans m m' m'' : same_heap m m' -> same_heap m' m'' -> same_heap m m''.
Proof. intros (A & B & C) (D & E & F). repeat split; congruence. Qed.

(** ** Chains *)

Lemma chain_agree fs fs' p ids : chain fs p ids ->
  (forall id fr, In id ids -> get id fs = Some fr -> exists fr', get id fs' = Some fr' /\
     f_next fr' = f_next fr /\ f_root fr' = f_root fr /\ f_prev fr' = f_prev fr /\ f_size fr' = f_size fr) ->
  chain fs' p ids.
Proof.
  induction 1 as [|id fr n p ids G R N Hn P C IH]; intro K.
  - constructor.
  - destruct (K id fr) as (fr' & G' & E1 & E2 & E3 & E4); [left; reflexivity|exact G|].
    econstructor; [exact G'| | | | |].
    + rewrite E2; exact R.
    + rewrite E1; exact N.
    + rewrite E4; exact Hn.
    + rewrite E3; exact P.
    + apply IH. intros id' fr'' I. apply K. right. exact I.
Qed.

(** ** Kept frames *)

Lemma keepf_refl m a ids b : keepf m a ids b m a.
Proof.
  split; [lia|]. intros id _. destruct (get id (m_frames m)) as [fr|]; [|exact I].
  repeat split; auto. intros _ o w v U A H. eauto.
Qed.

Lemma keepf_trans m a ids b m1 a1 m2 a2 :
  keepf m a ids b m1 a1 -> keepf m1 a1 ids b m2 a2 -> keepf m a ids b m2 a2.
Proof.
  intros [A1 A2] [B1 B2]. split; [lia|]. intros id L. specialize (A2 id L). specialize (B2 id L).
  destruct (get id (m_frames m)) as [fr|]; destruct (get id (m_frames m1)) as [fr1|];
    destruct (get id (m_frames m2)) as [fr2|]; try contradiction; auto.
  destruct A2 as (E1 & E2 & E3 & E4 & E5). destruct B2 as (F1 & F2 & F3 & F4 & F5).
  repeat split; try congruence.
  intros I o w v U G H. destruct (E5 I o w v U G H) as (w1 & G1 & H1).
  apply (F5 I o w1 v); auto. destruct U as (n & U1 & U2). exists n. split; [congruence|exact U2].
Qed.

Lemma keepf_weaken m a ids b m' a' ids' b' :
  keepf m a ids b m' a' -> (b' <= b)%positive -> incl ids' ids -> keepf m a ids' b' m' a'.
Proof.
  intros [A1 A2] Lb I. split; [exact A1|]. intros id L. assert (L' : (id < b)%positive) by lia.
  specialize (A2 id L'). destruct (get id (m_frames m)); destruct (get id (m_frames m')); auto.
  destruct A2 as (E1 & E2 & E3 & E4 & E5). repeat split; auto. intro J. exact (E5 (I _ J)).
Qed.

(** same frames below [b], same heap *)
Lemma keepf_same m a ids b m' a' :
  (m_next m <= m_next m')%positive ->
  (forall v w, hr m a v w -> hr m' a' v w) ->
  (forall id, (id < b)%positive -> get id (m_frames m') = get id (m_frames m)) ->
  keepf m a ids b m' a'.
Proof.
  intros N H G. split; [exact N|]. intros id L. rewrite (G id L).
  destruct (get id (m_frames m)) as [fr|]; [|exact I].
  repeat split; auto. intros _ o w v U A R. eauto.
Qed.

Lemma wfm_keepf m a ids m' a' :
  wfm m a ids -> keepf m a ids (m_next m) m' a' -> m_fp m' = m_fp m -> m_lo m' <= a' <= m_hi m' -> wfm m' a' ids.
Proof.
  intros [W1 W2 W3 W4] [K1 K2] F A. constructor; auto.
  - rewrite F. eapply chain_agree; [exact W2|]. intros id fr I G.
    specialize (K2 id (W3 id I)). rewrite G in K2. destruct (get id (m_frames m')) as [fr'|]; [|contradiction].
    exists fr'. intuition.
  - intros id I. specialize (W3 id I). lia.
  - intros id fr' o I G' U. specialize (K2 id (W3 id I)). rewrite G' in K2.
    destruct (get id (m_frames m)) as [fr|] eqn:G; [|contradiction].
    destruct K2 as (E1 & E2 & E3 & E4 & E5).
    assert (U' : used fr id o). { destruct U as (n & U1 & U2). exists n. split; [congruence|exact U2]. }
    destruct (W4 id fr o I G U') as (w & v & Aw & Hw).
    destruct (E5 I o w v U' Aw Hw) as (w' & A' & H'). eauto.
Qed.

(** ** Writing and reading the root array *)

Lemma eval_const id t m z : - 2 ^ 63 <= z < 2 ^ 63 -> eval id t m (Xconst z) = Some (VZ z).
Proof.
  intro H. cbn [eval].
  assert (E1 : (- 2 ^ 63 <=? z) = true) by (apply Z.leb_le; lia).
  assert (E2 : (z <? 2 ^ 64) = true).
  { apply Z.ltb_lt. change (2 ^ 64) with (2 * 2 ^ 63). change (2 ^ 63) with 9223372036854775808 in *. lia. }
  rewrite E1, E2. reflexivity.
Qed.

Section S.
  Variable gc : mem -> gres.
  Variable call : positive -> list cval -> mem -> rres.
  Variable decl : list positive.
  Variable id : positive.
  Notation ex := (exec gc call decl gcIdent id).

  (** [m'] is [m] with frame [id] replaced *)
  Definition frame_upd (m : mem) (fr' : frame) (m' : mem) : Prop :=
    exists fs', m' = set_frames m fs' /\ get id fs' = Some fr' /\
      (forall i, i <> id -> get i fs' = get i (m_frames m)).

  Lemma frame_upd_self m fr : get id (m_frames m) = Some fr -> frame_upd m fr m.
  Proof. intro G. exists (m_frames m). repeat split; auto. destruct m; reflexivity. Qed.

  Lemma frame_upd_set m fr' m' fr'' : frame_upd m fr' m' ->
    frame_upd m fr'' (set_frames m' (set id fr'' (m_frames m'))).
  Proof.
    intros (fs & -> & G & O). exists (set id fr'' fs). split; [reflexivity|]. split.
    - apply get_set_same.
    - intros i Hi. rewrite get_set_other by exact Hi. auto.
  Qed.

  Lemma frame_upd_get m fr m' : frame_upd m fr m' -> get id (m_frames m') = Some fr.
  Proof. intros (fs & -> & G & O). exact G. Qed.

  Lemma frame_upd_heap m fr m' : frame_upd m fr m' -> same_heap m m'.
  Proof. intros (fs & -> & G & O). repeat split. Qed.

  Lemma eval_rootsE t m fr n : get id (m_frames m) = Some fr -> 0 <= n < f_size fr -> n < 2 ^ 63 ->
    eval id t m (rootsE n) = f_arr fr n.
  Proof.
    intros G H L. unfold rootsE. cbn [eval].
    change (if (- 2 ^ 63 <=? n) && (n <? 2 ^ 64) then Some (VZ n) else None) with (eval id t m (Xconst n)).
    rewrite eval_const by (change (2 ^ 63) with 9223372036854775808 in *; lia).
    cbn [binop_eval load]. rewrite G. rewrite Z.add_0_l.
    destruct ((0 <=? n) && (n <? f_size fr)) eqn:E; [reflexivity|].
    apply andb_false_iff in E. rewrite Z.leb_gt, Z.ltb_ge in E. lia.
  Qed.

  Lemma exec_push_var t m fr n x w : get id (m_frames m) = Some fr -> Z.of_N n < f_size fr -> Z.of_N n < 2 ^ 63 ->
    get x t = Some w ->
    ex (push_var n x) t m =
      ROk Onormal t (set_frames m (set id (set_arr fr (upd (f_arr fr) (Z.of_N n) w)) (m_frames m))).
  Proof.
    intros G H L E. unfold push_var, rootsE. cbn [exec eval assign]. rewrite E.
    change (if (- 2 ^ 63 <=? Z.of_N n) && (Z.of_N n <? 2 ^ 64) then Some (VZ (Z.of_N n)) else None)
      with (eval id t m (Xconst (Z.of_N n))).
    rewrite eval_const by (change (2 ^ 63) with 9223372036854775808 in *; lia).
    cbn [binop_eval store]. rewrite G. rewrite Z.add_0_l.
    destruct ((0 <=? Z.of_N n) && (Z.of_N n <? f_size fr)) eqn:E'; [reflexivity|].
    apply andb_false_iff in E'. rewrite Z.leb_gt, Z.ltb_ge in E'. lia.
  Qed.

  Lemma snd_push_aux xs : forall n s, snd (push_aux xs n s) = (n + N.of_nat (length xs))%N.
  Proof.
    induction xs as [|x xs IH]; intros n s; cbn [push_aux length].
    - cbn. lia.
    - rewrite IH. lia.
  Qed.

  (** the array after pushing [xs] from slot [n] *)
  Definition pushed (t : tmap cval) (xs : list positive) (n : Z) (arr arr' : Z -> option cval) : Prop :=
    (forall i x, nth_error xs i = Some x -> arr' (n + Z.of_nat i) = get x t) /\
    (forall o, o < n \/ n + Z.of_nat (length xs) <= o -> arr' o = arr o).

  Lemma exec_push xs : forall n s t m fr,
    get id (m_frames m) = Some fr -> Z.of_N n + Z.of_nat (length xs) <= f_size fr ->
    f_size fr < 2 ^ 63 ->
    (forall x, In x xs -> exists w, get x t = Some w) ->
    exists arr' m', pushed t xs (Z.of_N n) (f_arr fr) arr' /\ frame_upd m (set_arr fr arr') m' /\
      ex (fst (push_aux xs n s)) t m = ex s t m'.
  Proof.
    induction xs as [|x xs IH]; intros n s t m fr G H L D; cbn [push_aux].
    - exists (f_arr fr), m. split; [|split].
      + split; [intros i x E; destruct i; discriminate|reflexivity].
      + replace (set_arr fr (f_arr fr)) with fr by (destruct fr; reflexivity). apply frame_upd_self; exact G.
      + reflexivity.
    - cbn [length] in H.
      destruct (IH (n + 1)%N (Sseq (push_var n x) s) t m fr G) as (arr & m1 & [P1 P2] & F & E).
      + lia.
      + exact L.
      + intros y I. apply D. right. exact I.
      + destruct (D x) as (w & W); [left; reflexivity|].
        exists (upd arr (Z.of_N n) w), (set_frames m1 (set id (set_arr (set_arr fr arr) (upd (f_arr (set_arr fr arr)) (Z.of_N n) w)) (m_frames m1))).
        split; [|split].
        * split.
          -- intros [|i] y Ey; cbn [nth_error] in Ey; unfold upd.
             ++ destruct (Z.of_N n + Z.of_nat 0 =? Z.of_N n) eqn:Q; [congruence|].
                apply Z.eqb_neq in Q. lia.
             ++ destruct (Z.of_N n + Z.of_nat (S i) =? Z.of_N n) eqn:Q; [apply Z.eqb_eq in Q; lia|].
                rewrite <- (P1 i y Ey). f_equal. lia.
          -- intros o Ho. unfold upd. cbn [length] in Ho. destruct (o =? Z.of_N n) eqn:Q; [apply Z.eqb_eq in Q; lia|].
             apply P2. lia.
        * apply frame_upd_set with (fr' := set_arr fr arr). exact F.
        * rewrite E. cbn [exec]. rewrite (@exec_push_var t m1 (set_arr fr arr) n x w (frame_upd_get F)); [reflexivity| | |exact W].
          -- cbn [set_arr f_size]. lia.
          -- lia.
  Qed.

  Lemma exec_pop xs : forall n s t m fr,
    get id (m_frames m) = Some fr -> Z.of_N n + Z.of_nat (length xs) <= f_size fr ->
    f_size fr < 2 ^ 63 -> incl xs decl ->
    (forall o, Z.of_N n <= o < Z.of_N n + Z.of_nat (length xs) -> exists w, f_arr fr o = Some w) ->
    exists t', (forall x, In x xs -> exists i, nth_error xs i = Some x /\ get x t' = f_arr fr (Z.of_N n + Z.of_nat i)) /\
      (forall x, ~ In x xs -> get x t' = get x t) /\
      ex (pop_aux xs n s) t m = ex s t' m.
  Proof.
    induction xs as [|x xs IH]; intros n s t m fr G H L D A; cbn [pop_aux].
    - exists t. repeat split; auto. intros x [].
    - cbn [length] in H, A.
      destruct (IH (n + 1)%N (Sseq (pop_var n x) s) t m fr G) as (t1 & P1 & P2 & E).
      + lia.
      + exact L.
      + intros y I. apply D. right. exact I.
      + intros o Ho. apply A. lia.
      + destruct (A (Z.of_N n)) as (w & W); [lia|].
        exists (set x w t1). split; [|split].
        * intros y I. rewrite get_set. destruct (Pos.eq_dec y x) as [->|Ne].
          -- exists 0%nat. split; [reflexivity|]. rewrite <- W. f_equal. lia.
          -- destruct I as [->|I]; [congruence|]. destruct (P1 y I) as (i & E1 & E2).
             exists (S i). split; [exact E1|]. rewrite E2. f_equal. lia.
        * intros y I. rewrite get_set. destruct (Pos.eq_dec y x) as [->|Ne].
          -- exfalso. apply I. left. reflexivity.
          -- apply P2. intro I'. apply I. right. exact I'.
        * rewrite E. cbn [exec]. unfold pop_var. cbn [exec].
          rewrite (@eval_rootsE t1 m fr (Z.of_N n) G) by (change (2 ^ 63) with 9223372036854775808 in *; lia).
          rewrite W. unfold assign_temp.
          assert (M : ANF_Syntax.mem x decl = true). { apply mem_In. apply D. left. reflexivity. }
          rewrite M. reflexivity.
  Qed.

  (** ** The current frame

      [fp0] is the caller's frame pointer and [ids] the frames it links.  With
      [off = 0] the own frame is not linked; with [off > 0] it is, and at least
      its first [off] slots are in use. *)
  Record LK (fp0 : cval) (ids : list positive) (size : Z) (off : N) (m : mem) (a : Z) : Prop := {
    lk_wf : wfm m a (if N.eqb off 0 then ids else id :: ids);
    lk_ids : forall i, In i ids -> (i < id)%positive;
    lk_id : (id < m_next m)%positive;
    lk_fr : exists fr, get id (m_frames m) = Some fr /\ f_prev fr = Some fp0 /\
      f_root fr = Some (VP (BRoots id) 0) /\ f_size fr = size /\
      (off <> 0%N -> exists n, f_next fr = Some (VP (BRoots id) n) /\ Z.of_N off <= n);
    lk_fp : m_fp m = if N.eqb off 0 then fp0 else VP (BFrame id) 0;
    lk_chain : chain (m_frames m) fp0 ids }.

  (** slot [i] of the own frame denotes [v] *)
  Definition slotv (m : mem) (a : Z) (i : Z) (v : hval) : Prop :=
    exists fr w, get id (m_frames m) = Some fr /\ f_arr fr i = Some w /\ hr m a v w.

  Lemma chain_upd m fr m' p ids : frame_upd m fr m' -> ~ In id ids ->
    chain (m_frames m) p ids -> chain (m_frames m') p ids.
  Proof.
    intros (fs & -> & G & O) N C. eapply chain_agree; [exact C|].
    intros i fr' I E. exists fr'. cbn [set_frames m_frames]. rewrite O; [auto|]. intros ->. contradiction.
  Qed.

  Lemma frame_upd_keepf m a fr m' ids b : frame_upd m fr m' -> (b <= id)%positive -> keepf m a ids b m' a.
  Proof.
    intros F B. pose proof (frame_upd_heap F) as S. destruct F as (fs & -> & G & O).
    apply keepf_same.
    - cbn. lia.
    - intros v w. apply hr_same. exact S.
    - intros i Hi. cbn [set_frames m_frames]. apply O. lia.
  Qed.

  (** setting the frame up *)
  Definition make_stack (push : stmt) (slots : N) (b : bool) : stmt :=
    Sseq (Sseq push (update_stack slots)) (set_stack slots b).

  Definition with_fp (m : mem) (p : cval) : mem :=
    {| m_heap := m_heap m; m_lo := m_lo m; m_hi := m_hi m; m_args := m_args m;
       m_alloc := m_alloc m; m_limit := m_limit m; m_fp := p; m_nalloc := m_nalloc m;
       m_frames := m_frames m; m_next := m_next m |}.

  (** everything but frames and frame pointer is unchanged *)
  Definition same_rest (m m' : mem) : Prop :=
    same_heap m m' /\ m_args m' = m_args m /\ m_alloc m' = m_alloc m /\ m_limit m' = m_limit m /\
    m_nalloc m' = m_nalloc m /\ m_next m' = m_next m.

  Lemma exec_make_stack fp0 ids size off xs t m a :
    LK fp0 ids size off m a -> size < 2 ^ 63 ->
    Z.of_N off + Z.of_nat (length xs) <= size ->
    (off <> 0%N -> forall i, 0 <= i < Z.of_N off -> exists v, slotv m a i v) ->
    (forall x, In x xs -> exists w v, get x t = Some w /\ hr m a v w) ->
    exists m', ex (make_stack (fst (push_aux xs off Sskip)) (off + N.of_nat (length xs)) (negb (N.eqb off 0))) t m
                 = ROk Onormal t m' /\
      LK fp0 ids size (off + N.of_nat (length xs)) m' a /\ same_rest m m' /\
      keepf m a ids id m' a /\
      (forall i v, 0 <= i < Z.of_N off -> slotv m a i v -> slotv m' a i v) /\
      (forall i x w v, nth_error xs i = Some x -> get x t = Some w -> hr m a v w -> slotv m' a (Z.of_N off + Z.of_nat i) v).
  Proof.
    intros K L Hs Sl Hx. destruct (lk_fr K) as (fr & G & Gp & Gr & Gs & Gn).
    destruct (@exec_push xs off Sskip t m fr G) as (arr & m1 & [P1 P2] & F & E).
    { rewrite Gs. exact Hs. } { rewrite Gs. exact L. }
    { intros x I. destruct (Hx x I) as (w & v & W & _). eauto. }
    unfold make_stack. cbn [exec]. rewrite E. cbn [exec andthen].
    set (n := (off + N.of_nat (length xs))%N) in *.
    pose proof (frame_upd_heap F) as SH. pose proof (frame_upd_get F) as G1.
    assert (Nid : ~ In id ids). { intro I. pose proof (lk_ids K id I). lia. }
    destruct (N.eqb n 0) eqn:En.
    - (* nothing pushed and nothing there *)
      apply N.eqb_eq in En. assert (O0 : off = 0%N) by (unfold n in En; lia).
      assert (X0 : xs = []). { destruct xs; [reflexivity|]. unfold n in En. cbn [length] in En. lia. }
      subst off xs. cbn [length] in *.
      exists m1. unfold update_stack, set_stack. rewrite En. cbn [N.eqb exec andthen orb]. split; [reflexivity|].
      assert (SR : same_rest m m1). { destruct F as (fs & -> & _ & _). repeat split. }
      split; [|split; [exact SR|split; [|split]]].
      + constructor.
        * pose proof (lk_wf K) as W. cbn [N.eqb] in W |- *. destruct W as [W1 W2 W3 W4].
          destruct SH as (S1 & S2 & S3). constructor.
          -- rewrite S2, S3. exact W1.
          -- replace (m_fp m1) with (m_fp m) by (destruct F as (fs & -> & _ & _); reflexivity).
             eapply chain_upd; [exact F|exact Nid|exact W2].
          -- destruct SR as (_ & _ & _ & _ & _ & ->). exact W3.
          -- intros i fr' o I G' U. destruct F as (fs & -> & _ & O). cbn [set_frames m_frames] in G'.
             rewrite O in G' by (intros ->; contradiction). destruct (W4 i fr' o I G' U) as (w & v & A & B).
             exists w, v. split; [exact A|]. exact B.
        * exact (lk_ids K).
        * destruct SR as (_ & _ & _ & _ & _ & ->). exact (lk_id K).
        * exists (set_arr fr arr). split; [exact G1|]. cbn [set_arr f_prev f_root f_size f_next]. repeat split; auto.
        * cbn [N.eqb]. replace (m_fp m1) with (m_fp m) by (destruct F as (fs & -> & _ & _); reflexivity). exact (lk_fp K).
        * eapply chain_upd; [exact F|exact Nid|exact (lk_chain K)].
      + eapply frame_upd_keepf; [exact F|lia].
      + intros i v Hi. lia.
      + intros i x w v Ex. destruct i; discriminate.
    - apply N.eqb_neq in En.
      set (fr2 := {| f_next := Some (VP (BRoots id) (Z.of_N n)); f_root := f_root fr; f_prev := f_prev fr; f_arr := arr; f_size := f_size fr |}).
      set (m2 := set_frames m1 (set id fr2 (m_frames m1))).
      assert (F2 : frame_upd m fr2 m2) by (eapply frame_upd_set; exact F).
      set (m3 := with_fp m2 (VP (BFrame id) 0)).
      assert (Ex : ex (Sseq (update_stack n) (set_stack n (negb (N.eqb off 0)))) t m1 = ROk Onormal t m3).
      { unfold update_stack, set_stack. destruct (N.eqb n 0) eqn:En'; [apply N.eqb_eq in En'; contradiction|].
        cbn [exec andthen eval].
        change (if (- 2 ^ 63 <=? Z.of_N n) && (Z.of_N n <? 2 ^ 64) then Some (VZ (Z.of_N n)) else None)
          with (eval id t m1 (Xconst (Z.of_N n))).
        rewrite eval_const by (change (2 ^ 63) with 9223372036854775808 in *; unfold n; lia).
        cbn [binop_eval assign]. rewrite G1. cbn [andthen set_ffield set_arr f_root f_prev f_arr f_size].
        rewrite Z.add_0_l. fold fr2 m2. cbn [orb].
        destruct (N.eqb off 0) eqn:Eo; cbn [negb exec eval assign set_tinfo].
        - f_equal.
        - f_equal. unfold m3, with_fp. assert (Efp : m_fp m2 = VP (BFrame id) 0).
          { destruct F2 as (fs & -> & _ & _). cbn. rewrite (lk_fp K), Eo. reflexivity. }
          destruct m2; cbn in *. rewrite Efp. reflexivity. }
      exists m3. split.
      { cbn [exec] in Ex. revert Ex. destruct (exec gc call decl gcIdent id (update_stack n) t m1) as [[]| | |]; cbn [andthen]; auto. }
      assert (SH3 : same_heap m m3). { pose proof (frame_upd_heap F2) as S. destruct S as (S1 & S2 & S3). repeat split; auto. }
      assert (SR : same_rest m m3).
      { split; [exact SH3|]. destruct F2 as (fs & -> & _ & _). repeat split. }
      assert (HR : forall v w, hr m a v w -> hr m3 a v w) by (intros v w; apply hr_same; exact SH3).
      assert (G3 : get id (m_frames m3) = Some fr2) by (exact (frame_upd_get F2)).
      assert (C3 : chain (m_frames m3) fp0 ids) by (change (m_frames m3) with (m_frames m2); eapply chain_upd; [exact F2|exact Nid|exact (lk_chain K)]).
      assert (SL1 : forall i v, 0 <= i < Z.of_N off -> slotv m a i v -> slotv m3 a i v).
      { intros i v Hi (fr' & w & Ga & Gb & Gc). rewrite G in Ga. injection Ga as <-.
        exists fr2, w. split; [exact G3|]. split; [|apply HR; exact Gc]. cbn [fr2 f_arr]. rewrite P2; [exact Gb|lia]. }
      assert (SL2 : forall i x w v, nth_error xs i = Some x -> get x t = Some w -> hr m a v w -> slotv m3 a (Z.of_N off + Z.of_nat i) v).
      { intros i x w v Ei Ew Hw. exists fr2, w. split; [exact G3|]. split; [|apply HR; exact Hw].
        cbn [fr2 f_arr]. rewrite (P1 i x Ei). exact Ew. }
      split; [|split; [exact SR|split; [|split; [exact SL1|exact SL2]]]].
      + assert (n0 : N.eqb n 0 = false) by (apply N.eqb_neq; exact En).
        constructor.
        * rewrite n0. pose proof (lk_wf K) as W. constructor.
          -- destruct SH3 as (_ & S2 & S3). rewrite S2, S3. exact (wf_area W).
          -- apply Ch_cons with (fr := fr2) (n := Z.of_N n) (p := fp0); auto.
             cbn [fr2 f_size]. rewrite Gs. unfold n. lia.
          -- intros i I. destruct SR as (_ & _ & _ & _ & _ & ->).
             destruct I as [<-|I]; [exact (lk_id K)|].
             pose proof (lk_ids K i I). pose proof (lk_id K). lia.
          -- intros i fr' o I G' U. destruct (Pos.eq_dec i id) as [->|Ne].
             ++ rewrite G3 in G'. injection G' as <-. destruct U as (n' & U1 & U2). cbn [fr2 f_next] in U1.
                injection U1 as <-.
                destruct (Z.lt_ge_cases o (Z.of_N off)) as [Lo|Ge].
                ** assert (On : off <> 0%N) by lia. destruct (Sl On o) as (v & S); [lia|].
                   destruct (SL1 o v) as (fr' & w & Ga & Gb & Gc); [lia|exact S|].
                   rewrite G3 in Ga. injection Ga as <-. eauto.
                ** destruct (nth_error xs (Z.to_nat (o - Z.of_N off))) as [x|] eqn:Ei.
                   --- destruct (Hx x) as (w & v & W1 & W2); [eapply nth_error_In; exact Ei|].
                       destruct (SL2 _ x w v Ei W1 W2) as (fr' & w' & Ga & Gb & Gc).
                       rewrite G3 in Ga. injection Ga as <-. exists w', v. split; [|exact Gc].
                       rewrite <- Gb. f_equal. rewrite Z2Nat.id by lia. lia.
                   --- apply nth_error_None in Ei. unfold n in U2. lia.
             ++ destruct I as [E0|I]; [congruence|].
                assert (Gi : get i (m_frames m) = Some fr').
                { destruct F2 as (fs & Em & _ & O). rewrite <- G'. unfold m3, with_fp. cbn [m_frames]. rewrite Em. cbn. symmetry. apply O. exact Ne. }
                destruct (wf_slots W) with (id := i) (fr := fr') (o := o) as (w & v & A & B); auto.
                { destruct (N.eqb off 0); [exact I|right; exact I]. }
                exists w, v. split; [exact A|apply HR; exact B].
        * exact (lk_ids K).
        * destruct SR as (_ & _ & _ & _ & _ & ->). exact (lk_id K).
        * exists fr2. split; [exact G3|]. cbn [fr2 f_prev f_root f_size f_next]. repeat split; auto.
          intros _. exists (Z.of_N n). split; [reflexivity|lia].
        * rewrite n0. reflexivity.
        * exact C3.
      + apply keepf_trans with (m1 := m2) (a1 := a).
        * eapply frame_upd_keepf; [exact F2|lia].
        * apply keepf_same; [cbn; lia| |reflexivity]. intros v w. apply hr_same. repeat split.
  Qed.

  Definition linked (off : N) (ids : list positive) : list positive := if N.eqb off 0 then ids else id :: ids.

  Lemma LK_keepf fp0 ids size off m a m' a' :
    LK fp0 ids size off m a -> keepf m a (linked off ids) (Pos.succ id) m' a' ->
    m_fp m' = m_fp m -> m_lo m' <= a' <= m_hi m' ->
    LK fp0 ids size off m' a'.
  Proof using Type.
    clear gc call. intros K [N0 KF] Efp Ar.
    destruct (lk_fr K) as (fr & G & Gp & Gr & Gs & Gn).
    pose proof (KF id ltac:(lia)) as Ki. rewrite G in Ki.
    destruct (get id (m_frames m')) as [fr'|] eqn:G'; [|contradiction].
    destruct Ki as (E1 & E2 & E3 & E4 & E5).
    assert (AG : forall i fri, In i (id :: ids) -> get i (m_frames m) = Some fri -> exists fr', get i (m_frames m') = Some fr' /\
     f_next fr' = f_next fri /\ f_root fr' = f_root fri /\ f_prev fr' = f_prev fri /\ f_size fr' = f_size fri).
    { intros i fri I Gi. assert (Li : (i < Pos.succ id)%positive).
      { destruct I as [<-|I]; [lia|]. pose proof (lk_ids K i I). lia. }
      specialize (KF i Li). rewrite Gi in KF. destruct (get i (m_frames m')) as [f2|]; [|contradiction].
      exists f2. intuition. }
    constructor.
    - pose proof (lk_wf K) as [W1 W2 W3 W4]. fold (linked off ids) in *. constructor.
      + exact Ar.
      + rewrite Efp. eapply chain_agree; [exact W2|]. intros i fri I. apply AG.
        unfold linked in I. destruct (N.eqb off 0); [right; exact I|exact I].
      + intros i I. specialize (W3 i I). lia.
      + intros i fr2 o I G2 U.
        assert (Li : (i < Pos.succ id)%positive).
        { unfold linked in I. destruct (N.eqb off 0); [pose proof (lk_ids K i I); lia|].
          destruct I as [<-|I]; [lia|]. pose proof (lk_ids K i I). lia. }
        specialize (KF i Li). rewrite G2 in KF. destruct (get i (m_frames m)) as [fr1|] eqn:G1; [|contradiction].
        destruct KF as (F1 & F2 & F3 & F4 & F5).
        assert (U' : used fr1 i o). { destruct U as (n & U1 & U2). exists n. split; [congruence|exact U2]. }
        destruct (W4 i fr1 o I G1 U') as (w & v & Aw & Hw).
        destruct (F5 I o w v U' Aw Hw) as (w' & A' & H'). eauto.
    - exact (lk_ids K).
    - pose proof (lk_id K). lia.
    - exists fr'. split; [exact G'|]. split; [congruence|]. split; [congruence|]. split; [congruence|].
      intro Ho. destruct (Gn Ho) as (n & Hn & Ln). exists n. split; [congruence|exact Ln].
    - rewrite Efp. exact (lk_fp K).
    - eapply chain_agree; [exact (lk_chain K)|]. intros i fri I. apply AG. right. exact I.
  Qed.

  Lemma slotv_keepf fp0 ids size off m a m' a' i v :
    LK fp0 ids size off m a -> keepf m a (linked off ids) (Pos.succ id) m' a' ->
    0 <= i < Z.of_N off -> slotv m a i v -> slotv m' a' i v.
  Proof.
    intros K [_ KF] Hi (fr & w & G & A & H).
    destruct (lk_fr K) as (fr0 & G0 & Gp & Gr & Gs & Gn). rewrite G in G0. injection G0 as <-.
    specialize (KF id ltac:(lia)). rewrite G in KF.
    destruct (get id (m_frames m')) as [fr'|] eqn:G'; [|contradiction].
    destruct KF as (_ & _ & _ & _ & E5).
    destruct (E5) with (o := i) (w := w) (v := v) as (w' & A' & H').
    - unfold linked. destruct (N.eqb off 0) eqn:E; [apply N.eqb_eq in E; lia|left; reflexivity].
    - destruct Gn as (n & Hn & Ln); [lia|]. exists n. split; [exact Hn|lia].
    - exact A.
    - exact H.
    - exists fr', w'. auto.
  Qed.

  (** undoing the frame *)
  Lemma exec_discard fp0 ids size off xs t m a b :
    LK fp0 ids size (off + N.of_nat (length xs)) m a -> size < 2 ^ 63 ->
    Z.of_N off + Z.of_nat (length xs) <= size -> incl xs decl -> b = negb (N.eqb off 0) ->
    (forall i x, nth_error xs i = Some x -> exists v, slotv m a (Z.of_N off + Z.of_nat i) v) ->
    exists t' m', ex (Sseq (pop_aux xs off Sskip) (reset_stack (off + N.of_nat (length xs)) b)) t m = ROk Onormal t' m' /\
      LK fp0 ids size off m' a /\ same_rest m m' /\ m_frames m' = m_frames m /\
      (forall x, ~ In x xs -> get x t' = get x t) /\
      (forall x, In x xs -> exists i w fr, nth_error xs i = Some x /\ get x t' = Some w /\
          get id (m_frames m) = Some fr /\ f_arr fr (Z.of_N off + Z.of_nat i) = Some w).
  Proof.
    intros K L Hs D -> Sl. destruct (lk_fr K) as (fr & G & Gp & Gr & Gs & Gn).
    assert (SL' : forall o, Z.of_N off <= o < Z.of_N off + Z.of_nat (length xs) -> exists w, f_arr fr o = Some w).
    { intros o Ho. destruct (nth_error xs (Z.to_nat (o - Z.of_N off))) as [x|] eqn:Ei.
      - destruct (Sl _ x Ei) as (v & fr' & w & Ga & Gb & Gc). rewrite G in Ga. injection Ga as <-.
        exists w. rewrite <- Gb. f_equal. rewrite Z2Nat.id by lia. lia.
      - apply nth_error_None in Ei. lia. }
    destruct (@exec_pop xs off Sskip t m fr G) as (t' & P1 & P2 & E).
    { rewrite Gs. exact Hs. } { rewrite Gs. exact L. } { exact D. } { exact SL'. }
    cbn [exec]. rewrite E. cbn [exec andthen].
    set (n := (off + N.of_nat (length xs))%N) in *.
    assert (Px : forall x, In x xs -> exists i w fr, nth_error xs i = Some x /\ get x t' = Some w /\
          get id (m_frames m) = Some fr /\ f_arr fr (Z.of_N off + Z.of_nat i) = Some w).
    { intros x I. destruct (P1 x I) as (i & E1 & E2).
      destruct (SL' (Z.of_N off + Z.of_nat i)) as (w & W).
      { assert (i < length xs)%nat by (apply nth_error_Some; congruence). lia. }
      exists i, w, fr. split; [exact E1|]. split; [congruence|]. split; [exact G|exact W]. }
    destruct (N.eqb n 0 || negb (N.eqb off 0))%bool eqn:Eb.
    - exists t', m. unfold reset_stack. rewrite Eb. cbn [exec]. split; [reflexivity|].
      split; [|split; [repeat split|split; [reflexivity|split; [exact P2|exact Px]]]].
      destruct (N.eqb off 0) eqn:Eo.
      + cbn [negb] in Eb. rewrite orb_false_r in Eb. apply N.eqb_eq in Eb. apply N.eqb_eq in Eo.
        rewrite Eb in K. rewrite Eo. exact K.
      + assert (En : N.eqb n 0 = false). { apply N.eqb_neq. apply N.eqb_neq in Eo. unfold n. lia. }
        destruct K as [K1 K2 K3 K4 K5 K6]. rewrite En in *. constructor; try rewrite Eo; auto.
        exists fr. repeat split; auto. intros _. apply N.eqb_neq in En. destruct (Gn En) as (n' & Q1 & Q2).
        exists n'. split; [exact Q1|]. unfold n in Q2. lia.
    - apply orb_false_iff in Eb. destruct Eb as [En Eo]. apply negb_false_iff in Eo.
      exists t', (with_fp m fp0). unfold reset_stack. rewrite En, Eo. cbn [negb orb exec eval frame_get].
      split.
      { unfold frame_get. rewrite G, Gp. cbn [assign set_tinfo]. reflexivity. }
      split; [|split; [repeat split|split; [reflexivity|split; [exact P2|exact Px]]]].
      destruct K as [K1 K2 K3 K4 K5 K6]. rewrite En in *.
      constructor; rewrite ?Eo; auto.
      + destruct K1 as [W1 W2 W3 W4]. constructor; auto.
        * intros i I. apply W3. right. exact I.
        * intros i fr' o I G' U. destruct (W4 i fr' o) as (w & v & A & B); [right; exact I|exact G'|exact U|].
          exists w, v. split; [exact A|]. exact B.
      + exists fr. repeat split; auto. intros Ho. apply N.eqb_eq in Eo. congruence.
  Qed.

  (** ** The collector call *)

  Definition temps_ok (t : tmap cval) (m : mem) (a : Z) : Prop :=
    get allocIdent t = Some (VP BHeap a) /\ get limitIdent t = Some (VP BHeap (m_hi m)).

  Lemma snd_gc_call num xs off : (num <> 0)%nat ->
    snd (make_GC_call num xs off) = (off + N.of_nat (length xs))%N.
  Proof.
    intro H. unfold make_GC_call, push_live_vars_offset.
    pose proof (snd_push_aux xs off Sskip) as E. destruct (push_aux xs off Sskip) as [p n]. cbn [snd] in E. subst n.
    destruct (Nat.eqb num 0) eqn:Q; [apply Nat.eqb_eq in Q; contradiction|]. reflexivity.
  Qed.

  Lemma exec_gc_call fp0 ids size off xs num t m a :
    gc_ok gc -> LK fp0 ids size off m a -> size < 2 ^ 63 ->
    (num <> 0%nat -> Z.of_N off + Z.of_nat (length xs) <= size) ->
    incl xs decl -> In allocIdent decl -> In limitIdent decl ->
    ~ In allocIdent xs -> ~ In limitIdent xs ->
    area m a -> temps_ok t m a -> Z.of_nat num < 2 ^ 63 ->
    (off <> 0%N -> forall i, 0 <= i < Z.of_N off -> exists v, slotv m a i v) ->
    (forall x, In x xs -> exists w v, get x t = Some w /\ hr m a v w) ->
    ex (fst (make_GC_call num xs off)) t m = RAbort \/
    exists t' m' a', ex (fst (make_GC_call num xs off)) t m = ROk Onormal t' m' /\
      LK fp0 ids size off m' a' /\ area m' a' /\ temps_ok t' m' a' /\ a' + Z.of_nat num <= m_hi m' /\
      keepf m a ids id m' a' /\
      (forall i v, 0 <= i < Z.of_N off -> slotv m a i v -> slotv m' a' i v) /\
      (forall x w v, In x xs -> get x t = Some w -> hr m a v w -> exists w', get x t' = Some w' /\ hr m' a' v w') /\
      (forall x, ~ In x xs -> x <> allocIdent -> x <> limitIdent -> get x t' = get x t).
  Proof.
    intros GC K L Hs D Da Dl Na Nl Ar Te Ln Sl Hx.
    assert (Stay : a + Z.of_nat num <= m_hi m -> 
      exists t' m' a', ROk Onormal t m = ROk Onormal t' m' /\
      LK fp0 ids size off m' a' /\ area m' a' /\ temps_ok t' m' a' /\ a' + Z.of_nat num <= m_hi m' /\
      keepf m a ids id m' a' /\
      (forall i v, 0 <= i < Z.of_N off -> slotv m a i v -> slotv m' a' i v) /\
      (forall x w v, In x xs -> get x t = Some w -> hr m a v w -> exists w', get x t' = Some w' /\ hr m' a' v w') /\
      (forall x, ~ In x xs -> x <> allocIdent -> x <> limitIdent -> get x t' = get x t)).
    { intro H. exists t, m, a. split; [reflexivity|]. split; [exact K|]. split; [exact Ar|]. split; [exact Te|].
      split; [exact H|]. split; [apply keepf_refl|]. split; [auto|]. split; [|auto]. intros x w v I E1 E2. eauto. }
    unfold make_GC_call, push_live_vars_offset.
    pose proof (snd_push_aux xs off Sskip) as Es.
    destruct (push_aux xs off Sskip) as [push sl] eqn:Ep. cbn [snd] in Es. subst sl.
    destruct (Nat.eqb num 0) eqn:En.
    { apply Nat.eqb_eq in En. subst num. right. cbn [fst exec]. apply Stay. pose proof (wf_area (lk_wf K)). lia. }
    apply Nat.eqb_neq in En. specialize (Hs En).
    cbn [fst]. set (n := (off + N.of_nat (length xs))%N) in *.
    destruct Te as [Ta Tl]. cbn [exec].
    assert (Ec : eval id t m (Xnot (Xbin Ole (Xconst (Z.of_nat num)) (Xbin Osub (Xtemp limitIdent) (Xtemp allocIdent)))) =
      Some (b2v ((if Z.of_nat num <=? m_hi m - a then 1 else 0) =? 0))).
    { cbn [eval]. rewrite Ta, Tl.
      change (if (- 2 ^ 63 <=? Z.of_nat num) && (Z.of_nat num <? 2 ^ 64) then Some (VZ (Z.of_nat num)) else None)
          with (eval id t m (Xconst (Z.of_nat num))).
      rewrite eval_const by (change (2 ^ 63) with 9223372036854775808 in *; lia). reflexivity. }
    rewrite Ec. cbn [b2v]. destruct (Z.of_nat num <=? m_hi m - a) eqn:Eq.
    { right. cbn. apply Stay. apply Z.leb_le in Eq. lia. }
    clear Stay. cbn [Z.eqb].
    (* the collector runs *)
    destruct (@exec_make_stack fp0 ids size off xs t m a K L Hs Sl Hx) as (m1 & E1 & K1 & R1 & F1 & S1a & S1b).
    rewrite Ep in E1. cbn [fst] in E1. unfold make_stack in E1. fold n in E1.
    cbn [exec] in E1. rewrite E1. cbn [andthen exec].
    change (if (- 2 ^ 63 <=? Z.of_nat num) && (Z.of_nat num <? 2 ^ 64) then Some (VZ (Z.of_nat num)) else None)
          with (eval id t m1 (Xconst (Z.of_nat num))).
    rewrite eval_const by (change (2 ^ 63) with 9223372036854775808 in *; lia).
    cbn [assign set_tinfo andthen exec eval eval_list].
    set (m2 := {| m_heap := m_heap m1; m_lo := m_lo m1; m_hi := m_hi m1; m_args := m_args m1; m_alloc := m_alloc m1;
                  m_limit := m_limit m1; m_fp := m_fp m1; m_nalloc := VZ (Z.of_nat num); m_frames := m_frames m1; m_next := m_next m1 |}).
    rewrite Pos.eqb_refl.
    assert (H12 : same_heap m1 m2) by (repeat split).
    assert (K2 : LK fp0 ids size n m2 a).
    { eapply LK_keepf; [exact K1| |reflexivity|exact (wf_area (lk_wf K1))].
      apply keepf_same; [cbn; lia| |reflexivity]. intros v w. apply hr_same. exact H12. }
    assert (A2 : area m2 a).
    { destruct R1 as ((_ & _ & Hh) & _ & Ra & Rl & _). destruct Ar as [Ar1 Ar2]. split; cbn [m2 m_alloc m_limit m_hi]; congruence. }
    destruct (GC m2 a _ (Z.of_nat num) (lk_wf K2) A2 eq_refl ltac:(lia)) as [Eg|(m3 & a3 & Eg & A3 & B3 & C3 & D3 & F3)].
    { left. rewrite Eg. reflexivity. }
    right. rewrite Eg. cbn [andthen].
    assert (F3' : keepf m2 a (linked n ids) (Pos.succ id) m3 a3).
    { eapply keepf_weaken; [exact F3| |apply incl_refl]. pose proof (lk_id K2). lia. }
    assert (K3 : LK fp0 ids size n m3 a3).
    { eapply LK_keepf; [exact K2|exact F3'|exact D3|]. lia. }
    assert (S12 : forall i v, slotv m1 a i v -> slotv m2 a i v).
    { intros i v (fr & w & G & A & H). exists fr, w. split; [exact G|]. split; [exact A|]. eapply hr_same; [exact H12|exact H]. }
    assert (S3 : forall i v, 0 <= i < Z.of_N n -> slotv m1 a i v -> slotv m3 a3 i v).
    { intros i v Hi S. eapply slotv_keepf; [exact K2|exact F3'|exact Hi|apply S12; exact S]. }
    assert (In_n : forall i x, nth_error xs i = Some x -> 0 <= Z.of_N off + Z.of_nat i < Z.of_N n).
    { intros i x Ei. assert (i < length xs)%nat by (apply nth_error_Some; congruence). unfold n. lia. }
    destruct (@exec_discard fp0 ids size off xs t m3 a3 (negb (N.eqb off 0))) as (t4 & m4 & E4 & K4 & R4 & Fr4 & P4 & Q4); auto.
    { intros i x Ei. destruct (Hx x) as (w & v & Ew & Hw); [eapply nth_error_In; exact Ei|].
      exists v. apply S3; [eapply In_n; exact Ei|]. eapply S1b; eauto. }
    fold n in E4. unfold pop_live_vars_offset. cbn [exec] in E4. rewrite E4. cbn [andthen exec eval tinfo_get].
    unfold assign_temp.
    assert (M1 : ANF_Syntax.mem allocIdent decl = true) by (apply mem_In; exact Da).
    assert (M2 : ANF_Syntax.mem limitIdent decl = true) by (apply mem_In; exact Dl).
    rewrite M1. cbn [andthen exec eval tinfo_get assign_temp]. unfold assign_temp. rewrite M2.
    pose proof R4 as ((Hh & Hl & Hhi) & _ & Ra4 & Rl4 & _ & Rn4). destruct A3 as [A3a A3l].
    assert (A4 : area m4 a3). { split; [congruence|]. rewrite Rl4, A3l, Hhi. reflexivity. }
    exists (set limitIdent (m_limit m4) (set allocIdent (m_alloc m4) t4)), m4, a3.
    assert (HR4 : forall v w, hr m3 a3 v w -> hr m4 a3 v w) by (intros v w; apply hr_same; repeat split; auto).
    split; [reflexivity|]. split; [exact K4|]. split; [exact A4|].
    assert (Nal : allocIdent <> limitIdent) by discriminate.
    split; [|split; [|split; [|split; [|split]]]].
    - split.
      + rewrite get_set_other by exact Nal. rewrite get_set_same. f_equal. apply A4.
      + rewrite get_set_same. f_equal. apply A4.
    - rewrite Hhi. exact C3.
    - apply keepf_trans with (m1 := m1) (a1 := a); [exact F1|].
      apply keepf_trans with (m1 := m2) (a1 := a).
      { apply keepf_same; [cbn; lia| |reflexivity]. intros v w. apply hr_same. exact H12. }
      apply keepf_trans with (m1 := m3) (a1 := a3).
      { eapply keepf_weaken; [exact F3'|lia|]. unfold linked. destruct (N.eqb n 0); [apply incl_refl|apply incl_tl; apply incl_refl]. }
      apply keepf_same; [rewrite Rn4; lia|exact HR4|]. intros i _. rewrite Fr4. reflexivity.
    - intros i v Hi S. destruct (S3 i v) as (fr & w & G & A & H); [unfold n; lia|apply S1a; assumption|].
      exists fr, w. rewrite Fr4. auto.
    - intros x w v I Ew Hw. destruct (Q4 x I) as (i & w' & fr & Ei & Ew' & Gf & Af).
      exists w'. assert (Nx : x <> allocIdent /\ x <> limitIdent) by (split; intros ->; contradiction).
      destruct Nx as [Nx1 Nx2]. rewrite !get_set_other by assumption. split; [exact Ew'|].
      apply HR4. destruct (S3 (Z.of_N off + Z.of_nat i) v) as (fr' & w2 & G' & A' & H'); [eapply In_n; exact Ei|eapply S1b; eauto|].
      rewrite Gf in G'. injection G' as <-. rewrite Af in A'. injection A' as <-. exact H'.
    - intros x Nx Nx1 Nx2. rewrite !get_set_other by assumption. apply P4. exact Nx.
  Qed.
End S.
