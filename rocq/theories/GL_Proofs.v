(** * Proofs about the glue code *)
From Coq Require Import ZArith NArith List Lia Bool.
Import ListNotations.
From Verif Require Import ANF_Syntax CG_Clight CG_Proofs Layout_Proofs GL_Model GL_Spec.
Set Implicit Arguments.
Local Open Scope Z_scope.
Ltac Zify.zify_post_hook ::= idtac.

(** ** Memory *)

Lemma filter_same A (fs : tmap A) id i : i <> id -> get i (filter (fun p => negb (Pos.eqb (fst p) id)) fs) = get i fs.
Proof.
  intro N. induction fs as [|[j v] fs IH]; [reflexivity|]. cbn [filter fst get].
  destruct (Pos.eqb_spec j id) as [->|M]; cbn [negb get].
  - rewrite IH. destruct (Pos.eq_dec i id); [contradiction|reflexivity].
  - rewrite IH. reflexivity.
Qed.

Lemma untouched_refl m : untouched m m.
Proof. constructor; auto; lia. Qed.

Lemma untouched_trans m1 m2 m3 : untouched m1 m2 -> untouched m2 m3 -> untouched m1 m3.
Proof.
  intros [A1 A2 A3 A4 A5 A6 A7 A8 A9 A10] [B1 B2 B3 B4 B5 B6 B7 B8 B9 B10]. constructor; try congruence.
  - intros id L. rewrite B9 by lia. apply A9. exact L.
  - lia.
Qed.

(** a function whose body changes nothing *)
Lemma untouched_call size m m' : untouched (enter size m) m' -> untouched m (leave (m_next m) m').
Proof.
  intro U. destruct U as [U1 U2 U3 U4 U5 U6 U7 U8 U9 U10]. cbn [enter m_heap m_lo m_hi m_args m_alloc m_limit m_fp m_nalloc m_frames m_next] in *.
  constructor; cbn [leave set_frames m_heap m_lo m_hi m_args m_alloc m_limit m_fp m_nalloc m_frames m_next]; auto.
  - intros id L. rewrite filter_same by lia. rewrite U9 by lia. apply get_set_other. lia.
  - lia.
Qed.

(** ** Running one function *)

Section Run.
  Variable gc : mem -> gres.
  Variable gcId : positive.
  Variable prog : cprog.

  Lemma run_S k f vs m cf t : get f prog = Some cf -> set_lists (cf_params cf) vs [] = Some t ->
    run gc gcId prog (S k) f vs m =
    match exec gc (run gc gcId prog k) (cf_params cf ++ cf_temps cf) gcId (m_next m) (cf_body cf) t (enter (cf_slots cf) m) with
    | ROk (Oret v) _ m' => COk v (leave (m_next m) m')
    | ROk _ _ _ => CUB
    | RUB => CUB | RAbort => CAbort | RTime => CTime
    end.
  Proof. intros G E. cbn [run]. rewrite G, E. reflexivity. Qed.

  Lemma const_ok id t m z : - 2 ^ 63 <= z < 2 ^ 64 -> eval id t m (Xconst z) = Some (VZ z).
  Proof.
    intro H. cbn [eval]. destruct (Z.leb_spec (- 2 ^ 63) z), (Z.ltb_spec z (2 ^ 64)); try lia. reflexivity.
  Qed.

  Lemma const_small id t m z : - 2 ^ 31 <= z < 2 ^ 31 -> eval id t m (Xconst z) = Some (VZ z).
  Proof. intro H. apply const_ok. change (2 ^ 31) with 2147483648 in H. change (2 ^ 63) with 9223372036854775808. change (2 ^ 64) with 18446744073709551616. lia. Qed.

  Lemma int32_small z : 0 <= z < 2 ^ 31 -> int32 z = z.
  Proof.
    intro H. unfold int32. rewrite Z.mod_small by (change (2 ^ 32) with 4294967296; change (2 ^ 31) with 2147483648 in H; lia).
    destruct (Z.ltb_spec z (2 ^ 31)); [reflexivity|lia].
  Qed.

  Lemma temp_ok id x w t m : eval id (set x w t) m (Xtemp x) = Some w.
  Proof. cbn [eval]. apply get_set_same. Qed.

  (** the argument is an even pointer or an odd number *)
  Definition immediate (w : cval) : option Z := match w with VZ z => if Z.odd z then Some z else None | _ => None end.

  Lemma run_is_ptr k f w m : get f prog = Some (is_ptr 1) ->
    (exists p, w = VP BHeap p) \/ (exists z, w = VZ z /\ Z.land z 1 = 1) ->
    exists m', run gc gcId prog (S k) f [w] m = COk (VZ (match w with VP _ _ => 1 | _ => 0 end)) m' /\ untouched m m'.
  Proof.
    intros G W. exists (leave (m_next m) (enter 0 m)). split; [|apply untouched_call with (size := 0), untouched_refl].
    rewrite run_S with (cf := is_ptr 1) (t := set 1%positive w []) by (assumption || reflexivity).
    destruct W as [(p & ->)|(z & -> & O)].
    - reflexivity.
    - assert (E : eval (m_next m) (set 1%positive (VZ z) []) (enter 0 m) (Xbin Oand (Xcast (Xtemp 1)) (Xconst 1)) = Some (VZ (Z.land z 1))) by reflexivity.
      cbn [is_ptr cf_body cf_slots exec]. remember (Xbin Oand (Xcast (Xtemp 1)) (Xconst 1)) as x eqn:Ex. cbn [eval]. rewrite E, O. reflexivity.
  Qed.

  Lemma run_guo k f v z m : get f prog = Some (get_unboxed_ordinal v) ->
    exists m', run gc gcId prog (S k) f [VZ z] m = COk (VZ (Z.shiftr z 1)) m' /\ untouched m m'.
  Proof.
    intro G. exists (leave (m_next m) (enter 0 m)). split; [|apply untouched_call with (size := 0), untouched_refl].
    rewrite run_S with (cf := get_unboxed_ordinal v) (t := set v (VZ z) []) by (assumption || reflexivity).
    cbn [get_unboxed_ordinal cf_body exec]. cbn [eval].
    rewrite get_set_same. reflexivity.
  Qed.

  Lemma fld_ok id t m a b o i : eval id t m a = Some (VP b o) -> - 2 ^ 63 <= i < 2 ^ 64 -> eval id t m (fld a i) = load m b (o + i).
  Proof. intros E H. unfold fld. cbn [eval]. rewrite E. pose proof (const_ok id t m H) as C. cbn [eval] in C. rewrite C. reflexivity. Qed.

  Lemma run_gbo k f v p hdr m : get f prog = Some (get_boxed_ordinal v) -> m_heap m (p - 1) = Some (VZ hdr) ->
    exists m', run gc gcId prog (S k) f [VP BHeap p] m = COk (VZ (Z.land hdr 255)) m' /\ untouched m m'.
  Proof.
    intros G H. exists (leave (m_next m) (enter 0 m)). split; [|apply untouched_call with (size := 0), untouched_refl].
    rewrite run_S with (cf := get_boxed_ordinal v) (t := set v (VP BHeap p) []) by (assumption || reflexivity).
    cbn [get_boxed_ordinal cf_body cf_slots exec]. 
    assert (E : eval (m_next m) (set v (VP BHeap p) []) (enter 0 m) (fld (Xcast (Xtemp v)) (-1)) = Some (VZ hdr)).
    { erewrite fld_ok; [|cbn [eval]; apply get_set_same|lia]. exact H. }
    replace (eval (m_next m) (set v (VP BHeap p) []) (enter 0 m) (Xbin Oand (Xcast (fld (Xcast (Xtemp v)) (-1))) (Xconst 255)))
      with (Some (VZ (Z.land hdr 255))); [reflexivity|].
    symmetry.
    remember (fld (Xcast (Xtemp v)) (-1)) as x eqn:Ex. cbn [eval]. rewrite E. reflexivity.
  Qed.

  (** ** Reading tags *)

  Fixpoint assoc (z : nat) (l : list (nat * nat)) : option nat :=
    match l with [] => None | (a, b) :: l' => if Nat.eqb a z then Some b else assoc z l' end.

  Lemma ex_switch call decl id e ls t m : exec gc call decl gcId id (Sswitch e ls) t m =
    match eval id t m e with
    | Some (VZ z) => unbreak (exec_sel gc call decl gcId id (if has_label z ls then Some z else None) ls t m)
    | _ => RUB
    end.
  Proof. reflexivity. Qed.
  Lemma ex_sel call decl id c s ls l t m : exec_sel gc call decl gcId id l (LScons c s ls) t m =
    if lab_eqb c l then andthen (exec gc call decl gcId id s t m) (exec_all gc call decl gcId id ls) else exec_sel gc call decl gcId id l ls t m.
  Proof. reflexivity. Qed.
  Lemma ex_seq call decl id s1 s2 t m : exec gc call decl gcId id (Sseq s1 s2) t m = andthen (exec gc call decl gcId id s1 t m) (exec gc call decl gcId id s2).
  Proof. reflexivity. Qed.
  Lemma ex_if call decl id e s1 s2 t m : exec gc call decl gcId id (Sif e s1 s2) t m =
    match eval id t m e with
    | Some (VZ z) => if z =? 0 then exec gc call decl gcId id s2 t m else exec gc call decl gcId id s1 t m
    | _ => RUB
    end.
  Proof. reflexivity. Qed.

  Lemma switch_pairs call decl id e z t m pairs tag : eval id t m e = Some (VZ (Z.of_nat z)) -> assoc z pairs = Some tag -> Z.of_nat tag < 2 ^ 31 ->
    exec gc call decl gcId id (Sswitch e (matches_to_LS pairs)) t m = ROk (Oret (VZ (Z.of_nat tag))) t m.
  Proof.
    intros E A L. rewrite ex_switch, E.
    assert (H : has_label (Z.of_nat z) (matches_to_LS pairs) = true).
    { revert A. induction pairs as [|[a b] pairs IH]; [discriminate|]. cbn [assoc matches_to_LS has_label].
      destruct (Nat.eqb_spec a z) as [->|N]; intro A; [rewrite Z.eqb_refl; reflexivity|]. rewrite IH by exact A. apply orb_true_r. }
    rewrite H. clear H.
    enough (X : exec_sel gc call decl gcId id (Some (Z.of_nat z)) (matches_to_LS pairs) t m = ROk (Oret (VZ (Z.of_nat tag))) t m) by (rewrite X; reflexivity).
    revert A. induction pairs as [|[a b] pairs IH]; [discriminate|]. cbn [assoc matches_to_LS]. intro A.
    rewrite ex_sel. cbn [lab_eqb]. destruct (Nat.eqb_spec a z) as [->|N].
    - rewrite Z.eqb_refl. apply Some_inj in A. subst b. cbn [exec]. rewrite int32_small by lia.
      rewrite const_small by lia. reflexivity.
    - destruct (Z.eqb_spec (Z.of_nat a) (Z.of_nat z)) as [Q|Q]; [lia|]. apply IH. exact A.
  Qed.
End Run.

Lemma rank_cons a cs k b : rank (b :: cs) (S k) a = ((if same_kind a b then 1 else 0) + rank cs k a)%N.
Proof. unfold rank. cbn [firstn filter]. destruct (same_kind a b); cbn [length]; lia. Qed.

Lemma rank_0 a cs : rank cs 0 a = 0%N.
Proof. reflexivity. Qed.

Lemma ordinals_spec : forall cs b u t bs us, match_ordinals_with_tag cs b u t = (bs, us) ->
  forall k c, nth_error cs k = Some c ->
  match cstr_arity c with
  | O => assoc (u + N.to_nat (rank (arities cs) k 0)) us = Some (t + k)%nat
  | S a => assoc (b + N.to_nat (rank (arities cs) k (S a))) bs = Some (t + k)%nat
  end.
Proof.
  induction cs as [|c0 cs IH]; intros b u t bs us E [|k] c H; try discriminate.
  - cbn in H. apply Some_inj in H. subst c0. cbn [match_ordinals_with_tag] in E. destruct (cstr_arity c) as [|a] eqn:Ea.
    + destruct (match_ordinals_with_tag cs b (S u) (S t)) as [bs' us']. assert (us = (u, t) :: us') by congruence. subst us.
      rewrite rank_0. change (N.to_nat 0) with O. rewrite !Nat.add_0_r. cbn [assoc]. rewrite Nat.eqb_refl. reflexivity.
    + destruct (match_ordinals_with_tag cs (S b) u (S t)) as [bs' us']. assert (bs = (b, t) :: bs') by congruence. subst bs.
      rewrite rank_0. change (N.to_nat 0) with O. rewrite !Nat.add_0_r. cbn [assoc]. rewrite Nat.eqb_refl. reflexivity.
  - cbn [nth_error] in H. cbn [arities map]. cbn [match_ordinals_with_tag] in E.
    destruct (cstr_arity c0) as [|a0].
    + destruct (match_ordinals_with_tag cs b (S u) (S t)) as [bs' us'] eqn:E'. specialize (IH _ _ _ _ _ E' _ _ H).
      assert (us = (u, t) :: us' /\ bs = bs') as [-> ->] by (split; congruence). destruct (cstr_arity c) as [|a].
      * rewrite rank_cons. cbn [same_kind Nat.eqb Bool.eqb assoc]. destruct (Nat.eqb_spec u (u + N.to_nat (1 + rank (map cstr_arity cs) k 0))) as [Q|Q]; [lia|].
        replace (u + N.to_nat (1 + rank (map cstr_arity cs) k 0))%nat with (S u + N.to_nat (rank (arities cs) k 0))%nat by (unfold arities; lia).
        rewrite IH. f_equal. lia.
      * rewrite rank_cons. cbn [same_kind Nat.eqb Bool.eqb]. rewrite N.add_0_l. refine (eq_trans IH _). f_equal. lia.
    + destruct (match_ordinals_with_tag cs (S b) u (S t)) as [bs' us'] eqn:E'. specialize (IH _ _ _ _ _ E' _ _ H).
      assert (us = us' /\ bs = (b, t) :: bs') as [-> ->] by (split; congruence). destruct (cstr_arity c) as [|a].
      * rewrite rank_cons. cbn [same_kind Nat.eqb Bool.eqb]. rewrite N.add_0_l. refine (eq_trans IH _). f_equal. lia.
      * rewrite rank_cons. cbn [same_kind Nat.eqb Bool.eqb assoc]. destruct (Nat.eqb_spec b (b + N.to_nat (1 + rank (map cstr_arity cs) k (S a)))) as [Q|Q]; [lia|].
        replace (b + N.to_nat (1 + rank (map cstr_arity cs) k (S a)))%nat with (S b + N.to_nat (rank (arities cs) k (S a)))%nat by (unfold arities; lia).
        rewrite IH. f_equal. lia.
Qed.

(** all constructors of one kind: the ordinal is the index *)
Lemma ordinals_one cs : forall b u t, 
  (snd (match_ordinals_with_tag cs b u t) = [] -> forall k c, nth_error cs k = Some c -> cstr_arity c <> O) /\
  (fst (match_ordinals_with_tag cs b u t) = [] -> forall k c, nth_error cs k = Some c -> cstr_arity c = O).
Proof.
  induction cs as [|c0 cs IH]; intros b u t; (split; [|]); try (intros _ [|k] c H; discriminate); cbn [match_ordinals_with_tag].
  - destruct (cstr_arity c0) as [|a0] eqn:E0.
    + destruct (match_ordinals_with_tag cs b (S u) (S t)) as [bs' us']. intro Q; discriminate.
    + pose proof (proj1 (IH (S b) u (S t))) as I. destruct (match_ordinals_with_tag cs (S b) u (S t)) as [bs' us']. cbn [snd] in *.
      intros Q [|k] c H; [cbn in H; apply Some_inj in H; subst; rewrite E0; discriminate|]. exact (I Q k c H).
  - destruct (cstr_arity c0) as [|a0] eqn:E0.
    + pose proof (proj2 (IH b (S u) (S t))) as I. destruct (match_ordinals_with_tag cs b (S u) (S t)) as [bs' us']. cbn [fst] in *.
      intros Q [|k] c H; [cbn in H; apply Some_inj in H; subst; exact E0|]. exact (I Q k c H).
    + destruct (match_ordinals_with_tag cs (S b) u (S t)) as [bs' us']. intro Q; discriminate.
Qed.

Lemma rank_all a : forall cs k, (k <= length cs)%nat -> (forall i b, nth_error cs i = Some b -> same_kind a b = true) -> rank cs k a = N.of_nat k.
Proof.
  induction cs as [|b cs IH]; intros [|k] L H; try reflexivity; cbn [length] in L; [lia|].
  rewrite rank_cons, (H O b eq_refl), IH; [lia|lia|]. intros i b' E. apply (H (S i)). exact E.
Qed.

Lemma rank_le cs k a : (N.to_nat (rank cs k a) <= k)%nat.
Proof.
  revert k. induction cs as [|b cs IH]; intros [|k]; try (cbn; lia). rewrite rank_cons. specialize (IH k). destruct (same_kind a b); lia.
Qed.

Lemma rank_bound a : forall cs k, nth_error cs k <> None -> (exists b, nth_error cs k = Some b /\ same_kind a b = true) ->
  (N.to_nat (rank cs k a) < length (filter (same_kind a) cs))%nat.
Proof.
  induction cs as [|b cs IH]; intros [|k] H (b' & E & K); try discriminate.
  - cbn in E. apply Some_inj in E. subst b'. rewrite rank_0. cbn [filter]. rewrite K. cbn [length]. lia.
  - rewrite rank_cons. cbn [nth_error] in *. specialize (IH k H (ex_intro _ b' (conj E K))). cbn [filter].
    destruct (same_kind a b); cbn [length]; lia.
Qed.

Section Tag.
  Variable gc : mem -> gres.
  Variable gcId : positive.
  Variable prog : cprog.
  Variable tb : toolbox.
  Variable vg vb : positive.
  Hypothesis G1 : get (is_ptr_info tb) prog = Some (is_ptr 1).
  Hypothesis G2 : get (guo_info tb) prog = Some (get_unboxed_ordinal vg).
  Hypothesis G3 : get (gbo_info tb) prog = Some (get_boxed_ordinal vb).
  Hypothesis N1 : is_ptr_info tb <> gcId.
  Hypothesis N2 : guo_info tb <> gcId.
  Hypothesis N3 : gbo_info tb <> gcId.

  Lemma ex_call1 call decl id x f g v w r t m m' : f = g -> g <> gcId -> get v t = Some w -> call g [w] m = COk r m' -> In x decl ->
    exec gc call decl gcId id (Scall (Some x) (Xfun f) [Xtemp v]) t m = ROk Onormal (set x r t) m'.
  Proof.
    intros -> N G C I. cbn [exec eval eval_list]. rewrite G.
    destruct (Pos.eqb_spec g gcId); [contradiction|]. rewrite C. apply assign_temp_ok. exact I.
  Qed.

  Lemma run_get_tag k f b t v cs j w m : b <> v -> t <> v -> get f prog = Some (get_tag tb b t v cs) ->
    Z.of_nat (length cs) <= 2 ^ 31 -> built (m_heap m) cs j w ->
    exists m', run gc gcId prog (S (S k)) f [w] m = COk (VZ (Z.of_nat j)) m' /\ untouched m m'.
  Proof.
    intros Nb Nt G L (c & Ec & W).
    assert (Lj : Z.of_nat j < 2 ^ 31) by (assert (j < length cs)%nat by (apply nth_error_Some; congruence); lia).
    assert (SL : forall cf, cf_params cf = [v] -> set_lists (cf_params cf) [w] [] = Some (set v w [])) by (intros cf ->; reflexivity).
    assert (IMM : forall z, Z.land (2 * z + 1) 1 = 1).
    { intro z. apply and_enum. }
    rewrite run_S with (cf := get_tag tb b t v cs) (t := set v w []); [|exact G|apply SL; unfold get_tag; destruct (match_ordinals_with_tag cs 0 0 0) as [[|? ?] [|? ?]]; reflexivity].
    destruct (match_ordinals_with_tag cs 0 0 0) as [bs us] eqn:E. pose proof (ordinals_spec _ _ _ _ E _ Ec) as SP.
    pose proof (ordinals_one cs 0 0 0) as [O1 O2]. rewrite E in O1, O2. cbn [fst snd] in O1, O2.
    assert (ALL : (forall i c0, nth_error cs i = Some c0 -> (cstr_arity c0 = O <-> cstr_arity c = O)) -> ordinal cs j c = Z.of_nat j).
    { intro H. unfold ordinal. rewrite rank_all; [lia|unfold arities; rewrite map_length; assert (j < length cs)%nat by (apply nth_error_Some; congruence); lia|].
      intros i a0 Hi. unfold arities in Hi. rewrite nth_error_map in Hi. destruct (nth_error cs i) as [c0|] eqn:E0; [|discriminate].
      cbn in Hi. apply Some_inj in Hi. subst a0. specialize (H _ _ E0). unfold same_kind. destruct (cstr_arity c), (cstr_arity c0); cbn; intuition discriminate. }
    (* the two ways to read the ordinal *)
    assert (RB : forall m0, untouched m m0 -> cstr_arity c <> O -> exists m1, run gc gcId prog (S k) (gbo_info tb) [w] m0 = COk (VZ (ordinal cs j c)) m1 /\ untouched m0 m1).
    { intros m0 U A. destruct (cstr_arity c); [congruence|]. destruct W as (p & hdr & -> & H & <-). apply run_gbo with (v := vb); [exact G3|].
      rewrite (u_heap U). exact H. }
    assert (RU : forall m0, cstr_arity c = O -> exists m1, run gc gcId prog (S k) (guo_info tb) [w] m0 = COk (VZ (ordinal cs j c)) m1 /\ untouched m0 m1).
    { intros m0 A. rewrite A in W. subst w. destruct (@run_guo gc gcId prog k _ vg (2 * ordinal cs j c + 1) m0 G2) as (m1 & R & U).
      exists m1. split; [|exact U]. rewrite R. rewrite shr_enum. reflexivity. }
    assert (RI : forall m0, exists m1, run gc gcId prog (S k) (is_ptr_info tb) [w] m0 = COk (VZ (match cstr_arity c with O => 0 | _ => 1 end)) m1 /\ untouched m0 m1).
    { intro m0. destruct (cstr_arity c) as [|a].
      - subst w. destruct (@run_is_ptr gc gcId prog k _ (VZ (2 * ordinal cs j c + 1)) m0 G1) as (m1 & R & U); [right; eexists; split; [reflexivity|apply IMM]|]. exists m1. split; [exact R|exact U].
      - destruct W as (p & hdr & -> & H & _). destruct (@run_is_ptr gc gcId prog k _ (VP BHeap p) m0 G1) as (m1 & R & U); [left; eauto|]. exists m1. split; [exact R|exact U]. }
    unfold get_tag. rewrite E. destruct bs as [|pb bs], us as [|pu us]; cbn [cf_params cf_temps cf_slots cf_body].
    - (* no constructors *) exfalso. destruct (cstr_arity c); discriminate.
    - (* only immediates *)
      assert (A : cstr_arity c = O) by (eapply O2; [reflexivity|exact Ec]).
      destruct (RU (enter 0 m) A) as (m1 & R & U). exists (leave (m_next m) m1). split; [|apply untouched_call with (size := 0); exact U].
      rewrite ex_seq. erewrite ex_call1; [|reflexivity|exact N2|apply get_set_same|exact R|cbn; tauto].
      cbn [andthen exec]. rewrite temp_ok. rewrite ALL; [reflexivity|]. intros i c0 Hi. rewrite A. rewrite (O2 eq_refl _ _ Hi). tauto.
    - (* only blocks *)
      assert (A : cstr_arity c <> O) by (eapply O1; [reflexivity|exact Ec]).
      assert (U0 : untouched m (enter 0 m)).
      { constructor; try reflexivity; [|cbn; lia]. intros id Hid. cbn [enter m_frames]. apply get_set_other. lia. }
      destruct (RB (enter 0 m) U0 A) as (m1 & R & U). exists (leave (m_next m) m1). split; [|apply untouched_call with (size := 0); exact U].
      rewrite ex_seq. erewrite ex_call1; [|reflexivity|exact N3|apply get_set_same|exact R|cbn; tauto].
      cbn [andthen exec]. rewrite temp_ok. rewrite ALL; [reflexivity|]. intros i c0 Hi. pose proof (O1 eq_refl _ _ Hi). tauto.
    - (* both *)
      destruct (RI (enter 0 m)) as (m1 & R1 & U1).
      rewrite ex_seq. erewrite ex_call1; [|reflexivity|exact N1|apply get_set_same|exact R1|cbn; tauto].
      cbn [andthen]. rewrite ex_if, temp_ok. set (tt1 := set b _ (set v w [])).
      assert (Gv : get v tt1 = Some w) by (unfold tt1; rewrite get_set_other by congruence; apply get_set_same).
      assert (ORD : ordinal cs j c = Z.of_nat (N.to_nat (rank (arities cs) j (cstr_arity c)))) by (unfold ordinal; lia).
      destruct (cstr_arity c) as [|a] eqn:A.
      + change (0 =? 0) with true. cbn iota. destruct (RU m1 eq_refl) as (m2 & R2 & U2).
        exists (leave (m_next m) m2). split; [|apply untouched_call with (size := 0); eapply untouched_trans; eauto].
        rewrite ex_seq. erewrite ex_call1; [|reflexivity|exact N2|exact Gv|exact R2|cbn; tauto]. cbn [andthen].
        erewrite switch_pairs with (z := N.to_nat (rank (arities cs) j 0)); [|rewrite temp_ok, ORD; reflexivity|exact SP|exact Lj]. reflexivity.
      + change (1 =? 0) with false. cbn iota.
        assert (U0 : untouched m m1).
        { eapply untouched_trans; [|exact U1]. constructor; try reflexivity; [|cbn; lia]. intros id Hid. cbn [enter m_frames]. apply get_set_other. lia. }
        destruct (RB m1 U0 ltac:(discriminate)) as (m2 & R2 & U2).
        exists (leave (m_next m) m2). split; [|apply untouched_call with (size := 0); eapply untouched_trans; eauto].
        rewrite ex_seq. erewrite ex_call1; [|reflexivity|exact N3|exact Gv|exact R2|cbn; tauto]. cbn [andthen].
        erewrite switch_pairs with (z := N.to_nat (rank (arities cs) j (S a))); [|rewrite temp_ok, ORD; reflexivity|exact SP|exact Lj]. reflexivity.
  Qed.
End Tag.

(** ** Identifiers *)

Lemma after_nat : forall k n, Pos.to_nat (after n k) = (Pos.to_nat n + k)%nat.
Proof. induction k as [|k IH]; intro n; cbn [after]; [lia|]. rewrite IH. lia. Qed.

Lemma after_le k n : (n <= after n k)%positive.
Proof. apply Pos2Nat.inj_le. rewrite after_nat. lia. Qed.

Lemma after_lt n i j : (i < j)%nat -> (after n i < after n j)%positive.
Proof. intro H. apply Pos2Nat.inj_lt. rewrite !after_nat. lia. Qed.

Lemma after_neq n i j : Nat.eqb i j = false -> after n i <> after n j.
Proof. intros H E. apply Nat.eqb_neq in H. apply H. assert (Q : Pos.to_nat (after n i) = Pos.to_nat (after n j)) by (rewrite E; reflexivity). rewrite !after_nat in Q. lia. Qed.

Lemma ids_In : forall k n x, In x (ids n k) -> (n <= x)%positive /\ (x < after n k)%positive.
Proof.
  induction k as [|k IH]; intros n x H; [destruct H|]. cbn [ids after] in *. destruct H as [<-|H].
  - split; [lia|]. pose proof (after_le k (Pos.succ n)). lia.
  - destruct (IH _ _ H). split; lia.
Qed.

Lemma ids_NoDup : forall k n, NoDup (ids n k).
Proof.
  induction k as [|k IH]; intro n; cbn [ids]; constructor; [|apply IH]. intro H. apply ids_In in H. lia.
Qed.

Lemma ids_length : forall k n, length (ids n k) = k.
Proof. induction k as [|k IH]; intro n; cbn [ids length]; [reflexivity|]. rewrite IH. reflexivity. Qed.

(** ** Building values *)

(** [ws] written from [a] on *)
Fixpoint write (h : Z -> option cval) (a : Z) (ws : list cval) : Z -> option cval :=
  match ws with [] => h | w :: ws' => write (upd h a w) (a + 1) ws' end.

Lemma write_spec : forall ws h a o,
  (a <= o -> forall w, nth_error ws (Z.to_nat (o - a)) = Some w -> write h a ws o = Some w) /\
  (o < a \/ a + Z.of_nat (length ws) <= o -> write h a ws o = h o).
Proof.
  induction ws as [|w ws IH]; intros h a o; cbn [write length].
  - split; [|reflexivity]. intros _ w H. destruct (Z.to_nat (o - a)); discriminate.
  - destruct (IH (upd h a w) (a + 1) o) as [I1 I2]. split.
    + intros L w' H. destruct (Z.eq_dec o a) as [->|N].
      * rewrite Z.sub_diag in H. cbn in H. apply Some_inj in H. subst w'. rewrite I2 by lia. unfold upd. rewrite Z.eqb_refl. reflexivity.
      * apply I1; [lia|]. replace (Z.to_nat (o - a)) with (S (Z.to_nat (o - (a + 1)))) in H by lia. exact H.
    + intro L. rewrite I2 by lia. unfold upd. destruct (Z.eqb_spec o a); [lia|reflexivity].
Qed.

Section Make.
  Variable gc : mem -> gres.
  Variable gcId : positive.
  Variable prog : cprog.

  Lemma ex_set call decl id x e v t m : eval id t m e = Some v -> In x decl ->
    exec gc call decl gcId id (Sset x e) t m = ROk Onormal (set x v t) m.
  Proof. intros E I. cbn [exec]. rewrite E. apply assign_temp_ok. exact I. Qed.
  Lemma ex_assign call decl id l e v t m m' : eval id t m e = Some v -> assign id t m l v = Some m' ->
    exec gc call decl gcId id (Sassign l e) t m = ROk Onormal t m'.
  Proof. intros E I. cbn [exec]. rewrite E, I. reflexivity. Qed.
  Lemma ex_return call decl id e v t m : eval id t m e = Some v -> exec gc call decl gcId id (Sreturn e) t m = ROk (Oret v) t m.
  Proof. intros E. cbn [exec]. rewrite E. reflexivity. Qed.
  Lemma ex_call call decl id x f g args vs t m : eval id t m f = Some (VF g) -> g <> gcId -> eval_list id t m args = Some vs ->
    exec gc call decl gcId id (Scall x f args) t m =
    match call g vs m with
    | COk v m' => match x with Some y => assign_temp decl y v t m' | None => ROk Onormal t m' end
    | CUB => RUB | CAbort => RAbort | CTime => RTime
    end.
  Proof. intros E N El. cbn [exec]. rewrite E, El. destruct (Pos.eqb_spec g gcId); [contradiction|reflexivity]. Qed.

  Lemma ex_store call decl id a b t m p i w : eval id t m a = Some (VP BHeap p) -> eval id t m b = Some w ->
    - 2 ^ 63 <= i < 2 ^ 63 -> m_lo m <= p + i < m_hi m ->
    exec gc call decl gcId id (Sassign (fld a i) b) t m = ROk Onormal t (set_heap m (upd (m_heap m) (p + i) w)).
  Proof.
    intros E1 E2 R B. assert (C : eval id t m (Xconst i) = Some (VZ i)) by (apply const_ok; change (2 ^ 64) with (2 * 2 ^ 63); lia).
    cbn [exec]. rewrite E2. unfold fld. cbn [assign]. 
    assert (E : eval id t m (Xbin Oadd a (Xconst i)) = Some (VP BHeap (p + i))).
    { change (match eval id t m a, eval id t m (Xconst i) with Some x, Some y => binop_eval Oadd x y | _, _ => None end = Some (VP BHeap (p + i))). rewrite E1, C. reflexivity. }
    rewrite E. unfold store. destruct (Z.leb_spec (m_lo m) (p + i)), (Z.ltb_spec (p + i) (m_hi m)); try lia. reflexivity.
  Qed.

  Lemma ex_fields call decl id argv p : forall args ws t m j, length args = length ws ->
    (forall i x w, nth_error args i = Some x -> nth_error ws i = Some w -> get x t = Some w) -> get argv t = Some (VP BHeap p) ->
    m_lo m <= p + Z.of_nat j -> p + Z.of_nat j + Z.of_nat (length ws) <= m_hi m -> Z.of_nat j + Z.of_nat (length ws) < 2 ^ 63 ->
    exec gc call decl gcId id (make_constrAsgn' argv args j) t m = ROk Onormal t (set_heap m (write (m_heap m) (p + Z.of_nat j) ws)).
  Proof.
    induction args as [|x args IH]; intros [|w ws] t m j L V Ga B1 B2 B3; try discriminate L.
    - cbn [make_constrAsgn' exec write]. destruct m; reflexivity.
    - cbn [make_constrAsgn']. cbn [length] in *. rewrite ex_seq. erewrite ex_store; [|exact Ga|exact (V O x w eq_refl eq_refl)|lia|lia].
      cbn [andthen]. rewrite (IH ws) ; [|lia| |exact Ga| | |lia].
      + cbn [write set_heap m_heap m_lo m_hi m_args m_alloc m_limit m_fp m_nalloc m_frames m_next].
        replace (p + Z.of_nat (S j)) with (p + Z.of_nat j + 1) by lia. reflexivity.
      + intros i y w' H1 H2. exact (V (S i) y w' H1 H2).
      + cbn [set_heap m_lo]. lia.
      + cbn [set_heap m_hi]. lia.
  Qed.

  Lemma run_enum k f ord m : get f prog = Some (make_enum ord) -> Z.of_nat ord < 2 ^ 30 ->
    exists m', run gc gcId prog (S k) f [] m = COk (VZ (2 * Z.of_nat ord + 1)) m' /\ untouched m m'.
  Proof.
    intros G L. exists (leave (m_next m) (enter 0 m)). split; [|apply untouched_call with (size := 0), untouched_refl].
    rewrite run_S with (cf := make_enum ord) (t := []) by (assumption || reflexivity).
    cbn [make_enum cf_body exec]. rewrite tag_enum. change (2 ^ 30) with 1073741824 in L.
    rewrite int32_small by (change (2 ^ 31) with 2147483648; lia).
    assert (E : eval (m_next m) [] (enter (cf_slots (make_enum ord)) m) (Xconst (2 * Z.of_nat ord + 1)) = Some (VZ (2 * Z.of_nat ord + 1))).
    { apply const_small. change (2 ^ 31) with 2147483648. lia. }
    change (eval (m_next m) [] (enter (cf_slots (make_enum ord)) m) (Xcast (Xconst (2 * Z.of_nat ord + 1)))) with (eval (m_next m) [] (enter (cf_slots (make_enum ord)) m) (Xconst (2 * Z.of_nat ord + 1))).
    cbn [make_enum cf_slots] in *. rewrite E. reflexivity.
  Qed.

  Definition hdr_of (ar ord : nat) : Z := 1024 * Z.of_nat ar + Z.of_nat ord.

  Lemma header_ok id t m ar ord : Z.of_nat ar < 2 ^ 53 -> Z.of_nat ord < 1024 -> eval id t m (header ar ord) = Some (VZ (hdr_of ar ord)).
  Proof.
    intros L1 L2. unfold header, hdr_of. rewrite Z.shiftl_mul_pow2, Z.mul_comm by lia. change (2 ^ 10) with 1024. apply const_ok. change (2 ^ 53) with 9007199254740992 in L1.
    change (2 ^ 63) with 9223372036854775808. change (2 ^ 64) with 18446744073709551616. lia.
  Qed.

  Lemma nth_app_snoc A (l : list A) x i y : nth_error (l ++ [x]) i = Some y -> nth_error l i = Some y \/ (i = length l /\ x = y).
  Proof.
    intro H. destruct (Nat.lt_ge_cases i (length l)) as [L|L]; [left; rewrite nth_error_app1 in H by exact L; exact H|].
    right. rewrite nth_error_app2 in H by exact L. destruct (i - length l)%nat as [|q] eqn:Q; cbn in H; [|destruct q; discriminate]. split; [lia|congruence].
  Qed.

  (** what the constructor functions write: the header at [p], fields after it *)
  Definition wrote (h : Z -> option cval) (p : Z) (ar ord : nat) (ws : list cval) : Z -> option cval :=
    write (upd h p (VZ (hdr_of ar ord))) (p + 1) ws.

  Lemma run_make k f argv args ar ord ws p m : get f prog = Some (make_boxed argv args ar ord) ->
    NoDup (args ++ [argv]) -> length args = ar -> length ws = ar -> Z.of_nat ar < 2 ^ 53 -> Z.of_nat ord < 1024 ->
    m_lo m <= p -> p + 1 + Z.of_nat ar <= m_hi m ->
    exists m', run gc gcId prog (S k) f (ws ++ [VP BHeap p]) m = COk (VP BHeap (p + 1)) m' /\
      m_heap m' = wrote (m_heap m) p ar ord ws /\ m_alloc m' = m_alloc m /\ untouched_but_heap m m'.
  Proof.
    intros G ND L1 L2 A O B1 B2.
    destruct (@set_lists_total _ (args ++ [argv]) (ws ++ [VP BHeap p]) []) as (t & Et); [rewrite !app_length; cbn [length]; lia|].
    rewrite run_S with (cf := make_boxed argv args ar ord) (t := t) by (assumption || reflexivity).
    cbn [make_boxed cf_body cf_slots cf_params cf_temps].
    assert (Ga : get argv t = Some (VP BHeap p)).
    { eapply set_lists_nth with (i := ar); [exact Et|exact ND| |].
      - rewrite nth_error_app2 by lia. rewrite L1, Nat.sub_diag. reflexivity.
      - rewrite nth_error_app2 by lia. rewrite L2, Nat.sub_diag. reflexivity. }
    assert (GV : forall i x w, nth_error args i = Some x -> nth_error ws i = Some w -> get x t = Some w).
    { intros i x w H1 H2. eapply set_lists_nth with (i := i); [exact Et|exact ND| |].
      - rewrite nth_error_app1; [exact H1|]. apply nth_error_Some. congruence.
      - rewrite nth_error_app1; [exact H2|]. apply nth_error_Some. congruence. }
    rewrite ex_seq. erewrite ex_store with (p := p) (w := VZ (hdr_of ar ord)); [|exact Ga|apply header_ok; assumption|lia|cbn [enter m_lo m_hi]; lia].
    cbn [andthen]. rewrite ex_seq. unfold make_constrAsgn. rewrite ex_fields with (p := p) (ws := ws);
      [|lia|exact GV|exact Ga|cbn [set_heap enter m_lo]; lia|cbn [set_heap enter m_hi]; lia|change (2 ^ 53) with 9007199254740992 in A; change (2 ^ 63) with 9223372036854775808; lia].
    cbn [andthen exec]. cbn [eval]. rewrite Ga. change ((- 2 ^ 63 <=? 1) && (1 <? 2 ^ 64)) with true. cbv iota. cbn [binop_eval].
    match goal with |- context [leave _ ?x] => exists (leave (m_next m) x) end. split; [reflexivity|]. split; [|split; [reflexivity|]].
    - cbn [leave set_frames set_heap enter m_heap]. unfold wrote. rewrite Z.add_0_r. reflexivity.
    - constructor; try reflexivity; cbn [leave set_frames set_heap enter m_frames m_next]; [|lia].
      intros id H. rewrite filter_same by lia. apply get_set_other. lia.
  Qed.

  Lemma run_alloc_make k f argv args ar ord ws p m : get f prog = Some (alloc_make_boxed argv args ar ord) ->
    NoDup (args ++ [argv]) -> length args = ar -> length ws = ar -> Z.of_nat ar < 2 ^ 53 -> Z.of_nat ord < 1024 ->
    m_alloc m = VP BHeap p -> m_lo m <= p -> p + 1 + Z.of_nat ar <= m_hi m ->
    exists m', run gc gcId prog (S k) f ws m = COk (VP BHeap (p + 1)) m' /\
      m_heap m' = wrote (m_heap m) p ar ord ws /\ m_alloc m' = VP BHeap (p + 1 + Z.of_nat ar) /\ untouched_but_heap m m'.
  Proof.
    intros G ND L1 L2 A O Al B1 B2.
    destruct (@set_lists_total _ args ws []) as (t & Et); [lia|].
    rewrite run_S with (cf := alloc_make_boxed argv args ar ord) (t := t) by (assumption || reflexivity).
    cbn [alloc_make_boxed cf_body cf_slots cf_params cf_temps].
    assert (ND' : NoDup args) by (apply NoDup_split in ND; tauto).
    assert (NI : ~ In argv args) by (intro I; destruct (NoDup_split _ _ ND) as (_ & _ & D); exact (D _ I (or_introl eq_refl))).
    set (t1 := set argv (VP BHeap p) t).
    assert (Ga : get argv t1 = Some (VP BHeap p)) by apply get_set_same.
    assert (GV : forall i x w, nth_error args i = Some x -> nth_error ws i = Some w -> get x t1 = Some w).
    { intros i x w H1 H2. unfold t1. rewrite get_set_other by (intros ->; apply NI; eapply nth_error_In; exact H1).
      eapply set_lists_nth with (i := i); eauto. }
    rewrite ex_seq. rewrite ex_set with (v := VP BHeap p) by (first [cbn [eval tinfo_get enter m_alloc]; rewrite Al; reflexivity|apply in_or_app; right; left; reflexivity]).
    fold t1. cbn [andthen].
    rewrite ex_seq. erewrite ex_store with (p := p) (w := VZ (hdr_of ar ord)); [|exact Ga|apply header_ok; assumption|lia|cbn [enter m_lo m_hi]; lia].
    cbn [andthen]. rewrite ex_seq. unfold make_constrAsgn. rewrite ex_fields with (p := p) (ws := ws);
      [|lia|exact GV|exact Ga|cbn [set_heap enter m_lo]; lia|cbn [set_heap enter m_hi]; lia|change (2 ^ 53) with 9007199254740992 in A; change (2 ^ 63) with 9223372036854775808; lia].
    cbn [andthen]. rewrite ex_seq.
    match goal with |- context [andthen ?x _] => 
      assert (E2 : exists m2, x = ROk Onormal t1 m2 /\ m_heap m2 = wrote (m_heap m) p ar ord ws /\ m_alloc m2 = VP BHeap (p + Z.of_nat (S ar)) /\
        m_lo m2 = m_lo m /\ m_hi m2 = m_hi m /\ m_args m2 = m_args m /\ m_limit m2 = m_limit m /\ m_fp m2 = m_fp m /\ m_nalloc m2 = m_nalloc m /\
        m_frames m2 = m_frames (enter 0 m) /\ m_next m2 = Pos.succ (m_next m)) end.
    { assert (C : - 2 ^ 63 <= Z.of_nat (S ar) < 2 ^ 64) by (change (2 ^ 53) with 9007199254740992 in A; change (2 ^ 63) with 9223372036854775808; change (2 ^ 64) with 18446744073709551616; lia).
      eexists. split; [eapply ex_assign with (v := VP BHeap (p + Z.of_nat (S ar))); [|reflexivity]|].
      - match goal with |- eval ?i ?t ?mm (Xbin Oadd ?x ?y) = _ =>
          change (match eval i t mm x, eval i t mm y with Some u, Some v => binop_eval Oadd u v | _, _ => None end = Some (VP BHeap (p + Z.of_nat (S ar)))) end.
        rewrite const_ok by exact C. cbn [eval tinfo_get set_heap enter m_alloc]. rewrite Al. reflexivity.
      - cbn. unfold wrote. rewrite Z.add_0_r. repeat split; reflexivity. }
    destruct E2 as (m2 & -> & H1 & H2 & H3 & H4 & H5 & H6 & H7 & H8 & H9 & H10). cbn [andthen].
    rewrite ex_return with (v := VP BHeap (p + 1)) by (cbn [eval]; rewrite Ga; reflexivity).
    exists (leave (m_next m) m2). split; [reflexivity|]. split; [exact H1|]. split; [cbn [leave set_frames m_alloc]; rewrite H2; f_equal; lia|].
    constructor; cbn [leave set_frames m_lo m_hi m_args m_limit m_fp m_nalloc m_frames m_next]; auto.
    - intros id H. rewrite filter_same by lia. rewrite H9. cbn [enter m_frames]. apply get_set_other. lia.
    - rewrite H10. lia.
  Qed.
End Make.

(** ** Blocks *)

Lemma process_nth : forall cs u b k c, nth_error cs k = Some c ->
  nth_error (process_ctors u b cs) k =
  Some (cstr_arity c, ((match cstr_arity c with O => u | S _ => b end) + N.to_nat (rank (arities cs) k (cstr_arity c)))%nat).
Proof.
  induction cs as [|c0 cs IH]; intros u b [|k] c E; try discriminate.
  - cbn in E. apply Some_inj in E. subst c0. rewrite rank_0. cbn [process_ctors]. destruct (cstr_arity c) as [|a] eqn:Ea; cbn [nth_error]; repeat f_equal; lia.
  - cbn [nth_error] in E. cbn [process_ctors arities map]. rewrite rank_cons. unfold same_kind.
    destruct (cstr_arity c0) as [|a0]; cbn [nth_error]; rewrite (IH _ _ _ _ E); destruct (cstr_arity c) as [|a]; cbn [Nat.eqb Bool.eqb]; unfold arities; do 2 f_equal; lia.
Qed.

Lemma hdr_low ar ord : Z.of_nat ord < 256 -> Z.land (hdr_of ar ord) 255 = Z.of_nat ord.
Proof.
  intro L. change 255 with (Z.ones 8). rewrite Z.land_ones by lia. change (2 ^ 8) with 256. unfold hdr_of.
  rewrite Z.add_mod by lia. replace (1024 * Z.of_nat ar) with (4 * Z.of_nat ar * 256) by lia. rewrite Z.mod_mul by lia.
  rewrite Z.add_0_l, Z.mod_mod by lia. apply Z.mod_small. lia.
Qed.

Lemma hdr_high ar ord : Z.of_nat ord < 1024 -> Z.shiftr (hdr_of ar ord) 10 = Z.of_nat ar.
Proof.
  intro L. rewrite Z.shiftr_div_pow2 by lia. change (2 ^ 10) with 1024. unfold hdr_of. rewrite Z.mul_comm, Z.div_add_l by lia.
  rewrite Z.div_small by lia. lia.
Qed.

Lemma hdr_mid ar ord : Z.of_nat ord < 256 -> Z.land (hdr_of ar ord) 768 = 0.
Proof.
  intro L. assert (E : Z.land (hdr_of ar ord) 1023 = Z.of_nat ord).
  { change 1023 with (Z.ones 10). rewrite Z.land_ones by lia. change (2 ^ 10) with 1024. unfold hdr_of.
    rewrite Z.add_mod by lia. rewrite Z.mul_comm, Z.mod_mul by lia. rewrite Z.add_0_l, Z.mod_mod by lia. apply Z.mod_small. lia. }
  change 768 with (Z.land 1023 768). rewrite Z.land_assoc, E.
  assert (E2 : Z.land (Z.of_nat ord) 255 = Z.of_nat ord).
  { change 255 with (Z.ones 8). rewrite Z.land_ones by lia. apply Z.mod_small. change (2 ^ 8) with 256. lia. }
  rewrite <- E2, <- Z.land_assoc. change (Z.land 255 768) with 0. apply Z.land_0_r.
Qed.

(** the header is determined by its three fields *)
Lemma hdr_fields hdr a o : 0 <= hdr -> Z.shiftr hdr 10 = a -> Z.land hdr 768 = 0 -> Z.land hdr 255 = o -> hdr = 1024 * a + o.
Proof.
  intros P <- M <-. rewrite (Z.div_mod hdr 1024) at 1 by lia. rewrite Z.shiftr_div_pow2 by lia. change (2 ^ 10) with 1024. f_equal.
  change (hdr mod 1024) with (hdr mod 2 ^ 10). rewrite <- (Z.land_ones hdr 10) by lia. change (Z.ones 10) with (Z.lor 768 255). rewrite Z.land_lor_distr_r, M. reflexivity.
Qed.

Lemma ordinal_nat cs k c : ordinal cs k c = Z.of_nat (N.to_nat (rank (arities cs) k (cstr_arity c))).
Proof. unfold ordinal. lia. Qed.

Lemma wrote_block h p cs k c ws : nth_error cs k = Some c -> cstr_arity c = length ws -> ordinal cs k c < 256 -> Z.of_nat (length ws) < 2 ^ 53 ->
  block_at (wrote h p (cstr_arity c) (N.to_nat (rank (arities cs) k (cstr_arity c))) ws) (p + 1) cs k ws.
Proof.
  intros E A O L. rewrite ordinal_nat in O. exists c, (hdr_of (cstr_arity c) (N.to_nat (rank (arities cs) k (cstr_arity c)))).
  split; [exact E|]. split; [exact A|]. unfold wrote. split; [|split; [|split; [|split; [|split]]]].
  - destruct (write_spec ws (upd h p (VZ (hdr_of (cstr_arity c) (N.to_nat (rank (arities cs) k (cstr_arity c)))))) (p + 1) (p + 1 - 1)) as [_ W].
    rewrite W by lia. unfold upd. rewrite (proj2 (Z.eqb_eq (p + 1 - 1) p)) by lia. reflexivity.
  - rewrite hdr_low by exact O. rewrite ordinal_nat. reflexivity.
  - rewrite hdr_high by lia. rewrite A. reflexivity.
  - unfold hdr_of. rewrite A in *. change (2 ^ 53) with 9007199254740992 in L. change (2 ^ 64) with 18446744073709551616. lia.
  - apply hdr_mid. exact O.
  - intros i w H. match goal with |- write ?h' _ _ _ = _ => destruct (write_spec ws h' (p + 1) (p + 1 + Z.of_nat i)) as [W _] end.
    apply W; [lia|]. replace (Z.to_nat (p + 1 + Z.of_nat i - (p + 1))) with i by lia. exact H.
Qed.

Lemma wrote_else h p ar ord ws o : o < p \/ p + 1 + Z.of_nat (length ws) <= o -> wrote h p ar ord ws o = h o.
Proof.
  intro L. unfold wrote. match goal with |- write ?h' _ _ _ = _ => destruct (write_spec ws h' (p + 1) o) as [_ W] end.
  rewrite W by lia. unfold upd. destruct (Z.eqb_spec o p); [lia|reflexivity].
Qed.

Lemma block_built h p cs k ws : ws <> [] -> block_at h p cs k ws -> built h cs k (VP BHeap p).
Proof.
  intros N (c & hdr & E & A & H1 & H2 & _). exists c. split; [exact E|]. destruct (cstr_arity c) as [|a] eqn:Ea.
  - destruct ws; [congruence|discriminate].
  - exists p, hdr. auto.
Qed.

Lemma boxed_few cs k c : nth_error cs k = Some c -> cstr_arity c <> O -> ordinal cs k c < boxed_count cs.
Proof.
  intros E N. rewrite ordinal_nat. unfold boxed_count.
  assert (En : nth_error (arities cs) k = Some (cstr_arity c)) by (unfold arities; rewrite nth_error_map, E; reflexivity).
  assert (B := @rank_bound (cstr_arity c) (arities cs) k). rewrite En in B.
  assert (K : same_kind (cstr_arity c) (cstr_arity c) = true) by (unfold same_kind; apply eqb_reflx).
  specialize (B ltac:(discriminate) (ex_intro _ _ (conj eq_refl K))).
  rewrite filter_ext with (g := same_kind (cstr_arity c)); [lia|]. intro a. unfold same_kind.
  destruct (Nat.eqb_spec (cstr_arity c) 0); [contradiction|]. destruct (Nat.eqb a 0); reflexivity.
Qed.

(** ** The functions of the file *)

Lemma NoDup_app_intro A (l1 l2 : list A) : NoDup l1 -> NoDup l2 -> (forall x, In x l1 -> ~ In x l2) -> NoDup (l1 ++ l2).
Proof.
  intros N1 N2 D. induction l1 as [|x l1 IH]; [exact N2|]. inversion N1 as [|? ? H1 H2]; subst. cbn. constructor.
  - intro H. apply in_app_or in H. destruct H as [H|H]; [contradiction|]. exact (D x (or_introl eq_refl) H).
  - apply IH; [exact H2|]. intros y H. apply D. right. exact H.
Qed.

Definition keys_in (a b : positive) (fs : cprog) : Prop :=
  (a <= b)%positive /\ NoDup (map fst fs) /\ forall x, In x (map fst fs) -> (a <= x)%positive /\ (x < b)%positive.

Lemma keys_nil a b : (a <= b)%positive -> keys_in a b [].
Proof. intro L. split; [exact L|]. split; [constructor|intros x []]. Qed.

Lemma keys_app a b c f1 f2 : keys_in a b f1 -> keys_in b c f2 -> keys_in a c (f1 ++ f2).
Proof.
  intros (L1 & N1 & I1) (L2 & N2 & I2). split; [lia|]. rewrite map_app. split.
  - apply NoDup_app_intro; auto. intros x H1 H2. apply I1 in H1. apply I2 in H2. lia.
  - intros x H. apply in_app_or in H. destruct H as [H|H]; [apply I1 in H|apply I2 in H]; lia.
Qed.

Lemma keys_one a b x cf : (a <= x)%positive -> (x < b)%positive -> keys_in a b [(x, cf)].
Proof. intros H1 H2. split; [lia|]. split; [repeat constructor; auto|]. intros y [<-|[]]. auto. Qed.

Lemma keys_weak a b a' b' fs : keys_in a b fs -> (a' <= a)%positive -> (b <= b')%positive -> keys_in a' b' fs.
Proof. intros (L & N & I) H1 H2. split; [lia|]. split; [exact N|]. intros x H. apply I in H. lia. Qed.

Lemma keys_get a b fs f cf : keys_in a b fs -> In (f, cf) fs -> get f fs = Some cf.
Proof.
  intros (_ & N & _). induction fs as [|[g c] fs IH]; intro H; [destruct H|]. cbn [map fst get] in *. inversion N as [|? ? N1 N2]; subst.
  destruct H as [H|H].
  - injection H as -> ->. destruct (Pos.eq_dec f f); [reflexivity|contradiction].
  - destruct (Pos.eq_dec f g) as [->|]; [|apply IH; assumption]. exfalso. apply N1. apply in_map_iff. exists (g, cf). auto.
Qed.

(** the functions of one constructor *)
Definition made (fs : cprog) (ar ord : nat) (names : positive * option positive) : Prop :=
  match ar with
  | O => snd names = None /\ In (fst names, make_enum ord) fs
  | S _ => exists al argv args, snd names = Some al /\ In (fst names, make_boxed argv args ar ord) fs /\
      In (al, alloc_make_boxed argv args ar ord) fs /\ NoDup (args ++ [argv]) /\ length args = ar
  end.

Lemma made_incl fs fs' ar ord nm : incl fs fs' -> made fs ar ord nm -> made fs' ar ord nm.
Proof.
  intros I. unfold made. destruct ar; [intros [H1 H2]; auto|].
  intros (al & argv & args & H1 & H2 & H3 & H4). exists al, argv, args. auto.
Qed.

Lemma args_nodup n ar : NoDup (make_arg_list (after n 2) ar ++ [after n 1]).
Proof.
  apply NoDup_app_intro; [apply NoDup_rev, ids_NoDup|repeat constructor; auto|].
  intros x H [<-|[]]. apply in_rev, ids_In in H. destruct H as [H _]. cbn [after] in H. lia.
Qed.

Lemma ctors_file : forall cs n fs names n', constructors_from_ctors cs n = (fs, names, n') ->
  keys_in n n' fs /\ length names = length cs /\
  forall k ar ord, nth_error cs k = Some (ar, ord) -> exists nm, nth_error names k = Some nm /\ made fs ar ord nm.
Proof.
  induction cs as [|[[|a] ord] cs IH]; intros n fs names n' E; cbn [constructors_from_ctors] in E.
  - injection E as <- <- <-. split; [apply keys_nil; lia|]. split; [reflexivity|]. intros [|k]; discriminate.
  - destruct (constructors_from_ctors cs (after n 1)) as [[fs1 nm1] n1] eqn:E1. injection E as <- <- <-.
    destruct (IH _ _ _ _ E1) as (K & L & F). split; [|split].
    + apply (@keys_app n (after n 1) n1 [(n, make_enum ord)] fs1); [apply keys_one; cbn [after]; lia|exact K].
    + cbn [length]. lia.
    + intros [|k] ar o H; cbn [nth_error] in H.
      * injection H as <- <-. exists (n, None). split; [reflexivity|]. split; [reflexivity|left; reflexivity].
      * destruct (F _ _ _ H) as (nm & H1 & H2). exists nm. split; [exact H1|]. eapply made_incl; [|exact H2]. intros x I. right. exact I.
  - set (al := after (after n 2) (S a)) in *.
    destruct (constructors_from_ctors cs (after al 2)) as [[fs1 nm1] n1] eqn:E1. injection E as <- <- <-.
    destruct (IH _ _ _ _ E1) as (K & L & F).
    assert (A : (after n 2 <= al)%positive) by apply after_le. cbn [after] in A. split; [|split].
    + apply (@keys_app n (after n 2) n1 [(n, _)] (_ :: fs1)); [apply keys_one; cbn [after]; lia|].
      apply (@keys_app (after n 2) (after al 2) n1 [(al, _)] fs1); [apply keys_one; cbn [after]; lia|exact K].
    + cbn [length]. lia.
    + intros [|k] ar o H; cbn [nth_error] in H.
      * injection H as <- <-. exists (n, Some al). split; [reflexivity|]. exists al, (after n 1), (make_arg_list (after n 2) (S a)).
        split; [reflexivity|]. split; [left; reflexivity|]. split; [right; left; reflexivity|]. split; [apply args_nodup|].
        unfold make_arg_list. rewrite rev_length. apply ids_length.
      * destruct (F _ _ _ H) as (nm & H1 & H2). exists nm. split; [exact H1|]. eapply made_incl; [|exact H2]. intros x I. right. right. exact I.
Qed.

Lemma tys_file : forall tys n fs names n', constructors_for_tys tys n = (fs, names, n') ->
  keys_in n n' fs /\
  forall i cs, nth_error tys i = Some cs -> exists nms, nth_error names i = Some nms /\ length nms = length cs /\
    forall k c, nth_error cs k = Some c -> exists nm, nth_error nms k = Some nm /\
      made fs (cstr_arity c) (N.to_nat (rank (arities cs) k (cstr_arity c))) nm.
Proof.
  induction tys as [|ty tys IH]; intros n fs names n' E; cbn [constructors_for_tys] in E.
  - injection E as <- <- <-. split; [apply keys_nil; lia|]. intros [|i]; discriminate.
  - destruct (constructors_from_ctors (process_ctors 0 0 ty) n) as [[fs1 nm1] n1] eqn:E1.
    destruct (constructors_for_tys tys n1) as [[fs2 nm2] n2] eqn:E2. injection E as <- <- <-.
    destruct (ctors_file _ _ E1) as (K1 & L1 & F1). destruct (IH _ _ _ _ E2) as (K2 & F2).
    split; [eapply keys_app; eassumption|]. intros [|i] cs H; cbn [nth_error] in H.
    + apply Some_inj in H. subst ty. exists nm1. split; [reflexivity|]. split.
      { rewrite L1. clear. revert cs. assert (G : forall cs u b, length (process_ctors u b cs) = length cs).
        { induction cs as [|c cs IH]; intros u b; [reflexivity|]. cbn [process_ctors length]. destruct (cstr_arity c); cbn [length]; rewrite IH; reflexivity. }
        intro cs. apply G. }
      intros k c Hc. destruct (F1 _ _ _ (process_nth _ _ _ _ Hc)) as (nm & H1 & H2). exists nm. split; [exact H1|].
      eapply made_incl; [|destruct (cstr_arity c); exact H2]. apply incl_appl, incl_refl.
    + destruct (F2 _ _ H) as (nms & H1 & H2 & H3). exists nms. split; [exact H1|]. split; [exact H2|]. intros k c Hc.
      destruct (H3 _ _ Hc) as (nm & G1 & G2). exists nm. split; [exact G1|]. eapply made_incl; [|exact G2]. apply incl_appr, incl_refl.
Qed.

Lemma tags_file tb : forall tys n fs names n', get_enum_tag_from_types tb tys n = (fs, names, n') ->
  keys_in n n' fs /\
  forall i cs, nth_error tys i = Some cs -> exists f b t v, nth_error names i = Some f /\ b <> v /\ t <> v /\ In (f, get_tag tb b t v cs) fs.
Proof.
  induction tys as [|ty tys IH]; intros n fs names n' E; cbn [get_enum_tag_from_types] in E.
  - injection E as <- <- <-. split; [apply keys_nil; lia|]. intros [|i]; discriminate.
  - destruct (get_enum_tag_from_types tb tys (after n 4)) as [[fs1 nm1] n1] eqn:E1. injection E as <- <- <-.
    destruct (IH _ _ _ _ E1) as (K & F). split.
    + apply (@keys_app n (after n 4) n1 [(after n 3, _)] fs1); [apply keys_one; cbn [after]; lia|exact K].
    + intros [|i] cs H; cbn [nth_error] in H.
      * apply Some_inj in H. subst ty. exists (after n 3), n, (after n 1), (after n 2). split; [reflexivity|].
        split; [cbn [after]; lia|]. split; [cbn [after]; lia|left; reflexivity].
      * destruct (F _ _ H) as (f & b & t & v & H1 & H2 & H3 & H4). exists f, b, t, v. repeat (split; [assumption|]). right. exact H4.
Qed.

Lemma triple A B C (a a' : A) (b b' : B) (c c' : C) : (a, b, c) = (a', b', c') -> a = a' /\ b = b' /\ c = c'.
Proof. intro H. inversion H. auto. Qed.

Lemma names_next : forall tys n l n', make_name_arrays tys n = (l, n') -> (n <= n')%positive.
Proof.
  induction tys as [|b tys IH]; intros n l n' E; cbn [make_name_arrays] in E.
  - injection E as _ <-. lia.
  - destruct (make_name_arrays tys n) as [rest n1] eqn:E1. injection E as _ <-. apply IH in E1. lia.
Qed.

(** Everything the file provides. *)
Lemma glue_file direct c_args np n tys : let gl := make_glue_program direct c_args np n tys in
  let tb := snd (fst (make_externs n)) in
  keys_in n (g_next gl) (g_funs gl) /\
  get (is_ptr_info tb) (g_funs gl) = Some (is_ptr 1) /\
  (exists v, get (guo_info tb) (g_funs gl) = Some (get_unboxed_ordinal v)) /\
  (exists v, get (gbo_info tb) (g_funs gl) = Some (get_boxed_ordinal v)) /\
  (forall i cs, nth_error tys i = Some cs -> exists f b t v, nth_error (g_tag gl) i = Some f /\ b <> v /\ t <> v /\ get f (g_funs gl) = Some (get_tag tb b t v cs)) /\
  (forall i cs, nth_error tys i = Some cs -> exists nms, nth_error (g_make gl) i = Some nms /\ length nms = length cs /\
    forall k c, nth_error cs k = Some c -> exists nm, nth_error nms k = Some nm /\
      made (g_funs gl) (cstr_arity c) (N.to_nat (rank (arities cs) k (cstr_arity c))) nm) /\
  (direct = false -> exists env arg, env <> arg /\ get (g_halt gl) (g_funs gl) = Some (make_halt c_args env arg)) /\
  exists h clo f env arg tmp, NoDup [h; clo; f; env; arg; tmp] /\
    get (g_call gl) (g_funs gl) = Some (make_call direct c_args h clo f env arg tmp).
Proof.
  cbv zeta. unfold make_glue_program. destruct (make_externs n) as [[ex tb] n1] eqn:Ee.
  destruct (make_name_arrays tys n1) as [nd n2] eqn:En. destruct (constructors_for_tys tys n2) as [[cd mk] n3] eqn:Ec.
  destruct (get_enum_tag_from_types tb tys n3) as [[td tg] n4] eqn:Et. cbn [fst snd g_funs g_next g_tag g_make g_halt g_call].
  set (n5 := after n4 np). set (n6 := after n5 4).
  set (hd := if direct then [] else [(after n5 3, make_halt c_args n5 (after n5 1))]).
  destruct (tys_file _ _ Ec) as (K2 & F2). destruct (tags_file _ _ _ Et) as (K3 & F3). apply names_next in En.
  assert (K1 : keys_in n n1 ex).
  { unfold make_externs in Ee. cbv zeta in Ee. apply triple in Ee. destruct Ee as (<- & _ & <-). split; [apply after_le|]. cbn [map fst]. split.
    - repeat (constructor; [cbn [In]; intro Q; repeat (destruct Q as [Q|Q]; [revert Q; apply after_neq; reflexivity|]); exact Q|]). constructor.
    - cbn [In]. intros x H. repeat (destruct H as [<-|H]; [split; [apply after_le|apply after_lt; lia]|]). destruct H. }
  assert (K4 : keys_in n4 n6 hd).
  { pose proof (after_le np n4). fold n5 in H. unfold hd, n6. destruct direct; [apply keys_nil; cbn [after]; lia|]. apply keys_one; cbn [after]; lia. }
  set (cdf := make_call direct c_args (halt_clo_info tb) n6 (after n6 1) (after n6 2) (after n6 3) (after n6 5)).
  assert (K5 : keys_in n6 (after n6 7) [(after n6 6, cdf)]) by (apply keys_one; cbn [after]; lia).
  assert (K : keys_in n (after n6 7) (ex ++ cd ++ td ++ hd ++ [(after n6 6, cdf)])).
  { eapply keys_app; [exact K1|]. eapply keys_app; [exact (keys_weak K2 En (Pos.le_refl _))|]. eapply keys_app; [exact K3|]. eapply keys_app; eassumption. }
  set (fs := ex ++ cd ++ td ++ hd ++ [(after n6 6, cdf)]) in *.
  assert (I1 : incl ex fs) by apply incl_appl, incl_refl.
  assert (I2 : incl cd fs) by (apply incl_appr, incl_appl, incl_refl).
  assert (I3 : incl td fs) by (apply incl_appr, incl_appr, incl_appl, incl_refl).
  assert (I4 : incl hd fs) by (apply incl_appr, incl_appr, incl_appr, incl_appl, incl_refl).
  assert (I5 : In (after n6 6, cdf) fs) by (unfold fs; rewrite !in_app_iff; right; right; right; right; left; reflexivity).
  split; [exact K|].
  split. { apply (keys_get _ _ K), I1. unfold make_externs in Ee. cbv zeta in Ee. apply triple in Ee. destruct Ee as (<- & <- & <-). left. reflexivity. }
  split. { eexists. apply (keys_get _ _ K), I1. unfold make_externs in Ee. cbv zeta in Ee. apply triple in Ee. destruct Ee as (<- & <- & <-). right. left. reflexivity. }
  split. { eexists. apply (keys_get _ _ K), I1. unfold make_externs in Ee. cbv zeta in Ee. apply triple in Ee. destruct Ee as (<- & <- & <-). right. right. left. reflexivity. }
  split. { intros i cs H. destruct (F3 _ _ H) as (f & b & t & v & H1 & H2 & H3 & H4). exists f, b, t, v. repeat (split; [assumption|]). apply (keys_get _ _ K), I3, H4. }
  split. { intros i cs H. destruct (F2 _ _ H) as (nms & H1 & H2 & H3). exists nms. repeat (split; [assumption|]). intros k c Hc. destruct (H3 _ _ Hc) as (nm & G1 & G2).
    exists nm. split; [exact G1|]. eapply made_incl; [exact I2|exact G2]. }
  split. { intros ->. exists n5, (after n5 1). split; [cbn [after]; lia|]. apply (keys_get _ _ K), I4. left. reflexivity. }
  exists (halt_clo_info tb), n6, (after n6 1), (after n6 2), (after n6 3), (after n6 5). split; [|exact (keys_get _ _ K I5)].
  assert (Hh : (halt_clo_info tb < n6)%positive).
  { assert (n1 <= n6)%positive.
    { unfold n6. pose proof (after_le 4 n5). assert (n4 <= n5)%positive by apply after_le. destruct K2 as [Q2 _]. destruct K3 as [Q3 _]. lia. }
    unfold make_externs in Ee. cbv zeta in Ee. apply triple in Ee. destruct Ee as (_ & <- & <-). cbn [halt_clo_info]. pose proof (@after_lt n 29 30 ltac:(lia)). lia. }
  repeat constructor; cbn [In after]; intuition lia.
Qed.

(** ** Names *)

Lemma string_array s : string_as_array s = map Init_int8 s ++ [Init_int8 0].
Proof. induction s as [|c s IH]; [reflexivity|]. cbn [string_as_array map app]. rewrite IH. reflexivity. Qed.

Lemma padded s w : (length s < w)%nat -> pad_char_init (string_as_array s) w = map Init_int8 s ++ repeat (Init_int8 0) (w - length s).
Proof.
  intro L. unfold pad_char_init. rewrite string_array, app_length, map_length, <- app_assoc. cbn [length app]. f_equal.
  replace (w - length s)%nat with (S (w - (length s + 1))) by lia. reflexivity.
Qed.

Lemma padded_length s w : (length s < w)%nat -> length (pad_char_init (string_as_array s) w) = w.
Proof. intro L. rewrite padded by exact L. rewrite app_length, map_length, repeat_length. lia. Qed.

Lemma names_array : forall cs n w l, normalized_names_array cs n = (w, l) ->
  (n <= w)%nat /\ (forall c, In c cs -> (length (cstr_name c) < w)%nat) /\
  (w = n \/ exists c, In c cs /\ w = S (length (cstr_name c))) /\
  l = flat_map (fun c => pad_char_init (string_as_array (cstr_name c)) w) cs ++ [Init_space 0].
Proof.
  induction cs as [|c cs IH]; intros n w l E; cbn [normalized_names_array] in E.
  - injection E as <- <-. split; [lia|]. split; [intros c []|]. split; [left; reflexivity|reflexivity].
  - destruct (normalized_names_array cs (Nat.max n (length (cstr_name c) + 1))) as [w' l'] eqn:E1. injection E as <- <-.
    destruct (IH _ _ _ E1) as (H1 & H2 & H3 & ->). split; [lia|]. split; [|split].
    + intros c' [<-|I]; [lia|apply H2; exact I].
    + destruct H3 as [H3|(c' & I & H3)]; [|right; exists c'; split; [right; exact I|exact H3]].
      destruct (Nat.max_spec n (length (cstr_name c) + 1)) as [[_ Q]|[_ Q]]; rewrite Q in H3; [|left; exact H3].
      right. exists c. split; [left; reflexivity|lia].
    + cbn [flat_map]. rewrite app_assoc. reflexivity.
Qed.

Lemma rows_nth A B (f : A -> list B) w rest : forall cs k c, (forall c, In c cs -> length (f c) = w) -> nth_error cs k = Some c ->
  firstn w (skipn (k * w) (flat_map f cs ++ rest)) = f c.
Proof.
  induction cs as [|c0 cs IH]; intros [|k] c L E; try discriminate; cbn [nth_error flat_map] in *.
  - apply Some_inj in E. subst c0. cbn [Nat.mul skipn]. rewrite <- app_assoc. rewrite firstn_app.
    rewrite (L c (or_introl eq_refl)), Nat.sub_diag, firstn_O, app_nil_r. apply firstn_all2. rewrite (L c (or_introl eq_refl)). lia.
  - rewrite <- app_assoc, skipn_app. rewrite (L c0 (or_introl eq_refl)). rewrite skipn_all2 by (rewrite (L c0 (or_introl eq_refl)); cbn [Nat.mul]; lia).
    replace (S k * w - w)%nat with (k * w)%nat by (cbn [Nat.mul]; lia). cbn [app]. apply IH; [|exact E]. intros c' I. apply L. right. exact I.
Qed.

Lemma c_string_row s r : ~ In 0 s -> c_string (map Init_int8 s ++ Init_int8 0 :: r) = Some s.
Proof.
  induction s as [|c s IH]; intro N; [reflexivity|]. cbn [map app c_string]. destruct c as [|p|p]; [exfalso; apply N; left; reflexivity| |];
  (rewrite IH; [reflexivity|]); intro I; apply N; right; exact I.
Qed.

Lemma flat_map_len A B (f : A -> list B) w : forall cs, (forall c, In c cs -> length (f c) = w) -> length (flat_map f cs) = (length cs * w)%nat.
Proof.
  induction cs as [|c cs IH]; intro L; [reflexivity|]. cbn [flat_map length Nat.mul]. rewrite app_length, IH, (L c (or_introl eq_refl)); [reflexivity|].
  intros c' I. apply L. right. exact I.
Qed.

Lemma name_arrays : forall tys n l n', make_name_arrays tys n = (l, n') ->
  map snd l = map make_name_array tys /\ NoDup (map fst l) /\ forall x, In x (map fst l) -> (n <= x)%positive /\ (x < n')%positive.
Proof.
  induction tys as [|b tys IH]; intros n l n' E; cbn [make_name_arrays] in E.
  - injection E as <- <-. split; [reflexivity|]. split; [constructor|intros x []].
  - destruct (make_name_arrays tys n) as [rest n1] eqn:E1. pose proof (names_next _ _ E1) as Ln. injection E as <- <-.
    destruct (IH _ _ _ E1) as (H1 & H2 & H3). cbn [map fst snd]. split; [f_equal; exact H1|]. split.
    + constructor; [|exact H2]. intro I. apply H3 in I. lia.
    + intros x [<-|I]; [lia|]. apply H3 in I. lia.
Qed.

Lemma glue_names direct c_args np n tys : let gl := make_glue_program direct c_args np n tys in
  map snd (g_names gl) = map make_name_array tys /\ NoDup (map fst (g_names gl) ++ map fst (g_funs gl)).
Proof.
  cbv zeta. destruct (glue_file direct c_args np n tys) as ((_ & ND & _) & _). revert ND.
  unfold make_glue_program. destruct (make_externs n) as [[ex tb] n1] eqn:Ee.
  destruct (make_name_arrays tys n1) as [nd n2] eqn:En. destruct (constructors_for_tys tys n2) as [[cd mk] n3] eqn:Ec.
  destruct (get_enum_tag_from_types tb tys n3) as [[td tg] n4] eqn:Et. cbn [g_funs g_names].
  destruct (tys_file _ _ Ec) as ((L2 & _ & K2) & _). destruct (tags_file _ _ _ Et) as ((L3 & _ & K3) & _). 
  destruct (name_arrays _ _ En) as (H1 & H2 & H3). pose proof (names_next _ _ En) as Ln.
  pose proof (after_le np n4) as L5. set (n5 := after n4 np) in *.
  intro ND. split; [exact H1|]. apply NoDup_app_intro; [exact H2|exact ND|]. intros x I J. apply H3 in I.
  rewrite !map_app, !in_app_iff in J. destruct J as [J|[J|[J|[J|J]]]].
  - unfold make_externs in Ee. cbv zeta in Ee. apply triple in Ee. destruct Ee as (<- & _ & <-). cbn [map fst In] in J.
    repeat (destruct J as [<-|J]; [match goal with _ : (after n 30 <= after n ?i)%positive /\ _ |- _ => pose proof (@after_lt n i 30 ltac:(lia)) end; lia|]). destruct J.
  - apply K2 in J. lia.
  - apply K3 in J. lia.
  - destruct direct; [destruct J|]. cbn [map fst In] in J. destruct J as [<-|[]]. pose proof (after_le 3 n5). lia.
  - cbn [map fst In] in J. destruct J as [<-|[]]. pose proof (after_le 6 (after n5 4)). pose proof (after_le 4 n5). lia.
Qed.
