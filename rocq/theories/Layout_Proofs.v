(** * Layout of constructors: specification and proofs *)
From Coq Require Import ZArith NArith List Lia Bool.
Import ListNotations.
From Verif Require Import ANF_Syntax Layout_Model.
Set Implicit Arguments.

(** ** Specification, independent of the traversal *)

(** the declared constructor [j] of type [i] of the pack [kn] has arity [a] *)
Definition declared (g : ienv) (kn : kername) (i j : nat) (cs : list nat) (a : nat) : Prop :=
  exists ty, In (kn, ty) g /\ nth_error ty i = Some cs /\ nth_error cs j = Some a.

(** two constructors are of the same kind when both or neither have arguments *)
Definition same_kind (a b : nat) : bool := Bool.eqb (Nat.eqb a 0) (Nat.eqb b 0).

(** how many earlier constructors of the type are of the same kind *)
Definition rank (cs : list nat) (j a : nat) : N :=
  N.of_nat (length (filter (same_kind a) (firstn j cs))).

(** ** The type declarations in the order they are processed *)
Fixpoint inds (kn : kername) (n : nat) (ty : itypPack) : list (inductive * list nat) :=
  match ty with
  | [] => []
  | cs :: ty' => ((kn, n), cs) :: inds kn (n + 1) ty'
  end.

Definition flat (g : ienv) : list (inductive * list nat) :=
  flat_map (fun p => inds (fst p) 0 (snd p)) g.

Definition padd (p : positive) (k : nat) : positive := Pos.of_nat (Pos.to_nat p + k).

Lemma padd_0 p : padd p 0 = p.
Proof. unfold padd. rewrite Nat.add_0_r. apply Pos2Nat.id. Qed.

Lemma padd_nat p k : Pos.to_nat (padd p k) = Pos.to_nat p + k.
Proof. unfold padd. rewrite Nat2Pos.id; lia. Qed.

Lemma padd_succ p k : padd (p + 1) k = padd p (S k).
Proof. apply Pos2Nat.inj. rewrite !padd_nat. lia. Qed.

Lemma padd_inj p k q l : padd p k = padd q l -> Pos.to_nat p + k = Pos.to_nat q + l.
Proof. intro H. rewrite <- !padd_nat, H. reflexivity. Qed.

Lemma fromN_ok m : forall n,
  fst (fromN n m) = map (padd n) (seq 0 m) /\ snd (fromN n m) = padd n m.
Proof.
  induction m as [|m IH]; intro n; cbn [fromN].
  - cbn. rewrite padd_0. auto.
  - destruct (IH (n + 1)%positive) as [A B]. destruct (fromN (n + 1) m) as [l nm]. cbn [fst snd] in *.
    split.
    + cbn [seq map]. rewrite padd_0. f_equal. rewrite A, <- seq_shift, map_map.
      apply map_ext. intro. apply padd_succ.
    + rewrite B. apply padd_succ.
Qed.

Definition info (it : ind_tag) (cs : list nat) (u b : N) (j a : nat) : ctor_ty_info :=
  {| ctor_ind_tag := it; ctor_arity := N.of_nat a;
     ctor_ordinal := ((if Nat.eqb a 0 then u else b) + rank cs j a)%N |}.

Lemma nth_seq m j p : nth_error (map (padd p) (seq 0 m)) j =
  if j <? m then Some (padd p j) else None.
Proof.
  destruct (Nat.ltb_spec j m).
  - rewrite nth_error_map. rewrite (nth_error_nth' (seq 0 m) 0) by (rewrite seq_length; lia).
    rewrite seq_nth by lia. reflexivity.
  - apply nth_error_None. rewrite map_length, seq_length. lia.
Qed.

Lemma dtt_cons dt d d' t m : dcon_to_tag dt d ((d', t) :: m) =
  if conId_dec d d' then t else dcon_to_tag dt d m.
Proof. reflexivity. Qed.

(** the whole effect of one type declaration *)
Lemma cnstrs_ok ind it cs : forall b nCon u bx ce dcm,
  let r := convert_cnstrs (map (padd b) (seq 0 (length cs))) cs ind nCon u bx it ce dcm in
  (forall j a, nth_error cs j = Some a ->
     get (padd b j) (fst r) = Some (info it cs u bx j a) /\
     forall dt, dcon_to_tag dt (ind, nCon + N.of_nat j)%N (snd r) = padd b j) /\
  (forall t, Pos.to_nat t < Pos.to_nat b \/ Pos.to_nat b + length cs <= Pos.to_nat t ->
     get t (fst r) = get t ce) /\
  (forall dt d, fst d <> ind \/ (snd d < nCon)%N \/ (nCon + N.of_nat (length cs) <= snd d)%N ->
     dcon_to_tag dt d (snd r) = dcon_to_tag dt d dcm).
Proof.
  induction cs as [|c cs IH]; intros b nCon u bx ce dcm; cbn [length seq map convert_cnstrs].
  - split; [|split]; auto. intros [|j] a H; discriminate.
  - rewrite padd_0. rewrite <- seq_shift, map_map.
    rewrite (map_ext (fun x => padd b (S x)) (padd (b + 1))) by (intro; symmetry; apply padd_succ).
    set (dcm1 := (ind, nCon, b) :: dcm). set (ce1 := set b _ ce).
    match goal with |- context [convert_cnstrs _ _ _ ?n ?u' ?b' _ _ _] =>
      specialize (IH (b + 1)%positive n u' b' ce1 dcm1); set (u1 := u') in *; set (b1 := b') in * end.
    cbn zeta in IH. destruct IH as (I1 & I2 & I3).
    split; [|split].
    + intros [|j] a H; cbn [nth_error] in H.
      * injection H as <-. rewrite padd_0. split.
        { rewrite I2 by lia. subst ce1. rewrite get_set_same. unfold info, rank. cbn [firstn filter length].
          rewrite N.add_0_r. reflexivity. }
        { intro dt. rewrite N.add_0_r, I3 by (cbn; lia). subst dcm1. rewrite dtt_cons.
          destruct (conId_dec (ind, nCon) (ind, nCon)); congruence. }
      * destruct (I1 j a H) as [A B]. rewrite padd_succ in A, B. split.
        { etransitivity; [exact A|]. f_equal. unfold info. f_equal. unfold rank. cbn [firstn filter].
          subst u1 b1. unfold same_kind at 2. destruct (Nat.eqb_spec a 0) as [->|Ha], (Nat.eqb_spec c 0) as [->|Hc];
            cbn [Bool.eqb length]; lia. }
        { intro dt. rewrite <- (B dt). f_equal. f_equal. lia. }
    + intros t Ht. rewrite I2 by lia. subst ce1. apply get_set_other. intros ->. lia.
    + intros dt d Hd. rewrite I3.
      * subst dcm1. rewrite dtt_cons. destruct (conId_dec d (ind, nCon)) as [->|]; [|reflexivity].
        cbn in Hd. destruct Hd as [Hd|Hd]; [congruence|lia].
      * destruct Hd as [Hd|[Hd|Hd]]; [left; exact Hd|right; lia|right; lia].
Qed.

(** ** The processed prefix *)
Definition size (l : list (inductive * list nat)) : nat :=
  fold_right (fun p n => length (snd p) + n) 0 l.

Lemma size_cons x l : size (x :: l) = length (snd x) + size l.
Proof. reflexivity. Qed.

Lemma size_app l1 l2 : size (l1 ++ l2) = size l1 + size l2.
Proof. induction l1 as [|x l1 IH]; [reflexivity|]. rewrite <- app_comm_cons, !size_cons, IH. lia. Qed.

Section Inv.
  Variables dt dit : positive.

  Definition ctag (l : list (inductive * list nat)) (k j : nat) : positive :=
    padd dt (1 + size (firstn k l) + j).
  Definition itag (k : nat) : positive := padd dit (1 + k).

  Definition row (l : list (inductive * list nat)) (k : nat) (cs : list nat) : list (ctor_tag * N) :=
    combine (map (ctag l k) (seq 0 (length cs))) (map N.of_nat cs).

  Definition inv (l : list (inductive * list nat)) (st : ice) : Prop :=
    let '(ie, ce, ncT, niT, dcm) := st in
    ncT = padd dt (1 + size l) /\ niT = padd dit (1 + length l) /\
    (get dit ie = Some [(dt, 0%N)] /\
     get dt ce = Some {| ctor_ind_tag := dit; ctor_arity := 0; ctor_ordinal := 0 |}) /\
    forall k ind cs, nth_error l k = Some (ind, cs) ->
      get (itag k) ie = Some (row l k cs) /\
      forall j a, nth_error cs j = Some a ->
        get (ctag l k j) ce = Some (info (itag k) cs 0 0 j a) /\
        dcon_to_tag dt (ind, N.of_nat j) dcm = ctag l k j.

  Lemma firstn_prefix {A} (l l' : list A) k : k <= length l -> firstn k (l ++ l') = firstn k l.
  Proof. intro H. rewrite firstn_app. replace (k - length l) with 0 by lia. cbn. apply app_nil_r. Qed.

  Lemma size_firstn_lt l : forall k ind cs, nth_error l k = Some (ind, cs) ->
    size (firstn k l) + length cs <= size l.
  Proof.
    induction l as [|x l IH]; intros [|k] ind cs H; try discriminate; cbn in H.
    - injection H as ->. rewrite size_cons. cbn. lia.
    - cbn [firstn]. rewrite !size_cons. specialize (IH _ _ _ H). lia.
  Qed.

  Lemma inv_step l ie ce ncT niT dcm ind cs ce' dcm' :
    inv l (ie, ce, ncT, niT, dcm) ->
    ~ In ind (map fst l) ->
    convert_cnstrs (map (padd ncT) (seq 0 (length cs))) cs ind 0 0 0 niT ce dcm = (ce', dcm') ->
    inv (l ++ [(ind, cs)])
        (set niT (combine (map (padd ncT) (seq 0 (length cs))) (map N.of_nat cs)) ie, ce',
         padd ncT (length cs), Pos.succ niT, dcm').
  Proof.
    intros (E1 & E2 & (E3 & E4) & E5) NI EC.
    pose proof (cnstrs_ok ind niT cs ncT 0 0 0 ce dcm) as (C1 & C2 & C3).
    rewrite EC in C1, C2, C3. cbn [fst snd] in C1, C2, C3.
    assert (Bnd : Pos.to_nat ncT = Pos.to_nat dt + 1 + size l) by (rewrite E1, padd_nat; lia).
    assert (Bnd' : Pos.to_nat niT = Pos.to_nat dit + 1 + length l) by (rewrite E2, padd_nat; lia).
    cbn [inv]. split; [|split; [|split; [split|]]].
    - apply Pos2Nat.inj. rewrite !padd_nat, size_app, size_cons. change (size []) with 0. cbn [snd]. lia.
    - apply Pos2Nat.inj. rewrite Pos2Nat.inj_succ, padd_nat, app_length. cbn [length]. lia.
    - rewrite get_set_other by (intros ->; lia). exact E3.
    - rewrite C2 by lia. exact E4.
    - intros k ind' cs' H. destruct (Nat.lt_ge_cases k (length l)) as [L|L].
      + rewrite nth_error_app1 in H by exact L.
        destruct (E5 _ _ _ H) as [A B].
        pose proof (size_firstn_lt _ _ H) as SL.
        assert (CT : forall j, ctag (l ++ [(ind, cs)]) k j = ctag l k j)
          by (intro j; unfold ctag; rewrite firstn_prefix by lia; reflexivity).
        split.
        * rewrite get_set_other.
          2:{ intro Q. unfold itag in Q. apply (f_equal Pos.to_nat) in Q. rewrite padd_nat in Q. lia. }
          etransitivity; [exact A|]. unfold row. f_equal. f_equal. apply map_ext. intro. symmetry. apply CT.
        * intros j a Hj. destruct (B j a Hj) as [B1 B2]. rewrite CT.
          assert (j < length cs') by (apply nth_error_Some; congruence).
          split.
          { rewrite C2; [exact B1|]. unfold ctag. rewrite padd_nat. lia. }
          { rewrite C3; [exact B2|]. cbn. left. intros ->. apply NI.
            change ind with (fst (ind, cs')). apply in_map. apply nth_error_In with k. exact H. }
      + rewrite nth_error_app2 in H by exact L.
        destruct (k - length l) as [|d] eqn:Ek; [|destruct d; discriminate].
        cbn in H. injection H as <- <-. assert (k = length l) by lia. subst k.
        assert (CT : forall j, ctag (l ++ [(ind, cs)]) (length l) j = padd ncT j).
        { intro j. unfold ctag. rewrite firstn_prefix, firstn_all by lia.
          apply Pos2Nat.inj. rewrite !padd_nat. lia. }
        assert (IT : itag (length l) = niT) by (symmetry; exact E2).
        rewrite IT. split.
        * rewrite get_set_same. unfold row. f_equal. f_equal. apply map_ext. intro. symmetry. apply CT.
        * intros j a Hj. rewrite CT. destruct (C1 j a Hj) as [A B]. split; [exact A|].
          rewrite <- (B dt). reflexivity.
  Qed.

  Lemma typack_ok kn ty : forall n l st, inv l st ->
    (forall m, n <= m -> ~ In (kn, m) (map fst l)) ->
    inv (l ++ inds kn n ty) (convert_typack ty kn n st).
  Proof.
    induction ty as [|cs ty IH]; intros n l [[[[ie ce] ncT] niT] dcm] I NI; cbn [inds convert_typack].
    - rewrite app_nil_r. exact I.
    - destruct (fromN_ok (length cs) ncT) as [F1 F2].
      destruct (fromN ncT (length cs)) as [cct ncT']. cbn [fst snd] in F1, F2. subst cct ncT'.
      destruct (convert_cnstrs _ cs (kn, n) 0 0 0 niT ce dcm) as [ce' dcm'] eqn:EC.
      pose proof (@inv_step l ie ce ncT niT dcm (kn, n) cs ce' dcm' I (NI n (le_n n)) EC) as I'.
      specialize (IH (n + 1) _ _ I').
      replace (l ++ (kn, n, cs) :: inds kn (n + 1) ty) with ((l ++ [(kn, n, cs)]) ++ inds kn (n + 1) ty)
        by (rewrite <- app_assoc; reflexivity).
      apply IH. intros m Lm Q. rewrite map_app, in_app_iff in Q. destruct Q as [Q|Q].
      + apply (NI m); [lia|exact Q].
      + cbn in Q. destruct Q as [Q|[]]. injection Q as Q. lia.
  Qed.

  Lemma inds_fst kn ty : forall n i, In i (map fst (inds kn n ty)) -> fst i = kn.
  Proof. induction ty as [|cs ty IH]; intros n i H; cbn in H; [destruct H|]. destruct H as [<-|H]; eauto. Qed.

  Lemma env'_ok g : forall l st, inv l st -> NoDup (map fst g) ->
    (forall kn m, In kn (map fst g) -> ~ In (kn, m) (map fst l)) ->
    inv (l ++ flat g) (convert_env' g st).
  Proof.
    induction g as [|[kn ty] g IH]; intros l st I ND NI; cbn [convert_env' flat flat_map map fst snd] in *.
    - rewrite app_nil_r. exact I.
    - inversion ND as [|? ? N1 N2]; subst.
      rewrite app_assoc. apply IH; [|exact N2|].
      + apply typack_ok; [exact I|]. intros m _. apply NI. left. reflexivity.
      + intros kn' m Hk Q. rewrite map_app, in_app_iff in Q. destruct Q as [Q|Q].
        * apply (NI kn' m); [right; exact Hk|exact Q].
        * apply inds_fst in Q. cbn in Q. subst kn'. contradiction.
  Qed.

  Lemma env_ok g : NoDup (map fst g) -> inv (flat g) (convert_env dt dit g).
  Proof.
    intro ND. unfold convert_env. apply (@env'_ok g []); [|exact ND|intros ? ? _ []].
    cbn [inv]. split; [|split; [|split; [split|]]].
    - apply Pos2Nat.inj. rewrite padd_nat, Pos2Nat.inj_succ. cbn. lia.
    - apply Pos2Nat.inj. rewrite padd_nat, Pos2Nat.inj_succ. cbn. lia.
    - apply get_set_same.
    - apply get_set_same.
    - intros [|k] ? ? H; discriminate.
  Qed.
End Inv.

(** ** Positions of declarations *)
Lemma inds_nth kn ty : forall n i cs, nth_error ty i = Some cs ->
  nth_error (inds kn n ty) i = Some ((kn, n + i), cs).
Proof.
  induction ty as [|c ty IH]; intros n [|i] cs H; cbn in *; try discriminate.
  - injection H as ->. rewrite Nat.add_0_r. reflexivity.
  - rewrite (IH (n + 1) i cs H). do 3 f_equal. lia.
Qed.

Lemma flat_pos g : forall kn ty i cs, In (kn, ty) g -> nth_error ty i = Some cs ->
  exists k, nth_error (flat g) k = Some ((kn, i), cs).
Proof.
  induction g as [|[kn' ty'] g IH]; intros kn ty i cs H Hi; [destruct H|].
  cbn [flat flat_map fst snd]. destruct H as [E|H].
  - injection E as -> ->. exists i. rewrite nth_error_app1.
    + apply (inds_nth kn ty 0 i Hi).
    + apply nth_error_Some. rewrite (inds_nth kn ty 0 i Hi). discriminate.
  - destruct (IH _ _ _ _ H Hi) as [k Hk]. exists (length (inds kn' 0 ty') + k).
    rewrite nth_error_app2 by lia.
    replace (length (inds kn' 0 ty') + k - length (inds kn' 0 ty')) with k by lia. exact Hk.
Qed.

(** the ranges of tags of different types do not overlap *)
Lemma size_mono l : forall k k' ind cs, nth_error l k = Some (ind, cs) -> k < k' ->
  size (firstn k l) + length cs <= size (firstn k' l).
Proof.
  induction l as [|x l IH]; intros [|k] [|k'] ind cs H L; try discriminate; try lia; cbn in H.
  - injection H as ->. cbn [firstn]. rewrite size_cons. cbn. lia.
  - cbn [firstn]. rewrite !size_cons. specialize (IH k k' ind cs H ltac:(lia)). lia.
Qed.

Lemma ctag_inj dt l k j k' j' ind cs ind' cs' :
  nth_error l k = Some (ind, cs) -> nth_error l k' = Some (ind', cs') ->
  j < length cs -> j' < length cs' -> ctag dt l k j = ctag dt l k' j' -> k = k' /\ j = j'.
Proof.
  intros H H' L L' E. unfold ctag in E. apply padd_inj in E.
  destruct (Nat.lt_trichotomy k k') as [Q|[Q|Q]].
  - pose proof (size_mono _ H Q). lia.
  - subst k'. split; lia.
  - pose proof (size_mono _ H' Q). lia.
Qed.

(** ranks are distinct *)
Lemma filter_mono A (f : A -> bool) (l : list A) : forall j j' a, nth_error l j = Some a -> f a = true -> j < j' ->
  length (filter f (firstn j l)) < length (filter f (firstn j' l)).
Proof.
  induction l as [|x l IH]; intros [|j] [|j'] a H F L; try discriminate; try lia; cbn in H.
  - injection H as ->. cbn [firstn filter]. rewrite F. cbn. lia.
  - cbn [firstn filter]. specialize (IH j j' a H F ltac:(lia)). destruct (f x); cbn; lia.
Qed.

Lemma same_kind_ext a b : same_kind a b = true -> forall l, filter (same_kind a) l = filter (same_kind b) l.
Proof.
  intros H l. apply filter_ext. intro x. unfold same_kind in *.
  destruct (Nat.eqb a 0), (Nat.eqb b 0); try discriminate; reflexivity.
Qed.

Lemma same_kind_refl a : same_kind a a = true.
Proof. unfold same_kind. apply Bool.eqb_reflx. Qed.
Lemma same_kind_sym a b : same_kind a b = same_kind b a.
Proof. unfold same_kind. destruct (Nat.eqb a 0), (Nat.eqb b 0); reflexivity. Qed.

Lemma rank_inj cs j a j' a' : nth_error cs j = Some a -> nth_error cs j' = Some a' ->
  same_kind a a' = true -> rank cs j a = rank cs j' a' -> j = j'.
Proof.
  intros H H' K E. unfold rank in E. rewrite <- (same_kind_ext _ _ K) in E. apply Nat2N.inj in E.
  destruct (Nat.lt_trichotomy j j') as [Q|[Q|Q]]; [|exact Q|].
  - pose proof (filter_mono _ cs H (same_kind_refl a) Q). lia.
  - pose proof (filter_mono _ cs H' K Q). lia.
Qed.
