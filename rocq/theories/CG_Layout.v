(** * The constructor tables the compiler builds meet the back end's conditions *)
From Coq Require Import ZArith NArith List Lia Bool.
Import ListNotations.
From Verif Require Import ANF_Syntax Layout_Model Layout_Proofs Properties_Layout CG_Spec.
Set Implicit Arguments.

(** Datatypes with at most 251 constructors with arguments, [2 ^ 53 - 1]
    arguments and [2 ^ 62] constructors without. *)
Definition small_types (g : ienv) : Prop :=
  forall kn i j cs a, declared g kn i j cs a ->
    length (filter (fun a => negb (Nat.eqb a 0)) cs) <= 251 /\
    (Z.of_nat a < 2 ^ 53)%Z /\ (Z.of_nat (length (filter (Nat.eqb 0) cs)) <= 2 ^ 62)%Z.

Lemma cnstrs_dom ind it : forall cct cs nCon u b ce dcm t, get t (fst (convert_cnstrs cct cs ind nCon u b it ce dcm)) <> None ->
  In t cct \/ get t ce <> None.
Proof.
  induction cct as [|c cct IH]; intros cs nCon u b ce dcm t H; [right; exact H|].
  destruct cs as [|a cs]; [right; exact H|]. cbn [convert_cnstrs] in H.
  destruct (IH _ _ _ _ _ _ _ H) as [I|I]; [left; right; exact I|].
  rewrite get_set in I. destruct (Pos.eq_dec t c) as [->|N]; [left; left; reflexivity|right; exact I].
Qed.

Definition dom_ok (dt : positive) (st : ice) : Prop :=
  let '(ie, ce, ncT, niT, dcm) := st in
  (dt < ncT)%positive /\ forall t, get t ce <> None -> (dt <= t /\ t < ncT)%positive.

Lemma typack_dom dt kn ty : forall n st, dom_ok dt st -> dom_ok dt (convert_typack ty kn n st).
Proof.
  induction ty as [|cs ty IH]; intros n [[[[ie ce] ncT] niT] dcm] [D0 D]; cbn [convert_typack]; [split; assumption|].
  destruct (fromN_ok (length cs) ncT) as [F1 F2]. destruct (fromN ncT (length cs)) as [cct ncT'] eqn:F. cbn [fst snd] in F1, F2.
  destruct (convert_cnstrs cct cs (kn, n) 0 0 0 niT ce dcm) as [ce' dcm'] eqn:E.
  apply IH. subst cct ncT'. split; [apply Pos2Nat.inj_lt; rewrite padd_nat; apply Pos2Nat.inj_lt in D0; lia|].
  intros t H. pose proof (@cnstrs_dom (kn, n) niT (map (padd ncT) (seq 0 (length cs))) cs 0%N 0%N 0%N ce dcm t) as C. rewrite E in C.
  destruct (C H) as [I|I].
  - apply in_map_iff in I. destruct I as (k & <- & I). apply in_seq in I.
    apply Pos2Nat.inj_lt in D0. split.
    + apply Pos2Nat.inj_le. rewrite padd_nat. lia.
    + apply Pos2Nat.inj_lt. rewrite !padd_nat. lia.
  - destruct (D t I) as [D1 D2]. split; [exact D1|]. apply Pos2Nat.inj_lt. rewrite padd_nat. apply Pos2Nat.inj_lt in D2. lia.
Qed.

Lemma env_dom dt g : forall st, dom_ok dt st -> dom_ok dt (convert_env' g st).
Proof.
  induction g as [|[kn ty] g IH]; intros st D; cbn [convert_env']; [exact D|]. apply IH. apply typack_dom. exact D.
Qed.

Lemma size_split : forall l p, p < size l -> exists k ind cs j, nth_error l k = Some (ind, cs) /\ j < length cs /\ p = size (firstn k l) + j.
Proof.
  induction l as [|[ind cs] l IH]; intros p H; [cbn in H; lia|].
  rewrite size_cons in H. cbn [snd] in H. destruct (Nat.lt_ge_cases p (length cs)) as [L|L].
  - exists 0, ind, cs, p. repeat split; auto.
  - destruct (IH (p - length cs) ltac:(lia)) as (k & ind' & cs' & j & H1 & H2 & H3).
    exists (S k), ind', cs', j. split; [exact H1|]. split; [exact H2|]. cbn [firstn]. rewrite size_cons. cbn [snd]. lia.
Qed.

Lemma inds_inv kn ty : forall n k ind cs, nth_error (inds kn n ty) k = Some (ind, cs) -> ind = (kn, n + k) /\ nth_error ty k = Some cs.
Proof.
  induction ty as [|c ty IH]; intros n [|k] ind cs H; cbn in H; try discriminate.
  - assert ((kn, n) = ind /\ c = cs) by (split; congruence). destruct H0 as [<- ->]. split; [f_equal; lia|reflexivity].
  - destruct (IH _ _ _ _ H) as [-> E]. split; [f_equal; lia|exact E].
Qed.

Lemma flat_inv g : forall ind cs, In (ind, cs) (flat g) -> exists ty, In (fst ind, ty) g /\ nth_error ty (snd ind) = Some cs.
Proof.
  unfold flat. intros ind cs H. apply in_flat_map in H. destruct H as ([kn ty] & I & H). cbn [fst snd] in H.
  apply In_nth_error in H. destruct H as (k & H). apply inds_inv in H. destruct H as [-> H]. exists ty. auto.
Qed.

(** every entry of the table is the reserved one or a declared constructor *)
Lemma built_entries dt dit g t i : NoDup (map fst g) -> get t (ctors_of (convert_env dt dit g)) = Some i ->
  (t = dt /\ i = {| ctor_ind_tag := dit; ctor_arity := 0; ctor_ordinal := 0 |}) \/
  exists k ind cs j a, nth_error (flat g) k = Some (ind, cs) /\ nth_error cs j = Some a /\
    declared g (fst ind) (snd ind) j cs a /\
    t = ctag dt (flat g) k j /\ i = info (itag dit k) cs 0 0 j a.
Proof.
  intros ND G. pose proof (env_ok dt dit g ND) as I.
  assert (D : dom_ok dt (convert_env dt dit g)).
  { unfold convert_env. apply env_dom. split; [lia|]. intros t' H. rewrite get_set in H.
    destruct (Pos.eq_dec t' dt) as [->|N]; [lia|]. exfalso. apply H. reflexivity. }
  destruct (convert_env dt dit g) as [[[[ie ce] nc] ni] m]. cbn [ctors_of] in G.
  destruct D as [_ D]. destruct (D t) as [D1 D2]; [congruence|].
  destruct I as (-> & _ & (_ & I1) & I2).
  destruct (Pos.eq_dec t dt) as [->|N]; [left; split; [reflexivity|congruence]|]. right.
  apply Pos2Nat.inj_lt in D2. rewrite padd_nat in D2. apply Pos2Nat.inj_le in D1.
  assert (Pos.to_nat t <> Pos.to_nat dt) by (intro Q; apply Pos2Nat.inj in Q; contradiction).
  destruct (@size_split (flat g) (Pos.to_nat t - Pos.to_nat dt - 1) ltac:(lia)) as (k & ind & cs & j & H1 & H2 & H3).
  destruct (nth_error cs j) as [a|] eqn:Ea; [|apply nth_error_None in Ea; lia].
  destruct (I2 _ _ _ H1) as [_ B]. destruct (B _ _ Ea) as [B1 _].
  assert (Et : t = ctag dt (flat g) k j).
  { apply Pos2Nat.inj. unfold ctag. rewrite padd_nat. lia. }
  exists k, ind, cs, j, a. split; [exact H1|]. split; [exact Ea|]. split.
  - destruct (flat_inv g ind cs (nth_error_In _ _ H1)) as (ty & T1 & T2). exists ty. auto.
  - split; [exact Et|]. rewrite Et in G. congruence.
Qed.


Theorem built_cenv_ok dt dit g : NoDup (map fst g) -> small_types g -> cenv_ok (ctors_of (convert_env dt dit g)).
Proof.
  intros ND S.
  assert (R : forall cs j a, nth_error cs j = Some a -> (rank cs j a < N.of_nat (length (filter (same_kind a) cs)))%N).
  { intros cs j a H. unfold rank. pose proof (filter_mono (same_kind a) cs H (same_kind_refl a) (proj1 (nth_error_Some cs j) ltac:(congruence))) as M.
    rewrite firstn_all in M. lia. }
  constructor.
  - intros t i G A. destruct (@built_entries dt dit g t i ND G) as [[-> ->]|(k & ind & cs & j & a & H1 & H2 & H3 & -> & ->)].
    + cbn in A. congruence.
    + destruct (S _ _ _ _ _ H3) as (S1 & S2 & S3). cbn [info ctor_arity ctor_ordinal] in *.
      specialize (R _ _ _ H2). split; [|lia]. destruct (Nat.eqb a 0) eqn:Ea; [apply Nat.eqb_eq in Ea; subst a; cbn in A; congruence|].
      rewrite N.add_0_l. rewrite (filter_ext (same_kind a) (fun a => negb (Nat.eqb a 0))) in R; [lia|].
      intro x. unfold same_kind. rewrite Ea. destruct (Nat.eqb x 0); reflexivity.
  - intros t i G A. destruct (@built_entries dt dit g t i ND G) as [[-> ->]|(k & ind & cs & j & a & H1 & H2 & H3 & -> & ->)].
    + cbn. lia.
    + destruct (S _ _ _ _ _ H3) as (S1 & S2 & S3). cbn [info ctor_arity ctor_ordinal] in *.
      specialize (R _ _ _ H2). assert (a = 0) by lia. subst a. cbn [Nat.eqb]. rewrite N.add_0_l.
      rewrite (filter_ext (same_kind 0) (Nat.eqb 0)) in R; [lia|].
      intro x. unfold same_kind. cbn [Nat.eqb Bool.eqb]. destruct x; reflexivity.
  - intros t1 t2 i1 i2 G1 G2 It Io Ia.
    destruct (@built_entries dt dit g t1 i1 ND G1) as [[-> ->]|(k & ind & cs & j & a & H1 & H2 & H3 & -> & ->)];
    destruct (@built_entries dt dit g t2 i2 ND G2) as [[-> ->]|(k' & ind' & cs' & j' & a' & H1' & H2' & H3' & -> & ->)];
      cbn [info ctor_ind_tag ctor_ordinal ctor_arity] in *.
    + reflexivity.
    + exfalso. apply (f_equal Pos.to_nat) in It. unfold itag in It. rewrite padd_nat in It. lia.
    + exfalso. apply (f_equal Pos.to_nat) in It. unfold itag in It. rewrite padd_nat in It. lia.
    + unfold itag in It. apply padd_inj in It. assert (k = k') by lia. subst k'.
      assert (cs' = cs) by congruence. subst cs'.
      assert (K : same_kind a a' = true).
      { unfold same_kind. destruct (Nat.eqb_spec a 0), (Nat.eqb_spec a' 0); try reflexivity; exfalso; lia. }
      assert (Er : rank cs j a = rank cs j' a').
      { unfold same_kind in K. destruct (Nat.eqb a 0), (Nat.eqb a' 0); try discriminate; lia. }
      pose proof (@rank_inj cs j a j' a' H2 H2' K Er). subst j'. reflexivity.
Qed.
