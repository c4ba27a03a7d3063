(** * C34: constructors of a datatype are laid out unambiguously

    Specification: [declared] (constructor [j] of type [i] of pack [kn] takes
    [a] arguments), [same_kind] and [rank] in Layout_Proofs.v. *)
From Coq Require Import ZArith NArith List Lia Bool FinFun.
Import ListNotations.
From Verif Require Import ANF_Syntax Layout_Model Layout_Proofs.
Set Implicit Arguments.

(** The pieces of the result of [convert_env]. *)
Definition ind_of (r : ice) : ind_env := let '(ie, _, _, _, _) := r in ie.
Definition ctors_of (r : ice) : ctor_env := let '(_, ce, _, _, _) := r in ce.
Definition next_ctor (r : ice) : ctor_tag := let '(_, _, c, _, _) := r in c.
Definition next_ind (r : ice) : ind_tag := let '(_, _, _, i, _) := r in i.
Definition ids_of (r : ice) : conId_map := let '(_, _, _, _, m) := r in m.

(** booleans, naturals, and a pack of two mutual types with mixed constructors *)
Definition ex_env : ienv :=
  [(7%positive, [[0; 0]]); (3%positive, [[0; 1]]); (5%positive, [[2; 0; 1; 0; 3]; []; [1]])].

(** Every declared constructor is found, with its arity, its rank among the
    constructors of its kind, and a datatype tag under which the datatype's
    constructors are listed in order. *)
Theorem C34_layout : forall dt dit g kn i j cs a,
  NoDup (map fst g) -> declared g kn i j cs a ->
  let r := convert_env dt dit g in
  exists it row,
    get (dcon_to_tag dt ((kn, i), N.of_nat j) (ids_of r)) (ctors_of r) =
      Some {| ctor_ind_tag := it; ctor_arity := N.of_nat a; ctor_ordinal := rank cs j a |} /\
    get it (ind_of r) = Some row /\
    map snd row = map N.of_nat cs /\
    nth_error (map fst row) j = Some (dcon_to_tag dt ((kn, i), N.of_nat j) (ids_of r)) /\
    NoDup (map fst row).
Proof.
  intros dt dit g kn i j cs a ND (ty & H1 & H2 & H3) r.
  destruct (flat_pos _ _ _ i H1 H2) as [k Hk].
  pose proof (env_ok dt dit g ND) as I. fold r in I.
  destruct r as [[[[ie ce] nc] ni] m]. cbn [ids_of ctors_of ind_of]. destruct I as (_ & _ & _ & I).
  destruct (I _ _ _ Hk) as [A B]. destruct (B _ _ H3) as [B1 B2].
  exists (itag dit k), (row dt (flat g) k cs).
  assert (F : map fst (row dt (flat g) k cs) = map (ctag dt (flat g) k) (seq 0 (length cs))).
  { unfold row. generalize (map N.of_nat cs), (map_length N.of_nat cs).
    generalize (map (ctag dt (flat g) k) (seq 0 (length cs))), (map_length (ctag dt (flat g) k) (seq 0 (length cs))).
    rewrite seq_length. generalize (length cs). clear. intros n l. revert n.
    induction l as [|x l IH]; intros [|n] E [|y l'] E'; try discriminate; try reflexivity.
    cbn in *. f_equal. apply IH with n; lia. }
  assert (S : map snd (row dt (flat g) k cs) = map N.of_nat cs).
  { unfold row. generalize (map N.of_nat cs), (map_length N.of_nat cs).
    generalize (map (ctag dt (flat g) k) (seq 0 (length cs))), (map_length (ctag dt (flat g) k) (seq 0 (length cs))).
    rewrite seq_length. generalize (length cs). clear. intros n l. revert n.
    induction l as [|x l IH]; intros [|n] E [|y l'] E'; try discriminate; try reflexivity.
    cbn in *. f_equal. apply IH with n; lia. }
  assert (L : j < length cs) by (apply nth_error_Some; congruence).
  split; [|split; [exact A|split; [exact S|split]]].
  - rewrite B2, B1. unfold info. destruct (Nat.eqb a 0); reflexivity.
  - rewrite F, B2, nth_error_map.
    rewrite (nth_error_nth' (seq 0 (length cs)) 0) by (rewrite seq_length; exact L).
    rewrite seq_nth by exact L. reflexivity.
  - rewrite F. apply Injective_map_NoDup; [|apply seq_NoDup].
    intros x y E. unfold ctag in E. apply padd_inj in E. lia.
Qed.

Example C34_layout_ex :
  declared ex_env 5 0 2 [2; 0; 1; 0; 3] 1 /\
  get (dcon_to_tag 99 ((5%positive, 0), 2%N) (ids_of (convert_env 99 99 ex_env)))
      (ctors_of (convert_env 99 99 ex_env)) =
  Some {| ctor_ind_tag := 102%positive; ctor_arity := 1; ctor_ordinal := 1 |}.
Proof.
  split; [|reflexivity]. exists [[2; 0; 1; 0; 3]; []; [1]]. cbn. auto 10.
Qed.
Print Assumptions C34_layout.

(** Two constructors of one datatype that share a runtime shape (both without
    arguments, or both with) never share an ordinal. *)
Theorem C34_unambiguous : forall dt dit g kn i cs j a j' a' c c',
  NoDup (map fst g) -> declared g kn i j cs a -> declared g kn i j' cs a' ->
  let r := convert_env dt dit g in
  get (dcon_to_tag dt ((kn, i), N.of_nat j) (ids_of r)) (ctors_of r) = Some c ->
  get (dcon_to_tag dt ((kn, i), N.of_nat j') (ids_of r)) (ctors_of r) = Some c' ->
  ctor_ind_tag c = ctor_ind_tag c' /\
  (j <> j' -> (ctor_arity c =? 0)%N = (ctor_arity c' =? 0)%N -> ctor_ordinal c <> ctor_ordinal c').
Proof.
  intros dt dit g kn i cs j a j' a' c c' ND D D' r E E'.
  destruct D as (ty & H1 & H2 & H3), D' as (ty' & H1' & H2' & H3').
  destruct (flat_pos _ _ _ i H1 H2) as [k Hk].
  pose proof (env_ok dt dit g ND) as I. fold r in I.
  destruct r as [[[[ie ce] nc] ni] m]. cbn [ids_of ctors_of] in *. destruct I as (_ & _ & _ & I).
  destruct (I _ _ _ Hk) as [_ B].
  destruct (B _ _ H3) as [B1 B2]. destruct (B _ _ H3') as [B1' B2'].
  rewrite B2, B1 in E. rewrite B2', B1' in E'. injection E as <-. injection E' as <-.
  cbn [info ctor_ind_tag ctor_arity ctor_ordinal]. split; [reflexivity|].
  intros NE K Q. apply NE.
  assert (SK : same_kind a a' = true).
  { unfold same_kind. destruct (Nat.eqb_spec a 0), (Nat.eqb_spec a' 0); try reflexivity;
      destruct (N.eqb_spec (N.of_nat a) 0), (N.eqb_spec (N.of_nat a') 0); try discriminate; lia. }
  apply (rank_inj _ _ _ H3 H3' SK). destruct (Nat.eqb a 0), (Nat.eqb a' 0); lia.
Qed.

Example C34_unambiguous_ex :
  let r := convert_env 99 99 ex_env in
  map (fun j => option_map (fun c => (ctor_arity c, ctor_ordinal c))
                 (get (dcon_to_tag 99 ((5%positive, 0), j) (ids_of r)) (ctors_of r)))
      [0; 1; 2; 3; 4]%N =
  [Some (2, 0); Some (0, 0); Some (1, 1); Some (0, 1); Some (3, 2)]%N.
Proof. reflexivity. Qed.
Print Assumptions C34_unambiguous.

(** Ordinals of each kind are numbered consecutively from zero: every smaller
    ordinal of the same kind is taken by an earlier constructor. *)
Theorem C34_consecutive : forall cs j a n,
  nth_error cs j = Some a -> (n < rank cs j a)%N ->
  exists j' a', j' < j /\ nth_error cs j' = Some a' /\ same_kind a a' = true /\ rank cs j' a' = n.
Proof.
  intros cs j. revert cs.
  induction j as [|j IH]; intros cs a n H L.
  - unfold rank in L. cbn in L. lia.
  - destruct (nth_error cs j) as [b|] eqn:Eb.
    2:{ apply nth_error_None in Eb. assert (S j < length cs) by (apply nth_error_Some; congruence). lia. }
    assert (F : firstn (S j) cs = firstn j cs ++ [b]).
    { revert Eb. clear. revert cs. induction j as [|j IH]; intros [|x cs] E; try discriminate; cbn in *.
      - injection E as ->. reflexivity.
      - f_equal. apply IH. exact E. }
    unfold rank in L. rewrite F, filter_app, app_length in L. cbn [filter] in L.
    destruct (same_kind a b) eqn:K; cbn [length] in L.
    + destruct (N.eq_dec n (rank cs j b)) as [->|NE].
      * exists j, b. repeat split; auto.
      * destruct (IH cs b n Eb) as (j' & a' & L' & A & B & C).
        { unfold rank in NE |- *. rewrite <- (same_kind_ext _ _ K) in NE |- *. lia. }
        exists j', a'. repeat split; auto.
        unfold same_kind in *. destruct (Nat.eqb a 0), (Nat.eqb b 0), (Nat.eqb a' 0); try discriminate; reflexivity.
    + assert (L2 : (n < N.of_nat (length (filter (same_kind a) (firstn j cs))))%N) by lia.
      clear L F Eb. revert L2. revert IH H. clear.
      intros IH H L.
      (* replace position [j] by [a]: the prefix is the same *)
      assert (E : firstn j (firstn j cs ++ [a]) = firstn j cs).
      { rewrite firstn_app, firstn_firstn, Nat.min_id.
        assert (length (firstn j cs) = j).
        { rewrite firstn_length. assert (S j < length cs) by (apply nth_error_Some; congruence). lia. }
        rewrite H0, Nat.sub_diag. cbn. apply app_nil_r. }
      assert (Lf : length (firstn j cs) = j).
      { rewrite firstn_length. assert (S j < length cs) by (apply nth_error_Some; congruence). lia. }
      destruct (IH (firstn j cs ++ [a]) a n) as (j' & a' & L' & A & B & C).
      * rewrite nth_error_app2 by lia. rewrite Lf, Nat.sub_diag. reflexivity.
      * unfold rank. rewrite E. exact L.
      * exists j', a'. split; [lia|]. rewrite nth_error_app1 in A by lia.
        assert (P : forall x, x <= j -> firstn x (firstn j cs ++ [a]) = firstn x cs).
        { intros x Lx. rewrite firstn_app, firstn_firstn. replace (x - length (firstn j cs)) with 0 by lia.
          cbn. rewrite app_nil_r. f_equal. lia. }
        split; [|split; [exact B|]].
        { rewrite <- A. clear - L'. revert j L' cs.
          induction j' as [|j' IH]; intros [|j] L [|x cs]; try lia; try reflexivity.
          cbn. apply IH. lia. }
        { unfold rank in *. rewrite P in C by lia. exact C. }
Qed.

Example C34_consecutive_ex : rank [2; 0; 1; 0; 3] 4 3 = 2%N /\ rank [2; 0; 1; 0; 3] 2 1 = 1%N.
Proof. split; reflexivity. Qed.
Print Assumptions C34_consecutive.

(** Different declared constructors get different tags, different datatypes
    get different datatype tags, none is the reserved one, and all are below
    the next free tags returned to the rest of the pipeline. *)
Theorem C34_tags_distinct : forall dt dit g kn i j cs a kn' i' j' cs' a',
  NoDup (map fst g) -> declared g kn i j cs a -> declared g kn' i' j' cs' a' ->
  let r := convert_env dt dit g in
  let t := dcon_to_tag dt ((kn, i), N.of_nat j) (ids_of r) in
  let t' := dcon_to_tag dt ((kn', i'), N.of_nat j') (ids_of r) in
  (dt < t /\ t < next_ctor r)%positive /\
  (t = t' -> kn = kn' /\ i = i' /\ j = j') /\
  (forall c c', get t (ctors_of r) = Some c -> get t' (ctors_of r) = Some c' ->
     (dit < ctor_ind_tag c /\ ctor_ind_tag c < next_ind r)%positive /\
     (ctor_ind_tag c = ctor_ind_tag c' -> kn = kn' /\ i = i')).
Proof.
  intros dt dit g kn i j cs a kn' i' j' cs' a' ND D D' r.
  destruct D as (ty & H1 & H2 & H3), D' as (ty' & H1' & H2' & H3').
  destruct (flat_pos _ _ _ i H1 H2) as [k Hk]. destruct (flat_pos _ _ _ i' H1' H2') as [k' Hk'].
  pose proof (env_ok dt dit g ND) as I. fold r in I.
  destruct r as [[[[ie ce] nc] ni] m]. cbn [ids_of ctors_of next_ctor next_ind] in *.
  destruct I as (E1 & E2 & _ & I).
  destruct (I _ _ _ Hk) as [_ B]. destruct (I _ _ _ Hk') as [_ B'].
  destruct (B _ _ H3) as [B1 B2]. destruct (B' _ _ H3') as [B1' B2'].
  rewrite B2, B2'.
  assert (L : j < length cs) by (apply nth_error_Some; congruence).
  assert (L' : j' < length cs') by (apply nth_error_Some; congruence).
  pose proof (size_firstn_lt _ _ Hk) as SL.
  assert (LK : k < length (flat g)) by (apply nth_error_Some; congruence).
  split; [|split].
  - rewrite !Pos2Nat.inj_lt, E1. unfold ctag. rewrite !padd_nat. lia.
  - intro Q. destruct (@ctag_inj dt _ _ _ _ _ _ _ _ _ Hk Hk' L L' Q) as [<- <-]. rewrite Hk in Hk'. injection Hk' as <- <- _. auto.
  - intros c c' C C'. rewrite B1 in C. rewrite B1' in C'. injection C as <-. injection C' as <-.
    cbn [info ctor_ind_tag]. split.
    + rewrite !Pos2Nat.inj_lt, E2. unfold itag. rewrite !padd_nat. lia.
    + intro Q. unfold itag in Q. apply padd_inj in Q. assert (k = k') by lia. subst k'.
      rewrite Hk in Hk'. injection Hk' as <- <- _. auto.
Qed.

Example C34_tags_distinct_ex :
  let r := convert_env 99 99 ex_env in
  map (fun d => dcon_to_tag 99 d (ids_of r))
      [((7, 0%nat), 0%N); ((7, 0%nat), 1%N); ((3, 0%nat), 0%N); ((3, 0%nat), 1%N); ((5, 0%nat), 4%N); ((5, 2%nat), 0%N)]%positive =
  [100; 101; 102; 103; 108; 109]%positive /\
  next_ctor r = 110%positive /\ next_ind r = 105%positive.
Proof. repeat split; reflexivity. Qed.
Print Assumptions C34_tags_distinct.

(** The reserved tag keeps its entry. *)
Theorem C34_default : forall dt dit g, NoDup (map fst g) ->
  let r := convert_env dt dit g in
  get dt (ctors_of r) = Some {| ctor_ind_tag := dit; ctor_arity := 0; ctor_ordinal := 0 |} /\
  get dit (ind_of r) = Some [(dt, 0%N)].
Proof.
  intros dt dit g ND r. pose proof (env_ok dt dit g ND) as I. fold r in I.
  destruct r as [[[[ie ce] nc] ni] m]. destruct I as (_ & _ & (A & B) & _). auto.
Qed.
Example C34_default_ex : NoDup (map fst ex_env) /\ get 99%positive (ctors_of (convert_env 99 99 ex_env)) <> None.
Proof. split; [|discriminate]. cbn. repeat constructor; cbn; intuition discriminate. Qed.
Print Assumptions C34_default.

(** ** What does not hold *)

(** A pack declared twice: constructors of the first declaration are answered
    with the tag of the second, so the layout of the first is lost. *)
Theorem C34_repeated_pack_refuted : exists g kn i j cs a,
  declared g kn i j cs a /\
  let r := convert_env 99 99 g in
  forall c, get (dcon_to_tag 99 ((kn, i), N.of_nat j) (ids_of r)) (ctors_of r) = Some c ->
    ctor_arity c <> N.of_nat a.
Proof.
  exists [(7%positive, [[0]]); (7%positive, [[1]])], 7%positive, 0, 0, [0], 0.
  split; [exists [[0]]; cbn; auto|]. cbn. intros c E. injection E as <-. discriminate.
Qed.
Print Assumptions C34_repeated_pack_refuted.

(** The correctness theorems of the conversion to LambdaANF assume
    ([dcon_to_tag_inj], LambdaBoxLocal_to_LambdaANF_anf_toplevel.v:111-113,
    LambdaBoxLocal_to_LambdaANF_toplevel.v:95-97) that [dcon_to_tag] is injective
    for every table.  No default tag makes that true, so the assumption cannot be
    discharged; [C34_tags_distinct] is the statement that does hold. *)
Theorem C34_injective_for_all_tables_refuted : forall dt,
  exists tgm dc dc', dcon_to_tag dt dc tgm = dcon_to_tag dt dc' tgm /\ dc <> dc'.
Proof.
  intro dt. exists [], ((1%positive, 0), 0%N), ((1%positive, 0), 1%N). split; [reflexivity|discriminate].
Qed.
Print Assumptions C34_injective_for_all_tables_refuted.

(** Nor is it injective on the tables the conversion builds: two constructors
    that are not declared share the reserved tag. *)
Theorem C34_injective_on_built_tables_refuted : forall dt dit g, NoDup (map fst g) ->
  exists dc dc', dcon_to_tag dt dc (ids_of (convert_env dt dit g)) =
                 dcon_to_tag dt dc' (ids_of (convert_env dt dit g)) /\ dc <> dc'.
Proof.
  intros dt dit g _. set (m := ids_of _). clearbody m.
  assert (F : exists b, forall n, (b <= n)%N -> dcon_to_tag dt ((1%positive, 0), n) m = dt).
  { induction m as [|[d t] m [b H]].
    - exists 0%N. reflexivity.
    - exists (N.max b (snd d + 1)). intros n L. rewrite dtt_cons.
      destruct (conId_dec (1%positive, 0, n) d) as [<-|_]; [cbn in L; lia|]. apply H. lia. }
  destruct F as [b H]. exists ((1%positive, 0), b), ((1%positive, 0), (b + 1)%N).
  rewrite !H by lia. split; [reflexivity|]. intro E. injection E as E. lia.
Qed.
Print Assumptions C34_injective_on_built_tables_refuted.
