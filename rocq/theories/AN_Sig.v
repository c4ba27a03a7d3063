(* The tables built from the datatype declarations meet what the correctness of
   A-normalisation asks of them. *)
From Coq Require Import List Arith NArith PArith String Bool Lia.
From Verif Require Import ANF_Syntax LB_Model AN_Model AN_Spec.
From Verif Require Layout_Model Layout_Proofs Properties_Layout.
Import ListNotations.


Definition keys_declared (l : list (positive * list (list nat))) (m : Layout_Model.conId_map) : Prop :=
  forall kn i j, In ((kn, i), j) (map fst m) ->
    exists ty cs a, In (kn, ty) l /\ nth_error ty i = Some cs /\ nth_error cs (N.to_nat j) = Some a.

Lemma cnstrs_keys : forall cct cs ind n u b it ce m,
  forall d, In d (map fst (snd (Layout_Model.convert_cnstrs cct cs ind n u b it ce m))) ->
  In d (map fst m) \/ (fst d = ind /\ exists j, snd d = (n + N.of_nat j)%N /\ j < List.length cs).
Proof.
  induction cct as [|c cct IH]; intros [|a cs] ind n u b it ce m d H; cbn [Layout_Model.convert_cnstrs snd] in H; auto.
  apply IH in H. destruct H as [H | [H1 [j [H2 H3]]]].
  - cbn in H. destruct H as [<- | H]; auto. right. split; auto. exists 0. cbn. split; lia.
  - right. split; auto. exists (S j). cbn [List.length]. split; lia.
Qed.

Lemma typack_keys : forall ty kn n st d,
  In d (map fst (Properties_Layout.ids_of (Layout_Model.convert_typack ty kn n st))) ->
  In d (map fst (Properties_Layout.ids_of st)) \/
  exists i cs, fst d = (kn, n + i) /\ nth_error ty i = Some cs /\ N.to_nat (snd d) < List.length cs.
Proof.
  induction ty as [|cs ty IH]; intros kn n [[[[ie ce] nc] ni] m] d H; cbn [Layout_Model.convert_typack] in H; auto.
  destruct (Layout_Model.fromN nc (List.length cs)) as [cct nc'].
  destruct (Layout_Model.convert_cnstrs cct cs (kn, n) 0 0 0 ni ce m) as [ce' m'] eqn:E.
  apply IH in H. destruct H as [H | [i [cs' [H1 [H2 H3]]]]].
  - cbn [Properties_Layout.ids_of] in *. assert (X := cnstrs_keys cct cs (kn, n) 0 0 0 ni ce m d). rewrite E in X.
    destruct (X H) as [Y | [Y1 [j [Y2 Y3]]]]; auto. right. exists 0, cs. rewrite Nat.add_0_r. split; auto. split; auto.
    rewrite Y2. lia.
  - right. exists (S i), cs'. split; [rewrite H1; f_equal; lia | auto].
Qed.

Lemma env_keys : forall g st d,
  In d (map fst (Properties_Layout.ids_of (Layout_Model.convert_env' g st))) ->
  In d (map fst (Properties_Layout.ids_of st)) \/
  exists kn ty i cs, In (kn, ty) g /\ fst d = (kn, i) /\ nth_error ty i = Some cs /\ N.to_nat (snd d) < List.length cs.
Proof.
  induction g as [|[kn ty] g IH]; intros st d H; cbn [Layout_Model.convert_env'] in H; auto.
  apply IH in H. destruct H as [H | [kn' [ty' [i [cs [H1 H2]]]]]].
  - apply typack_keys in H. destruct H as [H | [i [cs [H1 H2]]]]; auto.
    right. exists kn, ty, i, cs. cbn [In]. split; auto.
  - right. exists kn', ty', i, cs. cbn [In]. split; auto.
Qed.

Section Names.
  Variable name : positive -> string.
  Hypothesis name_inj : forall a b, name a = name b -> a = b.
  Variables dt dit : positive.

  Definition rename_dcon (d : positive * nat * N) : dcon := ((name (fst (fst d)), snd (fst d)), snd d).
  Definition rename (m : Layout_Model.conId_map) : conId_map := map (fun p => (rename_dcon (fst p), snd p)) m.

  Lemma rename_inj : forall d d', rename_dcon d = rename_dcon d' -> d = d'.
  Proof.
    intros [[a i] j] [[a' i'] j'] H. unfold rename_dcon in H. cbn in H. injection H as H1 H2 H3.
    apply name_inj in H1. congruence.
  Qed.
  Lemma dcon_eqb_refl : forall d, dcon_eqb d d = true.
  Proof.
    intros [[a b] c]. unfold dcon_eqb, ind_eqb. cbn. rewrite String.eqb_refl, Nat.eqb_refl, N.eqb_refl. reflexivity.
  Qed.
  Lemma dcon_eqb_true : forall d d0, dcon_eqb d d0 = true -> d = d0.
  Proof.
    intros [[a b] c] [[a' b'] c'] DE. unfold dcon_eqb, ind_eqb in DE. cbn in DE.
    apply andb_true_iff in DE. destruct DE as [DE D3]. apply andb_true_iff in DE. destruct DE as [D1 D2].
    apply String.eqb_eq in D1. apply Nat.eqb_eq in D2. apply N.eqb_eq in D3. congruence.
  Qed.
  Lemma rename_tag : forall d m, dcon_to_tag dt (rename_dcon d) (rename m) = Layout_Model.dcon_to_tag dt d m.
  Proof.
    intros d m. unfold Layout_Model.dcon_to_tag. induction m as [|[d' t] m IH]; [reflexivity |].
    cbn [rename map dcon_to_tag Layout_Model.dcon_to_info fst snd].
    destruct (Layout_Model.conId_dec d d') as [-> | N]; [rewrite dcon_eqb_refl; reflexivity |].
    destruct (dcon_eqb (rename_dcon d) (rename_dcon d')) eqn:E; [| exact IH].
    apply dcon_eqb_true, rename_inj in E. contradiction.
  Qed.
  Lemma rename_known : forall d m, known (rename m) d -> exists d0, d = rename_dcon d0 /\ In d0 (map fst m).
  Proof.
    unfold known, rename. intros d m H. rewrite map_map in H. apply in_map_iff in H.
    destruct H as [[d0 t] [H1 H2]]. exists d0. split; auto. apply in_map_iff. exists (d0, t). auto.
  Qed.

  Lemma built_sig : forall g, NoDup (map fst g) ->
    let r := Layout_Model.convert_env dt dit g in
    good_sig dt (rename (Properties_Layout.ids_of r)) (Properties_Layout.ctors_of r).
  Proof.
    intros g ND r.
    assert (K : forall d, In d (map fst (Properties_Layout.ids_of r)) ->
      exists cs a, Layout_Proofs.declared g (fst (fst d)) (snd (fst d)) (N.to_nat (snd d)) cs a).
    { intros d H. unfold r, Layout_Model.convert_env in H. apply env_keys in H.
      destruct H as [[] | [kn [ty [i [cs [H1 [H2 [H3 H4]]]]]]]].
      destruct (nth_error cs (N.to_nat (snd d))) as [a |] eqn:NE; [| apply nth_error_None in NE; lia].
      exists cs, a. rewrite H2. cbn. exists ty. auto. }
    assert (DE : forall d : positive * nat * N, d = ((fst (fst d), snd (fst d)), N.of_nat (N.to_nat (snd d)))).
    { intros [[a b] c]. cbn. rewrite Nnat.N2Nat.id. reflexivity. }
    split.
    - intros d d' H H' E. apply rename_known in H, H'. destruct H as [d0 [-> H]], H' as [d0' [-> H']].
      rewrite !rename_tag in E. f_equal.
      destruct (K _ H) as [cs [a D]], (K _ H') as [cs' [a' D']].
      destruct (@Properties_Layout.C34_tags_distinct dt dit g _ _ _ _ _ _ _ _ _ _ ND D D') as [_ [X _]].
      fold r in X. rewrite <- (DE d0), <- (DE d0') in X. specialize (X E).
      destruct d0 as [[a0 b0] c0], d0' as [[a1 b1] c1]. cbn in X. destruct X as [-> [-> X]].
      f_equal. lia.
    - intros d d' H H' E. apply rename_known in H, H'. destruct H as [d0 [-> H]], H' as [d0' [-> H']].
      rewrite !rename_tag.
      destruct (K _ H) as [cs [a D]], (K _ H') as [cs' [a' D']].
      destruct (@Properties_Layout.C34_layout dt dit g _ _ _ _ _ ND D) as [it [row [X _]]].
      destruct (@Properties_Layout.C34_layout dt dit g _ _ _ _ _ ND D') as [it' [row' [X' _]]].
      fold r in X, X'. rewrite <- (DE d0) in X. rewrite <- (DE d0') in X'.
      eexists _, _. split; [exact X |]. split; [exact X' |].
      assert (D2 : cs' = cs /\ fst (fst d0') = fst (fst d0) /\ snd (fst d0') = snd (fst d0)).
      { unfold rename_dcon in E. cbn in E. injection E as E1 E2. apply name_inj in E1.
        destruct D as [ty [A1 [A2 A3]]], D' as [ty' [B1 [B2 B3]]]. rewrite <- E1, <- E2 in *.
        assert (ty' = ty); [| subst; split; [congruence | auto]].
        clear - ND A1 B1. induction g as [|[k t] g IH]; [contradiction |]. cbn in ND. inversion ND; subst.
        destruct A1 as [A1 | A1], B1 as [B1 | B1]; try congruence.
        - injection A1 as -> ->. exfalso. apply H1. apply in_map_iff. exists (fst (fst d0), ty'). auto.
        - injection B1 as -> ->. exfalso. apply H1. apply in_map_iff. exists (fst (fst d0), ty). auto.
        - auto. }
      destruct D2 as [-> [D2 D3]]. rewrite D2, D3 in *.
      destruct (@Properties_Layout.C34_unambiguous dt dit g _ _ _ _ _ _ _ _ _ ND D D'
        ltac:(fold r; rewrite <- (DE d0); exact X)
        ltac:(fold r; rewrite <- D2, <- D3, <- (DE d0'); exact X')) as [Y _].
      exact Y.
  Qed.
End Names.
