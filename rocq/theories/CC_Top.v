(* Closure conversion: bundles, tables, the whole pass. *)
From Coq Require Import List Arith NArith PArith Bool Lia.
From Verif Require Import ANF_Syntax ANF_Eval ANF_Spec ANF_Scope ANF_EvalProofs ANF_FreeProofs Hoist_Spec CC_Model CC_Spec CC_Proofs CC_Scope.
Import ListNotations.

Section Top.
  Variable clo_tag : ctor_tag.
  Notation conv := (exp_closure_conv clo_tag).
  Notation convf := (fundefs_closure_conv clo_tag).
  Notation gvar := (get_var clo_tag).
  Notation gvars := (get_vars clo_tag).

  (* ** Bundles *)
  Lemma gvar_bundles x map g c G s y f s' : gvar x map g c G s = (y, f, s') ->
    forall e, bundles (f e) = bundles e /\ defs_of (f e) = defs_of e.
  Proof.
    intros H e. unfold get_var in H. destruct (get x map) as [[k|env|]|]; [| | |destruct (get x g) as [[]|]];
      repeat match type of H with context [let (_, _) := ?t in _] => destruct t end; apply pair3 in H as (-> & <- & ->); cbn; auto.
  Qed.
  Lemma gvars_bundles map g c G xs : forall s ys f s', gvars xs map g c G s = (ys, f, s') ->
    forall e, bundles (f e) = bundles e /\ defs_of (f e) = defs_of e.
  Proof.
    induction xs as [|x xs IH]; intros s ys f s' H e.
    - cbn [get_vars] in H. apply pair3 in H as (<- & <- & <-). auto.
    - apply gvars_cons in H as (y & f1 & s1 & ys' & f2 & E1 & E2 & -> & ->).
      destruct (gvar_bundles _ _ _ _ _ _ _ _ _ E1 (f2 e)) as [-> ->]. eauto.
  Qed.

  Lemma conv_names :
    (forall e map g c G s e1 f1 s1, conv e map g c G s = (e1, f1, s1) -> List.map fname (defs_of (f1 e1)) = List.map fname (defs_of e)) /\
    (forall B B0 map g c s B1 s1, convf B0 B map g c s = (B1, s1) -> List.map fname (defs_of_funs B1) = List.map fname (defs_of_funs B)).
  Proof.
    apply exp_fundefs_ind.
    - intros x t ys e IH map g c G s e1 f1 s1 H. apply conv_constr in H as (ys' & s' & e2 & f2 & H1 & H2 & ->).
      rewrite (proj2 (gvars_bundles _ _ _ _ _ _ _ _ _ H1 _)). cbn [defs_of]. eauto.
    - intros x l IH map g c G s e1 f1 s1 H. apply conv_case_inv in H as (l' & s' & x' & H1 & H2 & ->).
      rewrite (proj2 (gvar_bundles _ _ _ _ _ _ _ _ _ H2 _)). cbn [defs_of]. clear H2. revert s l' H1.
      induction IH as [|[t a] l IH1 _ IH2]; intros s l' H1.
      + apply pair2 in H1 as [<- _]. reflexivity.
      + apply pats_cons in H1 as (e2 & f2 & s2 & l2 & A & B & ->). cbn [flat_map snd]. rewrite !map_app. f_equal; eauto.
    - intros x t n y e IH map g c G s e1 f1 s1 H. apply conv_proj in H as (y' & s' & e2 & f2 & H1 & H2 & ->).
      rewrite (proj2 (gvar_bundles _ _ _ _ _ _ _ _ _ H1 _)). cbn [defs_of]. eauto.
    - intros x f t ys e IH map g c G s e1 f1 s1 H.
      apply conv_letapp in H as (f' & g1 & sa & ys' & g2 & sb & ptr & sc & G' & sd & e2 & f2 & H1 & H2 & H3 & H4 & H5 & -> & ->).
      rewrite (proj2 (gvar_bundles _ _ _ _ _ _ _ _ _ H1 _)), (proj2 (gvars_bundles _ _ _ _ _ _ _ _ _ H2 _)). cbn [defs_of]. eauto.
    - intros B e IHB IH map g c G s e1 f1 s1 H.
      apply conv_fun in H as (G' & sa & ys' & g' & sb & c' & sc & B' & sd & e2 & f2 & H1 & H2 & H3 & H4 & H5 & -> & ->).
      rewrite (proj2 (gvars_bundles _ _ _ _ _ _ _ _ _ H2 _)). cbn [defs_of]. rewrite !map_app. f_equal; eauto.
    - intros f t ys map g c G s e1 f1 s1 H.
      apply conv_app in H as (f' & g1 & sa & ys' & g2 & sb & ptr & sc & G' & H1 & H2 & H3 & H4 & -> & ->).
      rewrite (proj2 (gvar_bundles _ _ _ _ _ _ _ _ _ H1 _)), (proj2 (gvars_bundles _ _ _ _ _ _ _ _ _ H2 _)). reflexivity.
    - intros x p e IH map g c G s e1 f1 s1 H. apply conv_prim_val in H as (e2 & f2 & H1 & -> & ->). cbn [defs_of]. eauto.
    - intros x p ys e IH map g c G s e1 f1 s1 H. apply conv_prim in H as (ys' & s' & e2 & f2 & H1 & H2 & ->).
      rewrite (proj2 (gvars_bundles _ _ _ _ _ _ _ _ _ H1 _)). cbn [defs_of]. eauto.
    - intros x map g c G s e1 f1 s1 H. apply conv_halt in H as (x' & H1 & ->).
      rewrite (proj2 (gvar_bundles _ _ _ _ _ _ _ _ _ H1 _)). reflexivity.
    - intros f t ys e B IH IHB B0 map g c s B1 s1 H.
      apply convf_cons in H as (G & sa & e1 & f1 & sb & B' & H1 & H2 & H3 & ->). cbn [defs_of_funs List.map]. f_equal. rewrite !map_app. f_equal; eauto.
    - intros B0 map g c s B1 s1 H. cbn [fundefs_closure_conv] in H. apply pair2 in H as [<- <-]. reflexivity.
  Qed.

  Lemma conv_closed bs :
    (forall e map g c G s e1 f1 s1, conv e map g c G s = (e1, f1, s1) -> incl (bundles (f1 e1)) bs -> (forall z, get z g <> None -> closed_fun bs z) ->
       forall B z, In B (bundles (f1 e1)) -> free_funs z B -> closed_fun bs z) /\
    (forall B B0 map g c s B1 s1, convf B0 B map g c s = (B1, s1) -> incl (bundles_funs B1) bs -> (forall z, get z g <> None -> closed_fun bs z) ->
       forall D z, In D (bundles_funs B1) -> free_funs z D -> closed_fun bs z).
  Proof.
    apply exp_fundefs_ind.
    - intros x t ys e IH map g c G s e1 f1 s1 H. apply conv_constr in H as (ys' & s' & e2 & f2 & H1 & H2 & ->).
      rewrite (proj1 (gvars_bundles _ _ _ _ _ _ _ _ _ H1 _)). cbn [bundles]. eauto.
    - intros x l IH map g c G s e1 f1 s1 H. apply conv_case_inv in H as (l' & s' & x' & H1 & H2 & ->).
      rewrite (proj1 (gvar_bundles _ _ _ _ _ _ _ _ _ H2 _)). cbn [bundles]. clear H2. revert s l' H1.
      induction IH as [|[t a] l IH1 _ IH2]; intros s l' H1 I Gz B z IB F.
      + apply pair2 in H1 as [<- _]. destruct IB.
      + apply pats_cons in H1 as (e2 & f2 & s2 & l2 & P & Q & ->). cbn [flat_map snd] in I, IB. apply incl_app_inv in I as [I1 I2].
        apply in_app_or in IB as [IB|IB]; [eapply IH1; eauto|eapply IH2; eauto].
    - intros x t n y e IH map g c G s e1 f1 s1 H. apply conv_proj in H as (y' & s' & e2 & f2 & H1 & H2 & ->).
      rewrite (proj1 (gvar_bundles _ _ _ _ _ _ _ _ _ H1 _)). cbn [bundles]. eauto.
    - intros x f t ys e IH map g c G s e1 f1 s1 H.
      apply conv_letapp in H as (f' & g1 & sa & ys' & g2 & sb & ptr & sc & G' & sd & e2 & f2 & H1 & H2 & H3 & H4 & H5 & -> & ->).
      rewrite (proj1 (gvar_bundles _ _ _ _ _ _ _ _ _ H1 _)), (proj1 (gvars_bundles _ _ _ _ _ _ _ _ _ H2 _)). cbn [bundles]. eauto.
    - intros B e IHB IH map g c G s e1 f1 s1 H I Gz.
      apply conv_fun in H as (G' & sa & ys' & g' & sb & c' & sc & B' & sd & e2 & f2 & H1 & H2 & H3 & H4 & H5 & -> & ->).
      rewrite (proj1 (gvars_bundles _ _ _ _ _ _ _ _ _ H2 _)) in *. cbn [bundles] in *.
      assert (FB : forall y, free_funs y B' -> get y g <> None).
      { intros y [Y1 Y2]. rewrite (convf_fnames _ _ _ _ _ _ _ _ _ H4) in Y1.
        destruct (proj2 (conv_free clo_tag) _ _ _ _ _ _ _ H4 (sub_defs_refl B) y Y2); [contradiction|assumption]. }
      assert (IB : In B' bs) by (apply I; left; reflexivity).
      assert (Gz' : forall z, get z (add_closures_gfuns B g (no_vars (env_vars B g))) <> None -> closed_fun bs z).
      { intros z. rewrite add_gfuns_get. destruct (no_vars _); [|apply Gz]. destruct (in_dec Pos.eq_dec z (fnames B)) as [J|J]; [|apply Gz].
        intros _. apply cf with (D := B'); [exact IB|rewrite (convf_fnames _ _ _ _ _ _ _ _ _ H4); exact J|]. intros y Y. apply Gz. auto. }
      assert (I2 : incl (bundles_funs B' ++ bundles (f2 e2)) bs) by (intros D J; apply I; right; exact J).
      apply incl_app_inv in I2 as [I2 I3].
      intros D z [<-|J] F; [apply Gz; auto|]. apply in_app_or in J as [J|J]; [eapply IHB; eauto|eapply IH; eauto].
    - intros f t ys map g c G s e1 f1 s1 H.
      apply conv_app in H as (f' & g1 & sa & ys' & g2 & sb & ptr & sc & G' & H1 & H2 & H3 & H4 & -> & ->).
      rewrite (proj1 (gvar_bundles _ _ _ _ _ _ _ _ _ H1 _)), (proj1 (gvars_bundles _ _ _ _ _ _ _ _ _ H2 _)). intros _ _ B z [].
    - intros x p e IH map g c G s e1 f1 s1 H. apply conv_prim_val in H as (e2 & f2 & H1 & -> & ->). cbn [bundles]. eauto.
    - intros x p ys e IH map g c G s e1 f1 s1 H. apply conv_prim in H as (ys' & s' & e2 & f2 & H1 & H2 & ->).
      rewrite (proj1 (gvars_bundles _ _ _ _ _ _ _ _ _ H1 _)). cbn [bundles]. eauto.
    - intros x map g c G s e1 f1 s1 H. apply conv_halt in H as (x' & H1 & ->).
      rewrite (proj1 (gvar_bundles _ _ _ _ _ _ _ _ _ H1 _)). intros _ _ B z [].
    - intros f t ys e B IH IHB B0 map g c s B1 s1 H I Gz.
      apply convf_cons in H as (G & sa & e1 & f1 & sb & B' & H1 & H2 & H3 & ->). cbn [bundles_funs] in *. apply incl_app_inv in I as [I1 I2].
      intros D z J F. apply in_app_or in J as [J|J]; [eapply IH; eauto|eapply IHB; eauto].
    - intros B0 map g c s B1 s1 H. cbn [fundefs_closure_conv] in H. apply pair2 in H as [<- <-]. intros _ _ D z [].
  Qed.

  (* ** Tables *)
  Definition extends (t t' : ctor_env) : Prop := forall x i, get x t = Some i -> get x t' = Some i.
  Definition tle (s s' : cst) : Prop :=
    ((nct s <= nct s')%positive /\ forall x, (x < nct s)%positive -> get x (tbl s') = get x (tbl s)) /\ (tags_below (nct s) (tbl s) -> tags_below (nct s') (tbl s') /\ extends (tbl s) (tbl s')).
  Lemma tle_refl s : tle s s.
  Proof. split; [split; [lia|auto]|]. intro H. split; [exact H|]. intros x i E. exact E. Qed.
  Lemma tle_trans s1 s2 s3 : tle s1 s2 -> tle s2 s3 -> tle s1 s3.
  Proof.
    intros [[A0 A1] A2] [[B0 B1] B2]. split; [split; [lia|]|].
    { intros x L. rewrite B1, A1; auto. lia. }
    intro H. destruct (A2 H) as [C1 C2]. destruct (B2 C1) as [D1 D2]. split; [exact D1|].
    intros x i E. auto.
  Qed.
  Lemma new_var_tle s x s' : new_var s = (x, s') -> tle s s'.
  Proof. intro H. apply pair2 in H as [_ <-]. exact (tle_refl s). Qed.
  Lemma new_record_tle n s c s' : new_record n s = (c, s') -> tle s s' /\ get c (tbl s') = Some {| ctor_ind_tag := nit s; ctor_arity := n; ctor_ordinal := 0 |}.
  Proof.
    intro H. apply pair2 in H as [<- <-]. split; [|cbn [tbl]; apply get_set_same].
    split; [cbn [nct tbl]; split; [lia|intros x L; apply get_set_other; lia]|]. cbn [nct tbl]. intro T. split.
    - intros t i. rewrite get_set. destruct (Pos.eq_dec t (nct s)) as [->|]; [lia|]. intro E. specialize (T t i E). lia.
    - intros t i E. specialize (T t i E). rewrite get_set_other; [exact E|lia].
  Qed.
  Lemma gvar_tle x map g c G s y f s' : gvar x map g c G s = (y, f, s') -> tle s s'.
  Proof.
    intro H. unfold get_var in H. destruct (get x map) as [[k|env|]|]; [| | |destruct (get x g) as [[]|]].
    - destruct (new_var s) as [y0 s0] eqn:EN. apply pair3 in H as (-> & <- & ->). eapply new_var_tle; eauto.
    - destruct (new_var s) as [y0 s0] eqn:EN. apply pair3 in H as (-> & <- & ->). eapply new_var_tle; eauto.
    - apply pair3 in H as (-> & <- & ->). apply tle_refl.
    - destruct (new_record 0 s) as [ce sa] eqn:ER. destruct (new_var sa) as [y0 sb] eqn:EN1. destruct (new_var sb) as [ge sc] eqn:EN2.
      apply pair3 in H as (-> & <- & ->). apply new_record_tle in ER as [ER _]. apply new_var_tle in EN1. apply new_var_tle in EN2.
      eapply tle_trans; [exact ER|]. eapply tle_trans; eauto.
    - apply pair3 in H as (-> & <- & ->). apply tle_refl.
  Qed.
  Lemma gvars_tle map g c G xs : forall s ys f s', gvars xs map g c G s = (ys, f, s') -> tle s s'.
  Proof.
    induction xs as [|x xs IH]; intros s ys f s' H.
    - cbn [get_vars] in H. apply pair3 in H as (<- & <- & <-). apply tle_refl.
    - apply gvars_cons in H as (y & f1 & s1 & ys' & f2 & E1 & E2 & -> & ->). eapply tle_trans; [eapply gvar_tle; eauto|eauto].
  Qed.
  Lemma gvars_length map g c G xs : forall s ys f s', gvars xs map g c G s = (ys, f, s') -> length ys = length xs.
  Proof.
    induction xs as [|x xs IH]; intros s ys f s' H.
    - cbn [get_vars] in H. apply pair3 in H as (<- & <- & <-). reflexivity.
    - apply gvars_cons in H as (y & f1 & s1 & ys' & f2 & E1 & E2 & -> & ->). cbn [length]. f_equal. eauto.
  Qed.
  Ltac chain := repeat match goal with
    | H : gvar _ _ _ _ _ _ = _ |- _ => apply gvar_tle in H
    | H : gvars _ _ _ _ _ _ = _ |- _ => apply gvars_tle in H
    | H : new_var _ = _ |- _ => apply new_var_tle in H
    | H : new_record _ _ = _ |- _ => apply new_record_tle in H as [H _]
    end; repeat (eassumption || (eapply tle_trans; [eassumption|])).
  Lemma conv_tle :
    (forall e map g c G s e1 f1 s1, conv e map g c G s = (e1, f1, s1) -> tle s s1) /\
    (forall B B0 map g c s B1 s1, convf B0 B map g c s = (B1, s1) -> tle s s1).
  Proof.
    apply exp_fundefs_ind.
    - intros x t ys e IH map g c G s e1 f1 s1 H. apply conv_constr in H as (ys' & s' & e2 & f2 & H1 & H2 & ->). apply IH in H2. chain.
    - intros x l IH map g c G s e1 f1 s1 H. apply conv_case_inv in H as (l' & s' & x' & H1 & H2 & ->).
      assert (tle s s'); [|chain]. clear H2. revert s l' H1. induction IH as [|[t a] l IH1 _ IH2]; intros s l' H1.
      + apply pair2 in H1 as [_ <-]. apply tle_refl.
      + apply pats_cons in H1 as (e2 & f2 & s2 & l2 & A & B & ->). eapply tle_trans; eauto.
    - intros x t n y e IH map g c G s e1 f1 s1 H. apply conv_proj in H as (y' & s' & e2 & f2 & H1 & H2 & ->). apply IH in H2. chain.
    - intros x f t ys e IH map g c G s e1 f1 s1 H.
      apply conv_letapp in H as (f' & g1 & sa & ys' & g2 & sb & ptr & sc & G' & sd & e2 & f2 & H1 & H2 & H3 & H4 & H5 & -> & ->). apply IH in H5. chain.
    - intros B e IHB IH map g c G s e1 f1 s1 H.
      apply conv_fun in H as (G' & sa & ys' & g' & sb & c' & sc & B' & sd & e2 & f2 & H1 & H2 & H3 & H4 & H5 & -> & ->). apply IHB in H4. apply IH in H5. chain.
    - intros f t ys map g c G s e1 f1 s1 H.
      apply conv_app in H as (f' & g1 & sa & ys' & g2 & sb & ptr & sc & G' & H1 & H2 & H3 & H4 & -> & ->). chain.
    - intros x p e IH map g c G s e1 f1 s1 H. apply conv_prim_val in H as (e2 & f2 & H1 & -> & ->). eauto.
    - intros x p ys e IH map g c G s e1 f1 s1 H. apply conv_prim in H as (ys' & s' & e2 & f2 & H1 & H2 & ->). apply IH in H2. chain.
    - intros x map g c G s e1 f1 s1 H. apply conv_halt in H as (x' & H1 & ->). chain.
    - intros f t ys e B IH IHB B0 map g c s B1 s1 H.
      apply convf_cons in H as (G & sa & e1 & f1 & sb & B' & H1 & H2 & H3 & ->). apply IH in H2. apply IHB in H3. chain.
    - intros B0 map g c s B1 s1 H. cbn [fundefs_closure_conv] in H. apply pair2 in H as [<- <-]. apply tle_refl.
  Qed.
  Lemma pats_tle map g c G l : forall s l' s', conv_pats clo_tag l map g c G s = (l', s') -> tle s s'.
  Proof.
    induction l as [|[t e] l IH]; intros s l' s' H.
    - apply pair2 in H as [_ <-]. apply tle_refl.
    - apply pats_cons in H as (e2 & f2 & s2 & l2 & A & B & ->). eapply tle_trans; [eapply (proj1 conv_tle); eauto|eauto].
  Qed.

  Variable T : ctor_env.
  Hypothesis TC : exists i, get clo_tag T = Some i /\ ctor_arity i = 2%N.

  Lemma gvar_arities x map g c G s y f s' : gvar x map g c G s = (y, f, s') -> extends (tbl s') T -> forall e, arities T e -> arities T (f e).
  Proof.
    intros H E e A. unfold get_var in H. destruct (get x map) as [[k|env|]|]; [| | |destruct (get x g) as [[]|]].
    - destruct (new_var s) as [y0 s0] eqn:EN. apply pair3 in H as (-> & <- & ->). exact A.
    - destruct (new_var s) as [y0 s0] eqn:EN. apply pair3 in H as (-> & <- & ->). cbn [arities]. split; [exact TC|exact A].
    - apply pair3 in H as (-> & <- & ->). exact A.
    - destruct (new_record 0 s) as [ce sa] eqn:ER. destruct (new_var sa) as [y0 sb] eqn:EN1. destruct (new_var sb) as [ge sc] eqn:EN2.
      apply pair3 in H as (-> & <- & ->). apply new_record_tle in ER as [_ ER]. apply pair2 in EN1 as [<- <-]. apply pair2 in EN2 as [<- <-].
      cbn [tbl] in E. cbn [arities]. split; [|split; [exact TC|exact A]]. exists {| ctor_ind_tag := nit s; ctor_arity := 0; ctor_ordinal := 0 |}. split; [|reflexivity]. apply E. exact ER.
    - apply pair3 in H as (-> & <- & ->). exact A.
  Qed.
  Lemma gvars_arities map g c G xs : forall s ys f s', gvars xs map g c G s = (ys, f, s') -> tags_below (nct s) (tbl s) -> extends (tbl s') T ->
    forall e, arities T e -> arities T (f e).
  Proof.
    induction xs as [|x xs IH]; intros s ys f s' H B E e A.
    - cbn [get_vars] in H. apply pair3 in H as (<- & <- & <-). exact A.
    - apply gvars_cons in H as (y & f1 & s1 & ys' & f2 & E1 & E2 & -> & ->).
      pose proof (gvar_tle _ _ _ _ _ _ _ _ _ E1) as [_ T1]. destruct (T1 B) as [B1 X1].
      pose proof (gvars_tle _ _ _ _ _ _ _ _ _ E2) as [_ T2]. destruct (T2 B1) as [B2 X2].
      eapply gvar_arities; [exact E1|intros t i Q; auto|]. eapply IH; eauto.
  Qed.

  Lemma ext_trans t1 t2 t3 : extends t1 t2 -> extends t2 t3 -> extends t1 t3.
  Proof. intros H1 H2 x i E. auto. Qed.

  Lemma conv_arities :
    (forall e map g c G s e1 f1 s1, conv e map g c G s = (e1, f1, s1) -> tags_below (nct s) (tbl s) -> extends (tbl s1) T ->
       arities T e -> arities T (f1 e1)) /\
    (forall B B0 map g c s B1 s1, convf B0 B map g c s = (B1, s1) -> tags_below (nct s) (tbl s) -> extends (tbl s1) T ->
       arities_funs T B -> arities_funs T B1).
  Proof.
    apply exp_fundefs_ind.
    - intros x t ys e IH map g c G s e1 f1 s1 H B E A. apply conv_constr in H as (ys' & s' & e2 & f2 & H1 & H2 & ->).
      destruct (proj2 (gvars_tle _ _ _ _ _ _ _ _ _ H1) B) as [B1 X1]. destruct (proj2 (proj1 conv_tle _ _ _ _ _ _ _ _ _ H2) B1) as [B2 X2].
      eapply gvars_arities; [exact H1|exact B|eapply ext_trans; eauto|]. cbn [arities] in *. rewrite (gvars_length _ _ _ _ _ _ _ _ _ H1).
      destruct A as [A1 A2]. split; [exact A1|eauto].
    - intros x l IH map g c G s e1 f1 s1 H B E A. apply conv_case_inv in H as (l' & s' & x' & H1 & H2 & ->).
      destruct (proj2 (pats_tle _ _ _ _ _ _ _ _ H1) B) as [B1 X1]. destruct (proj2 (gvar_tle _ _ _ _ _ _ _ _ _ H2) B1) as [B2 X2].
      eapply gvar_arities; [exact H2|exact E|]. assert (E1 : extends (tbl s') T) by (eapply ext_trans; eauto). clear H2 B2 X2 B1 X1 E.
      cbn [arities] in *. revert s l' H1 B A. induction IH as [|[t a] l IH1 _ IH2]; intros s l' H1 B A.
      + apply pair2 in H1 as [<- _]. exact I.
      + apply pats_cons in H1 as (e2 & f2 & s2 & l2 & P & Q & ->). cbn [fst snd] in *. destruct A as [[A1 A2] A3].
        destruct (proj2 (proj1 conv_tle _ _ _ _ _ _ _ _ _ P) B) as [B1 X1]. destruct (proj2 (pats_tle _ _ _ _ _ _ _ _ Q) B1) as [B2 X2].
        split; [split; [exact A1|]|eapply IH2; eauto]. eapply IH1; [exact P|exact B|eapply ext_trans; eauto|exact A2].
    - intros x t n y e IH map g c G s e1 f1 s1 H B E A. apply conv_proj in H as (y' & s' & e2 & f2 & H1 & H2 & ->).
      destruct (proj2 (gvar_tle _ _ _ _ _ _ _ _ _ H1) B) as [B1 X1]. destruct (proj2 (proj1 conv_tle _ _ _ _ _ _ _ _ _ H2) B1) as [B2 X2].
      eapply gvar_arities; [exact H1|eapply ext_trans; eauto|]. cbn [arities] in *. eauto.
    - intros x f t ys e IH map g c G s e1 f1 s1 H B E A.
      apply conv_letapp in H as (f' & g1 & sa & ys' & g2 & sb & ptr & sc & G' & sd & e2 & f2 & H1 & H2 & H3 & H4 & H5 & -> & ->).
      destruct (proj2 (gvar_tle _ _ _ _ _ _ _ _ _ H1) B) as [B1 X1]. destruct (proj2 (gvars_tle _ _ _ _ _ _ _ _ _ H2) B1) as [B2 X2].
      destruct (proj2 (new_var_tle _ _ _ H3) B2) as [B3 X3]. destruct (proj2 (new_var_tle _ _ _ H4) B3) as [B4 X4].
      destruct (proj2 (proj1 conv_tle _ _ _ _ _ _ _ _ _ H5) B4) as [B5 X5].
      assert (E4 : extends (tbl sd) T) by (eapply ext_trans; eauto). assert (E3 : extends (tbl sc) T) by (eapply ext_trans; eauto).
      assert (E2 : extends (tbl sb) T) by (eapply ext_trans; eauto). assert (E1 : extends (tbl sa) T) by (eapply ext_trans; eauto).
      eapply gvar_arities; [exact H1|exact E1|]. eapply gvars_arities; [exact H2|exact B1|exact E2|]. cbn [arities] in *. eauto.
    - intros B e IHB IH map g c G s e1 f1 s1 H Bl E A.
      apply conv_fun in H as (G' & sa & ys' & g' & sb & c' & sc & B' & sd & e2 & f2 & H1 & H2 & H3 & H4 & H5 & -> & ->).
      destruct (proj2 (new_var_tle _ _ _ H1) Bl) as [B1 X1]. destruct (proj2 (gvars_tle _ _ _ _ _ _ _ _ _ H2) B1) as [B2 X2].
      destruct (new_record_tle _ _ _ _ H3) as [T3 R3]. destruct (proj2 T3 B2) as [B3 X3].
      destruct (proj2 (proj2 conv_tle _ _ _ _ _ _ _ _ H4) B3) as [B4 X4]. destruct (proj2 (proj1 conv_tle _ _ _ _ _ _ _ _ _ H5) B4) as [B5 X5].
      assert (E4 : extends (tbl sd) T) by (eapply ext_trans; eauto). assert (E3 : extends (tbl sc) T) by (eapply ext_trans; eauto).
      assert (E2 : extends (tbl sb) T) by (eapply ext_trans; eauto).
      eapply gvars_arities; [exact H2|exact B1|exact E2|]. cbn [arities] in *. destruct A as [A1 A2]. split; [|split; eauto].
      eexists. split; [apply E3; exact R3|]. cbn [ctor_arity]. rewrite (gvars_length _ _ _ _ _ _ _ _ _ H2). reflexivity.
    - intros f t ys map g c G s e1 f1 s1 H B E A.
      apply conv_app in H as (f' & g1 & sa & ys' & g2 & sb & ptr & sc & G' & H1 & H2 & H3 & H4 & -> & ->).
      destruct (proj2 (gvar_tle _ _ _ _ _ _ _ _ _ H1) B) as [B1 X1]. destruct (proj2 (gvars_tle _ _ _ _ _ _ _ _ _ H2) B1) as [B2 X2].
      destruct (proj2 (new_var_tle _ _ _ H3) B2) as [B3 X3]. destruct (proj2 (new_var_tle _ _ _ H4) B3) as [B4 X4].
      assert (E3 : extends (tbl sc) T) by (eapply ext_trans; eauto).
      assert (E2 : extends (tbl sb) T) by (eapply ext_trans; eauto). assert (E1 : extends (tbl sa) T) by (eapply ext_trans; eauto).
      eapply gvar_arities; [exact H1|exact E1|]. eapply gvars_arities; [exact H2|exact B1|exact E2|]. exact I.
    - intros x p e IH map g c G s e1 f1 s1 H B E A. apply conv_prim_val in H as (e2 & f2 & H1 & -> & ->). cbn [arities] in *. eauto.
    - intros x p ys e IH map g c G s e1 f1 s1 H B E A. apply conv_prim in H as (ys' & s' & e2 & f2 & H1 & H2 & ->).
      destruct (proj2 (gvars_tle _ _ _ _ _ _ _ _ _ H1) B) as [B1 X1]. destruct (proj2 (proj1 conv_tle _ _ _ _ _ _ _ _ _ H2) B1) as [B2 X2].
      eapply gvars_arities; [exact H1|exact B|eapply ext_trans; eauto|]. cbn [arities] in *. eauto.
    - intros x map g c G s e1 f1 s1 H B E A. apply conv_halt in H as (x' & H1 & ->). eapply gvar_arities; [exact H1|exact E|]. exact I.
    - intros f t ys e B IH IHB B0 map g c s B1 s1 H Bl E A.
      apply convf_cons in H as (G & sa & e1 & f1 & sb & B' & H1 & H2 & H3 & ->).
      destruct (proj2 (new_var_tle _ _ _ H1) Bl) as [Ba X1]. destruct (proj2 (proj1 conv_tle _ _ _ _ _ _ _ _ _ H2) Ba) as [Bb X2].
      destruct (proj2 (proj2 conv_tle _ _ _ _ _ _ _ _ H3) Bb) as [Bc X3]. cbn [arities_funs] in *. destruct A as [A1 A2].
      split; [|eauto]. eapply IH; [exact H2|exact Ba|eapply ext_trans; eauto|exact A1].
    - intros B0 map g c s B1 s1 H _ _ _. cbn [fundefs_closure_conv] in H. apply pair2 in H as [<- <-]. exact I.
  Qed.
End Top.

Lemma cv_same clo_tag N0 : forall v v', cv clo_tag N0 v v' -> same_val clo_tag v v'.
Proof.
  fix IH 3. intros v v' H. destruct H as [t vs vs' F|p|z|rho B f rho' B' g c s s' t vs OK C L I _ _ _].
  - constructor. revert vs vs' F. fix IHF 3. intros vs vs' F. destruct F as [|a b l l' R F]; constructor; [apply IH; exact R|apply IHF; exact F].
  - constructor.
  - constructor.
  - destruct (find_def f B) as [[[t0 xs] e]|] eqn:F.
    + destruct (convf_find _ _ _ _ _ _ _ _ _ _ _ _ _ C F) as (sa & G & sb & e1 & f1 & sc & _ & _ & _ & _ & F'). eapply sv_fun; eauto.
    + exfalso. clear -I F. induction B as [h t xs e B IHB|]; cbn [fnames find_def] in *; [|destruct I].
      destruct (Pos.eq_dec f h); [discriminate|]. destruct I as [E|I]; [congruence|auto].
Qed.
Lemma cv_refl_data clo_tag N0 : forall v, data v -> cv clo_tag N0 v v.
Proof.
  apply (val_ind2 (fun v => data v -> cv clo_tag N0 v v)); try (intros; constructor; fail).
  - intros t vs IH D. constructor. cbn [data] in D. induction IH as [|v vs H _ IHl]; constructor; [apply H; apply D|apply IHl; apply D].
  - intros; contradiction.
Qed.
Lemma same_data clo_tag : forall v, data v -> forall v', same_val clo_tag v v' -> v' = v.
Proof.
  apply (val_ind2 (fun v => data v -> forall v', same_val clo_tag v v' -> v' = v)).
  - intros t vs IH D v' S1. inversion S1 as [? ? vs' F| | |]; subst. f_equal. clear S1. revert vs' F. cbn [data] in D.
    induction IH as [|v vs H _ IHl]; intros vs' F; inversion F; subst; [reflexivity|]. f_equal; [apply H; [apply D|assumption]|apply IHl; [apply D|assumption]].
  - intros; contradiction.
  - intros p _ v' S1. inversion S1. reflexivity.
  - intros z _ v' S1. inversion S1. reflexivity.
Qed.

Lemma populate_get l m x : get x (fold_left (fun m x => set x BoundVar m) l m) = if in_dec Pos.eq_dec x l then Some BoundVar else get x m.
Proof.
  revert m. induction l as [|y l IH]; intro m; [reflexivity|]. cbn [fold_left]. rewrite IH, get_set.
  destruct (in_dec Pos.eq_dec x l) as [I|I]; destruct (in_dec Pos.eq_dec x (y :: l)) as [J|J]; destruct (Pos.eq_dec x y) as [->|D]; auto;
    exfalso; cbn [In] in J; tauto || (destruct J; congruence || contradiction).
Qed.

(* ** The whole pass *)
Section Whole.
  Variables (clo_tag : ctor_tag) (clo_itag : ind_tag).
  Notation top := (closure_conversion_top clo_tag clo_itag).
  Variables (e : exp) (s : cst) (e' : exp) (s' : cst).
  Hypothesis TOP : top e s = (e', s').

  Lemma top_inv : exists e1 f1 s1, e' = f1 e1 /\ s' = mkst (nv s1) (nct s1) (nit s1) (add_closure_tag clo_tag clo_itag (tbl s1)) /\
    exp_closure_conv clo_tag e (populate_map (exp_fv e) []) [] 1%positive (nv s) (mkst (nv s + 1)%positive (nct s) (nit s) (tbl s)) = (e1, f1, s1).
  Proof.
    clear -TOP. unfold closure_conversion_top in TOP. cbn [new_var] in TOP.
    destruct (exp_closure_conv _ _ _ _ _ _ _) as [[e1 f1] s1]. apply pair2 in TOP as [<- <-]. exists e1, f1, s1. auto.
  Qed.
  Lemma map_get x : get x (populate_map (exp_fv e) []) = if in_dec Pos.eq_dec x (exp_fv e) then Some BoundVar else None.
  Proof.
    unfold populate_map. rewrite populate_get. pose proof (elements_In x (exp_fv e)).
    destruct (in_dec Pos.eq_dec x (elements (exp_fv e))), (in_dec Pos.eq_dec x (exp_fv e)); auto; tauto.
  Qed.

  Lemma top_free z : free z e' -> free z e.
  Proof.
    destruct top_inv as (e1 & f1 & s1 & -> & _ & C). intro F.
    assert (A : allowed (populate_map (exp_fv e) []) [] (nv s) z).
    { eapply (proj1 (conv_free clo_tag)); [exact C| |exact F]. intros x Fx. left. rewrite map_get.
      destruct (in_dec Pos.eq_dec x (exp_fv e)) as [I|I]; [discriminate|]. exfalso. apply I, exp_fv_spec. exact Fx. }
    destruct A as [A|[(env & A)|[(w & A)|[(_ & w & n & A)|A]]]]; try (rewrite map_get in A; destruct (in_dec Pos.eq_dec _ (exp_fv e)) as [I|I]; try discriminate).
    - apply exp_fv_spec. exact I.
    - exfalso. apply A. reflexivity.
  Qed.
  Lemma top_adds z : ((z < nv s \/ nv s' <= z)%positive -> cnt z (bv e') = cnt z (bv e)) /\ ((nv s <= z < nv s')%positive -> cnt z (bv e') <= 1 + cnt z (bv e)).
  Proof.
    destruct top_inv as (e1 & f1 & s1 & -> & -> & C). pose proof (proj1 (conv_adds clo_tag) _ _ _ _ _ _ _ _ _ C z) as [A1 A2]. cbn [nv] in *.
    split; [intro; apply A1; lia|]. intro L. destruct (Pos.eq_dec z (nv s)) as [->|]; [rewrite A1; lia|apply A2; lia].
  Qed.
  Lemma top_nv : (nv s < nv s')%positive.
  Proof.
    destruct top_inv as (e1 & f1 & s1 & _ & -> & C). apply (proj1 (conv_le clo_tag)) in C. unfold le in C. cbn [nv] in *. lia.
  Qed.
  Lemma top_closed B z : In B (bundles e') -> free_funs z B -> closed_fun (bundles e') z.
  Proof.
    destruct top_inv as (e1 & f1 & s1 & -> & _ & C). eapply (proj1 (conv_closed clo_tag _)); [exact C|apply incl_refl|].
    intros y N. exfalso. apply N. reflexivity.
  Qed.
  Lemma top_names : List.map fname (defs_of e') = List.map fname (defs_of e).
  Proof. destruct top_inv as (e1 & f1 & s1 & -> & _ & C). eapply (proj1 (conv_names clo_tag)); exact C. Qed.
  Lemma top_tables : tags_below (nct s) (tbl s) -> (clo_tag < nct s)%positive -> get clo_tag (tbl s) = None ->
    extends (tbl s) (tbl s') /\ tags_below (nct s') (tbl s') /\ (nct s <= nct s')%positive /\
    get clo_tag (tbl s') = Some {| ctor_ind_tag := clo_itag; ctor_arity := 2; ctor_ordinal := 0 |} /\
    (arities (tbl s') e -> arities (tbl s') e').
  Proof.
    intros TB L N. destruct top_inv as (e1 & f1 & s1 & -> & -> & C). destruct (proj1 (conv_tle clo_tag) _ _ _ _ _ _ _ _ _ C) as [T1 T2].
    cbn [nct tbl] in *. destruct (T2 TB) as [T3 T4].
    assert (GC : get clo_tag (add_closure_tag clo_tag clo_itag (tbl s1)) = Some {| ctor_ind_tag := clo_itag; ctor_arity := 2; ctor_ordinal := 0 |}) by apply get_set_same.
    split; [|split; [|split; [exact (proj1 T1)|split; [exact GC|]]]].
    - intros x i E. unfold add_closure_tag. rewrite get_set_other; [auto|congruence].
    - intros x i. unfold add_closure_tag. rewrite get_set. destruct (Pos.eq_dec x clo_tag) as [->|]; [lia|apply T3].
    - intro A. eapply (proj1 (conv_arities clo_tag _ ltac:(eexists; split; [exact GC|reflexivity]))); [exact C|exact TB| |exact A].
      intros x i E. unfold add_closure_tag. rewrite get_set. destruct (Pos.eq_dec x clo_tag) as [->|]; [|exact E]. exfalso.
      rewrite (proj2 T1) in E by exact L. congruence.
  Qed.

  Lemma top_sim : NoDup (bv e) -> below (nv s) e -> get clo_tag (tbl s) = None -> tags_below (nct s) (tbl s) -> (clo_tag < nct s)%positive ->
    forall rho rho', (forall x, free x e -> exists v, get x rho = Some v /\ data v /\ get x rho' = Some v) ->
    forall c r, bstep_fuel (tbl s) rho e c r -> exists c' r', bstep_fuel (tbl s') rho' e' c' r' /\ c <= c' /\
      match r, r' with OOT, OOT => True | Res v, Res v' => same_val clo_tag v v' | _, _ => False end.
  Proof.
    intros U BL N TB L rho rho' RV c r H. destruct (top_tables TB L N) as (X & _).
    destruct top_inv as (e1 & f1 & s1 & E1 & E2 & C).
    edestruct (sim clo_tag (nv s) (tbl s) (tbl s') X c rho e r H) as (c2 & r2 & B2 & L2 & R); [exact C| | | |].
    - split; [exact U|]. split; [intros x I; split; [apply BL; auto|reflexivity]|]. intros x F. apply BL. auto.
    - cbn [nv]. split; [lia|]. intros x env E. rewrite map_get in E. destruct (in_dec Pos.eq_dec x (exp_fv e)); discriminate.
    - intros x F. destruct (RV x F) as (v & V1 & V2 & V3). exists v. split; [exact V1|]. split.
      + rewrite map_get. destruct (in_dec Pos.eq_dec x (exp_fv e)) as [I|I].
        * exists v. split; [exact V3|]. apply cv_refl_data. exact V2.
        * exfalso. apply I, exp_fv_spec. exact F.
      + intro Q. exfalso. apply Q. reflexivity.
    - exists c2, r2. rewrite E1. split; [exact B2|]. split; [exact L2|]. destruct r, r2; try exact R. eapply cv_same. exact R.
  Qed.
End Whole.
