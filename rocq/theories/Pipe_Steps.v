(** * Each pass on whole programs: names and behaviour *)
From Coq Require Import ZArith NArith PArith List Lia Bool Arith Permutation.
From Verif Require Import ANF_Syntax ANF_Eval ANF_Spec ANF_Scope ANF_EvalProofs ANF_FreeProofs ANF_LR ANF_LRProofs ANF_Subst
  Hoist_Model Hoist_Spec Hoist_Proofs Pipe_Spec.
Import ListNotations.

(** ** Values *)
Lemma tree_like_refl : forall v, tree_like v v.
Proof.
  apply val_ind2.
  - intros t vs F. constructor. induction F; constructor; auto.
  - intros. constructor.
  - intros. constructor.
  - intros. constructor.
Qed.

Lemma tree_like_trans : forall v1 v2 v3, tree_like v1 v2 -> tree_like v2 v3 -> tree_like v1 v3.
Proof.
  apply (val_ind2 (fun v1 => forall v2 v3, tree_like v1 v2 -> tree_like v2 v3 -> tree_like v1 v3)).
  - intros t vs F v2 v3 H1 H2. inversion H1 as [? ? vs2 FA| | |]; subst. inversion H2 as [? ? vs3 FB| | |]; subst. constructor.
    clear H1 H2. revert vs2 vs3 FA FB. induction F as [|v vs Hv F IH]; intros l2 l3 A B; inversion A; subst; inversion B; subst; constructor; eauto.
  - intros rho B f H v2 v3 H1 H2. inversion H1; subst. inversion H2; subst. constructor.
  - intros p v2 v3 H1 H2. inversion H1; subst. exact H2.
  - intros p v2 v3 H1 H2. inversion H1; subst. exact H2.
Qed.

Lemma compiled_pre clo : forall v1 v2 v3, tree_like v1 v2 -> compiled clo v2 v3 -> compiled clo v1 v3.
Proof.
  apply (val_ind2 (fun v1 => forall v2 v3, tree_like v1 v2 -> compiled clo v2 v3 -> compiled clo v1 v3)).
  - intros t vs F v2 v3 H1 H2. inversion H1 as [? ? vs2 FA| | |]; subst. inversion H2 as [? ? vs3 FB| | |]; subst. constructor.
    clear H1 H2. revert vs2 vs3 FA FB. induction F as [|v vs Hv F IH]; intros l2 l3 A B; inversion A; subst; inversion B; subst; constructor; eauto.
  - intros rho B f H v2 v3 H1 H2. inversion H1; subst. inversion H2; subst. constructor.
  - intros p v2 v3 H1 H2. inversion H1; subst. exact H2.
  - intros p v2 v3 H1 H2. inversion H1; subst. exact H2.
Qed.

Lemma compiled_post clo : forall v1 v2 v3, compiled clo v1 v2 -> tree_like v2 v3 -> compiled clo v1 v3.
Proof.
  apply (val_ind2 (fun v1 => forall v2 v3, compiled clo v1 v2 -> tree_like v2 v3 -> compiled clo v1 v3)).
  - intros t vs F v2 v3 H1 H2. inversion H1 as [? ? vs2 FA| | |]; subst. inversion H2 as [? ? vs3 FB| | |]; subst. constructor.
    clear H1 H2. revert vs2 vs3 FA FB. induction F as [|v vs Hv F IH]; intros l2 l3 A B; inversion A; subst; inversion B; subst; constructor; eauto.
  - intros rho B f H v2 v3 H1 H2. inversion H1; subst. inversion H2 as [? ? vs3 FB| | |]; subst.
    inversion FB as [|? ? ? ? HA HB]; subst. inversion HB as [|? ? ? ? HC HD]; subst. inversion HD; subst.
    inversion HA; subst. constructor.
  - intros p v2 v3 H1 H2. inversion H1; subst. inversion H2; subst. constructor.
  - intros p v2 v3 H1 H2. inversion H1; subst. inversion H2; subst. constructor.
Qed.

Lemma compiled_data clo : forall v, data v -> forall v', compiled clo v v' -> v' = v.
Proof.
  apply (val_ind2 (fun v => data v -> forall v', compiled clo v v' -> v' = v)).
  - intros t vs F D v' H. inversion H as [? ? vs2 FA| | |]; subst. f_equal. cbn [data] in D. clear H.
    revert vs2 FA D. induction F as [|v vs Hv F IH]; intros l A D; inversion A; subst; [auto|]. destruct D as [D1 D2].
    f_equal; auto.
  - intros rho B f _ [].
  - intros p D v' H. inversion H; auto.
  - intros p D v' H. inversion H; auto.
Qed.

Lemma vrel_tree cenv PG : forall v v', (forall k, vrel cenv PG k v v') -> tree_like v v'.
Proof.
  assert (A : forall v v', vrel cenv PG 0 v v' -> tree_like v v').
  { apply (val_ind2 (fun v => forall v', vrel cenv PG 0 v v' -> tree_like v v')).
    - intros t vs F v' H. destruct v' as [t2 vs2| | |]; try (destruct H; fail).
      apply vrel_constr in H as [<- H]. constructor.
      revert vs2 H. induction F; intros vs2 H2; inversion H2; subst; constructor; auto.
    - intros rho B f _ v' H. destruct v'; try (destruct H; fail). constructor.
    - intros p v' H. destruct v'; try (destruct H; fail). cbn in H. subst. constructor.
    - intros p v' H. destruct v'; try (destruct H; fail). cbn in H. subst. constructor. }
  intros v v' H. apply A. apply H.
Qed.

(** ** Composing *)
Lemma implements_intro (R : val -> val -> Prop) cenv e cenv' e' :
  (forall c v, bstep_fuel cenv [] e c (Res v) -> exists c' v', bstep_fuel cenv' [] e' c' (Res v') /\ R v v') ->
  (diverge cenv [] e -> diverge cenv' [] e') -> implements R cenv e cenv' e'.
Proof.
  intros H1 H2. split; [exact H1|]. split; [exact H2|]. intros [(c & v & BS)|D].
  - destruct (H1 c v BS) as (c2 & v2 & B2 & V). split; [left; eauto|]. split.
    + intros c' v' B'. destruct (bstep_fuel_det _ _ _ _ _ _ _ B' B2) as [-> ->]. eauto.
    + intros D. exfalso. specialize (D c2). pose proof (bstep_fuel_oot_lt _ _ _ _ _ _ D B2). lia.
  - split; [right; exact (H2 D)|]. split; [|auto]. intros c' v' B'. exfalso. pose proof (H2 D c') as D'.
    pose proof (bstep_fuel_oot_lt _ _ _ _ _ _ D' B'). lia.
Qed.

Lemma implements_trans (R1 R2 R3 : val -> val -> Prop) c1 e1 c2 e2 c3 e3 :
  (forall v1 v2 v3, R1 v1 v2 -> R2 v2 v3 -> R3 v1 v3) ->
  implements R1 c1 e1 c2 e2 -> implements R2 c2 e2 c3 e3 -> implements R3 c1 e1 c3 e3.
Proof.
  intros T (A1 & A2 & _) (B1 & B2 & _). apply implements_intro; [|auto].
  intros c v B. destruct (A1 c v B) as (c' & v' & B' & V). destruct (B1 c' v' B') as (c'' & v'' & B'' & V').
  exists c'', v''. split; [auto|eauto].
Qed.

Lemma implements_refl cenv e : implements tree_like cenv e cenv e.
Proof. apply implements_intro; [|auto]. intros c v B. exists c, v. split; [auto|apply tree_like_refl]. Qed.

(** ** Hoisting: names *)
Lemma bvl_strip :
  (forall e, Permutation (bvl e) (bv (strip e) ++ flat_map (fun d => let '(f, t, xs, b) := d in xs ++ bv (strip b)) (defs_of e))) /\
  (forall B, Permutation (bvl_funs B) (flat_map (fun d => let '(f, t, xs, b) := d in xs ++ bv (strip b)) (defs_of_funs B))).
Proof.
  set (g := fun d : fdef => let '(f, t, xs, b) := d in xs ++ bv (strip b)).
  apply exp_fundefs_ind; cbn [bvl bvl_funs strip bv bv_funs defs_of defs_of_funs flat_map]; intros; auto.
  - apply perm_skip. auto.
  - induction H as [|p l Hp F IH]; cbn [flat_map map fst snd]; auto. rewrite flat_map_app. cbn [snd] in *.
    rewrite Hp, IH. rewrite <- !app_assoc. apply Permutation_app_head. rewrite !app_assoc. apply Permutation_app_tail.
    apply Permutation_app_comm.
  - apply perm_skip. auto.
  - apply perm_skip. auto.
  - rewrite flat_map_app, H, H0. rewrite !app_assoc. apply Permutation_app_tail. apply Permutation_app_comm.
  - apply perm_skip. auto.
  - apply perm_skip. auto.
  - rewrite flat_map_app, H, H0. rewrite <- !app_assoc. apply Permutation_app_head. auto.
Qed.

Lemma bv_flat : forall B, (forall f t xs b, In (f, t, xs, b) (flist B) -> nofun b) ->
  Permutation (bv_funs B) (fnames B ++ flat_map (fun d => let '(f, t, xs, b) := d in xs ++ bv b) (flist B)).
Proof.
  induction B as [f t xs e B IH|]; cbn [bv_funs fnames flist flat_map]; intros H; auto.
  cbn [app]. apply perm_skip. rewrite (IH ltac:(intros; eapply H; right; eauto)).
  rewrite <- !app_assoc. rewrite (Permutation_app_swap_app (fnames B) xs _).
  apply Permutation_app_head. apply Permutation_app_swap_app.
Qed.

Lemma bv_hoist e : Permutation (bv (fst (exp_hoist e))) (bv e).
Proof.
  rewrite exp_hoist_direct. cbn [fst].
  assert (P : Permutation (bv (Efun (hoisted e) (strip e))) (bv e)).
  { cbn [bv]. rewrite (bv_flat (hoisted e)).
    - rewrite fnames_hoisted.
      assert (K : Permutation (flat_map (fun d : fdef => let '(f, t, xs, b) := d in xs ++ bv b) (flist (hoisted e)))
                    (flat_map (fun d : fdef => let '(f, t, xs, b) := d in xs ++ bv (strip b)) (defs_of e))).
      { unfold hoisted. rewrite (Permutation_flat_map _ (proj1 flist_hf e Fnil)). cbn [flist]. rewrite app_nil_r.
        rewrite flat_map_concat_map, map_map, <- flat_map_concat_map.
        assert (E : forall l, flat_map (fun x : fdef => let '(_, _, xs, b) := strip_def x in xs ++ bv b) l =
                    flat_map (fun d : fdef => let '(_, _, xs, b) := d in xs ++ bv (strip b)) l).
        { induction l as [|[[[f t] xs] b] l IH]; cbn [flat_map strip_def]; congruence. }
        rewrite E. reflexivity. }
      rewrite K. rewrite (proj1 bv_split e). rewrite <- app_assoc. apply Permutation_app_head.
      rewrite Permutation_app_comm. symmetry. apply bvl_strip.
    - intros f t xs b I. apply (Permutation_in _ (proj1 flist_hf e Fnil)) in I. cbn in I. rewrite app_nil_r in I.
      apply in_map_iff in I as ([[[f0 t0] xs0] b0] & E & _). cbn in E. injection E as <- <- <- <-. apply strip_nofun. }
  destruct (hoisted e) eqn:E; [exact P|]. cbn [bv bv_funs app] in P. exact P.
Qed.

Lemma free_strip : forall e z, free z (strip e) -> free z e \/ In z (List.map fname (defs_of e)).
Proof.
  apply (exp_ind2 (fun e => forall z, free z (strip e) -> free z e \/ In z (List.map fname (defs_of e))) (fun _ => True));
    cbn [strip defs_of]; try (intros; cbn in *; tauto).
  - intros x t ys e IH z [F|[N F]]; [cbn; auto|]. destruct (IH z F); cbn; auto.
  - intros x l F z Fz. cbn [free] in *. destruct Fz as [->|Fz]; [auto|].
    revert Fz. induction F as [|p l Hp F IH]; cbn [List.map fst snd flat_map]; [tauto|].
    rewrite map_app. intros [K|K].
    + destruct (Hp z K); [auto|]. right. apply in_or_app. auto.
    + destruct (IH K) as [[?|?]|?]; auto. right. apply in_or_app. auto.
  - intros x t n y e IH z [F|[N F]]; [cbn; auto|]. destruct (IH z F); cbn; auto.
  - intros x f t ys e IH z [F|[F|[N F]]]; [cbn; auto|cbn; auto|]. destruct (IH z F); cbn; auto.
  - intros B e _ IH z F. destruct (IH z F) as [K|K].
    + destruct (in_dec Pos.eq_dec z (fnames B)) as [I|I].
      * right. rewrite map_app. apply in_or_app. left.
        rewrite fnames_flist in I. apply in_map_iff in I as (d & <- & I). apply in_map. apply flist_defs. exact I.
      * left. cbn. auto.
    + right. rewrite map_app. apply in_or_app. auto.
  - intros x p e IH z [N F]. destruct (IH z F); cbn; auto.
  - intros x p ys e IH z [F|[N F]]; [cbn; auto|]. destruct (IH z F); cbn; auto.
Qed.

Lemma free_body_flist z : forall B, free_body z B <-> exists f t xs b, In (f, t, xs, b) (flist B) /\ ~ In z xs /\ free z b.
Proof.
  induction B as [f t xs e B IH|]; cbn [free_body flist]; [|split; [intros []|intros (? & ? & ? & ? & [] & _)]].
  rewrite IH. split.
  - intros [[N F]|(f1 & t1 & xs1 & b & I & N & F)]; [exists f, t, xs, e|exists f1, t1, xs1, b]; cbn; auto.
  - intros (f1 & t1 & xs1 & b & [E|I] & N & F); [injection E as <- <- <- <-; auto|]. right. exists f1, t1, xs1, b. auto.
Qed.

(** every definition sits in a bundle *)
Lemma defs_bundle :
  (forall e f t xs b, In (f, t, xs, b) (defs_of e) -> exists B, In B (bundles e) /\ In (f, t, xs, b) (flist B)) /\
  (forall B f t xs b, In (f, t, xs, b) (defs_of_funs B) -> In (f, t, xs, b) (flist B) \/ exists B', In B' (bundles_funs B) /\ In (f, t, xs, b) (flist B')).
Proof.
  apply exp_fundefs_ind; cbn [defs_of defs_of_funs bundles bundles_funs flist]; try (intros; cbn in *; eauto; tauto).
  - intros x l F f t xs b I. apply in_flat_map in I as (p & Ip & I). rewrite Forall_forall in F.
    destruct (F p Ip _ _ _ _ I) as (B & IB & I'). exists B. split; [|auto]. apply in_flat_map. eauto.
  - intros B e HB He f t xs b I. apply in_app_or in I as [I|I].
    + destruct (HB _ _ _ _ I) as [I'|(B' & IB & I')]; [exists B; cbn; auto|exists B'; split; [right; apply in_or_app; auto|auto]].
    + destruct (He _ _ _ _ I) as (B' & IB & I'). exists B'. split; [right; apply in_or_app; auto|auto].
  - intros f t xs e B He HB f1 t1 xs1 b [E|I]; [left; left; auto|]. apply in_app_or in I as [I|I].
    + destruct (He _ _ _ _ I) as (B' & IB & I'). right. exists B'. split; [apply in_or_app; auto|auto].
    + destruct (HB _ _ _ _ I) as [I'|(B' & IB & I')]; [left; right; auto|right; exists B'; split; [apply in_or_app; auto|auto]].
Qed.

(** a definition inside a definition *)
Lemma defs_trans :
  (forall e f t xs b, In (f, t, xs, b) (defs_of e) -> incl (defs_of b) (defs_of e)) /\
  (forall B f t xs b, In (f, t, xs, b) (defs_of_funs B) -> incl (defs_of b) (defs_of_funs B)).
Proof.
  apply exp_fundefs_ind; cbn [defs_of defs_of_funs]; try (intros; cbn in *; eauto; tauto).
  - intros x l F f t xs b I. apply in_flat_map in I as (p & Ip & I). rewrite Forall_forall in F.
    intros d Id. apply in_flat_map. exists p. split; [auto|]. eapply F; eauto.
  - intros B e HB He f t xs b I d Id. apply in_or_app. apply in_app_or in I as [I|I]; [left; eapply HB; eauto|right; eapply He; eauto].
  - intros f t xs e B He HB f1 t1 xs1 b [E|I] d Id; [injection E as <- <- <- <-; right; apply in_or_app; auto|].
    right. apply in_or_app. apply in_app_or in I as [I|I]; [left; eapply He; eauto|right; eapply HB; eauto].
Qed.

Lemma hoist_closed e : hoistable e -> (forall x, ~ free x e) -> forall x, ~ free x (fst (exp_hoist e)).
Proof.
  intros (ND & SEP & HB) CL x F. rewrite exp_hoist_direct in F. cbn [fst] in F.
  assert (K : free x (Efun (hoisted e) (strip e))).
  { destruct (hoisted e); [exact F|]. cbn. auto. }
  clear F. cbn [free] in K. destruct K as [N K].
  assert (N' : ~ In x (List.map fname (defs_of e))).
  { intro I. apply N. apply (Permutation_in _ (Permutation_sym (fnames_hoisted e))). exact I. }
  destruct K as [K|K]; [destruct (free_strip _ _ K); [eapply CL; eauto|auto]|].
  apply free_body_flist in K as (f & t & xs & b & I & Nx & Fb).
  apply (Permutation_in _ (proj1 flist_hf e Fnil)) in I. cbn in I. rewrite app_nil_r in I.
  apply in_map_iff in I as ([[[f0 t0] xs0] b0] & E & I). cbn in E. injection E as -> -> -> <-.
  destruct (free_strip _ _ Fb) as [Fz|Fz].
  - destruct (proj1 defs_bundle _ _ _ _ _ I) as (B & IB & IF).
    destruct (in_dec Pos.eq_dec x (fnames B)) as [Ix|Ix].
    + apply N'. rewrite fnames_flist in Ix. apply in_map_iff in Ix as ([[[f1 t1] xs1] b1] & <- & Ix).
      apply in_map. 
      apply (proj1 (proj1 bundles_covers _ _ IB)). apply flist_defs. exact Ix.
    + apply N'. apply (HB B x IB). split; [exact Ix|]. apply free_body_flist. exists f, t, xs, b0. auto.
  - apply N'. apply in_map_iff in Fz as (d & <- & Id). apply in_map. eapply (proj1 defs_trans); eauto.
Qed.
