(** * Properties of lambda lifting (C67 - C70) *)
From Coq Require Import List Arith NArith PArith Bool Lia Permutation.
From Verif Require Import ANF_Syntax ANF_Eval ANF_Spec ANF_Scope ANF_EvalProofs ANF_FreeProofs Comp_Model CC_Model CC_Spec CC_Proofs CC_Scope UC_Model Hoist_Proofs
  LL_Model LL_Proofs LL_Sim LL_Spec LL_Top LL_Scope LL_Free LL_Closed LL_Tags.
Import ListNotations.
Local Open Scope list_scope.

(** ** C67: the pass never fails *)
Theorem C67_total : forall args no_push inl e s, exists e' s', lambda_lift args no_push inl e s = Some (e', s').
Proof. intros. unfold lambda_lift. apply (proj1 (ll_total _ _ _)). Qed.
Print Assumptions C67_total.

(** ** It preserves evaluation: results are of the same kind, data is equal,
    divergence is preserved; and back when the program does not go wrong. *)
Theorem C67_preserves : forall args no_push inl e s e' s', lambda_lift args no_push inl e s = Some (e', s') ->
  unique e -> separate e -> below (lv_var s) e ->
  forall cenv rho rho', (forall x, free x e -> exists v, get x rho = Some v /\ data v /\ get x rho' = Some v) ->
  (forall k v, bstep_fuel cenv rho e k (Res v) ->
     exists k' v', bstep_fuel cenv rho' e' k' (Res v') /\ k <= k' /\ same_kind v v' /\ (data v -> v' = v)) /\
  (diverge cenv rho e -> diverge cenv rho' e') /\
  (not_stuck cenv rho e ->
     not_stuck cenv rho' e' /\
     (forall k' v', bstep_fuel cenv rho' e' k' (Res v') -> exists k v, bstep_fuel cenv rho e k (Res v) /\ same_kind v v' /\ (data v -> v' = v)) /\
     (diverge cenv rho' e' -> diverge cenv rho e)).
Proof.
  intros a p i e s e' s' H U S B cenv rho rho' EV. pose proof (top_sim a p i e s e' s' cenv rho rho' H U S B EV) as SIM.
  assert (R1 : forall c v, bstep_fuel cenv rho e c (Res v) ->
     exists c' v', bstep_fuel cenv rho' e' c' (Res v') /\ c <= c' /\ same_kind v v' /\ (data v -> v' = v)).
  { intros c v E. destruct (SIM _ _ E) as (c' & [|v'] & E' & L & R); [destruct R|]. exists c', v'. split; [exact E'|]. split; [exact L|]. split; [exact R|].
    intro D. eapply kind_data; eauto. }
  assert (R2 : diverge cenv rho e -> diverge cenv rho' e').
  { intros D c. destruct (SIM _ _ (D c)) as (c' & [|v'] & E' & L' & R); [|destruct R]. eapply bstep_fuel_oot_less; [exact E'|exact L']. }
  split; [exact R1|]. split; [exact R2|]. intros [(c & v & E)|D].
  - destruct (R1 c v E) as (c2 & v2 & E2 & _ & V & DD). split; [left; eauto|]. split.
    + intros c' v' E'. destruct (bstep_fuel_det _ _ _ _ _ _ _ E' E2) as [-> ->]. eauto.
    + intros D. exfalso. specialize (D c2). pose proof (bstep_fuel_oot_lt _ _ _ _ _ _ D E2). lia.
  - split; [right; exact (R2 D)|]. split; [|auto]. intros c' v' E'. exfalso. specialize (R2 D c').
    pose proof (bstep_fuel_oot_lt _ _ _ _ _ _ R2 E'). lia.
Qed.
Print Assumptions C67_preserves.

(** ** Names: no variable becomes free; every name is bound once, as before;
    new names come from the counter, which stays ahead. *)
Theorem C67_names : forall args no_push inl e s e' s', lambda_lift args no_push inl e s = Some (e', s') ->
  unique e -> separate e -> below (lv_var s) e ->
  (forall x, free x e' -> free x e) /\ unique e' /\ separate e' /\ below (lv_var s') e' /\ (lv_var s <= lv_var s')%positive /\
  (forall x, In x (bv e') -> In x (bv e) \/ (lv_var s <= x < lv_var s')%positive).
Proof.
  intros a p i e s e' s' H U S B. unfold lambda_lift in H.
  assert (F : forall x, free x e' -> free x e).
  { intros x Fx. destruct (proj1 (ll_free _ _ _ (lv_var s)) _ _ _ _ _ _ _ _ H (top_ok _ _ U S B) (top_maps _) x Fx) as [(y & O & ->)|(h & f' & ft' & ar & _ & L & _)];
      [|discriminate]. apply occ_free in O. exact O. }
  pose proof (proj1 (ll_le _ _ _) _ _ _ _ _ _ _ _ H) as L.
  assert (Z : forall z, cnt z (bv e') <= cnt z (bv e) + inr z (lv_var s) (lv_var s')).
  { intro z. apply (proj1 (ll_binders a p _ z) _ _ _ _ _ _ _ _ H U). }
  assert (NEW : forall x, In x (bv e') -> In x (bv e) \/ (lv_var s <= x < lv_var s')%positive).
  { intros x I. apply cnt_In in I. specialize (Z x). destruct (inr_cases x (lv_var s) (lv_var s')) as [[Q _]|[_ Q]]; [auto|]. left. apply cnt_In. lia. }
  split; [exact F|]. split; [|split; [|split; [|split; [exact L|exact NEW]]]].
  - apply cnt_NoDup. intro z. specialize (Z z). pose proof (proj2 (cnt_NoDup _) U z) as Q.
    destruct (inr_cases z (lv_var s) (lv_var s')) as [[R1 R2]|[_ R2]]; [|lia].
    destruct (cnt z (bv e)) as [|k] eqn:E; [lia|]. exfalso. assert (I : In z (bv e)) by (apply cnt_In; lia). specialize (B z (or_introl I)). lia.
  - intros x I Fx. apply F in Fx. destruct (NEW x I) as [J|J]; [exact (S x J Fx)|]. specialize (B x (or_intror Fx)). lia.
  - intros x [I|Fx].
    + destruct (NEW x I) as [J|J]; [specialize (B x (or_introl J)); lia|lia].
    + apply F in Fx. specialize (B x (or_intror Fx)). lia.
Qed.
Print Assumptions C67_names.

(** ** C68: when every call is redirected, the lifted functions (those with a
    new tag) are closed: the only variables they use from outside are
    functions that are themselves closed. *)
Theorem C68_lifted_closed : forall args no_push e s e' s', lambda_lift args no_push true e s = Some (e', s') ->
  unique e -> separate e -> below (lv_var s) e -> (forall f t xs b, In (f, t, xs, b) (defs_of e) -> (t < lv_tag s)%positive) ->
  forall B f t xs b, In B (bundles e') -> find_def f B = Some (t, xs, b) -> (lv_tag s <= t)%positive ->
  closed_fun (bundles e') f.
Proof.
  intros a p e s e' s' H U S Bl T B f t xs b IB FD LT. unfold lambda_lift in H.
  apply cf with (D := B); [exact IB|eapply find_def_In; eauto|].
  refine (proj1 (ll_closed a p _ (lv_var s) (bundles e') (lv_tag s) _) _ _ _ _ _ _ _ _ H (top_ok _ _ U S Bl) (top_maps _) (incl_refl _) _ T _ B IB _).
  - intros fv sc. reflexivity.
  - intros x Q. exfalso. apply Q. reflexivity.
  - intros x _. reflexivity.
  - exists t. split; [eapply find_ftags; eauto|exact LT].
Qed.
Print Assumptions C68_lifted_closed.

(** ** With the other setting (redirect a call only if it brings no new free
    variable) this fails. *)
Definition conservative : exp :=
  (Econstr 1 1 [] (Efun (Fcons 2 10 [3] (Econstr 4 2 [1] (Ehalt 4)) Fnil)
  (Efun (Fcons 5 10 [6] (Econstr 7 2 [1] (Efun (Fcons 8 10 [9] (Eapp 2 10 [9]) Fnil) (Eapp 8 10 [6]))) Fnil)
  (Eapp 5 10 [1]))))%positive.
Definition start : lst := mkl 20%positive 11%positive [(10%positive, (1, [0])%N)].
Lemma not_closed bs (l : list var) : (forall z, In z l -> forall D, In D bs -> In z (fnames D) -> exists y, In y l /\ free_funs y D) ->
  forall z, In z l -> ~ closed_fun bs z.
Proof. intros H z I C. revert I. induction C as [z D ID JD _ IH]. intro I. destruct (H z I D ID JD) as (y & Iy & F). exact (IH y F Iy). Qed.
Theorem C68_conservative_refuted : exists args no_push e s e' s', lambda_lift args no_push false e s = Some (e', s') /\
  unique e /\ separate e /\ below (lv_var s) e /\ (forall f t xs b, In (f, t, xs, b) (defs_of e) -> (t < lv_tag s)%positive) /\
  exists B f t xs b, In B (bundles e') /\ find_def f B = Some (t, xs, b) /\ (lv_tag s <= t)%positive /\ ~ closed_fun (bundles e') f.
Proof.
  exists 10, 10, conservative, start. eexists _, _. split; [vm_compute; reflexivity|].
  split; [vm_compute; repeat constructor; cbn; intuition discriminate|].
  split; [intros x I F; cbn in F; intuition congruence|].
  split; [intros x [I|F]; [cbn in I; intuition (subst; cbn; lia)|cbn in F; intuition congruence]|].
  split; [intros f t xs b I; cbn in I; intuition (try congruence); match goal with E : _ = _ |- _ => apply (f_equal (fun d : fdef => snd (fst (fst d)))) in E; cbn in E; subst t end; cbn; lia|].
  eexists _, 26%positive, _, _, _. split; [right; right; right; left; reflexivity|].
  split; [vm_compute; reflexivity|]. split; [cbn; lia|].
  apply (not_closed _ [26; 24; 1]%positive); [|left; reflexivity].
  intros z IZ D ID JD. cbn in IZ. destruct IZ as [<-|[<-|[<-|[]]]]; cbn in ID;
    repeat (destruct ID as [<-|ID]; [cbn in JD; try (exfalso; intuition discriminate)|]); try (destruct ID).
  - exists 24%positive. unfold free_funs. cbn. intuition (try discriminate).
  - exists 1%positive. unfold free_funs. cbn. intuition (try discriminate).
Qed.
Print Assumptions C68_conservative_refuted.

(** ** C69: function tags still determine the number of arguments, of functions
    and of calls, if they did and if calls of functions of the program pass as
    many arguments as the function has parameters. *)
Theorem C69_tags : forall args no_push inl e s e' s' ar, lambda_lift args no_push inl e s = Some (e', s') ->
  unique e -> tags_lt (lv_tag s) e -> tags_agree ar e -> direct_ok e ->
  tags_lt (lv_tag s') e' /\ exists ar', (forall t, (t < lv_tag s)%positive -> ar' t = ar t) /\ tags_agree ar' e'.
Proof.
  intros a p i e s e' s' ar H U [T1 T2] [A1 A2] D. unfold lambda_lift in H.
  assert (ND : NoDup (map (fun d : fdef => fst (fst (fst d))) (defs_of e))).
  { pose proof (Permutation_NoDup (proj1 bv_split e) U) as N. apply NoDup_app_l in N. erewrite map_ext; [exact N|]. intros [[[f t] xs] b]. reflexivity. }
  destruct (proj1 (ll_tags a p _ (find_np (defs_of e))) _ _ _ _ _ _ _ _ ar H) as (ar' & G & O1 & O2).
  - split; [intros f t xs b I; split; eauto|intros f t ys I; split; eauto].
  - split; [intros f t xs b I; eapply find_np_In; eauto|]. intros f t ys k I E. apply find_np_def in E as (u & xs & b & J & ->). eapply D; eauto.
  - intros h f' ft' ar0 L. discriminate.
  - split; [|exists ar'; split; [exact G|]].
    + split; [intros f t xs b I; apply (O1 _ _ _ _ I)|intros f t ys I; apply (O2 _ _ _ I)].
    + split; [intros f t xs b I; apply (O1 _ _ _ _ I)|intros f t ys I; apply (O2 _ _ _ I)].
Qed.
Print Assumptions C69_tags.

(** ** The function table: entries are only added, one for each new tag. *)
Theorem C69_table : forall args no_push inl e s e' s', lambda_lift args no_push inl e s = Some (e', s') ->
  (lv_tag s <= lv_tag s')%positive /\
  (forall t, (t < lv_tag s \/ lv_tag s' <= t)%positive -> get t (lv_tbl s') = get t (lv_tbl s)) /\
  (forall t, (lv_tag s <= t < lv_tag s')%positive -> get t (lv_tbl s') <> None).
Proof. intros a p i e s e' s' H. exact (proj1 (ll_ext a p _) _ _ _ _ _ _ _ _ H). Qed.
Print Assumptions C69_table.

(** ** But the entries added are wrong: a tag is recorded with the number of
    parameters before lifting. *)
Theorem C69_recorded_arity_refuted : exists args no_push inl e s e' s', lambda_lift args no_push inl e s = Some (e', s') /\
  unique e /\ separate e /\ below (lv_var s) e /\
  (forall f t xs b, In (f, t, xs, b) (defs_of e) -> exists l, get t (lv_tbl s) = Some (N.of_nat (length xs), l)) /\
  exists f t xs b n l, In (f, t, xs, b) (defs_of e') /\ get t (lv_tbl s') = Some (n, l) /\ n <> N.of_nat (length xs).
Proof.
  exists 10, 10, true, conservative, start. eexists _, _. split; [vm_compute; reflexivity|].
  split; [vm_compute; repeat constructor; cbn; intuition discriminate|].
  split; [intros x I F; cbn in F; intuition congruence|].
  split; [intros x [I|F]; [cbn in I; intuition (subst; cbn; lia)|cbn in F; intuition congruence]|].
  split.
  - intros f t xs b I. cbn in I. repeat (destruct I as [E|I]; [|]); try (destruct I);
      apply (f_equal (fun d : fdef => (snd (fst (fst d)), snd (fst d)))) in E; cbn in E; apply CC_Proofs.pair2 in E as [<- <-]; eexists; vm_compute; reflexivity.
  - eexists _, 11%positive, _, _, _, _. split; [left; reflexivity|]. split; [vm_compute; reflexivity|]. vm_compute. discriminate.
Qed.
Print Assumptions C69_recorded_arity_refuted.

(** ** C70: a function gains at most [args] parameters *)
Theorem C70_added_parameters : forall args no_push inl e s e' s', lambda_lift args no_push inl e s = Some (e', s') ->
  forall f t xs b, In (f, t, xs, b) (defs_of e') ->
  exists f0 t0 xs0 b0, In (f0, t0, xs0, b0) (defs_of e) /\ length xs0 <= length xs <= length xs0 + args.
Proof.
  intros a p i e s e' s' H. unfold lambda_lift in H. refine (proj1 (ll_params a p _ (defs_of e)) _ _ _ _ _ _ _ _ H (incl_refl _) _).
  intros h f' ft' ar L. discriminate.
Qed.
Print Assumptions C70_added_parameters.

(** ** But a function that already has parameters may end up with more than
    [args] of them: the space they take is computed as 0. *)
Definition twoparams : exp :=
  (Econstr 1 1 [] (Econstr 2 2 [1]
  (Efun (Fcons 3 10 [4; 5] (Econstr 6 3 [1; 2; 4; 5] (Ehalt 6)) Fnil)
  (Eapp 3 10 [2; 1]))))%positive.
Theorem C70_parameter_bound_refuted : exists args no_push inl e s e' s', lambda_lift args no_push inl e s = Some (e', s') /\
  unique e /\ separate e /\ below (lv_var s) e /\
  (forall f t xs b, In (f, t, xs, b) (defs_of e) -> length xs <= args) /\
  exists f t xs b, In (f, t, xs, b) (defs_of e') /\ args < length xs.
Proof.
  exists 2, 10, false, twoparams, start. eexists _, _. split; [vm_compute; reflexivity|].
  split; [vm_compute; repeat constructor; cbn; intuition discriminate|].
  split; [intros x I F; cbn in F; intuition congruence|].
  split; [intros x [I|F]; [cbn in I; intuition (subst; cbn; lia)|cbn in F; intuition congruence]|].
  split.
  - intros f t xs b I. cbn in I. destruct I as [E|[]]. apply (f_equal (fun d : fdef => snd (fst d))) in E. cbn in E. subst xs. cbn. lia.
  - eexists _, _, _, _. split; [left; reflexivity|]. cbn. lia.
Qed.
Print Assumptions C70_parameter_bound_refuted.

(** ** A program on which the theorems act: a loop over a list that uses a
    variable from outside, [f l = case l of nil -> y | cons -> f (tail l)]. *)
Definition loop : exp :=
  (Econstr 1 1 [] (Econstr 2 2 [1; 1]
  (Efun (Fcons 3 10 [4] (Ecase 4 [(1, Econstr 7 2 [1; 4] (Ehalt 7)); (2, Eproj 5 2 1 4 (Eapp 3 10 [5]))]) Fnil)
  (Eletapp 6 3 10 [2] (Ehalt 6)))))%positive.
Definition loop_env : ctor_env :=
  [(1, {| ctor_ind_tag := 1; ctor_arity := 0; ctor_ordinal := 0 |}); (2, {| ctor_ind_tag := 1; ctor_arity := 2; ctor_ordinal := 1 |})]%positive.
Example C67_example :
  (exists s', lambda_lift 5 1 true loop start = Some
  ((Econstr 1 1 [] (Econstr 2 2 [1; 1]
  (Efun (Fcons 20 11 [4; 21] (Efun (Fcons 22 10 [23] (Eapp 20 11 [23; 21]) Fnil)
       (Ecase 4 [(1, Econstr 7 2 [21; 4] (Ehalt 7)); (2, Eproj 5 2 1 4 (Eapp 20 11 [5; 21]))])) Fnil)
  (Efun (Fcons 24 10 [25] (Eapp 20 11 [25; 1]) Fnil)
  (Eletapp 6 20 11 [2; 1] (Ehalt 6))))))%positive, s')) /\
  (exists k, bstep_fuel loop_env [] loop k (Res (Vconstr 2%positive [Vconstr 1%positive []; Vconstr 1%positive []]))).
Proof. split; [eexists; vm_compute; reflexivity|]. eexists. apply interp_iff. exists 30. vm_compute. reflexivity. Qed.
Example C67_example_hyps : unique loop /\ separate loop /\ below (lv_var start) loop /\ tags_lt (lv_tag start) loop /\ tags_agree (fun _ => 1) loop /\ direct_ok loop.
Proof.
  split; [vm_compute; repeat constructor; cbn; intuition discriminate|].
  split; [intros x I F; cbn in F; intuition congruence|].
  split; [intros x [I|F]; [cbn in I; intuition (subst; cbn; lia)|cbn in F; intuition congruence]|].
  assert (K : (forall f t xs b, In (f, t, xs, b) (defs_of loop) -> f = 3%positive /\ t = 10%positive /\ length xs = 1) /\
    (forall f t ys, In (f, t, ys) (calls_of loop) -> t = 10%positive /\ length ys = 1)).
  { split; [intros f t xs b I|intros f t ys I]; cbn in I; repeat (destruct I as [E|I]; [|]); try (destruct I).
    - assert (f = 3%positive /\ t = 10%positive /\ xs = [4%positive]) as (-> & -> & ->) by (repeat split; congruence). auto.
    - assert (t = 10%positive /\ ys = [5%positive]) as (-> & ->) by (split; congruence). auto.
    - assert (t = 10%positive /\ ys = [2%positive]) as (-> & ->) by (split; congruence). auto. }
  destruct K as [K1 K2]. split; [|split].
  - split; [intros f t xs b I; apply K1 in I as (_ & -> & _)|intros f t ys I; apply K2 in I as (-> & _)]; cbn; lia.
  - split; [intros f t xs b I; apply K1 in I as (_ & _ & E)|intros f t ys I; apply K2 in I as (_ & E)]; exact E.
  - intros f t xs b t' ys I J. apply K1 in I as (_ & _ & ->). apply K2 in J as (_ & ->). reflexivity.
Qed.
(* the lifted function of the example is the one C68 speaks about *)
Example C68_example : exists e' s', lambda_lift 5 1 true loop start = Some (e', s') /\
  exists B xs b, In B (bundles e') /\ find_def 20%positive B = Some (11%positive, xs, b) /\ (lv_tag start <= 11)%positive.
Proof.
  eexists _, _. split; [vm_compute; reflexivity|]. eexists _, _, _. split; [left; reflexivity|]. split; [vm_compute; reflexivity|]. cbn. lia.
Qed.
