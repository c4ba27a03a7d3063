(* The translation of programs with globals to nested lets. *)
From Coq Require Import List Arith NArith String Bool Lia.
From Verif Require Import LB_Model LB_Spec LB_Proofs LB_EvalProofs LB_Env LB_EnvProofs
  LM_Model LM_Spec LM_Proofs.
Import ListNotations.
Local Open Scope nat_scope.

(* ================= closedness ================= *)

Definition keys (e : lenv) : list kername := map fst e.

Lemma offset_in : forall e s, In s (keys e) -> (cst_offset e s < N.of_nat (List.length e))%N.
Proof.
  induction e as [|[c d] e IH]; intros s H; [destruct H |].
  cbn [cst_offset List.length]. destruct (String.eqb_spec s c); [lia |].
  destruct H as [H|H]; [cbn in H; congruence |]. apply IH in H. lia.
Qed.

Lemma len_trans_fixes : forall e pr ds k,
  efnlst_length (trans_fixes e pr k ds) = N.of_nat (dlength ds).
Proof. induction ds; intros; cbn [trans_fixes efnlst_length dlength]; auto. rewrite IHds. lia. Qed.

Lemma find_prim_in : forall prims c, (exists x, In (c, x) prims) -> find_prim prims c <> None.
Proof.
  induction prims as [|[k x] prims IH]; intros c [y H]; [destruct H |].
  cbn [find_prim]. destruct (String.eqb_spec c k); [discriminate |].
  apply IH. exists y. destruct H; [congruence | auto].
Qed.

Lemma keys_env : forall prims p c, (exists d, In (c, ecTrm d) p) -> In c (keys (translate_env prims p)).
Proof.
  induction p as [|[k ec] p IH]; intros c [d H]; [destruct H |].
  unfold translate_env in *. cbn [fold_right translate_entry].
  destruct H as [H|H].
  - injection H; intros; subst. left; reflexivity.
  - destruct ec; cbn [translate_entry]; [right |]; apply IH; eauto.
Qed.

Lemma trans_occurs : forall e prims (K : kername -> Prop),
  (forall c, K c -> find_prim prims c <> None \/ In c (keys e)) ->
  (forall t n k x, scoped K n t -> n <= k -> occurs x (trans e prims (N.of_nat k) t) ->
     (x < N.of_nat k + N.of_nat (List.length e))%N) /\
  (forall t n k x, scopeds K n t -> n <= k -> occurs_es x (trans_args e prims (N.of_nat k) t) ->
     (x < N.of_nat k + N.of_nat (List.length e))%N) /\
  (forall t n k x i j, scopedBs K n t -> n <= k -> occurs_bs x (trans_brs e prims i (N.of_nat k) j t) ->
     (x < N.of_nat k + N.of_nat (List.length e))%N) /\
  (forall t n k x, scopedDs K n t -> n <= k -> occurs_fs x (trans_fixes e prims (N.of_nat k) t) ->
     (x < N.of_nat k + N.of_nat (List.length e))%N).
Proof.
  intros e prims K HK. apply TrmTrmsBrsDefs_ind; intros;
    cbn [scoped scopeds scopedBs scopedDs trans trans_args trans_brs trans_fixes
         occurs occurs_es occurs_bs occurs_fs] in *; try contradiction;
    repeat match goal with H : _ /\ _ |- _ => destruct H end.
  - lia.
  - replace (1 + N.of_nat k)%N with (N.of_nat (S k)) in * by lia.
    eapply H in H2; eauto; lia.
  - replace (1 + N.of_nat k)%N with (N.of_nat (S k)) in * by lia.
    destruct H3 as [H3|H3]; [eapply H in H3; eauto | eapply H0 in H3; eauto; lia].
  - destruct H3 as [H3|H3]; [eapply H in H3; eauto | eapply H0 in H3; eauto].
  - destruct (find_prim prims k) eqn:F; cbn [occurs] in H1; [contradiction |].
    destruct (HK _ H) as [A|A]; [congruence |]. apply offset_in in A. lia.
  - eapply H in H2; eauto.
  - destruct H3 as [H3|H3]; [eapply H in H3; eauto | eapply H0 in H3; eauto].
  - rewrite len_trans_fixes in H2.
    replace (N.of_nat (dlength d) + N.of_nat k)%N with (N.of_nat (dlength d + k)) in * by lia.
    eapply H in H2; eauto; lia.
  - destruct H3 as [H3|H3]; [eapply H in H3; eauto | eapply H0 in H3; eauto].
  - cbn [fst] in H3.
    replace (N.of_nat k + N.of_nat (List.length l))%N with (N.of_nat (k + List.length l)) in * by lia.
    destruct H3 as [H3|H3]; [eapply H in H3; eauto; lia | eapply H0 in H3; eauto].
  - destruct H3 as [H3|H3]; [eapply H in H3; eauto | eapply H0 in H3; eauto].
Qed.

Lemma avail_ok : forall prims p c, avail prims p c ->
  find_prim prims c <> None \/ In c (keys (translate_env prims p)).
Proof.
  intros prims p c [H|H]; [left; apply find_prim_in; auto | right; apply keys_env; auto].
Qed.

Lemma translate_occurs : forall prims p t, scoped (avail prims p) 0 t ->
  forall x, occurs x (translate (translate_env prims p) prims t) ->
  (x < N.of_nat (List.length (translate_env prims p)))%N.
Proof.
  intros prims p t H x O.
  pose proof (proj1 (trans_occurs _ prims _ (avail_ok prims p)) t 0 0 x H (le_n 0) O). lia.
Qed.

(* [mkLets] binds exactly the variables of its environment. *)
Lemma mkLets_occurs : forall prims p b, scopedEnv prims p ->
  (forall x, occurs x b -> (x < N.of_nat (List.length (translate_env prims p)))%N) ->
  closed (mkLets (translate_env prims p) b).
Proof.
  induction p as [|[s [t|n]] p IH]; intros b H O.
  - intros x X. apply O in X. cbn in X. lia.
  - destruct H as [H1 H2].
    change (mkLets (translate_env prims ((s, ecTrm t) :: p)) b)
      with (mkLets (translate_env prims p)
              (Let_e (nNamed s) (translate (translate_env prims p) prims t) b)).
    apply IH; auto. intros x X. cbn [occurs] in X. destruct X as [X|X].
    + eapply translate_occurs; eauto.
    + apply O in X. change (translate_env prims ((s, ecTrm t) :: p))
        with ((s, translate (translate_env prims p) prims t) :: translate_env prims p) in X.
      cbn [List.length] in X. lia.
  - apply IH; auto.
Qed.

(* ================= shape ================= *)

Lemma trans_shaped : forall e p,
  (forall t n k, crct p n t -> shaped (trans e [] k t)) /\
  (forall t n k, crcts p n t -> shaped_es (trans_args e [] k t)) /\
  (forall t n k i j, crctBs p n t -> shaped_bs (trans_brs e [] i k j t)) /\
  (forall t n k, crctDs p n t -> shaped_fs (trans_fixes e [] k t)).
Proof.
  intros e p. apply TrmTrmsBrsDefs_ind; intros;
    cbn [crct crcts crctBs crctDs trans trans_args trans_brs trans_fixes find_prim
         shaped shaped_es shaped_bs shaped_fs] in *; auto; try contradiction;
    repeat match goal with H : _ /\ _ |- _ => destruct H end; repeat split; eauto.
  - rewrite len_trans_fixes. lia.
  - destruct t; try contradiction. cbn [trans]. eapply H in H1. exact H1.
Qed.

Lemma mkLets_shaped : forall p b, crctEnv p -> shaped b -> shaped (mkLets (translate_env [] p) b).
Proof.
  induction p as [|[s [t|n]] p IH]; intros b H O; auto.
  - destruct H as [H1 [H2 H3]].
    change (mkLets (translate_env [] ((s, ecTrm t) :: p)) b)
      with (mkLets (translate_env [] p) (Let_e (nNamed s) (translate (translate_env [] p) [] t) b)).
    apply IH; auto. cbn [shaped]. split; auto. eapply trans_shaped; eauto.
  - destruct H as [H1 [H2 H3]]. apply IH; auto.
Qed.

Lemma lookup_In : forall p c d, lookupDfn c p = Some d -> In (c, ecTrm d) p.
Proof.
  induction p as [|[k ec] p IH]; intros c d H; [discriminate |].
  unfold lookupDfn in *. cbn [lookup] in H. destruct (String.eqb_spec c k).
  - subst. destruct ec; [| discriminate]. injection H; intros; subst. left; auto.
  - right; auto.
Qed.

Lemma crct_scoped : forall p,
  (forall t n, crct p n t -> scoped (avail [] p) n t) /\
  (forall t n, crcts p n t -> scopeds (avail [] p) n t) /\
  (forall t n, crctBs p n t -> scopedBs (avail [] p) n t) /\
  (forall t n, crctDs p n t -> scopedDs (avail [] p) n t).
Proof.
  intros p. apply TrmTrmsBrsDefs_ind; intros;
    cbn [crct crcts crctBs crctDs scoped scopeds scopedBs scopedDs] in *; auto; try contradiction;
    repeat match goal with H : _ /\ _ |- _ => destruct H end; repeat split; eauto.
  - destruct (lookupDfn k p) eqn:E; [| congruence]. right. exists t. apply lookup_In; auto.
  - destruct t; try contradiction. auto.
Qed.

Lemma crctEnv_scoped : forall p, crctEnv p -> scopedEnv [] p.
Proof.
  induction p as [|[s [t|n]] p IH]; intros H; cbn [scopedEnv]; auto.
  - destruct H as [H1 [H2 H3]]. split; auto. apply crct_scoped; auto.
  - destruct H as [H1 _]; auto.
Qed.

Lemma program_wf : forall p t, crctEnv p -> crct p 0 t -> exp_wf 0 (translate_program [] p t).
Proof.
  intros p t H1 H2. apply (proj1 wf_iff). split.
  - intros x X. exfalso. revert X. apply mkLets_occurs; [apply crctEnv_scoped; auto |].
    apply translate_occurs. apply crct_scoped; auto.
  - apply mkLets_shaped; auto. eapply trans_shaped; eauto.
Qed.

(* ================= constants and indices ================= *)

Lemma offset_lookup : forall prims p c d, lookupDfn c p = Some d ->
  exists before after, p = before ++ (c, ecTrm d) :: after /\
    (forall ec, ~ In (c, ec) before) /\
    nth_error (translate_env prims p) (N.to_nat (cst_offset (translate_env prims p) c))
    = Some (c, translate (translate_env prims after) prims d).
Proof.
  induction p as [|[k ec] p IH]; intros c d H; [discriminate |].
  unfold lookupDfn in H. cbn [lookup] in H. destruct (String.eqb_spec c k).
  - subst. destruct ec; [| discriminate]. injection H; intros; subst.
    exists [], p. split; [reflexivity |]. split; [intros ? [] |].
    cbn [translate_env fold_right translate_entry cst_offset]. rewrite String.eqb_refl. reflexivity.
  - destruct (IH c d H) as [before [after [E [N X]]]].
    exists ((k, ec) :: before), after. split; [rewrite E; reflexivity |]. split.
    + intros ec' [A|A]; [congruence | eapply N; eauto].
    + destruct ec.
      * change (translate_env prims ((k, ecTrm t) :: p))
          with ((k, translate (translate_env prims p) prims t) :: translate_env prims p).
        cbn [cst_offset]. destruct (String.eqb_spec c k); [contradiction |].
        replace (N.to_nat (1 + cst_offset (translate_env prims p) c))
          with (S (N.to_nat (cst_offset (translate_env prims p) c))) by lia.
        exact X.
      * exact X.
Qed.

(* ================= constants replaced by closed terms ================= *)

Lemma msub_Var_at : forall vs i k v, cl vs -> nth_error vs (N.to_nat i) = Some v ->
  msub vs k (Var_e (i + k)) = v.
Proof.
  induction vs; intros i k v C E; [destruct (N.to_nat i); discriminate |].
  inversion C; subst. cbn [msub fold_left sbst].
  destruct (N.ltb_spec (i + k) k); [lia |]. destruct (N.eqb_spec (i + k) k).
  - assert (i = 0%N) by lia. subst. cbn in E. injection E; intros; subst. apply msub_closed; auto.
    intros x Hx. destruct (wf0_closed _ H1 x Hx).
  - replace (i + k - 1)%N with ((i - 1) + k)%N by lia. apply IHvs; auto.
    replace (N.to_nat i) with (S (N.to_nat (i - 1))) in E by lia. exact E.
Qed.

Ltac s1 := repeat match goal with |- context [(1 + N.of_nat ?k)%N] =>
  replace (1 + N.of_nat k)%N with (N.of_nat (S k)) by lia end.

Section Close.
Variable p : environ.
Variable g : kername -> lexp.
Hypothesis G : forall c, lookupDfn c p <> None -> exp_wf 0 (g c).

Lemma msub_trans : forall e vs, cl vs ->
  (forall c, lookupDfn c p <> None -> nth_error vs (N.to_nat (cst_offset e c)) = Some (g c)) ->
  (forall t n k, crct p n t -> n <= k -> msub vs (N.of_nat k) (trans e [] (N.of_nat k) t) = close g t) /\
  (forall t n k, crcts p n t -> n <= k ->
     msubs vs (N.of_nat k) (trans_args e [] (N.of_nat k) t) = close_args g t) /\
  (forall t n k i j, crctBs p n t -> n <= k ->
     msub_brs vs (N.of_nat k) (trans_brs e [] i (N.of_nat k) j t) = close_brs g i j t) /\
  (forall t n k, crctDs p n t -> n <= k ->
     msub_fns vs (N.of_nat k) (trans_fixes e [] (N.of_nat k) t) = close_fixes g t).
Proof.
  intros e vs C X. apply TrmTrmsBrsDefs_ind; intros;
    cbn [crct crcts crctBs crctDs trans trans_args trans_brs trans_fixes find_prim
         close close_args close_brs close_fixes] in *; try contradiction;
    repeat match goal with H : _ /\ _ |- _ => destruct H end;
    rewrite ?msub_Lam, ?msub_App, ?msub_Con, ?msub_Let, ?msub_Match, ?msub_Fix, ?msub_Prf,
      ?msub_Prim_val, ?msubs_nil, ?msubs_cons, ?msub_fns_nil, ?msub_fns_cons,
      ?msub_brs_nil, ?msub_brs_cons;
    s1.
  - apply msub_closed; auto. intros x E. cbn [occurs] in E. lia.
  - reflexivity.
  - f_equal. eapply H; eauto; lia.
  - f_equal; [eapply H | eapply H0]; eauto; lia.
  - f_equal; eauto.
  - apply msub_Var_at; auto.
  - f_equal; eauto.
  - f_equal; eauto.
  - f_equal. rewrite len_trans_fixes.
    replace (N.of_nat (dlength d) + N.of_nat k)%N with (N.of_nat (dlength d + k)) by lia.
    eapply H; eauto; lia.
  - reflexivity.
  - reflexivity.
  - f_equal; eauto.
  - reflexivity.
  - f_equal; eauto. cbn [nargs fst].
    replace (N.of_nat (List.length l) + N.of_nat k)%N with (N.of_nat (List.length l + k)) by lia.
    replace (N.of_nat k + N.of_nat (List.length l))%N with (N.of_nat (List.length l + k)) by lia.
    eapply H; eauto; lia.
  - reflexivity.
  - f_equal; eauto. destruct t; try contradiction. eapply H; eauto.
Qed.

Lemma len_close_fixes : forall ds, efnlst_length (close_fixes g ds) = N.of_nat (dlength ds).
Proof. induction ds; cbn [close_fixes efnlst_length dlength]; auto. rewrite IHds. lia. Qed.
Lemma efn_close_fixes : forall ds, efnlength (close_fixes g ds) = dlength ds.
Proof. induction ds; cbn [close_fixes efnlength dlength]; auto. Qed.
Lemma len_close_args : forall ts, exps_length (close_args g ts) = N.of_nat (tlength ts).
Proof. induction ts; cbn [close_args exps_length tlength]; auto. rewrite IHts. lia. Qed.

Lemma close_wf :
  (forall t n, crct p n t -> exp_wf (N.of_nat n) (close g t)) /\
  (forall t n, crcts p n t -> exps_wf (N.of_nat n) (close_args g t)) /\
  (forall t n i j, crctBs p n t -> branches_wf (N.of_nat n) (close_brs g i j t)) /\
  (forall t n, crctDs p n t -> efnlst_wf (N.of_nat n) (close_fixes g t)).
Proof.
  apply TrmTrmsBrsDefs_ind; intros;
    cbn [crct crcts crctBs crctDs close close_args close_brs close_fixes] in *; try contradiction;
    repeat match goal with H : _ /\ _ |- _ => destruct H end;
    try (constructor; auto; fail).
  - constructor. lia.
  - constructor. replace (1 + N.of_nat n0)%N with (N.of_nat (S n0)) by lia. auto.
  - constructor; auto. replace (1 + N.of_nat n0)%N with (N.of_nat (S n0)) by lia. auto.
  - apply weaken_wf with 0%N; [apply G; auto | lia].
  - constructor; rewrite len_close_fixes; [lia |].
    replace (N.of_nat (dlength d) + N.of_nat n0)%N with (N.of_nat (n0 + dlength d)) by lia. auto.
  - constructor; auto. cbn [nargs fst].
    replace (N.of_nat (List.length l) + N.of_nat n)%N with (N.of_nat (List.length l + n)) by lia. auto.
  - destruct t; try contradiction. constructor; auto. exact I.
Qed.

Lemma sbst_closed_id : forall v k e, closed v -> closed e -> sbst v k e = e.
Proof.
  intros v k e Hv He. rewrite (proj1 (sbst_subst v Hv)). apply (proj1 (subst_id v)).
  intros x X. destruct (He x X).
Qed.

Lemma close_inst : forall a, closed (close g a) ->
  (forall t n k, crct p n t -> close g (instantiate a k t) = sbst (close g a) (N.of_nat k) (close g t)) /\
  (forall t n k, crcts p n t ->
     close_args g (instantiates a k t) = sbsts (close g a) (N.of_nat k) (close_args g t)) /\
  (forall t n k i j, crctBs p n t ->
     close_brs g i j (instantiateBrs a k t) = sbst_branches (close g a) (N.of_nat k) (close_brs g i j t)) /\
  (forall t n k, crctDs p n t ->
     close_fixes g (instantiateDefs a k t) = sbst_efnlst (close g a) (N.of_nat k) (close_fixes g t)).
Proof.
  intros a Ha. apply TrmTrmsBrsDefs_ind; intros;
    cbn [crct crcts crctBs crctDs instantiate instantiates instantiateBrs instantiateDefs
         close close_args close_brs close_fixes sbst sbsts sbst_branches sbst_efnlst] in *;
    try contradiction; repeat match goal with H : _ /\ _ |- _ => destruct H end;
    try reflexivity;
    s1.
  - destruct (Nat.compare_spec k n); destruct (N.ltb_spec (N.of_nat n) (N.of_nat k)); try lia;
      destruct (N.eqb_spec (N.of_nat n) (N.of_nat k)); try lia; try reflexivity.
    cbn [close]. f_equal. lia.
  - f_equal; eauto.
  - f_equal; eauto.
  - f_equal; eauto.
  - symmetry. apply sbst_closed_id; auto. apply wf0_closed. apply G; auto.
  - f_equal; eauto.
  - f_equal; eauto.
  - f_equal. rewrite len_close_fixes.
    replace (N.of_nat (dlength d) + N.of_nat k)%N with (N.of_nat (k + dlength d)) by lia. eauto.
  - f_equal; eauto.
  - f_equal; eauto. cbn [nargs fst].
    replace (N.of_nat (List.length l) + N.of_nat k)%N with (N.of_nat (List.length l + k)) by lia. eauto.
  - f_equal; eauto. destruct t; try contradiction. eapply H; eauto.
Qed.

Fixpoint tlist (ts : Terms) : list lexp :=
  match ts with tnil => [] | tcons t ts => close g t :: tlist ts end.
Lemma exps_tlist : forall ts, exps_of (tlist ts) = close_args g ts.
Proof. induction ts; cbn; congruence. Qed.
Lemma tlist_len : forall ts, List.length (tlist ts) = tlength ts.
Proof. induction ts; cbn; congruence. Qed.
Lemma tlist_cl : forall ts, crcts p 0 ts -> cl (tlist ts).
Proof.
  unfold cl. induction ts; intros H; cbn [tlist]; constructor; destruct H; auto.
  apply (proj1 close_wf t 0); auto.
Qed.

Lemma msub_sbst_last : forall L A k T, cl L -> closed A ->
  msub L k (sbst A (N.of_nat (List.length L) + k) T) = sbst A k (msub L k T).
Proof.
  induction L; intros A k T C HA; [reflexivity |]. inversion C; subst.
  change (msub (a :: L) k ?x) with (msub L k (sbst a k x)).
  cbn [List.length].
  replace (N.of_nat (S (List.length L)) + k)%N with (1 + (N.of_nat (List.length L) + k))%N by lia.
  rewrite <- (proj1 (sbst_comm a A (wf0_closed _ H1) HA)) by lia.
  apply IHL; auto.
Qed.

Lemma close_instl : forall ts t k, crcts p 0 ts -> crct p (tlength ts + k) t ->
  close g (instantiatel ts k t) = msub (rev (tlist ts)) (N.of_nat k) (close g t).
Proof.
  induction ts as [|a ts IH]; intros t k H C; [reflexivity |].
  cbn [instantiatel tlist rev tlength] in *. destruct H as [A B].
  assert (CA : closed (close g a)) by (apply wf0_closed, (proj1 close_wf a 0); auto).
  rewrite IH; auto.
  - rewrite (proj1 (close_inst a CA) t _ (tlength ts + k) C).
    rewrite msub_app. change (msub [close g a] ?k ?x) with (sbst (close g a) k x).
    rewrite <- msub_sbst_last; auto; [| apply cl_rev, tlist_cl; auto].
    rewrite rev_length, tlist_len. f_equal. f_equal. lia.
  - apply (inst_crct p a A); auto; lia.
Qed.

Lemma close_case : forall n args brs cs i, crcts p 0 args -> crctBs p 0 brs ->
  whCaseStep n args brs = Some cs ->
  exists e', find_branch (i, N.of_nat n) (exps_length (close_args g args)) (close_brs g i 0%N brs) = Some e'
    /\ close g cs = sbst_list e' (close_args g args).
Proof.
  intros n args brs cs i HA HB E. unfold whCaseStep in E.
  destruct (bnth n brs) as [[ns t]|] eqn:N; [| discriminate].
  destruct (Nat.eqb_spec (List.length ns) (tlength args)) as [L|]; [| discriminate].
  injection E; intros; subst cs. exists (close g t). split.
  - rewrite len_close_args, <- L. clear - N.
    assert (A : forall brs n m, bnth n brs = Some (ns, t) ->
      find_branch (i, (m + N.of_nat n)%N) (N.of_nat (List.length ns)) (close_brs g i m brs) = Some (close g t)).
    { induction brs0; intros q m Q; cbn [bnth] in Q; [discriminate |].
      cbn [close_brs find_branch]. destruct q.
      - injection Q; intros; subst. rewrite N.add_0_r, dcon_eqb_refl. cbn [nargs fst].
        rewrite N.eqb_refl. reflexivity.
      - assert (D : dcon_eqb (i, (m + N.of_nat (S q))%N) (i, m) = false).
        { destruct (dcon_eqb (i, (m + N.of_nat (S q))%N) (i, m)) eqn:D; auto.
          apply dcon_eqb_eq in D. injection D; intros; lia. }
        rewrite D. replace (m + N.of_nat (S q))%N with ((m + 1) + N.of_nat q)%N by lia. auto. }
    apply (A brs n 0%N N).
  - rewrite close_instl; auto.
    + rewrite <- exps_tlist, sbst_list_msub. reflexivity.
    + rewrite <- L. eapply bnth_crct; eauto.
Qed.

Lemma close_case_inv : forall n args brs i j e', crcts p 0 args -> crctBs p 0 brs ->
  find_branch (i, N.of_nat n) (exps_length (close_args g args)) (close_brs g j 0%N brs) = Some e' ->
  i = j /\ exists cs, whCaseStep n args brs = Some cs /\ close g cs = sbst_list e' (close_args g args).
Proof.
  intros n args brs i j e' HA HB E.
  assert (A : forall brs n m, 
    find_branch (i, n) (exps_length (close_args g args)) (close_brs g j m brs) = Some e' ->
    i = j /\ exists k ns t, n = (m + N.of_nat k)%N /\ bnth k brs = Some (ns, t) /\
      List.length ns = tlength args /\ e' = close g t).
  { rewrite len_close_args. induction brs0; intros q m Q; cbn [close_brs find_branch] in Q; [discriminate |].
    destruct (dcon_eqb (i, q) (j, m)) eqn:D.
    - apply dcon_eqb_eq in D. injection D; intros; subst. cbn [nargs fst] in Q.
      destruct (N.eqb_spec (N.of_nat (List.length l)) (N.of_nat (tlength args))); [| discriminate].
      injection Q; intros; subst. split; auto. exists 0, l, t. repeat split; auto; lia.
    - apply IHbrs0 in Q; auto. destruct Q as [-> [k [ns [u [K1 [K2 K3]]]]]]. split; auto.
      exists (S k), ns, u. cbn [bnth]. split; [lia | auto]. }
  apply A in E; auto. destruct E as [-> [k [ns [t [K1 [K2 [K3 K4]]]]]]]. split; auto.
  assert (k = n) by lia. subst k.
  assert (W : whCaseStep n args brs = Some (instantiatel args 0 t)).
  { unfold whCaseStep. rewrite K2, K3, Nat.eqb_refl. reflexivity. }
  exists (instantiatel args 0 t). split; auto.
  destruct (close_case n args brs _ j HA HB W) as [e'' [F1 F2]].
  rewrite F2. subst e'. rewrite close_instl in F2; auto.
  - rewrite <- F2, <- exps_tlist, sbst_list_msub. reflexivity.
  - rewrite <- K3. eapply bnth_crct; eauto.
Qed.

Lemma close_unfold : forall dts b, crct p (dlength dts) b ->
  crctDs p (dlength dts) dts ->
  close g (fix_unfold b dts) = sbst_fix (close_fixes g dts) (close g b).
Proof.
  intros dts b C D. unfold fix_unfold, sbst_fix. rewrite efn_close_fixes.
  assert (A : forall m t, m <= dlength dts -> crct p m t ->
    close g (fold_left (fun bod ndx => instantiate (TFix dts ndx) 0 bod) (list_to_zero m) t)
    = fold_left (fun e ndx => sbst (Fix_e (close_fixes g dts) (N.of_nat ndx)) 0 e) (list_to_zero m) (close g t)).
  { induction m; intros t L CT; [reflexivity |]. cbn [list_to_zero fold_left].
    assert (CF : crct p 0 (TFix dts m)) by (cbn [crct]; split; [lia | exact D]).
    rewrite IHm; [| lia | apply (inst_crct p _ CF); auto; lia].
    f_equal. apply (proj1 (close_inst (TFix dts m)
      (wf0_closed _ (proj1 close_wf (TFix dts m) 0 CF))) t (S m) 0 CT). }
  apply A; auto.
Qed.

Lemma close_enthopt : forall ds m, enthopt m (close_fixes g ds) = option_map (close g) (dnthBody m ds).
Proof. induction ds; intros m; destruct m; cbn [close_fixes enthopt dnthBody option_map]; auto. Qed.

Lemma close_fixstep : forall dts m x, crct p 0 (TFix dts m) -> whFixStep dts m = Some x ->
  exists b, enthopt m (close_fixes g dts) = Some (close g b) /\
    close g x = sbst_fix (close_fixes g dts) (close g b).
Proof.
  intros dts m x [L D] E. unfold whFixStep in E. destruct (dnthBody m dts) as [b|] eqn:B; [| discriminate].
  injection E; intros; subst. exists b. rewrite close_enthopt, B. split; auto.
  cbn in D. apply close_unfold; auto. eapply dnth_crct; eauto.
Qed.

Lemma close_answer :
  (forall t, answer t -> is_value (close g t)) /\ (forall ts, answers ts -> are_values (close_args g ts)).
Proof. apply my_answer_ind; intros; cbn [close close_args]; constructor; auto. Qed.

(* ---- forward simulation ---- *)

Hypothesis PE : crctEnv p.

Lemma sim_forward :
  (forall c d, lookupDfn c p = Some d -> eval (close g d) (g c)) ->
  (forall t s, WcbvEval p t s -> crct p 0 t -> eval (close g t) (close g s)) /\
  (forall t s, WcbvEvals p t s -> crcts p 0 t -> evals (close_args g t) (close_args g s)).
Proof.
  intros GE. pose proof (proj1 (weval_crct p PE)) as WC.
  apply WcbvEvalEvals_ind; intros; cbn [crct crcts] in *;
    repeat match goal with H : _ /\ _ |- _ => destruct H end; cbn [close close_args] in *;
    try (constructor; auto; fail).
  - eapply eval_ProofApp_e; [apply H0; auto | apply H2; auto].
  - assert (C : crct p 0 t) by (eapply lookup_crct; eauto).
    assert (E : g nm = close g s).
    { apply (proj1 eval_det) with (close g t); [apply GE; auto | apply H1; auto]. }
    rewrite <- E. apply value_eval.
    + eapply (proj1 eval_value). apply GE; eauto.
    + apply G; auto.
  - assert (C1 := WC _ _ H H5). assert (C2 := WC _ _ H1 H6). cbn [crct] in C1.
    eapply eval_App_e; [apply H0; auto | apply H2; auto |].
    change 0%N with (N.of_nat 0).
    rewrite <- (proj1 (close_inst a1' (wf0_closed _ (proj1 close_wf a1' 0 C2))) bod 1 0 C1).
    apply H4. unfold whBetaStep. apply (inst_crct p a1' C2); auto.
  - assert (C1 := WC _ _ H H3).
    eapply eval_Let_e; [apply H0; auto |].
    change 0%N with (N.of_nat 0).
    rewrite <- (proj1 (close_inst dfn' (wf0_closed _ (proj1 close_wf dfn' 0 C1))) bod 1 0 H4).
    apply H2. apply (inst_crct p dfn' C1); auto.
  - assert (C1 := WC _ _ H H6). assert (C2 := WC _ _ H2 H7).
    assert (CX : crct p 0 x) by (eapply fixstep_crct; eauto).
    destruct (close_fixstep dts m x C1 H1) as [b [B1 B2]].
    eapply eval_FixApp_e; [apply H0; auto | apply H3; auto | |].
    + rewrite Nat2N.id. exact B1.
    + rewrite <- B2. apply H5. auto.
  - exfalso. apply (proj1 (eval_answer p)) in H. inversion H; subst; contradiction.
  - assert (C1 := WC _ _ H H4). cbn [crct] in C1.
    destruct (close_case n args brs cs i C1 H5 H1) as [e' [E1 E2]].
    eapply eval_Match_e; [apply H0; auto | exact E1 |].
    rewrite <- E2. apply H3. eapply casestep_crct; eauto.
Qed.

(* ---- backward simulation ---- *)

Lemma sim_backward :
  (forall c d, lookupDfn c p = Some d ->
     eval (g c) (g c) /\ exists s, WcbvEval p d s /\ g c = close g s) ->
  forall n,
  (forall t v, crct p 0 t -> eval_n n (close g t) = Some v ->
     exists s, WcbvEval p t s /\ v = close g s) /\
  (forall t v, crcts p 0 t -> evals_n n (close_args g t) = Some v ->
     exists s, WcbvEvals p t s /\ v = close_args g s).
Proof.
  intros GB. pose proof (proj1 (weval_crct p PE)) as WC.
  induction n as [|n [IH1 IH2]]; split; intros t v C E; try discriminate E.
  - assert (CST : forall c, t = TConst c -> exists s, WcbvEval p t s /\ v = close g s).
    { intros c ->. cbn [close crct] in *.
      destruct (lookupDfn c p) as [d|] eqn:L; [| congruence].
      destruct (GB c d L) as [V [s [S1 S2]]]. exists s. split; [econstructor; eauto |].
      rewrite <- S2. apply (proj1 eval_det) with (g c); auto.
      eapply (proj1 (eval_n_sound (S n))); eauto. }
    destruct t; try (eapply CST; reflexivity); clear CST; cbn [close crct] in *; try contradiction;
      cbn [eval_n] in E; try discriminate E;
      try (injection E; intros; subst; eexists; split; [constructor | reflexivity]).
    + (* let *)
      destruct C as [C1 C2]. destruct (eval_n n (close g t1)) eqn:E1; [| discriminate].
      destruct (IH1 _ _ C1 E1) as [s1 [S1 ->]]. assert (D1 := WC _ _ S1 C1).
      change 0%N with (N.of_nat 0) in E.
      rewrite <- (proj1 (close_inst s1 (wf0_closed _ (proj1 close_wf s1 0 D1))) t2 1 0 C2) in E.
      apply IH1 in E; [| apply (inst_crct p s1 D1); auto].
      destruct E as [s [S2 ->]]. exists s. split; auto. econstructor; eauto.
    + (* application *)
      destruct C as [C1 C2]. destruct (eval_n n (close g t1)) eqn:E1; [| discriminate].
      destruct (IH1 _ _ C1 E1) as [s1 [S1 ->]]. assert (D1 := WC _ _ S1 C1).
      pose proof (proj1 (eval_answer p) _ _ S1) as AN.
      destruct (eval_n n (close g t2)) eqn:E2.
      2: { inversion AN; subst; cbn [close] in E; discriminate. }
      destruct (IH1 _ _ C2 E2) as [s2 [S2 ->]]. assert (D2 := WC _ _ S2 C2).
      inversion AN; subst; cbn [close] in E; try discriminate.
      * change 0%N with (N.of_nat 0) in E.
        rewrite <- (proj1 (close_inst s2 (wf0_closed _ (proj1 close_wf s2 0 D2))) b 1 0 D1) in E.
        apply IH1 in E; [| apply (inst_crct p s2 D2); auto].
        destruct E as [s [S3 ->]]. exists s. split; auto. eapply wAppLam; eauto.
      * rewrite Nat2N.id in E. rewrite close_enthopt in E.
        destruct (dnthBody m d) as [b|] eqn:B; [| discriminate]. cbn [option_map] in E.
        assert (X : whFixStep d m = Some (fix_unfold b d)) by (unfold whFixStep; rewrite B; reflexivity).
        assert (DX : crct p 0 (fix_unfold b d)) by (eapply fixstep_crct; eauto).
        rewrite <- close_unfold in E.
        -- change (App_e (close g (fix_unfold b d)) (close g s2)) with (close g (TApp (fix_unfold b d) s2)) in E.
           apply IH1 in E; [| split; auto]. destruct E as [s [S3 ->]]. exists s. split; auto.
           eapply wAppFix; eauto.
        -- destruct D1. eapply dnth_crct; eauto.
        -- destruct D1; auto.
      * injection E; intros; subst. exists TProof. split; [eapply wAppProof; eauto | reflexivity].
    + destruct (evals_n n (close_args g t)) eqn:E1; [| discriminate].
      destruct (IH2 _ _ C E1) as [s [S1 ->]]. injection E; intros; subst.
      exists (TConstruct i n0 s). split; [constructor; auto | reflexivity].
    + destruct C as [C1 C2]. destruct (eval_n n (close g t)) eqn:E1; [| discriminate].
      destruct (IH1 _ _ C1 E1) as [s1 [S1 ->]]. assert (D1 := WC _ _ S1 C1).
      pose proof (proj1 (eval_answer p) _ _ S1) as AN.
      inversion AN; subst; cbn [close] in E; try discriminate. cbn [crct] in D1.
      destruct (find_branch _ _ _) as [e'|] eqn:F; [| discriminate].
      apply close_case_inv in F; auto. destruct F as [-> [cs [F1 F2]]].
      rewrite <- F2 in E. apply IH1 in E; [| eapply casestep_crct; eauto].
      destruct E as [s [S3 ->]]. exists s. split; auto. eapply wCase; eauto.
  - destruct t; cbn [close_args evals_n] in E.
    + injection E; intros; subst. exists tnil. split; [constructor | reflexivity].
    + destruct C as [C1 C2]. destruct (eval_n n (close g t)) eqn:E1; [| discriminate].
      destruct (evals_n n (close_args g t0)) eqn:E2; [| discriminate].
      destruct (IH1 _ _ C1 E1) as [s1 [S1 ->]]. destruct (IH2 _ _ C2 E2) as [s2 [S2 ->]].
      injection E; intros; subst. exists (tcons s1 s2). split; [constructor; auto | reflexivity].
Qed.

End Close.

(* ================= globals ================= *)

(* The values of the globals, in the order of the translated environment. *)
Inductive gvals : environ -> list lexp -> Prop :=
| gv_nil : gvals [] []
| gv_trm : forall p vs s t v, gvals p vs ->
    eval (msub vs 0 (translate (translate_env [] p) [] t)) v ->
    gvals ((s, ecTrm t) :: p) (v :: vs)
| gv_typ : forall p vs s n, gvals p vs -> gvals ((s, ecTyp n) :: p) vs.

Lemma close_ext : forall p g h, (forall c, lookupDfn c p <> None -> g c = h c) ->
  (forall t n, crct p n t -> close g t = close h t) /\
  (forall t n, crcts p n t -> close_args g t = close_args h t) /\
  (forall t n i j, crctBs p n t -> close_brs g i j t = close_brs h i j t) /\
  (forall t n, crctDs p n t -> close_fixes g t = close_fixes h t).
Proof.
  intros p g h X. apply TrmTrmsBrsDefs_ind; intros;
    cbn [crct crcts crctBs crctDs close close_args close_brs close_fixes] in *; try contradiction;
    repeat match goal with H : _ /\ _ |- _ => destruct H end; try reflexivity; auto;
    try (f_equal; eauto; fail).
  f_equal; eauto. destruct t; try contradiction. eapply H; eauto.
Qed.

Definition good_globals (p : environ) (g : kername -> lexp) (vs : list lexp) : Prop :=
  forall c d, lookupDfn c p = Some d ->
    nth_error vs (N.to_nat (cst_offset (translate_env [] p) c)) = Some (g c) /\
    exp_wf 0 (g c) /\ eval (close g d) (g c) /\
    exists s, WcbvEval p d s /\ g c = close g s.

Lemma good_closed : forall p g vs, good_globals p g vs ->
  forall c, lookupDfn c p <> None -> exp_wf 0 (g c).
Proof. intros p g vs H c N. destruct (lookupDfn c p) eqn:E; [| congruence]. apply (H c t E). Qed.

Lemma good_close : forall p g vs t, good_globals p g vs -> cl vs -> crct p 0 t ->
  msub vs 0 (translate (translate_env [] p) [] t) = close g t.
Proof.
  intros p g vs t H C W. unfold translate. change 0%N with (N.of_nat 0).
  apply (proj1 (msub_trans p g (translate_env [] p) vs C
    ltac:(intros c N; destruct (lookupDfn c p) eqn:E; [apply (H c t0 E) | congruence])) t 0 0 W (le_n 0)).
Qed.

Lemma good_back : forall p g vs t v, crctEnv p -> good_globals p g vs -> crct p 0 t ->
  eval (close g t) v -> exists s, WcbvEval p t s /\ v = close g s.
Proof.
  intros p g vs t v HE H C E. apply (proj1 eval_n_complete) in E as [n E].
  apply (proj1 (sim_backward p g (good_closed p g vs H) HE
    ltac:(intros c d L; destruct (H c d L) as [_ [W [V X]]];
          split; [apply value_eval; [eapply (proj1 eval_value); eauto | auto] | exact X]) n)) in E; auto.
Qed.

Lemma good_forward : forall p g vs t s, crctEnv p -> good_globals p g vs -> crct p 0 t ->
  WcbvEval p t s -> eval (close g t) (close g s).
Proof.
  intros p g vs t s HE H C W.
  apply (proj1 (sim_forward p g (good_closed p g vs H) HE
    ltac:(intros c d L; apply (H c d L))) t s W C).
Qed.

Lemma lookup_cons : forall nm ec p c, c <> nm -> lookupDfn c ((nm, ec) :: p) = lookupDfn c p.
Proof.
  intros nm ec p c N. unfold lookupDfn. cbn [lookup].
  destruct (String.eqb_spec c nm); [contradiction | reflexivity].
Qed.

Lemma lookup_fresh : forall nm p c, lookup nm p = None -> lookupDfn c p <> None -> c <> nm.
Proof. intros nm p c H N ->. apply N. unfold lookupDfn. rewrite H. reflexivity. Qed.

Lemma good_typ : forall p g vs nm n, lookup nm p = None -> good_globals p g vs ->
  good_globals ((nm, ecTyp n) :: p) g vs.
Proof.
  intros p g vs nm n F H c d L.
  assert (c <> nm). { intros ->. unfold lookupDfn in L. cbn [lookup] in L. rewrite String.eqb_refl in L. discriminate. }
  rewrite lookup_cons in L by auto. destruct (H c d L) as [A [B [C [s [S1 S2]]]]].
  split; [exact A |]. split; auto. split; auto. exists s. split; auto.
  apply (proj1 (weval_ext p _ (ext_cons nm (ecTyp n) p F))). auto.
Qed.

Lemma good_trm : forall p g vs nm t s, crctEnv ((nm, ecTrm t) :: p) -> good_globals p g vs ->
  WcbvEval p t s ->
  good_globals ((nm, ecTrm t) :: p) (fun c => if String.eqb c nm then close g s else g c)
    (close g s :: vs).
Proof.
  intros p g vs nm t s HE H W. pose proof HE as [HE1 [F C0]].
  set (h := fun c : kername => if String.eqb c nm then close g s else g c).
  assert (X : forall c, lookupDfn c p <> None -> g c = h c).
  { intros c N. unfold h. destruct (String.eqb_spec c nm); auto. subst.
    exfalso. eapply lookup_fresh; eauto. }
  assert (EXT := ext_cons nm (ecTrm t) p F).
  assert (CS : crct p 0 s) by (eapply (proj1 (weval_crct p HE1)); eauto).
  intros c d L. destruct (String.eqb_spec c nm).
  - subst c.
    assert (d = t). { unfold lookupDfn in L. cbn [lookup] in L. rewrite String.eqb_refl in L. congruence. }
    subst d. assert (HN : h nm = close g s) by (unfold h; rewrite String.eqb_refl; reflexivity).
    rewrite HN. split; [| split; [| split]].
    + change (translate_env [] ((nm, ecTrm t) :: p))
        with ((nm, translate (translate_env [] p) [] t) :: translate_env [] p).
      cbn [cst_offset]. rewrite String.eqb_refl. reflexivity.
    + apply (proj1 (close_wf p g (good_closed p g vs H)) s 0 CS).
    + rewrite <- (proj1 (close_ext p g h X) t 0 C0). eapply good_forward; eauto.
    + exists s. split; [apply (proj1 (weval_ext p _ EXT)); auto |].
      apply (proj1 (close_ext p g h X) s 0 CS).
  - rewrite lookup_cons in L by auto. assert (LN : lookupDfn c p <> None) by congruence.
    destruct (H c d L) as [A [B [C [s' [S1 S2]]]]]. rewrite <- (X c LN).
    assert (CD : crct p 0 d) by (eapply lookup_crct; eauto).
    split; [| split; [| split]]; auto.
    + change (translate_env [] ((nm, ecTrm t) :: p))
        with ((nm, translate (translate_env [] p) [] t) :: translate_env [] p).
      cbn [cst_offset]. destruct (String.eqb_spec c nm); [contradiction |].
      replace (N.to_nat (1 + cst_offset (translate_env [] p) c))
        with (S (N.to_nat (cst_offset (translate_env [] p) c))) by lia.
      exact A.
    + rewrite <- (proj1 (close_ext p g h X) d 0 CD). auto.
    + exists s'. split; [apply (proj1 (weval_ext p _ EXT)); auto |].
      rewrite <- (proj1 (close_ext p g h X) s' 0); auto.
      eapply (proj1 (weval_crct p HE1)); eauto.
Qed.

Lemma gvals_good : forall p vs, gvals p vs -> crctEnv p -> cl vs /\ exists g, good_globals p g vs.
Proof.
  induction 1; intros HE.
  - split; [constructor |]. exists (fun _ => Prf_e). intros c d L. discriminate.
  - pose proof HE as [HE1 [F C0]]. destruct (IHgvals HE1) as [CV [g GG]].
    rewrite (good_close p g vs t GG CV C0) in H0.
    destruct (good_back p g vs t v HE1 GG C0 H0) as [s' [S1 ->]].
    split.
    + constructor; auto.
      apply (proj1 (close_wf p g (good_closed p g vs GG)) s' 0).
      eapply (proj1 (weval_crct p HE1)); eauto.
    + eexists. eapply good_trm; eauto.
  - pose proof HE as [HE1 [F C0]]. destruct (IHgvals HE1) as [CV [g GG]].
    split; auto. exists g. apply good_typ; auto.
Qed.

Lemma globals_ok_tail : forall nm ec p, crctEnv ((nm, ec) :: p) -> globals_ok ((nm, ec) :: p) -> globals_ok p.
Proof.
  intros nm ec p HE H c d L. pose proof HE as [HE1 [F C0]].
  assert (EXT := ext_cons nm ec p F).
  destruct (H c d (EXT c d L)) as [s S1]. exists s.
  apply (proj1 (weval_strengthen p _ EXT HE1)); auto. eapply lookup_crct; eauto.
Qed.

Lemma globals_gvals : forall p, crctEnv p -> globals_ok p -> exists vs, gvals p vs.
Proof.
  induction p as [|[nm [t|n]] p IH]; intros HE H.
  - exists []. constructor.
  - pose proof HE as [HE1 [F C0]]. destruct (IH HE1 (globals_ok_tail _ _ _ HE H)) as [vs GV].
    destruct (gvals_good p vs GV HE1) as [CV [g GG]].
    destruct (H nm t) as [s S1].
    { unfold lookupDfn; cbn [lookup]; rewrite String.eqb_refl; reflexivity. }
    apply (proj1 (weval_strengthen p _ (ext_cons nm (ecTrm t) p F) HE1)) in S1; auto.
    exists (close g s :: vs). constructor; auto.
    rewrite (good_close p g vs t GG CV C0). eapply good_forward; eauto.
  - pose proof HE as [HE1 [F C0]]. destruct (IH HE1 (globals_ok_tail _ _ _ HE H)) as [vs GV].
    exists vs. constructor; auto.
Qed.

Lemma mkLets_eval : forall p b r, crctEnv p ->
  (eval (mkLets (translate_env [] p) b) r <->
   exists vs, gvals p vs /\ eval (msub vs 0 b) r).
Proof.
  induction p as [|[nm [t|n]] p IH]; intros b r HE.
  - split.
    + intros H. exists []. split; [constructor | exact H].
    + intros [vs [H1 H2]]. inversion H1; subst. exact H2.
  - pose proof HE as [HE1 [F C0]].
    change (mkLets (translate_env [] ((nm, ecTrm t) :: p)) b)
      with (mkLets (translate_env [] p) (Let_e (nNamed nm) (translate (translate_env [] p) [] t) b)).
    rewrite IH by auto. split.
    + intros [vs [GV E]]. rewrite msub_Let in E. inversion E; subst.
      destruct (gvals_good p vs GV HE1) as [CV [g GG]].
      exists (v1 :: vs). split; [constructor; auto |].
      change (msub (v1 :: vs) 0 b) with (msub vs 0 (sbst v1 0 b)).
      change (1 + 0)%N with 1%N in H4. rewrite sbst_msub0 in H4; auto.
      apply wf0_closed. rewrite (good_close p g vs t GG CV C0) in H3.
      eapply (proj1 eval_wf); eauto. apply (proj1 (close_wf p g (good_closed p g vs GG)) t 0 C0).
    + intros [vs [GV E]]. inversion GV; subst.
      match goal with A : gvals p ?x |- _ => rename x into vs0; rename A into GV0 end.
      destruct (gvals_good p vs0 GV0 HE1) as [CV [g GG]].
      exists vs0. split; auto. rewrite msub_Let. eapply eval_Let_e; eauto.
      change (1 + 0)%N with 1%N. rewrite sbst_msub0; auto.
      apply wf0_closed. rewrite (good_close p g vs0 t GG CV C0) in *.
      eapply (proj1 eval_wf); eauto. apply (proj1 (close_wf p g (good_closed p g vs0 GG)) t 0 C0).
  - pose proof HE as [HE1 [F C0]].
    change (mkLets (translate_env [] ((nm, ecTyp n) :: p)) b) with (mkLets (translate_env [] p) b).
    rewrite IH by auto. split; intros [vs [GV E]].
    + exists vs. split; [constructor; auto | auto].
    + inversion GV; subst. exists vs. split; auto.
Qed.

Lemma globals_unique : forall p g h, crctEnv p -> globals_are p g -> globals_are p h ->
  forall c, lookupDfn c p <> None -> g c = h c.
Proof.
  induction p as [|[nm ec] p IH]; intros g h HE Hg Hh c N.
  - exfalso. apply N. reflexivity.
  - pose proof HE as [HE1 [F C0]]. assert (EXT := ext_cons nm ec p F).
    assert (TL : forall f, globals_are ((nm, ec) :: p) f -> globals_are p f).
    { intros f Hf c0 d0 L0. destruct (Hf c0 d0 (EXT c0 d0 L0)) as [s [S1 S2]].
      exists s. split; auto. apply (proj1 (weval_strengthen p _ EXT HE1)); auto.
      eapply lookup_crct; eauto. }
    pose proof (IH g h HE1 (TL g Hg) (TL h Hh)) as X.
    destruct (String.eqb_spec c nm) as [->|D].
    + destruct (lookupDfn nm ((nm, ec) :: p)) as [d|] eqn:L; [| congruence].
      destruct (Hg nm d L) as [s1 [A1 B1]]. destruct (Hh nm d L) as [s2 [A2 B2]].
      assert (s1 = s2) by (eapply (proj1 (weval_det _)); eauto). subst s2.
      rewrite B1, B2. unfold lookupDfn in L. cbn [lookup] in L. rewrite String.eqb_refl in L.
      destruct ec; [| discriminate]. injection L; intros; subst.
      apply (proj1 (weval_strengthen p _ EXT HE1)) in A1; auto.
      apply (proj1 (close_ext p g h X) s1 0). eapply (proj1 (weval_crct p HE1)); eauto.
    + apply X. rewrite lookup_cons in N; auto.
Qed.

Lemma good_are : forall p g vs, good_globals p g vs -> globals_are p g.
Proof. intros p g vs H c d L. apply (H c d L). Qed.

Lemma program_exact : forall p t, crctEnv p -> crct p 0 t -> forall v,
  eval (translate_program [] p t) v <->
  globals_ok p /\ exists g s, globals_are p g /\ WcbvEval p t s /\ v = close g s.
Proof.
  intros p t HE C v. unfold translate_program. rewrite mkLets_eval by auto. split.
  - intros [vs [GV E]]. destruct (gvals_good p vs GV HE) as [CV [g GG]].
    rewrite (good_close p g vs t GG CV C) in E.
    destruct (good_back p g vs t v HE GG C E) as [s [S1 ->]].
    split; [intros c d L; destruct (GG c d L) as [_ [_ [_ [s' [X _]]]]]; eauto |].
    exists g, s. split; [eapply good_are; eauto | auto].
  - intros [OK [g [s [GA [S1 ->]]]]].
    destruct (globals_gvals p HE OK) as [vs GV].
    destruct (gvals_good p vs GV HE) as [CV [h GG]].
    exists vs. split; auto. rewrite (good_close p h vs t GG CV C).
    rewrite (proj1 (close_ext p g h (globals_unique p g h HE GA (good_are _ _ _ GG))) s 0).
    + eapply good_forward; eauto.
    + eapply (proj1 (weval_crct p HE)); eauto.
Qed.

Lemma globals_are_exists : forall p, crctEnv p -> globals_ok p -> exists g, globals_are p g.
Proof.
  intros p HE OK. destruct (globals_gvals p HE OK) as [vs GV].
  destruct (gvals_good p vs GV HE) as [CV [g GG]]. exists g. eapply good_are; eauto.
Qed.

Lemma same_data_close : forall g,
  (forall s v, same_data s v -> v = close g s) /\ (forall s v, same_datas s v -> v = close_args g s).
Proof.
  intros g. apply my_same_data_ind; intros; cbn [close close_args]; subst; auto.
Qed.

Lemma close_same_data : forall g,
  (forall s, answer s -> forall s' v, same_data s' v -> v = close g s -> same_data s v) /\
  (forall s, answers s -> forall s' v, same_datas s' v -> v = close_args g s -> same_datas s v).
Proof.
  intros g. apply my_answer_ind; intros; cbn [close close_args] in *; subst;
    match goal with H : same_data _ _ |- _ => inversion H; subst | H : same_datas _ _ |- _ => inversion H; subst end;
    try (constructor; eauto; fail).
  match goal with A : N.of_nat _ = N.of_nat _ |- _ => rewrite A end. constructor; eauto.
Qed.

Lemma program_data : forall p t, crctEnv p -> crct p 0 t -> forall s v, same_data s v ->
  (eval (translate_program [] p t) v <-> globals_ok p /\ exists s', same_data s' v /\ WcbvEval p t s').
Proof.
  intros p t HE C s v SD. rewrite program_exact by auto. split.
  - intros [OK [g [s' [GA [S1 E]]]]]. split; auto. exists s'. split; auto.
    eapply (proj1 (close_same_data g)); eauto. eapply (proj1 (eval_answer p)); eauto.
  - intros [OK [s' [SD' S1]]]. split; auto. destruct (globals_are_exists p HE OK) as [g GA].
    exists g, s'. split; auto. split; auto. apply (proj1 (same_data_close g)); auto.
Qed.
