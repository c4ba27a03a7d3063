(* The substitution semantics and the environment semantics agree. *)
From Coq Require Import List NArith ZArith String Bool Lia.
From Verif Require Import LB_Model LB_Spec LB_Proofs LB_EvalProofs LB_Env.
Import ListNotations.
Local Open Scope N_scope.

Lemma value_ind' : forall P : value -> Prop,
  (forall d vs, Forall P vs -> P (Con_v d vs)) ->
  (forall rho na e, Forall P rho -> P (Clos_v rho na e)) ->
  (forall rho fnl n, Forall P rho -> P (ClosFix_v rho fnl n)) ->
  P Prf_v -> (forall p, P (Prim_v p)) -> forall v, P v.
Proof.
  intros P H1 H2 H3 H4 H5. fix IH 1. intros [d l | l na e | l fnl n | | p].
  - apply H1. induction l; constructor; [apply IH | exact IHl].
  - apply H2. induction l; constructor; [apply IH | exact IHl].
  - apply H3. induction l; constructor; [apply IH | exact IHl].
  - exact H4.
  - apply H5.
Qed.

Definition wf_env (rho : venv) : Prop := Forall wf_val rho.

Lemma wf_go : forall l,
  (fix go (l : list value) : Prop :=
     match l with [] => True | v :: l => wf_val v /\ go l end) l <-> wf_env l.
Proof.
  unfold wf_env. induction l; split; intros H; auto.
  - destruct H as [A B]; constructor; auto. apply IHl; auto.
  - inversion H; subst; split; auto. apply IHl; auto.
Qed.

Definition cl (vs : list lexp) : Prop := Forall (fun v => exp_wf 0 v) vs.

(* ---- multi-substitution ---- *)

Lemma sbst_comm : forall u v, closed u -> closed v ->
  (forall e i j, i <= j -> sbst v j (sbst u i e) = sbst u i (sbst v (1 + j) e)) /\
  (forall e i j, i <= j -> sbst_efnlst v j (sbst_efnlst u i e) = sbst_efnlst u i (sbst_efnlst v (1 + j) e)).
Proof.
  intros u v Hu Hv.
  assert (E : forall j, subst v j u = u).
  { intros; apply (proj1 (subst_id v)). intros x Hx. destruct (Hu x Hx). }
  split; intros e i j L.
  - rewrite !(proj1 (sbst_subst v Hv)), !(proj1 (sbst_subst u Hu)).
    rewrite (proj1 substitution) by auto. rewrite E. reflexivity.
  - rewrite !(proj1 (proj2 (proj2 (sbst_subst v Hv)))), !(proj1 (proj2 (proj2 (sbst_subst u Hu)))).
    rewrite (proj1 (proj2 (proj2 substitution))) by auto. rewrite E. reflexivity.
Qed.

Lemma cl_closed : forall vs v, cl vs -> In v vs -> closed v.
Proof.
  intros vs v H I. apply wf0_closed. unfold cl in H. rewrite Forall_forall in H. auto.
Qed.

Lemma msub_app : forall a b k e, msub (a ++ b) k e = msub b k (msub a k e).
Proof. intros; unfold msub; apply fold_left_app. Qed.

Lemma sbst_msub : forall vs u k e, cl vs -> closed u -> 
  sbst u 0 (msub vs (1 + k) e) = msub vs k (sbst u 0 e).
Proof.
  induction vs; intros u k e H Hu; [reflexivity |].
  inversion H; subst. change (msub (a :: vs) (1 + k) e) with (msub vs (1 + k) (sbst a (1 + k) e)).
  change (msub (a :: vs) k (sbst u 0 e)) with (msub vs k (sbst a k (sbst u 0 e))).
  rewrite IHvs by auto. f_equal. symmetry.
  apply sbst_comm; auto; [apply wf0_closed; auto | lia].
Qed.

Lemma sbst_msub0 : forall vs u e, cl vs -> closed u ->
  sbst u 0 (msub vs 1 e) = msub vs 0 (sbst u 0 e).
Proof. intros; apply (sbst_msub vs u 0 e); auto. Qed.

Lemma msub_msub : forall a b e, cl a -> cl b ->
  msub a 0 (msub b (N.of_nat (List.length a)) e) = msub b 0 (msub a 0 e).
Proof.
  induction a; intros b e Ha Hb; [reflexivity |].
  inversion Ha; subst.
  change (msub (a :: a0) 0 ?x) with (msub a0 0 (sbst a 0 x)).
  cbn [List.length]. replace (N.of_nat (S (List.length a0))) with (1 + N.of_nat (List.length a0)) by lia.
  rewrite sbst_msub; auto. apply wf0_closed; auto.
Qed.

Lemma msub_Lam : forall vs k na e, msub vs k (Lam_e na e) = Lam_e na (msub vs (1 + k) e).
Proof. induction vs; intros; cbn [msub fold_left sbst]; auto. apply IHvs. Qed.
Lemma msub_App : forall vs k e1 e2, msub vs k (App_e e1 e2) = App_e (msub vs k e1) (msub vs k e2).
Proof. induction vs; intros; cbn [msub fold_left sbst]; auto. apply IHvs. Qed.
Lemma msub_Con : forall vs k d es, msub vs k (Con_e d es) = Con_e d (msubs vs k es).
Proof. induction vs; intros; cbn [msub msubs fold_left sbst]; auto. apply IHvs. Qed.
Lemma msub_Let : forall vs k na e1 e2,
  msub vs k (Let_e na e1 e2) = Let_e na (msub vs k e1) (msub vs (1 + k) e2).
Proof. induction vs; intros; cbn [msub fold_left sbst]; auto. apply IHvs. Qed.
Lemma msub_Match : forall vs k e p bs,
  msub vs k (Match_e e p bs) = Match_e (msub vs k e) p (msub_brs vs k bs).
Proof. induction vs; intros; cbn [msub msub_brs fold_left sbst]; auto. apply IHvs. Qed.
Lemma msub_Fix : forall vs k es n,
  msub vs k (Fix_e es n) = Fix_e (msub_fns vs (efnlst_length es + k) es) n.
Proof.
  induction vs; intros; cbn [msub msub_fns fold_left sbst]; auto.
  fold (msub vs k (Fix_e (sbst_efnlst a (efnlst_length es + k) es) n)).
  rewrite IHvs, len_sbst. reflexivity.
Qed.
Lemma msub_Prf : forall vs k, msub vs k Prf_e = Prf_e.
Proof. induction vs; intros; cbn [msub fold_left sbst]; auto. apply IHvs. Qed.
Lemma msub_Prim_val : forall vs k p, msub vs k (Prim_val_e p) = Prim_val_e p.
Proof. induction vs; intros; cbn [msub fold_left sbst]; auto. apply IHvs. Qed.
Lemma msub_Prim : forall vs k p, msub vs k (Prim_e p) = Prim_e p.
Proof. induction vs; intros; cbn [msub fold_left sbst]; auto. apply IHvs. Qed.
Lemma msubs_nil : forall vs k, msubs vs k enil = enil.
Proof. induction vs; intros; cbn [msubs fold_left sbsts]; auto. apply IHvs. Qed.
Lemma msubs_cons : forall vs k e es, msubs vs k (econs e es) = econs (msub vs k e) (msubs vs k es).
Proof. induction vs; intros; cbn [msubs msub fold_left sbsts]; auto. apply IHvs. Qed.
Lemma msub_fns_nil : forall vs k, msub_fns vs k eflnil = eflnil.
Proof. induction vs; intros; cbn [msub_fns fold_left sbst_efnlst]; auto. apply IHvs. Qed.
Lemma msub_fns_cons : forall vs k na e es,
  msub_fns vs k (eflcons na e es) = eflcons na (msub vs k e) (msub_fns vs k es).
Proof. induction vs; intros; cbn [msub_fns msub fold_left sbst_efnlst]; auto. apply IHvs. Qed.
Lemma msub_brs_nil : forall vs k, msub_brs vs k brnil_e = brnil_e.
Proof. induction vs; intros; cbn [msub_brs fold_left sbst_branches]; auto. apply IHvs. Qed.
Lemma msub_brs_cons : forall vs k d n e bs,
  msub_brs vs k (brcons_e d n e bs) = brcons_e d n (msub vs (nargs n + k) e) (msub_brs vs k bs).
Proof. induction vs; intros; cbn [msub_brs msub fold_left sbst_branches]; auto. apply IHvs. Qed.

Lemma msub_closed : forall vs k e, (forall x, occurs x e -> x < k) -> cl vs -> msub vs k e = e.
Proof.
  induction vs; intros k e H C; [reflexivity |]. inversion C; subst.
  cbn [msub fold_left]. rewrite (proj1 (sbst_subst a (wf0_closed _ H2))).
  rewrite (proj1 (subst_id a)) by auto. apply IHvs; auto.
Qed.

Lemma msub_Var_in : forall vs i v, cl vs -> nth_error vs (N.to_nat i) = Some v ->
  msub vs 0 (Var_e i) = v.
Proof.
  induction vs; intros i v C E; [destruct (N.to_nat i); discriminate |].
  inversion C; subst. cbn [msub fold_left sbst].
  destruct (N.ltb_spec i 0); [lia |]. destruct (N.eqb_spec i 0).
  - subst. cbn in E. injection E; intros; subst. apply msub_closed; auto.
    intros x Hx. destruct (wf0_closed _ H1 x Hx).
  - apply IHvs; auto. replace (N.to_nat i) with (S (N.to_nat (i - 1))) in E by lia. exact E.
Qed.

Lemma msub_fns_len : forall vs k es, efnlst_length (msub_fns vs k es) = efnlst_length es.
Proof. induction vs; intros; cbn [msub_fns fold_left]; auto. fold (msub_fns vs k (sbst_efnlst a k es)).
  rewrite IHvs. apply len_sbst. Qed.

Lemma msub_fns_efnlength : forall vs k es, efnlength (msub_fns vs k es) = efnlength es.
Proof. intros. apply Nat2N.inj. rewrite !len_nat. apply msub_fns_len. Qed.

Lemma enthopt_msub : forall es n vs k,
  enthopt n (msub_fns vs k es) = option_map (msub vs k) (enthopt n es).
Proof.
  induction es; intros m vs k.
  - rewrite msub_fns_nil. destruct m; reflexivity.
  - rewrite msub_fns_cons. destruct m; cbn [enthopt]; [reflexivity | apply IHes].
Qed.

Lemma find_branch_msub : forall bs d m vs k,
  find_branch d m (msub_brs vs k bs) = option_map (msub vs (m + k)) (find_branch d m bs).
Proof.
  induction bs; intros d' m vs k.
  - rewrite msub_brs_nil. reflexivity.
  - rewrite msub_brs_cons. cbn [find_branch].
    destruct (dcon_eqb d' d); [| apply IHbs].
    destruct (N.eqb_spec (nargs p) m); [subst; reflexivity | reflexivity].
Qed.

Lemma msub_wf : forall vs i k e, cl vs -> k <= i ->
  exp_wf (N.of_nat (List.length vs) + i) e -> exp_wf i (msub vs k e).
Proof.
  induction vs; intros i k e C L H; [exact H |].
  inversion C; subst. cbn [msub fold_left]. apply IHvs; auto.
  apply sbst_wf; auto; [lia |].
  cbn [List.length] in H.
  replace (1 + (N.of_nat (List.length vs) + i)) with (N.of_nat (S (List.length vs)) + i) by lia. auto.
Qed.

Lemma msub_fns_wf : forall es vs i k, cl vs -> k <= i ->
  efnlst_wf (N.of_nat (List.length vs) + i) es -> efnlst_wf i (msub_fns vs k es).
Proof.
  induction es; intros vs i k C L H.
  - rewrite msub_fns_nil. constructor.
  - rewrite msub_fns_cons. inversion H; subst. constructor; auto.
    + apply msub_wf; auto.
    + destruct l; try contradiction. rewrite msub_Lam. exact I.
Qed.

Lemma cl_app : forall a b, cl a -> cl b -> cl (a ++ b).
Proof. intros; unfold cl in *; apply Forall_app; auto. Qed.
Lemma cl_rev : forall a, cl a -> cl (rev a).
Proof. intros a H; unfold cl in *; apply Forall_rev; auto. Qed.

Lemma exps_of_wf : forall l, cl l -> exps_wf 0 (exps_of l).
Proof. induction l; intros H; cbn [exps_of]; [constructor |]. inversion H; subst; constructor; auto. Qed.

Lemma readback_wf : forall v, wf_val v -> exp_wf 0 (readback v).
Proof.
  assert (ALL : forall l, Forall (fun v => wf_val v -> exp_wf 0 (readback v)) l -> wf_env l ->
    cl (map readback l)).
  { unfold wf_env, cl. induction 1; intros W; inversion W; subst; constructor; auto. }
  induction v using value_ind'; intros W; cbn [wf_val] in W; cbn [readback]; try constructor.
  - apply wf_go in W. apply exps_of_wf. auto.
  - destruct W as [W1 W2]. apply wf_go in W1.
    apply msub_wf; auto; [lia |]. rewrite map_length.
    replace (N.of_nat (List.length rho) + (1 + 0)) with (1 + N.of_nat (List.length rho)) by lia. auto.
  - rewrite msub_fns_len. tauto.
  - rewrite msub_fns_len. destruct W as [W1 [W2 W3]]. apply wf_go in W1.
    apply msub_fns_wf; auto; [lia |]. rewrite map_length.
    replace (N.of_nat (List.length rho) + (efnlst_length fnl + 0))
      with (efnlst_length fnl + N.of_nat (List.length rho)) by lia. auto.
Qed.

Lemma readback_cl : forall rho, wf_env rho -> cl (map readback rho).
Proof.
  unfold wf_env, cl; induction 1; cbn [map]; constructor; auto. apply readback_wf; auto.
Qed.

Lemma readback_value : forall v, is_value (readback v).
Proof.
  induction v using value_ind'; cbn [readback]; constructor.
  induction H; cbn [map exps_of]; constructor; auto.
Qed.

Lemma readback_eval : forall v, wf_val v -> eval (readback v) (readback v).
Proof. intros; apply value_eval; [apply readback_value | apply readback_wf; auto]. Qed.

(* ---- environments of fixpoints ---- *)

Lemma list_to_zero_in : forall n x, In x (list_to_zero n) -> (x < n)%nat.
Proof. induction n; cbn [list_to_zero]; intros x [].
  - subst; lia.
  - apply IHn in H; lia.
Qed.
Lemma list_to_zero_len : forall n, List.length (list_to_zero n) = n.
Proof. induction n; cbn [list_to_zero List.length]; auto. Qed.

Lemma make_rec_env_wf : forall fnl rho, wf_env rho ->
  efnlst_wf (efnlst_length fnl + N.of_nat (List.length rho)) fnl ->
  wf_env (make_rec_env fnl rho).
Proof.
  intros fnl rho H W. unfold make_rec_env, wf_env. apply Forall_app; split; auto.
  apply Forall_forall. intros v Hv. apply in_map_iff in Hv as [n [<- Hn]].
  apply list_to_zero_in in Hn. cbn [wf_val]. rewrite wf_go.
  repeat split; auto. rewrite <- len_nat. lia.
Qed.

Lemma make_rec_env_len : forall fnl rho,
  List.length (make_rec_env fnl rho) = (efnlength fnl + List.length rho)%nat.
Proof. intros; unfold make_rec_env. rewrite app_length, map_length, list_to_zero_len. reflexivity. Qed.

Lemma fold_fix : forall es l e,
  fold_left (fun e ndx => sbst (Fix_e es (N.of_nat ndx)) 0 e) l e
  = msub (map (fun n => Fix_e es (N.of_nat n)) l) 0 e.
Proof. induction l; intros; cbn [fold_left map msub]; auto. rewrite IHl. reflexivity. Qed.

Lemma sbst_fix_msub : forall fnl rho b, wf_env rho ->
  efnlst_wf (efnlst_length fnl + N.of_nat (List.length rho)) fnl ->
  sbst_fix (msub_fns (map readback rho) (efnlst_length fnl) fnl)
           (msub (map readback rho) (efnlst_length fnl) b)
  = msub (map readback (make_rec_env fnl rho)) 0 b.
Proof.
  intros fnl rho b H W. unfold sbst_fix. rewrite fold_fix, msub_fns_efnlength.
  set (fs := map (fun n => Fix_e _ (N.of_nat n)) (list_to_zero (efnlength fnl))).
  assert (L : N.of_nat (List.length fs) = efnlst_length fnl).
  { unfold fs. rewrite map_length, list_to_zero_len. apply len_nat. }
  pose proof (readback_cl _ (make_rec_env_wf _ _ H W)) as C.
  unfold make_rec_env in C |- *. rewrite map_app in *. rewrite map_map in *.
  fold fs in C |- *.
  rewrite msub_app. rewrite <- L. apply msub_msub.
  - unfold cl in *. apply Forall_app in C. tauto.
  - apply readback_cl; auto.
Qed.

(* ---- match branches ---- *)

Lemma sbst_list_msub : forall l e, sbst_list e (exps_of l) = msub (rev l) 0 e.
Proof.
  induction l; intros e; cbn [exps_of sbst_list rev]; [reflexivity |].
  rewrite msub_app. rewrite IHl. reflexivity.
Qed.

Lemma exps_of_len : forall l, exps_length (exps_of l) = N.of_nat (List.length l).
Proof. induction l; cbn [exps_of exps_length List.length]; lia. Qed.

Lemma exps_of_inj : forall a b, exps_of a = exps_of b -> a = b.
Proof. induction a; destruct b; cbn [exps_of]; intros H; try discriminate; auto.
  injection H; intros E1 E2; subst; f_equal; auto. Qed.

(* ---- results are well-formed ---- *)

Lemma env_wf : forall full,
  (forall rho e v, eval_env full rho e v -> wf_env rho ->
     exp_wf (N.of_nat (List.length rho)) e -> wf_val v) /\
  (forall rho es vs, eval_many full rho es vs -> wf_env rho ->
     exps_wf (N.of_nat (List.length rho)) es -> wf_env vs).
Proof.
  intros full. apply my_eval_env_ind; intros; try exact I;
    try (match goal with
    | W : exp_wf _ (_ _) |- _ => inversion W; subst
    | W : exp_wf _ (_ _ _) |- _ => inversion W; subst
    | W : exp_wf _ (_ _ _ _) |- _ => inversion W; subst
    | W : exps_wf _ (_ _ _) |- _ => inversion W; subst
    end).
  - unfold wf_env in *. rewrite Forall_forall in *. apply nth_error_In in H. auto.
  - cbn [wf_val]. rewrite wf_go. auto.
  - cbn [wf_val]. rewrite wf_go. repeat split; auto.
  - cbn [wf_val]. rewrite wf_go. auto.
  - assert (A : wf_val (Clos_v rho' na e1')) by auto.
    cbn [wf_val] in A. rewrite wf_go in A. destruct A as [A B].
    apply H4.
    + constructor; auto.
    + cbn [List.length]. replace (N.of_nat (S (List.length rho'))) with (1 + N.of_nat (List.length rho')) by lia. auto.
  - apply H2.
    + constructor; auto.
    + cbn [List.length]. replace (N.of_nat (S (List.length rho))) with (1 + N.of_nat (List.length rho)) by lia. auto.
  - assert (A : wf_val (ClosFix_v rho' fnl n)) by auto.
    cbn [wf_val] in A. rewrite wf_go in A. destruct A as [A [B C]].
    apply H5.
    + constructor; auto. apply make_rec_env_wf; auto.
    + destruct (enthopt_wf _ _ _ _ C H1) as [D _]. inversion D; subst.
      cbn [List.length]. rewrite make_rec_env_len.
      replace (N.of_nat (S (efnlength fnl + List.length rho')))
        with (1 + (efnlst_length fnl + N.of_nat (List.length rho'))); auto.
      rewrite <- len_nat. lia.
  - assert (A : wf_val (Con_v dc vs)) by auto.
    cbn [wf_val] in A. rewrite wf_go in A.
    apply H3.
    + unfold wf_env. apply Forall_app; split; auto. apply Forall_rev; auto.
    + rewrite app_length, rev_length, Nat2N.inj_add.
      eapply find_branch_wf; eauto.
  - constructor.
  - constructor; auto. apply H2; auto.
Qed.

(* ---- environment semantics to substitution semantics ---- *)

Definition rb (rho : venv) : list lexp := map readback rho.

Lemma env_to_subst : forall full,
  (forall rho e v, eval_env full rho e v -> wf_env rho ->
     exp_wf (N.of_nat (List.length rho)) e -> eval (msub (rb rho) 0 e) (readback v)) /\
  (forall rho es vs, eval_many full rho es vs -> wf_env rho ->
     exps_wf (N.of_nat (List.length rho)) es ->
     evals (msubs (rb rho) 0 es) (exps_of (rb vs))).
Proof.
  intros full. apply my_eval_env_ind; intros;
    try (match goal with
    | W : exp_wf _ (_ _) |- _ => inversion W; subst
    | W : exp_wf _ (_ _ _) |- _ => inversion W; subst
    | W : exp_wf _ (_ _ _ _) |- _ => inversion W; subst
    | W : exps_wf _ (_ _ _) |- _ => inversion W; subst
    end);
    rewrite ?msub_Lam, ?msub_App, ?msub_Con, ?msub_Let, ?msub_Match, ?msub_Fix, ?msub_Prf,
      ?msub_Prim_val, ?msubs_nil, ?msubs_cons; cbn [readback]; change (1 + 0) with 1.
  - rewrite (msub_Var_in _ _ (readback v)).
    + apply readback_eval. unfold wf_env in *. rewrite Forall_forall in *.
      apply nth_error_In in H. auto.
    + apply readback_cl; auto.
    + unfold rb. rewrite nth_error_map, H. reflexivity.
  - constructor.
  - replace (efnlst_length fnl + 0) with (efnlst_length fnl) by lia. constructor.
  - constructor. fold (rb vs). auto.
  - assert (A : wf_val (Clos_v rho' na e1')) by (eapply (proj1 (env_wf full)); eauto).
    assert (B : wf_val v2) by (eapply (proj1 (env_wf full)); eauto).
    cbn [wf_val] in A. rewrite wf_go in A. destruct A as [A1 A2].
    cbn [readback] in *. fold (rb rho') in *.
    eapply eval_App_e; [apply H0; auto | apply H2; auto |].
    rewrite (sbst_msub0 (rb rho') (readback v2) e1');
      [| apply readback_cl; auto | apply wf0_closed, readback_wf; auto].
    change (msub (rb rho') 0 (sbst (readback v2) 0 e1')) with (msub (rb (v2 :: rho')) 0 e1').
    apply H4.
    + constructor; auto.
    + cbn [List.length]. replace (N.of_nat (S (List.length rho'))) with (1 + N.of_nat (List.length rho')) by lia. auto.
  - assert (B : wf_val v1) by (eapply (proj1 (env_wf full)); eauto).
    eapply eval_Let_e; [apply H0; auto |].
    rewrite (sbst_msub0 (rb rho) (readback v1) e2);
      [| apply readback_cl; auto | apply wf0_closed, readback_wf; auto].
    change (msub (rb rho) 0 (sbst (readback v1) 0 e2)) with (msub (rb (v1 :: rho)) 0 e2).
    apply H2.
    + constructor; auto.
    + cbn [List.length]. replace (N.of_nat (S (List.length rho))) with (1 + N.of_nat (List.length rho)) by lia. auto.
  - assert (A : wf_val (ClosFix_v rho' fnl n)) by (eapply (proj1 (env_wf full)); eauto).
    assert (B : wf_val v2) by (eapply (proj1 (env_wf full)); eauto).
    cbn [wf_val] in A. rewrite wf_go in A. destruct A as [A1 [A2 A3]].
    pose proof (make_rec_env_wf _ _ A1 A3) as RW.
    cbn [readback] in *. fold (rb rho') in *.
    eapply eval_FixApp_e; [apply H0; auto | apply H3; auto | |].
    + rewrite enthopt_msub, H1. reflexivity.
    + unfold rb at 1 2. rewrite sbst_fix_msub by auto. fold (rb (make_rec_env fnl rho')).
      rewrite msub_Lam. change (1 + 0) with 1. eapply eval_App_e.
      * constructor.
      * apply readback_eval; auto.
      * rewrite (sbst_msub0 (rb (make_rec_env fnl rho')) (readback v2) e');
          [| apply readback_cl; auto | apply wf0_closed, readback_wf; auto].
        apply H5.
        -- constructor; auto.
        -- destruct (enthopt_wf _ _ _ _ A3 H1) as [D _]. inversion D; subst.
           cbn [List.length]. rewrite make_rec_env_len.
           replace (N.of_nat (S (efnlength fnl + List.length rho')))
             with (1 + (efnlst_length fnl + N.of_nat (List.length rho'))); auto.
           rewrite <- len_nat. lia.
  - assert (A : wf_val (Con_v dc vs)) by (eapply (proj1 (env_wf full)); eauto).
    cbn [wf_val] in A. rewrite wf_go in A.
    cbn [readback] in *. fold (rb vs) in *.
    eapply eval_Match_e; [apply H0; auto | |].
    + unfold rb at 1. rewrite exps_of_len, map_length, find_branch_msub, H1. reflexivity.
    + rewrite sbst_list_msub.
      replace (N.of_nat (List.length vs) + 0) with (N.of_nat (List.length (rev (rb vs))))
        by (unfold rb; rewrite rev_length, map_length; lia).
      rewrite msub_msub; [| apply cl_rev, readback_cl; auto | apply readback_cl; auto].
      rewrite <- msub_app.
      replace (rev (rb vs) ++ rb rho) with (rb (rev vs ++ rho))
        by (unfold rb; rewrite map_app, map_rev; reflexivity).
      apply H3.
      * unfold wf_env. apply Forall_app; split; auto. apply Forall_rev; auto.
      * rewrite app_length, rev_length, Nat2N.inj_add.
        eapply find_branch_wf; eauto.
  - constructor.
  - constructor.
  - eapply eval_ProofApp_e; [apply H1; auto | apply H3; auto].
  - constructor.
  - unfold rb in *. cbn [map exps_of]. constructor; auto.
Qed.

(* ---- and back ---- *)

Lemma readback_Lam_inv : forall w na b, readback w = Lam_e na b ->
  exists rho e, w = Clos_v rho na e /\ b = msub (rb rho) 1 e.
Proof. intros w na b H; destruct w; cbn [readback] in H; try discriminate.
  injection H; intros; subst; eauto. Qed.
Lemma readback_Fix_inv : forall w es n, readback w = Fix_e es n ->
  exists rho fnl, w = ClosFix_v rho fnl n /\ es = msub_fns (rb rho) (efnlst_length fnl) fnl.
Proof. intros w na b H; destruct w; cbn [readback] in H; try discriminate.
  injection H; intros; subst; eauto. Qed.
Lemma readback_Con_inv : forall w d vs, readback w = Con_e d vs ->
  exists ws, w = Con_v d ws /\ vs = exps_of (rb ws).
Proof. intros w na b H; destruct w; cbn [readback] in H; try discriminate.
  injection H; intros; subst; eauto. Qed.
Lemma readback_Prf_inv : forall w, readback w = Prf_e -> w = Prf_v.
Proof. intros w H; destruct w; cbn [readback] in H; try discriminate; auto. Qed.

Lemma eval_n_beta : forall m na b a,
  eval_n (S (S m)) (App_e (Lam_e na b) a)
  = match eval_n (S m) a with Some v => eval_n (S m) (sbst v 0 b) | None => None end.
Proof. reflexivity. Qed.

Lemma subst_to_env : forall n,
  (forall m rho e v, (m <= n)%nat -> wf_env rho -> exp_wf (N.of_nat (List.length rho)) e ->
     eval_n m (msub (rb rho) 0 e) = Some v ->
     exists w, eval_env true rho e w /\ readback w = v) /\
  (forall m rho es vs, (m <= n)%nat -> wf_env rho -> exps_wf (N.of_nat (List.length rho)) es ->
     evals_n m (msubs (rb rho) 0 es) = Some vs ->
     exists ws, eval_many true rho es ws /\ exps_of (rb ws) = vs).
Proof.
  induction n as [|n [IH1 IH2]]; (split; intros m rho e v L WR WE EV;
    (destruct m as [|m]; [discriminate EV |])); [lia | lia | |].
  - assert (Lm : (m <= n)%nat) by lia.
    assert (VAR : forall x, e = Var_e x -> exists w, eval_env true rho e w /\ readback w = v).
    { intros x ->. inversion WE; subst.
      destruct (nth_error rho (N.to_nat x)) as [w|] eqn:E.
      - exists w; split; [constructor; auto |].
        rewrite (msub_Var_in _ _ (readback w)) in EV.
        + assert (A : wf_val w) by (unfold wf_env in WR; rewrite Forall_forall in WR; apply nth_error_In in E; auto).
          apply (proj1 eval_det) with (readback w); [apply readback_eval; auto |].
          eapply (proj1 (eval_n_sound _)); eauto.
        + apply readback_cl; auto.
        + unfold rb. rewrite nth_error_map, E. reflexivity.
      - apply nth_error_None in E. lia. }
    destruct e; [eapply VAR; reflexivity | | | | | | | | |]; clear VAR; inversion WE; subst;
    rewrite ?msub_Lam, ?msub_App, ?msub_Con, ?msub_Let, ?msub_Match, ?msub_Fix, ?msub_Prf,
      ?msub_Prim_val in EV; cbn [eval_n] in EV; change (1 + 0) with 1 in EV.
    + injection EV; intros; subst. eexists; split; [constructor | reflexivity].
    + (* application *)
      destruct (eval_n m (msub (rb rho) 0 e1)) as [w1|] eqn:E1; [| discriminate].
      edestruct (fun W => IH1 _ _ _ _ Lm WR W E1) as [v1 [V1 R1]]; [eassumption |].
      assert (W1 : wf_val v1) by (eapply (proj1 (env_wf true)); eauto).
      destruct w1; try discriminate.
      * destruct (eval_n m (msub (rb rho) 0 e2)) as [w2|] eqn:E2; [| discriminate].
        edestruct (fun W => IH1 _ _ _ _ Lm WR W E2) as [v2 [V2 R2]]; [eassumption |].
        assert (W2 : wf_val v2) by (eapply (proj1 (env_wf true)); eauto).
        apply readback_Lam_inv in R1 as [rho' [e' [-> ->]]]. subst w2.
        cbn [wf_val] in W1. rewrite wf_go in W1. destruct W1 as [A1 A2].
        rewrite (sbst_msub0 (rb rho') (readback v2) e') in EV;
          [| apply readback_cl; auto | apply wf0_closed, readback_wf; auto].
        change (msub (rb rho') 0 (sbst (readback v2) 0 e')) with (msub (rb (v2 :: rho')) 0 e') in EV.
        destruct (IH1 m (v2 :: rho') e' v Lm) as [r [V3 R3]]; auto.
        -- constructor; auto.
        -- cbn [List.length]. replace (N.of_nat (S (List.length rho'))) with (1 + N.of_nat (List.length rho')) by lia. auto.
        -- exists r; split; auto. eapply ee_App; eauto.
      * destruct (eval_n m (msub (rb rho) 0 e2)) as [w2|] eqn:E2; [| discriminate].
        edestruct (fun W => IH1 _ _ _ _ Lm WR W E2) as [v2 [V2 R2]]; [eassumption |].
        assert (W2 : wf_val v2) by (eapply (proj1 (env_wf true)); eauto).
        apply readback_Fix_inv in R1 as [rho' [fnl [-> ->]]]. subst w2.
        cbn [wf_val] in W1. rewrite wf_go in W1. destruct W1 as [A1 [A2 A3]].
        pose proof (make_rec_env_wf _ _ A1 A3) as RW.
        rewrite enthopt_msub in EV.
        destruct (enthopt (N.to_nat n0) fnl) as [b|] eqn:EN; [| discriminate].
        cbn [option_map] in EV.
        destruct (enthopt_wf _ _ _ _ A3 EN) as [D DL].
        unfold rb at 1 2 in EV. rewrite sbst_fix_msub in EV by auto.
        fold (rb (make_rec_env fnl rho')) in EV.
        destruct b; try contradiction. rewrite msub_Lam in EV. change (1 + 0) with 1 in EV.
        destruct m as [|m]; [discriminate |].
        destruct m as [|m]; [discriminate |]. rewrite eval_n_beta in EV.
        destruct (eval_n (S m) (readback v2)) as [w2|] eqn:EV2; [| discriminate EV].
        assert (w2 = readback v2).
        { symmetry. apply (proj1 eval_det) with (readback v2); [apply readback_eval; auto |].
          eapply (proj1 (eval_n_sound _)); eauto. }
        subst w2.
        rewrite (sbst_msub0 (rb (make_rec_env fnl rho')) (readback v2) b) in EV;
          [| apply readback_cl; auto | apply wf0_closed, readback_wf; auto].
        change (msub (rb (make_rec_env fnl rho')) 0 (sbst (readback v2) 0 b))
          with (msub (rb (v2 :: make_rec_env fnl rho')) 0 b) in EV.
        destruct (IH1 (S m) (v2 :: make_rec_env fnl rho') b v) as [r [V3 R3]]; auto; [lia | | |].
        -- constructor; auto.
        -- inversion D; subst.
           cbn [List.length]. rewrite make_rec_env_len.
           replace (N.of_nat (S (efnlength fnl + List.length rho')))
             with (1 + (efnlst_length fnl + N.of_nat (List.length rho'))); auto.
           rewrite <- len_nat. lia.
        -- exists r; split; auto. eapply ee_FixApp; eauto.
      * destruct (eval_n m (msub (rb rho) 0 e2)) as [w2|] eqn:E2; [| discriminate].
        edestruct (fun W => IH1 _ _ _ _ Lm WR W E2) as [v2 [V2 R2]]; [eassumption |].
        apply readback_Prf_inv in R1; subst v1. injection EV; intros; subst.
        exists Prf_v; split; auto. eapply ee_PrfApp; eauto.
    + destruct (evals_n m (msubs (rb rho) 0 e)) as [ws|] eqn:E1; [| discriminate].
      edestruct (fun W => IH2 _ _ _ _ Lm WR W E1) as [vs [V R]]; [eassumption |].
      injection EV; intros; subst. exists (Con_v d vs); split; [constructor; auto | reflexivity].
    + destruct (eval_n m (msub (rb rho) 0 e)) as [w1|] eqn:E1; [| discriminate].
      edestruct (fun W => IH1 _ _ _ _ Lm WR W E1) as [v1 [V1 R1]]; [eassumption |].
      assert (W1 : wf_val v1) by (eapply (proj1 (env_wf true)); eauto).
      destruct w1; try discriminate.
      apply readback_Con_inv in R1 as [ws [-> ->]].
      cbn [wf_val] in W1. rewrite wf_go in W1.
      rewrite exps_of_len in EV. unfold rb at 1 in EV. rewrite map_length, find_branch_msub in EV.
      destruct (find_branch d (N.of_nat (List.length ws)) b) as [e'|] eqn:EB; [| discriminate].
      cbn [option_map] in EV. rewrite sbst_list_msub in EV.
      replace (N.of_nat (List.length ws) + 0) with (N.of_nat (List.length (rev (rb ws)))) in EV
        by (unfold rb; rewrite rev_length, map_length; lia).
      rewrite msub_msub in EV; [| apply cl_rev, readback_cl; auto | apply readback_cl; auto].
      rewrite <- msub_app in EV.
      replace (rev (rb ws) ++ rb rho) with (rb (rev ws ++ rho)) in EV
        by (unfold rb; rewrite map_app, map_rev; reflexivity).
      destruct (IH1 m (rev ws ++ rho) e' v Lm) as [r [V3 R3]]; auto.
      * unfold wf_env. apply Forall_app; split; auto. apply Forall_rev; auto.
      * rewrite app_length, rev_length, Nat2N.inj_add. eapply find_branch_wf; eauto.
      * exists r; split; auto. eapply ee_Match; eauto.
    + destruct (eval_n m (msub (rb rho) 0 e1)) as [w1|] eqn:E1; [| discriminate].
      edestruct (fun W => IH1 _ _ _ _ Lm WR W E1) as [v1 [V1 R1]]; [eassumption |].
      assert (W1 : wf_val v1) by (eapply (proj1 (env_wf true)); eauto). subst w1.
      rewrite (sbst_msub0 (rb rho) (readback v1) e2) in EV;
        [| apply readback_cl; auto | apply wf0_closed, readback_wf; auto].
      change (msub (rb rho) 0 (sbst (readback v1) 0 e2)) with (msub (rb (v1 :: rho)) 0 e2) in EV.
      destruct (IH1 m (v1 :: rho) e2 v Lm) as [r [V3 R3]]; auto.
      * constructor; auto.
      * cbn [List.length]. replace (N.of_nat (S (List.length rho))) with (1 + N.of_nat (List.length rho)) by lia. auto.
      * exists r; split; auto. eapply ee_Let; eauto.
    + injection EV; intros; subst. eexists; split; [constructor |].
      cbn [readback]. replace (efnlst_length e + 0) with (efnlst_length e) by lia. reflexivity.
    + injection EV; intros; subst. exists Prf_v; split; [constructor; auto | reflexivity].
    + injection EV; intros; subst. eexists; split; [constructor; auto | reflexivity].
  - assert (Lm : (m <= n)%nat) by lia. inversion WE; subst.
    + rewrite msubs_nil in EV. cbn [evals_n] in EV. injection EV; intros; subst.
      exists []; split; [constructor | reflexivity].
    + rewrite msubs_cons in EV. cbn [evals_n] in EV.
      destruct (eval_n m (msub (rb rho) 0 e0)) as [w1|] eqn:E1; [| discriminate].
      destruct (evals_n m (msubs (rb rho) 0 es)) as [ws|] eqn:E2; [| discriminate].
      edestruct (fun W => IH1 _ _ _ _ Lm WR W E1) as [v1 [V1 R1]]; [eassumption |].
      edestruct (fun W => IH2 _ _ _ _ Lm WR W E2) as [vs [V2 R2]]; [eassumption |].
      injection EV; intros; subst. exists (v1 :: vs); split; [constructor; auto | reflexivity].
Qed.

Lemma semantics_agree : forall e v, exp_wf 0 e ->
  (eval e v <-> exists w, eval_env true [] e w /\ readback w = v).
Proof.
  intros e v W; split.
  - intros H. apply (proj1 eval_n_complete) in H as [n H].
    apply (proj1 (subst_to_env n)) with (m := n); auto. constructor.
  - intros [w [H <-]]. apply (proj1 (env_to_subst true)) in H; auto. constructor.
Qed.

(* ---- the relation of the code, on terms without proofs and literals ---- *)

Fixpoint plain_val (v : value) : Prop :=
  match v with
  | Con_v _ vs =>
    (fix go (l : list value) : Prop :=
       match l with [] => True | v :: l => plain_val v /\ go l end) vs
  | Clos_v rho _ e =>
    (fix go (l : list value) : Prop :=
       match l with [] => True | v :: l => plain_val v /\ go l end) rho /\ plain e
  | ClosFix_v rho fnl n =>
    (fix go (l : list value) : Prop :=
       match l with [] => True | v :: l => plain_val v /\ go l end) rho /\ plain_fs fnl
  | Prf_v => False
  | Prim_v _ => False
  end.

Lemma plain_go : forall l,
  (fix go (l : list value) : Prop :=
     match l with [] => True | v :: l => plain_val v /\ go l end) l <-> Forall plain_val l.
Proof.
  induction l; split; intros H; auto.
  - destruct H as [A B]; constructor; auto. apply IHl; auto.
  - inversion H; subst; split; auto. apply IHl; auto.
Qed.

Lemma plain_enthopt : forall es n e, plain_fs es -> enthopt n es = Some e -> plain e.
Proof.
  induction es; intros m e H E; [destruct m; discriminate |].
  destruct H as [A B]. destruct m; cbn [enthopt] in E; [injection E; intros; subst; auto | eauto].
Qed.
Lemma plain_find : forall bs d m e, plain_bs bs -> find_branch d m bs = Some e -> plain e.
Proof.
  induction bs; intros d' m e H E; cbn [find_branch] in E; [discriminate |].
  destruct H as [A B]. destruct (dcon_eqb d' d); [| eauto].
  destruct (nargs p =? m); [injection E; intros; subst; auto | discriminate].
Qed.

Lemma plain_agree :
  (forall rho e v, eval_env true rho e v -> Forall plain_val rho -> plain e ->
     eval_env false rho e v /\ plain_val v) /\
  (forall rho es vs, eval_many true rho es vs -> Forall plain_val rho -> plain_es es ->
     eval_many false rho es vs /\ Forall plain_val vs).
Proof.
  apply my_eval_env_ind; intros; cbn [plain plain_es] in *; try contradiction.
  - split; [constructor; auto |]. rewrite Forall_forall in *. apply nth_error_In in H; auto.
  - split; [constructor |]. cbn [plain_val]. rewrite plain_go. auto.
  - split; [constructor |]. cbn [plain_val]. rewrite plain_go. auto.
  - destruct (H0 H1 H2). split; [constructor; auto |]. cbn [plain_val]. rewrite plain_go. auto.
  - destruct H6 as [P1 P2]. destruct (H0 H5 P1) as [A1 B1]. destruct (H2 H5 P2) as [A2 B2].
    cbn [plain_val] in B1. rewrite plain_go in B1. destruct B1 as [B1 B3].
    destruct H4 as [A3 B4]; auto. split; [eapply ee_App; eauto | auto].
  - destruct H4 as [P1 P2]. destruct (H0 H3 P1) as [A1 B1].
    destruct H2 as [A3 B4]; auto. split; [eapply ee_Let; eauto | auto].
  - destruct H7 as [P1 P2]. destruct (H0 H6 P1) as [A1 B1]. destruct (H3 H6 P2) as [A2 B2].
    cbn [plain_val] in B1. rewrite plain_go in B1. destruct B1 as [B1 B3].
    pose proof (plain_enthopt _ _ _ B3 H1) as PL. cbn [plain] in PL.
    destruct H5 as [A3 B4]; auto.
    + constructor; auto. unfold make_rec_env. apply Forall_app; split; auto.
      apply Forall_forall. intros w Hw. apply in_map_iff in Hw as [k [<- _]].
      cbn [plain_val]. rewrite plain_go. auto.
    + split; [eapply ee_FixApp; eauto | auto].
  - destruct H5 as [P1 P2]. destruct (H0 H4 P1) as [A1 B1].
    cbn [plain_val] in B1. rewrite plain_go in B1.
    destruct H3 as [A3 B4].
    + apply Forall_app; split; auto. apply Forall_rev; auto.
    + eapply plain_find; eauto.
    + split; [eapply ee_Match; eauto | auto].
  - destruct H5 as [P1 P2]. destruct (H1 H4 P1) as [A1 B1]. destruct B1.
  - split; [constructor | constructor].
  - destruct H4 as [P1 P2]. destruct (H0 H3 P1). destruct (H2 H3 P2).
    split; constructor; auto.
Qed.

Lemma false_true : forall rho e v, eval_env false rho e v -> eval_env true rho e v.
Proof.
  assert (A : (forall rho e v, eval_env false rho e v -> eval_env true rho e v) /\
              (forall rho es vs, eval_many false rho es vs -> eval_many true rho es vs)).
  { apply my_eval_env_ind; intros; try discriminate; try (econstructor; eauto; fail). }
  apply A.
Qed.

Lemma semantics_agree_plain : forall e v, exp_wf 0 e -> plain e ->
  (eval e v <-> exists w, eval_env false [] e w /\ readback w = v).
Proof.
  intros e v W P; rewrite (semantics_agree e v W); split; intros [w [H R]]; exists w; split; auto.
  - eapply (proj1 plain_agree); eauto.
  - apply false_true; auto.
Qed.

Lemma env_det : forall full,
  (forall rho e v, eval_env full rho e v -> forall w, eval_env full rho e w -> v = w) /\
  (forall rho es vs, eval_many full rho es vs -> forall ws, eval_many full rho es ws -> vs = ws).
Proof.
  intros full. apply my_eval_env_ind; intros;
  match goal with
  | H : eval_env _ ?r ?x ?y |- ?z = ?y => inversion H; subst
  | H : eval_many _ ?r ?x ?y |- ?z = ?y => inversion H; subst
  end; auto; try congruence;
  repeat match goal with
  | IH : (forall w, eval_env _ ?r ?e w -> _ = w), A : eval_env _ ?r ?e _ |- _ =>
      apply IH in A; try discriminate A; try (injection A; intros; clear A; subst)
  | IH : (forall w, eval_many _ ?r ?e w -> _ = w), A : eval_many _ ?r ?e _ |- _ =>
      apply IH in A; subst
  end; subst; auto; try congruence.
  - assert (EQ : Lam_e na e' = Lam_e na0 e'0) by congruence. injection EQ; intros; subst. auto.
  - assert (e' = e'0) by congruence; subst. auto.
Qed.
