(* Proofs about the translation from MetaRocq's erased terms. *)
From Coq Require Import List Arith String Bool Lia.
From Verif Require Import LB_Model LM_Model LM_Proofs EA_Model EA_Spec.
Import ListNotations.
Local Open Scope nat_scope.

(* Induction over erased terms, with hypotheses for the nested lists. *)
Lemma term_ind2 : forall (P : term -> Prop),
  P tBox -> (forall n, P (tRel n)) -> (forall s, P (tVar s)) ->
  (forall e l, Forall P l -> P (tEvar e l)) ->
  (forall nm b, P b -> P (tLambda nm b)) ->
  (forall nm d b, P d -> P b -> P (tLetIn nm d b)) ->
  (forall f a, P f -> P a -> P (tApp f a)) ->
  (forall c, P (tConst c)) ->
  (forall i c l, Forall P l -> P (tConstruct i c l)) ->
  (forall i m brs, P m -> Forall (fun b => P (snd b)) brs -> P (tCase i m brs)) ->
  (forall p b, P b -> P (tProj p b)) ->
  (forall mf i, Forall (fun d => P (dbody d)) mf -> P (tFix mf i)) ->
  (forall mf i, Forall (fun d => P (dbody d)) mf -> P (tCoFix mf i)) ->
  (forall v, P (tPrim v)) ->
  (forall d l, P d -> Forall P l -> P (tArray d l)) ->
  (forall t, P t -> P (tLazy t)) ->
  (forall t, P t -> P (tForce t)) ->
  forall t, P t.
Proof.
  intros P H1 H2 H3 H4 H5 H6 H7 H8 H9 H10 H11 H12 H13 H14 H15 H16 H17.
  fix IH 1. intro t. destruct t.
  - exact H1.
  - apply H2.
  - apply H3.
  - apply H4. induction l; constructor; auto.
  - apply H5, IH.
  - apply H6; apply IH.
  - apply H7; apply IH.
  - apply H8.
  - apply H9. induction l; constructor; auto.
  - apply H10; [apply IH|]. induction l as [|[ns b] l IHl]; constructor; [apply IH|exact IHl].
  - apply H11, IH.
  - apply H12. induction l as [|d l IHl]; constructor; [apply IH|exact IHl].
  - apply H13. induction l as [|d l IHl]; constructor; [apply IH|exact IHl].
  - apply H14.
  - apply H15; [apply IH|]. induction l; constructor; auto.
  - apply H16, IH.
  - apply H17, IH.
Qed.

Definition cterms (l : list term) : Terms := list_terms (map compile l).
Definition cbrs (l : list (list name * term)) : Brs :=
  list_Brs (map (fun x => (List.rev (fst x), compile (snd x))) l).
Definition cdefs (l : list (def term)) : Defs :=
  list_Defs (map (fun d => mkdef (dname d) (compile (dbody d)) (rarg d)) l).

Lemma spine_eq : forall t sp, compile_spine t sp = TmkApps (compile t) sp.
Proof.
  unfold compile. apply (term_ind2 (fun t => forall sp, compile_spine t sp = TmkApps (compile_spine t tnil) sp));
    intros; try reflexivity.
  cbn [compile_spine]. rewrite H, (H (tcons _ tnil)). reflexivity.
Qed.

Lemma compile_app : forall f a, compile (tApp f a) = TApp (compile f) (compile a).
Proof. intros. unfold compile at 1. cbn [compile_spine]. rewrite spine_eq. reflexivity. Qed.
Lemma compile_lambda : forall nm b, compile (tLambda nm b) = TLambda nm (compile b).
Proof. reflexivity. Qed.
Lemma compile_let : forall nm d b, compile (tLetIn nm d b) = TLetIn nm (compile d) (compile b).
Proof. reflexivity. Qed.
Lemma compile_con : forall i c l, compile (tConstruct i c l) = TConstruct i c (cterms l).
Proof. reflexivity. Qed.
Lemma compile_case : forall i m l, compile (tCase i m l) = TCase (fst i) (compile m) (cbrs l).
Proof. reflexivity. Qed.
Lemma compile_fix : forall l i, compile (tFix l i) = TFix (cdefs l) i.
Proof. reflexivity. Qed.
Lemma compile_lazy : forall t, compile (tLazy t) = TLambda nAnon (lift 0 (compile t)).
Proof. reflexivity. Qed.
Lemma compile_force : forall t, compile (tForce t) = TApp (compile t) TProof.
Proof. reflexivity. Qed.

Ltac ceq := rewrite ?compile_app, ?compile_lambda, ?compile_let, ?compile_con, ?compile_case, ?compile_fix,
  ?compile_lazy, ?compile_force.

Lemma cdefs_len : forall l, dlength (cdefs l) = List.length l.
Proof. induction l as [|d l IH]; cbn; auto. Qed.
Lemma cterms_len : forall l, tlength (cterms l) = List.length l.
Proof. induction l as [|d l IH]; cbn; auto. Qed.

Lemma cterms_cons : forall t l, cterms (t :: l) = tcons (compile t) (cterms l).
Proof. reflexivity. Qed.
Lemma cbrs_cons : forall b l, cbrs (b :: l) = bcons (List.rev (fst b)) (compile (snd b)) (cbrs l).
Proof. reflexivity. Qed.
Lemma cdefs_cons : forall d l, cdefs (d :: l) = dcons (dname d) (compile (dbody d)) (rarg d) (cdefs l).
Proof. reflexivity. Qed.

(* ---- the translation commutes with lifting ---- *)
(* The nested lifts of the target language. *)
Lemma liftDs_len : forall ds n, dlength (liftDs n ds) = dlength ds.
Proof. induction ds; cbn; auto. Qed.

Lemma lift_lift : 
  (forall t j k, j <= k -> lift (S k) (lift j t) = lift j (lift k t)) /\
  (forall t j k, j <= k -> lifts (S k) (lifts j t) = lifts j (lifts k t)) /\
  (forall t j k, j <= k -> liftBs (S k) (liftBs j t) = liftBs j (liftBs k t)) /\
  (forall t j k, j <= k -> liftDs (S k) (liftDs j t) = liftDs j (liftDs k t)).
Proof.
  apply TrmTrmsBrsDefs_ind; intros; cbn [lift lifts liftBs liftDs]; auto;
    try (rewrite ?liftDs_len);
    try (f_equal; auto; try (rewrite <- ?Nat.add_succ_r; auto; apply H; lia); fail).
  - apply (f_equal TRel).
    repeat match goal with |- context [Nat.compare ?a ?b] =>
      lazymatch a with context [Nat.compare _ _] => fail | _ => destruct (Nat.compare_spec a b) end end; lia.
  - f_equal; auto. apply H0; lia.
  - f_equal; auto. rewrite Nat.add_succ_r. apply H. lia.
Qed.

Lemma compile_lift : forall t k, lift k (compile t) = compile (elift k t).
Proof.
  apply (term_ind2 (fun t => forall k, lift k (compile t) = compile (elift k t))); intros;
    cbn [elift]; ceq; cbn [lift]; try reflexivity; try (f_equal; auto; fail).
  - cbn. destruct (Nat.compare_spec n k), (Nat.leb_spec k n); cbn; auto; lia.
  - f_equal. revert k. induction H as [|t l Ht _ IH]; intro k; [reflexivity|].
    cbn [map]. rewrite !cterms_cons. cbn [lifts]. rewrite Ht, IH. reflexivity.
  - f_equal; auto. clear H m. revert k. induction H0 as [|b l Hb _ IH]; intro k; [reflexivity|].
    cbn [map]. rewrite !cbrs_cons. cbn [liftBs fst snd]. rewrite rev_length, Hb, IH. reflexivity.
  - f_equal. rewrite cdefs_len. rewrite (Nat.add_comm k). generalize (List.length mf + k). intro n. revert n.
    induction H as [|b l Hb _ IH]; intro n; [reflexivity|].
    cbn [map]. rewrite !cdefs_cons. cbn [liftDs dname dbody rarg]. rewrite Hb, IH. reflexivity.
  - f_equal. rewrite (proj1 lift_lift) by lia. rewrite H. reflexivity.
Qed.

(* ---- substitution ---- *)
Lemma crct_lift_id : forall p,
  (forall t n m, crct p n t -> n <= m -> lift m t = t) /\
  (forall t n m, crcts p n t -> n <= m -> lifts m t = t) /\
  (forall t n m, crctBs p n t -> n <= m -> liftBs m t = t) /\
  (forall t n m, crctDs p n t -> n <= m -> liftDs m t = t).
Proof.
  intro p. apply TrmTrmsBrsDefs_ind; intros; cbn [lift lifts liftBs liftDs]; auto;
    cbn [crct crcts crctBs crctDs] in *.
  - f_equal. destruct (Nat.compare_spec n m); lia.
  - f_equal. eapply H; [eassumption|lia].
  - f_equal; [eapply H|eapply H0]; try apply H1; lia.
  - f_equal; [eapply H|eapply H0]; try apply H1; lia.
  - f_equal; eapply H; eauto.
  - f_equal; [eapply H|eapply H0]; try apply H1; lia.
  - f_equal. eapply H; [apply H0|lia].
  - f_equal; [eapply H|eapply H0]; try apply H1; lia.
  - f_equal; [eapply H|eapply H0]; try apply H1; lia.
  - f_equal; [|eapply H0; [apply H1|lia]].
    destruct H1 as [H1 _]. destruct t; try contradiction. eapply H; [exact H1|lia].
Qed.

Lemma crct_lift : forall p,
  (forall t n j, crct p n t -> crct p (S n) (lift j t)) /\
  (forall t n j, crcts p n t -> crcts p (S n) (lifts j t)) /\
  (forall t n j, crctBs p n t -> crctBs p (S n) (liftBs j t)) /\
  (forall t n j, crctDs p n t -> crctDs p (S n) (liftDs j t)).
Proof.
  intro p. apply TrmTrmsBrsDefs_ind; intros; cbn [lift lifts liftBs liftDs]; auto;
    cbn [crct crcts crctBs crctDs] in *; auto.
  - destruct (Nat.compare_spec n j); lia.
  - intuition.
  - intuition.
  - intuition.
  - rewrite liftDs_len. split; [apply H0|]. apply H. apply H0.
  - intuition.
  - split; [|intuition]. rewrite Nat.add_succ_r. apply H. apply H1.
  - split; [|intuition]. destruct H1 as [H1 _]. destruct t; try contradiction. cbn [lift]. apply (H _ j H1).
Qed.

Lemma inst_lift : forall p a, crct p 0 a ->
  (forall t j k, j <= k -> instantiate a (S k) (lift j t) = lift j (instantiate a k t)) /\
  (forall t j k, j <= k -> instantiates a (S k) (lifts j t) = lifts j (instantiates a k t)) /\
  (forall t j k, j <= k -> instantiateBrs a (S k) (liftBs j t) = liftBs j (instantiateBrs a k t)) /\
  (forall t j k, j <= k -> instantiateDefs a (S k) (liftDs j t) = liftDs j (instantiateDefs a k t)).
Proof.
  intros p a A. apply TrmTrmsBrsDefs_ind; intros;
    cbn [lift lifts liftBs liftDs instantiate instantiates instantiateBrs instantiateDefs]; auto;
    rewrite ?liftDs_len, ?dlength_inst;
    try (f_equal; auto; rewrite <- ?Nat.add_succ_r; auto; apply H; lia).
  - destruct (Nat.compare_spec n j) as [E|E|E].
    + subst. destruct (Nat.compare_spec (S k) (S j)), (Nat.compare_spec k j); try lia; cbn.
      * symmetry. eapply (proj1 (crct_lift_id p)); [exact A|lia].
      * destruct (Nat.compare_spec j j); auto; lia.
    + destruct (Nat.compare_spec (S k) n), (Nat.compare_spec k n); try lia; cbn.
      destruct (Nat.compare_spec n j); auto; lia.
    + destruct (Nat.compare_spec (S k) (S n)), (Nat.compare_spec k n); try lia; cbn.
      * symmetry. eapply (proj1 (crct_lift_id p)); [exact A|lia].
      * destruct (Nat.compare_spec (pred n) j); f_equal; lia.
      * destruct (Nat.compare_spec n j); auto; lia.
  - f_equal; auto. apply H0. lia.
  - f_equal; auto. rewrite Nat.add_succ_r. apply H. lia.
Qed.

Lemma compile_csubst : forall p a, crct p 0 (compile a) -> forall t k,
  compile (csubst a k t) = instantiate (compile a) k (compile t).
Proof.
  intros p a A. apply (term_ind2 (fun t => forall k, compile (csubst a k t) = instantiate (compile a) k (compile t))); intros;
    cbn [csubst]; ceq; cbn [instantiate]; try reflexivity; try (f_equal; auto; fail).
  - cbn. destruct (Nat.compare k n); reflexivity.
  - f_equal. revert k. induction H as [|t l Ht _ IH]; intro k; [reflexivity|].
    cbn [map]. rewrite !cterms_cons. cbn [instantiates]. rewrite Ht, IH. reflexivity.
  - f_equal; auto. clear H m. revert k. induction H0 as [|b l Hb _ IH]; intro k; [reflexivity|].
    cbn [map]. rewrite !cbrs_cons. cbn [instantiateBrs fst snd]. rewrite rev_length, Hb, IH. reflexivity.
  - f_equal. rewrite cdefs_len. rewrite (Nat.add_comm k). generalize (List.length mf + k). intro n. revert n.
    induction H as [|b l Hb _ IH]; intro n; [reflexivity|].
    cbn [map]. rewrite !cdefs_cons. cbn [instantiateDefs dname dbody rarg]. rewrite Hb, IH. reflexivity.
  - f_equal. rewrite (proj1 (inst_lift p _ A)) by lia. rewrite H. reflexivity.
Qed.

(* ---- well-formed terms give correct terms ---- *)
Lemma lookup_ctx : forall G c, lookup c (compile_ctx G) = option_map compile_global_decl (lookup_env G c).
Proof.
  induction G as [|[n d] G IH]; intro c; [reflexivity|].
  cbn. destruct (String.eqb c n); auto.
Qed.

Lemma lookup_dfn : forall G c b, lookup_env G c = Some (ConstantDecl (Some b)) ->
  lookupDfn c (compile_ctx G) = Some (compile b).
Proof. intros G c b H. unfold lookupDfn. rewrite lookup_ctx, H. reflexivity. Qed.

Lemma lookup_dfn_inv : forall G c u, lookupDfn c (compile_ctx G) = Some u ->
  exists b, lookup_env G c = Some (ConstantDecl (Some b)) /\ u = compile b.
Proof.
  intros G c u H. unfold lookupDfn in H. rewrite lookup_ctx in H.
  destruct (lookup_env G c) as [[[b|]|m]|]; cbn in H; try discriminate.
  exists b. split; [reflexivity|congruence].
Qed.

Lemma forallb_Forall : forall A (f : A -> bool) l, forallb f l = true -> Forall (fun x => f x = true) l.
Proof. intros A f l H. apply Forall_forall. apply forallb_forall. exact H. Qed.

Lemma forallb_mix : forall A (f : A -> bool) (P : A -> Prop) l, Forall P l -> forallb f l = true ->
  Forall (fun x => P x /\ f x = true) l.
Proof.
  intros A f P l H. induction H as [|x l Hx _ IH]; intro E; constructor; cbn in E; apply andb_true_iff in E as [E1 E2]; auto.
Qed.

Lemma lambda_compile : forall t, is_lambda t = true -> exists nm b, t = tLambda nm b.
Proof. intros t H. destruct t; try discriminate. eauto. Qed.

Ltac bsplit := repeat match goal with H : (_ && _)%bool = true |- _ =>
  let H1 := fresh H in apply andb_true_iff in H as [H H1] end.

Lemma wf_crct : forall G t k, wellformed G k t = true -> crct (compile_ctx G) k (compile t).
Proof.
  intro G. apply (term_ind2 (fun t => forall k, wellformed G k t = true -> crct (compile_ctx G) k (compile t)));
    intros; cbn [wellformed] in *; try discriminate; ceq; cbn [crct]; bsplit; auto; try exact I.
  - cbn. apply Nat.ltb_lt. assumption.
  - cbn. destruct (lookup_env G c) as [[[b|]|m]|] eqn:E; try discriminate.
    rewrite (lookup_dfn _ _ _ E). discriminate.
  - destruct (lookup_constructor G i c) as [[[np pr] a]|]; [|discriminate]. bsplit.
    pose proof (forallb_mix _ _ _ _ H H1) as F. clear H H1 H0.
    induction F as [|t l [Ht W] _ IH]; [exact I|]. rewrite cterms_cons. split; auto.
  - destruct (lookup_inductive G (fst i)) as [[np [pr cs]]|]; [|discriminate]. bsplit.
    split; auto. pose proof (forallb_mix _ _ _ _ H0 H2) as F. clear - F.
    induction F as [|b l [Hb W] _ IH]; [exact I|]. rewrite cbrs_cons. split; auto.
    rewrite rev_length. auto.
  - rewrite cdefs_len. apply Nat.ltb_lt in H0. split; auto.
    pose proof (forallb_mix _ _ _ _ (forallb_mix _ _ _ _ H H2) H1) as F. clear - F.
    rewrite (Nat.add_comm k). revert F. generalize (List.length mf + k). intros n F.
    induction F as [|d l [[Hd L] W] _ IH]; [exact I|]. rewrite cdefs_cons. split; auto.
    apply Hd in W. destruct (lambda_compile _ L) as (nm & b & E). rewrite E in *. exact W.
  - apply (proj1 (crct_lift _)). apply H. assumption.
Qed.

Lemma fresh_ctx : forall G n, lookup_env G n = None -> lookup n (compile_ctx G) = None.
Proof. intros G n H. rewrite lookup_ctx, H. reflexivity. Qed.

Lemma wf_crctEnv : forall G, wf_glob G = true -> crctEnv (compile_ctx G).
Proof.
  induction G as [|[n d] G IH]; intro H; [exact I|]. cbn [wf_glob] in H. bsplit.
  cbn [compile_ctx crctEnv]. split; [auto|]. split.
  - apply fresh_ctx. destruct (lookup_env G n); [discriminate|reflexivity].
  - destruct d as [[t|]|m]; cbn [compile_global_decl]; auto. apply wf_crct. assumption.
Qed.

(* ---- well-formedness is kept by substitution ---- *)
Lemma wf_up : forall G t k m, wellformed G k t = true -> k <= m -> wellformed G m t = true.
Proof.
  intro G. apply (term_ind2 (fun t => forall k m, wellformed G k t = true -> k <= m -> wellformed G m t = true));
    intros; cbn [wellformed] in *; auto; bsplit.
  - apply Nat.ltb_lt. apply Nat.ltb_lt in H. lia.
  - eapply H; [eassumption|lia].
  - rewrite (H _ _ H1 H2). cbn. eapply H0; [eassumption|lia].
  - rewrite (H _ _ H1 H2). cbn. eapply H0; [eassumption|lia].
  - destruct (lookup_constructor G i c) as [[[np pr] a]|]; [|discriminate]. bsplit.
    rewrite H0. cbn. pose proof (forallb_mix _ _ _ _ H H2) as F. apply forallb_forall. intros x I.
    rewrite Forall_forall in F. destruct (F x I) as [A B]. eauto.
  - destruct (lookup_inductive G (fst i)) as [[np [pr cs]]|]; [|discriminate]. bsplit.
    rewrite H1, (H _ _ H4 H2). cbn. pose proof (forallb_mix _ _ _ _ H0 H3) as F. apply forallb_forall. intros x I.
    rewrite Forall_forall in F. destruct (F x I) as [A B]. cbn in A, B. eapply A; [exact B|lia].
  - rewrite H0, H3. cbn. pose proof (forallb_mix _ _ _ _ H H2) as F. apply forallb_forall. intros x I.
    rewrite Forall_forall in F. destruct (F x I) as [A B]. cbn in A, B. eapply A; [exact B|lia].
  - eauto.
  - eauto.
Qed.

Lemma csubst_lambda : forall a k t, is_lambda t = true -> is_lambda (csubst a k t) = true.
Proof. intros a k t H. destruct t; try discriminate. reflexivity. Qed.

Lemma forallb_map : forall A B (g : A -> B) f l, forallb f (map g l) = forallb (fun x => f (g x)) l.
Proof. induction l as [|x l IH]; cbn; [reflexivity|rewrite IH; reflexivity]. Qed.

Lemma csubst_wf : forall G a, wellformed G 0 a = true -> forall t n k, wellformed G (S n) t = true -> k <= n ->
  wellformed G n (csubst a k t) = true.
Proof.
  intros G a A. apply (term_ind2 (fun t => forall n k, wellformed G (S n) t = true -> k <= n ->
    wellformed G n (csubst a k t) = true));
    intros; cbn [wellformed csubst] in *; auto; bsplit.
  - apply Nat.ltb_lt in H. destruct (Nat.compare_spec k n).
    + eapply wf_up; [exact A|lia].
    + cbn [wellformed]. apply Nat.ltb_lt. lia.
    + cbn [wellformed]. apply Nat.ltb_lt. lia.
  - apply H; [assumption|lia].
  - rewrite H by (assumption || lia). rewrite H0 by (assumption || lia). reflexivity.
  - rewrite H by (assumption || lia). rewrite H0 by (assumption || lia). reflexivity.
  - destruct (lookup_constructor G i c) as [[[np pr] b]|]; [|discriminate]. bsplit.
    rewrite map_length, H0. cbn. pose proof (forallb_mix _ _ _ _ H H2) as F. rewrite forallb_map.
    apply forallb_forall. intros x I. rewrite Forall_forall in F. destruct (F x I) as [X Y]. auto.
  - destruct (lookup_inductive G (fst i)) as [[np [pr cs]]|]; [|discriminate]. bsplit.
    rewrite map_length, H1, H by assumption. cbn. pose proof (forallb_mix _ _ _ _ H0 H3) as F. rewrite forallb_map.
    apply forallb_forall. intros x I. rewrite Forall_forall in F. destruct (F x I) as [X Y]. cbn in *.
    apply X; [|lia]. replace (S (List.length (fst x) + n)) with (List.length (fst x) + S n) by lia. exact Y.
  - rewrite map_length, H0. cbn. rewrite !forallb_map. cbn [dbody]. apply andb_true_iff. split.
    + apply forallb_forall. intros x I. apply csubst_lambda. rewrite forallb_forall in H3. auto.
    + pose proof (forallb_mix _ _ _ _ H H2) as F. apply forallb_forall. intros x I. rewrite Forall_forall in F.
      destruct (F x I) as [X Y]. cbn in *. apply X; [|lia].
      replace (S (List.length mf + n)) with (List.length mf + S n) by lia. exact Y.
Qed.

Lemma substl_wf : forall G l, forallb (wellformed G 0) l = true -> forall t, wellformed G (List.length l) t = true ->
  wellformed G 0 (substl l t) = true.
Proof.
  intro G. induction l as [|a l IH]; intros H t W; [exact W|]. cbn in H. bsplit.
  cbn [substl fold_left]. apply IH; auto. apply csubst_wf; auto. lia.
Qed.

Lemma fix_subst_len : forall mf n, List.length (fix_subst mf n) = n.
Proof. induction n; cbn; auto. Qed.

Lemma fix_subst_wf : forall G mf i, wellformed G 0 (tFix mf i) = true -> forall n, n <= List.length mf ->
  forallb (wellformed G 0) (fix_subst mf n) = true.
Proof.
  intros G mf i W. induction n as [|n IH]; intro L; [reflexivity|]. cbn [fix_subst forallb].
  rewrite IH by lia. rewrite andb_true_r. cbn [wellformed] in *. bsplit.
  rewrite W1, W0, !andb_true_r. apply Nat.ltb_lt. lia.
Qed.

Lemma unfold_wf : forall G mf i fn, wellformed G 0 (tFix mf i) = true -> unfold_fix mf i = Some fn ->
  wellformed G 0 fn = true.
Proof.
  intros G mf i fn W U. unfold unfold_fix in U. destruct (nth_error mf i) as [d|] eqn:N; [|discriminate].
  injection U as <-. apply substl_wf.
  - apply (fix_subst_wf G mf i W). lia.
  - rewrite fix_subst_len. cbn [wellformed] in W. bsplit. rewrite forallb_forall in W0.
    specialize (W0 d (nth_error_In _ _ N)). rewrite Nat.add_0_r in W0. exact W0.
Qed.

(* ---- lists of substitutions ---- *)
Lemma inst_closed : forall p a,
  (forall t n, crct p n t -> forall k, n <= k -> instantiate a k t = t) /\
  (forall t n, crcts p n t -> forall k, n <= k -> instantiates a k t = t) /\
  (forall t n, crctBs p n t -> forall k, n <= k -> instantiateBrs a k t = t) /\
  (forall t n, crctDs p n t -> forall k, n <= k -> instantiateDefs a k t = t).
Proof.
  intros p a. apply TrmTrmsBrsDefs_ind; intros;
    cbn [crct crcts crctBs crctDs instantiate instantiates instantiateBrs instantiateDefs] in *; auto;
    repeat match goal with H : _ /\ _ |- _ => destruct H end.
  - destruct (Nat.compare_spec k n); auto; lia.
  - f_equal. eapply H; [eassumption|lia].
  - f_equal; [eapply H|eapply H0]; try eassumption; lia.
  - f_equal; [eapply H|eapply H0]; try eassumption; lia.
  - f_equal. eauto.
  - f_equal; [eapply H|eapply H0]; try eassumption; lia.
  - f_equal. eapply H; [eassumption|lia].
  - f_equal; [eapply H|eapply H0]; try eassumption; lia.
  - f_equal; [eapply H|eapply H0]; try eassumption; lia.
  - f_equal; [|eapply H0; eassumption]. destruct t; try contradiction. eapply H; eassumption.
Qed.

Lemma inst_inst : forall p a x, crct p 0 a -> crct p 0 x ->
  (forall t j k, j <= k -> instantiate a k (instantiate x j t) = instantiate x j (instantiate a (S k) t)) /\
  (forall t j k, j <= k -> instantiates a k (instantiates x j t) = instantiates x j (instantiates a (S k) t)) /\
  (forall t j k, j <= k -> instantiateBrs a k (instantiateBrs x j t) = instantiateBrs x j (instantiateBrs a (S k) t)) /\
  (forall t j k, j <= k -> instantiateDefs a k (instantiateDefs x j t) = instantiateDefs x j (instantiateDefs a (S k) t)).
Proof.
  intros p a x A X. apply TrmTrmsBrsDefs_ind; intros;
    cbn [instantiate instantiates instantiateBrs instantiateDefs]; auto; rewrite ?dlength_inst;
    try (f_equal; auto; fail).
  - destruct (Nat.compare_spec j n) as [E|E|E].
    + subst. destruct (Nat.compare_spec (S k) n); try lia. cbn [instantiate].
      destruct (Nat.compare_spec n n); try lia. eapply (proj1 (inst_closed p a)); [exact X|lia].
    + cbn [instantiate]. destruct (Nat.compare_spec k (pred n)), (Nat.compare_spec (S k) n); try lia.
      * symmetry. eapply (proj1 (inst_closed p x)); [exact A|lia].
      * cbn [instantiate]. destruct (Nat.compare_spec j (pred n)); try lia. reflexivity.
      * cbn [instantiate]. destruct (Nat.compare_spec j n); try lia. reflexivity.
    + cbn [instantiate]. destruct (Nat.compare_spec k n), (Nat.compare_spec (S k) n); try lia.
      cbn [instantiate]. destruct (Nat.compare_spec j n); try lia. reflexivity.
  - f_equal. apply H. lia.
  - f_equal; auto. apply H0. lia.
  - f_equal. apply H. lia.
  - f_equal; auto. rewrite Nat.add_succ_r. apply H. lia.
Qed.

Fixpoint tlist (ts : Terms) : list Term := match ts with tnil => [] | tcons t ts => t :: tlist ts end.
Lemma tlist_cterms : forall l, tlist (cterms l) = map compile l.
Proof. induction l as [|t l IH]; cbn; [reflexivity|]. f_equal. exact IH. Qed.
Lemma tlist_len : forall l, List.length (tlist l) = tlength l.
Proof. induction l as [|t l IH]; cbn; [reflexivity|]. f_equal. exact IH. Qed.

Definition finst (l : list Term) (t : Term) : Term := fold_left (fun b a => instantiate a 0 b) l t.

Lemma finst_comm : forall p l a t, Forall (crct p 0) l -> crct p 0 a ->
  instantiate a 0 (finst l t) = finst l (instantiate a (List.length l) t).
Proof.
  intros p l a t F A. revert t. induction F as [|x l X F IH]; intro t; [reflexivity|].
  cbn [finst fold_left List.length]. fold (finst l (instantiate x 0 t)). rewrite IH.
  unfold finst. f_equal. apply (proj1 (inst_inst p a x A X)). lia.
Qed.

Lemma instl_finst : forall p ts t, crcts p 0 ts -> instantiatel ts 0 t = finst (List.rev (tlist ts)) t.
Proof.
  intro p. induction ts as [|a ts IH]; intros t C; [reflexivity|]. destruct C as [A C].
  cbn [instantiatel tlist List.rev]. rewrite IH by assumption. unfold finst at 2. rewrite fold_left_app. cbn [fold_left].
  fold (finst (List.rev (tlist ts)) t). rewrite (finst_comm p).
  - rewrite rev_length, tlist_len, Nat.add_0_r. reflexivity.
  - apply Forall_rev. clear - C. induction ts; cbn in *; constructor; intuition.
  - exact A.
Qed.

Lemma compile_substl : forall p l t, Forall (fun a => crct p 0 (compile a)) l ->
  compile (substl l t) = finst (map compile l) (compile t).
Proof.
  intros p l t F. revert t. induction F as [|a l A F IH]; intro t; [reflexivity|].
  cbn [substl finst fold_left map]. fold (substl l (csubst a 0 t)). rewrite IH.
  rewrite (compile_csubst p a A). reflexivity.
Qed.

Lemma wf_crcts : forall G l, forallb (wellformed G 0) l = true -> Forall (fun a => crct (compile_ctx G) 0 (compile a)) l.
Proof. intros G l H. apply forallb_Forall in H. eapply Forall_impl; [|exact H]. intros a W. apply wf_crct. exact W. Qed.

Lemma crcts_cterms : forall p l, Forall (fun a => crct p 0 (compile a)) l -> crcts p 0 (cterms l).
Proof. intros p l F. induction F; [exact I|]. rewrite cterms_cons. split; assumption. Qed.

Lemma compile_iota : forall G args b, forallb (wellformed G 0) args = true ->
  compile (substl (List.rev args) b) = instantiatel (cterms args) 0 (compile b).
Proof.
  intros G args b W. rewrite (compile_substl (compile_ctx G)).
  - rewrite (instl_finst (compile_ctx G)), tlist_cterms, map_rev; [reflexivity|].
    apply crcts_cterms, wf_crcts, W.
  - apply Forall_rev, wf_crcts, W.
Qed.

Lemma fix_subst_compile : forall mf n t, 
  finst (map compile (fix_subst mf n)) t = fold_left (fun bod ndx => instantiate (TFix (cdefs mf) ndx) 0 bod) (list_to_zero n) t.
Proof. intros mf. induction n as [|n IH]; intro t; [reflexivity|]. cbn [fix_subst map finst fold_left list_to_zero]. apply IH. Qed.

Lemma nth_cdefs : forall mf i, dnthBody i (cdefs mf) = option_map (fun d => compile (dbody d)) (nth_error mf i).
Proof.
  induction mf as [|d mf IH]; intro i; [destruct i; reflexivity|]. rewrite cdefs_cons. cbn [dnthBody].
  destruct i; [reflexivity|]. apply IH.
Qed.

Lemma nth_cbrs : forall l i, bnth i (cbrs l) = option_map (fun b => (List.rev (fst b), compile (snd b))) (nth_error l i).
Proof.
  induction l as [|d l IH]; intro i; [destruct i; reflexivity|]. rewrite cbrs_cons. cbn [bnth].
  destruct i; [reflexivity|]. apply IH.
Qed.

Lemma compile_unfold : forall G mf i, wellformed G 0 (tFix mf i) = true ->
  whFixStep (cdefs mf) i = option_map compile (unfold_fix mf i).
Proof.
  intros G mf i W. unfold whFixStep, unfold_fix. rewrite nth_cdefs.
  destruct (nth_error mf i) as [d|]; [|reflexivity]. cbn [option_map]. f_equal.
  rewrite (compile_substl (compile_ctx G)).
  - rewrite fix_subst_compile. unfold fix_unfold. rewrite cdefs_len. reflexivity.
  - apply wf_crcts. apply (fix_subst_wf G mf i W). lia.
Qed.

Lemma inst_lift_id : forall a,
  (forall t k, instantiate a k (lift k t) = t) /\
  (forall t k, instantiates a k (lifts k t) = t) /\
  (forall t k, instantiateBrs a k (liftBs k t) = t) /\
  (forall t k, instantiateDefs a k (liftDs k t) = t).
Proof.
  intro a. apply TrmTrmsBrsDefs_ind; intros;
    cbn [lift lifts liftBs liftDs instantiate instantiates instantiateBrs instantiateDefs]; auto; rewrite ?liftDs_len;
    try (f_equal; auto; fail).
  destruct (Nat.compare_spec n k).
  - destruct (Nat.compare_spec k (S n)); try lia. reflexivity.
  - destruct (Nat.compare_spec k n); try lia. reflexivity.
  - destruct (Nat.compare_spec k (S n)); try lia. reflexivity.
Qed.

(* ---- declarations ---- *)
Lemma npars_zero : forall G, wf_glob G = true -> forall c m, lookup_env G c = Some (InductiveDecl m) -> ind_npars m = 0.
Proof.
  induction G as [|[n d] G IH]; intros W c m L; [discriminate|]. cbn in W, L. bsplit.
  destruct (String.eqb c n); [|eauto]. injection L as ->. apply Nat.eqb_eq. assumption.
Qed.

Lemma con_npars : forall G, wf_glob G = true -> forall i c np pr a, lookup_constructor G i c = Some (np, pr, a) -> np = 0.
Proof.
  intros G W i c np pr a L. unfold lookup_constructor, lookup_inductive in L.
  destruct (lookup_env G (fst i)) as [[|m]|] eqn:E; try discriminate.
  destruct (nth_error (ind_bodies m) (snd i)) as [[p cs]|]; [|discriminate].
  destruct (nth_error cs c); [|discriminate]. injection L as <- _ _. eapply npars_zero; eauto.
Qed.

Lemma lookup_ext : forall G n d, lookup_env G n = None -> forall c x, lookup_env G c = Some x -> lookup_env ((n, d) :: G) c = Some x.
Proof.
  intros G n d F c x L. cbn. destruct (String.eqb_spec c n); [|exact L]. subst. congruence.
Qed.

Lemma lookup_inductive_ext : forall G n d, lookup_env G n = None -> forall i x, lookup_inductive G i = Some x ->
  lookup_inductive ((n, d) :: G) i = Some x.
Proof.
  intros G n d F i x L. unfold lookup_inductive in *. destruct (lookup_env G (fst i)) eqn:E; [|discriminate].
  rewrite (lookup_ext _ _ _ F _ _ E). exact L.
Qed.

Lemma wf_ext : forall G n d, lookup_env G n = None -> forall t k, wellformed G k t = true -> wellformed ((n, d) :: G) k t = true.
Proof.
  intros G n d F. apply (term_ind2 (fun t => forall k, wellformed G k t = true -> wellformed ((n, d) :: G) k t = true));
    intros; cbn [wellformed] in *; auto; bsplit.
  - rewrite H, H0; auto.
  - rewrite H, H0; auto.
  - destruct (lookup_env G c) eqn:E; [|discriminate]. rewrite (lookup_ext _ _ d F _ _ E). assumption.
  - unfold lookup_constructor in *. destruct (lookup_inductive G i) as [x|] eqn:E; [|discriminate].
    rewrite (lookup_inductive_ext _ _ d F _ _ E).
    destruct x as [np [pr cs]]. destruct (nth_error cs c); [|discriminate]. bsplit. rewrite H0. cbn.
    pose proof (forallb_mix _ _ _ _ H H1) as FF. apply forallb_forall. intros x I.
    rewrite Forall_forall in FF. destruct (FF x I). auto.
  - destruct (lookup_inductive G (fst i)) as [x|] eqn:E; [|discriminate].
    rewrite (lookup_inductive_ext _ _ d F _ _ E). destruct x as [np [pr cs]]. bsplit. rewrite H1, H by assumption. cbn.
    pose proof (forallb_mix _ _ _ _ H0 H2) as FF. apply forallb_forall. intros x I.
    rewrite Forall_forall in FF. destruct (FF x I) as [X Y]. cbn in *. auto.
  - rewrite H0, H2. cbn. pose proof (forallb_mix _ _ _ _ H H1) as FF. apply forallb_forall. intros x I.
    rewrite Forall_forall in FF. destruct (FF x I) as [X Y]. cbn in *. auto.
Qed.

Lemma const_wf : forall G, wf_glob G = true -> forall c b, lookup_env G c = Some (ConstantDecl (Some b)) -> wellformed G 0 b = true.
Proof.
  induction G as [|[n d] G IH]; intros W c b L; [discriminate|]. cbn [wf_glob] in W. bsplit.
  assert (F : lookup_env G n = None) by (destruct (lookup_env G n); [discriminate|reflexivity]).
  apply wf_ext; [exact F|]. cbn in L. destruct (String.eqb c n); [|eauto].
  injection L as ->. assumption.
Qed.

(* ---- evaluation is preserved ---- *)
Lemma stuck_compile : forall t, app_blocks t = false -> stuck_head (compile t).
Proof.
  intros t H. destruct t; try discriminate; ceq; try exact I; cbn in *; try discriminate.
Qed.

Theorem compile_ev : forall G, wf_glob G = true ->
  (forall t v, ev G t v -> wellformed G 0 t = true ->
     WcbvEval (compile_ctx G) (compile t) (compile v) /\ wellformed G 0 v = true) /\
  (forall l l', evs G l l' -> forallb (wellformed G 0) l = true ->
     WcbvEvals (compile_ctx G) (cterms l) (cterms l') /\ forallb (wellformed G 0) l' = true /\ List.length l' = List.length l).
Proof.
  intros G WG. apply ev_evs_ind; intros; try (cbn [wellformed] in *; discriminate).
  - (* box *) cbn [wellformed] in H3. bsplit. destruct (H0 H3), (H2 H4). rewrite compile_app. split; [|reflexivity].
    eapply wAppProof; eassumption.
  - (* beta *) cbn [wellformed] in H5. bsplit. destruct (H0 H5) as [E1 W1], (H2 H6) as [E2 W2].
    assert (WB : wellformed G 0 (csubst a' 0 b) = true) by (apply csubst_wf; auto).
    destruct (H4 WB) as [E3 W3]. split; [|exact W3]. rewrite compile_app.
    rewrite compile_lambda in E1. eapply wAppLam; [exact E1|exact E2|]. unfold whBetaStep.
    rewrite <- (compile_csubst (compile_ctx G)); [exact E3|]. apply wf_crct. exact W2.
  - (* zeta *) cbn [wellformed] in H3. bsplit. destruct (H0 H3) as [E1 W1].
    assert (WB : wellformed G 0 (csubst d' 0 b) = true) by (apply csubst_wf; auto).
    destruct (H2 WB) as [E3 W3]. split; [|exact W3]. rewrite compile_let.
    eapply wLetIn; [exact E1|]. rewrite <- (compile_csubst (compile_ctx G)); [exact E3|]. apply wf_crct. exact W1.
  - (* iota *) pose proof (con_npars _ WG _ _ _ _ _ H1). subst np. cbn [skipn] in *.
    cbn [wellformed] in H7. destruct (lookup_inductive G (fst (i, 0))) as [[np [pr cs]]|] eqn:LI; [|discriminate]. bsplit.
    destruct (H0 H9) as [E1 W1]. cbn [wellformed] in W1. rewrite H1 in W1. bsplit.
    unfold iota_red in *. cbn [skipn] in *.
    assert (WB : wellformed G 0 (substl (rev args) (snd br)) = true).
    { apply substl_wf.
      - apply forallb_forall. intros x I. rewrite forallb_forall in W0. apply W0. apply in_rev. exact I.
      - rewrite rev_length. rewrite forallb_forall in H8. specialize (H8 br (nth_error_In _ _ H2)).
        cbn in H8. rewrite Nat.add_0_r in H8. rewrite H4. exact H8. }
    destruct (H6 WB) as [E3 W3]. split; [|exact W3]. rewrite compile_case. cbn [fst].
    rewrite compile_con in E1. eapply wCase; [exact E1| |exact E3]. unfold whCaseStep. rewrite nth_cbrs, H2. cbn [option_map].
    rewrite rev_length, cterms_len, H4, Nat.eqb_refl. rewrite (compile_iota G) by exact W0. reflexivity.
  - (* fix *) cbn [wellformed] in H6. bsplit. destruct (H0 H6) as [E1 W1], (H3 H7) as [E2 W2].
    assert (WB : wellformed G 0 (tApp fn a') = true).
    { cbn [wellformed]. rewrite W2, (unfold_wf _ _ _ _ W1 H1). reflexivity. }
    destruct (H5 WB) as [E3 W3]. split; [|exact W3]. rewrite compile_app in *.
    rewrite compile_fix in E1. eapply wAppFix; [exact E1| |exact E2|exact E3]. rewrite (compile_unfold G _ _ W1), H1. reflexivity.
  - (* delta *) destruct (H1 (const_wf _ WG _ _ H)) as [E W]. split; [|exact W].
    eapply wConst; [|exact E]. apply lookup_dfn. exact H.
  - (* construct *) cbn [wellformed] in H3. rewrite H in H3. bsplit. destruct (H2 H4) as (E & W & L).
    split; [apply wConstruct; exact E|]. cbn [wellformed]. rewrite H, L, H3, W. reflexivity.
  - (* cong *) cbn [wellformed] in H4. bsplit. destruct (H0 H4) as [E1 W1], (H3 H5) as [E2 W2].
    rewrite !compile_app. split; [|cbn [wellformed]; rewrite W1, W2; reflexivity].
    apply wAppCong; [exact E1| |exact E2]. apply stuck_compile. assumption.
  - (* prim *) split; [apply wPrim|reflexivity].
  - (* force *) cbn [wellformed] in H3. destruct (H0 H3) as [E1 W1]. cbn [wellformed] in W1. destruct (H2 W1) as [E2 W2].
    split; [|exact W2]. rewrite compile_force. rewrite compile_lazy in E1.
    eapply wAppLam; [exact E1|apply wProof|]. unfold whBetaStep. rewrite (proj1 (inst_lift_id _)). exact E2.
  - split; [apply wProof|reflexivity].
  - split; [apply wLam|assumption].
  - split; [apply wFix|assumption].
  - split; [apply wLam|assumption].
  - split; [apply wNil|]. split; reflexivity.
  - cbn [forallb] in H3. bsplit. destruct (H0 H3) as [E1 W1], (H2 H4) as (E2 & W2 & L).
    rewrite !cterms_cons. split; [apply wCons; assumption|]. cbn. rewrite W1, W2, L. split; reflexivity.
Qed.

(* ---- evaluation is reflected, without suspensions ---- *)
Lemma strict_csubst : forall a, strict a = true -> forall t k, strict t = true -> strict (csubst a k t) = true.
Proof.
  intros a A. apply (term_ind2 (fun t => forall k, strict t = true -> strict (csubst a k t) = true));
    intros; cbn [strict csubst] in *; auto; bsplit;
    try (rewrite forallb_map; match goal with F : Forall _ ?l, B : forallb _ ?l = true |- _ =>
      pose proof (forallb_mix _ _ _ _ F B) as FF; apply forallb_forall; intros x I; rewrite Forall_forall in FF;
      destruct (FF x I) as [X Y]; cbn in *; auto end).
  - destruct (Nat.compare k n); auto.
  - rewrite H, H0; auto.
  - rewrite H, H0; auto.
  - rewrite H1, H by assumption. cbn. rewrite forallb_map.
    pose proof (forallb_mix _ _ _ _ H0 H2) as FF; apply forallb_forall; intros x I; rewrite Forall_forall in FF.
    destruct (FF x I) as [X Y]; cbn in *; auto.
  - rewrite H by assumption. cbn. rewrite forallb_map.
    pose proof (forallb_mix _ _ _ _ H0 H2) as FF; apply forallb_forall; intros x I; rewrite Forall_forall in FF.
    destruct (FF x I) as [X Y]; cbn in *; auto.
Qed.

Lemma strict_substl : forall l, forallb strict l = true -> forall t, strict t = true -> strict (substl l t) = true.
Proof.
  induction l as [|a l IH]; intros H t S; [exact S|]. cbn in H. bsplit. cbn [substl fold_left].
  apply IH; [assumption|]. apply strict_csubst; assumption.
Qed.

Lemma strict_unfold : forall mf i fn, strict (tFix mf i) = true -> unfold_fix mf i = Some fn -> strict fn = true.
Proof.
  intros mf i fn S U. unfold unfold_fix in U. destruct (nth_error mf i) as [d|] eqn:N; [|discriminate].
  injection U as <-. apply strict_substl.
  - generalize (List.length mf). induction n as [|n IH]; [reflexivity|]. cbn [fix_subst forallb]. rewrite IH, andb_true_r. exact S.
  - cbn in S. rewrite forallb_forall in S. apply (S d (nth_error_In _ _ N)).
Qed.

Lemma strict_const : forall G, strict_env G = true -> forall c b, lookup_env G c = Some (ConstantDecl (Some b)) -> strict b = true.
Proof.
  induction G as [|[n d] G IH]; intros W c b L; [discriminate|]. cbn in L.
  destruct (String.eqb c n).
  - injection L as ->. cbn in W. bsplit. assumption.
  - apply (IH) with (c := c); [|exact L]. destruct d as [[x|]|m]; cbn in W; bsplit; auto.
Qed.

Lemma not_prop : forall G, no_prop G = true -> forall i c np pr a, lookup_constructor G i c = Some (np, pr, a) -> pr = false.
Proof.
  intros G N i c np pr a L. unfold lookup_constructor, lookup_inductive in L.
  destruct (lookup_env G (fst i)) as [[|m]|] eqn:E; try discriminate.
  destruct (nth_error (ind_bodies m) (snd i)) as [[p cs]|] eqn:B; [|discriminate].
  destruct (nth_error cs c); [|discriminate]. injection L as _ <- _.
  assert (F : forallb (fun b => negb (fst b)) (ind_bodies m) = true).
  { revert E N. clear. induction G as [|[n d] G IH]; intros E N; [discriminate|]. cbn in E.
    destruct (String.eqb (fst i) n).
    - injection E as ->. cbn in N. bsplit. assumption.
    - apply IH; [exact E|]. destruct d as [[x|]|m']; cbn in N; bsplit; auto. }
  rewrite forallb_forall in F. specialize (F _ (nth_error_In _ _ B)). cbn in F. destruct p; [discriminate|reflexivity].
Qed.

Lemma weval_value : forall p,
  (forall t v, WcbvEval p t v -> stuck_head v -> False) /\ (forall l l', WcbvEvals p l l' -> True).
Proof.
  intro p. apply WcbvEvalEvals_ind; intros; auto.
Qed.

Lemma cterms_inv : forall l t ts, cterms l = tcons t ts -> exists x l', l = x :: l' /\ t = compile x /\ ts = cterms l'.
Proof.
  intros l t ts H. destruct l as [|x l]; [discriminate|]. rewrite cterms_cons in H. injection H as <- <-. eauto.
Qed.

Ltac cinv t := destruct t; try discriminate; rewrite ?compile_app in *; try discriminate.

Theorem compile_reflects : forall G, wf_glob G = true -> strict_env G = true -> no_prop G = true ->
  (forall u v, WcbvEval (compile_ctx G) u v -> forall t, u = compile t -> wellformed G 0 t = true -> strict t = true ->
     exists v', v = compile v' /\ ev G t v' /\ strict v' = true) /\
  (forall us vs, WcbvEvals (compile_ctx G) us vs -> forall l, us = cterms l -> forallb (wellformed G 0) l = true -> forallb strict l = true ->
     exists l', vs = cterms l' /\ evs G l l' /\ forallb strict l' = true).
Proof.
  intros G WG SG NP. apply WcbvEvalEvals_ind; intros.
  - (* lam *) cinv t. rewrite compile_lambda in H. injection H as -> ->. exists (tLambda n t). split; [reflexivity|].
    split; [apply ev_atom_lambda|assumption].
  - cinv t. exists tBox. repeat split. apply ev_atom_box.
  - cinv t. injection H as ->. exists (tPrim p). split; [reflexivity|]. split; [apply ev_prim|reflexivity].
  - (* app proof *) cinv t. injection H3 as -> ->. cbn [wellformed strict] in *. bsplit.
    destruct (H0 _ eq_refl) as (v' & E & V & S); [assumption..|]. cinv v'.
    destruct (H2 _ eq_refl) as (v2 & E2 & V2 & S2); [assumption..|].
    exists tBox. repeat split. eapply ev_box; eassumption.
  - (* construct *) cinv t. rewrite compile_con in H1. injection H1 as -> -> ->. cbn [wellformed strict] in *.
    destruct (lookup_constructor G i0 n) as [[[np pr] a]|] eqn:L; [|discriminate]. bsplit.
    destruct (H0 _ eq_refl) as (l' & E & V & S); [assumption..|]. subst.
    exists (tConstruct i0 n l'). split; [reflexivity|]. split; [|exact S].
    eapply ev_construct; [exact L| |exact V]. apply Nat.eqb_eq in H2. lia.
  - cinv t. rewrite compile_fix in H. injection H as -> ->. exists (tFix l n). split; [reflexivity|].
    split; [apply ev_atom_fix|assumption].
  - (* const *) cinv t0. injection H2 as ->. destruct (lookup_dfn_inv _ _ _ H) as (b & L & ->).
    destruct (H1 _ eq_refl (const_wf _ WG _ _ L) (strict_const _ SG _ _ L)) as (v' & E & V & S).
    exists v'. split; [exact E|]. split; [|exact S]. eapply ev_delta; eassumption.
  - (* beta *) cinv t. injection H5 as -> ->. cbn [wellformed strict] in *. bsplit.
    destruct (H0 _ eq_refl) as (v1 & E1 & V1 & S1); [assumption..|].
    destruct (H2 _ eq_refl) as (v2 & E2 & V2 & S2); [assumption..|].
    destruct (proj1 (compile_ev G WG) _ _ V1) as [_ W1]; [assumption|].
    destruct (proj1 (compile_ev G WG) _ _ V2) as [_ W2]; [assumption|].
    cinv v1. rewrite compile_lambda in E1. injection E1 as -> ->. subst a1'.
    cbn [wellformed strict] in W1, S1.
    destruct (H4 (csubst v2 0 v1)) as (v3 & E3 & V3 & S3).
    + unfold whBetaStep. rewrite (compile_csubst (compile_ctx G)); [reflexivity|]. apply wf_crct. exact W2.
    + apply csubst_wf; auto.
    + apply strict_csubst; auto.
    + exists v3. split; [exact E3|]. split; [|exact S3]. eapply ev_beta; eassumption.
  - (* let *) cinv t. rewrite compile_let in H3. injection H3 as -> -> ->. cbn [wellformed strict] in *. bsplit.
    destruct (H0 _ eq_refl) as (v2 & E2 & V2 & S2); [assumption..|].
    destruct (proj1 (compile_ev G WG) _ _ V2) as [_ W2]; [assumption|]. subst dfn'.
    destruct (H2 (csubst v2 0 t2)) as (v3 & E3 & V3 & S3).
    + rewrite (compile_csubst (compile_ctx G)); [reflexivity|]. apply wf_crct. exact W2.
    + apply csubst_wf; auto.
    + apply strict_csubst; auto.
    + exists v3. split; [exact E3|]. split; [|exact S3]. eapply ev_zeta; eassumption.
  - (* fix *) cinv t. injection H6 as -> ->. cbn [wellformed strict] in *. bsplit.
    destruct (H0 _ eq_refl) as (v1 & E1 & V1 & S1); [assumption..|].
    destruct (H3 _ eq_refl) as (v2 & E2 & V2 & S2); [assumption..|].
    destruct (proj1 (compile_ev G WG) _ _ V1) as [_ W1]; [assumption|].
    destruct (proj1 (compile_ev G WG) _ _ V2) as [_ W2]; [assumption|].
    cinv v1. rewrite compile_fix in E1. injection E1 as -> ->. subst a1'.
    rewrite (compile_unfold G _ _ W1) in H1. destruct (unfold_fix l n) as [fn|] eqn:U; [|discriminate].
    injection H1 as <-.
    destruct (H5 (tApp fn v2)) as (v3 & E3 & V3 & S3).
    + rewrite compile_app. reflexivity.
    + cbn [wellformed]. rewrite W2, (unfold_wf _ _ _ _ W1 U). reflexivity.
    + cbn [strict]. rewrite S2, (strict_unfold _ _ _ S1 U). reflexivity.
    + exists v3. split; [exact E3|]. split; [|exact S3]. eapply ev_fix; eassumption.
  - (* cong *) exfalso. exact (proj1 (weval_value _) _ _ H H1).
  - (* case *) cinv t. rewrite compile_case in H4. injection H4 as -> -> ->.
    cbn [wellformed strict] in *. destruct (lookup_inductive G (fst p)) as [[np0 [pr0 cs0]]|] eqn:LI; [|discriminate]. bsplit.
    destruct (H0 _ eq_refl) as (v1 & E1 & V1 & S1); [assumption..|].
    destruct (proj1 (compile_ev G WG) _ _ V1) as [_ W1]; [assumption|].
    cinv v1. rewrite compile_con in E1. injection E1 as <- <- ->.
    cbn [wellformed strict] in W1, S1. destruct (lookup_constructor G (fst p) n) as [[[np pr] a]|] eqn:L; [|discriminate]. bsplit.
    pose proof (con_npars _ WG _ _ _ _ _ L). subst np. pose proof (not_prop _ NP _ _ _ _ _ L). subst pr.
    apply Nat.eqb_eq in W1. unfold whCaseStep in H1. rewrite nth_cbrs in H1.
    destruct (nth_error l n) as [br|] eqn:NB; [|discriminate]. cbn [option_map] in H1.
    rewrite rev_length, cterms_len in H1. destruct (Nat.eqb_spec (List.length (fst br)) (List.length l0)) as [EL|]; [|discriminate].
    injection H1 as <-. destruct p as [i np]. cbn [fst snd] in *. apply Nat.eqb_eq in H6. subst np.
    destruct (H3 (substl (rev l0) (snd br))) as (v3 & E3 & V3 & S3).
    + rewrite (compile_iota G) by assumption. reflexivity.
    + apply substl_wf.
      * apply forallb_forall. intros x I. rewrite forallb_forall in W0. apply W0. apply in_rev. exact I.
      * rewrite rev_length. rewrite forallb_forall in H8. specialize (H8 br (nth_error_In _ _ NB)).
        cbn in H8. rewrite Nat.add_0_r in H8. rewrite <- EL. exact H8.
    + apply strict_substl.
      * apply forallb_forall. intros x I. rewrite forallb_forall in S1. apply S1. apply in_rev. exact I.
      * rewrite forallb_forall in H4. exact (H4 br (nth_error_In _ _ NB)).
    + exists v3. split; [exact E3|]. split; [|exact S3].
      eapply ev_iota; [exact V1|exact L|exact NB|symmetry; exact W1|cbn [skipn]; symmetry; exact EL|exact V3].
  - destruct l; [|discriminate]. exists []. repeat split. constructor.
  - symmetry in H3. apply cterms_inv in H3 as (x & l' & -> & -> & ->). cbn in H4, H5. bsplit.
    destruct (H0 _ eq_refl) as (v1 & E1 & V1 & S1); [assumption..|].
    destruct (H2 _ eq_refl) as (v2 & E2 & V2 & S2); [assumption..|].
    exists (v1 :: v2). rewrite cterms_cons. subst. split; [reflexivity|]. split; [constructor; assumption|].
    cbn. rewrite S1, S2. reflexivity.
Qed.

(* ---- error nodes ---- *)
Lemma lift_no_wrong :
  (forall t k, no_wrong (lift k t) = no_wrong t) /\
  (forall t k, no_wrongs (lifts k t) = no_wrongs t) /\
  (forall t k, no_wrongBs (liftBs k t) = no_wrongBs t) /\
  (forall t k, no_wrongDs (liftDs k t) = no_wrongDs t).
Proof.
  apply TrmTrmsBrsDefs_ind; intros; cbn [lift lifts liftBs liftDs no_wrong no_wrongs no_wrongBs no_wrongDs];
    rewrite ?H, ?H0; auto.
Qed.

Lemma compile_supported : forall t, no_wrong (compile t) = supported t.
Proof.
  apply term_ind2; intros; ceq; cbn [no_wrong supported]; try reflexivity; rewrite ?H, ?H0, ?andb_true_r; try reflexivity.
  - induction H as [|t l Ht _ IH]; [reflexivity|]. rewrite cterms_cons. cbn. rewrite Ht, IH. reflexivity.
  - f_equal. induction H0 as [|t l Ht _ IH]; [reflexivity|]. rewrite cbrs_cons. cbn. rewrite Ht, IH. reflexivity.
  - induction H as [|t l Ht _ IH]; [reflexivity|]. rewrite cdefs_cons. cbn. rewrite Ht, IH. reflexivity.
  - rewrite (proj1 lift_no_wrong). exact H.
Qed.

(* ---- data ---- *)
Lemma translated_compile : forall v u, translated v u -> u = compile v.
Proof.
  fix IH 3. intros v u D. destruct D as [|w|i c l ts D]; [reflexivity|reflexivity|].
  rewrite compile_con. f_equal. revert l ts D. fix IHs 3. intros l ts D.
  destruct D as [|t u l ts D Ds]; [reflexivity|]. rewrite cterms_cons. f_equal; [apply IH; exact D|apply IHs; exact Ds].
Qed.
