(** Proofs about sizes of programs, values and environments. *)
From Coq Require Import ZArith NArith List Bool Lia.
From Verif Require Import ANF_Syntax ANF_Eval ANF_Spec ANF_FreeProofs SV_Model SZ_Model SZ_Spec.
Import ListNotations.

(** ** Programs *)
Fixpoint size_branches (l : list (ctor_tag * exp)) : nat :=
  match l with [] => 0 | p :: l => sizeOf_exp (snd p) + size_branches l end.

Lemma sizeOf_Ecase x l : sizeOf_exp (Ecase x l) = S (size_branches l).
Proof.
  cbn. f_equal. induction l as [|[t e] l IH]; [reflexivity|]. cbn. rewrite IH. reflexivity.
Qed.

Lemma sizeOf_exp_pos e : 1 <= sizeOf_exp e.
Proof.
  revert e.
  cut ((forall e, 1 <= sizeOf_exp e) /\ (forall _ : fundefs, True)); [intros [H _]; exact H|].
  apply exp_fundefs_ind; intros; cbn [sizeOf_exp] in *; try lia; exact I.
Qed.

Lemma cover :
  (forall e, exists L, length L <= sizeOf_exp e /\ forall x, free x e -> In x L) /\
  (forall B, exists L, length L <= sizeOf_fundefs B /\ forall x, free_body x B -> In x L).
Proof.
  apply exp_fundefs_ind.
  - intros y t ys e (L & H & G). exists (ys ++ L). cbn. rewrite app_length. split; [lia|].
    intros x F. apply in_or_app. intuition.
  - intros y l F.
    assert (exists L, length L <= size_branches l /\ forall x, free_case x l -> In x L)
      as (L & H & G).
    { induction F as [|p l (L1 & H1 & G1) F (L & H & G)].
      - exists []. cbn. split; [lia|tauto].
      - exists (L1 ++ L). cbn. rewrite app_length. split; [lia|].
        intros x [Hx|Hx]; apply in_or_app; auto. }
    exists (y :: L). rewrite sizeOf_Ecase. cbn [length]. split; [lia|].
    intros x Fx. apply free_Ecase in Fx as [->|Fx]; [left; auto|right; auto].
  - intros y t n z e (L & H & G). exists (z :: L). cbn. split; [lia|]. intros x [->|[_ F]]; auto.
  - intros y f t ys e (L & H & G). exists (f :: ys ++ L). cbn. rewrite app_length. split; [lia|].
    intros x [->|[F|[_ F]]]; auto; right; apply in_or_app; auto.
  - intros B e (LB & HB & GB) (L & H & G). exists (LB ++ L). cbn. rewrite app_length. split; [lia|].
    intros x [_ [F|F]]; apply in_or_app; auto.
  - intros f t ys. exists (f :: ys). cbn. split; [lia|]. intros x F. intuition.
  - intros y p e (L & H & G). exists L. cbn. split; [lia|]. intros x [_ F]. auto.
  - intros y p ys e (L & H & G). exists (ys ++ L). cbn. rewrite app_length. split; [lia|].
    intros x F. apply in_or_app. intuition.
  - intros y. exists [y]. cbn. split; [lia|]. intros x F. intuition.
  - intros f t xs e B (L & H & G) (LB & HB & GB). exists (L ++ LB). cbn. rewrite app_length.
    split; [lia|]. intros x [[_ F]|F]; apply in_or_app; auto.
  - exists []. cbn. split; [lia|tauto].
Qed.

Lemma free_count e xs : NoDup xs -> (forall x, In x xs -> free x e) -> length xs <= sizeOf_exp e.
Proof.
  intros N H. destruct (proj1 cover e) as (L & HL & G).
  apply (Nat.le_trans _ (length L)); [|exact HL]. apply NoDup_incl_length; [exact N|].
  intros x I. auto.
Qed.

Lemma free_funs_count B xs :
  NoDup xs -> (forall x, In x xs -> free_funs x B) -> length xs <= sizeOf_fundefs B.
Proof.
  intros N H. destruct (proj2 cover B) as (L & HL & G).
  apply (Nat.le_trans _ (length L)); [|exact HL]. apply NoDup_incl_length; [exact N|].
  intros x I. apply G, H, I.
Qed.

Lemma cost_le_size e : cost_cc e <= sizeOf_exp e.
Proof.
  destruct e; cbn; try lia.
  - pose proof (sizeOf_exp_pos e). lia.
  - assert (length (fundefs_fv f) <= sizeOf_fundefs f); [|lia].
    apply free_funs_count.
    + apply (proj2 exp_fv_aux_NoDup). constructor.
    + intros x I. apply fundefs_fv_spec, I.
Qed.

Lemma written_le_num :
  (forall e, written e <= num_fundefs_in_exp e) /\
  (forall B, written_in B <= num_fundefs_in_fundefs B).
Proof.
  apply exp_fundefs_ind; intros; cbn; try lia.
  induction H as [|[c e] l Hp F IH]; [lia|]. cbn [snd] in *. lia.
Qed.

(** ** Maxima *)
Lemma max_list_le {A} (f : A -> nat) l : forall i n,
  max_list_nat_with_measure f i l <= n <-> i <= n /\ Forall (fun v => f v <= n) l.
Proof.
  unfold max_list_nat_with_measure. induction l as [|a l IH]; intros i n; cbn [fold_left].
  - split; [split; [auto|constructor]|tauto].
  - rewrite IH. split.
    + intros [H F]. split; [lia|]. constructor; [lia|exact F].
    + intros [H F]. inversion F; subst. split; [lia|assumption].
Qed.

Lemma elements_get {A} (m : tmap A) x v : In (x, v) (elements m) <-> get x m = Some v.
Proof.
  induction m as [|[y w] m IH]; cbn; [split; [tauto|discriminate]|].
  rewrite filter_In, IH. cbn [fst]. destruct (Pos.eq_dec x y) as [->|n].
  - rewrite Pos.eqb_refl. cbn. split.
    + intros [E|[_ E]]; [injection E as ->; reflexivity|discriminate].
    + intros E. left. congruence.
  - rewrite (proj2 (Pos.eqb_neq x y) n). cbn. split.
    + intros [E|[E _]]; [congruence|exact E].
    + intros E. right. auto.
Qed.

Lemma max_env_le {A} (f : A -> nat) m n :
  max_ptree_with_measure f 0 m <= n <-> forall x v, get x m = Some v -> f v <= n.
Proof.
  unfold max_ptree_with_measure.
  assert (E : forall (l : list (positive * A)) i,
    fold_left (fun c p => max c (f (snd p))) l i <= n <->
    i <= n /\ forall x v, In (x, v) l -> f v <= n).
  { induction l as [|[y w] l IH]; intro i; cbn [fold_left].
    - split; [|tauto]. intro; split; [auto|]. intros x v [].
    - rewrite IH. cbn [snd]. split.
      + intros [H F]. split; [lia|]. intros x v [E|I]; [injection E as <- <-; lia|eauto].
      + intros [H F]. split; [pose proof (F y w (or_introl eq_refl)); lia|].
        intros x v I. apply (F x). right. exact I. }
  rewrite E. split.
  - intros [_ F] x v G. apply (F x). apply elements_get, G.
  - intros F. split; [lia|]. intros x v I. apply (F x). apply elements_get, I.
Qed.

Lemma env_le k rho n : sizeOf_env k rho <= n <-> forall x v, get x rho = Some v -> sizeOf_val k v <= n.
Proof. apply max_env_le. Qed.

Lemma env_get k rho x v : get x rho = Some v -> sizeOf_val k v <= sizeOf_env k rho.
Proof. apply (proj1 (env_le k rho (sizeOf_env k rho)) (le_n _)). Qed.

Lemma env_set_le k rho x v : sizeOf_env k (set x v rho) <= max (sizeOf_val k v) (sizeOf_env k rho).
Proof.
  apply env_le. intros y w G. rewrite get_set in G. destruct (Pos.eq_dec y x) as [->|].
  - injection G as ->. lia.
  - pose proof (env_get k rho y w G). lia.
Qed.

Lemma env_set_eq k rho x v :
  (forall w, get x rho = Some w -> sizeOf_val k w <= sizeOf_env k (set x v rho)) ->
  sizeOf_env k (set x v rho) = max (sizeOf_val k v) (sizeOf_env k rho).
Proof.
  intros H. apply Nat.le_antisymm; [apply env_set_le|]. apply Nat.max_lub.
  - apply (env_get k (set x v rho) x). apply get_set_same.
  - apply env_le. intros y w G. destruct (Pos.eq_dec y x) as [->|n]; [auto|].
    apply (env_get k (set x v rho) y). rewrite get_set_other by exact n. exact G.
Qed.

Lemma env_set_lists_le k : forall xs vs rho rho',
  set_lists xs vs rho = Some rho' ->
  sizeOf_env k rho' <= max (max_list_nat_with_measure (sizeOf_val k) 0 vs) (sizeOf_env k rho).
Proof.
  induction xs as [|x xs IH]; intros [|v vs] rho rho' H; cbn in H; try discriminate.
  - injection H as <-. lia.
  - destruct (set_lists xs vs rho) as [r|] eqn:E; [|discriminate]. injection H as <-.
    pose proof (env_set_le k r x v). pose proof (IH _ _ _ E).
    set (M := max_list_nat_with_measure (sizeOf_val k) 0 (v :: vs)).
    assert (F : Forall (fun w => sizeOf_val k w <= M) (v :: vs)) by (apply (max_list_le _ _ 0); apply le_n).
    inversion F; subst.
    assert (max_list_nat_with_measure (sizeOf_val k) 0 vs <= M) by (apply max_list_le; split; [lia|assumption]).
    lia.
Qed.

Lemma set_lists_fresh {A} : forall xs (vs : list A) rho rho' x,
  set_lists xs vs rho = Some rho' -> ~ In x xs -> get x rho' = get x rho.
Proof.
  induction xs as [|y xs IH]; intros [|v vs] rho rho' x H N; cbn in H; try discriminate.
  - congruence.
  - destruct (set_lists xs vs rho) as [r|] eqn:E; [|discriminate]. injection H as <-.
    cbn in N. rewrite get_set_other by intuition. apply (IH _ _ _ _ E). tauto.
Qed.

Lemma env_set_lists_eq k : forall xs vs rho rho',
  set_lists xs vs rho = Some rho' -> NoDup xs -> (forall x, In x xs -> get x rho = None) ->
  sizeOf_env k rho' = max (max_list_nat_with_measure (sizeOf_val k) 0 vs) (sizeOf_env k rho).
Proof.
  induction xs as [|x xs IH]; intros [|v vs] rho rho' H N Fr; cbn in H; try discriminate.
  - injection H as <-. reflexivity.
  - destruct (set_lists xs vs rho) as [r|] eqn:E; [|discriminate]. injection H as <-.
    inversion N; subst. apply Nat.le_antisymm.
    { apply (env_set_lists_le k (x :: xs) (v :: vs)). cbn. rewrite E. reflexivity. }
    rewrite env_set_eq.
    2:{ intros w G. rewrite (set_lists_fresh _ _ _ _ _ E) in G by assumption.
        rewrite Fr in G by (left; reflexivity). discriminate. }
    rewrite (IH _ _ _ E) by (try assumption; intros y I; apply Fr; right; exact I).
    apply Nat.max_lub; [|lia]. apply max_list_le. split; [lia|]. constructor; [lia|].
    assert (Forall (fun w => sizeOf_val k w <= max_list_nat_with_measure (sizeOf_val k) 0 vs) vs) as F
      by (apply (max_list_le _ _ 0); apply le_n).
    eapply Forall_impl; [|exact F]. cbn. intros; lia.
Qed.

(** ** Values *)
Lemma val_ind2 (P : val -> Prop) :
  (forall t vs, Forall P vs -> P (Vconstr t vs)) ->
  (forall rho B f, Forall (fun p => P (snd p)) rho -> P (Vfun rho B f)) ->
  (forall p, P (Vprim p)) -> (forall z, P (Vint z)) -> forall v, P v.
Proof.
  intros Hc Hf Hp Hi. fix go 1. intros [t vs|rho B f|p|z].
  - apply Hc. induction vs; constructor; auto.
  - apply Hf. induction rho as [|[x w] rho IH]; constructor; [apply go|exact IH].
  - apply Hp.
  - apply Hi.
Qed.

Lemma get_Forall {A} (Q : A -> Prop) (m : tmap A) x v :
  Forall (fun p => Q (snd p)) m -> get x m = Some v -> Q v.
Proof.
  induction 1 as [|[y w] m H F IH]; cbn; [discriminate|].
  destruct (Pos.eq_dec x y); [intro E; injection E as <-; exact H|exact IH].
Qed.

Lemma val_constr k t vs n : sizeOf_val k (Vconstr t vs) <= n <-> Forall (fun v => sizeOf_val k v <= n) vs.
Proof.
  destruct k.
  - cbn. split; [|lia]. intros _. induction vs; constructor; [cbn; lia|assumption].
  - change (sizeOf_val (S k) (Vconstr t vs)) with (max_list_nat_with_measure (sizeOf_val (S k)) 0 vs).
    rewrite max_list_le. split; [tauto|]. split; [lia|assumption].
Qed.

Lemma val_fun k rho B f n :
  sizeOf_val (S k) (Vfun rho B f) <= n <-> sizeOf_fundefs B <= n /\ sizeOf_env k rho <= n.
Proof.
  change (sizeOf_val (S k) (Vfun rho B f)) with (max (sizeOf_fundefs B) (sizeOf_env k rho)).
  split; [lia|]. intros [? ?]. lia.
Qed.

Lemma val_mono v : forall k k', k <= k' -> sizeOf_val k v <= sizeOf_val k' v.
Proof.
  induction v as [t vs IH|rho B f IH|p|z] using val_ind2; intros k k' L.
  - apply val_constr.
    assert (F : Forall (fun v => sizeOf_val k' v <= sizeOf_val k' (Vconstr t vs)) vs)
      by (apply (val_constr k' t); apply le_n).
    revert F. generalize (sizeOf_val k' (Vconstr t vs)). intros n F.
    induction IH as [|v vs Hv IH IHvs]; constructor; inversion F; subst.
    + pose proof (Hv _ _ L). lia.
    + apply IHvs. assumption.
  - destruct k; [cbn; lia|]. destruct k' as [|k']; [lia|].
    pose proof (proj1 (val_fun k' rho B f _) (le_n _)) as [HB HE].
    apply val_fun. split; [exact HB|]. apply env_le. intros x v G.
    pose proof (get_Forall (fun v => forall k k', k <= k' -> sizeOf_val k v <= sizeOf_val k' v) _ _ _ IH G k k'
      ltac:(lia)) as M. cbn beta in M.
    pose proof (env_get k' rho x v G). lia.
  - destruct k, k'; cbn; lia.
  - destruct k, k'; cbn; lia.
Qed.

Lemma env_mono rho k k' : k <= k' -> sizeOf_env k rho <= sizeOf_env k' rho.
Proof.
  intros L. apply env_le. intros x v G. pose proof (val_mono v k k' L).
  pose proof (env_get k' rho x v G). lia.
Qed.

Lemma blocks_size v n :
  (forall k, sizeOf_val k v <= n) <-> blocks (fun B => sizeOf_fundefs B <= n) v.
Proof.
  induction v as [t vs IH|rho B f IH|p|z] using val_ind2.
  - split.
    + intros H. constructor.
      assert (F : Forall (fun v => forall k, sizeOf_val k v <= n) vs).
      { apply Forall_forall. intros v I k. pose proof (proj1 (val_constr k t vs n) (H k)) as F.
        rewrite Forall_forall in F. apply F, I. }
      clear H. induction IH as [|v vs Hv IH IHvs]; constructor; inversion F; subst.
      * apply Hv. assumption.
      * apply IHvs. assumption.
    + intros H k. apply val_constr. inversion H as [? ? F| | |]; subst. clear H.
      induction IH as [|v vs Hv IH IHvs]; constructor; inversion F; subst.
      * apply Hv. assumption.
      * apply IHvs. assumption.
  - split.
    + intros H. constructor.
      * apply (val_fun 0 rho B f n). apply H.
      * intros x v G. apply (get_Forall (fun v => (forall k, sizeOf_val k v <= n) <-> blocks (fun B => sizeOf_fundefs B <= n) v) _ _ _ IH G). intros k.
        pose proof (proj2 (proj1 (val_fun k rho B f n) (H (S k)))) as E.
        pose proof (env_get k rho x v G). lia.
    + intros H k. inversion H as [|? ? ? HB HE| |]; subst. destruct k; [cbn; lia|].
      apply val_fun. split; [exact HB|]. apply env_le. intros x v G.
      apply (get_Forall (fun v => (forall k, sizeOf_val k v <= n) <-> blocks (fun B => sizeOf_fundefs B <= n) v) _ _ _ IH G). eauto.
  - split; [constructor|]. intros _ [|k]; cbn; lia.
  - split; [constructor|]. intros _ [|k]; cbn; lia.
Qed.

Lemma val_stable v : exists k0, forall k, sizeOf_val k v <= sizeOf_val k0 v.
Proof.
  induction v as [t vs IH|rho B f IH|p|z] using val_ind2.
  - assert (exists k0, Forall (fun v => forall k, sizeOf_val k v <= sizeOf_val k0 v) vs) as (k0 & F).
    { induction IH as [|v vs (k1 & H1) IH (k2 & H2)]; [exists 0; constructor|].
      exists (max k1 k2). constructor.
      - intro k. pose proof (H1 k). pose proof (val_mono v k1 (max k1 k2) ltac:(lia)). lia.
      - eapply Forall_impl; [|exact H2]. cbn. intros w Hw k. pose proof (Hw k).
        pose proof (val_mono w k2 (max k1 k2) ltac:(lia)). lia. }
    exists k0. intro k. apply val_constr.
    pose proof (proj1 (val_constr k0 t vs _) (le_n _)) as F0.
    rewrite Forall_forall in *. intros v I. pose proof (F v I k). pose proof (F0 v I). cbn in *. lia.
  - assert (exists k0, forall x v k, get x rho = Some v -> sizeOf_val k v <= sizeOf_val k0 v) as (k0 & F).
    { induction IH as [|[y w] m (k1 & H1) IH (k2 & H2)]; [exists 0; discriminate|].
      cbn [snd] in H1. exists (max k1 k2). intros x v k G. cbn in G.
      destruct (Pos.eq_dec x y).
      - injection G as <-. pose proof (H1 k). pose proof (val_mono w k1 (max k1 k2) ltac:(lia)). lia.
      - pose proof (H2 _ _ k G). pose proof (val_mono v k2 (max k1 k2) ltac:(lia)). lia. }
    exists (S k0). intros [|k]; [cbn; lia|].
    pose proof (proj1 (val_fun k0 rho B f _) (le_n _)) as [HB HE].
    apply val_fun. split; [exact HB|]. apply env_le. intros x v G.
    pose proof (F x v k G). pose proof (env_get k0 rho x v G). lia.
  - exists 0. intros [|k]; cbn; lia.
  - exists 0. intros [|k]; cbn; lia.
Qed.

(** ** Evaluation *)
Definition small (n : nat) : val -> Prop := blocks (fun B => sizeOf_fundefs B <= n).
Definition small_env (n : nat) (rho : env) : Prop := forall x v, get x rho = Some v -> small n v.

Lemma small_set n x v rho : small n v -> small_env n rho -> small_env n (set x v rho).
Proof.
  intros H E y w G. rewrite get_set in G. destruct (Pos.eq_dec y x); [congruence|eauto].
Qed.

Lemma small_get_list n rho : small_env n rho -> forall xs vs,
  get_list xs rho = Some vs -> Forall (small n) vs.
Proof.
  intros E. induction xs as [|x xs IH]; intros vs G; cbn in G.
  - injection G as <-. constructor.
  - destruct (get x rho) eqn:G1; [|discriminate]. destruct (get_list xs rho) eqn:G2; [|discriminate].
    injection G as <-. constructor; [eapply E; eassumption|]. apply IH. reflexivity.
Qed.

Lemma small_set_lists n rho : small_env n rho -> forall xs vs rho',
  Forall (small n) vs -> set_lists xs vs rho = Some rho' -> small_env n rho'.
Proof.
  intros E. induction xs as [|x xs IH]; intros [|v vs] rho' F H; cbn in H; try discriminate.
  - injection H as <-. exact E.
  - destruct (set_lists xs vs rho) as [r|] eqn:Er; [|discriminate]. injection H as <-.
    inversion F; subst. apply small_set; [assumption|]. eapply IH; eassumption.
Qed.

Lemma small_def_funs n B0 rho0 : sizeOf_fundefs B0 <= n -> small_env n rho0 -> forall B rho,
  small_env n rho -> small_env n (def_funs B0 B rho0 rho).
Proof.
  intros HB H0. induction B as [f t xs e B IH|]; intros rho E; cbn.
  - apply small_set; [constructor; [exact HB|exact H0]|]. apply IH, E.
  - exact E.
Qed.

Lemma find_def_size f B t xs e : find_def f B = Some (t, xs, e) -> sizeOf_exp e <= sizeOf_fundefs B.
Proof.
  induction B as [g t' ys e' B IH|]; cbn; [|discriminate].
  destruct (Pos.eq_dec f g); intro H; [injection H as -> -> ->; lia|]. specialize (IH H). lia.
Qed.

Lemma findtag_size l c e x : findtag l c = Some e -> sizeOf_exp e <= sizeOf_exp (Ecase x l).
Proof.
  rewrite sizeOf_Ecase. induction l as [|[c' e'] l IH]; cbn; [discriminate|].
  destruct (Pos.eq_dec c' c); intro H; [injection H as ->; lia|]. specialize (IH H). lia.
Qed.

Lemma small_nth n : forall vs m v, Forall (small n) vs -> nthN vs m = Some v -> small n v.
Proof.
  induction vs as [|w vs IH]; intros m v F H; cbn in H; [discriminate|]. inversion F; subst.
  destruct (N.eqb m 0); [congruence|eauto].
Qed.

Section Run.
Variable pr : prims.
Variable cenv : ctor_env.
Variable n : nat.
Hypothesis PR : forall f g vs v,
  get f pr = Some g -> g vs = Some v -> Forall (small n) vs -> small n v.

Lemma run_small rho e v c : bstep_e pr cenv rho e v c ->
  small_env n rho -> sizeOf_exp e <= n -> small n v.
Proof.
  induction 1; intros E L.
  - apply IHbstep_e; [|cbn in L; lia]. apply small_set; [|exact E]. constructor.
    eapply small_get_list; eassumption.
  - apply IHbstep_e; [|cbn in L; lia]. apply small_set; [|exact E].
    pose proof (E _ _ H) as S1. inversion S1; subst. eapply small_nth; eassumption.
  - apply IHbstep_e; [exact E|]. pose proof (findtag_size _ _ _ y H1). lia.
  - pose proof (E _ _ H) as S1. inversion S1 as [|? ? ? HB HE| |]; subst.
    apply IHbstep_e.
    + refine (small_set_lists n _ _ _ _ _ (small_get_list n _ E _ _ H0) H2).
      apply small_def_funs; assumption.
    + pose proof (find_def_size _ _ _ _ _ H1). lia.
  - pose proof (E _ _ H) as S1. inversion S1 as [|? ? ? HB HE| |]; subst.
    apply IHbstep_e2; [|cbn in L; lia]. apply small_set; [|exact E].
    apply IHbstep_e1.
    + refine (small_set_lists n _ _ _ _ _ (small_get_list n _ E _ _ H0) H2).
      apply small_def_funs; assumption.
    + pose proof (find_def_size _ _ _ _ _ H1). lia.
  - cbn in L. apply IHbstep_e; [|lia]. apply small_def_funs; [lia|exact E|exact E].
  - cbn in L. apply IHbstep_e; [|lia]. apply small_set; [constructor|exact E].
  - cbn in L. apply IHbstep_e; [|lia]. apply small_set; [|exact E].
    eapply PR; [eassumption|eassumption|]. eapply small_get_list; eassumption.
  - eapply E; eassumption.
Qed.
End Run.
