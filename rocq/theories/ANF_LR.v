(** * A step-indexed simulation relation for LambdaANF programs

    A proof device (nothing here is part of the compiler): two programs are
    related when every outcome of the first within [k] steps is matched by a
    related outcome of the second, the numbers of steps being related by a
    predicate; two closures are related when they answer related arguments by
    related programs.  The same idea as theories/LambdaANF/logical_relations.v,
    with one simplification: costs are plain step counts. *)
From Coq Require Import ZArith NArith List Lia Bool.
From Verif Require Import ANF_Syntax ANF_Eval ANF_Spec ANF_EvalProofs ANF_FreeProofs.
Import ListNotations.

(** Relation between the costs of two runs; the boolean says whether they
    finished. *)
Definition cost_rel := bool -> nat -> nat -> Prop.

Definition is_res (r : res val) : bool := match r with Res _ => true | OOT => false end.

Section LR.
  Variable cenv : ctor_env.
  (** cost relation for bodies of functions *)
  Variable PG : cost_rel.

  Definition res_rel (R : val -> val -> Prop) (r1 r2 : res val) : Prop :=
    match r1, r2 with
    | OOT, OOT => True
    | Res v1, Res v2 => R v1 v2
    | _, _ => False
    end.

  (** [R i]: relation on values with [i] steps left *)
  Definition erel (R : nat -> val -> val -> Prop) (P : cost_rel) (k : nat)
             (rho1 : env) (e1 : exp) (rho2 : env) (e2 : exp) : Prop :=
    forall c1 r1, c1 <= k -> bstep_fuel cenv rho1 e1 c1 r1 ->
      exists c2 r2, bstep_fuel cenv rho2 e2 c2 r2 /\ P (is_res r1) c1 c2 /\
                    res_rel (R (k - c1)) r1 r2.

  Fixpoint vrel (k : nat) {struct k} : val -> val -> Prop :=
    fix vk (v1 v2 : val) {struct v1} : Prop :=
      match v1, v2 with
      | Vconstr t1 vs1, Vconstr t2 vs2 =>
          t1 = t2 /\
          (fix go (vs1 vs2 : list val) : Prop :=
             match vs1, vs2 with
             | [], [] => True
             | v1 :: vs1, v2 :: vs2 => vk v1 v2 /\ go vs1 vs2
             | _, _ => False
             end) vs1 vs2
      | Vfun rho1 B1 f1, Vfun rho2 B2 f2 =>
          forall t xs1 e1 vs1 rho1' (vs2 : list val),
            find_def f1 B1 = Some (t, xs1, e1) ->
            set_lists xs1 vs1 (def_funs B1 B1 rho1 rho1) = Some rho1' ->
            length vs1 = length vs2 ->
            exists xs2 e2 rho2',
              find_def f2 B2 = Some (t, xs2, e2) /\
              set_lists xs2 vs2 (def_funs B2 B2 rho2 rho2) = Some rho2' /\
              match k with
              | O => True
              | S k' => forall j, j <= k' -> Forall2 (vrel (k' - (k' - j))) vs1 vs2 ->
                  forall c1 r1, c1 <= j -> bstep_fuel cenv rho1' e1 c1 r1 ->
                    exists c2 r2, bstep_fuel cenv rho2' e2 c2 r2 /\ PG (is_res r1) c1 c2 /\
                                  res_rel (vrel (k' - (k' - (j - c1)))) r1 r2
              end
      | Vprim p1, Vprim p2 => p1 = p2
      | Vint z1, Vint z2 => z1 = z2
      | _, _ => False
      end.

  Lemma vrel_constr k t1 vs1 t2 vs2 :
    vrel k (Vconstr t1 vs1) (Vconstr t2 vs2) <-> t1 = t2 /\ Forall2 (vrel k) vs1 vs2.
  Proof.
    assert (A : forall vs1 vs2,
      (fix go (vs1 vs2 : list val) : Prop :=
             match vs1, vs2 with
             | [], [] => True
             | v1 :: vs1, v2 :: vs2 => vrel k v1 v2 /\ go vs1 vs2
             | _, _ => False
             end) vs1 vs2 <-> Forall2 (vrel k) vs1 vs2).
    { clear. induction vs1 as [|v1 vs1 IH]; destruct vs2 as [|v2 vs2]; split; intro H;
        try (inversion H; fail); auto.
      - constructor; [apply H|apply IH; apply H].
      - inversion H; subst. split; auto. apply IH; auto. }
    rewrite <- A. destruct k; reflexivity.
  Qed.

  Lemma vrel_fun k rho1 B1 f1 rho2 B2 f2 :
    vrel k (Vfun rho1 B1 f1) (Vfun rho2 B2 f2) <->
    (forall t xs1 e1 vs1 rho1' (vs2 : list val),
       find_def f1 B1 = Some (t, xs1, e1) ->
       set_lists xs1 vs1 (def_funs B1 B1 rho1 rho1) = Some rho1' ->
       length vs1 = length vs2 ->
       exists xs2 e2 rho2',
         find_def f2 B2 = Some (t, xs2, e2) /\
         set_lists xs2 vs2 (def_funs B2 B2 rho2 rho2) = Some rho2' /\
         forall j, j < k -> Forall2 (vrel j) vs1 vs2 ->
           erel vrel PG j rho1' e1 rho2' e2).
  Proof.
    assert (D : forall a b, b <= a -> a - (a - b) = b) by (intros; lia).
    destruct k; split; intros H t xs1 e1 vs1 rho1' vs2 F S L;
      destruct (H t xs1 e1 vs1 rho1' vs2 F S L) as (xs2 & e2 & rho2' & F2 & S2 & H2);
      exists xs2, e2, rho2'; (split; [exact F2|split; [exact S2|]]); auto.
    - intros. lia.
    - intros j J FA c1 r1 C1 BS.
      destruct (H2 j ltac:(lia)) with (c1 := c1) (r1 := r1) as (c2 & r2 & A1 & A2 & A3); auto.
      + rewrite D by lia. exact FA.
      + exists c2, r2. split; [auto|split; [auto|]]. rewrite D in A3 by lia. exact A3.
    - intros j J FA c1 r1 C1 BS. rewrite D in FA by lia.
      destruct (H2 j ltac:(lia) FA c1 r1 C1 BS) as (c2 & r2 & A1 & A2 & A3).
      exists c2, r2. split; [auto|split; [auto|]]. rewrite D by lia. exact A3.
  Qed.

  Lemma vrel_mono : forall k j, j <= k -> forall v1 v2, vrel k v1 v2 -> vrel j v1 v2.
  Proof.
    intros k j J.
    apply (val_ind2 (fun v1 => forall v2, vrel k v1 v2 -> vrel j v1 v2)).
    - intros t1 vs1 F [t2 vs2| | |] H; try (destruct k; destruct H; fail).
      apply vrel_constr in H. apply vrel_constr. destruct H as [E H]. split; [auto|].
      clear E. revert vs2 H. induction F as [|v1 vs1 P1 F IHl]; intros vs2 H; inversion H; subst; constructor; auto.
    - intros rho1 B1 f1 _ [|rho2 B2 f2| |] H; try (destruct k; destruct H; fail).
      rewrite vrel_fun in H |- *. intros t xs1 e1 vs1 rho1' vs2 F S L.
      destruct (H t xs1 e1 vs1 rho1' vs2 F S L) as (xs2 & e2 & rho2' & F2 & S2 & H2).
      exists xs2, e2, rho2'. split; [auto|split; [auto|]]. intros i I. apply H2. lia.
    - intros p v2 H. destruct v2; destruct k, j; exact H.
    - intros z v2 H. destruct v2; destruct k, j; exact H.
  Qed.

  Lemma Forall2_vrel_mono k j vs1 vs2 : j <= k ->
    Forall2 (vrel k) vs1 vs2 -> Forall2 (vrel j) vs1 vs2.
  Proof. intros J H. induction H; constructor; auto. eapply vrel_mono; eauto. Qed.

  Lemma erel_mono P k j rho1 e1 rho2 e2 : j <= k ->
    erel vrel P k rho1 e1 rho2 e2 -> erel vrel P j rho1 e1 rho2 e2.
  Proof.
    intros J H c1 r1 C B. destruct (H c1 r1 ltac:(lia) B) as (c2 & r2 & A1 & A2 & A3).
    exists c2, r2. split; [auto|split; [auto|]].
    destruct r1, r2; cbn in *; auto. eapply vrel_mono; [|exact A3]. lia.
  Qed.

  Lemma erel_weaken (P P' : cost_rel) k rho1 e1 rho2 e2 :
    (forall b c1 c2, P b c1 c2 -> P' b c1 c2) ->
    erel vrel P k rho1 e1 rho2 e2 -> erel vrel P' k rho1 e1 rho2 e2.
  Proof.
    intros W H c1 r1 C B. destruct (H c1 r1 C B) as (c2 & r2 & A1 & A2 & A3).
    exists c2, r2. auto.
  Qed.

  (** related on data: equal *)
  Lemma vrel_data k : forall v1 v2, vrel k v1 v2 -> data v1 -> v2 = v1.
  Proof.
    apply (val_ind2 (fun v1 => forall v2, vrel k v1 v2 -> data v1 -> v2 = v1)).
    - intros t1 vs1 F [t2 vs2| | |] H D; try (destruct k; destruct H; fail).
      apply vrel_constr in H as [<- H]. f_equal. cbn in D.
      revert vs2 H D. induction F as [|v1 vs1 P1 F IHl]; intros vs2 H D; inversion H; subst; auto.
      f_equal; [apply P1; [auto|apply D]|apply IHl; [auto|apply D]].
    - intros rho B f _ v2 _ [].
    - intros p v2 H _. destruct v2; destruct k; cbn in H; congruence || destruct H.
    - intros p v2 H _. destruct v2; destruct k; cbn in H; congruence || destruct H.
  Qed.

  (** [arel k rho1 x1 rho2 x2]: a variable of the source is bound to something
      related to a variable of the target *)
  Definition arel k (rho1 : env) x1 (rho2 : env) x2 : Prop :=
    forall v1, get x1 rho1 = Some v1 -> exists v2, get x2 rho2 = Some v2 /\ vrel k v1 v2.

  Lemma arel_list k rho1 rho2 : forall ys1 ys2,
    Forall2 (fun y1 y2 => arel k rho1 y1 rho2 y2) ys1 ys2 ->
    forall vs1, get_list ys1 rho1 = Some vs1 ->
      exists vs2, get_list ys2 rho2 = Some vs2 /\ Forall2 (vrel k) vs1 vs2.
  Proof.
    intros ys1 ys2 H. induction H as [|y1 y2 ys1 ys2 A H IH]; cbn; intros vs1 G.
    - injection G as <-. exists []. auto.
    - destruct (get y1 rho1) as [v1|] eqn:E; [|discriminate].
      destruct (get_list ys1 rho1) as [vs|] eqn:E'; [|discriminate]. injection G as <-.
      destruct (A v1 E) as (v2 & G2 & V). destruct (IH vs eq_refl) as (vs2 & G2' & V').
      rewrite G2, G2'. exists (v2 :: vs2). auto.
  Qed.

  Lemma arel_mono k j rho1 x1 rho2 x2 : j <= k -> arel k rho1 x1 rho2 x2 -> arel j rho1 x1 rho2 x2.
  Proof. intros J H v1 G. destruct (H v1 G) as (v2 & G2 & V). exists v2. split; auto. eapply vrel_mono; eauto. Qed.

  (** *** Compatibility: the two programs start with the same construct *)
  Definition step_ok (P P' : cost_rel) : Prop :=
    P' false 0 0 /\ forall b c1 c2, P b c1 c2 -> P' b (c1 + 1) (c2 + 1).

  Ltac zero_case OKZ :=
    match goal with
    | H : bstep_fuel cenv ?rho ?e ?c ?r |- _ =>
        let C := fresh in
        inversion H as [? ? ? C|? ? ? ? C]; subst;
        [ exists 0, OOT; split; [apply bstep_fuel_zero|split; [|exact I]];
          match goal with L : ?c < 1 |- _ => replace c with 0 by lia end; exact OKZ
        | ]
    end.

  Lemma erel_constr P P' k x1 x2 t ys1 ys2 e1 e2 rho1 rho2 :
    step_ok P P' ->
    Forall2 (fun y1 y2 => arel k rho1 y1 rho2 y2) ys1 ys2 ->
    (forall j vs1 vs2, j < k -> Forall2 (vrel j) vs1 vs2 ->
       erel vrel P j (set x1 (Vconstr t vs1) rho1) e1 (set x2 (Vconstr t vs2) rho2) e2) ->
    erel vrel P' k rho1 (Econstr x1 t ys1 e1) rho2 (Econstr x2 t ys2 e2).
  Proof.
    intros [OKZ OKS] A H c1 r1 C B. zero_case OKZ.
    match goal with H : bstep _ _ _ _ _ |- _ => inversion H; subst end.
    edestruct (arel_list k rho1 rho2 ys1 ys2 A) as (vs2 & G2 & V2); [eassumption|].
    edestruct (H (k - 1)) as (c2 & r2 & B2 & P2 & R2); [|eapply Forall2_vrel_mono; [|exact V2]; lia| |eassumption|].
    { lia. } { lia. }
    exists (c2 + 1), r2. split; [|split].
    - apply BStepf_run. econstructor; eauto.
    - auto.
    - replace (k - (c + 1)) with (k - 1 - c) by lia. exact R2.
  Qed.

  Lemma Forall2_nthN_l A B (R : A -> B -> Prop) l1 l2 : Forall2 R l1 l2 ->
    forall n a, nthN l1 n = Some a -> exists b, nthN l2 n = Some b /\ R a b.
  Proof.
    induction 1 as [|a b l1 l2 R1 F IH]; cbn; intros n x H; [discriminate|].
    destruct (N.eqb n 0); [|apply IH; auto]. injection H as <-. eauto.
  Qed.

  Lemma erel_proj P P' k x1 x2 t n y1 y2 e1 e2 rho1 rho2 :
    step_ok P P' ->
    arel k rho1 y1 rho2 y2 ->
    (forall j v1 v2, j < k -> vrel j v1 v2 ->
       erel vrel P j (set x1 v1 rho1) e1 (set x2 v2 rho2) e2) ->
    erel vrel P' k rho1 (Eproj x1 t n y1 e1) rho2 (Eproj x2 t n y2 e2).
  Proof.
    intros [OKZ OKS] A H c1 r1 C B. zero_case OKZ.
    match goal with H : bstep _ _ _ _ _ |- _ => inversion H; subst end.
    edestruct A as (v2 & G2 & V2); [eassumption|].
    destruct v2 as [t2 vs2| | |]; try (destruct k; destruct V2; fail).
    apply vrel_constr in V2 as [<- V2].
    edestruct (Forall2_nthN_l _ _ _ _ _ V2) as (v2 & N2 & V2'); [eassumption|].
    edestruct (H (k - 1)) as (c2 & r2 & B2 & P2 & R2); [|eapply vrel_mono; [|exact V2']; lia| |eassumption|].
    { lia. } { lia. }
    exists (c2 + 1), r2. split; [|split].
    - apply BStepf_run. econstructor; eauto.
    - auto.
    - replace (k - (c + 1)) with (k - 1 - c) by lia. exact R2.
  Qed.

  Lemma erel_fun P P' k B1 B2 e1 e2 rho1 rho2 :
    step_ok P P' ->
    (forall j, j < k -> erel vrel P j (def_funs B1 B1 rho1 rho1) e1 (def_funs B2 B2 rho2 rho2) e2) ->
    erel vrel P' k rho1 (Efun B1 e1) rho2 (Efun B2 e2).
  Proof.
    intros [OKZ OKS] H c1 r1 C B. zero_case OKZ.
    match goal with H : bstep _ _ _ _ _ |- _ => inversion H; subst end.
    edestruct (H (k - 1)) as (c2 & r2 & BB2 & P2 & R2); [| |eassumption|].
    { lia. } { lia. }
    exists (c2 + 1), r2. split; [|split].
    - apply BStepf_run. econstructor; eauto.
    - auto.
    - replace (k - (c + 1)) with (k - 1 - c) by lia. exact R2.
  Qed.

  Lemma erel_halt (P' : cost_rel) k x1 x2 rho1 rho2 :
    P' false 0 0 -> P' true 1 1 ->
    arel k rho1 x1 rho2 x2 ->
    erel vrel P' k rho1 (Ehalt x1) rho2 (Ehalt x2).
  Proof.
    intros OKZ OKS A c1 r1 C B. zero_case OKZ.
    match goal with H : bstep _ _ _ _ _ |- _ => inversion H; subst end.
    edestruct A as (v2 & G2 & V2); [eassumption|].
    exists (0 + 1), (Res v2). split; [|split].
    - apply BStepf_run. econstructor; eauto.
    - auto.
    - cbn. eapply vrel_mono; [|exact V2]. lia.
  Qed.

  (** branch lists with the same tags *)
  Definition same_tags (cl1 cl2 : list (ctor_tag * exp)) : Prop := map fst cl1 = map fst cl2.

  Lemma caseConsistent_same_tags cl1 : forall cl2 t, same_tags cl1 cl2 ->
    caseConsistent_f cenv cl1 t = caseConsistent_f cenv cl2 t.
  Proof.
    unfold same_tags. induction cl1 as [|[t1 e1] cl1 IH]; intros [|[t2 e2] cl2] t H; cbn in *;
      try discriminate; auto.
    injection H as -> H. rewrite (IH cl2 t H). reflexivity.
  Qed.

  Lemma erel_case P P' k y1 y2 cl1 cl2 rho1 rho2 :
    step_ok P P' ->
    arel k rho1 y1 rho2 y2 ->
    same_tags cl1 cl2 ->
    (forall j t e1, j < k -> findtag cl1 t = Some e1 ->
       exists e2, findtag cl2 t = Some e2 /\ erel vrel P j rho1 e1 rho2 e2) ->
    erel vrel P' k rho1 (Ecase y1 cl1) rho2 (Ecase y2 cl2).
  Proof.
    intros [OKZ OKS] A T H c1 r1 C B. zero_case OKZ.
    match goal with H : bstep _ _ _ _ _ |- _ => inversion H; subst end.
    edestruct A as (v2 & G2 & V2); [eassumption|].
    destruct v2 as [t2 vs2| | |]; try (destruct k; destruct V2; fail).
    apply vrel_constr in V2 as [<- V2].
    edestruct (H (k - 1)) as (e2 & F2 & E2); [|eassumption|]. { lia. }
    edestruct E2 as (c2 & r2 & B2 & P2 & R2); [|eassumption|]. { lia. }
    exists (c2 + 1), r2. split; [|split].
    - apply BStepf_run. econstructor; eauto.
      rewrite <- (caseConsistent_same_tags cl1 cl2 t T). assumption.
    - auto.
    - replace (k - (c + 1)) with (k - 1 - c) by lia. exact R2.
  Qed.

  Lemma erel_app P' k f1 f2 t ys1 ys2 rho1 rho2 :
    step_ok PG P' ->
    arel k rho1 f1 rho2 f2 ->
    Forall2 (fun y1 y2 => arel k rho1 y1 rho2 y2) ys1 ys2 ->
    erel vrel P' k rho1 (Eapp f1 t ys1) rho2 (Eapp f2 t ys2).
  Proof.
    intros [OKZ OKS] AF A c1 r1 C B. zero_case OKZ.
    match goal with H : bstep _ _ _ _ _ |- _ => inversion H; subst end.
    edestruct AF as (v2 & G2 & V2); [eassumption|].
    destruct v2 as [|rho2' B2 f2'| |]; try (destruct k; destruct V2; fail).
    edestruct (arel_list k rho1 rho2 ys1 ys2 A) as (vs2 & GL2 & VL2); [eassumption|].
    rewrite vrel_fun in V2.
    assert (L : length vs = length vs2) by (clear - VL2; induction VL2; cbn; congruence).
    edestruct V2 as (xs2 & e2 & rho2'' & F2 & S2 & H2); [eassumption|eassumption|exact L|].
    edestruct (H2 (k - 1)) as (c2 & r2 & BB2 & P2 & R2);
      [|eapply Forall2_vrel_mono; [|exact VL2]; lia| |eassumption|].
    { lia. } { lia. }
    exists (c2 + 1), r2. split; [|split].
    - apply BStepf_run. econstructor; eauto.
    - auto.
    - replace (k - (c + 1)) with (k - 1 - c) by lia. exact R2.
  Qed.

  Definition let_ok (P P' : cost_rel) : Prop :=
    P' false 0 0 /\
    (forall c1 c2, PG false c1 c2 -> P' false (c1 + 1) (c2 + 1)) /\
    (forall c1 c2 b d1 d2, PG true c1 c2 -> P b d1 d2 -> P' b (c1 + d1 + 1) (c2 + d2 + 1)).

  Lemma erel_letapp P P' k x1 x2 f1 f2 t ys1 ys2 e1 e2 rho1 rho2 :
    let_ok P P' ->
    arel k rho1 f1 rho2 f2 ->
    Forall2 (fun y1 y2 => arel k rho1 y1 rho2 y2) ys1 ys2 ->
    (forall j v1 v2, j < k -> vrel j v1 v2 ->
       erel vrel P j (set x1 v1 rho1) e1 (set x2 v2 rho2) e2) ->
    erel vrel P' k rho1 (Eletapp x1 f1 t ys1 e1) rho2 (Eletapp x2 f2 t ys2 e2).
  Proof.
    intros (OKZ & OKT & OKS) AF A H c1 r1 C B. zero_case OKZ.
    match goal with H : bstep _ _ _ _ _ |- _ => inversion H; subst end;
      (edestruct AF as (v2 & G2 & V2); [eassumption|];
       destruct v2 as [|rho2' B2 f2'| |]; try (destruct k; destruct V2; fail);
       edestruct (arel_list k rho1 rho2 ys1 ys2 A) as (vs2 & GL2 & VL2); [eassumption|];
       rewrite vrel_fun in V2;
       assert (L : length vs = length vs2) by (clear - VL2; induction VL2; cbn; congruence);
       edestruct V2 as (xs2 & eb2 & rho2'' & F2 & S2 & H2); [eassumption|eassumption|exact L|];
       edestruct (H2 (k - 1)) as (c2' & r2 & BB2 & P2 & R2);
         [|eapply Forall2_vrel_mono; [|exact VL2]; lia| |eassumption|]).
    1,2,4,5: lia.
    - destruct r2 as [|v2]; [destruct R2|]. cbn in R2.
      match goal with
      | BSa : bstep_fuel cenv _ e_body ?ca (Res v), BSb : bstep_fuel cenv (set x1 v rho1) e1 ?cb r1 |- _ =>
          destruct (H (k - 1 - ca) v v2 ltac:(lia) R2 cb r1 ltac:(lia) BSb) as (c2b & r2 & BB2' & P2' & R2');
          exists (c2' + c2b + 1), r2; split; [|split; [auto|]];
            [apply BStepf_run; eapply BStept_letapp; eauto
            |replace (k - (ca + cb + 1)) with (k - 1 - ca - cb) by lia; exact R2']
      end.
    - destruct r2 as [|v2]; [|destruct R2].
      exists (c2' + 1), OOT. split; [|split; [|exact I]].
      + apply BStepf_run. eapply BStept_letapp_oot; eauto.
      + auto.
  Qed.
End LR.
