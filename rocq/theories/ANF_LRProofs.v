(** * Consequences of the step-indexed relation *)
From Coq Require Import ZArith NArith Arith List Lia Bool.
From Verif Require Import ANF_Syntax ANF_Eval ANF_Spec ANF_EvalProofs ANF_FreeProofs ANF_LR.
Import ListNotations.

(** Costs within a linear factor: [A] per step of the target, [B] once. *)
Definition lin (A B : nat) : cost_rel := fun b c1 c2 =>
  match b with
  | true => 1 <= c1 /\ 1 <= c2 /\ c1 <= A * (c2 - 1) + B + 1
  | false => c1 <= A * c2 + B
  end.

Lemma lin_weaken A B B' b c1 c2 : B <= B' -> lin A B b c1 c2 -> lin A B' b c1 c2.
Proof. unfold lin. destruct b; lia. Qed.

Lemma lin_step A G B : 1 <= A -> G + 1 <= A + B -> step_ok (lin A G) (lin A B).
Proof. intros. split; unfold lin; [lia|]. intros [] c1 c2 L; nia. Qed.

Lemma lin_let A G B : G + 1 <= A -> let_ok (lin A G) (lin A B) (lin A B).
Proof.
  intros L. split; [|split]; unfold lin.
  - lia.
  - intros. nia.
  - intros c1 c2 b d1 d2 (H1 & H2 & H3) H.
    assert (A * (c2 + d2) = A * (c2 - 1) + A * d2 + A).
    { replace (c2 + d2) with (c2 - 1 + d2 + 1) by lia. ring. }
    destruct b.
    + destruct H as (K1 & K2 & K3).
      replace (c2 + d2 + 1 - 1) with (c2 + d2) by lia.
      assert (A * d2 = A * (d2 - 1) + A).
      { replace d2 with (d2 - 1 + 1) at 1 by lia. ring. }
      lia.
    + replace (A * (c2 + d2 + 1)) with (A * (c2 + d2) + A) by ring. lia.
Qed.

Lemma bstep_fuel_pos cenv rho e c v : bstep_fuel cenv rho e c (Res v) -> 1 <= c.
Proof. inversion 1; subst. lia. Qed.

(** ** Adequacy *)
Section Adequacy.
  Variables (cenv : ctor_env) (A B : nat).
  Variable PG : cost_rel.
  Variables (rho1 rho2 : env) (e1 e2 : exp).
  Hypothesis H : forall k, erel cenv (vrel cenv PG) (lin A B) k rho1 e1 rho2 e2.

  Lemma adequacy_res c v : bstep_fuel cenv rho1 e1 c (Res v) ->
    exists c' v', bstep_fuel cenv rho2 e2 c' (Res v') /\
      (forall k, vrel cenv PG k v v') /\ (data v -> v' = v).
  Proof.
    intro BS.
    destruct (H c c (Res v) ltac:(lia) BS) as (c2 & [|v2] & B2 & P2 & R2); [destruct R2|].
    exists c2, v2. split; [exact B2|].
    assert (K : forall k, vrel cenv PG k v v2).
    { intro k. destruct (H (c + k) c (Res v) ltac:(lia) BS) as (c3 & [|v3] & B3 & P3 & R3);
        [destruct R3|]. destruct (bstep_fuel_det _ _ _ _ _ _ _ B2 B3) as [-> ->].
      cbn in R3. replace (c + k - c) with k in R3 by lia. exact R3. }
    split; [exact K|]. intro D. eapply vrel_data; [apply (K 0)|exact D].
  Qed.

  Lemma adequacy_div : diverge cenv rho1 e1 -> diverge cenv rho2 e2.
  Proof.
    intros D c.
    destruct (H (A * c + B + 1) (A * c + B + 1) OOT ltac:(lia) (D _)) as (c2 & [|v2] & B2 & P2 & R2);
      [|destruct R2].
    cbn in P2. eapply bstep_fuel_oot_less; [exact B2|]. nia.
  Qed.

  Lemma adequacy_back : not_stuck cenv rho1 e1 ->
    (forall c' v', bstep_fuel cenv rho2 e2 c' (Res v') ->
       exists c v, bstep_fuel cenv rho1 e1 c (Res v) /\
                   (forall k, vrel cenv PG k v v') /\ (data v -> v' = v)) /\
    (diverge cenv rho2 e2 -> diverge cenv rho1 e1).
  Proof.
    intros [(c & v & BS)|D].
    - destruct (adequacy_res c v BS) as (c2 & v2 & B2 & V & DV). split.
      + intros c' v' B'. destruct (bstep_fuel_det _ _ _ _ _ _ _ B' B2) as [-> ->]. eauto.
      + intros D. exfalso. specialize (D c2). pose proof (bstep_fuel_oot_lt _ _ _ _ _ _ D B2). lia.
    - split; [|auto]. intros c' v' B'. exfalso. pose proof (adequacy_div D c') as D'.
      pose proof (bstep_fuel_oot_lt _ _ _ _ _ _ D' B'). lia.
  Qed.

  (** the source's number of steps is within the linear factor *)
  Lemma adequacy_cost c v c' v' : bstep_fuel cenv rho1 e1 c (Res v) ->
    bstep_fuel cenv rho2 e2 c' (Res v') -> c <= A * (c' - 1) + B + 1.
  Proof.
    intros B1 B2. destruct (H c c (Res v) ltac:(lia) B1) as (c2 & [|v2] & B3 & P2 & R2); [destruct R2|].
    destruct (bstep_fuel_det _ _ _ _ _ _ _ B2 B3) as [-> ->]. apply P2.
  Qed.
End Adequacy.

(** ** Environments *)
Lemma Forall2_same A (R : A -> A -> Prop) l : (forall x, In x l -> R x x) -> Forall2 R l l.
Proof. induction l; intro H; constructor; [apply H; left; auto|apply IHl; intros; apply H; right; auto]. Qed.

Lemma Forall2_map_r A B C (R : A -> C -> Prop) (f : B -> C) l1 l2 :
  Forall2 (fun a b => R a (f b)) l1 l2 -> Forall2 R l1 (map f l2).
Proof. induction 1; constructor; auto. Qed.

Lemma set_lists_In A xs : forall (vs : list A) rho rho' x,
  set_lists xs vs rho = Some rho' -> In x xs -> exists v, get x rho' = Some v /\ In v vs.
Proof.
  induction xs as [|y xs IH]; intros [|v vs] rho rho' x; cbn; intros H I; try discriminate; [destruct I|].
  destruct (set_lists xs vs rho) eqn:E; [|discriminate]. injection H as <-.
  cbn [get set]. destruct (Pos.eq_dec x y) as [->|N]; [eauto|].
  destruct I as [->|I]; [congruence|]. destruct (IH _ _ _ _ E I) as (v' & G & I'). eauto.
Qed.

(** same parameter list on both sides *)
Lemma set_lists_arel cenv PG k xs : forall vs1 vs2 rho1 rho2 rho1' rho2',
  set_lists xs vs1 rho1 = Some rho1' -> set_lists xs vs2 rho2 = Some rho2' ->
  Forall2 (vrel cenv PG k) vs1 vs2 ->
  forall x, (In x xs \/ arel cenv PG k rho1 x rho2 x) -> arel cenv PG k rho1' x rho2' x.
Proof.
  induction xs as [|y xs IH]; intros vs1 vs2 rho1 rho2 rho1' rho2' S1 S2 F x A.
  - inversion F; subst; cbn in S1, S2; try discriminate.
    injection S1 as <-. injection S2 as <-. destruct A as [[]|A]; auto.
  - inversion F as [|v1 v2 l1 l2 V F']; subst; cbn in S1, S2; try discriminate.
    destruct (set_lists xs l1 rho1) eqn:E1; [|discriminate]. injection S1 as <-.
    destruct (set_lists xs l2 rho2) eqn:E2; [|discriminate]. injection S2 as <-.
    intros w1 G. cbn [get set] in G |- *. destruct (Pos.eq_dec x y) as [->|N].
    + injection G as <-. eauto.
    + eapply (IH l1 l2); eauto. destruct A as [[->|I]|A]; [congruence|left; auto|right; auto].
Qed.

(** ** Every program is related to itself *)
Section Fundamental.
  Variable cenv : ctor_env.
  Variables A G : nat.
  Hypothesis HAG : G + 1 <= A.
  Notation PG := (lin A G).
  Notation VR := (vrel cenv PG).

  Lemma arel_set k rho1 rho2 x v1 v2 y :
    VR k v1 v2 -> (y <> x -> arel cenv PG k rho1 y rho2 y) ->
    arel cenv PG k (set x v1 rho1) y (set x v2 rho2) y.
  Proof.
    intros V H w Gw. cbn [get set] in *. destruct (Pos.eq_dec y x) as [->|N].
    - injection Gw as <-. eauto.
    - apply H; auto.
  Qed.

  Lemma findtag_same (cl : list (ctor_tag * exp)) t e : findtag cl t = Some e ->
    exists e', findtag cl t = Some e' /\ e' = e.
  Proof. eauto. Qed.

  Lemma fundamental :
    (forall e k rho1 rho2, (forall x, free x e -> arel cenv PG k rho1 x rho2 x) ->
       erel cenv VR PG k rho1 e rho2 e) /\
    (forall B f t xs e, find_def f B = Some (t, xs, e) ->
       forall k rho1 rho2, (forall x, free x e -> arel cenv PG k rho1 x rho2 x) ->
       erel cenv VR PG k rho1 e rho2 e).
  Proof.
    assert (SO : step_ok PG PG) by (apply lin_step; lia).
    assert (LO : let_ok PG PG PG) by (apply lin_let; lia).
    apply exp_fundefs_ind.
    - intros x t ys e IH k rho1 rho2 H. apply erel_constr with (P := PG); auto.
      + apply Forall2_same. intros. apply H. cbn. auto.
      + intros j vs1 vs2 J F. apply IH. intros y Fy. apply arel_set.
        * apply vrel_constr. auto.
        * intro N. eapply (arel_mono cenv PG k); [|apply H; cbn; auto]. lia.
    - intros x l F k rho1 rho2 H. apply erel_case with (P := PG); auto.
      + apply H. apply free_Ecase. auto.
      + reflexivity.
      + intros j t e J T. exists e. split; [auto|].
        apply findtag_In in T. rewrite Forall_forall in F. apply (F _ T). intros y Fy.
        eapply (arel_mono cenv PG k); [|apply H; apply free_Ecase; right; eapply free_case_In; eauto]. lia.
    - intros x t n y e IH k rho1 rho2 H. apply erel_proj with (P := PG); auto.
      + apply H. cbn. auto.
      + intros j v1 v2 J V. apply IH. intros z Fz. apply arel_set; auto.
        intro N. eapply (arel_mono cenv PG k); [|apply H; cbn; auto]. lia.
    - intros x f t ys e IH k rho1 rho2 H. apply erel_letapp with (P := PG); auto.
      + apply H. cbn. auto.
      + apply Forall2_same. intros. apply H. cbn. auto.
      + intros j v1 v2 J V. apply IH. intros z Fz. apply arel_set; auto.
        intro N. eapply (arel_mono cenv PG k); [|apply H; cbn; auto]. lia.
    - intros B e IHB IHe k rho1 rho2 H. apply erel_fun with (P := PG); auto.
      assert (CL : forall i, i <= k -> forall f, VR i (Vfun rho1 B f) (Vfun rho2 B f)).
      { intro i. induction i as [i IHi] using lt_wf_ind. intros I f. apply vrel_fun.
        intros t xs1 e1 vs1 rho1' vs2 F S L.
        assert (S' : length xs1 = length vs2) by (rewrite <- L; eapply set_lists_length; exact S).
        destruct (set_lists_total xs1 vs2 (def_funs B B rho2 rho2) S') as [rho2' S2].
        exists xs1, e1, rho2'. split; [auto|split; [auto|]]. intros j J FV.
        eapply IHB; [exact F|]. intros y Fy.
        eapply (set_lists_arel cenv PG j xs1 vs1 vs2); eauto.
        destruct (in_dec Pos.eq_dec y xs1) as [Iy|Iy]; [auto|right].
        intros v Gv. rewrite def_funs_get in *. destruct (in_dec Pos.eq_dec y (fnames B)) as [Jy|Jy].
        - injection Gv as <-. eexists. split; [reflexivity|]. apply IHi; lia.
        - eapply (arel_mono cenv PG k); [|apply H|exact Gv]; [lia|]. cbn. split; auto. right.
          eapply find_def_free; eauto. }
      intros j J. apply IHe. intros y Fy v Gv. rewrite def_funs_get in *.
      destruct (in_dec Pos.eq_dec y (fnames B)) as [Jy|Jy].
      + injection Gv as <-. eexists. split; [reflexivity|]. apply CL; lia.
      + eapply (arel_mono cenv PG k); [|apply H|exact Gv]; [lia|]. cbn. auto.
    - intros f t ys k rho1 rho2 H. apply erel_app; auto.
      + apply H. cbn. auto.
      + apply Forall2_same. intros. apply H. cbn. auto.
    - intros x p e IH k rho1 rho2 H c1 r1 C B. inversion B as [? ? ? C0|? ? ? ? C0]; subst.
      + exists 0, OOT. split; [apply bstep_fuel_zero|]. split; [cbn; lia|exact I].
      + inversion C0.
    - intros x p ys e IH k rho1 rho2 H c1 r1 C B. inversion B as [? ? ? C0|? ? ? ? C0]; subst.
      + exists 0, OOT. split; [apply bstep_fuel_zero|]. split; [cbn; lia|exact I].
      + inversion C0.
    - intros x k rho1 rho2 H. apply erel_halt; [cbn; lia|cbn; lia|].
      apply H. reflexivity.
    - intros f t xs e B IHe IHB g t' xs' e' F. cbn [find_def] in F.
      destruct (Pos.eq_dec g f); [injection F as <- <- <-; exact IHe|eauto].
    - intros f t xs e F. discriminate F.
  Qed.

  Lemma vrel_refl : forall v k, VR k v v.
  Proof.
    apply (val_ind2 (fun v => forall k, VR k v v)).
    - intros t vs F k. apply vrel_constr. split; auto. apply Forall2_same. intros v I.
      rewrite Forall_forall in F. auto.
    - intros rho B f F k.
      assert (CL : forall i, forall f, VR i (Vfun rho B f) (Vfun rho B f)).
      { intro i. induction i as [i IHi] using lt_wf_ind. intro g. apply vrel_fun.
        intros t xs1 e1 vs1 rho1' vs2 Fd S L.
        assert (S' : length xs1 = length vs2) by (rewrite <- L; eapply set_lists_length; exact S).
        destruct (set_lists_total xs1 vs2 (def_funs B B rho rho) S') as [rho2' S2].
        exists xs1, e1, rho2'. split; [auto|split; [auto|]]. intros j J FV.
        apply (proj1 fundamental). intros y Fy.
        eapply (set_lists_arel cenv PG j xs1 vs1 vs2); eauto.
        destruct (in_dec Pos.eq_dec y xs1) as [Iy|Iy]; [auto|right].
        intros v Gv. rewrite def_funs_get in *. destruct (in_dec Pos.eq_dec y (fnames B)) as [Jy|Jy].
        - injection Gv as <-. eexists. split; [reflexivity|]. apply IHi; lia.
        - exists v. split; auto. exact (get_Forall _ (fun v => forall k, VR k v v) _ _ _ F Gv j). }
      apply CL.
    - intros p k. destruct k; reflexivity.
    - intros p k. destruct k; reflexivity.
  Qed.

  Lemma arel_refl k rho x : arel cenv PG k rho x rho x.
  Proof. intros v Gv. exists v. split; auto. apply vrel_refl. Qed.
End Fundamental.
