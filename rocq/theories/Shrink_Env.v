(** * The shrink reducer: environments

    Proof device: what the environments of the source and of the reduced
    program have to do with each other, and how this changes on the way into
    a part of the program. *)
From Coq Require Import ZArith NArith PArith List Lia Bool Arith.
From Verif Require Import ANF_Syntax ANF_Eval ANF_Spec ANF_EvalProofs ANF_FreeProofs ANF_Scope ANF_LR ANF_LRProofs ANF_Subst
  ANF_Alpha CC_Scope Shrink_Census
  Shrink_CensusProofs Shrink_Model Shrink_Total Inline_Model Inline_LetProofs Inline_Syn Inline_Sem Inline_Obs Shrink_Inv.
Import ListNotations.

(** ** Programs that cannot be told apart, in front of a simulation *)
Section Trans.
  Variable cenv : ctor_env.

  Lemma eqc_env e rho rho' : (forall x, free x e -> forall k, arel cenv eqc k rho x rho' x) ->
    forall c r, bstep_fuel cenv rho e c r -> exists r', bstep_fuel cenv rho' e c r' /\ same_res cenv r r'.
  Proof.
    intros H. apply erel_eqc_all. intro k.
    assert (AE : aeq (graph (fun x => free x e) []) e e).
    { assert (Z : aeq (graph (fun x => free x e) []) e (rename_all [] e)) by (apply rename_aeq; [auto|discriminate]).
      rewrite rename_all_nil in Z. exact Z. }
    eapply (proj1 (aeq_sem cenv eqc eqc_step eqc_let eq_refl)); [exact AE|].
    intros a b [Fa ->]. unfold apply_r. cbn [get]. apply H. exact Fa.
  Qed.

  Variable PG : cost_rel.
  Notation VR := (vrel cenv PG).

  Lemma eqc_Forall2 : forall vs1 vs2, (forall i, Forall2 (vrel cenv eqc i) vs1 vs2) ->
    Forall2 (fun v1 v2 => forall i, vrel cenv eqc i v1 v2) vs1 vs2.
  Proof.
    induction vs1 as [|v1 vs1 IH]; intros [|v2 vs2] H; try (specialize (H 0); inversion H; fail); constructor.
    - intro i. specialize (H i). inversion H; auto.
    - apply IH. intro i. specialize (H i). inversion H; auto.
  Qed.

  Lemma vrel_eqc_l : forall k v1 v2 v3, (forall i, vrel cenv eqc i v1 v2) -> VR k v2 v3 -> VR k v1 v3.
  Proof.
    intro k. induction k as [k IHk] using lt_wf_ind.
    apply (val_ind2 (fun v1 => forall v2 v3, (forall i, vrel cenv eqc i v1 v2) -> VR k v2 v3 -> VR k v1 v3)).
    - intros t1 vs1 F v2 v3 H1 H2.
      destruct v2 as [t2 vs2| | |]; try (destruct (H1 0); fail).
      destruct v3 as [t3 vs3| | |]; try (destruct k; destruct H2; fail).
      apply vrel_constr in H2 as [<- H2]. pose proof (H1 0) as H0. apply vrel_constr in H0 as [<- _].
      apply vrel_constr. split; [auto|].
      assert (E : Forall2 (fun v1 v2 => forall i, vrel cenv eqc i v1 v2) vs1 vs2).
      { apply eqc_Forall2. intro i. specialize (H1 i). apply vrel_constr in H1. tauto. }
      clear H1. revert vs2 vs3 E H2. induction F as [|v1 vs1 Hv F IH]; intros vs2 vs3 E H2; inversion E; subst; inversion H2; subst; constructor; eauto.
    - intros rho1 B1 f1 _ v2 v3 H1 H2.
      destruct v2 as [|rho2 B2 f2| |]; try (destruct (H1 0); fail).
      destruct v3 as [|rho3 B3 f3| |]; try (destruct k; destruct H2; fail).
      rewrite vrel_fun in H2 |- *. intros t xs1 e1 vs1 rho1' vs2 FD SL L.
      pose proof (H1 0) as H0. rewrite vrel_fun in H0.
      destruct (H0 t xs1 e1 vs1 rho1' vs1 FD SL eq_refl) as (xs2 & e2 & rho2' & FD2 & SL2 & _).
      destruct (H2 t xs2 e2 vs1 rho2' vs2 FD2 SL2 L) as (xs3 & e3 & rho3' & FD3 & SL3 & H3).
      exists xs3, e3, rho3'. split; [auto|]. split; [auto|].
      intros j J FA c1 r1 C1 BS.
      assert (K : forall i, erel cenv (vrel cenv eqc) eqc i rho1' e1 rho2' e2).
      { intro i. specialize (H1 (S i)). rewrite vrel_fun in H1.
        destruct (H1 t xs1 e1 vs1 rho1' vs1 FD SL eq_refl) as (xs2' & e2' & rho2'' & FD2' & SL2' & H4).
        rewrite FD2 in FD2'. injection FD2' as <- <-. rewrite SL2 in SL2'. injection SL2' as <-.
        apply H4; [lia|]. apply Forall2_same. intros. apply vrel_refl_eqc. }
      destruct (erel_eqc_all cenv _ _ _ _ K c1 r1 BS) as (r1' & BS' & SR).
      destruct (H3 j J FA c1 r1' C1 BS') as (c3 & r3 & BS3 & P3 & R3).
      exists c3, r3. split; [auto|]. destruct r1 as [|v1], r1' as [|v1']; cbn in SR; try tauto.
      split; [auto|]. destruct r3 as [|v3]; [destruct R3|]. cbn in *. eapply IHk; [lia| |exact R3]. apply SR.
    - intros p v2 v3 H1 H2. specialize (H1 0). destruct v2; try destruct H1. exact H2.
    - intros p v2 v3 H1 H2. specialize (H1 0). destruct v2; try destruct H1. exact H2.
  Qed.

  Lemma res_eqc_l k r1 r2 r3 : same_res cenv r1 r2 -> res_rel (VR k) r2 r3 -> res_rel (VR k) r1 r3.
  Proof.
    destruct r1, r2, r3; cbn; try tauto. intros [H _] K. eapply vrel_eqc_l; eauto.
  Qed.

  Lemma same_is_res r1 r2 : same_res cenv r1 r2 -> is_res r1 = is_res r2.
  Proof. destruct r1, r2; cbn; tauto. Qed.
End Trans.

(** ** Environments *)
Section Env.
  Variable VR : nat -> val -> val -> Prop.
  Hypothesis VR_mono : forall k j v1 v2, j <= k -> VR k v1 v2 -> VR j v1 v2.

  (** what the map of known values says about the value [v] of the variable [y] *)
  Definition known (rho1 : env) (v : val) (sv : option svalue) (b : bool) (y : var) : Prop :=
    match sv with
    | Some (SVconstr t ys) => exists vs, v = Vconstr t vs /\ get_list ys rho1 = Some vs
    | Some (SVfun t xs m) => b = false ->
        exists rhoc B, v = Vfun rhoc B y /\ find_def y B = Some (t, xs, m) /\
          forall u, fvb (t, xs, m) u -> get u (def_funs B B rhoc rhoc) = get u rho1
    | None => True
    end.

  Definition here (k : nat) (rho1 rho2 : env) (v : val) (y : var) (sub : ctx_map) (im : b_map) (fe' : var -> Prop) : Prop :=
    (fe' y -> exists v2, get y rho2 = Some v2 /\ VR k v v2) /\ known rho1 v (get y sub) (get_b y im) y.

  Definition envok (k : nat) (rho1 rho2 : env) (sig : subst) (fe : var -> Prop) (sub : ctx_map) (im : b_map) (P : list fdef)
             (fe' : var -> Prop) : Prop :=
    forall w v, need fe sub im P w -> get w rho1 = Some v -> here k rho1 rho2 v (apply_r sig w) sub im fe'.

  Lemma get_list_same (rho1 rho1' : env) : forall ys, (forall y, In y ys -> get y rho1' = get y rho1) ->
    get_list ys rho1' = get_list ys rho1.
  Proof.
    induction ys as [|y ys IH]; intro H; cbn; [auto|]. rewrite (H y) by (left; auto). rewrite IH; [auto|].
    intros z I. apply H. right. auto.
  Qed.

  Section Step.
    Variables (R : var -> nat) (sig : subst) (count : c_map) (ue be : list var) (fe : var -> Prop)
      (sub : ctx_map) (im : b_map) (P : list fdef).
    Hypothesis I : inv R sig count ue be fe sub im P.
    Notation nd := (need fe sub im P).
    Variables (N : list var) (be1 : list var) (sub1 : ctx_map) (im1 : b_map) (fe' fe1' : var -> Prop).
    Variables (k j : nat) (rho1 rho2 rho1' rho2' : env).
    Hypothesis HN : forall w, nd w -> ~ In (apply_r sig w) N.
    Hypothesis Hble : ble im im1.
    Hypothesis Hsub : forall z, ~ In z N -> get z sub1 = get z sub.
    Hypothesis E : envok k rho1 rho2 sig fe sub im P fe'.
    Hypothesis Hj : j <= k.
    Hypothesis Hr1 : forall w, nd w -> get w rho1' = get w rho1.
    Hypothesis Hr2 : forall w, nd w -> fe1' (apply_r sig w) ->
      fe' (apply_r sig w) /\ get (apply_r sig w) rho2' = get (apply_r sig w) rho2.

    Lemma env_old w v : nd w -> get w rho1 = Some v -> here j rho1' rho2' v (apply_r sig w) sub1 im1 fe1'.
    Proof.
      intros Nw Gw. destruct (E w v Nw Gw) as [H1 H2]. split.
      - intro F. destruct (Hr2 w Nw F) as [F' Er]. destruct (H1 F') as (v2 & G2 & V). exists v2. rewrite Er. split; [auto|].
        eapply VR_mono; eauto.
      - rewrite (Hsub _ (HN w Nw)). unfold known in *.
        destruct (get (apply_r sig w) sub) as [[t ys|t xs m]|] eqn:Gs; [| |auto].
        + destruct H2 as (vs & -> & GL). exists vs. split; [auto|]. rewrite (get_list_same rho1); [auto|].
          intros y Y. apply Hr1. right. right. eauto.
        + intro Eb. assert (Eb' : get_b (apply_r sig w) im = false).
          { destruct (get_b (apply_r sig w) im) eqn:X; [|auto]. rewrite (Hble _ X) in Eb. discriminate. }
          destruct (H2 Eb') as (rhoc & B & -> & FD & HU). exists rhoc, B. split; [auto|]. split; [auto|].
          intros u Fu. rewrite (HU u Fu). symmetry. apply Hr1. right. left.
          exists (apply_r sig w, t, xs, m). split; [split; [eapply i_funs; eauto|auto]|auto].
    Qed.

    Lemma env_step (sig1 : subst) (fe1 : var -> Prop) :
      (forall w, need fe1 sub1 im1 P w -> nd w \/ (In w N /\ fe1 w)) ->
      (forall w, nd w -> apply_r sig1 w = apply_r sig w) ->
      (forall w v, In w N -> fe1 w -> get w rho1' = Some v -> here j rho1' rho2' v (apply_r sig1 w) sub1 im1 fe1') ->
      envok j rho1' rho2' sig1 fe1 sub1 im1 P fe1'.
    Proof.
      intros H1 H2 H3 w v Nw Gw. destruct (H1 w Nw) as [K|[K1 K2]].
      - rewrite (H2 w K). apply env_old; [auto|]. rewrite <- Hr1 by auto. auto.
      - apply H3; auto.
    Qed.
  End Step.
End Env.
