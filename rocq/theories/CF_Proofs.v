(** Proofs: evaluation keeps functions closed. *)
From Coq Require Import ZArith NArith List Bool Lia.
From Verif Require Import ANF_Syntax ANF_Eval ANF_Spec ANF_FreeProofs SV_Model SZ_Model SZ_Proofs CF_Model CF_Spec.
Import ListNotations.

Lemma lift_set (S : var -> Prop) P rho x v :
  lift_P_env (fun y => S y /\ y <> x) P rho -> P v -> lift_P_env S P (set x v rho).
Proof.
  intros H p y w Sy G. rewrite get_set in G. destruct (Pos.eq_dec y x) as [->|n].
  - congruence.
  - apply (H y w); [auto|exact G].
Qed.

Lemma lift_get_list (S : var -> Prop) P rho : lift_P_env S P rho -> forall xs vs,
  (forall x, In x xs -> S x) -> get_list xs rho = Some vs -> Forall P vs.
Proof.
  intros H. induction xs as [|x xs IH]; intros vs I G; cbn in G.
  - injection G as <-. constructor.
  - destruct (get x rho) eqn:G1; [|discriminate]. destruct (get_list xs rho) eqn:G2; [|discriminate].
    injection G as <-. constructor.
    + apply (H x); [apply I; left; reflexivity|exact G1].
    + apply IH; [|reflexivity]. intros y Iy. apply I. right. exact Iy.
Qed.

Lemma lift_set_lists (P : val -> Prop) : forall xs vs (S : var -> Prop) rho rho',
  lift_P_env (fun y => S y /\ ~ In y xs) P rho -> Forall P vs -> set_lists xs vs rho = Some rho' ->
  lift_P_env S P rho'.
Proof.
  induction xs as [|x xs IH]; intros [|v vs] S rho rho' H F E; cbn in E; try discriminate.
  - injection E as <-. intros y w Sy. apply H. auto.
  - destruct (set_lists xs vs rho) as [r|] eqn:Er; [|discriminate]. injection E as <-.
    inversion F; subst. apply lift_set; [|assumption].
    apply (IH vs _ rho r); [|assumption|exact Er].
    intros y w [[Sy n] N] G. apply (H y w); [|exact G]. split; [exact Sy|].
    intros [->|I]; [congruence|contradiction].
Qed.

Lemma lift_def_funs (P : val -> Prop) B0 rho0 : (forall f, P (Vfun rho0 B0 f)) -> forall B (S : var -> Prop) rho,
  lift_P_env (fun y => S y /\ ~ In y (fnames B)) P rho -> lift_P_env S P (def_funs B0 B rho0 rho).
Proof.
  intros HF. induction B as [f t xs e B IH|]; intros S rho H; cbn.
  - apply lift_set; [|apply HF]. apply IH. intros y w [[Sy n] N] G. apply (H y w); [|exact G].
    split; [exact Sy|]. cbn. intros [->|I]; [congruence|contradiction].
  - intros y w Sy G. apply (H y w); [cbn; auto|exact G].
Qed.

Lemma body_free f B t xs e x :
  find_def f B = Some (t, xs, e) -> free x e -> ~ In x xs -> free_body x B.
Proof.
  induction B as [g t' ys e' B IH|]; cbn; [|discriminate].
  destruct (Pos.eq_dec f g); intros H F N; [injection H as -> -> ->; auto|auto].
Qed.

Lemma closed_body f B t xs e x : closed_fundefs B -> find_def f B = Some (t, xs, e) ->
  free x e -> In x xs \/ In x (fnames B).
Proof.
  intros C H F. destruct (in_dec Pos.eq_dec x xs); [auto|].
  destruct (in_dec Pos.eq_dec x (fnames B)); [auto|].
  exfalso. apply (C x). split; [assumption|]. eapply body_free; eassumption.
Qed.

Lemma body_funs f B t xs e B' : find_def f B = Some (t, xs, e) -> funs_in_exp B' e -> funs_in_fundef B' B.
Proof.
  induction B as [g t' ys e' B IH|]; cbn; [|discriminate].
  destruct (Pos.eq_dec f g); intros H F.
  - injection H as -> -> ->. apply In_Fcons1. exact F.
  - apply In_Fcons2. auto.
Qed.

Lemma nth_Forall {A} (P : A -> Prop) : forall vs m v, Forall P vs -> nthN vs m = Some v -> P v.
Proof.
  induction vs as [|w vs IH]; intros m v F H; cbn in H; [discriminate|]. inversion F; subst.
  destruct (N.eqb m 0); [congruence|eauto].
Qed.

Section Run.
Variable pr : prims.
Variable cenv : ctor_env.
Hypothesis PR : prims_closed_fundefs pr.

Lemma call_env rho f rho' B f' ys vs xs e t rho'' (S : var -> Prop) :
  closed_fundefs_in_env S rho -> S f -> (forall y, In y ys -> S y) ->
  get f rho = Some (Vfun rho' B f') -> get_list ys rho = Some vs ->
  find_def f' B = Some (t, xs, e) -> set_lists xs vs (def_funs B B rho' rho') = Some rho'' ->
  closed_fundefs_in_env (fun x => free x e) rho'' /\ closed_fundefs_in_exp e.
Proof.
  intros E Sf Sy G GL FD SL. pose proof (E f _ Sf G) as C. inversion C as [|? ? ? CB CI| |]; subst. split.
  - refine (lift_set_lists _ _ _ _ _ _ _ (lift_get_list _ _ _ E _ _ Sy GL) SL).
    apply lift_def_funs; [intro g; constructor; assumption|].
    intros y w [[F N] M] _. destruct (closed_body _ _ _ _ _ _ CB FD F); contradiction.
  - intros B' I. apply CI. eapply body_funs; eassumption.
Qed.

Lemma run_closed rho e v c : bstep_e pr cenv rho e v c ->
  closed_fundefs_in_env (fun x => free x e) rho -> closed_fundefs_in_exp e -> closed_fundefs_in_val v.
Proof.
  induction 1; intros E C.
  - apply IHbstep_e.
    + apply lift_set.
      * intros y w [F N] G. apply (E y w); [cbn; auto|exact G].
      * constructor. apply (lift_get_list _ _ _ E ys); [cbn; auto|assumption].
    + intros B I. apply C. constructor. exact I.
  - apply IHbstep_e.
    + apply lift_set.
      * intros z w [F N] G. apply (E z w); [cbn; auto|exact G].
      * assert (K : closed_fundefs_in_val (Vconstr t vs)) by (apply (E y); [cbn; auto|assumption]).
        inversion K; subst. eapply nth_Forall; eassumption.
    + intros B I. apply C. constructor. exact I.
  - apply IHbstep_e.
    + intros z w F G. apply (E z w); [|exact G]. apply free_Ecase. right.
      eapply free_case_In; [|exact F]. apply findtag_In. eassumption.
    + intros B I. apply C. eapply In_Case; [exact I|]. apply findtag_In. eassumption.
  - destruct (call_env rho f rho' fl f' ys vs xs e t rho'' _ E) as [E' C']; try assumption.
    + cbn. auto.
    + intros y I. cbn. auto.
    + apply IHbstep_e; assumption.
  - destruct (call_env rho f rho' fl f' ys vs xs e_body t rho'' _ E) as [E' C']; try assumption.
    + cbn. auto.
    + intros y I. cbn. auto.
    + apply IHbstep_e2.
      * apply lift_set; [|apply IHbstep_e1; assumption].
        intros y w [F N] G. apply (E y w); [cbn; auto|exact G].
      * intros B I. apply C. constructor. exact I.
  - apply IHbstep_e.
    + apply lift_def_funs.
      * intro f. constructor; [apply C, In_Fun1|]. intros B I. apply C, In_Fun3, I.
      * intros y w [F N] G. apply (E y w); [cbn; auto|exact G].
    + intros B I. apply C, In_Fun2, I.
  - apply IHbstep_e.
    + apply lift_set; [|constructor]. intros y w [F N] G. apply (E y w); [cbn; auto|exact G].
    + intros B I. apply C. constructor. exact I.
  - apply IHbstep_e.
    + apply lift_set.
      * intros y w [F N] G. apply (E y w); [cbn; auto|exact G].
      * eapply PR; [eassumption| |eassumption]. apply (lift_get_list _ _ _ E ys); [cbn; auto|assumption].
    + intros B I. apply C. constructor. exact I.
  - apply (E x); [cbn; auto|assumption].
Qed.
End Run.

(** ** Environments of closed functions are not looked at *)

Lemma so_set (S : var -> Prop) rho1 rho2 x v1 v2 :
  same_on (fun y => S y /\ y <> x) rho1 rho2 -> same v1 v2 -> same_on S (set x v1 rho1) (set x v2 rho2).
Proof.
  intros H p y w Sy G. rewrite get_set in *. destruct (Pos.eq_dec y x) as [->|n].
  - injection G as <-. eauto.
  - apply (H y w); [auto|exact G].
Qed.

Lemma so_get_list (S : var -> Prop) rho1 rho2 : same_on S rho1 rho2 -> forall xs vs1,
  (forall x, In x xs -> S x) -> get_list xs rho1 = Some vs1 ->
  exists vs2, get_list xs rho2 = Some vs2 /\ Forall2 same vs1 vs2.
Proof.
  intros H. induction xs as [|x xs IH]; intros vs I G; cbn in G.
  - injection G as <-. exists []. split; [reflexivity|constructor].
  - destruct (get x rho1) eqn:G1; [|discriminate]. destruct (get_list xs rho1) as [l|] eqn:G2; [|discriminate].
    injection G as <-. destruct (H x v) as (w & Gw & Sw); [apply I; left; reflexivity|exact G1|].
    destruct (IH l) as (l2 & Gl & Sl); [intros y Iy; apply I; right; exact Iy|reflexivity|].
    exists (w :: l2). cbn. rewrite Gw, Gl. split; [reflexivity|constructor; assumption].
Qed.

Lemma so_set_lists : forall xs vs1 vs2 (S : var -> Prop) rho1 rho2 rho1',
  same_on (fun y => S y /\ ~ In y xs) rho1 rho2 -> Forall2 same vs1 vs2 ->
  set_lists xs vs1 rho1 = Some rho1' ->
  exists rho2', set_lists xs vs2 rho2 = Some rho2' /\ same_on S rho1' rho2'.
Proof.
  induction xs as [|x xs IH]; intros [|v vs] vs2 S rho1 rho2 rho1' H F E; cbn in E; try discriminate;
    inversion F as [|? w ? ws Hw Hs]; subst.
  - injection E as <-. exists rho2. split; [reflexivity|]. intros y u Sy. apply H. auto.
  - destruct (set_lists xs vs rho1) as [r|] eqn:Er; [|discriminate]. injection E as <-.
    destruct (IH vs ws (fun y => S y /\ y <> x) rho1 rho2 r) as (r2 & E2 & S2); [|exact Hs|exact Er|].
    + intros y u [[Sy n] N] G. apply (H y u); [|exact G]. split; [exact Sy|].
      intros [->|I]; [congruence|contradiction].
    + exists (set x w r2). cbn. rewrite E2. split; [reflexivity|]. apply so_set; assumption.
Qed.

Lemma so_def_funs B0 r1 r2 : closed_fundefs B0 -> closed_fundefs_in_fundefs B0 ->
  forall B (S : var -> Prop) rho1 rho2,
  same_on (fun y => S y /\ ~ In y (fnames B)) rho1 rho2 ->
  same_on S (def_funs B0 B r1 rho1) (def_funs B0 B r2 rho2).
Proof.
  intros C1 C2. induction B as [f t xs e B IH|]; intros S rho1 rho2 H; cbn.
  - apply so_set; [|constructor; assumption]. apply IH. intros y w [[Sy n] N] G. apply (H y w); [|exact G].
    split; [exact Sy|]. cbn. intros [->|I]; [congruence|contradiction].
  - intros y w Sy G. apply (H y w); [cbn; auto|exact G].
Qed.

Lemma nth_same : forall vs1 vs2 m v1, Forall2 same vs1 vs2 -> nthN vs1 m = Some v1 ->
  exists v2, nthN vs2 m = Some v2 /\ same v1 v2.
Proof.
  induction vs1 as [|w vs IH]; intros vs2 m v F H; cbn in H; [discriminate|].
  inversion F as [|? u ? us Hu Hs]; subst. cbn.
  destruct (N.eqb m 0); [|eauto]. injection H as <-. eauto.
Qed.

Section Same.
Variable pr : prims.
Variable cenv : ctor_env.
Hypothesis PR : Prim_axiom same pr.

Lemma call_same rho1 rho2 f rho' B f' ys vs xs e t rho'' (S : var -> Prop) :
  same_on S rho1 rho2 -> S f -> (forall y, In y ys -> S y) ->
  get f rho1 = Some (Vfun rho' B f') -> get_list ys rho1 = Some vs ->
  find_def f' B = Some (t, xs, e) -> set_lists xs vs (def_funs B B rho' rho') = Some rho'' ->
  exists r vs2 r2, get f rho2 = Some (Vfun r B f') /\ get_list ys rho2 = Some vs2 /\
    set_lists xs vs2 (def_funs B B r r) = Some r2 /\
    same_on (fun x => free x e) rho'' r2 /\ closed_fundefs_in_exp e.
Proof.
  intros E Sf Sy G GL FD SL. destruct (E f _ Sf G) as (w & G2 & C).
  inversion C as [|? r ? ? CB CI| |]; subst.
  destruct (so_get_list _ _ _ E _ _ Sy GL) as (vs2 & GL2 & F).
  destruct (so_set_lists xs vs vs2 (fun x => free x e) (def_funs B B rho' rho') (def_funs B B r r) rho'')
    as (r2 & SL2 & S2); [|exact F|exact SL|].
  - apply so_def_funs; [assumption|assumption|].
    intros y w [[Fy N] M] _. destruct (closed_body _ _ _ _ _ _ CB FD Fy); contradiction.
  - exists r, vs2, r2. split; [exact G2|]. split; [exact GL2|]. split; [exact SL2|]. split; [exact S2|].
    intros B' I. apply CI. eapply body_funs; eassumption.
Qed.

Lemma run_same rho1 e v1 c : bstep_e pr cenv rho1 e v1 c -> forall rho2,
  same_on (fun x => free x e) rho1 rho2 -> closed_fundefs_in_exp e ->
  exists v2, bstep_e pr cenv rho2 e v2 c /\ same v1 v2.
Proof.
  induction 1; intros rho2 E C.
  - destruct (so_get_list _ _ _ E ys vs) as (ws & G & F); [cbn; auto|assumption|].
    destruct (IHbstep_e (set x (Vconstr t ws) rho2)) as (w & R & Sw).
    + apply so_set; [|constructor; exact F]. intros y u [Fy N] Gy. apply (E y u); [cbn; auto|exact Gy].
    + intros B I. apply C. constructor. exact I.
    + exists w. split; [econstructor; eassumption|exact Sw].
  - destruct (E y (Vconstr t vs)) as (u & G & K); [cbn; auto|assumption|].
    inversion K as [? ? ws F| | |]; subst. destruct (nth_same _ _ _ _ F H0) as (w & Nw & Sw).
    destruct (IHbstep_e (set x w rho2)) as (w' & R & Sw').
    + apply so_set; [|exact Sw]. intros z u [Fz N] Gz. apply (E z u); [cbn; auto|exact Gz].
    + intros B I. apply C. constructor. exact I.
    + exists w'. split; [econstructor; eassumption|exact Sw'].
  - destruct (E y (Vconstr t vl)) as (u & G & K); [apply free_Ecase; auto|assumption|].
    inversion K; subst.
    destruct (IHbstep_e rho2) as (w & R & Sw).
    + intros z u Fz Gz. apply (E z u); [|exact Gz]. apply free_Ecase. right.
      eapply free_case_In; [|exact Fz]. apply findtag_In. eassumption.
    + intros B I. apply C. eapply In_Case; [exact I|]. apply findtag_In. eassumption.
    + exists w. split; [econstructor; eassumption|exact Sw].
  - destruct (call_same rho rho2 f rho' fl f' ys vs xs e t rho'' _ E) as (r & ws & r2 & G & GL & SL & E' & C');
      try assumption; [cbn; auto|intros y I; cbn; auto|].
    destruct (IHbstep_e r2 E' C') as (w & R & Sw).
    exists w. split; [econstructor; eassumption|exact Sw].
  - destruct (call_same rho rho2 f rho' fl f' ys vs xs e_body t rho'' _ E) as (r & ws & r2 & G & GL & SL & E' & C');
      try assumption; [cbn; auto|intros y I; cbn; auto|].
    destruct (IHbstep_e1 r2 E' C') as (w & R & Sw).
    destruct (IHbstep_e2 (set x w rho2)) as (w' & R' & Sw').
    + apply so_set; [|exact Sw]. intros y u [F N] Gy. apply (E y u); [cbn; auto|exact Gy].
    + intros B I. apply C. constructor. exact I.
    + exists w'. split; [econstructor; eassumption|exact Sw'].
  - destruct (IHbstep_e (def_funs fl fl rho2 rho2)) as (w & R & Sw).
    + apply so_def_funs; [apply C, In_Fun1|intros B I; apply C, In_Fun3, I|].
      intros y u [F N] G. apply (E y u); [cbn; auto|exact G].
    + intros B I. apply C, In_Fun2, I.
    + exists w. split; [constructor; exact R|exact Sw].
  - destruct (IHbstep_e (set x (Vprim p) rho2)) as (w & R & Sw).
    + apply so_set; [|constructor]. intros y u [F N] G. apply (E y u); [cbn; auto|exact G].
    + intros B I. apply C. constructor. exact I.
    + exists w. split; [constructor; exact R|exact Sw].
  - destruct (so_get_list _ _ _ E ys vs) as (ws & G & F); [cbn; auto|assumption|].
    destruct (PR _ _ _ H0 _ _ F H1) as (u & A & Su).
    destruct (IHbstep_e (set x u rho2)) as (w & R & Sw).
    + apply so_set; [|exact Su]. intros y z [Fy N] Gy. apply (E y z); [cbn; auto|exact Gy].
    + intros B I. apply C. constructor. exact I.
    + exists w. split; [econstructor; eassumption|exact Sw].
  - destruct (E x v) as (w & G & Sw); [cbn; auto|assumption|].
    exists w. split; [constructor; exact G|exact Sw].
Qed.
End Same.

Fixpoint same_data v {struct v} : forall w, data v -> same v w -> v = w.
Proof.
  destruct v as [t vs|rho B f|z|p]; intros w D S; inversion S as [? ? ws F| | |]; subst;
    try reflexivity; inversion D as [? ? Ds| |]; subst.
  f_equal. clear S D. revert ws F Ds.
  induction vs as [|v vs IH]; intros ws F Ds; inversion F as [|? u ? us Hu Hs]; subst; [reflexivity|].
  inversion Ds; subst. f_equal; [apply same_data; assumption|apply IH; assumption].
Qed.

Lemma blocks_of_iff :
  (forall e B, funs_in_exp B e <-> In B (blocks_of e)) /\
  (forall B' B, funs_in_fundef B B' <-> In B (blocks_in B')).
Proof.
  apply exp_fundefs_ind; cbn.
  - intros x t ys e H B. rewrite <- H. split; [intro K; inversion K; assumption|intro K; constructor; exact K].
  - intros x l H B.
    transitivity (exists c e, In (c, e) l /\ funs_in_exp B e).
    { split; [intro K; inversion K; subst; eauto|intros (c & e & I & K); econstructor; eassumption]. }
    induction H as [|[c e] l H F IH].
    + split; [intros (c & e & [] & _)|intros []].
    + cbn in H. rewrite in_app_iff, <- H, <- IH. split.
      * intros (c' & e' & [E|I] & K); [injection E as <- <-; auto|right; eauto].
      * intros [K|(c' & e' & I & K)]; [exists c, e|exists c', e']; cbn; auto.
  - intros x t n y e H B. rewrite <- H. split; [intro K; inversion K; assumption|intro K; constructor; exact K].
  - intros x f t ys e H B. rewrite <- H. split; [intro K; inversion K; assumption|intro K; constructor; exact K].
  - intros B0 e H0 H B. rewrite in_app_iff, <- H0, <- H. split.
    + intro K; inversion K; subst; auto.
    + intros [->|[K|K]]; [apply In_Fun1|apply In_Fun3, K|apply In_Fun2, K].
  - intros f t ys B. split; [intro K; inversion K|intros []].
  - intros x p e H B. rewrite <- H. split; [intro K; inversion K; assumption|intro K; constructor; exact K].
  - intros x p ys e H B. rewrite <- H. split; [intro K; inversion K; assumption|intro K; constructor; exact K].
  - intros x B. split; [intro K; inversion K|intros []].
  - intros f t xs e B0 H H0 B. rewrite in_app_iff, <- H, <- H0. split.
    + intro K; inversion K; subst; auto.
    + intros [K|K]; [apply In_Fcons1, K|apply In_Fcons2, K].
  - intros B. split; [intro K; inversion K|intros []].
Qed.
