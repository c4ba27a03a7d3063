(** * Free variables: the computation is exact; evaluation depends on them only *)
From Coq Require Import ZArith NArith List Lia Bool.
From Verif Require Import ANF_Syntax ANF_Eval ANF_Spec ANF_EvalProofs.
Import ListNotations.

Fixpoint free_case (x : var) (cl : list (ctor_tag * exp)) : Prop :=
  match cl with [] => False | p :: cl' => free x (snd p) \/ free_case x cl' end.

Lemma free_Ecase x y cl : free x (Ecase y cl) <-> x = y \/ free_case x cl.
Proof.
  cbn. apply or_iff_compat_l. induction cl as [|p cl IH]; cbn; [tauto|].
  rewrite IH. tauto.
Qed.

Lemma free_case_In x cl c e :
  In (c, e) cl -> free x e -> free_case x cl.
Proof.
  induction cl as [|p cl IH]; cbn; [tauto|]. intros [->|H] F; [left; auto|right; auto].
Qed.

Lemma findtag_In A (cl : list (ctor_tag * A)) t e :
  findtag cl t = Some e -> In (t, e) cl.
Proof.
  induction cl as [|[c a] cl IH]; cbn; [discriminate|].
  destruct (Pos.eq_dec c t) as [->|]; intro H; [injection H as ->; auto|auto].
Qed.

Lemma exp_fv_aux_spec :
  (forall e scope s x,
     In x (exp_fv_aux e scope s) <-> In x s \/ (~ In x scope /\ free x e)) /\
  (forall B scope s,
     (forall x, In x (fst (fundefs_fv_aux B scope s)) <->
                In x scope \/ In x (fnames B)) /\
     (forall x, In x (snd (fundefs_fv_aux B scope s)) <->
                In x s \/ (~ In x scope /\ ~ In x (fnames B) /\ free_body x B))).
Proof.
  assert (ADD : forall y scope s x,
    In x (if mem y scope then s else sadd y s) <-> In x s \/ (~ In x scope /\ x = y)).
  { intros y scope s x. destruct (mem y scope) eqn:E.
    - apply mem_In in E. split; [auto|]. intros [|[N ->]]; tauto.
    - apply mem_not_In in E. rewrite sadd_In. split; [intros [->|]; auto|].
      intros [|[N ->]]; auto. }
  apply exp_fundefs_ind.
  - intros y t ys e IH scope s x. cbn [exp_fv_aux free].
    rewrite IH, add_list_In, sadd_In. tauto.
  - intros y l F scope s x. rewrite free_Ecase. cbn [exp_fv_aux].
    rewrite ADD.
    assert (G : forall s, In x (fold_left (fun fvs p => exp_fv_aux (snd p) scope fvs) l s)
              <-> In x s \/ (~ In x scope /\ free_case x l)).
    { clear -F. induction F as [|p l Hp F IH]; intro s; cbn [fold_left free_case].
      - tauto.
      - rewrite IH, Hp. tauto. }
    rewrite G. tauto.
  - intros y t n z e IH scope s x. cbn [exp_fv_aux free].
    rewrite IH, ADD, sadd_In. tauto.
  - intros y f t ys e IH scope s x. cbn [exp_fv_aux free].
    rewrite IH, add_list_In, sadd_In. cbn [In]. intuition congruence.
  - intros B e IHB IHe scope s x. cbn [exp_fv_aux free].
    specialize (IHB scope s). destruct (fundefs_fv_aux B scope s) as [sc fv].
    cbn [fst snd] in IHB. destruct IHB as [H1 H2].
    rewrite IHe, H1, H2. tauto.
  - intros f t ys scope s x. cbn [exp_fv_aux free].
    rewrite ADD, add_list_In. tauto.
  - intros y p e IH scope s x. cbn [exp_fv_aux free].
    rewrite IH, sadd_In. tauto.
  - intros y p ys e IH scope s x. cbn [exp_fv_aux free].
    rewrite IH, add_list_In, sadd_In. tauto.
  - intros y scope s x. cbn [exp_fv_aux free]. apply ADD.
  - intros f t xs e B IHe IHB scope s. cbn [fundefs_fv_aux fnames free_body].
    specialize (IHB (sadd f scope) s).
    destruct (fundefs_fv_aux B (sadd f scope) s) as [sc fv].
    cbn [fst snd] in *. destruct IHB as [H1 H2]. split.
    + intro x. rewrite H1, sadd_In. cbn. intuition congruence.
    + intro x. rewrite IHe, union_list_In, H1, H2, sadd_In. cbn [In].
      intuition congruence.
  - intros scope s. cbn. split; intro x; tauto.
Qed.

Lemma exp_fv_spec e x : In x (exp_fv e) <-> free x e.
Proof. unfold exp_fv. rewrite (proj1 exp_fv_aux_spec). cbn. tauto. Qed.

Lemma fundefs_fv_spec B x : In x (fundefs_fv B) <-> free_funs x B.
Proof.
  unfold fundefs_fv, free_funs. destruct (proj2 exp_fv_aux_spec B [] []) as [_ H].
  rewrite H. cbn. tauto.
Qed.

(** no duplicates, so [cardinal] counts variables *)
Lemma sadd_NoDup x s : NoDup s -> NoDup (sadd x s).
Proof.
  intro H. unfold sadd. destruct (mem x s) eqn:E; auto.
  constructor; auto. apply mem_not_In. exact E.
Qed.

Lemma add_list_NoDup scope ys : forall s, NoDup s -> NoDup (add_list scope s ys).
Proof.
  unfold add_list. induction ys as [|y ys IH]; intros s H; cbn; auto.
  apply IH. destruct (mem y scope); auto. apply sadd_NoDup. exact H.
Qed.

Lemma exp_fv_aux_NoDup :
  (forall e scope s, NoDup s -> NoDup (exp_fv_aux e scope s)) /\
  (forall B scope s, NoDup s -> NoDup (snd (fundefs_fv_aux B scope s))).
Proof.
  assert (ADD : forall y scope s, NoDup s -> NoDup (if mem y scope then s else sadd y s)).
  { intros. destruct (mem y scope); auto using sadd_NoDup. }
  apply exp_fundefs_ind; intros; cbn [exp_fv_aux fundefs_fv_aux];
    auto using add_list_NoDup.
  - apply ADD. revert s H0. induction H as [|p l Hp F IH]; intros s H0; cbn; auto.
  - specialize (H scope s H1). destruct (fundefs_fv_aux B scope s). auto.
  - specialize (H0 (sadd f scope) s H1).
    destruct (fundefs_fv_aux B (sadd f scope) s). cbn in *. auto.
Qed.

(** ** Evaluation depends on free variables only *)
Definition ores (r1 r2 : res val) : Prop :=
  match r1, r2 with
  | OOT, OOT => True
  | Res v1, Res v2 => veq v1 v2
  | _, _ => False
  end.

Lemma env_agree_get S rho1 rho2 x v :
  env_agree S rho1 rho2 -> S x -> get x rho1 = Some v ->
  exists v', get x rho2 = Some v' /\ veq v v'.
Proof.
  intros A Sx G. destruct (A x Sx) as [[N _]|(v1 & v2 & G1 & G2 & V)]; [congruence|].
  exists v2. split; [auto|congruence].
Qed.

Lemma env_agree_get_list S rho1 rho2 ys : forall vs,
  env_agree S rho1 rho2 -> (forall y, In y ys -> S y) ->
  get_list ys rho1 = Some vs ->
  exists vs', get_list ys rho2 = Some vs' /\ Forall2 veq vs vs'.
Proof.
  induction ys as [|y ys IH]; cbn; intros vs A I G.
  - injection G as <-. eauto.
  - destruct (get y rho1) as [v|] eqn:E; [|discriminate].
    destruct (get_list ys rho1) as [vs0|] eqn:E0; [|discriminate].
    injection G as <-.
    destruct (env_agree_get S rho1 rho2 y v) as (v' & -> & V); auto.
    destruct (IH vs0) as (vs' & -> & VS); auto. eauto.
Qed.

Lemma env_agree_set (S S' : var -> Prop) rho1 rho2 x v1 v2 :
  env_agree S rho1 rho2 -> (forall y, y <> x -> S' y -> S y) -> veq v1 v2 ->
  env_agree S' (set x v1 rho1) (set x v2 rho2).
Proof.
  intros A I V y Sy. rewrite !get_set. destruct (Pos.eq_dec y x) as [->|N].
  - right. eauto.
  - apply A. auto.
Qed.

Lemma env_agree_incl (S S' : var -> Prop) rho1 rho2 :
  env_agree S rho1 rho2 -> (forall y, S' y -> S y) -> env_agree S' rho1 rho2.
Proof. intros A I y Sy. apply A. auto. Qed.

Lemma env_agree_set_lists (S S' : var -> Prop) xs : forall vs1 vs2 rho1 rho2 rho1',
  env_agree S rho1 rho2 -> (forall y, ~ In y xs -> S' y -> S y) ->
  Forall2 veq vs1 vs2 -> set_lists xs vs1 rho1 = Some rho1' ->
  exists rho2', set_lists xs vs2 rho2 = Some rho2' /\ env_agree S' rho1' rho2'.
Proof.
  revert S'. induction xs as [|x xs IH]; intros S' vs1 vs2 rho1 rho2 rho1' A I V E.
  - destruct vs1; [|discriminate]. inv V. cbn in *. injection E as <-.
    exists rho2. split; auto. eapply env_agree_incl; eauto.
  - destruct vs1 as [|v1 vs1]; [discriminate|]. inversion V as [|? v2 ? l2 V1 V2]; subst; clear V. cbn in *.
    destruct (set_lists xs vs1 rho1) as [r|] eqn:E1; [|discriminate].
    injection E as <-.
    destruct (IH (fun y => y <> x /\ S' y) vs1 l2 rho1 rho2 r) as (r2 & E2 & A2); auto.
    { intros y N [N2 Sy]. apply I; auto. intros [->|]; tauto. }
    rewrite E2. eexists. split; [reflexivity|].
    eapply env_agree_set; eauto. cbn. auto.
Qed.

Lemma def_funs_get B rho0 : forall B' rho x,
  get x (def_funs B B' rho0 rho) =
  if in_dec Pos.eq_dec x (fnames B') then Some (Vfun rho0 B x) else get x rho.
Proof.
  induction B' as [f t xs e B' IH|]; intros rho x; cbn [def_funs fnames].
  - rewrite get_set, IH. destruct (Pos.eq_dec x f) as [->|N].
    + destruct (in_dec Pos.eq_dec f (f :: fnames B')) as [|N']; [reflexivity|].
      exfalso. apply N'. left. reflexivity.
    + destruct (in_dec Pos.eq_dec x (fnames B')) as [I|I];
        destruct (in_dec Pos.eq_dec x (f :: fnames B')) as [I'|I']; auto.
      * exfalso. apply I'. right. auto.
      * exfalso. destruct I'; [congruence|auto].
  - destruct (in_dec Pos.eq_dec x []) as [[]|]. reflexivity.
Qed.

Lemma env_agree_def_funs (S S' : var -> Prop) rho1 rho2 rho1c rho2c B :
  env_agree S rho1 rho2 -> (forall y, ~ In y (fnames B) -> S' y -> S y) ->
  env_agree (fun x => free_funs x B) rho1c rho2c ->
  env_agree S' (def_funs B B rho1c rho1) (def_funs B B rho2c rho2).
Proof.
  intros A I C y Sy. rewrite !def_funs_get.
  destruct (in_dec Pos.eq_dec y (fnames B)) as [IN|IN].
  - right. eexists _, _. split; [reflexivity|]. split; [reflexivity|].
    constructor. exact C.
  - apply A. auto.
Qed.

Lemma find_def_free x f B t xs e :
  find_def f B = Some (t, xs, e) -> free x e -> ~ In x xs -> free_body x B.
Proof.
  induction B as [g t' ys b B IH|]; cbn; [|discriminate].
  destruct (Pos.eq_dec f g) as [->|].
  - intros H F N. injection H as <- <- <-. left. auto.
  - intros H F N. right. auto.
Qed.

Lemma Forall2_nthN A B (R : A -> B -> Prop) l1 l2 : Forall2 R l1 l2 ->
  forall n v1, nthN l1 n = Some v1 -> exists v2, nthN l2 n = Some v2 /\ R v1 v2.
Proof.
  induction 1 as [|a b l1 l2 H F IH]; intros n v1 E; cbn in *; [discriminate|].
  destruct (N.eqb n 0); [injection E as <-; eauto|]. auto.
Qed.

Lemma enter_agree v1 v2 t vs1 vs2 rho1 e :
  veq v1 v2 -> Forall2 veq vs1 vs2 -> enter v1 t vs1 = Some (rho1, e) ->
  exists rho2, enter v2 t vs2 = Some (rho2, e) /\
               env_agree (fun x => free x e) rho1 rho2.
Proof.
  intros V VS E. apply enter_spec in E as (r1 & fl & f & xs & -> & FD & SL).
  inversion V as [|? rho2 ? ? HV| |]; subst; clear V.
  destruct (env_agree_set_lists (fun x => free_body x fl) (fun x => free x e)
              xs vs1 vs2 (def_funs fl fl r1 r1) (def_funs fl fl rho2 rho2) rho1)
    as (r2 & E2 & A2); auto.
  { eapply env_agree_def_funs with (S := fun x => free_funs x fl); [exact HV| |exact HV].
    intros y N F. split; auto. }
  { intros y N F. eapply find_def_free; eauto. }
  exists r2. split; auto. apply enter_spec. eauto 10.
Qed.

Lemma bstep_agree_aux cenv :
  (forall rho e c r, bstep cenv rho e c r ->
     forall rho', env_agree (fun x => free x e) rho rho' ->
     exists r', bstep cenv rho' e c r' /\ ores r r') /\
  (forall rho e c r, bstep_fuel cenv rho e c r ->
     forall rho', env_agree (fun x => free x e) rho rho' ->
     exists r', bstep_fuel cenv rho' e c r' /\ ores r r').
Proof.
  apply bstep_mutind.
  - intros x t ys e rho vs r c G _ IH rho' A.
    destruct (env_agree_get_list _ _ _ ys vs A) as (vs' & G' & V); auto.
    { intros y I. left. exact I. }
    destruct (IH (set x (Vconstr t vs') rho')) as (r' & B & O).
    { eapply env_agree_set; eauto; [|constructor; auto].
      intros y N F. right. auto. }
    exists r'. split; auto. econstructor; eauto.
  - intros t vs rho x n y e v r c G NT _ IH rho' A.
    destruct (env_agree_get _ _ _ _ _ A (or_introl eq_refl : free y (Eproj x t n y e)) G)
      as (v' & G' & V).
    inversion V as [? ? ? HV| | |]; subst; clear V.
    destruct (Forall2_nthN _ _ _ _ _ HV _ _ NT) as (w & NT' & W).
    destruct (IH (set x w rho')) as (r' & B & O).
    { eapply env_agree_set; eauto. intros z N F. right. auto. }
    exists r'. split; auto. econstructor; eauto.
  - intros y r e t cl vl rho c G CC FT _ IH rho' A.
    destruct (env_agree_get _ _ _ _ _ A (or_introl eq_refl : free y (Ecase y cl)) G)
      as (v' & G' & V).
    inv V. destruct (IH rho') as (r' & B & O).
    { eapply env_agree_incl; eauto. intros z F. apply free_Ecase. right.
      eapply free_case_In; eauto. apply findtag_In. eauto. }
    exists r'. split; auto. econstructor; eauto.
  - intros rho0 fl f' vs xs e rho'' rho f t ys r c G GL FD SL _ IH rho' A.
    destruct (env_agree_get _ _ _ _ _ A (or_introl eq_refl : free f (Eapp f t ys)) G)
      as (v' & G' & V).
    destruct (env_agree_get_list _ _ _ ys vs A) as (vs' & GL' & VS); auto.
    { intros y I. right. exact I. }
    destruct (enter_agree _ _ t _ _ rho'' e V VS) as (rho2 & EN & A2).
    { apply enter_spec. eauto 10. }
    destruct (IH _ A2) as (r' & B & O).
    exists r'. split; auto. eapply bstep_app_intro; eauto.
  - intros rho0 fl f' vs xs eb e rho'' rho x f t ys v r c1 c2 G GL FD SL _ IH1 _ IH2 rho' A.
    destruct (env_agree_get _ _ _ _ _ A (or_introl eq_refl : free f (Eletapp x f t ys e)) G)
      as (v' & G' & V).
    destruct (env_agree_get_list _ _ _ ys vs A) as (vs' & GL' & VS); auto.
    { intros y I. right. left. exact I. }
    destruct (enter_agree _ _ t _ _ rho'' eb V VS) as (rho2 & EN & A2).
    { apply enter_spec. eauto 10. }
    destruct (IH1 _ A2) as (r1 & B1 & O1). destruct r1 as [|w]; [contradiction|].
    destruct (IH2 (set x w rho')) as (r' & B & O).
    { eapply env_agree_set; eauto. intros y N F. right. right. auto. }
    exists r'. split; auto. eapply bstep_letapp_intro; eauto.
  - intros rho0 fl f' vs xs eb e rho'' rho x f t ys c G GL FD SL _ IH rho' A.
    destruct (env_agree_get _ _ _ _ _ A (or_introl eq_refl : free f (Eletapp x f t ys e)) G)
      as (v' & G' & V).
    destruct (env_agree_get_list _ _ _ ys vs A) as (vs' & GL' & VS); auto.
    { intros y I. right. left. exact I. }
    destruct (enter_agree _ _ t _ _ rho'' eb V VS) as (rho2 & EN & A2).
    { apply enter_spec. eauto 10. }
    destruct (IH _ A2) as (r1 & B1 & O1). destruct r1 as [|w]; [|contradiction].
    exists OOT. split; [|exact I]. eapply bstep_letapp_oot_intro; eauto.
  - intros rho B e r c _ IH rho' A.
    destruct (IH (def_funs B B rho' rho')) as (r' & BS & O).
    { eapply env_agree_def_funs; eauto.
      - intros y N F. split; auto.
      - eapply env_agree_incl; eauto. intros y [N F]. split; auto. }
    exists r'. split; auto. constructor. auto.
  - intros x v rho G rho' A.
    destruct (env_agree_get _ _ _ _ _ A (eq_refl : free x (Ehalt x)) G) as (v' & G' & V).
    exists (Res v'). split; auto. constructor. auto.
  - intros rho e c L rho' A. exists OOT. split; [|exact I]. constructor. auto.
  - intros rho e r c _ IH rho' A. destruct (IH _ A) as (r' & B & O).
    exists r'. split; auto. constructor. auto.
Qed.

(** ** [veq] is reflexive, and equality on data *)
Section VALIND.
  Variable P : val -> Prop.
  Hypothesis Hc : forall t vs, Forall P vs -> P (Vconstr t vs).
  Hypothesis Hf : forall rho B f, Forall (fun p => P (snd p)) rho -> P (Vfun rho B f).
  Hypothesis Hp : forall p, P (Vprim p).
  Hypothesis Hi : forall z, P (Vint z).
  Fixpoint val_ind2 (v : val) : P v :=
    match v with
    | Vconstr t vs =>
        Hc t vs ((fix go (l : list val) : Forall P l :=
                    match l with
                    | [] => Forall_nil _
                    | a :: l' => Forall_cons a (val_ind2 a) (go l')
                    end) vs)
    | Vfun rho B f =>
        Hf rho B f ((fix go (l : list (positive * val)) : Forall (fun p => P (snd p)) l :=
                    match l with
                    | [] => Forall_nil _
                    | a :: l' => Forall_cons a (val_ind2 (snd a)) (go l')
                    end) rho)
    | Vprim p => Hp p
    | Vint z => Hi z
    end.
End VALIND.

Lemma get_Forall A (P : A -> Prop) m x v :
  Forall (fun p => P (snd p)) m -> get x m = Some v -> P v.
Proof.
  induction 1 as [|[y w] m H F IH]; cbn; [discriminate|].
  destruct (Pos.eq_dec x y); intro G; [injection G as <-; auto|auto].
Qed.

Lemma veq_refl : forall v, veq v v.
Proof.
  apply val_ind2; intros.
  - constructor. induction H; constructor; auto.
  - constructor. intros x _. destruct (get x rho) eqn:G; [|auto].
    right. exists v, v. repeat split; auto. exact (get_Forall _ (fun v => veq v v) _ _ _ H G).
  - constructor.
  - constructor.
Qed.

Lemma veq_data : forall v1 v2, veq v1 v2 -> data v1 -> v1 = v2.
Proof.
  apply (val_ind2 (fun v1 => forall v2, veq v1 v2 -> data v1 -> v1 = v2)); intros.
  - inversion H0 as [? ? vs2 HV| | |]; subst. f_equal. cbn in H1. clear H0. revert vs2 HV.
    induction H as [|a l Ha F IH]; intros l2 V; inversion V; subst; auto.
    destruct H1 as [D1 D2]. f_equal; auto.
  - destruct H1.
  - inv H. auto.
  - inv H. auto.
Qed.
