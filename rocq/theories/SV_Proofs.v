From Coq Require Import ZArith NArith List Bool Lia.
From Coq Require Import Relations.
From Verif Require Import ANF_Syntax ANF_Eval SV_Model SV_Spec.
Import ListNotations.

Section Proofs.
Variable pr : prims.
Variable cenv : ctor_env.
Notation bf := (bstep_f pr cenv).
Notation be := (bstep_e pr cenv).
Notation bc := (bstep_cost pr cenv).

(** ** The evaluator *)
Lemma bstep_f_more : forall n rho e r, bf rho e n = r -> (forall st, r <> Ret (inl st)) ->
  bf rho e (S n) = r.
Proof.
  induction n as [|n IH]; intros rho e r H N.
  - cbn in H. subst. exfalso. eapply N. reflexivity.
  - remember (S n) as m eqn:Em. cbn [bstep_f]. rewrite Em in H. cbn [bstep_f] in H.
    assert (IH' : forall rho e r, bf rho e n = r -> (forall st, r <> Ret (inl st)) -> bf rho e m = r)
      by (subst m; exact IH). clear IH Em.
    destruct e; unfold opt_bind in *;
      repeat match goal with
             | H : context [match ?o with _ => _ end] |- _ =>
                 match o with
                 | bstep_f _ _ _ _ _ => fail 1
                 | context [bstep_f] => fail 1
                 | _ => destruct o eqn:?
                 end
             end; try assumption; try (apply IH'; assumption).
    + match goal with H : context [bf ?r ?b n] |- _ => destruct (bf r b n) as [|[st|w]] eqn:E end.
      * rewrite (IH' _ _ _ E) by discriminate. exact H.
      * subst r. exfalso. eapply N. reflexivity.
      * rewrite (IH' _ _ _ E) by discriminate. apply IH'; assumption.
Qed.

Lemma bstep_f_mono : forall n m rho e r, n <= m -> bf rho e n = r ->
  (forall st, r <> Ret (inl st)) -> bf rho e m = r.
Proof.
  intros n m rho e r L H N. induction L as [|m L IH]; [exact H|].
  apply bstep_f_more; assumption.
Qed.

Lemma bstep_f_sound : forall n rho e v, bf rho e n = Ret (inr v) -> exists c, be rho e v c.
Proof.
  induction n as [|n IH]; intros rho e v H; [discriminate|]. cbn [bstep_f] in H.
  destruct e; unfold opt_bind in H;
    repeat match goal with
           | H : context [match ?o with _ => _ end] |- _ =>
               match o with
               | bstep_f _ _ _ _ _ => fail 1
               | context [bstep_f] => fail 1
               | _ => destruct o eqn:?
               end
           end; try discriminate;
    repeat match goal with E : Pos.eqb _ _ = true |- _ => apply Pos.eqb_eq in E; subst end.
  - destruct (IH _ _ _ H) as [k K]. exists k. econstructor; eassumption.
  - destruct (IH _ _ _ H) as [k K]. exists k. econstructor; eassumption.
  - destruct (IH _ _ _ H) as [k K]. exists k. econstructor; eassumption.
  - match goal with H : context [bf ?r ?b n] |- _ => destruct (bf r b n) as [|[st|w]] eqn:E end;
      try discriminate.
    destruct (IH _ _ _ E) as [k K]. destruct (IH _ _ _ H) as [k' K'].
    exists (k + k' + 1). econstructor; eassumption.
  - destruct (IH _ _ _ H) as [k K]. exists k. econstructor; eassumption.
  - destruct (IH _ _ _ H) as [k K]. exists (k + 1). econstructor; eassumption.
  - destruct (IH _ _ _ H) as [k K]. exists k. econstructor; eassumption.
  - destruct (IH _ _ _ H) as [k K]. exists k. econstructor; eassumption.
  - injection H as ->. exists 0. constructor. assumption.
Qed.

Lemma bstep_f_complete : forall rho e v c, be rho e v c -> exists n, bf rho e n = Ret (inr v).
Proof.
  intros rho e v c H.
  induction H as [x t ys e rho vs v c G _ [n IH]|t vs v rho x k y e ov c G N _ [n IH]
    |y v e t cl vl rho c G C F _ [n IH]|rho' fl f' vs xs e rho'' rho f t ys v c G L D S' _ [n IH]
    |rho' fl f' vs xs eb e rho'' rho x f t ys v v' c c' G L D S' _ [n IH] _ [n' IH']
    |rho fl e v c _ [n IH]|rho x p e v c _ [n IH]
    |vs rho x f f' ys e v v' c G P A _ [n IH]|x v rho G].
  - exists (S n). cbn [bstep_f]. rewrite G. exact IH.
  - exists (S n). cbn [bstep_f]. rewrite G, Pos.eqb_refl, N. exact IH.
  - exists (S n). cbn [bstep_f]. rewrite G, F. cbn [opt_bind]. rewrite C. exact IH.
  - exists (S n). cbn [bstep_f]. rewrite G, L. cbn [opt_bind]. rewrite D, Pos.eqb_refl, S'. exact IH.
  - exists (S (n + n')). cbn [bstep_f]. rewrite G, L. cbn [opt_bind]. rewrite D, Pos.eqb_refl, S'.
    cbn [opt_bind]. rewrite (bstep_f_mono n (n + n') _ _ _ ltac:(lia) IH) by discriminate.
    apply (bstep_f_mono n' (n + n') _ _ _ ltac:(lia) IH'). discriminate.
  - exists (S n). exact IH.
  - exists (S n). exact IH.
  - exists (S n). cbn [bstep_f]. rewrite G. cbn [opt_bind]. rewrite P. cbn [opt_bind]. rewrite A. exact IH.
  - exists 1. cbn. rewrite G. reflexivity.
Qed.

(** ** The cost *)
Lemma find_tag_nth_findtag : forall cl t e n, find_tag_nth cl t e n -> findtag cl t = Some e /\ 1 <= n.
Proof.
  induction 1 as [c e l|c e l c' e' n _ [IH L] N]; cbn [findtag].
  - destruct (Pos.eq_dec c c); [auto|congruence].
  - destruct (Pos.eq_dec c c'); [congruence|]. split; [assumption|lia].
Qed.

Lemma findtag_nth : forall cl t e, findtag cl t = Some e -> exists n, find_tag_nth cl t e n.
Proof.
  induction cl as [|[c a] cl IH]; cbn [findtag]; intros t e H; [discriminate|].
  destruct (Pos.eq_dec c t) as [->|N].
  - injection H as ->. exists 1. constructor.
  - destruct (IH _ _ H) as [n K]. exists (n + 1). constructor; assumption.
Qed.

Lemma cost_sound : forall rho e v k, bc rho e v k -> exists c, be rho e v c /\ c < k.
Proof.
  induction 1.
  - destruct IHbstep_cost as [n [A1 B1]]. exists n. split; [econstructor; eassumption|lia].
  - destruct IHbstep_cost as [m [A1 B1]]. exists m. split; [econstructor; eassumption|lia].
  - destruct IHbstep_cost as [m [A1 B1]]. apply find_tag_nth_findtag in H1 as [F L].
    exists m. split; [econstructor; eassumption|lia].
  - destruct IHbstep_cost as [n [A1 B1]]. exists (n + 1). split; [econstructor; eassumption|lia].
  - destruct IHbstep_cost1 as [n [A1 B1]]. destruct IHbstep_cost2 as [m [A2 B2]].
    exists (n + m + 1). split; [econstructor; eassumption|lia].
  - destruct IHbstep_cost as [n [A1 B1]]. exists n. split; [econstructor; eassumption|lia].
  - destruct IHbstep_cost as [n [A1 B1]]. exists n. split; [econstructor; eassumption|lia].
  - destruct IHbstep_cost as [n [A1 B1]]. exists n. split; [econstructor; eassumption|lia].
  - exists 0. split; [constructor; assumption|lia].
Qed.

Lemma cost_complete : forall rho e v c, be rho e v c -> exists k, bc rho e v k.
Proof.
  induction 1.
  - destruct IHbstep_e as [k K]. eexists. econstructor; eassumption.
  - destruct IHbstep_e as [k K]. eexists. econstructor; eassumption.
  - destruct IHbstep_e as [k K]. destruct (findtag_nth _ _ _ H1) as [n N].
    eexists. econstructor; eassumption.
  - destruct IHbstep_e as [k K]. eexists. econstructor; eassumption.
  - destruct IHbstep_e1 as [k K]. destruct IHbstep_e2 as [k' K']. eexists. econstructor; eassumption.
  - destruct IHbstep_e as [k K]. eexists. econstructor; eassumption.
  - destruct IHbstep_e as [k K]. eexists. econstructor; eassumption.
  - destruct IHbstep_e as [k K]. eexists. econstructor; eassumption.
  - eexists. constructor. assumption.
Qed.

(** ** Small steps *)
Lemma step_back : forall s s', step pr cenv s s' -> forall v c, be (fst s') (snd s') v c ->
  exists c', be (fst s) (snd s) v c'.
Proof. intros s s' H v c B. inversion H; subst; cbn in *; eexists; econstructor; eassumption. Qed.

Lemma mstep_sound : forall s s', mstep pr cenv s s' -> forall v, halt_state s' v ->
  exists c, be (fst s) (snd s) v c.
Proof.
  intros s s' H. induction H as [s|s s1 s' S1 _ IH]; intros v HV.
  - inversion HV; subst. exists 0. constructor. assumption.
  - destruct (IH _ HV) as [c K]. eapply step_back; eassumption.
Qed.

(** ** Fuel *)
Lemma fuel_sound :
  (forall rho e c r, bstep cenv rho e c r -> forall v, r = Res v -> exists c', be rho e v c') /\
  (forall rho e c r, bstep_fuel cenv rho e c r -> forall v, r = Res v -> exists c', be rho e v c').
Proof.
  apply bstep_mutind.
  - intros x t ys e rho vs r c H _ IH w ->. destruct (IH _ eq_refl) as [k K]. exists k. econstructor; eassumption.
  - intros t vs rho x n y e v r c H H0 _ IH w ->. destruct (IH _ eq_refl) as [k K]. exists k. econstructor; eassumption.
  - intros y r e t cl vl rho c H H0 H1 _ IH w ->. destruct (IH _ eq_refl) as [k K]. exists k. econstructor; eassumption.
  - intros rho' fl f' vs xs e rho'' rho f t ys r c H H0 H1 H2 _ IH w ->.
    destruct (IH _ eq_refl) as [k K]. exists (k + 1). econstructor; eassumption.
  - intros rho' fl f' vs xs eb e rho'' rho x f t ys v r c1 c2 H H0 H1 H2 _ IH1 _ IH2 w ->.
    destruct (IH1 _ eq_refl) as [k K]. destruct (IH2 _ eq_refl) as [k' K'].
    exists (k + k' + 1). econstructor; eassumption.
  - discriminate.
  - intros rho B e r c _ IH w ->. destruct (IH _ eq_refl) as [k K]. exists k. econstructor; eassumption.
  - intros x v rho H w E. injection E as <-. exists 0. constructor. assumption.
  - discriminate.
  - intros rho e r c _ IH w E. exact (IH w E).
Qed.

(** ** Forms are kept by evaluation *)
Section Kept.
Variables (la li op : bool).
Notation fe := (forms_e la li op).
Notation fB := (forms_B la li op).
Notation fv := (forms_v la li op).
Notation fenv := (forms_env la li op).

Lemma get_forms : forall rho x v, fenv rho -> get x rho = Some v -> fv v.
Proof.
  induction rho as [|[y w] rho IH]; cbn [get]; intros x v F H; [discriminate|].
  inversion F; subst. destruct (Pos.eq_dec x y); [injection H as <-; assumption|eauto].
Qed.

Lemma get_list_forms : forall ys rho vs, fenv rho -> get_list ys rho = Some vs -> Forall fv vs.
Proof.
  induction ys as [|y ys IH]; cbn [get_list]; intros rho vs F H.
  - injection H as <-. constructor.
  - destruct (get y rho) eqn:G; [|discriminate]. destruct (get_list ys rho) eqn:L; [|discriminate].
    injection H as <-. constructor; [eapply get_forms; eassumption|eauto].
Qed.

Lemma nthN_forms : forall vs n v, Forall fv vs -> nthN vs n = Some v -> fv v.
Proof.
  induction vs as [|a vs IH]; cbn [nthN]; intros n v F H; [discriminate|]. inversion F; subst.
  destruct (N.eqb n 0); [injection H as <-; assumption|eauto].
Qed.

Lemma set_lists_forms : forall xs vs rho rho', Forall fv vs -> fenv rho ->
  set_lists xs vs rho = Some rho' -> fenv rho'.
Proof.
  induction xs as [|x xs IH]; intros [|v vs] rho rho' F E H; cbn [set_lists] in H; try discriminate.
  - injection H as <-. assumption.
  - inversion F; subst. destruct (set_lists xs vs rho) eqn:S1; [|discriminate]. injection H as <-.
    constructor; [assumption|eapply IH; eassumption].
Qed.

Lemma def_funs_forms : forall B0 B rho0 rho, fB B0 -> fenv rho0 -> fenv rho ->
  fenv (def_funs B0 B rho0 rho).
Proof.
  intros B0 B rho0 rho F0 E0 E. induction B as [f t xs e B IH|]; cbn [def_funs]; [|assumption].
  constructor; [|assumption]. cbn. constructor; assumption.
Qed.

Lemma find_def_forms : forall f B t xs e, fB B -> find_def f B = Some (t, xs, e) -> fe e.
Proof.
  induction B as [g t' ys e' B IH|]; cbn [find_def forms_B]; intros t xs e F H; [|discriminate].
  destruct F as [F1 F2]. destruct (Pos.eq_dec f g); [injection H as _ _ <-; assumption|eauto].
Qed.

Lemma findtag_forms : forall cl t e y, fe (Ecase y cl) -> findtag cl t = Some e -> fe e.
Proof.
  induction cl as [|[c a] cl IH]; cbn [findtag]; intros t e y F H; [discriminate|].
  cbn in F. destruct F as [F1 F2]. destruct (Pos.eq_dec c t); [injection H as <-; assumption|].
  apply (IH t e y); assumption.
Qed.

Lemma fun_forms : forall rho B f, fv (Vfun rho B f) -> fenv rho /\ fB B.
Proof. intros rho B f H. inversion H; subst. split; assumption. Qed.

Lemma constr_forms : forall t vs, fv (Vconstr t vs) -> Forall fv vs.
Proof. intros t vs H. inversion H; subst. assumption. Qed.

Lemma call_forms : forall rho f rho' fl f' ys vs t xs e rho'', fenv rho ->
  get f rho = Some (Vfun rho' fl f') -> get_list ys rho = Some vs ->
  find_def f' fl = Some (t, xs, e) ->
  set_lists xs vs (def_funs fl fl rho' rho') = Some rho'' -> fenv rho'' /\ fe e.
Proof.
  intros rho f rho' fl f' ys vs t xs e rho'' E G L D S1.
  destruct (fun_forms _ _ _ (get_forms _ _ _ E G)) as [E' FB]. split.
  - eapply set_lists_forms; [exact (get_list_forms ys rho vs E L)| |exact S1].
    apply def_funs_forms; assumption.
  - eapply find_def_forms; eassumption.
Qed.

Hypothesis P : forms_prims la li op pr.

Lemma result_forms : forall rho e v c, be rho e v c -> fenv rho -> fe e -> fv v.
Proof.
  induction 1; intros E F; cbn [forms_e] in F.
  - apply IHbstep_e; [|assumption]. constructor; [|assumption]. cbn. constructor.
    eapply get_list_forms; eassumption.
  - apply IHbstep_e; [|assumption]. constructor; [|assumption]. cbn.
    eapply nthN_forms; [|eassumption]. eapply constr_forms. eapply get_forms; eassumption.
  - apply IHbstep_e; [assumption|]. apply (findtag_forms cl t e y); assumption.
  - destruct (call_forms _ _ _ _ _ _ _ _ _ _ _ E H H0 H1 H2). auto.
  - destruct (call_forms _ _ _ _ _ _ _ _ _ _ _ E H H0 H1 H2). destruct F as [_ F].
    apply IHbstep_e2; [|assumption]. constructor; [|assumption]. cbn. auto.
  - destruct F as [FB F]. apply IHbstep_e; [|assumption]. apply def_funs_forms; assumption.
  - destruct F as [_ F]. apply IHbstep_e; [|assumption]. constructor; [|assumption]. constructor.
  - destruct F as [_ F]. apply IHbstep_e; [|assumption]. constructor; [|assumption]. cbn.
    eapply P; try eassumption. eapply get_list_forms; eassumption.
  - eapply get_forms; eassumption.
Qed.
End Kept.

(** ** Completeness of fuel, without literals and operations *)
Lemma fuel_complete : forms_prims true false false pr -> forall rho e v c, be rho e v c ->
  forms_env true false false rho -> forms_e true false false e ->
  exists k, bstep cenv rho e k (Res v).
Proof.
  intro P. induction 1; intros E F; cbn [forms_e] in F.
  - destruct IHbstep_e as [k K]; [|assumption|].
    + constructor; [|assumption]. cbn. constructor. eapply get_list_forms; eassumption.
    + exists (k + 1). econstructor; [eassumption|]. constructor. exact K.
  - destruct IHbstep_e as [k K]; [|assumption|].
    + constructor; [|assumption]. cbn. eapply nthN_forms; [|eassumption]. eapply constr_forms.
      eapply get_forms; eassumption.
    + exists (k + 1). econstructor; try eassumption. constructor. exact K.
  - destruct IHbstep_e as [k K]; [assumption|eapply (findtag_forms _ _ _ cl t e y); eassumption|].
    exists (k + 1). econstructor; try eassumption. constructor. exact K.
  - destruct (call_forms _ _ _ _ _ _ _ _ _ _ _ _ _ _ E H H0 H1 H2) as [E2 F2].
    destruct IHbstep_e as [k K]; auto. exists (k + 1). econstructor; try eassumption. constructor. exact K.
  - destruct (call_forms _ _ _ _ _ _ _ _ _ _ _ _ _ _ E H H0 H1 H2) as [E2 F2].
    destruct F as [_ F]. destruct IHbstep_e1 as [k K]; auto. destruct IHbstep_e2 as [k' K']; [|assumption|].
    + constructor; [|assumption]. cbn. eapply result_forms; eassumption.
    + exists ((k + 1) + (k' + 1)).
      apply (BStept_letapp cenv rho' fl f' vs xs e_body e rho'' rho x f t ys v (Res v'));
        try assumption; constructor; assumption.
  - destruct F as [FB F]. destruct IHbstep_e as [k K]; [apply def_funs_forms; assumption|assumption|].
    exists (k + 1). constructor. constructor. exact K.
  - destruct F; discriminate.
  - destruct F; discriminate.
  - exists 0. constructor. assumption.
Qed.

(** ** Completeness of small steps, without calls whose result is used and without literals *)
Lemma mstep_complete : forms_prims false false true pr -> forall rho e v c, be rho e v c ->
  forms_env false false true rho -> forms_e false false true e ->
  exists s, mstep pr cenv (rho, e) s /\ halt_state s v.
Proof.
  intro P. induction 1; intros E F; cbn [forms_e] in F.
  - destruct IHbstep_e as [s [A B]]; [|assumption|].
    + constructor; [|assumption]. cbn. constructor. eapply get_list_forms; eassumption.
    + exists s. split; [|assumption]. econstructor 2; [econstructor; eassumption|exact A].
  - destruct IHbstep_e as [s [A B]]; [|assumption|].
    + constructor; [|assumption]. cbn. eapply nthN_forms; [|eassumption]. eapply constr_forms.
      eapply get_forms; eassumption.
    + exists s. split; [|assumption]. econstructor 2; [econstructor; eassumption|exact A].
  - destruct IHbstep_e as [s [A B]]; [assumption|eapply (findtag_forms _ _ _ cl t e y); eassumption|].
    exists s. split; [|assumption]. econstructor 2; [econstructor; eassumption|exact A].
  - destruct (call_forms _ _ _ _ _ _ _ _ _ _ _ _ _ _ E H H0 H1 H2) as [E2 F2].
    destruct IHbstep_e as [s [A B]]; auto.
    exists s. split; [|assumption]. econstructor 2; [econstructor; eassumption|exact A].
  - destruct F; discriminate.
  - destruct F as [FB F]. destruct IHbstep_e as [s [A B]]; [apply def_funs_forms; assumption|assumption|].
    exists s. split; [|assumption]. econstructor 2; [constructor|exact A].
  - destruct F; discriminate.
  - destruct F as [_ F]. destruct IHbstep_e as [s [A B]]; [|assumption|].
    + constructor; [|assumption]. cbn. eapply P; try eassumption. eapply get_list_forms; eassumption.
    + exists s. split; [|assumption]. econstructor 2; [econstructor; eassumption|exact A].
  - exists (rho, Ehalt x). split; [constructor|]. constructor. assumption.
Qed.
End Proofs.
