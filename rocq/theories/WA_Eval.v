(** * The evaluator [peval] and the relation [bstep_e] agree *)
From Coq Require Import ZArith NArith List Lia Bool.
Import ListNotations.
From Verif Require Import ANF_Syntax ANF_Eval WA_Wasm WA_Model WA_Spec.
Set Implicit Arguments.

Section Ev.
  Variable cenv : ctor_env.
  Variable pr : tmap (list val -> option val).
  Notation ev := (ev cenv pr).
  Notation callf := (callf cenv pr).
  Notation peval := (peval cenv pr).
  Notation bse := (bstep_e cenv pr).

  Lemma go_findtag call rho t : forall cl,
    (fix go cs := match cs with [] => PStuck | p :: cs' => if Pos.eq_dec (fst p) t then ev call rho (snd p) else go cs' end) cl =
    match findtag cl t with Some e => ev call rho e | None => PStuck end.
  Proof.
    induction cl as [|[c e] cl IH]; [reflexivity|]. cbn [findtag fst snd]. destruct (Pos.eq_dec c t); [reflexivity|exact IH].
  Qed.

  Lemma ev_case call rho y cl : ev call rho (Ecase y cl) =
    match get y rho with
    | Some (Vconstr t vl) =>
        if caseConsistent_f cenv cl t then match findtag cl t with Some e => ev call rho e | None => PStuck end else PStuck
    | _ => PStuck
    end.
  Proof. cbn [WA_Spec.ev]. destruct (get y rho) as [[t vl| | |]|]; auto. destruct (caseConsistent_f cenv cl t); [|reflexivity]. apply go_findtag. Qed.

  (** more calls allowed do not change an answer *)
  Definition le_res (r r' : pres) : Prop := r = PTime \/ r = r'.

  Lemma ev_mono (c c' : val -> fun_tag -> list val -> pres) :
    (forall vf t vs, le_res (c vf t vs) (c' vf t vs)) -> forall e rho, le_res (ev c rho e) (ev c' rho e).
  Proof.
    intro H. apply (@exp_ind2 (fun e => forall rho, le_res (ev c rho e) (ev c' rho e)) (fun _ => True));
      try (intros; exact I).
    - intros x t ys e IH rho. cbn [WA_Spec.ev]. destruct (get_list ys rho); [apply IH|right; reflexivity].
    - intros x l F rho. rewrite !ev_case. destruct (get x rho) as [[t vl| | |]|]; try (right; reflexivity).
      destruct (caseConsistent_f cenv l t); [|right; reflexivity].
      induction F as [|[c0 e0] l He F IH]; cbn [findtag fst snd] in *; [right; reflexivity|].
      destruct (Pos.eq_dec c0 t); [apply He|exact IH].
    - intros x t n y e IH rho. cbn [WA_Spec.ev]. destruct (get y rho) as [[t' vs| | |]|]; try (right; reflexivity).
      destruct (Pos.eq_dec t t'); [|right; reflexivity]. destruct (nthN vs n); [apply IH|right; reflexivity].
    - intros x f t ys e IH rho. cbn [WA_Spec.ev]. destruct (get f rho) as [vf|]; [|right; reflexivity].
      destruct (get_list ys rho) as [vs|]; [|right; reflexivity].
      destruct (H vf t vs) as [E|E]; rewrite E; [left; reflexivity|].
      destruct (c' vf t vs); [apply IH|right; reflexivity|right; reflexivity].
    - intros B e _ IH rho. cbn [WA_Spec.ev]. apply IH.
    - intros f t ys rho. cbn [WA_Spec.ev]. destruct (get f rho) as [vf|]; [|right; reflexivity].
      destruct (get_list ys rho) as [vs|]; [|right; reflexivity]. apply H.
    - intros x p e IH rho. cbn [WA_Spec.ev]. apply IH.
    - intros x p ys e IH rho. cbn [WA_Spec.ev]. destruct (get_list ys rho) as [vs|]; [|right; reflexivity].
      destruct (get p pr) as [f|]; [|right; reflexivity]. destruct (f vs); [apply IH|right; reflexivity].
    - intros x rho. right. reflexivity.
  Qed.

  Lemma callf_mono : forall n m, (n <= m)%nat -> forall vf t vs, le_res (callf n vf t vs) (callf m vf t vs).
  Proof.
    induction n as [|n IH]; intros m L vf t vs; [left; reflexivity|]. destruct m as [|m]; [lia|].
    cbn [WA_Spec.callf]. destruct vf as [|rho' fl f'| |]; try (right; reflexivity).
    destruct (find_def f' fl) as [[[t' xs] e]|]; [|right; reflexivity]. destruct (Pos.eq_dec t t'); [|right; reflexivity].
    destruct (set_lists xs vs (def_funs fl fl rho' rho')); [|right; reflexivity].
    apply ev_mono. apply IH. lia.
  Qed.

  Lemma peval_mono n m rho e r : (n <= m)%nat -> peval n rho e = r -> r <> PTime -> peval m rho e = r.
  Proof.
    intros L H N. destruct (@ev_mono _ _ (callf_mono L) e rho) as [E|E]; unfold WA_Spec.peval in *; congruence.
  Qed.

  Lemma callf_S n rho' fl f' t xs e vs rho'' : find_def f' fl = Some (t, xs, e) ->
    set_lists xs vs (def_funs fl fl rho' rho') = Some rho'' -> callf (S n) (Vfun rho' fl f') t vs = peval n rho'' e.
  Proof. intros F S. cbn [WA_Spec.callf]. rewrite F. destruct (Pos.eq_dec t t); [|contradiction]. rewrite S. reflexivity. Qed.

  (** the evaluator finds every value the relation derives, within as many calls *)
  Theorem bstep_e_peval rho e v c : bse rho e v c -> peval c rho e = PVal v.
  Proof.
    unfold WA_Spec.peval. induction 1.
    - cbn [WA_Spec.ev]. rewrite H. exact IHbstep_e.
    - cbn [WA_Spec.ev]. rewrite H. destruct (Pos.eq_dec t t); [|contradiction]. rewrite H0. exact IHbstep_e.
    - rewrite ev_case, H, H0, H1. exact IHbstep_e.
    - cbn [WA_Spec.ev]. rewrite H, H0. rewrite Nat.add_1_r. erewrite callf_S by eassumption. exact IHbstep_e.
    - cbn [WA_Spec.ev]. rewrite H, H0. replace (c + c' + 1)%nat with (S (c + c')) by lia. erewrite callf_S by eassumption.
      rewrite (@peval_mono c (c + c') rho'' e_body (PVal v)); [|lia|exact IHbstep_e1|discriminate].
      apply (@peval_mono c' (S (c + c')) (set x v rho) e (PVal v')); [lia|exact IHbstep_e2|discriminate].
    - cbn [WA_Spec.ev]. exact IHbstep_e.
    - cbn [WA_Spec.ev]. exact IHbstep_e.
    - cbn [WA_Spec.ev]. rewrite H, H0, H1. exact IHbstep_e.
    - cbn [WA_Spec.ev]. rewrite H. reflexivity.
  Qed.

  (** and only those *)
  Lemma ev_sound call : (forall vf t vs v, call vf t vs = PVal v ->
      exists rho' fl f' xs e rho'' c, vf = Vfun rho' fl f' /\ find_def f' fl = Some (t, xs, e) /\
        set_lists xs vs (def_funs fl fl rho' rho') = Some rho'' /\ bse rho'' e v c) ->
    forall e rho v, ev call rho e = PVal v -> exists c, bse rho e v c.
  Proof.
    intro H. apply (@exp_ind2 (fun e => forall rho v, ev call rho e = PVal v -> exists c, bse rho e v c) (fun _ => True));
      try (intros; exact I).
    - intros x t ys e IH rho v E. cbn [WA_Spec.ev] in E. destruct (get_list ys rho) eqn:G; [|discriminate].
      destruct (IH _ _ E) as [c Hc]. exists c. econstructor; eauto.
    - intros x l F rho v E. rewrite ev_case in E. destruct (get x rho) as [[t vl| | |]|] eqn:G; try discriminate.
      destruct (caseConsistent_f cenv l t) eqn:CC; [|discriminate].
      destruct (findtag l t) as [e|] eqn:Ft; [|discriminate].
      assert (He : forall rho v, ev call rho e = PVal v -> exists c, bse rho e v c).
      { clear E CC. induction F as [|[c0 e0] l He F IH]; cbn [findtag] in Ft; [discriminate|].
        destruct (Pos.eq_dec c0 t); [|exact (IH Ft)]. assert (e0 = e) by congruence. subst e0. exact He. }
      destruct (He _ _ E) as [c Hc]. exists c. econstructor; eauto.
    - intros x t n y e IH rho v E. cbn [WA_Spec.ev] in E. destruct (get y rho) as [[t' vs| | |]|] eqn:G; try discriminate.
      destruct (Pos.eq_dec t t'); [subst t'|discriminate]. destruct (nthN vs n) eqn:Nn; [|discriminate].
      destruct (IH _ _ E) as [c Hc]. exists c. econstructor; eauto.
    - intros x f t ys e IH rho v E. cbn [WA_Spec.ev] in E. destruct (get f rho) as [vf|] eqn:G; [|discriminate].
      destruct (get_list ys rho) as [vs|] eqn:Gl; [|discriminate]. destruct (call vf t vs) as [v0| |] eqn:Ec; try discriminate.
      destruct (H _ _ _ _ Ec) as (rho' & fl & f' & xs & eb & rho'' & c1 & -> & F & S & Hb).
      destruct (IH _ _ E) as [c2 H2]. exists (c1 + c2 + 1)%nat. econstructor; eauto.
    - intros B e _ IH rho v E. cbn [WA_Spec.ev] in E. destruct (IH _ _ E) as [c Hc]. exists c. constructor. exact Hc.
    - intros f t ys rho v E. cbn [WA_Spec.ev] in E. destruct (get f rho) as [vf|] eqn:G; [|discriminate].
      destruct (get_list ys rho) as [vs|] eqn:Gl; [|discriminate].
      destruct (H _ _ _ _ E) as (rho' & fl & f' & xs & eb & rho'' & c1 & -> & F & S & Hb).
      exists (c1 + 1)%nat. econstructor; eauto.
    - intros x p e IH rho v E. cbn [WA_Spec.ev] in E. destruct (IH _ _ E) as [c Hc]. exists c. constructor. exact Hc.
    - intros x p ys e IH rho v E. cbn [WA_Spec.ev] in E. destruct (get_list ys rho) as [vs|] eqn:Gl; [|discriminate].
      destruct (get p pr) as [f|] eqn:G; [|discriminate]. destruct (f vs) as [v0|] eqn:Ef; [|discriminate].
      destruct (IH _ _ E) as [c Hc]. exists c. econstructor; eauto.
    - intros x rho v E. cbn [WA_Spec.ev] in E. destruct (get x rho) as [v0|] eqn:G; [|discriminate].
      assert (v0 = v) by congruence. subst v0. exists 0%nat. constructor. exact G.
  Qed.

  Theorem peval_bstep_e : forall n rho e v, peval n rho e = PVal v -> exists c, bse rho e v c.
  Proof.
    induction n as [|n IH]; intros rho e v; apply ev_sound; intros vf t vs v0 E; [discriminate|].
    cbn [WA_Spec.callf] in E. destruct vf as [|rho' fl f'| |]; try discriminate.
    destruct (find_def f' fl) as [[[t' xs] eb]|] eqn:F; [|discriminate]. destruct (Pos.eq_dec t t'); [subst t'|discriminate].
    destruct (set_lists xs vs (def_funs fl fl rho' rho')) as [rho''|] eqn:S; [|discriminate].
    destruct (IH _ _ _ E) as [c Hc]. exists rho', fl, f', xs, eb, rho'', c. auto.
  Qed.

  (** programs without primitives: the relation with fuel of ANF_Eval gives the same values *)
  Lemma bstep_bstep_e : (forall rho e c r, bstep cenv rho e c r -> forall v, r = Res v -> exists c', bse rho e v c') /\
    (forall rho e c r, bstep_fuel cenv rho e c r -> forall v, r = Res v -> exists c', bse rho e v c').
  Proof.
    apply bstep_mutind; intros; subst; try discriminate;
      try (match goal with H : forall v, _ = Res v -> _ |- _ => destruct (H _ eq_refl) as [c' Hc] end;
           exists c'; econstructor; eauto; fail).
    - destruct (H4 _ eq_refl) as [c' Hc]. exists (c' + 1)%nat. econstructor; eauto.
    - destruct (H4 _ eq_refl) as [a Ha]. destruct (H6 _ eq_refl) as [b Hb]. exists (a + b + 1)%nat. econstructor; eauto.
    - assert (v = v0) by congruence. subst v0. exists 0%nat. constructor. assumption.
    - destruct (H0 _ eq_refl) as [c' Hc]. exists c'. exact Hc.
  Qed.
End Ev.
