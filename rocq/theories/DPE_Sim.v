(** * Dead-parameter elimination preserves evaluation *)
From Coq Require Import ZArith NArith List Lia Bool Permutation.
From Verif Require Import ANF_Syntax ANF_Eval ANF_Spec ANF_Scope ANF_EvalProofs
  ANF_FreeProofs DPE_Model DPE_Spec Hoist_Proofs DPE_Proofs.
Import ListNotations.

Lemma is_hoisted_funs B f t xs e :
  is_hoisted_fundefs B = true -> In (f, t, xs, e) (flist B) -> is_hoisted_exp e = true.
Proof.
  induction B as [g t' ys b B IH|]; cbn; [|tauto].
  intro H. apply andb_true_iff in H as [H1 H2]. intros [I|I]; [|auto].
  injection I as <- <- <- <-. exact H1.
Qed.

Section SIM.
  Variables (cenv : ctor_env) (B : fundefs) (e0 : exp) (rho0 : env).
  Variables (L : live_fun) (fmap : ftagMap).
  Let K : masks := msk L.
  Let N := fnames B.
  Let B' := eliminate_fundefs fmap L B.
  Let dv := dval K B B' rho0.

  Hypothesis ND : NoDup N.
  Hypothesis GM : good_masks B e0 K.
  Hypothesis HB : is_hoisted_fundefs B = true.
  (** parameters and local variables of the functions are not function names *)
  Hypothesis DJ : forall f t xs b, In (f, t, xs, b) (flist B) ->
    forall x, In x xs \/ In x (bv b) -> ~ In x N.

  Definition wfIn (e : exp) : Prop :=
    is_hoisted_exp e = true /\ (forall x, In x (bv e) -> ~ In x N) /\
    (forall f, escapes f e -> K f = None).

  Definition inEnv (P : var -> Prop) (rho rho' : env) : Prop :=
    (forall f, In f N -> get f rho = Some (Vfun rho0 B f) /\
                         get f rho' = Some (Vfun rho0 B' f)) /\
    (forall x v, P x -> ~ In x N -> get x rho = Some v ->
       exists v', get x rho' = Some v' /\ dv v v').

  Definition ok (e e' : exp) (rho rho' : env) : Prop :=
    (e' = eliminate_expr fmap L e /\ wfIn e /\ inEnv (fun x => needed K x e) rho rho') \/
    (e = e' /\ forall x v, free x e -> get x rho = Some v ->
       exists v', get x rho' = Some v' /\ dv v v').

  Definition dres (r r' : res val) : Prop :=
    match r, r' with
    | OOT, OOT => True
    | Res v, Res v' => dv v v'
    | _, _ => False
    end.

  (** a variable used as a value *)
  Lemma in_get P rho rho' x v :
    inEnv P rho rho' -> P x -> (In x N -> K x = None) -> get x rho = Some v ->
    exists v', get x rho' = Some v' /\ dv v v'.
  Proof.
    intros [F E] Px EX G. destruct (in_dec Pos.eq_dec x N) as [I|I].
    - destruct (F x I) as [G1 G2]. rewrite G1 in G. injection G as <-.
      eexists. split; [exact G2|]. apply dval_in. auto.
    - apply E; auto.
  Qed.

  Lemma get_list_rel rho rho' ys : forall vs,
    (forall y v, In y ys -> get y rho = Some v -> exists v', get y rho' = Some v' /\ dv v v') ->
    get_list ys rho = Some vs ->
    exists vs', get_list ys rho' = Some vs' /\ Forall2 dv vs vs'.
  Proof.
    induction ys as [|y ys IH]; cbn; intros vs E GL.
    - injection GL as <-. eauto.
    - destruct (get y rho) as [v|] eqn:E1; [|discriminate].
      destruct (get_list ys rho) as [vs0|] eqn:E2; [|discriminate].
      injection GL as <-. destruct (E y v) as (v' & -> & V); auto.
      destruct (IH vs0) as (vs' & -> & VS); auto. eauto.
  Qed.

  (** arguments of a call that drops some *)
  Lemma get_list_pick rho rho' : forall ys bs vs,
    (forall y v, In y (pick ys bs) -> get y rho = Some v ->
       exists v', get y rho' = Some v' /\ dv v v') ->
    get_list ys rho = Some vs ->
    exists vs', get_list (pick ys bs) rho' = Some vs' /\ Forall2 dv (pick vs bs) vs'.
  Proof.
    induction ys as [|y ys IH]; intros bs vs E GL.
    - cbn in GL. injection GL as <-. destruct bs; cbn; eauto.
    - destruct bs as [|b bs].
      + destruct (get_list_rel rho rho' (y :: ys) vs) as (vs' & A1 & A2); auto.
        exists vs'. cbn [pick]. split; auto. destruct vs; exact A2.
      + cbn in GL. destruct (get y rho) as [v|] eqn:E1; [|discriminate].
        destruct (get_list ys rho) as [vs0|] eqn:E2; [|discriminate].
        injection GL as <-.
        destruct (IH bs vs0) as (vs' & A1 & A2); auto.
        { intros z w I. apply E. cbn. destruct b; [right|]; auto. }
        destruct b; cbn [pick].
        * destruct (E y v) as (v' & G' & V); [cbn; auto|auto|].
          exists (v' :: vs'). cbn. rewrite G', A1. auto.
        * eauto.
  Qed.

  Lemma set_lists_rel (P : var -> Prop) xs : forall vs vs' rho rho' rho1,
    Forall2 dv vs vs' -> set_lists xs vs rho = Some rho1 ->
    (forall x v, ~ In x xs -> P x -> get x rho = Some v ->
       exists v', get x rho' = Some v' /\ dv v v') ->
    exists rho1', set_lists xs vs' rho' = Some rho1' /\
      (forall x v, P x -> get x rho1 = Some v ->
         exists v', get x rho1' = Some v' /\ dv v v').
  Proof.
    revert P. induction xs as [|x xs IH]; intros P vs vs' rho rho' rho1 V S E.
    - destruct vs; [|discriminate]. inversion V; subst. cbn in *. injection S as <-.
      exists rho'. split; auto.
    - destruct vs as [|v vs]; [discriminate|].
      inversion V as [|? v2 ? l2 V1 V2]; subst. cbn in S |- *.
      destruct (set_lists xs vs rho) as [r|] eqn:S1; [|discriminate]. injection S as <-.
      destruct (IH (fun y => y <> x /\ P y) vs l2 rho rho' r) as (r2 & S2 & E2); auto.
      { intros y w NI [NE Py]. apply E; auto. intros [->|]; auto. }
      rewrite S2. eexists. split; [reflexivity|]. intros y w Py Gy.
      rewrite get_set in *. destruct (Pos.eq_dec y x) as [->|NE].
      + injection Gy as <-. eauto.
      + apply E2; auto.
  Qed.

  (** parameters of a call that drops some *)
  Lemma set_lists_pick (P : var -> Prop) xs : forall bs vs vs' rho rho' rho1,
    length bs = length xs ->
    (forall i x, nth_error xs i = Some x -> P x -> nth_error bs i = Some true) ->
    Forall2 dv (pick vs bs) vs' -> set_lists xs vs rho = Some rho1 ->
    (forall x v, ~ In x xs -> P x -> get x rho = Some v ->
       exists v', get x rho' = Some v' /\ dv v v') ->
    exists rho1', set_lists (pick xs bs) vs' rho' = Some rho1' /\
      (forall x v, P x -> get x rho1 = Some v ->
         exists v', get x rho1' = Some v' /\ dv v v').
  Proof.
    revert P. induction xs as [|x xs IH]; intros P bs vs vs' rho rho' rho1 LN PB V S E.
    - destruct bs; [|discriminate]. destruct vs; [|discriminate]. cbn in V.
      inversion V; subst. cbn in *. injection S as <-. exists rho'. split; auto.
    - destruct bs as [|b bs]; [discriminate|]. injection LN as LN.
      destruct vs as [|v vs]; [discriminate|]. cbn in S.
      destruct (set_lists xs vs rho) as [r|] eqn:S1; [|discriminate]. injection S as <-.
      assert (PB' : forall i y, nth_error xs i = Some y -> P y -> nth_error bs i = Some true).
      { intros i y NX. exact (PB (S i) y NX). }
      cbn [pick] in V |- *. destruct b.
      + inversion V as [|? v2 ? l2 V1 V2]; subst. cbn [set_lists].
        destruct (IH (fun y => y <> x /\ P y) bs vs l2 rho rho' r) as (r2 & S2 & E2); auto.
        { intros i y NX [_ Py]. eauto. }
        { intros y w NI [NE Py]. apply E; auto. intros [->|]; auto. }
        rewrite S2. eexists. split; [reflexivity|]. intros y w Py Gy.
        rewrite get_set in *. destruct (Pos.eq_dec y x) as [->|NE].
        * injection Gy as <-. eauto.
        * apply E2; auto.
      + assert (NP : ~ P x). { intro Px. specialize (PB 0 x eq_refl Px). discriminate. }
        destruct (IH (fun y => y <> x /\ P y) bs vs vs' rho rho' r) as (r2 & S2 & E2); auto.
        { intros i y NX [_ Py]. eauto. }
        { intros y w NI [NE Py]. apply E; auto. intros [->|]; auto. }
        rewrite S2. eexists. split; [reflexivity|]. intros y w Py Gy.
        rewrite get_set in Gy. destruct (Pos.eq_dec y x) as [->|NE]; [tauto|].
        apply E2; auto.
  Qed.

  Lemma find_def_elim f t xs b : find_def f B = Some (t, xs, b) ->
    find_def f B' =
    Some (match K f with
          | Some bs => (get_fun_tag fmap f, pick xs bs, eliminate_expr fmap L b)
          | None => (t, xs, eliminate_expr fmap L b)
          end).
  Proof.
    unfold B', K, msk. clear. induction B as [g t' ys e D IH|]; cbn [find_def]; [|discriminate].
    cbn [eliminate_fundefs]. unfold get_fun_vars.
    destruct (Pos.eq_dec f g) as [->|NE].
    - intro H. injection H as -> -> ->. destruct (get g L) as [bs|] eqn:G; cbn [find_def].
      + destruct (Pos.eq_dec g g); [|congruence]. rewrite live_args_pick. reflexivity.
      + destruct (Pos.eq_dec g g); [|congruence]. reflexivity.
    - intro H. destruct (get g L); cbn [find_def]; destruct (Pos.eq_dec f g); try congruence; auto.
  Qed.

  Lemma fnames_elim : fnames B' = N.
  Proof.
    unfold B', N. clear. induction B as [g t ys e D IH|]; cbn [eliminate_fundefs]; [|reflexivity].
    unfold get_fun_vars. destruct (get g L); cbn [fnames]; rewrite IH; reflexivity.
  Qed.

  Lemma dv_refl : forall v, dv v v.
  Proof.
    apply val_ind2.
    - intros t vs F. constructor. induction F; constructor; auto.
    - intros rho D f F. apply dval_out. intros x v _ Gx. exists v. split; auto.
      exact (get_Forall _ (fun v => dv v v) _ _ _ F Gx).
    - constructor.
    - constructor.
  Qed.

  (** the environments in which bodies start, before the parameters *)
  Lemma base_env x v : get x (def_funs B B rho0 rho0) = Some v -> ~ In x N ->
    get x (def_funs B' B' rho0 rho0) = Some v.
  Proof.
    rewrite !def_funs_get, fnames_elim. fold N. intros G NI.
    destruct (in_dec Pos.eq_dec x N); [tauto|exact G].
  Qed.

  Lemma set_lists_fun xs vs (rho rho1 : env) f v : set_lists xs vs rho = Some rho1 ->
    ~ In f xs -> get f rho = Some v -> get f rho1 = Some v.
  Proof. intros S NI G. erewrite set_lists_not_In; eauto. Qed.

  Lemma body_wf f t xs b : In (f, t, xs, b) (flist B) -> wfIn b.
  Proof.
    intro I. split; [eapply is_hoisted_funs; eauto|]. split.
    - intros x Ix. eapply DJ; eauto.
    - intros g Eg. destruct (K g) as [bs|] eqn:EK; [|reflexivity]. exfalso.
      destruct GM as [G1 _]. destruct (G1 g bs EK) as (_ & _ & NE). apply NE.
      revert I. clear -Eg. induction B as [h t' ys e D IH|]; cbn; [|tauto].
      intros [H|H]; [injection H as -> -> -> ->; auto|auto].
  Qed.

  Lemma funs_bound xs xs' vs vs' rho1 rho1' :
    (forall x, In x xs -> ~ In x N) -> (forall x, In x xs' -> In x xs) ->
    set_lists xs vs (def_funs B B rho0 rho0) = Some rho1 ->
    set_lists xs' vs' (def_funs B' B' rho0 rho0) = Some rho1' ->
    forall g, In g N -> get g rho1 = Some (Vfun rho0 B g) /\
                        get g rho1' = Some (Vfun rho0 B' g).
  Proof.
    intros XN SUB SL SL' g I. split.
    - eapply set_lists_fun; [exact SL|intro X; exact (XN _ X I)|].
      rewrite def_funs_get. fold N. destruct (in_dec Pos.eq_dec g N); tauto.
    - eapply set_lists_fun; [exact SL'|intro X; exact (XN _ (SUB _ X) I)|].
      rewrite def_funs_get, fnames_elim. destruct (in_dec Pos.eq_dec g N); tauto.
  Qed.

  Lemma pick_incl A (l : list A) : forall bs x, In x (pick l bs) -> In x l.
  Proof.
    induction l as [|a l IH]; intros [|b bs] x; cbn; auto.
    destruct b; cbn; [intros [|]|]; eauto.
  Qed.

  (** a call to a function of the program that drops parameters *)
  Lemma enter_masked f bs t vs vs' rho1 e :
    K f = Some bs -> Forall2 dv (pick vs bs) vs' ->
    enter (Vfun rho0 B f) t vs = Some (rho1, e) ->
    exists rho1' e', enter (Vfun rho0 B' f) (get_fun_tag fmap f) vs' = Some (rho1', e') /\
      ok e e' rho1 rho1'.
  Proof.
    intros EK VS E. apply enter_spec in E as (r1 & D & g & xs & EQ & FD & SL).
    injection EQ as <- <- <-.
    pose proof (find_def_elim _ _ _ _ FD) as FD'. rewrite EK in FD'.
    pose proof (find_def_In _ _ _ _ _ FD) as I.
    destruct GM as [_ G2]. destruct (G2 _ _ _ _ _ I EK) as [LN CL].
    assert (XN : forall x, In x xs -> ~ In x N) by (intros; eapply DJ; eauto).
    destruct (set_lists_pick (fun x => needed K x e /\ ~ In x N) xs bs vs vs'
                (def_funs B B rho0 rho0) (def_funs B' B' rho0 rho0) rho1) as (rho1' & SL' & ER); auto.
    { intros i x NX [ND' _]. eauto. }
    { intros x w NI [_ NN] G. exists w. split; [apply base_env; auto|apply dv_refl]. }
    exists rho1', (eliminate_expr fmap L e). split.
    { apply enter_spec. exists rho0, B', f, (pick xs bs). auto. }
    left. split; [reflexivity|]. split; [eapply body_wf; eauto|]. split.
    - eapply funs_bound; [exact XN|apply pick_incl|exact SL|exact SL'].
    - intros x v P NI G. apply ER; auto.
  Qed.

  Lemma enter_rel v v' t vs vs' rho1 e :
    dv v v' -> Forall2 dv vs vs' -> enter v t vs = Some (rho1, e) ->
    exists rho1' e', enter v' t vs' = Some (rho1', e') /\ ok e e' rho1 rho1'.
  Proof.
    intros V VS E. apply enter_spec in E as (r1 & D & f & xs & -> & FD & SL).
    inversion V as [ | | | ? EK | ? r2 ? ? HX]; subst; clear V.
    - pose proof (find_def_elim _ _ _ _ FD) as FD'. rewrite EK in FD'.
      pose proof (find_def_In _ _ _ _ _ FD) as I.
      assert (XN : forall x, In x xs -> ~ In x N) by (intros; eapply DJ; eauto).
      destruct (set_lists_rel (fun x => needed K x e /\ ~ In x N) xs vs vs'
                (def_funs B B rho0 rho0) (def_funs B' B' rho0 rho0) rho1) as (rho1' & SL' & ER); auto.
      { intros x w NI [_ NN] G. exists w. split; [apply base_env; auto|apply dv_refl]. }
      exists rho1', (eliminate_expr fmap L e). split.
      { apply enter_spec. exists rho0, B', f, xs. auto. }
      left. split; [reflexivity|]. split; [eapply body_wf; eauto|]. split.
      + eapply funs_bound; [exact XN| |exact SL|exact SL']. auto.
      + intros x v P NI G. apply ER; auto.
    - destruct (set_lists_rel (fun x => free x e) xs vs vs' (def_funs D D r1 r1)
                  (def_funs D D r2 r2) rho1 VS SL) as (rho1' & SL' & ER).
      { intros x w NI F Gx. rewrite def_funs_get in Gx |- *.
        destruct (in_dec Pos.eq_dec x (fnames D)) as [I|I].
        - injection Gx as <-. eexists. split; [reflexivity|]. apply dval_out. exact HX.
        - apply HX; auto. split; [exact I|]. eapply find_def_free; eauto. }
      exists rho1', e. split.
      { apply enter_spec. exists r2, D, f, xs. auto. }
      right. auto.
  Qed.

  (** binding a variable *)
  Lemma ok_bind (e e1 : exp) x v v' rho rho' :
    wfIn e -> inEnv (fun y => needed K y e1) rho rho' ->
    (forall y, needed K y e -> needed K y e1) -> ~ In x N -> dv v v' ->
    ok e (eliminate_expr fmap L e) (set x v rho) (set x v' rho').
  Proof.
    intros W [F E] NE NX V. left. split; [reflexivity|]. split; [exact W|]. split.
    - intros f I. rewrite !get_set_other by (intro; subst; tauto). auto.
    - intros y w Ny NI G. rewrite get_set in *. destruct (Pos.eq_dec y x) as [->|].
      + injection G as <-. eauto.
      + apply E; auto.
  Qed.

  Lemma out_bind e1 e x v v' rho rho' :
    (forall y w, free y e1 -> get y rho = Some w -> exists w', get y rho' = Some w' /\ dv w w') ->
    (forall y, y <> x -> free y e -> free y e1) -> dv v v' ->
    ok e e (set x v rho) (set x v' rho').
  Proof.
    intros E FR V. right. split; [reflexivity|]. intros y w Fy G. rewrite get_set in *.
    destruct (Pos.eq_dec y x) as [->|NE]; [injection G as <-; eauto|]. apply E; auto.
  Qed.

  (** calling: the value of the function and the arguments *)
  Lemma call_rel rho rho' f t ys vf vs rho1 eb :
    inEnv (fun y => y = f \/ needed_args K y f ys) rho rho' ->
    (forall g, In g ys -> K g = None) ->
    get f rho = Some vf -> get_list ys rho = Some vs -> enter vf t vs = Some (rho1, eb) ->
    exists vf' vs' rho1' eb',
      get f rho' = Some vf' /\
      get_list (match K f with Some bs => live_args ys bs | None => ys end) rho' = Some vs' /\
      enter vf' (match K f with Some _ => get_fun_tag fmap f | None => t end) vs' =
        Some (rho1', eb') /\
      ok eb eb' rho1 rho1'.
  Proof.
    intros E ES GF GL EN.
    destruct (K f) as [bs|] eqn:EK.
    - destruct GM as [G1 _]. destruct (G1 _ _ EK) as (I & _ & _).
      destruct (proj1 E f I) as [G1' G2']. rewrite G1' in GF. injection GF as <-.
      destruct (get_list_pick rho rho' ys bs vs) as (vs' & GL' & VS); auto.
      { intros y v Iy G. eapply in_get; [exact E| | |exact G].
        - right. unfold needed_args. rewrite EK. apply pick_kept. exact Iy.
        - intros _. apply ES. eapply pick_incl; eauto. }
      destruct (enter_masked f bs t vs vs' rho1 eb EK VS EN) as (rho1' & eb' & EN' & O).
      rewrite live_args_pick. eauto 10.
    - destruct (get_list_rel rho rho' ys vs) as (vs' & GL' & VS); auto.
      { intros y v Iy G. eapply in_get; [exact E| | |exact G].
        - right. unfold needed_args. rewrite EK. exact Iy.
        - intros _. apply ES. exact Iy. }
      destruct (in_get _ rho rho' f vf E (or_introl eq_refl) (fun _ => EK) GF) as (vf' & GF' & V).
      destruct (enter_rel _ _ t _ _ rho1 eb V VS EN) as (rho1' & eb' & EN' & O).
      eauto 10.
  Qed.

  Lemma elim_letapp x f t ys e :
    eliminate_expr fmap L (Eletapp x f t ys e) =
    Eletapp x f (match K f with Some _ => get_fun_tag fmap f | None => t end)
      (match K f with Some bs => live_args ys bs | None => ys end) (eliminate_expr fmap L e).
  Proof. cbn. unfold get_fun_vars, K, msk. destruct (get f L); reflexivity. Qed.

  Lemma elim_app f t ys :
    eliminate_expr fmap L (Eapp f t ys) =
    Eapp f (match K f with Some _ => get_fun_tag fmap f | None => t end)
      (match K f with Some bs => live_args ys bs | None => ys end).
  Proof. cbn. unfold get_fun_vars, K, msk. destruct (get f L); reflexivity. Qed.

  Lemma case_elim cl t e : findtag cl t = Some e ->
    findtag (List.map (fun p => (fst p, eliminate_expr fmap L (snd p))) cl) t =
      Some (eliminate_expr fmap L e).
  Proof.
    induction cl as [|[c b] cl IH]; cbn [findtag List.map fst snd]; [discriminate|].
    destruct (Pos.eq_dec c t); intro H; [injection H as ->; reflexivity|auto].
  Qed.

  Lemma caseConsistent_elim cl t :
    caseConsistent_f cenv (List.map (fun p => (fst p, eliminate_expr fmap L (snd p))) cl) t =
    caseConsistent_f cenv cl t.
  Proof.
    induction cl as [|[c e] cl IH]; cbn; [reflexivity|]. rewrite IH. reflexivity.
  Qed.

  Lemma escapes_case f cl t e : In (t, e) cl -> escapes f e ->
    forall y, escapes f (Ecase y cl).
  Proof.
    intros I E y. cbn [escapes]. induction cl as [|p cl IH]; cbn in *; [tauto|].
    destruct I as [->|I1]; [left; exact E|right; exact (IH I1)].
  Qed.

  Lemma elim_sim :
    (forall rho e c r, bstep cenv rho e c r ->
       forall e' rho', ok e e' rho rho' ->
       exists r', bstep cenv rho' e' c r' /\ dres r r') /\
    (forall rho e c r, bstep_fuel cenv rho e c r ->
       forall e' rho', ok e e' rho rho' ->
       exists r', bstep_fuel cenv rho' e' c r' /\ dres r r').
  Proof.
    apply bstep_mutind.
    - intros x t ys e rho vs r c GL _ IH e' rho' [(-> & (W1 & W2 & W3) & E)|[<- E]].
      + destruct (get_list_rel rho rho' ys vs) as (vs' & GL' & VS); auto.
        { intros y v Iy G. eapply in_get; [exact E| | |exact G]; cbn; auto.
          intros _. apply W3. cbn. auto. }
        destruct (IH (eliminate_expr fmap L e) (set x (Vconstr t vs') rho')) as (r' & BS & R).
        { eapply (ok_bind e (Econstr x t ys e)); auto.
          - split; [exact W1|]. split; [intros; apply W2; cbn; auto|intros; apply W3; cbn; auto].
          - cbn. auto.
          - apply W2. cbn. auto.
          - constructor. exact VS. }
        exists r'. split; [cbn; econstructor; eauto|exact R].
      + destruct (get_list_rel rho rho' ys vs) as (vs' & GL' & VS); auto.
        { intros y v Iy. apply E. cbn. auto. }
        destruct (IH e (set x (Vconstr t vs') rho')) as (r' & BS & R).
        { eapply out_bind; [exact E| |constructor; exact VS]. cbn. auto. }
        exists r'. split; [econstructor; eauto|exact R].
    - intros t vs rho x n y e v r c GY NT _ IH e' rho' [(-> & (W1 & W2 & W3) & E)|[<- E]].
      + destruct (in_get _ rho rho' y _ E (or_introl eq_refl)
                    (fun _ => W3 y (or_introl eq_refl)) GY) as (v' & GY' & V).
        inversion V as [? ? vs2 HV| | | |]; subst; clear V.
        destruct (Forall2_nthN _ _ _ _ _ HV _ _ NT) as (w & NT' & W).
        destruct (IH (eliminate_expr fmap L e) (set x w rho')) as (r' & BS & R).
        { eapply (ok_bind e (Eproj x t n y e)); auto.
          - split; [exact W1|]. split; [intros; apply W2; cbn; auto|intros; apply W3; cbn; auto].
          - cbn. auto.
          - apply W2. cbn. auto. }
        exists r'. split; [cbn; econstructor; eauto|exact R].
      + destruct (E y _ (or_introl eq_refl) GY) as (v' & GY' & V).
        inversion V as [? ? vs2 HV| | | |]; subst; clear V.
        destruct (Forall2_nthN _ _ _ _ _ HV _ _ NT) as (w & NT' & W).
        destruct (IH e (set x w rho')) as (r' & BS & R).
        { eapply out_bind; [exact E| |exact W]. cbn. auto. }
        exists r'. split; [econstructor; eauto|exact R].
    - intros y r e t cl vl rho c GY CC FT _ IH e' rho' [(-> & (W1 & W2 & W3) & E)|[<- E]].
      + assert (V : exists v', get y rho' = Some v' /\ dv (Vconstr t vl) v').
        { destruct (in_dec Pos.eq_dec y N) as [I|I].
          - destruct (proj1 E y I) as [G1 _]. rewrite G1 in GY. discriminate.
          - apply (proj2 E); auto. apply needed_Ecase. auto. }
        destruct V as (v' & GY' & V).
        inversion V as [? ? vs2 HV| | | |]; subst; clear V.
        pose proof (findtag_In _ _ _ _ FT) as I.
        destruct (IH (eliminate_expr fmap L e) rho') as (r' & BS & R).
        { left. split; [reflexivity|]. split.
          - split; [|split].
            + cbn in W1. rewrite forallb_forall in W1. exact (W1 _ I).
            + intros z Iz. apply W2. cbn. apply in_flat_map. exists (t, e). auto.
            + intros f Ef. apply W3. eapply escapes_case; eauto.
          - destruct E as [E1 E2]. split; [exact E1|]. intros z v Nz. apply E2.
            apply needed_Ecase. right. eapply needed_case_In; eauto. }
        exists r'. split; [|exact R]. cbn [eliminate_expr].
        eapply BStept_case; [exact GY'| |apply case_elim; exact FT|exact BS].
        rewrite caseConsistent_elim. exact CC.
      + destruct (E y _ (or_introl eq_refl) GY) as (v' & GY' & V).
        inversion V as [? ? vs2 HV| | | |]; subst; clear V.
        destruct (IH e rho') as (r' & BS & R).
        { right. split; [reflexivity|]. intros z v Fz. apply E. apply free_Ecase. right.
          eapply free_case_In; [|exact Fz]. apply findtag_In. exact FT. }
        exists r'. split; [|exact R]. eapply BStept_case; eauto.
    - intros rc fl f' vs xs e rho'' rho f t ys r c GF GL FD SL _ IH e' rho'
        [(-> & (W1 & W2 & W3) & E)|[<- E]].
      + destruct (call_rel rho rho' f t ys _ vs rho'' e E W3 GF GL)
          as (vf' & vs' & rho1' & eb' & GF' & GL' & EN & O).
        { apply enter_spec. eauto 10. }
        destruct (IH _ _ O) as (r' & BS & R). exists r'. split; [|exact R].
        rewrite elim_app. eapply bstep_app_intro; eauto.
      + destruct (E f _ (or_introl eq_refl) GF) as (v' & GF' & V).
        destruct (get_list_rel rho rho' ys vs) as (vs' & GL' & VS); auto.
        { intros y v Iy. apply E. cbn. auto. }
        destruct (enter_rel _ _ t _ _ rho'' e V VS) as (rho1' & e1 & EN & O1).
        { apply enter_spec. eauto 10. }
        destruct (IH _ _ O1) as (r' & BS & R). exists r'. split; [|exact R].
        eapply bstep_app_intro; eauto.
    - intros rc fl f' vs xs eb e rho'' rho x f t ys v r c1 c2 GF GL FD SL _ IH1 _ IH2
        e' rho' [(-> & (W1 & W2 & W3) & E)|[<- E]].
      + destruct (call_rel rho rho' f t ys (Vfun rc fl f') vs rho'' eb) as (vf' & vs' & rho1' & eb' & GF' & GL' & EN & O).
        { destruct E as [E1 E2]. split; [exact E1|]. intros z w Hz. apply E2. cbn. auto. }
        { intros g Ig. apply W3. cbn. auto. }
        { exact GF. } { exact GL. }
        { apply enter_spec. eauto 10. }
        destruct (IH1 _ _ O) as (r1' & BS1 & R1). destruct r1' as [|w]; [contradiction|].
        destruct (IH2 (eliminate_expr fmap L e) (set x w rho')) as (r' & BS2 & R2).
        { eapply (ok_bind e (Eletapp x f t ys e)); auto.
          - split; [exact W1|]. split; [intros; apply W2; cbn; auto|intros; apply W3; cbn; auto].
          - cbn. auto.
          - apply W2. cbn. auto. }
        exists r'. split; [|exact R2]. rewrite elim_letapp. eapply bstep_letapp_intro; eauto.
      + destruct (E f _ (or_introl eq_refl) GF) as (v' & GF' & V).
        destruct (get_list_rel rho rho' ys vs) as (vs' & GL' & VS); auto.
        { intros y w Iy. apply E. cbn. auto. }
        destruct (enter_rel _ _ t _ _ rho'' eb V VS) as (rho1' & e1 & EN & O1).
        { apply enter_spec. eauto 10. }
        destruct (IH1 _ _ O1) as (r1' & BS1 & R1). destruct r1' as [|w]; [contradiction|].
        destruct (IH2 e (set x w rho')) as (r' & BS & R).
        { eapply out_bind; [exact E| |exact R1]. cbn. auto. }
        exists r'. split; [|exact R]. eapply bstep_letapp_intro; eauto.
    - intros rc fl f' vs xs eb e rho'' rho x f t ys c GF GL FD SL _ IH1
        e' rho' [(-> & (W1 & W2 & W3) & E)|[<- E]].
      + destruct (call_rel rho rho' f t ys (Vfun rc fl f') vs rho'' eb) as (vf' & vs' & rho1' & eb' & GF' & GL' & EN & O).
        { destruct E as [E1 E2]. split; [exact E1|]. intros z w Hz. apply E2. cbn. auto. }
        { intros g Ig. apply W3. cbn. auto. }
        { exact GF. } { exact GL. }
        { apply enter_spec. eauto 10. }
        destruct (IH1 _ _ O) as (r1' & BS1 & R1). destruct r1' as [|w]; [|contradiction].
        exists OOT. split; [|exact I]. rewrite elim_letapp. eapply bstep_letapp_oot_intro; eauto.
      + destruct (E f _ (or_introl eq_refl) GF) as (v' & GF' & V).
        destruct (get_list_rel rho rho' ys vs) as (vs' & GL' & VS); auto.
        { intros y w Iy. apply E. cbn. auto. }
        destruct (enter_rel _ _ t _ _ rho'' eb V VS) as (rho1' & e1 & EN & O1).
        { apply enter_spec. eauto 10. }
        destruct (IH1 _ _ O1) as (r1' & BS1 & R1). destruct r1' as [|w]; [|contradiction].
        exists OOT. split; [|exact I]. eapply bstep_letapp_oot_intro; eauto.
    - intros rho D e r c _ IH e' rho' [(-> & (W1 & W2 & W3) & E)|[<- E]].
      + discriminate.
      + destruct (IH e (def_funs D D rho' rho')) as (r' & BS & R).
        { right. split; [reflexivity|]. intros x v FX Gx. rewrite def_funs_get in Gx |- *.
          destruct (in_dec Pos.eq_dec x (fnames D)) as [I|I].
          - injection Gx as <-. eexists. split; [reflexivity|]. apply dval_out.
            intros y w [FF1 FF2] Gy. apply E; auto. cbn. split; auto.
          - apply E; auto. cbn. split; auto. }
        exists r'. split; [constructor; exact BS|exact R].
    - intros x v rho Gx e' rho' [(-> & (W1 & W2 & W3) & E)|[<- E]].
      + destruct (in_get _ rho rho' x _ E eq_refl (fun _ => W3 x eq_refl) Gx) as (v' & Gx' & V).
        exists (Res v'). split; [constructor; exact Gx'|exact V].
      + destruct (E x v (eq_refl : free x (Ehalt x)) Gx) as (v' & Gx' & V).
        exists (Res v'). split; [constructor; exact Gx'|exact V].
    - intros rho e c LT e' rho' O. exists OOT. split; [constructor; exact LT|exact I].
    - intros rho e r c _ IH e' rho' O. destruct (IH e' rho' O) as (r' & BS & R).
      exists r'. split; [constructor; exact BS|exact R].
  Qed.

  Hypothesis H0 : is_hoisted_exp e0 = true.
  Hypothesis D0 : forall x, In x (bv e0) -> ~ In x N.

  Lemma elim_top c r :
    bstep_fuel cenv rho0 (Efun B e0) c r ->
    exists r', bstep_fuel cenv rho0 (Efun B' (eliminate_expr fmap L e0)) c r' /\ dres r r'.
  Proof.
    intro BS. apply bstep_fuel_inv in BS as [[-> ->]|(k & -> & BS)].
    - exists OOT. split; [constructor; lia|exact I].
    - inversion BS; subst.
      match goal with X : bstep_fuel _ _ e0 _ _ |- _ =>
        destruct (proj2 elim_sim _ _ _ _ X (eliminate_expr fmap L e0)
                    (def_funs B' B' rho0 rho0)) as (r' & BS' & R) end.
      { left. split; [reflexivity|]. split; [|split].
        - split; [exact H0|]. split; [exact D0|]. intros f Ef.
          destruct (K f) as [bs|] eqn:EK; [|reflexivity]. exfalso.
          destruct GM as [G1 _]. destruct (G1 f bs EK) as (_ & NE & _). tauto.
        - intros f I. rewrite !def_funs_get, fnames_elim. fold N.
          destruct (in_dec Pos.eq_dec f N); [auto|tauto].
        - intros x v _ NI G. exists v. split; [apply base_env; auto|apply dv_refl]. }
      exists r'. split; [apply bstep_fuel_S; constructor; exact BS'|exact R].
  Qed.

  Lemma dval_data : forall v v', dv v v' -> data v -> v = v'.
  Proof.
    apply (val_ind2 (fun v1 => forall v2, dv v1 v2 -> data v1 -> v1 = v2)).
    - intros t vs F v2 V D. inversion V as [? ? vs2 HV| | | |]; subst. f_equal. cbn in D.
      clear V. revert vs2 HV D.
      induction F as [|a l Ha F IH]; intros l2 V D; inversion V; subst; auto.
      destruct D as [D1 D2]. f_equal; auto.
    - intros rho D f F v2 V X. destruct X.
    - intros p v2 V D. inversion V. auto.
    - intros z v2 V D. inversion V. auto.
  Qed.
End SIM.
