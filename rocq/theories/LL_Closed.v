(* Lambda lifting: free variables of the result, closed functions. *)
From Coq Require Import List Arith NArith PArith Bool Lia.
From Verif Require Import ANF_Syntax ANF_Eval ANF_Spec ANF_Scope ANF_EvalProofs ANF_FreeProofs Comp_Model CC_Model CC_Spec CC_Proofs CC_Scope UC_Model LL_Model LL_Spec LL_Proofs LL_Sim LL_Top LL_Free.
Import ListNotations.
Notation nv := lv_var.
Lemma some1 A (a b : A) : Some a = Some b -> a = b.
Proof. congruence. Qed.

Section Closed.
  Variables max_args max_push : nat.
  Variable lift_dec : list var -> list var -> bool.
  Variable N0 : positive.
  Notation ll := (exp_lambda_lift max_args max_push lift_dec).
  Notation llf := (fundefs_lambda_lift max_args max_push lift_dec).
  Notation ALL := (LL_Free.ALL lift_dec).
  Notation stays fm x := (ALL -> lifted fm x = None).
  Notation use fm x e := (occ True (stays fm x) x e).
  Notation use_body fm x B := (occ_body True (stays fm x) x B).
  Notation called h e := (occ False True h e).
  Notation called_body h B := (occ_body False True h B).
  Notation okexp := (LL_Sim.okexp N0).
  Notation okfuns := (LL_Sim.okfuns N0).
  Notation okmaps := (LL_Sim.okmaps N0).

  (* ** The maps for the body of a function *)
  Lemma body_maps B fvm fm g args sa ys fvm1 sb ob fvm2 sc f t xs e : okfuns fvm fm B -> okmaps (nv sa) fvm fm g -> all_lift fm args B ->
    find_def f B = Some (t, xs, e) -> add_free_vars args fvm sa = (ys, fvm1, sb) -> make_wrappers B fvm1 fm sb = Some (ob, fvm2, sc) ->
    okexp fvm2 fm e /\ okmaps (nv sc) fvm2 fm g /\
    (forall x, In x xs -> rename fvm2 x = x /\ get x fm = None) /\
    (forall x, In x args -> In (rename fvm2 x) ys) /\
    (forall x, In x (fnames B) -> exists Bw, ob = Some Bw /\ In (rename fvm2 x) (fnames Bw)) /\
    (forall x, ~ In x (fnames B) -> ~ In x args -> rename fvm2 x = rename fvm x) /\
    (forall x, In x args -> rename fvm1 x = rename fvm2 x).
  Proof.
    intros OK M AL FD AF MW. pose proof M as (M0 & M1 & M2 & M3). pose proof OK as (OK1 & OK2 & OK3).
    destruct (AL f (find_def_In _ _ _ _ _ FD)) as (f' & ft' & fvs & sfvs & G1). pose proof (lifted_get _ _ _ _ _ _ _ G1) as LI.
    destruct (add_free_vars_spec _ _ _ _ _ _ AF) as (Y1 & Y2 & Y3 & Y4 & Y5 & Y6 & Y7).
    destruct (make_wrappers_lift fvm1 fm args B sb AL (NoDup_fnames _ OK1)) as (Bw & fvm20 & sc0 & MW' & W1 & W2 & W3 & W4).
    rewrite MW in MW'. apply some3 in MW' as (-> & <- & <-).
    destruct (find_def_bv _ _ _ _ _ FD OK1) as (BV1 & BV2 & _).
    assert (XS : forall x, In x xs -> outside N0 fvm fm x /\ get x fm = None /\ ~ In x (fnames B)).
    { intros x I. destruct (BV2 x) as [I1 I2]; [apply in_or_app; auto|]. destruct (OK2 x I1) as (O1 & O2 & _).
      split; [exact O1|]. split; [destruct O2; [contradiction|assumption]|exact I2]. }
    assert (AR : forall a, In a args -> (a < N0)%positive /\ ~ In a (bv_funs B)).
    { intros a I. split; [apply (M2 _ _ _ _ LI); exact I|]. intro J. destruct (OK2 a J) as ((_ & _ & O) & _). exact (O _ _ _ _ LI I). }
    split; [|split; [|split; [|split; [|split; [|split]]]]].
    - split; [exact (NoDup_app_r _ _ _ BV1)|]. split.
      + intros x I. destruct (BV2 x) as [I1 I2]; [apply in_or_app; auto|]. destruct (OK2 x I1) as ((O1 & O2 & O3) & O4 & O5).
        assert (NA : ~ In x args) by (intro J; exact (O3 _ _ _ _ LI J)).
        split; [split; [exact O1|split; [|exact O3]]|].
        * rewrite W2 by exact I2. rewrite Y5 by exact NA. exact O2.
        * split; [destruct O4; [contradiction|assumption]|]. intro F. apply O5. split; [exact I2|]. eapply find_def_free; eauto.
          intro J. exact (NoDup_app_disj _ _ _ _ BV1 J I).
      + intros x F. destruct (in_dec Pos.eq_dec x xs) as [I|I]; [apply XS; exact I|].
        destruct (in_dec Pos.eq_dec x (fnames B)) as [J|J]; [apply OK2, fnames_bv; exact J|].
        apply OK3. split; [exact J|]. eapply find_def_free; eauto.
    - split; [lia|]. split; [|split; [|exact M3]].
      + intros x i E. destruct (in_dec Pos.eq_dec x (fnames B)) as [J|J].
        * destruct (In_find_def _ _ J) as (t1 & xs1 & e1 & FD1). destruct (W3 _ _ _ _ FD1) as (h & xs' & f1 & ft1 & A1 & _ & _ & _ & _ & A6 & _).
          assert (i = WrapperFun h) by congruence. subst i. cbn [target]. split; [apply OK2, fnames_bv; exact J|]. split; [lia|].
          intros h0 f0 ft0 a0 L0. apply M2 in L0. lia.
        * rewrite W2 in E by exact J. destruct (in_dec Pos.eq_dec x args) as [K0|K0].
          -- destruct (Y6 x K0) as (y & Ey & Iy). assert (i = FreeVar y) by congruence. subst i. cbn [target]. apply Y3 in Iy.
             split; [apply AR; exact K0|]. split; [lia|]. intros h0 f0 ft0 a0 L0. apply M2 in L0. lia.
          -- rewrite Y5 in E by exact K0. destruct (M1 _ _ E) as (A & B1 & C). split; [exact A|]. split; [lia|exact C].
      + intros h0 f0 ft0 a0 L0. destruct (M2 _ _ _ _ L0) as (A & B1 & C). split; [exact A|]. split; [lia|exact C].
    - intros x I. destruct (XS x I) as ((O1 & O2 & O3) & GX & NB). split; [|exact GX].
      apply rename_other. rewrite W2 by exact NB. rewrite Y5 by (intro J; exact (O3 _ _ _ _ LI J)). exact O2.
    - intros x I. destruct (Y6 x I) as (y & Ey & Iy). rewrite (rename_target fvm2 x (FreeVar y)); [exact Iy|].
      rewrite W2; [exact Ey|]. intro J. apply (AR x I), fnames_bv. exact J.
    - intros x J. exists Bw. split; [reflexivity|]. destruct (In_find_def _ _ J) as (t1 & xs1 & e1 & FD1).
      destruct (W3 _ _ _ _ FD1) as (h & xs' & f1 & ft1 & A1 & _ & A3 & _). rewrite (rename_target _ _ _ A1). eapply find_def_In; eauto.
    - intros x I J. apply rename_eq. rewrite W2 by exact I. apply Y5. exact J.
    - intros x I. symmetry. apply rename_eq. apply W2. intro J. apply (AR x I), fnames_bv. exact J.
  Qed.
  Lemma nl_body_maps B fvm fm g sa f t xs e : okfuns fvm fm B -> okmaps (nv sa) fvm fm g -> all_nolift fm B -> find_def f B = Some (t, xs, e) ->
    okexp fvm fm e /\ (forall x, In x xs -> rename fvm x = x /\ get x fm = None) /\ (forall x, In x (fnames B) -> rename fvm x = x /\ lifted fm x = None).
  Proof.
    intros OK M AL FD. pose proof OK as (OK1 & OK2 & OK3). destruct (find_def_bv _ _ _ _ _ FD OK1) as (BV1 & BV2 & _).
    assert (XS : forall x, In x xs -> outside N0 fvm fm x /\ get x fm = None /\ ~ In x (fnames B)).
    { intros x I. destruct (BV2 x) as [I1 I2]; [apply in_or_app; auto|]. destruct (OK2 x I1) as (O1 & O2 & _).
      split; [exact O1|]. split; [destruct O2; [contradiction|assumption]|exact I2]. }
    split; [|split].
    - split; [exact (NoDup_app_r _ _ _ BV1)|]. split.
      + intros x I. destruct (BV2 x) as [I1 I2]; [apply in_or_app; auto|]. destruct (OK2 x I1) as (O1 & O4 & O5).
        split; [exact O1|]. split; [destruct O4; [contradiction|assumption]|]. intro F. apply O5. split; [exact I2|]. eapply find_def_free; eauto.
          intro J. exact (NoDup_app_disj _ _ _ _ BV1 J I).
      + intros x F. destruct (in_dec Pos.eq_dec x xs) as [I|I]; [apply XS; exact I|].
        destruct (in_dec Pos.eq_dec x (fnames B)) as [J|J]; [apply OK2, fnames_bv; exact J|].
        apply OK3. split; [exact J|]. eapply find_def_free; eauto.
    - intros x I. destruct (XS x I) as ((O1 & O2 & O3) & GX & NB). split; [|exact GX]. apply rename_other. exact O2.
    - intros x J. split; [apply rename_other; apply (OK2 x (fnames_bv _ _ J))|]. destruct (AL x J) as (a & b & E). unfold lifted. rewrite E. reflexivity.
  Qed.

  (* ** Free variables *)
  Definition from (fvm : VarInfoMap) (fm : FunInfoMap) (U C : var -> Prop) (z : var) : Prop :=
    (exists x, U x /\ z = rename fvm x) \/
    (exists h f' ft' args, C h /\ lifted fm h = Some (f', ft', args) /\ (z = f' \/ exists a, In a args /\ z = rename fvm a)).
  Lemma from_mono fvm fm (U C U' C' : var -> Prop) z : (forall x, U x -> rename fvm x = z -> U' x) ->
    (forall h, get h fm <> None -> C h -> C' h) -> from fvm fm U C z -> from fvm fm U' C' z.
  Proof.
    intros HU HC [(x & u & E)|(h & f' & ft' & args & c & L & E)]; [left; exists x; split; [apply HU; [exact u|symmetry; exact E]|exact E]|right].
    exists h, f', ft', args. split; [|auto]. apply HC; [|exact c]. apply lifted_inv in L as (? & ? & L). congruence.
  Qed.

  Lemma call_from b g fvm fm sc f t ys e1 s s1 : okmaps b fvm fm g -> (forall x, x = f \/ In x ys -> (x < N0)%positive) ->
    ll (Eapp f t ys) sc fvm fm g s = Some (e1, s1) ->
    exists h t' zs, e1 = Eapp h t' zs /\ s1 = s /\
      forall z, z = h \/ In z zs -> from fvm fm (fun x => use fm x (Eapp f t ys)) (fun h => called h (Eapp f t ys)) z.
  Proof.
    intros M LT H. cbn [exp_lambda_lift] in H.
    assert (ARGS : forall z, In z (rename_lst fvm ys) -> from fvm fm (fun x => use fm x (Eapp f t ys)) (fun h => called h (Eapp f t ys)) z).
    { intros z I. unfold rename_lst in I. apply in_map_iff in I as (y & <- & I). left. exists y. cbn [occ]. auto. }
    assert (STAY : stays fm f -> forall z, z = rename fvm f \/ In z (rename_lst fvm ys) ->
       from fvm fm (fun x => use fm x (Eapp f t ys)) (fun h => called h (Eapp f t ys)) z).
    { intros ST z [->|I]; [|auto]. left. exists f. cbn [occ]. auto. }
    destruct (get f fm) as [[f' ft' fvs sfvs args|? ?]|] eqn:E; [destruct (lift_dec args sc) eqn:LD| |];
      apply some2 in H as [<- <-]; eexists _, _, _; (split; [reflexivity|]); (split; [reflexivity|]).
    - assert (R : rename fvm f' = f').
      { eapply rename_high; [exact M|]. destruct M as (_ & _ & M2 & _). apply (M2 f f' ft' args). eapply lifted_get; eauto. }
      rewrite R. intros z Hz. unfold rename_lst in Hz. rewrite map_app, in_app_iff in Hz. destruct Hz as [->|[Hz|Hz]]; [|apply ARGS; exact Hz|].
      + right. exists f, f', ft', args. cbn [occ]. split; [auto|]. split; [eapply lifted_get; eauto|auto].
      + apply in_map_iff in Hz as (a & <- & I). right. exists f, f', ft', args. cbn [occ]. split; [auto|]. split; [eapply lifted_get; eauto|]. right. eauto.
    - apply STAY. intro A. rewrite A in LD. discriminate.
    - apply STAY. intros _. unfold lifted. rewrite E. reflexivity.
    - apply STAY. intros _. unfold lifted. rewrite E. reflexivity.
  Qed.

  Lemma wrappers_free fvm fm args z : forall B s Bw fvm' s', make_wrappers B fvm fm s = Some (Some Bw, fvm', s') -> all_lift fm args B ->
    free_body z Bw -> (exists x f' ft', In x (fnames B) /\ lifted fm x = Some (f', ft', args) /\ z = f') \/ (exists a, In a args /\ z = rename fvm a).
  Proof.
    induction B as [f t xs e B IH|]; intros s Bw fvm' s' H AL F; cbn [make_wrappers] in H.
    2: { apply some3 in H as (H & _). assert (Bw = Fnil) by congruence. subst. destruct F. }
    destruct (AL f ltac:(left; reflexivity)) as (f' & ft' & fvs & sfvs & E). rewrite E in H.
    destruct (new_name s) as [g s1]. destruct (new_names xs s1) as [xs' s2].
    destruct (make_wrappers B fvm fm s2) as [[[ob1 fvm1] s3]|] eqn:E3; [|discriminate]. apply some3 in H as (H & _). apply some1 in H. subst Bw.
    destruct (make_wrappers_total_lift fvm fm args B s2 (all_lift_cons _ _ _ _ _ _ _ AL)) as (Bw & q1 & q2 & E4). rewrite E3 in E4. apply some3 in E4 as (-> & _).
    cbn [free_body free] in F. destruct F as [[N [->|F]]|F].
    - left. exists f, f', ft'. split; [left; reflexivity|]. split; [eapply lifted_get; eauto|reflexivity].
    - rewrite in_app_iff in F. destruct F as [F|F]; [contradiction|]. unfold rename_lst in F. apply in_map_iff in F as (a & <- & I). right. eauto.
    - destruct (IH _ _ _ _ E3 (all_lift_cons _ _ _ _ _ _ _ AL) F) as [(x & f1 & ft1 & I & L & ->)|R]; [|auto]. left. exists x, f1, ft1. split; [right; exact I|auto].
  Qed.

  (* where a free variable of a translated bundle comes from *)
  Definition fromB (fvm : VarInfoMap) (fm : FunInfoMap) (B0 : fundefs) (args : list var) (B : fundefs) (z : var) : Prop :=
    (all_nolift fm B0 /\ In z (fnames B0)) \/
    (exists x ft', In x (fnames B0) /\ lifted fm x = Some (z, ft', args)) \/
    (exists x, use_body fm x B /\ ~ In x (fnames B0) /\ ~ In x args /\ z = rename fvm x) \/
    (exists h f' ft' args', called_body h B /\ ~ In h (fnames B0) /\ lifted fm h = Some (f', ft', args') /\
       (z = f' \/ exists a, In a args' /\ ~ In a args /\ z = rename fvm a)).

  Lemma ll_free :
    (forall e sc fvm fm g s e1 s1, ll e sc fvm fm g s = Some (e1, s1) -> okexp fvm fm e -> okmaps (nv s) fvm fm g ->
       forall z, free z e1 -> from fvm fm (fun x => use fm x e) (fun h => called h e) z) /\
    (forall B B0 nm fvm fm g s B1 s1 args, llf B B0 nm fvm fm g s = Some (B1, s1) -> okfuns fvm fm B0 -> okmaps (nv s) fvm fm g ->
       all_lift fm args B0 \/ (all_nolift fm B0 /\ args = []) -> (forall f t xs e, find_def f B = Some (t, xs, e) -> find_def f B0 = Some (t, xs, e)) -> NoDup (fnames B) ->
       forall z, free_body z B1 -> fromB fvm fm B0 args B z).
  Proof.
    apply exp_fundefs_ind.
    - intros x t ys e IH sc fvm fm g s e1 s1 H OK M z F. apply ll_constr in H as (e' & H & ->).
      destruct (okexp_bind N0 x e fvm fm (Econstr x t ys e) eq_refl ltac:(cbn [free]; auto) OK) as (OK' & (_ & Ox & _) & Gx).
      cbn [free] in F. destruct F as [F|[D F]].
      + unfold rename_lst in F. apply in_map_iff in F as (y & <- & I). left. exists y. cbn [occ]. auto.
      + eapply from_mono; [| |eapply IH; [exact H|exact OK'|exact M|exact F]].
        * intros y U E. cbn [occ]. right. split; [|exact U]. intros ->. apply D. rewrite <- E. apply rename_other. exact Ox.
        * intros h N C. cbn [occ]. right. split; [|exact C]. intros ->. congruence.
    - intros x l IH sc fvm fm g s e1 s1 H OK M z F. apply ll_case_inv in H as (l' & H & ->). apply free_Ecase in F. destruct F as [->|F].
      { left. exists x. split; [apply occ_Ecase; auto|reflexivity]. }
      assert (K : from fvm fm (fun x => occ_case True (stays fm x) x l) (fun h => occ_case False True h l) z).
      { assert (OKl : forall p, In p l -> okexp fvm fm (snd p)).
        { intros p Ip. destruct OK as (N & Bd & C). cbn [bv] in N, Bd. split; [|split].
          - clear -N Ip. induction l as [|q l IHl]; [destruct Ip|]. cbn [flat_map] in N. destruct Ip as [->|Ip]; [exact (NoDup_app_l _ _ _ N)|apply IHl; [exact (NoDup_app_r _ _ _ N)|exact Ip]].
          - intros y I. destruct (Bd y) as (O1 & O2 & O3); [apply in_flat_map; eauto|]. split; [exact O1|]. split; [exact O2|]. intro Fy. apply O3.
            apply free_Ecase. right. destruct p as [t a]. eapply free_case_In; eauto.
          - intros y Fy. apply C. apply free_Ecase. right. destruct p as [t a]. eapply free_case_In; eauto. }
        clear OK. revert s l' H M F OKl. induction IH as [|[t a] l IH1 _ IH2]; intros s l' H M F OKl.
        - cbn [ll_pats] in H. apply some2 in H as [<- _]. destruct F.
        - apply pats_cons in H as (e2 & s2 & l2 & A & B & ->). cbn [free_case snd occ_case] in *. destruct F as [F|F].
          + eapply from_mono; [| |eapply IH1; [exact A|apply (OKl (t, a)); left; reflexivity|exact M|exact F]]; cbn; auto.
          + eapply from_mono; [| |eapply IH2; [exact B|eapply okmaps_le; [|exact M]; eapply (proj1 (ll_le _ _ _)); eauto|exact F|intros p Ip; apply OKl; right; exact Ip]]; cbn; auto. }
      eapply from_mono; [| |exact K]; intros; apply occ_Ecase; auto.
    - intros x t n y e IH sc fvm fm g s e1 s1 H OK M z F. apply ll_proj in H as (e' & H & ->).
      destruct (okexp_bind N0 x e fvm fm (Eproj x t n y e) eq_refl ltac:(cbn [free]; auto) OK) as (OK' & (_ & Ox & _) & Gx).
      cbn [free] in F. destruct F as [->|[D F]].
      + left. exists y. cbn [occ]. auto.
      + eapply from_mono; [| |eapply IH; [exact H|exact OK'|exact M|exact F]].
        * intros w U E. cbn [occ]. right. split; [|exact U]. intros ->. apply D. rewrite <- E. apply rename_other. exact Ox.
        * intros h N C. cbn [occ]. right. split; [|exact C]. intros ->. congruence.
    - intros x f t ys e IH sc fvm fm g s e1 s1 H OK M z F.
      destruct (okexp_bind N0 x e fvm fm (Eletapp x f t ys e) eq_refl ltac:(cbn [free]; auto) OK) as (OK' & (_ & Ox & _) & Gx).
      assert (LT : forall x, x = f \/ In x ys -> (x < N0)%positive) by (destruct OK as (_ & _ & OK3); intros w Hw; apply OK3; cbn [free]; tauto).
      assert (exists e' h t' zs, ll e (sadd x sc) fvm fm g s = Some (e', s1) /\ e1 = Eletapp x h t' zs e' /\
        ll (Eapp f t ys) sc fvm fm g s = Some (Eapp h t' zs, s)) as (e' & h & t' & zs & C1 & -> & C2).
      { cbn [exp_lambda_lift] in H |- *. destruct (ll e (sadd x sc) fvm fm g s) as [[e' s']|]; [|discriminate].
        destruct (get f fm) as [[f' ft' fvs sfvs args|? ?]|]; [destruct (lift_dec args sc)| |];
          apply some2 in H as [<- <-]; eexists e', _, _, _; (split; [reflexivity|]); split; reflexivity. }
      destruct (call_from _ _ _ _ _ _ _ _ _ _ _ M LT C2) as (h0 & t0 & zs0 & EQ & _ & CF). injection EQ as <- <- <-.
      cbn [free] in F. destruct F as [F|[F|[D F]]].
      + eapply from_mono; [| |apply CF; left; exact F]; intros w; cbn [occ]; tauto.
      + eapply from_mono; [| |apply CF; right; exact F]; intros w; cbn [occ]; tauto.
      + eapply from_mono; [| |eapply IH; [exact C1|exact OK'|exact M|exact F]].
        * intros w U E. cbn [occ]. right. right. split; [|exact U]. intros ->. apply D. rewrite <- E. apply rename_other. exact Ox.
        * intros w N C. cbn [occ]. right. right. split; [|exact C]. intros ->. congruence.
    - intros B e IHB IH sc fvm fm g s e1 s1 H OK M z F.
      apply ll_fun in H as (sfvs & fvs & lfvs & fm' & g' & sa & B' & sb & ob & fvm' & sd & e' & ES & EF & EL & C1 & C2 & C3 & C4 & ->).
      destruct (fun_maps _ _ _ _ _ _ _ _ _ _ _ _ _ _ _ _ OK M ES EF EL C1) as (OKF & M' & L1 & OLD & NEWA & ARGS & CASES).
      pose proof OKF as (OKF1 & OKF2 & OKF3). pose proof M as (M0 & M1 & M2 & M3). pose proof M' as (M0' & M1' & M2' & M3').
      pose proof (proj2 (ll_le max_args max_push lift_dec) _ _ _ _ _ _ _ _ _ C2) as L2. pose proof (make_wrappers_le _ _ _ _ _ _ _ C3) as L3.
      (* lifted variables *)
      assert (LF : forall a, In a lfvs -> from fvm fm (fun x => use fm x (Efun B e)) (fun h => called h (Efun B e)) (rename fvm a)).
      { intros a I. rewrite EL in I. apply lifted_vars_in in I as [I _]. rewrite EF, elements_In, ES in I.
        pose proof (okexp_fun_funs _ _ _ _ _ OK) as (_ & OB & _).
        apply lift_fvs_sound2 in I as [G I]; [|intros y J; apply OB; exact J]. destruct I as [[I1 I2]|(h & f' & ft' & args & [F1 F2] & L & [->|I])].
        - left. exists a. cbn [occ]. auto.
        - exfalso. apply M2 in L as (_ & _ & L & _). congruence.
        - right. exists h, f', ft', args. cbn [occ]. split; [auto|]. split; [exact L|]. right. eauto. }
      assert (AB : forall a, In a lfvs -> ~ In a (fnames B)) by (intros a I J; destruct (ARGS a I) as (_ & Q & _); apply Q, fnames_bv; exact J).
      assert (UX : forall x e, lifted fm' x = lifted fm x -> use fm' x e -> use fm x e) by (intros x e0 E; rewrite E; auto).
      assert (UXB : forall x B, lifted fm' x = lifted fm x -> use_body fm' x B -> use_body fm x B) by (intros x B0 E; rewrite E; auto).
      (* from the functions *)
      assert (FB : free_funs z B' -> from fvm fm (fun x => use fm x (Efun B e)) (fun h => called h (Efun B e)) z \/ (~ In z (fnames B') /\ ((all_nolift fm' B /\ In z (fnames B)) \/
          exists x ft', In x (fnames B) /\ lifted fm' x = Some (z, ft', lfvs)))).
      { intros [F1 F2]. assert (CS : all_lift fm' lfvs B \/ all_nolift fm' B /\ lfvs = []) by tauto.
        pose proof (IHB _ _ _ _ _ _ _ _ lfvs C2 OKF M' CS (fun _ _ _ _ q => q) (NoDup_fnames _ OKF1) z F2) as Q.
        destruct Q as [Q|[Q|[(x & U & Nx & Ax & ->)|(h & f' & ft' & args & C & Nh & L & E)]]]; [auto|auto| |]; left.
        - left. exists x. split; [|reflexivity]. cbn [occ]. split; [exact Nx|]. right. apply UXB; [apply (OLD x Nx)|exact U].
        - right. exists h, f', ft', args. cbn [occ]. split; [auto|]. rewrite (proj1 (OLD h Nh)) in L. split; [exact L|]. destruct E as [->|(a & I & _ & ->)]; eauto. }
      destruct CASES as [[AL NEW]|(AL & EN & NB)].
      + destruct (make_wrappers_lift fvm fm' lfvs B sb AL (NoDup_fnames _ OKF1)) as (Bw & fvm0 & sd0 & MW & W1 & W2 & W3 & W4).
        rewrite C3 in MW. apply some3 in MW as (-> & <- & <-).
        assert (FNB : forall z, In z (fnames B') <-> exists x ft0, In x (fnames B) /\ lifted fm' x = Some (z, ft0, lfvs))
          by (eapply llf_fnames; eauto).
        assert (OKE : okexp fvm' fm' e) by (eapply okexp_body; [exact OK|exact W2|exact OLD|exact NEWA|intros a I; apply ARGS; exact I]).
        assert (MB : okmaps (nv sd) fvm' fm' g').
        { split; [lia|]. split; [|split; [|exact M3']].
          - intros x i E. destruct (in_dec Pos.eq_dec x (fnames B)) as [J|J].
            + destruct (In_find_def _ _ J) as (t1 & xs1 & e1 & FD1). destruct (W3 _ _ _ _ FD1) as (h & xs' & f1 & ft1 & A1 & _ & _ & _ & _ & A6 & _).
              assert (i = WrapperFun h) by congruence. subst i. cbn [target]. split; [apply OKF2, fnames_bv; exact J|]. split; [lia|].
              intros h0 f0 ft0 a0 L0. apply M2' in L0. lia.
            + rewrite W2 in E by exact J. destruct (M1' _ _ E) as (A & B1 & D). split; [exact A|]. split; [lia|exact D].
          - intros h0 f0 ft0 a0 L0. destruct (M2' _ _ _ _ L0) as (A & B1 & D). split; [exact A|]. split; [lia|exact D]. }
        cbn [free] in F. destruct F as [NZ [[NW [F|F]]|F]].
        * (* the continuation *)
          destruct (IH _ _ _ _ _ _ _ C4 OKE MB z F) as [(x & U & ->)|(h & f' & ft' & args & C & L & E)].
          -- destruct (in_dec Pos.eq_dec x (fnames B)) as [J|J].
             ++ exfalso. destruct (In_find_def _ _ J) as (t1 & xs1 & e1 & FD1). destruct (W3 _ _ _ _ FD1) as (h & xs' & f1 & ft1 & A1 & _ & A3 & _).
                apply NW. rewrite (rename_target _ _ _ A1). cbn [target]. eapply find_def_In; eauto.
             ++ left. exists x. rewrite (rename_eq fvm fvm' x) by (apply W2; exact J). split; [|reflexivity]. cbn [occ]. split; [exact J|]. left.
                apply UX; [apply (OLD x J)|exact U].
          -- destruct (in_dec Pos.eq_dec h (fnames B)) as [J|J].
             ++ assert (args = lfvs) by (eapply NEWA; eauto). subst args. destruct E as [->|(a & I & ->)]; [exfalso; apply NZ; apply FNB; eauto|].
                rewrite (rename_eq fvm fvm' a) by (apply W2, AB, I). apply LF. exact I.
             ++ rewrite (proj1 (OLD h J)) in L. right. exists h, f', ft', args. cbn [occ]. split; [auto|]. split; [exact L|].
                destruct E as [->|(a & I & ->)]; [auto|]. right. exists a. split; [exact I|]. apply rename_eq, W2. intro Q. apply fnames_bv in Q.
                destruct OK as (_ & OK2 & _). cbn [bv] in OK2. destruct (OK2 a ltac:(apply in_or_app; auto)) as ((_ & _ & O) & _). exact (O _ _ _ _ L I).
        * (* the wrappers *)
          destruct (wrappers_free _ _ _ z _ _ _ _ _ C3 AL F) as [(x & f' & ft' & I & L & ->)|(a & I & ->)]; [|apply LF; exact I].
          exfalso. apply NZ. apply FNB. eauto.
        * (* the functions *)
          destruct (FB (conj NZ F)) as [Q|[_ [[Q J]|Q]]]; [exact Q| |].
          -- destruct (Q z J) as (u & v & Q'). destruct (AL z J) as (? & ? & ? & ? & Q''). congruence.
          -- exfalso. apply NZ. apply FNB. exact Q.
      + rewrite (make_wrappers_nolift fvm fm' B sb AL NB) in C3. apply some3 in C3 as (<- & <- & <-).
        pose proof (llf_nl_fnames _ _ _ _ _ _ _ _ _ _ _ _ C2 AL) as FN.
        assert (OKE : okexp fvm fm' e) by (eapply okexp_body; [exact OK|reflexivity|exact OLD|exact NEWA|intros a I; apply ARGS; exact I]).
        cbn [free] in F. destruct F as [NZ [F|F]].
        * destruct (IH _ _ _ _ _ _ _ C4 OKE (okmaps_le _ _ _ _ _ _ L2 M') z F) as [(x & U & ->)|(h & f' & ft' & args & C & L & E)].
          -- assert (J : ~ In x (fnames B)).
             { intro J. apply NZ. rewrite FN. rewrite rename_other; [exact J|]. apply (OKF2 x (fnames_bv _ _ J)). }
             left. exists x. split; [|reflexivity]. cbn [occ]. split; [exact J|]. left.
             apply UX; [apply (OLD x J)|exact U].
          -- assert (J : ~ In h (fnames B)).
             { intro J. destruct (AL h J) as (u & v & Q). unfold lifted in L. rewrite Q in L. discriminate. }
             rewrite (proj1 (OLD h J)) in L. right. exists h, f', ft', args. cbn [occ]. auto.
        * destruct (FB (conj NZ F)) as [Q|[_ [[Q J]|(x & ft' & J & Q)]]]; [exact Q|rewrite FN in NZ; contradiction|].
          destruct (AL x J) as (u & v & Q'). unfold lifted in Q. rewrite Q' in Q. discriminate.
    - intros f t ys sc fvm fm g s e1 s1 H OK M z F.
      assert (LT : forall x, x = f \/ In x ys -> (x < N0)%positive) by (destruct OK as (_ & _ & OK3); intros w Hw; apply OK3; cbn [free]; tauto).
      destruct (call_from _ _ _ _ _ _ _ _ _ _ _ M LT H) as (h0 & t0 & zs0 & -> & _ & CF). apply CF. exact F.
    - intros x p e IH sc fvm fm g s e1 s1 H OK M z F. apply ll_prim_val in H as (e' & H & ->).
      destruct (okexp_bind N0 x e fvm fm (Eprim_val x p e) eq_refl ltac:(cbn [free]; auto) OK) as (OK' & (_ & Ox & _) & Gx).
      cbn [free] in F. destruct F as [D F].
      eapply from_mono; [| |eapply IH; [exact H|exact OK'|exact M|exact F]].
      * intros y U E. cbn [occ]. split; [|exact U]. intros ->. apply D. rewrite <- E. apply rename_other. exact Ox.
      * intros h N C. cbn [occ]. split; [|exact C]. intros ->. congruence.
    - intros x p ys e IH sc fvm fm g s e1 s1 H OK M z F. apply ll_prim in H as (e' & H & ->).
      destruct (okexp_bind N0 x e fvm fm (Eprim x p ys e) eq_refl ltac:(cbn [free]; auto) OK) as (OK' & (_ & Ox & _) & Gx).
      cbn [free] in F. destruct F as [F|[D F]].
      + unfold rename_lst in F. apply in_map_iff in F as (y & <- & I). left. exists y. cbn [occ]. auto.
      + eapply from_mono; [| |eapply IH; [exact H|exact OK'|exact M|exact F]].
        * intros y U E. cbn [occ]. right. split; [|exact U]. intros ->. apply D. rewrite <- E. apply rename_other. exact Ox.
        * intros h N C. cbn [occ]. right. split; [|exact C]. intros ->. congruence.
    - intros x sc fvm fm g s e1 s1 H OK M z F. apply ll_halt in H as [-> ->]. cbn [free] in F. left. exists x. cbn [occ]. auto.
    - intros f t xs e B IH IHB B0 nm fvm fm g s B1 s1 args H OK M CASES SUB N z F. cbn [fnames] in N. apply NoDup_cons_iff in N as [N1 N2].
      assert (FD0 : find_def f B0 = Some (t, xs, e)) by (apply SUB; cbn [find_def]; destruct (Pos.eq_dec f f); [reflexivity|congruence]).
      assert (SUB' : forall f t xs e, find_def f B = Some (t, xs, e) -> find_def f B0 = Some (t, xs, e)).
      { intros h u ys a FD. apply SUB. cbn [find_def]. destruct (Pos.eq_dec h f) as [->|]; [|exact FD]. exfalso. apply N1. eapply find_def_In; eauto. }
      assert (REST : fromB fvm fm B0 args B z -> fromB fvm fm B0 args (Fcons f t xs e B) z).
      { intros [Q|[Q|[(x & Q)|(h & f' & ft' & a' & Q)]]]; [left; exact Q|right; left; exact Q|right; right; left; exists x; cbn [occ_body]; tauto|].
        right. right. right. exists h, f', ft', a'. cbn [occ_body]. tauto. }
      pose proof OK as (OK1 & OK2 & OK3). pose proof M as (M0 & M1 & M2 & M3).
      apply llf_cons in H as [(f' & ft' & fvs & sfvs & args' & ys & fvm1 & sa & Bw & fvm2 & sb & e' & sc & B' & G & H1 & H2 & H3 & H4 & ->)|
        (fvs & sfvs & e' & sa & B' & G & H1 & H2 & ->)].
      + destruct CASES as [AL|[AL _]]; [|destruct (AL f (find_def_In _ _ _ _ _ FD0)) as (u & v & Q); congruence].
        destruct (AL f (find_def_In _ _ _ _ _ FD0)) as (q1 & q2 & q3 & q4 & Q). assert (args' = args) by congruence. subst args'. clear Q.
        destruct (body_maps _ _ _ _ _ _ _ _ _ _ _ _ _ _ _ _ OK M AL FD0 H1 H2) as (OKE & MB & XS & YS & WS & OUT & R12).
        pose proof (add_free_vars_spec _ _ _ _ _ _ H1) as (_ & _ & _ & L1 & _). pose proof (make_wrappers_le _ _ _ _ _ _ _ H2) as L2.
        pose proof (proj1 (ll_le _ _ _) _ _ _ _ _ _ _ _ H3) as L3.
        cbn [free_body] in F. destruct F as [[NX F]|F].
        2: { apply REST. eapply IHB; [exact H4|exact OK|eapply okmaps_le; [|exact M]; lia|left; exact AL|exact SUB'|exact N2|exact F]. }
        cbn [free] in F. destruct F as [NW [F|F]].
        * destruct (IH _ _ _ _ _ _ _ H3 OKE MB z F) as [(x & U & ->)|(h & f1 & ft1 & a1 & C & L & E)].
          -- destruct (in_dec Pos.eq_dec x xs) as [I|I]; [exfalso; apply NX; rewrite (proj1 (XS x I)); apply in_or_app; auto|].
             destruct (in_dec Pos.eq_dec x (fnames B0)) as [J|J]; [exfalso; destruct (WS x J) as (Bw0 & EB & J2); apply some1 in EB; subst; contradiction|].
             destruct (in_dec Pos.eq_dec x args) as [K|K]; [exfalso; apply NX; apply in_or_app; right; apply YS; exact K|].
             right. right. left. exists x. cbn [occ_body]. split; [left; auto|]. split; [exact J|]. split; [exact K|]. apply OUT; auto.
          -- destruct (in_dec Pos.eq_dec h (fnames B0)) as [J|J].
             ++ destruct (AL h J) as (r1 & r2 & r3 & r4 & Q). pose proof (lifted_get _ _ _ _ _ _ _ Q) as Q'. rewrite L in Q'. assert (a1 = args) by congruence. subst a1.
                destruct E as [->|(a & I & ->)]; [right; left; eauto|]. exfalso. apply NX, in_or_app. right. apply YS. exact I.
             ++ destruct (in_dec Pos.eq_dec h xs) as [I|I]; [apply XS in I as [_ I]; apply lifted_inv in L as (? & ? & L); congruence|].
                destruct E as [->|(a & Ia & ->)].
                ** right. right. right. exists h, f1, ft1, a1. cbn [occ_body]. split; [left; auto|]. split; [exact J|]. split; [exact L|auto].
                ** destruct (in_dec Pos.eq_dec a args) as [K|K]; [exfalso; apply NX; apply in_or_app; right; apply YS; exact K|].
                   right. right. right. exists h, f1, ft1, a1. cbn [occ_body]. split; [left; auto|]. split; [exact J|]. split; [exact L|]. right. exists a.
                   split; [exact Ia|]. split; [exact K|]. apply OUT; [|exact K]. intro Q. apply fnames_bv in Q. destruct (OK2 a Q) as ((_ & _ & O) & _). exact (O _ _ _ _ L Ia).
        * destruct (wrappers_free _ _ _ z _ _ _ _ _ H2 AL F) as [(x & f1 & ft1 & I & L & ->)|(a & I & ->)]; [right; left; eauto|].
          exfalso. apply NX, in_or_app. right. rewrite (R12 a I). apply YS. exact I.
      + destruct CASES as [AL|[AL EA]]; [destruct (AL f (find_def_In _ _ _ _ _ FD0)) as (? & ? & ? & ? & Q); congruence|]. subst args.
        destruct (nl_body_maps _ _ _ _ _ _ _ _ _ OK M AL FD0) as (OKE & XS & FS).
        cbn [free_body] in F. destruct F as [[NX F]|F].
        2: { apply REST. eapply IHB; [exact H2|exact OK|eapply okmaps_le; [|exact M]; eapply (proj1 (ll_le _ _ _)); eauto|right; auto|exact SUB'|exact N2|exact F]. }
        destruct (IH _ _ _ _ _ _ _ H1 OKE M z F) as [(x & U & ->)|(h & f1 & ft1 & a1 & C & L & E)].
        * destruct (in_dec Pos.eq_dec x xs) as [I|I]; [exfalso; apply NX; rewrite (proj1 (XS x I)); exact I|].
          destruct (in_dec Pos.eq_dec x (fnames B0)) as [J|J]; [left; split; [exact AL|rewrite (proj1 (FS x J)); exact J]|].
          right. right. left. exists x. cbn [occ_body In]. auto.
        * destruct (in_dec Pos.eq_dec h (fnames B0)) as [J|J]; [rewrite (proj2 (FS h J)) in L; discriminate|].
          destruct (in_dec Pos.eq_dec h xs) as [I|I]; [apply XS in I as [_ I]; apply lifted_inv in L as (? & ? & L); congruence|].
          right. right. right. exists h, f1, ft1, a1. cbn [occ_body]. split; [left; auto|]. split; [exact J|]. split; [exact L|].
          destruct E as [->|(a & Ia & ->)]; [auto|]. right. exists a. auto.
    - intros B0 nm fvm fm g s B1 s1 args H OK M CASES SUB N z F. apply llf_nil in H as [-> ->]. destruct F.
  Qed.

  (* ** Closed functions *)
  Fixpoint ftags (B : fundefs) : list fun_tag := match B with Fcons _ t _ _ B => t :: ftags B | Fnil => [] end.
  Lemma find_ftags f B t xs e : find_def f B = Some (t, xs, e) -> In t (ftags B).
  Proof.
    induction B as [h u ys a B IH|]; cbn [find_def ftags]; [|discriminate]. destruct (Pos.eq_dec f h) as [->|]; intro H; [left; congruence|right; auto].
  Qed.
  Lemma ftags_defs B t : In t (ftags B) -> exists f xs e, In (f, t, xs, e) (defs_of_funs B).
  Proof.
    induction B as [h u ys a B IH|]; cbn [ftags defs_of_funs]; [|intros []]. intros [->|I]; [exists h, ys, a; left; reflexivity|].
    destruct (IH I) as (f & xs & e & J). exists f, xs, e. right. apply in_or_app. auto.
  Qed.
  Lemma wrappers_tags fvm fm args : forall B s Bw fvm' s', make_wrappers B fvm fm s = Some (Some Bw, fvm', s') -> all_lift fm args B ->
    ftags Bw = ftags B /\ bundles_funs Bw = [].
  Proof.
    induction B as [f t xs e B IH|]; intros s Bw fvm' s' H AL; cbn [make_wrappers] in H.
    2: { apply some3 in H as (H & _). apply some1 in H. subst. split; reflexivity. }
    destruct (AL f ltac:(left; reflexivity)) as (f' & ft' & fvs & sfvs & E). rewrite E in H.
    destruct (new_name s) as [g s1]. destruct (new_names xs s1) as [xs' s2].
    destruct (make_wrappers B fvm fm s2) as [[[ob1 fvm1] s3]|] eqn:E3; [|discriminate]. apply some3 in H as (H & _). apply some1 in H. subst Bw.
    destruct (make_wrappers_total_lift fvm fm args B s2 (all_lift_cons _ _ _ _ _ _ _ AL)) as (Bw & q1 & q2 & E4). rewrite E3 in E4. apply some3 in E4 as (-> & _).
    destruct (IH _ _ _ _ E3 (all_lift_cons _ _ _ _ _ _ _ AL)) as [I1 I2]. cbn [ftags bundles_funs bundles app]. rewrite I1, I2. auto.
  Qed.
  Lemma nolift_tags B0 nm fvm fm g : forall B s B1 s1, llf B B0 nm fvm fm g s = Some (B1, s1) -> all_nolift fm B -> ftags B1 = ftags B.
  Proof.
    induction B as [f t xs e B IH|]; intros s B1 s1 H AL.
    - apply llf_cons in H as [(f' & ft' & fvs & sfvs & a & ys & fvm1 & sa & Bw & fvm2 & sb & e' & sc & B' & G & _)|
        (fvs & sfvs & e' & sa & B' & G & H1 & H2 & ->)].
      + destruct (AL f ltac:(left; reflexivity)) as (? & ? & G'). congruence.
      + cbn [ftags]. f_equal. eapply IH; [exact H2|eapply all_nolift_cons; eauto].
    - apply llf_nil in H as [-> _]. reflexivity.
  Qed.
  Lemma add_functions_g fvs sfvs args : forall B m g s m' g' s', add_functions B fvs sfvs args m g s = (m', g', s') -> NoDup (fnames B) ->
    forall y, get y g' <> None -> get y g <> None \/ (fvs = [] /\ In y (fnames B)) \/ (exists x ft', In x (fnames B) /\ lifted m' x = Some (y, ft', args)).
  Proof.
    induction B as [f t xs e B IH|]; intros m g s m' g' s' H N y G; cbn [add_functions] in H.
    2: { apply pair3 in H as (_ & <- & _). auto. }
    destruct (add_functions B fvs sfvs args m g s) as [[m1 g1] s1] eqn:E1. cbn [fnames] in N. apply NoDup_cons_iff in N as [N1 N2].
    assert (OLD : forall i, get y g1 <> None -> get y g <> None \/ (fvs = [] /\ In y (f :: fnames B)) \/ (exists x ft', In x (f :: fnames B) /\ lifted (set f i m1) x = Some (y, ft', args))).
    { intros i G1. destruct (IH _ _ _ _ _ _ E1 N2 y G1) as [Q|[[Q1 Q2]|(x & ft' & Q1 & Q2)]]; [auto|right; left; split; [exact Q1|right; exact Q2]|].
      right. right. exists x, ft'. split; [right; exact Q1|]. unfold lifted. rewrite get_set_other; [exact Q2|]. intros ->. contradiction. }
    set (g2 := if match fvs with [] => true | _ => false end then set f GFun g1 else g1) in *.
    assert (G2 : forall i, get y g2 <> None -> get y g <> None \/ (fvs = [] /\ In y (f :: fnames B)) \/ (exists x ft', In x (f :: fnames B) /\ lifted (set f i m1) x = Some (y, ft', args))).
    { intros i. unfold g2. destruct fvs as [|v l]; [|apply OLD]. rewrite get_set. destruct (Pos.eq_dec y f) as [->|]; [|apply OLD].
      intros _. right. left. split; [reflexivity|left; reflexivity]. }
    destruct (Nat.eqb (length fvs) (length args)).
    - destruct (new_name s1) as [f' s2] eqn:E2. destruct (new_tag _ s2) as [ft' s3] eqn:E3. apply pair3 in H as (<- & <- & _).
      rewrite get_set in G. destruct (Pos.eq_dec y f') as [->|]; [|apply G2; exact G].
      right. right. exists f, ft'. split; [left; reflexivity|]. unfold lifted. rewrite get_set_same. reflexivity.
    - apply pair3 in H as (<- & <- & _). apply G2. exact G.
  Qed.

  Lemma bundles_Efun2 B Bw e : bundles (Efun B (Efun Bw e)) = B :: bundles_funs B ++ Bw :: bundles_funs Bw ++ bundles e.
  Proof. reflexivity. Qed.
  Section Bundles.
    Variable bs : list fundefs.
    Variable T0 : fun_tag.
    Definition known (fvm : VarInfoMap) (g : GFunMap) : Prop := forall x, get x g <> None -> closed_fun bs (rename fvm x).
    Definition old_tags (l : list fdef) : Prop := forall f t xs b, In (f, t, xs, b) l -> (t < T0)%positive.
    Definition good (D : fundefs) : Prop := (exists t, In t (ftags D) /\ (T0 <= t)%positive) -> forall z, free_funs z D -> closed_fun bs z.

    Hypothesis A : ALL.

    Lemma ll_closed :
      (forall e sc fvm fm g s e1 s1, ll e sc fvm fm g s = Some (e1, s1) -> okexp fvm fm e -> okmaps (nv s) fvm fm g ->
         incl (bundles e1) bs -> known fvm g -> old_tags (defs_of e) -> (forall x, In x (bv e) -> get x g = None) ->
         forall D, In D (bundles e1) -> good D) /\
      (forall B B0 nm fvm fm g s B1 s1 args, llf B B0 nm fvm fm g s = Some (B1, s1) -> okfuns fvm fm B0 -> okmaps (nv s) fvm fm g ->
         all_lift fm args B0 \/ (all_nolift fm B0 /\ args = []) -> (forall f t xs e, find_def f B = Some (t, xs, e) -> find_def f B0 = Some (t, xs, e)) -> NoDup (fnames B) ->
         incl (bundles_funs B1) bs -> (forall x, get x g <> None -> ~ In x (fnames B0) -> closed_fun bs (rename fvm x)) -> old_tags (defs_of_funs B) -> old_tags (defs_of_funs B0) ->
         (forall f t xs e, find_def f B0 = Some (t, xs, e) -> forall x, In x (bv e) -> get x g = None) ->
         (forall x, In x (fnames B0) -> get x g <> None -> all_lift fm [] B0 /\ args = []) -> (forall x, In x args -> get x g = None) ->
         forall D, In D (bundles_funs B1) -> good D).
    Proof.
      apply exp_fundefs_ind.
      - intros x t ys e IH sc fvm fm g s e1 s1 H OK M I K O G. apply ll_constr in H as (e' & H & ->). cbn [bundles] in *.
        destruct (okexp_bind N0 x e fvm fm (Econstr x t ys e) eq_refl ltac:(cbn [free]; auto) OK) as (OK' & _).
        eapply IH; eauto. intros y J. apply G. right. exact J.
      - intros x l IH sc fvm fm g s e1 s1 H OK M I K O G. apply ll_case_inv in H as (l' & H & ->). cbn [bundles defs_of bv] in *.
        assert (OKl : forall p, In p l -> okexp fvm fm (snd p)).
        { intros p Ip. destruct OK as (N & Bd & C). cbn [bv] in N, Bd. split; [|split].
          - clear -N Ip. induction l as [|q l IHl]; [destruct Ip|]. cbn [flat_map] in N. destruct Ip as [->|Ip]; [exact (NoDup_app_l _ _ _ N)|apply IHl; [exact (NoDup_app_r _ _ _ N)|exact Ip]].
          - intros y J. destruct (Bd y) as (O1 & O2 & O3); [apply in_flat_map; eauto|]. split; [exact O1|]. split; [exact O2|]. intro Fy. apply O3.
            apply free_Ecase. right. destruct p as [t a]. eapply free_case_In; eauto.
          - intros y Fy. apply C. apply free_Ecase. right. destruct p as [t a]. eapply free_case_In; eauto. }
        clear OK. revert s l' H M I O G OKl. induction IH as [|[t a] l IH1 _ IH2]; intros s l' H M I O G OKl D J.
        + cbn [ll_pats] in H. apply some2 in H as [<- _]. destruct J.
        + apply pats_cons in H as (e2 & s2 & l2 & H1 & H2 & ->). cbn [flat_map snd] in *. apply incl_app_inv in I as [I1 I2].
          apply in_app_or in J as [J|J].
          * eapply IH1; [exact H1|apply (OKl (t, a)); left; reflexivity|exact M|exact I1|exact K| | |exact J].
            -- intros f u xs b Q. eapply O. apply in_or_app. left. exact Q.
            -- intros y Q. apply G. apply in_or_app. auto.
          * eapply IH2; [exact H2|eapply okmaps_le; [|exact M]; eapply (proj1 (ll_le _ _ _)); eauto|exact I2| | |intros p Ip; apply OKl; right; exact Ip|exact J].
            -- intros f u xs b Q. eapply O. apply in_or_app. right. exact Q.
            -- intros y Q. apply G. apply in_or_app. auto.
      - intros x t n y e IH sc fvm fm g s e1 s1 H OK M I K O G. apply ll_proj in H as (e' & H & ->). cbn [bundles] in *.
        destruct (okexp_bind N0 x e fvm fm (Eproj x t n y e) eq_refl ltac:(cbn [free]; auto) OK) as (OK' & _).
        eapply IH; eauto. intros z J. apply G. right. exact J.
      - intros x f t ys e IH sc fvm fm g s e1 s1 H OK M I K O G. apply ll_letapp in H as (e' & h & t' & zs & H & -> & _). cbn [bundles] in *.
        destruct (okexp_bind N0 x e fvm fm (Eletapp x f t ys e) eq_refl ltac:(cbn [free]; auto) OK) as (OK' & _).
        eapply IH; eauto. intros z J. apply G. right. exact J.
      - intros B e IHB IH sc fvm fm g s e1 s1 H OK M I K O G.
        apply ll_fun in H as (sfvs & fvs & lfvs & fm' & g' & sa & B' & sb & ob & fvm' & sd & e' & ES & EF & EL & C1 & C2 & C3 & C4 & ->).
        destruct (fun_maps _ _ _ _ _ _ _ _ _ _ _ _ _ _ _ _ OK M ES EF EL C1) as (OKF & M' & L1 & OLD & NEWA & ARGS & CASES).
        pose proof OKF as (OKF1 & OKF2 & OKF3). pose proof M as (M0 & M1 & M2 & M3). pose proof M' as (M0' & M1' & M2' & M3').
        pose proof (proj2 (ll_le max_args max_push lift_dec) _ _ _ _ _ _ _ _ _ C2) as L2. pose proof (make_wrappers_le _ _ _ _ _ _ _ C3) as L3.
        pose proof (NoDup_fnames _ OKF1) as NF.
        pose proof (add_functions_g _ _ _ _ _ _ _ _ _ _ C1 NF) as GG.
        destruct (add_functions_uniform _ _ _ _ _ _ _ _ _ _ C1) as [U1 U2].
        cbn [bv] in G.
        assert (GB : forall x, In x (bv_funs B) -> get x g = None) by (intros x J; apply G, in_or_app; auto).
        assert (GE : forall x, In x (bv e) -> get x g = None) by (intros x J; apply G, in_or_app; auto).
        assert (OB : old_tags (defs_of_funs B)) by (intros f t xs b Q; eapply O; cbn [defs_of]; apply in_or_app; left; exact Q).
        assert (OE : old_tags (defs_of e)) by (intros f t xs b Q; eapply O; cbn [defs_of]; apply in_or_app; right; exact Q).
        assert (HIGH : forall x y ft0, In x (fnames B) -> lifted fm' x = Some (y, ft0, lfvs) -> (N0 <= y)%positive) by (intros x y ft0 J L; apply M2' in L; lia).
        assert (LE : B <> Fnil -> all_lift fm' lfvs B -> lfvs = fvs).
        { intros NB AL. destruct (Nat.eq_dec (length fvs) (length lfvs)) as [E|E].
          - rewrite EL in E |- *. destruct (lifted_vars_cases max_args max_push fvs B) as [->|Q]; [reflexivity|]. rewrite Q in E |- *. destruct fvs; [reflexivity|discriminate].
          - exfalso. destruct B as [f t xs b B|]; [|congruence]. destruct (U2 E f ltac:(left; reflexivity)) as (? & ? & Q).
            destruct (AL f ltac:(left; reflexivity)) as (? & ? & ? & ? & Q'). congruence. }
        assert (NE : forall x, In x (bv e) -> get x g' = None).
        { intros x J. destruct (get x g') as [i|] eqn:E; [|reflexivity]. exfalso. destruct (GG x) as [Q|[[_ Q]|(y & ft0 & Q1 & Q2)]]; [congruence| | |].
          - apply Q. apply GE. exact J.
          - destruct OK as (N & _). cbn [bv] in N. eapply NoDup_app_disj; [exact N|apply fnames_bv; exact Q|exact J].
          - apply (HIGH _ _ _ Q1) in Q2. destruct OK as (_ & Q & _). destruct (Q x) as ((Q' & _) & _); [cbn [bv]; apply in_or_app; auto|]. lia. }
        assert (NBD : forall f t xs b, find_def f B = Some (t, xs, b) -> forall x, In x (bv b) -> get x g' = None).
        { intros f t xs b FD x J. destruct (find_def_bv _ _ _ _ _ FD OKF1) as (_ & BV2 & _). destruct (BV2 x ltac:(apply in_or_app; auto)) as [J1 J2].
          destruct (get x g') as [i|] eqn:E; [|reflexivity]. exfalso. destruct (GG x) as [Q|[[_ Q]|(y & ft0 & Q1 & Q2)]]; [congruence| | |].
          - apply Q. apply GB. exact J1.
          - contradiction.
          - apply (HIGH _ _ _ Q1) in Q2. destruct (OKF2 x J1) as ((Q' & _) & _). lia. }
        assert (GN : forall x, In x (fnames B) -> get x g' <> None -> fvs = []).
        { intros x J E. destruct (GG x E) as [Q|[[Q _]|(y & ft0 & Q1 & Q2)]]; [|exact Q|].
          - exfalso. apply Q, GB, fnames_bv. exact J.
          - exfalso. apply (HIGH _ _ _ Q1) in Q2. destruct (OKF2 x (fnames_bv _ _ J)) as ((Q' & _) & _). lia. }
        assert (GA : forall a, In a lfvs -> get a g' = None /\ In a fvs /\ get a g = None).
        { intros a J. assert (J' : In a fvs) by (rewrite EL in J; apply lifted_vars_in in J as [J _]; exact J).
          assert (J2 : get a g = None).
          { pose proof J' as J3. rewrite EF, elements_In, ES in J3. apply filter_In in J3 as [_ J3]. destruct (get a g); [discriminate|reflexivity]. }
          split; [|auto]. destruct (get a g') as [i|] eqn:E; [|reflexivity]. exfalso. destruct (GG a) as [Q|[[Q _]|(y & ft0 & Q1 & Q2)]]; [congruence| | |].
          - contradiction.
          - rewrite Q in J'. destruct J'.
          - apply (HIGH _ _ _ Q1) in Q2. destruct (ARGS a J) as [Q' _]. lia. }
        assert (FV : fvs = [] -> lfvs = []) by (intro Q; rewrite EL, Q; destruct (lifted_vars_cases max_args max_push [] B) as [->| ->]; reflexivity).
        cbn [bundles] in I.
        assert (INB : In B' bs /\ incl (bundles_funs B') bs).
        { destruct ob as [Bw|]; (split; [apply I; left; reflexivity|intros q J; apply I; right; apply in_or_app; auto]). }
        destruct INB as [IB1 IB2].
        (* the functions *)
        assert (CB : all_lift fm' lfvs B -> forall z, free_funs z B' -> closed_fun bs z).
        { intros AL z [F1 F2].
          assert (NB : B <> Fnil) by (intros ->; apply llf_nil in C2 as [-> _]; destruct F2).
          specialize (LE NB AL). destruct (lift_fvs_gets lift_dec fm g B A) as [LG1 LG2].
          destruct (proj2 (ll_free) _ _ _ _ _ _ _ _ _ lfvs C2 OKF M' (or_introl AL) (fun _ _ _ _ q => q) NF z F2) as
            [[Q J]|[(x & ft' & J & L)|[(x & U & Nx & Ax & ->)|(h & f' & ft' & args & C & Nh & L & E)]]].
          - destruct (Q z J) as (? & ? & Q1). destruct (AL z J) as (? & ? & ? & ? & Q2). congruence.
          - exfalso. apply F1. eapply llf_fnames; eauto.
          - apply K. intro E. apply Ax. rewrite LE, EF, elements_In, ES. apply LG1; [exact Nx| |exact E]. rewrite <- (proj1 (OLD x Nx)). exact U.
          - rewrite (proj1 (OLD h Nh)) in L. destruct E as [->|(a & J & Na & ->)].
            + rewrite <- (rename_high _ _ _ _ _ f' M); [|apply M2 in L; lia]. apply K. apply (M2 _ _ _ _ L).
            + apply K. intro E. apply Na. rewrite LE, EF, elements_In, ES. eapply LG2; eauto. }
        assert (KN : forall x, get x g' <> None -> ~ In x (fnames B) -> closed_fun bs (rename fvm x)).
        { intros x E NX. destruct (GG x E) as [Q|[[Q J]|(y & ft0 & Q1 & Q2)]].
          - apply K. exact Q.
          - contradiction.
          - assert (AL : all_lift fm' lfvs B) by (destruct CASES as [[AL _]|(AL & _)]; [exact AL|destruct (AL y Q1) as (? & ? & E2); unfold lifted in Q2; rewrite E2 in Q2; discriminate]).
            rewrite (rename_high _ _ _ _ _ x M'); [|eapply HIGH; eauto]. apply cf with (D := B'); [exact IB1| |apply CB; exact AL].
            apply (proj2 (llf_fnames _ _ _ _ _ _ _ _ _ _ _ _ _ C2 AL x)). eauto. }
        assert (CS : all_lift fm' lfvs B \/ all_nolift fm' B /\ lfvs = []) by tauto.
        assert (GNA : forall x, In x (fnames B) -> get x g' <> None -> all_lift fm' [] B /\ lfvs = []).
        { intros x J E. pose proof (GN x J E) as Q. pose proof (FV Q) as Q'. split; [|exact Q']. destruct CASES as [[AL _]|(AL & _)]; [rewrite Q' in AL; exact AL|].
          exfalso. assert (LL : length fvs = length lfvs) by (rewrite Q, Q'; reflexivity). destruct (U1 LL x J) as (? & ? & ? & ? & Q2). destruct (AL x J) as (? & ? & Q3). congruence. }
        assert (DB : forall D, In D (bundles_funs B') -> good D).
        { eapply IHB; [exact C2|exact OKF|exact M'|exact CS|auto|exact NF|exact IB2|exact KN|exact OB|exact OB|exact NBD|exact GNA|intros a J; apply GA; exact J]. }
        destruct CASES as [[AL NEW]|(AL & EN & NB)].
        + destruct (make_wrappers_lift fvm fm' lfvs B sb AL NF) as (Bw & fvm0 & sd0 & MW & W1 & W2 & W3 & W4).
          rewrite C3 in MW. apply some3 in MW as (-> & <- & <-).
          destruct (wrappers_tags _ _ _ _ _ _ _ _ C3 AL) as [WT WB].
          assert (OKE : okexp fvm' fm' e) by (eapply okexp_body; [exact OK|exact W2|exact OLD|exact NEWA|intros a J; apply ARGS; exact J]).
          assert (MB : okmaps (nv sd) fvm' fm' g').
          { split; [lia|]. split; [|split; [|exact M3']].
            - intros x i E. destruct (in_dec Pos.eq_dec x (fnames B)) as [J|J].
              + destruct (In_find_def _ _ J) as (t1 & xs1 & e1 & FD1). destruct (W3 _ _ _ _ FD1) as (h & xs' & f1 & ft1 & A1 & _ & _ & _ & _ & A6 & _).
                assert (i = WrapperFun h) by congruence. subst i. cbn [target]. split; [apply OKF2, fnames_bv; exact J|]. split; [lia|].
                intros h0 f0 ft0 a0 L0. apply M2' in L0. lia.
              + rewrite W2 in E by exact J. destruct (M1' _ _ E) as (X1 & X2 & X3). split; [exact X1|]. split; [lia|exact X3].
            - intros h0 f0 ft0 a0 L0. destruct (M2' _ _ _ _ L0) as (X1 & X2 & X3). split; [exact X1|]. split; [lia|exact X3]. }
          rewrite bundles_Efun2, WB in I |- *.
          assert (IW : In Bw bs) by (apply I; right; apply in_or_app; right; left; reflexivity).
          assert (KE : known fvm' g').
          { intros x E. destruct (in_dec Pos.eq_dec x (fnames B)) as [J|J].
            - destruct (GNA x J E) as [_ EN]. destruct (In_find_def _ _ J) as (t1 & xs1 & e1 & FD1). destruct (W3 _ _ _ _ FD1) as (h & xs' & f1 & ft1 & A1 & _ & A3 & _).
              rewrite (rename_target _ _ _ A1). cbn [target]. apply cf with (D := Bw); [exact IW|eapply find_def_In; eauto|].
              intros y [_ Fy]. destruct (wrappers_free _ _ _ y _ _ _ _ _ C3 AL Fy) as [(x1 & f2 & ft2 & J1 & L & ->)|(a & J1 & _)].
              + apply cf with (D := B'); [exact IB1| |apply CB; exact AL]. apply (proj2 (llf_fnames _ _ _ _ _ _ _ _ _ _ _ _ _ C2 AL f2)). eauto.
              + rewrite EN in J1. destruct J1.
            - rewrite (rename_eq fvm fvm' x) by (apply W2; exact J). apply KN; auto. }
          intros D [<-|J]; [intros _; apply CB; exact AL|]. apply in_app_or in J as [J|[<-|J]]; [apply DB; exact J| |].
          * intros (t & Jt & Lt). rewrite WT in Jt. apply ftags_defs in Jt as (f & xs & b & Jt). apply OB in Jt. lia.
          * eapply IH; [exact C4|exact OKE|exact MB| |exact KE|exact OE|exact NE|exact J]. intros q Jq. apply I. right. apply in_or_app. right. right. exact Jq.
        + rewrite (make_wrappers_nolift fvm fm' B sb AL NB) in C3. apply some3 in C3 as (<- & <- & <-).
          assert (OKE : okexp fvm fm' e) by (eapply okexp_body; [exact OK|reflexivity|exact OLD|exact NEWA|intros a J; apply ARGS; exact J]).
          assert (KE : known fvm g').
          { intros x E. destruct (in_dec Pos.eq_dec x (fnames B)) as [J|J]; [|apply KN; auto]. exfalso.
            destruct (GNA x J E) as [AL2 _]. destruct (AL2 x J) as (? & ? & ? & ? & Q2). destruct (AL x J) as (? & ? & Q3). congruence. }
          cbn [bundles] in I |- *. intros D [<-|J].
          * intros (t & Jt & Lt). rewrite (nolift_tags _ _ _ _ _ _ _ _ _ C2 AL) in Jt. apply ftags_defs in Jt as (f & xs & b & Jt). apply OB in Jt. lia.
          * apply in_app_or in J as [J|J]; [apply DB; exact J|].
            eapply IH; [exact C4|exact OKE|exact (okmaps_le _ _ _ _ _ _ L2 M')| |exact KE|exact OE|exact NE|exact J]. intros q Jq. apply I. right. apply in_or_app. right. exact Jq.
      - intros f t ys sc fvm fm g s e1 s1 H OK M I K O G D J.
        assert (LT : forall x, x = f \/ In x ys -> (x < N0)%positive) by (destruct OK as (_ & _ & OK3); intros w Hw; apply OK3; cbn [free]; tauto).
        destruct (call_from _ _ _ _ _ _ _ _ _ _ _ M LT H) as (h0 & t0 & zs0 & -> & _). destruct J.
      - intros x p e IH sc fvm fm g s e1 s1 H OK M I K O G. apply ll_prim_val in H as (e' & H & ->). cbn [bundles] in *.
        destruct (okexp_bind N0 x e fvm fm (Eprim_val x p e) eq_refl ltac:(cbn [free]; auto) OK) as (OK' & _).
        eapply IH; eauto. intros z J. apply G. right. exact J.
      - intros x p ys e IH sc fvm fm g s e1 s1 H OK M I K O G. apply ll_prim in H as (e' & H & ->). cbn [bundles] in *.
        destruct (okexp_bind N0 x e fvm fm (Eprim x p ys e) eq_refl ltac:(cbn [free]; auto) OK) as (OK' & _).
        eapply IH; eauto. intros z J. apply G. right. exact J.
      - intros x sc fvm fm g s e1 s1 H OK M I K O G D J. apply ll_halt in H as [-> ->]. destruct J.
      - intros f t xs e B IH IHB B0 nm fvm fm g s B1 s1 args H OK M CASES SUB N I K O O0 G GF GA. cbn [fnames] in N. apply NoDup_cons_iff in N as [N1 N2].
        assert (FD0 : find_def f B0 = Some (t, xs, e)) by (apply SUB; cbn [find_def]; destruct (Pos.eq_dec f f); [reflexivity|congruence]).
        assert (SUB' : forall f t xs e, find_def f B = Some (t, xs, e) -> find_def f B0 = Some (t, xs, e)).
        { intros h u ys a FD. apply SUB. cbn [find_def]. destruct (Pos.eq_dec h f) as [->|]; [|exact FD]. exfalso. apply N1. eapply find_def_In; eauto. }
        assert (OE : old_tags (defs_of e)) by (intros h u ys b Q; eapply O; cbn [defs_of_funs]; right; apply in_or_app; left; exact Q).
        assert (OB : old_tags (defs_of_funs B)) by (intros h u ys b Q; eapply O; cbn [defs_of_funs]; right; apply in_or_app; right; exact Q).
        pose proof OK as (OK1 & OK2 & OK3). pose proof M as (M0 & M1 & M2 & M3).
        apply llf_cons in H as [(f' & ft' & fvs & sfvs & args' & ys & fvm1 & sa & Bw & fvm2 & sb & e' & sc & B' & GE & H1 & H2 & H3 & H4 & ->)|
          (fvs & sfvs & e' & sa & B' & GE & H1 & H2 & ->)].
        + destruct CASES as [AL|[AL _]]; [|destruct (AL f (find_def_In _ _ _ _ _ FD0)) as (u & v & Q); congruence].
          destruct (AL f (find_def_In _ _ _ _ _ FD0)) as (q1 & q2 & q3 & q4 & Q). assert (args' = args) by congruence. subst args'. clear Q.
          destruct (body_maps _ _ _ _ _ _ _ _ _ _ _ _ _ _ _ _ OK M AL FD0 H1 H2) as (OKE & MB & XS & YS & WS & OUT & R12).
          pose proof (add_free_vars_spec _ _ _ _ _ _ H1) as (_ & _ & _ & L1 & _). pose proof (make_wrappers_le _ _ _ _ _ _ _ H2) as L2.
          pose proof (proj1 (ll_le _ _ _) _ _ _ _ _ _ _ _ H3) as L3.
          destruct (wrappers_tags _ _ _ _ _ _ _ _ H2 AL) as [WT WB].
          cbn [bundles_funs bundles] in I |- *. rewrite WB in I |- *. cbn [app] in I |- *.
          assert (IW : In Bw bs) by (apply I; left; reflexivity).
          assert (KE : known fvm2 g).
          { intros x E. destruct (in_dec Pos.eq_dec x (fnames B0)) as [J|J].
            - destruct (GF x J E) as [_ EN]. destruct (WS x J) as (Bw0 & EB & J2). apply some1 in EB. subst Bw0. apply cf with (D := Bw); [exact IW|exact J2|].
              intros y [_ Fy]. destruct (wrappers_free _ _ _ y _ _ _ _ _ H2 AL Fy) as [(x1 & f2 & ft2 & J1 & L & ->)|(a & J1 & _)].
              + rewrite <- (rename_high _ _ _ _ _ f2 M); [|apply M2 in L; lia]. apply K; [apply (M2 _ _ _ _ L)|].
                intro J3. apply fnames_bv in J3. destruct (OK2 _ J3) as ((Q & _) & _). apply M2 in L. lia.
              + rewrite EN in J1. destruct J1.
            - rewrite OUT; [apply K; auto|exact J|]. intro J1. apply E. apply GA. exact J1. }
          intros D [<-|J].
          * intros (t1 & Jt & Lt). rewrite WT in Jt. apply ftags_defs in Jt as (f1 & xs1 & b1 & Jt). apply O0 in Jt. lia.
          * apply in_app_or in J as [J|J].
            -- eapply IH; [exact H3|exact OKE|exact MB| |exact KE|exact OE|exact (G _ _ _ _ FD0)|exact J]. intros q Jq. apply I. right. apply in_or_app. auto.
            -- eapply IHB; [exact H4|exact OK|eapply okmaps_le; [|exact M]; lia|left; exact AL|exact SUB'|exact N2| |exact K|exact OB|exact O0|exact G|exact GF|exact GA|exact J].
               intros q Jq. apply I. right. apply in_or_app. auto.
        + destruct CASES as [AL|[AL EA]]; [destruct (AL f (find_def_In _ _ _ _ _ FD0)) as (? & ? & ? & ? & Q); congruence|]. subst args.
          destruct (nl_body_maps _ _ _ _ _ _ _ _ _ OK M AL FD0) as (OKE & XS & FS).
          cbn [bundles_funs] in I |- *. apply incl_app_inv in I as [I1 I2].
          assert (KE : known fvm g).
          { intros x E. destruct (in_dec Pos.eq_dec x (fnames B0)) as [J|J]; [|apply K; auto]. exfalso.
            destruct (GF x J E) as [AL2 _]. destruct (AL2 x J) as (? & ? & ? & ? & Q2). destruct (AL x J) as (? & ? & Q3). congruence. }
          intros D J. apply in_app_or in J as [J|J].
          * eapply IH; [exact H1|exact OKE|exact M|exact I1|exact KE|exact OE|exact (G _ _ _ _ FD0)|exact J].
          * eapply IHB; [exact H2|exact OK|eapply okmaps_le; [|exact M]; eapply (proj1 (ll_le _ _ _)); eauto|right; auto|exact SUB'|exact N2|exact I2|exact K|exact OB|exact O0|exact G|exact GF|exact GA|exact J].
      - intros B0 nm fvm fm g s B1 s1 args H OK M CASES SUB N I K O O0 G GF GA D J. apply llf_nil in H as [-> ->]. destruct J.
    Qed.
  End Bundles.
End Closed.
