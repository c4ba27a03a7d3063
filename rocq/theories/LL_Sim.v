(* Lambda lifting preserves evaluation: simulation. *)
From Coq Require Import List Arith NArith PArith Bool Lia.
From Verif Require Import ANF_Syntax ANF_Eval ANF_Spec ANF_Scope ANF_EvalProofs ANF_FreeProofs Comp_Model CC_Model CC_Spec CC_Proofs UC_Model LL_Model LL_Proofs.
Import ListNotations.

Section Sim.
  Variables max_args max_push : nat.
  Variable lift_dec : list var -> list var -> bool.
  Notation ll := (exp_lambda_lift max_args max_push lift_dec).
  Notation llf := (fundefs_lambda_lift max_args max_push lift_dec).

  (* ** The maps *)
  Variable N0 : positive.

  (* [x], a bound name of the source, is not in the maps *)
  Definition outside (fvm : VarInfoMap) (fm : FunInfoMap) (x : var) : Prop :=
    (x < N0)%positive /\ get x fvm = None /\
    (forall h f' ft' args, lifted fm h = Some (f', ft', args) -> ~ In x args).
  Definition okexp (fvm : VarInfoMap) (fm : FunInfoMap) (e : exp) : Prop :=
    NoDup (bv e) /\ (forall x, In x (bv e) -> outside fvm fm x /\ get x fm = None /\ ~ free x e) /\ (forall x, free x e -> (x < N0)%positive).
  Definition okfuns (fvm : VarInfoMap) (fm : FunInfoMap) (B : fundefs) : Prop :=
    NoDup (bv_funs B) /\ (forall x, In x (bv_funs B) -> outside fvm fm x /\ (In x (fnames B) \/ get x fm = None) /\ ~ free_funs x B) /\
    (forall x, free_funs x B -> (x < N0)%positive).

  Definition target (i : VarInfo) : var := match i with FreeVar y => y | WrapperFun y => y end.
  Lemma rename_target fvm x i : get x fvm = Some i -> rename fvm x = target i.
  Proof. unfold rename. intros ->. destruct i; reflexivity. Qed.

  Definition okmaps (b : positive) (fvm : VarInfoMap) (fm : FunInfoMap) (g : GFunMap) : Prop :=
    (N0 <= b)%positive /\
    (forall x i, get x fvm = Some i -> (x < N0)%positive /\ (N0 <= target i < b)%positive /\
       forall h f' ft' args, lifted fm h = Some (f', ft', args) -> target i <> f') /\
    (forall h f' ft' args, lifted fm h = Some (f', ft', args) ->
       (h < N0)%positive /\ (N0 <= f' < b)%positive /\ get f' g <> None /\ forall a, In a args -> (a < N0)%positive) /\
    (forall x y f' t1 a1 t2 a2, lifted fm x = Some (f', t1, a1) -> lifted fm y = Some (f', t2, a2) -> x = y).

  Lemma okmaps_le b b' fvm fm g : (b <= b')%positive -> okmaps b fvm fm g -> okmaps b' fvm fm g.
  Proof.
    intros L (H0 & H1 & H2 & H3). split; [lia|]. split; [|split; [|exact H3]].
    - intros x i E. destruct (H1 x i E) as (A & B & C). split; [exact A|]. split; [lia|exact C].
    - intros h f' ft' args E. destruct (H2 _ _ _ _ E) as (A & B & C). split; [exact A|]. split; [lia|exact C].
  Qed.
  Lemma rename_cases b fvm fm g x : okmaps b fvm fm g -> (x < N0)%positive ->
    (rename fvm x = x) \/ ((N0 <= rename fvm x < b)%positive /\ forall h f' ft' args, lifted fm h = Some (f', ft', args) -> rename fvm x <> f').
  Proof.
    intros (_ & H & _) L. destruct (get x fvm) as [i|] eqn:E.
    - right. rewrite (rename_target _ _ _ E). apply H in E. tauto.
    - left. apply rename_other. exact E.
  Qed.
  Lemma rename_lt b fvm fm g x : okmaps b fvm fm g -> (x < N0)%positive -> (rename fvm x < b)%positive.
  Proof. intros M L. pose proof M as (L0 & _). destruct (rename_cases _ _ _ _ _ M L) as [->|[A _]]; lia. Qed.
  Lemma rename_not_lifted b fvm fm g x h f' ft' args : okmaps b fvm fm g -> (x < N0)%positive -> lifted fm h = Some (f', ft', args) -> rename fvm x <> f'.
  Proof.
    intros M L E. pose proof M as (L0 & _ & M2 & _). destruct (rename_cases _ _ _ _ _ M L) as [->|[_ A]]; [|eauto].
    apply M2 in E. lia.
  Qed.
  Lemma rename_high b fvm fm g x : okmaps b fvm fm g -> (N0 <= x)%positive -> rename fvm x = x.
  Proof.
    intros (_ & M & _) L. apply rename_other. destruct (get x fvm) as [i|] eqn:E; [|reflexivity]. apply M in E. lia.
  Qed.

  (* ** Values *)
  Inductive lval : val -> val -> Prop :=
  | lval_constr : forall t vs vs', Forall2 lval vs vs' -> lval (Vconstr t vs) (Vconstr t vs')
  | lval_prim : forall p, lval (Vprim p) (Vprim p)
  | lval_int : forall z, lval (Vint z) (Vint z)
  | lval_nolift : forall rf B f r' B' nm fvm fm g s s',
      okfuns fvm fm B -> okmaps (nv s) fvm fm g -> all_nolift fm B ->
      llf B B nm fvm fm g s = Some (B', s') -> In f (fnames B) ->
      (forall x, free_funs x B ->
         exists v v', get x rf = Some v /\ get (rename fvm x) r' = Some v' /\ lval v v' /\
           (forall f' ft' args, lifted fm x = Some (f', ft', args) ->
              exists r0 B0 vl, v = Vfun r0 B0 x /\ get f' r' = Some vl /\ lclo r0 B0 x ft' args vl /\
                forall a, In a args -> exists w w', get a rf = Some w /\ get a r0 = Some w /\ get (rename fvm a) r' = Some w' /\ lval w w')) ->
      lval (Vfun rf B f) (Vfun r' B' f)
  | lval_wrap : forall rf B f rw Bw h f' ft' args args' t xs xs' e vl,
      find_def f B = Some (t, xs, e) ->
      find_def h Bw = Some (t, xs', Eapp f' ft' (xs' ++ args')) ->
      length xs' = length xs -> NoDup xs' ->
      (forall z, z = f' \/ In z args' -> ~ In z xs' /\ ~ In z (fnames Bw)) ->
      get f' rw = Some vl -> lclo rf B f ft' args vl ->
      Forall2 (fun a a' => exists w w', get a rf = Some w /\ get a' rw = Some w' /\ lval w w') args args' ->
      lval (Vfun rf B f) (Vfun rw Bw h)
  with lclo : env -> fundefs -> var -> fun_tag -> list var -> val -> Prop :=
  | lclo_intro : forall rf B f f' ft' args r' B' nm fvm fm g s s',
      okfuns fvm fm B -> okmaps (nv s) fvm fm g -> all_lift fm args B ->
      llf B B nm fvm fm g s = Some (B', s') -> In f (fnames B) -> lifted fm f = Some (f', ft', args) ->
      (forall x, free_funs x B ->
         exists v v', get x rf = Some v /\ get (rename fvm x) r' = Some v' /\ lval v v' /\
           (forall f' ft' args, lifted fm x = Some (f', ft', args) ->
              exists r0 B0 vl, v = Vfun r0 B0 x /\ get f' r' = Some vl /\ lclo r0 B0 x ft' args vl /\
                forall a, In a args -> exists w w', get a rf = Some w /\ get a r0 = Some w /\ get (rename fvm a) r' = Some w' /\ lval w w')) ->
      lclo rf B f ft' args (Vfun r' B' f').

  Definition vrel (fvm : VarInfoMap) (fm : FunInfoMap) (rho rho' : env) (x : var) : Prop :=
    exists v v', get x rho = Some v /\ get (rename fvm x) rho' = Some v' /\ lval v v' /\
      (forall f' ft' args, lifted fm x = Some (f', ft', args) ->
         exists r0 B0 vl, v = Vfun r0 B0 x /\ get f' rho' = Some vl /\ lclo r0 B0 x ft' args vl /\
           forall a, In a args -> exists w w', get a rho = Some w /\ get a r0 = Some w /\ get (rename fvm a) rho' = Some w' /\ lval w w').

  (* the relation at [x] looks at few names *)
  Definition looks (fm : FunInfoMap) (x : var) (P : var -> Prop) : Prop :=
    P x /\ forall f' ft' args, lifted fm x = Some (f', ft', args) -> forall a, In a args -> P a.
  Lemma vrel_ext fvm fm rho rho' fvm2 fm2 rho2 rho2' x : vrel fvm fm rho rho' x ->
    lifted fm2 x = lifted fm x ->
    looks fm x (fun a => get a rho2 = get a rho /\ get (rename fvm2 a) rho2' = get (rename fvm a) rho') ->
    (forall f' ft' args, lifted fm x = Some (f', ft', args) -> get f' rho2' = get f' rho') ->
    vrel fvm2 fm2 rho2 rho2' x.
  Proof.
    intros (v & v' & A1 & A2 & A3 & A4) EL [[P1 P2] P3] PF. exists v, v'. rewrite P1, P2. split; [exact A1|]. split; [exact A2|]. split; [exact A3|].
    rewrite EL. intros f' ft' args L. destruct (A4 _ _ _ L) as (r0 & B0 & vl & C1 & C2 & C3 & C4). exists r0, B0, vl.
    split; [exact C1|]. split; [rewrite (PF _ _ _ L); exact C2|]. split; [exact C3|].
    intros a I. destruct (P3 _ _ _ L a I) as [Q1 Q2]. rewrite Q1, Q2. apply C4. exact I.
  Qed.

  Lemma vrel_agree b fvm fm g rho rho' rho2' x : okmaps b fvm fm g -> (x < N0)%positive -> (forall z, (z < b)%positive -> get z rho2' = get z rho') ->
    vrel fvm fm rho rho' x -> vrel fvm fm rho rho2' x.
  Proof.
    intros M L A V. pose proof M as (_ & _ & M2 & _). eapply vrel_ext; [exact V|reflexivity| |].
    - split; [split; [reflexivity|apply A; eapply rename_lt; eauto]|]. intros f' ft' args E a I. split; [reflexivity|].
      apply A. eapply rename_lt; [exact M|]. apply (M2 _ _ _ _ E). exact I.
    - intros f' ft' args E. apply A. apply (M2 _ _ _ _ E).
  Qed.
  Lemma vrel_set b fvm fm g rho rho' x v v' y : okmaps b fvm fm g -> outside fvm fm x -> get x fm = None -> lval v v' -> (y <> x -> (y < N0)%positive) ->
    (y <> x -> vrel fvm fm rho rho' y) -> vrel fvm fm (set x v rho) (set x v' rho') y.
  Proof.
    intros M (Lx & Ox & Ax) Gx V Ly H. destruct (Pos.eq_dec y x) as [->|D].
    - exists v, v'. rewrite (rename_other _ _ Ox), !get_set_same. split; [reflexivity|]. split; [reflexivity|]. split; [exact V|].
      rewrite (lifted_none _ _ Gx). discriminate.
    - pose proof M as (_ & _ & M2 & _).
      assert (R : forall a, (a < N0)%positive -> a <> x -> get a (set x v rho) = get a rho /\ get (rename fvm a) (set x v' rho') = get (rename fvm a) rho').
      { intros a La Da. split; [apply get_set_other; exact Da|]. apply get_set_other.
        destruct (rename_cases _ _ _ _ _ M La) as [->|[Q _]]; [exact Da|lia]. }
      eapply vrel_ext; [exact (H D)|reflexivity| |].
      + split; [apply R; auto|]. intros f' ft' args E a I. apply R; [apply (M2 _ _ _ _ E); exact I|]. intros ->. exact (Ax _ _ _ _ E I).
      + intros f' ft' args E. apply get_set_other. apply M2 in E. lia.
  Qed.

  (* ** Scopes of the source *)
  Lemma okexp_bind x e fvm fm (e0 : exp) : bv e0 = x :: bv e -> (forall y, y <> x -> free y e -> free y e0) -> okexp fvm fm e0 ->
    okexp fvm fm e /\ outside fvm fm x /\ get x fm = None.
  Proof.
    intros E F (N & B & C). rewrite E in N, B. inversion N as [|? ? NI N']; subst. destruct (B x ltac:(left; reflexivity)) as (X1 & X2 & X3).
    split; [|auto]. split; [auto|]. split.
    - intros y I. destruct (B y ltac:(right; exact I)) as (Y1 & Y2 & Y3). split; [exact Y1|]. split; [exact Y2|]. intro Fy.
      apply Y3. apply F; [|exact Fy]. intros ->. contradiction.
    - intros y Fy. destruct (Pos.eq_dec y x) as [->|D]; [apply X1|]. apply C. auto.
  Qed.
  Lemma okexp_case x l fvm fm t e : okexp fvm fm (Ecase x l) -> findtag l t = Some e -> okexp fvm fm e /\ (forall y, free y e -> free y (Ecase x l)).
  Proof.
    intros (N & B & C) F. apply findtag_In in F. assert (K : forall y, free y e -> free y (Ecase x l)).
    { intros y Fy. apply free_Ecase. right. eapply free_case_In; eauto. }
    split; [|exact K]. assert (J : exists l1 l2, bv (Ecase x l) = l1 ++ bv e ++ l2).
    { cbn [bv]. clear -F. induction l as [|p l IH]; [destruct F|]. destruct F as [->|F].
      - exists [], (flat_map (fun p => bv (snd p)) l). reflexivity.
      - destruct (IH F) as (l1 & l2 & E). exists (bv (snd p) ++ l1), l2. cbn [flat_map]. rewrite E, app_assoc. reflexivity. }
    destruct J as (l1 & l2 & E). rewrite E in N, B. split; [|split].
    - exact (NoDup_app_l _ _ _ (NoDup_app_r _ _ _ N)).
    - intros y I. destruct (B y) as (Y1 & Y2 & Y3); [apply in_or_app; right; apply in_or_app; left; exact I|].
      split; [exact Y1|]. split; [exact Y2|]. auto.
    - intros y Fy. apply C. auto.
  Qed.

  (* the parts of [Efun B e], with new maps *)
  Lemma okexp_fun_funs B e fvm fm : okexp fvm fm (Efun B e) ->
    NoDup (bv_funs B) /\ (forall x, In x (bv_funs B) -> outside fvm fm x /\ get x fm = None /\ ~ free_funs x B) /\
    (forall x, free_funs x B -> (x < N0)%positive).
  Proof.
    intros (N & Bd & C). cbn [bv] in N, Bd. split; [exact (NoDup_app_l _ _ _ N)|]. split.
    - intros x I. destruct (Bd x) as (X1 & X2 & X3); [apply in_or_app; auto|]. split; [exact X1|]. split; [exact X2|].
      intro F. apply X3. apply free_funs_Efun. exact F.
    - intros x F. apply C. apply free_funs_Efun. exact F.
  Qed.
  Lemma NoDup_fnames B : NoDup (bv_funs B) -> NoDup (fnames B).
  Proof.
    induction B as [f t xs e B IH|]; cbn [fnames bv_funs]; intro N; [|constructor]. inversion N as [|? ? NI N']; subst.
    constructor; [|apply IH; exact (NoDup_app_r _ _ _ (NoDup_app_r _ _ _ N'))].
    intro I. apply NI. apply in_or_app. right. apply in_or_app. right. apply fnames_bv. exact I.
  Qed.

  (* ** Entering a function *)
  Lemma find_def_In f B t xs e : find_def f B = Some (t, xs, e) -> In f (fnames B).
  Proof.
    induction B as [h t' xs' e' B IH|]; cbn [find_def fnames]; [|discriminate]. destruct (Pos.eq_dec f h) as [->|]; [left; reflexivity|right; auto].
  Qed.
  Lemma In_find_def f B : In f (fnames B) -> exists t xs e, find_def f B = Some (t, xs, e).
  Proof.
    induction B as [h t' xs' e' B IH|]; cbn [find_def fnames]; [|intros []]. destruct (Pos.eq_dec f h) as [->|D]; [eauto|]. intros [->|I]; [congruence|auto].
  Qed.
  Lemma get_list_set_lists : forall xs vs (rho r : env), NoDup xs -> set_lists xs vs rho = Some r -> get_list xs r = Some vs.
  Proof.
    induction xs as [|x xs IH]; intros vs rho r N H; cbn [set_lists] in H; destruct vs as [|v vs]; try discriminate; [reflexivity|].
    destruct (set_lists xs vs rho) as [r1|] eqn:E; [|discriminate]. assert (r = set x v r1) by congruence. subst r.
    inversion N as [|? ? NI N']; subst. cbn [get_list]. rewrite get_set_same.
    assert (Q : get_list xs (set x v r1) = get_list xs r1).
    { clear -NI. induction xs as [|y xs IH]; [reflexivity|]. cbn [get_list]. cbn [In] in NI. rewrite get_set_other by (intros ->; tauto).
      rewrite IH by tauto. reflexivity. }
    rewrite Q, (IH _ _ _ N' E). reflexivity.
  Qed.
  Lemma get_list_app xs : forall ys (rho : env) vs ws, get_list xs rho = Some vs -> get_list ys rho = Some ws -> get_list (xs ++ ys) rho = Some (vs ++ ws).
  Proof.
    induction xs as [|x xs IH]; intros ys rho vs ws H1 H2; cbn [get_list app] in *; [assert (vs = []) by congruence; subst; exact H2|].
    destruct (get x rho) as [v|]; [|discriminate]. destruct (get_list xs rho) as [vs1|] eqn:E; [|discriminate].
    assert (vs = v :: vs1) by congruence. subst. rewrite (IH _ _ _ _ E H2). reflexivity.
  Qed.
  Lemma set_lists_app xs : forall ys vs ws (rho : env), length xs = length vs ->
    set_lists (xs ++ ys) (vs ++ ws) rho = match set_lists ys ws rho with Some r => set_lists xs vs r | None => None end.
  Proof.
    induction xs as [|x xs IH]; intros ys vs ws rho L; destruct vs as [|v vs]; try discriminate L; cbn [app set_lists].
    - destruct (set_lists ys ws rho); reflexivity.
    - cbn [length] in L. rewrite IH by congruence. destruct (set_lists ys ws rho); reflexivity.
  Qed.
  Lemma set_lists_total : forall xs vs (rho : env), length xs = length vs -> exists r, set_lists xs vs rho = Some r.
  Proof.
    induction xs as [|x xs IH]; intros vs rho L; destruct vs as [|v vs]; try discriminate L; cbn [set_lists]; [eauto|].
    destruct (IH vs rho) as [r ->]; [cbn [length] in L; congruence|]. eauto.
  Qed.
  Lemma set_lists_length : forall xs vs (rho r : env), set_lists xs vs rho = Some r -> length xs = length vs.
  Proof.
    induction xs as [|x xs IH]; intros vs rho r H; destruct vs as [|v vs]; cbn [set_lists] in H; try discriminate; [reflexivity|].
    destruct (set_lists xs vs rho) as [r1|] eqn:E; [|discriminate]. cbn [length]. f_equal. eapply IH; eauto.
  Qed.
  Lemma set_lists_get_other : forall xs vs (rho r : env) x, set_lists xs vs rho = Some r -> ~ In x xs -> get x r = get x rho.
  Proof.
    induction xs as [|y xs IH]; intros vs rho r x H I; destruct vs as [|v vs]; cbn [set_lists] in H; try discriminate; [congruence|].
    destruct (set_lists xs vs rho) as [r1|] eqn:E; [|discriminate]. assert (r = set y v r1) by congruence. subst. cbn [In] in I.
    rewrite get_set_other by (intros ->; tauto). eapply IH; eauto.
  Qed.
  Lemma def_get_other B r0 r x : ~ In x (fnames B) -> get x (def_funs B B r0 r) = get x r.
  Proof. intro I. rewrite def_funs_get. destruct (in_dec Pos.eq_dec x (fnames B)); [contradiction|reflexivity]. Qed.
  Lemma def_get_in B r0 r x : In x (fnames B) -> get x (def_funs B B r0 r) = Some (Vfun r0 B x).
  Proof. intro I. rewrite def_funs_get. destruct (in_dec Pos.eq_dec x (fnames B)); [reflexivity|contradiction]. Qed.

  (* what a call needs of the related code *)
  Definition entered (rhob : env) (eb : exp) (rho2 : env) (e2 : exp) : Prop :=
    exists sc fvm fm g s s', ll eb sc fvm fm g s = Some (e2, s') /\ okexp fvm fm eb /\ okmaps (nv s) fvm fm g /\
      forall x, free x eb -> vrel fvm fm rhob rho2 x.

  (* a lifted function *)
  Lemma enter_lifted rf B f ft' args vl t xs e vs vs' ws' rhob :
    lclo rf B f ft' args vl -> find_def f B = Some (t, xs, e) -> set_lists xs vs (def_funs B B rf rf) = Some rhob -> Forall2 lval vs vs' ->
    Forall2 (fun a w' => exists w, get a rf = Some w /\ lval w w') args ws' ->
    exists rb' Bw e', enter vl ft' (vs' ++ ws') = Some (rb', Efun Bw e') /\ entered rhob e (def_funs Bw Bw rb' rb') e'.
  Proof.
    intros CL FD SL FV FW.
    inversion CL as [rf0 B0 f0 f' ft0 args0 r' B' nm fvm fm g s s' OK M AL LF FI LI HV]. subst rf0 B0 f0 ft0 args0 vl.
    pose proof M as (M0 & M1 & M2 & M3). pose proof OK as (OK1 & OK2 & OK3).
    destruct (llf_find max_args max_push lift_dec args B nm fvm fm g f t xs e B s B' s' LF AL) as
      (f1 & ft1 & fvs & sfvs & ys & fvm1 & sa & Bw & fvm2 & sb & e' & sc & sd & G1 & L1 & AF & MW & LE & FD').
    { intros; eapply M3; eauto. }
    { exact FD. }
    pose proof (lifted_get _ _ _ _ _ _ _ G1) as LI'. rewrite LI in LI'. assert (f1 = f' /\ ft1 = ft') as [-> ->] by (split; congruence). clear LI'.
    destruct (add_free_vars_spec _ _ _ _ _ _ AF) as (Y1 & Y2 & Y3 & Y4 & Y5 & Y6 & Y7).
    destruct (make_wrappers_lift fvm1 fm args B sb AL (NoDup_fnames _ OK1)) as (Bw0 & fvm20 & sc0 & MW' & W1 & W2 & W3 & W4).
    rewrite MW in MW'. apply some3 in MW' as (EB & <- & <-). assert (Bw0 = Bw) by congruence. subst Bw0. clear EB.
    destruct (find_def_bv _ _ _ _ _ FD OK1) as (BV1 & BV2 & _).
    (* the parameters *)
    assert (LV : length xs = length vs) by (eapply set_lists_length; eauto).
    assert (LV' : length xs = length vs') by (rewrite LV; clear -FV; induction FV; cbn [length]; congruence).
    assert (LW : length ys = length ws') by (rewrite Y1; clear -FW; induction FW; cbn [length]; congruence).
    destruct (set_lists_total ys ws' (def_funs B' B' r' r') LW) as [ra SA].
    destruct (set_lists_rel lval xs vs vs' _ ra rhob FV SL) as (rb & SB & K).
    exists rb, Bw, e'. split.
    { apply enter_spec. exists r', B', f', (xs ++ ys). split; [reflexivity|]. split; [exact FD'|]. rewrite (set_lists_app _ _ _ _ _ LV'), SA. exact SB. }
    (* names *)
    assert (XS : forall x, In x xs -> outside fvm fm x /\ get x fm = None /\ ~ In x (fnames B)).
    { intros x I. destruct (BV2 x) as [I1 I2]; [apply in_or_app; auto|]. destruct (OK2 x I1) as (O1 & O2 & _).
      split; [exact O1|]. split; [destruct O2; [contradiction|assumption]|exact I2]. }
    assert (AR : forall a, In a args -> (a < N0)%positive /\ ~ In a (bv_funs B)).
    { intros a I. split; [apply (M2 _ _ _ _ LI); exact I|]. intro J. destruct (OK2 a J) as ((_ & _ & O) & _). exact (O _ _ _ _ LI I). }
    assert (FNB : forall z, In z (fnames B') -> exists x ft0, In x (fnames B) /\ lifted fm x = Some (z, ft0, args)) by (intros z I; eapply llf_fnames; eauto).
    assert (R1 : forall a, In a args -> exists w w', get a rf = Some w /\ get (rename fvm1 a) rb = Some w' /\ lval w w').
    { intros a I. destruct (Y7 _ _ _ _ FW SA a I) as (w' & E & w & E1 & V). exists w, w'. split; [exact E1|]. split; [|exact V].
      rewrite <- E. eapply set_lists_get_other; [exact SB|]. destruct (Y6 a I) as (y & Ey & Iy). rewrite (rename_target _ _ _ Ey). cbn [target].
      intro J. apply XS in J as ((J & _) & _). apply Y3 in Iy. lia. }
    assert (LOW : forall z, (z < nv sa)%positive -> (N0 <= z)%positive -> ~ In z (fnames B') -> get z rb = get z r').
    { intros z Lz Hz Iz. rewrite (set_lists_get_other _ _ _ _ _ SB); [|intro J; apply XS in J as ((J & _) & _); lia].
      rewrite (set_lists_get_other _ _ _ _ _ SA); [|intro J; apply Y3 in J; lia]. apply def_get_other. exact Iz. }
    assert (SRC : forall z, (z < N0)%positive -> ~ In z xs -> get z rb = get z r').
    { intros z Lz Iz. rewrite (set_lists_get_other _ _ _ _ _ SB) by exact Iz. rewrite (set_lists_get_other _ _ _ _ _ SA); [|intro J; apply Y3 in J; lia].
      apply def_get_other. intro J. apply FNB in J as (x & ft0 & _ & J). apply M2 in J. lia. }
    assert (BW : forall z, (z < nv sb)%positive -> get z (def_funs Bw Bw rb rb) = get z rb).
    { intros z Lz. apply def_get_other. intro J. apply W4 in J. lia. }
    (* a renamed name of the outside *)
    assert (OUT : forall a, (a < N0)%positive -> ~ In a xs -> ~ In a (fnames B) -> ~ In a args ->
      rename fvm2 a = rename fvm a /\ get (rename fvm2 a) (def_funs Bw Bw rb rb) = get (rename fvm a) r').
    { intros a La Ia Ja Ka. assert (E : rename fvm2 a = rename fvm a).
      { apply rename_eq. rewrite W2 by exact Ja. apply Y5. exact Ka. }
      split; [exact E|]. rewrite E. pose proof (rename_lt _ _ _ _ _ M La) as RL. rewrite BW by lia.
      destruct (rename_cases _ _ _ _ _ M La) as [R|[R1' R2']]; [rewrite R; apply SRC; auto|].
      apply LOW; [lia|lia|]. intro J. apply FNB in J as (x & ft0 & _ & J). exact (R2' _ _ _ _ J eq_refl). }
    assert (IN : forall a, In a args -> exists w w', get a rf = Some w /\ get (rename fvm2 a) (def_funs Bw Bw rb rb) = Some w' /\ lval w w').
    { intros a I. destruct (R1 a I) as (w & w' & E1 & E2 & V). exists w, w'. split; [exact E1|]. split; [|exact V].
      destruct (AR a I) as [_ NB]. assert (E : rename fvm2 a = rename fvm1 a) by (apply rename_eq, W2; intro J; apply NB, fnames_bv; exact J).
      rewrite E, BW; [exact E2|]. destruct (Y6 a I) as (y & Ey & Iy). rewrite (rename_target _ _ _ Ey). cbn [target]. apply Y3 in Iy. lia. }
    assert (GRHO : forall a, ~ In a xs -> ~ In a (fnames B) -> get a rhob = get a rf).
    { intros a I J. rewrite (set_lists_get_other _ _ _ _ _ SL) by exact I. apply def_get_other. exact J. }
    assert (CLZ : forall z f1 ft1, In z (fnames B) -> lifted fm z = Some (f1, ft1, args) -> lclo rf B z ft1 args (Vfun r' B' f1)).
    { intros z f1 ft1 I L. eapply lclo_intro; eauto. }
    exists (union_list (union_list sfvs xs) nm), fvm2, fm, g, sc, sd. split; [exact LE|]. split; [|split].
    - (* okexp *)
      split; [exact (NoDup_app_r _ _ _ BV1)|]. split.
      + intros x I. destruct (BV2 x) as [I1 I2]; [apply in_or_app; auto|]. destruct (OK2 x I1) as ((O1 & O2 & O3) & O4 & O5).
        assert (NA : ~ In x args) by (intro J; exact (O3 _ _ _ _ LI J)).
        split; [split; [exact O1|split; [|exact O3]]|].
        * rewrite W2 by exact I2. rewrite Y5 by exact NA. exact O2.
        * split; [destruct O4; [contradiction|assumption]|]. intro F. apply O5. split; [exact I2|]. eapply find_def_free; eauto.
          intro J. exact (NoDup_app_disj _ _ _ _ BV1 J I).
      + intros x F. destruct (in_dec Pos.eq_dec x xs) as [I|I]; [apply XS; exact I|].
        destruct (in_dec Pos.eq_dec x (fnames B)) as [J|J]; [apply OK2, fnames_bv; exact J|].
        apply OK3. split; [exact J|]. eapply find_def_free; eauto.
    - (* okmaps *)
      split; [lia|]. split; [|split; [|exact M3]].
      + intros x i E. destruct (in_dec Pos.eq_dec x (fnames B)) as [J|J].
        * destruct (In_find_def _ _ J) as (t1 & xs1 & e1 & FD1). destruct (W3 _ _ _ _ FD1) as (h & xs' & f1 & ft1 & A1 & _ & _ & _ & _ & A6 & _).
          assert (i = WrapperFun h) by congruence. subst i. cbn [target]. split; [apply OK2, fnames_bv; exact J|]. split; [lia|].
          intros h0 f0 ft0 a0 L0. apply M2 in L0. lia.
        * rewrite W2 in E by exact J. destruct (in_dec Pos.eq_dec x args) as [K0|K0].
          -- destruct (Y6 x K0) as (y & Ey & Iy). assert (i = FreeVar y) by congruence. subst i. cbn [target]. apply Y3 in Iy.
             split; [apply AR; exact K0|]. split; [lia|]. intros h0 f0 ft0 a0 L0. apply M2 in L0. lia.
          -- rewrite Y5 in E by exact K0. destruct (M1 _ _ E) as (A & B1 & C). split; [exact A|]. split; [lia|exact C].
      + intros h0 f0 ft0 a0 L0. destruct (M2 _ _ _ _ L0) as (A & B1 & C). split; [exact A|]. split; [lia|exact C].
    - (* the variables *)
      intros x Fx. destruct (in_dec Pos.eq_dec x xs) as [I|I].
      { destruct (XS x I) as ((O1 & O2 & O3) & GX & NB). destruct (K x) as [K1 _]. destruct (K1 I) as (v & v' & E1 & E2 & V).
        assert (NA : ~ In x args) by (intro J; exact (O3 _ _ _ _ LI J)).
        assert (E : rename fvm2 x = x) by (apply rename_other; rewrite W2 by exact NB; rewrite Y5 by exact NA; exact O2).
        exists v, v'. rewrite E, BW by lia. split; [exact E1|]. split; [exact E2|]. split; [exact V|]. rewrite (lifted_none _ _ GX). discriminate. }
      destruct (in_dec Pos.eq_dec x (fnames B)) as [J|J].
      { destruct (In_find_def _ _ J) as (t1 & xs1 & e1 & FD1). destruct (W3 _ _ _ _ FD1) as (h & xs' & f1 & ft1 & A1 & A2 & A3 & A4 & A5 & A6 & A7).
        assert (GF : get f1 rb = Some (Vfun r' B' f1)).
        { destruct (M2 _ _ _ _ A2) as (_ & B1 & _). rewrite (set_lists_get_other _ _ _ _ _ SB); [|intro I1; apply XS in I1 as ((I1 & _) & _); lia].
          rewrite (set_lists_get_other _ _ _ _ _ SA); [|intro I1; apply Y3 in I1; lia]. apply def_get_in.
          apply (llf_fnames max_args max_push lift_dec args B nm fvm fm g B s B' s' LF AL). eauto. }
        assert (FB : (f1 < nv sa)%positive) by (apply M2 in A2; lia).
        assert (AFR : forall z, In z (rename_lst fvm1 args) -> (z < nv sb)%positive).
        { intros z Iz. unfold rename_lst in Iz. apply in_map_iff in Iz as (a & <- & Ia). destruct (Y6 a Ia) as (y & Ey & Iy).
          rewrite (rename_target _ _ _ Ey). cbn [target]. apply Y3 in Iy. lia. }
        exists (Vfun rf B x), (Vfun rb Bw h). split.
        { rewrite (set_lists_get_other _ _ _ _ _ SL) by exact I. apply def_get_in. exact J. }
        split; [rewrite (rename_target _ _ _ A1); cbn [target]; apply def_get_in; eapply find_def_In; eauto|]. split.
        - eapply lval_wrap with (args := args) (f' := f1); [exact FD1|exact A3|exact A4|exact A5| |exact GF|apply CLZ; auto|].
          + intros z Hz. assert (LZ : (z < nv sb)%positive) by (destruct Hz as [->|Hz]; [lia|auto]).
            split; intro Q; [apply A7 in Q|apply W4 in Q]; lia.
          + clear -R1. unfold rename_lst. induction args as [|a args IH]; cbn [map]; constructor; [apply R1; left; reflexivity|].
            apply IH. intros b Ib. apply R1. right. exact Ib.
        - intros f2 ft2 a2 L2. rewrite A2 in L2. assert (f2 = f1 /\ ft2 = ft1 /\ a2 = args) by (repeat split; congruence).
          destruct H as (-> & -> & ->). exists rf, B, (Vfun r' B' f1). split; [reflexivity|]. split; [rewrite BW by lia; exact GF|].
          split; [apply CLZ; auto|]. intros a Ia. destruct (IN a Ia) as (w & w' & E1 & E2 & V). exists w, w'.
          destruct (AR a Ia) as [_ NB]. rewrite GRHO; [auto| |intro Q; apply NB, fnames_bv; exact Q].
          intro Q. apply NB. apply (BV2 a). apply in_or_app. auto. }
      assert (FF : free_funs x B) by (split; [exact J|]; eapply find_def_free; eauto).
      destruct (HV x FF) as (v & v' & E1 & E2 & V & HL). pose proof (OK3 x FF) as Lx.
      assert (ANY : forall a, (a < N0)%positive -> ~ In a xs -> ~ In a (fnames B) -> (exists w w', get a rf = Some w /\ get (rename fvm a) r' = Some w' /\ lval w w') ->
        exists w w', get a rf = Some w /\ get a rhob = Some w /\ get (rename fvm2 a) (def_funs Bw Bw rb rb) = Some w' /\ lval w w').
      { intros a La Ia Ja (w & w' & Q1 & Q2 & Q3). destruct (in_dec Pos.eq_dec a args) as [Ka|Ka].
        - destruct (IN a Ka) as (w1 & w1' & P1 & P2 & P3). exists w1, w1'. rewrite (GRHO a Ia Ja). auto.
        - destruct (OUT a La Ia Ja Ka) as [_ P]. exists w, w'. rewrite (GRHO a Ia Ja), P. auto. }
      destruct (ANY x Lx I J ltac:(eauto)) as (w & w' & P1 & P2 & P3 & P4). exists w, w'. split; [exact P2|]. split; [exact P3|]. split; [exact P4|].
      intros f2 ft2 a2 L2. destruct (HL _ _ _ L2) as (r0 & B0 & vl & C1 & C2 & C3 & C4). exists r0, B0, vl. split; [congruence|].
      destruct (M2 _ _ _ _ L2) as (_ & B1 & _ & B2). split.
      { rewrite BW by lia. rewrite LOW; [exact C2|lia|lia|]. intro Q. apply FNB in Q as (z & ft0 & Iz & Lz).
        assert (x = z) by (eapply M3; eauto). subst z. contradiction. }
      split; [exact C3|]. intros a Ia. destruct (C4 a Ia) as (u & u' & D1 & D2 & D3 & D4).
      assert (NB : ~ In a (bv_funs B)) by (intro Q; apply OK2 in Q as ((_ & _ & Q) & _); exact (Q _ _ _ _ L2 Ia)).
      destruct (ANY a) as (u1 & u1' & P1' & P2' & P3' & P4'); [auto| | |eauto|].
      { intro Q. apply NB. apply (BV2 a). apply in_or_app. auto. }
      { intro Q. apply NB, fnames_bv. exact Q. }
      exists u1, u1'. split; [exact P2'|]. split; [congruence|]. auto.
  Qed.

  (* running [e2] in [rho2] is running the entered code *)
  Variable cenv : ctor_env.
  Definition leads (rb' : env) (eb' : exp) (rho2 : env) (e2 : exp) : Prop :=
    exists n, forall k r, bstep_fuel cenv rho2 e2 k r -> bstep_fuel cenv rb' eb' (k + n) r.

  Lemma leads_fun rb Bw e : leads rb (Efun Bw e) (def_funs Bw Bw rb rb) e.
  Proof. exists 1. intros k r H. apply BStepf_run. constructor. exact H. Qed.

  Lemma enter_rel vf v' t vs vs' rhob eb : lval vf v' -> Forall2 lval vs vs' -> enter vf t vs = Some (rhob, eb) ->
    exists rb' eb' rho2 e2, enter v' t vs' = Some (rb', eb') /\ leads rb' eb' rho2 e2 /\ entered rhob eb rho2 e2.
  Proof.
    intros V F H. apply enter_spec in H as (rf & B & f & xs & -> & FD & SL).
    inversion V as [| | |rf0 B0 f0 r' B' nm fvm fm g s s' OK M AL LF FI HV|rf0 B0 f0 rw Bw h f' ft' args args' t0 xs0 xs' e0 vl FD0 FDW LX NX SEP GF CL FA]; subst rf0 B0 f0.
    - (* not lifted *)
      destruct (llf_nl_find max_args max_push lift_dec B nm fvm fm g f t xs eb B s B' s' LF AL FD) as (sc & sa & e' & sb & L1 & LE & FD').
      destruct (set_lists_rel lval xs vs vs' _ (def_funs B' B' r' r') rhob F SL) as (rb & SB & K).
      exists rb, e', rb, e'. split; [apply enter_spec; exists r', B', f, xs; auto|]. split; [exists 0; intros k r Hr; rewrite Nat.add_0_r; exact Hr|].
      pose proof M as (M0 & M1 & M2 & M3). pose proof OK as (OK1 & OK2 & OK3). destruct (find_def_bv _ _ _ _ _ FD OK1) as (BV1 & BV2 & _).
      pose proof (llf_nl_fnames max_args max_push lift_dec B nm fvm fm g B s B' s' LF AL) as FN.
      assert (XS : forall x, In x xs -> outside fvm fm x /\ get x fm = None /\ ~ In x (fnames B)).
      { intros x I. destruct (BV2 x) as [I1 I2]; [apply in_or_app; auto|]. destruct (OK2 x I1) as (O1 & O2 & _).
        split; [exact O1|]. split; [destruct O2; [contradiction|assumption]|exact I2]. }
      exists sc, fvm, fm, g, sa, sb. split; [exact LE|]. split; [|split; [eapply okmaps_le; [|exact M]; lia|]].
      + split; [exact (NoDup_app_r _ _ _ BV1)|]. split.
        * intros x I. destruct (BV2 x) as [I1 I2]; [apply in_or_app; auto|]. destruct (OK2 x I1) as (O1 & O4 & O5).
          split; [exact O1|]. split; [destruct O4; [contradiction|assumption]|]. intro Fx. apply O5. split; [exact I2|]. eapply find_def_free; eauto.
          intro J. exact (NoDup_app_disj _ _ _ _ BV1 J I).
        * intros x Fx. destruct (in_dec Pos.eq_dec x xs) as [I|I]; [apply XS; exact I|].
          destruct (in_dec Pos.eq_dec x (fnames B)) as [J|J]; [apply OK2, fnames_bv; exact J|].
          apply OK3. split; [exact J|]. eapply find_def_free; eauto.
      + intros x Fx. destruct (in_dec Pos.eq_dec x xs) as [I|I].
        { destruct (XS x I) as ((O1 & O2 & O3) & GX & NB). destruct (K x) as [K1 _]. destruct (K1 I) as (v & v1 & E1 & E2 & Vv).
          exists v, v1. rewrite (rename_other _ _ O2). split; [exact E1|]. split; [exact E2|]. split; [exact Vv|]. rewrite (lifted_none _ _ GX). discriminate. }
        destruct (in_dec Pos.eq_dec x (fnames B)) as [J|J].
        { assert (O2 : get x fvm = None) by apply (OK2 x (fnames_bv _ _ J)). exists (Vfun rf B x), (Vfun r' B' x).
          rewrite (rename_other _ _ O2). split; [rewrite (set_lists_get_other _ _ _ _ _ SL) by exact I; apply def_get_in; exact J|].
          split; [rewrite (set_lists_get_other _ _ _ _ _ SB) by exact I; apply def_get_in; rewrite FN; exact J|].
          split; [eapply lval_nolift; eauto|]. destruct (AL x J) as (a & b & E). unfold lifted. rewrite E. discriminate. }
        assert (FF : free_funs x B) by (split; [exact J|]; eapply find_def_free; eauto).
        assert (NEW : forall z, ~ In z xs -> ~ In z (fnames B) -> get z rb = get z r').
        { intros z Iz Jz. rewrite (set_lists_get_other _ _ _ _ _ SB) by exact Iz. apply def_get_other. rewrite FN. exact Jz. }
        assert (HIGH : forall z, (N0 <= z)%positive -> get z rb = get z r').
        { intros z Lz. apply NEW; intro Q; [apply XS in Q as ((Q & _) & _); lia|apply fnames_bv, OK2 in Q as ((Q & _) & _); lia]. }
        assert (REN : forall a, (a < N0)%positive -> ~ In a xs -> ~ In a (fnames B) -> get a rhob = get a rf /\ get (rename fvm a) rb = get (rename fvm a) r').
        { intros a La Ia Ja. split; [rewrite (set_lists_get_other _ _ _ _ _ SL) by exact Ia; apply def_get_other; exact Ja|].
          destruct (rename_cases _ _ _ _ _ M La) as [->|[R _]]; [apply NEW; auto|apply HIGH; lia]. }
        eapply vrel_ext; [exact (HV x FF)|reflexivity| |].
        * split; [apply REN; auto|]. intros f2 ft2 a2 L2 a Ia.
          assert (NB : ~ In a (bv_funs B)) by (intro Q; apply OK2 in Q as ((_ & _ & Q) & _); exact (Q _ _ _ _ L2 Ia)).
          apply REN; [apply (M2 _ _ _ _ L2); exact Ia| |intro Q; apply NB, fnames_bv; exact Q].
          intro Q. apply NB. apply (BV2 a). apply in_or_app. auto.
        * intros f2 ft2 a2 L2. apply HIGH. apply M2 in L2. lia.
    - (* a wrapper *)
      rewrite FD in FD0. assert (t0 = t /\ xs0 = xs /\ e0 = eb) as (-> & -> & ->) by (repeat split; congruence). clear FD0.
      assert (LV : length xs' = length vs').
      { apply (eq_trans LX). apply (eq_trans (set_lists_length _ _ _ _ SL)). clear -F. induction F; cbn [length]; congruence. }
      destruct (set_lists_total xs' vs' (def_funs Bw Bw rw rw) LV) as [rb SB].
      assert (GET : forall z, z = f' \/ In z args' -> get z rb = get z rw).
      { intros z Hz. destruct (SEP z Hz) as [S1 S2]. rewrite (set_lists_get_other _ _ _ _ _ SB) by exact S1. apply def_get_other. exact S2. }
      assert (GA : exists ws', get_list args' rb = Some ws' /\ Forall2 (fun a w' => exists w, get a rf = Some w /\ lval w w') args ws').
      { assert (GET' : forall z, In z args' -> get z rb = get z rw) by auto. clear -FA GET'.
        induction FA as [|a a' l l' (w & w' & E1 & E2 & Vw) FA IH]; [exists []; split; [reflexivity|constructor]|].
        destruct IH as (ws' & G & FF); [intros z I; apply GET'; right; exact I|]. exists (w' :: ws'). cbn [get_list].
        rewrite (GET' a') by (left; reflexivity). rewrite E2, G. split; [reflexivity|]. constructor; eauto. }
      destruct GA as (ws' & GA & FW).
      destruct (enter_lifted _ _ _ _ _ _ _ _ _ _ _ ws' _ CL FD SL F FW) as (rb2 & Bw2 & e2 & EN & ENT).
      exists rb, (Eapp f' ft' (xs' ++ args')), (def_funs Bw2 Bw2 rb2 rb2), e2. split.
      { apply enter_spec. exists rw, Bw, h, xs'. auto. }
      split; [|exact ENT]. destruct (leads_fun rb2 Bw2 e2) as [n LD]. exists (n + 1). intros k r Hr. rewrite Nat.add_assoc. apply BStepf_run.
      eapply bstep_app_intro; [rewrite GET by auto; exact GF| |exact EN|apply LD; exact Hr].
      apply get_list_app; [|exact GA]. eapply get_list_set_lists; eauto.
  Qed.

  (* ** Calls *)
  Lemma vrel_list fvm fm rho rho' ys : forall vs, (forall x, In x ys -> vrel fvm fm rho rho' x) -> get_list ys rho = Some vs ->
    exists vs', get_list (rename_lst fvm ys) rho' = Some vs' /\ Forall2 lval vs vs'.
  Proof.
    induction ys as [|y ys IH]; intros vs H G; cbn [get_list] in G.
    - exists []. assert (vs = []) by congruence. subst. split; [reflexivity|constructor].
    - destruct (get y rho) as [v|] eqn:Ey; [|discriminate]. destruct (get_list ys rho) as [vs1|] eqn:E; [|discriminate].
      assert (vs = v :: vs1) by congruence. subst. destruct (H y ltac:(left; reflexivity)) as (v0 & v' & A1 & A2 & A3 & _).
      destruct (IH vs1) as (vs' & B1 & B2); [intros x I; apply H; right; exact I|reflexivity|]. exists (v' :: vs').
      cbn [rename_lst map get_list]. rewrite A2. unfold rename_lst in B1. rewrite B1. split; [reflexivity|]. constructor; [congruence|exact B2].
  Qed.
  Lemma call_rel b g fvm fm rho rho' f t ys h t' zs vf vs rhob eb : okmaps b fvm fm g -> call_to fvm fm f t ys h t' zs ->
    (forall x, x = f \/ In x ys -> vrel fvm fm rho rho' x) -> get f rho = Some vf -> get_list ys rho = Some vs -> enter vf t vs = Some (rhob, eb) ->
    exists vf' vs' rb' eb' rho2 e2, get h rho' = Some vf' /\ get_list zs rho' = Some vs' /\ enter vf' t' vs' = Some (rb', eb') /\
      leads rb' eb' rho2 e2 /\ entered rhob eb rho2 e2.
  Proof.
    intros M CT HV GF GL EN. destruct (HV f ltac:(left; reflexivity)) as (v & v' & A1 & A2 & A3 & A4). assert (v = vf) by congruence. subst v.
    destruct (vrel_list fvm fm rho rho' ys vs ltac:(intros x I; apply HV; right; exact I) GL) as (vs' & B1 & B2).
    destruct CT as [(-> & -> & ->)|(f' & args & L & -> & ->)].
    - destruct (enter_rel _ _ _ _ _ _ _ A3 B2 EN) as (rb' & eb' & rho2 & e2 & C1 & C2 & C3). exists v', vs', rb', eb', rho2, e2. auto.
    - destruct (A4 _ _ _ L) as (r0 & B0 & vl & C1 & C2 & C3 & C4). subst vf. apply enter_spec in EN as (r1 & B1' & f1 & xs & EV & FD & SL).
      assert (r1 = r0 /\ B1' = B0 /\ f1 = f) as (-> & -> & ->) by (repeat split; congruence). clear EV.
      assert (GA : exists ws', get_list (rename_lst fvm args) rho' = Some ws' /\ Forall2 (fun a w' => exists w, get a r0 = Some w /\ lval w w') args ws').
      { clear -C4. induction args as [|a args IH]; [exists []; split; [reflexivity|constructor]|].
        destruct IH as (ws' & G & FF); [intros a' I; apply C4; right; exact I|]. destruct (C4 a ltac:(left; reflexivity)) as (w & w' & _ & E1 & E2 & V).
        exists (w' :: ws'). cbn [rename_lst map get_list]. rewrite E2. unfold rename_lst in G. rewrite G. split; [reflexivity|]. constructor; eauto. }
      destruct GA as (ws' & GA & FW).
      destruct (enter_lifted _ _ _ _ _ _ _ _ _ _ _ ws' _ C3 FD SL B2 FW) as (rb & Bw & e2 & EN & ENT).
      exists vl, (vs' ++ ws'), rb, (Efun Bw e2), (def_funs Bw Bw rb rb), e2.
      rewrite (rename_high _ _ _ _ f' M) by (destruct M as (_ & _ & M2 & _); apply M2 in L; lia).
      split; [exact C2|]. split; [|split; [exact EN|split; [apply leads_fun|exact ENT]]].
      unfold rename_lst. rewrite map_app. apply get_list_app; assumption.
  Qed.

  (* ** A bundle *)
  Lemma lifted_vars_in fvs B a : In a (lifted_vars max_args max_push fvs B) -> In a fvs /\ lifted_vars max_args max_push fvs B = fvs.
  Proof. destruct (lifted_vars_cases max_args max_push fvs B) as [E|E]; rewrite E; [auto|intros []]. Qed.

  (* new maps for a bundle *)
  Lemma fun_maps B e fvm fm g s sfvs fvs lfvs fm' g' sa : okexp fvm fm (Efun B e) -> okmaps (nv s) fvm fm g ->
    sfvs = lift_fvs lift_dec fm g B -> fvs = elements sfvs -> lfvs = lifted_vars max_args max_push fvs B ->
    add_functions B fvs sfvs lfvs fm g s = (fm', g', sa) ->
    okfuns fvm fm' B /\ okmaps (nv sa) fvm fm' g' /\ (nv s <= nv sa)%positive /\
    (forall x, ~ In x (fnames B) -> lifted fm' x = lifted fm x /\ get x fm' = get x fm) /\
    (forall h f' ft' a, lifted fm' h = Some (f', ft', a) -> In h (fnames B) -> a = lfvs) /\
    (forall a, In a lfvs -> (a < N0)%positive /\ ~ In a (bv_funs B) /\ ~ In a (bv e) /\
       (free_funs a B \/ exists h f' ft' args, free_funs h B /\ lifted fm h = Some (f', ft', args) /\ In a args)) /\
    ((all_lift fm' lfvs B /\ forall x, In x (fnames B) -> exists f' ft', lifted fm' x = Some (f', ft', lfvs) /\ (nv s <= f' < nv sa)%positive) \/
     (all_nolift fm' B /\ lfvs = [] /\ B <> Fnil)).
  Proof.
    intros OK M ES EF EL AF. pose proof (okexp_fun_funs _ _ _ _ OK) as (N & OB & OF). pose proof (NoDup_fnames _ N) as NF.
    destruct (add_functions_spec _ _ _ _ _ _ _ _ _ _ AF NF) as (S1 & S2 & S3 & S4 & S5 & S6). pose proof M as (M0 & M1 & M2 & M3).
    assert (ARGS : forall a, In a lfvs -> (a < N0)%positive /\ ~ In a (bv_funs B) /\ ~ In a (bv e) /\
       (free_funs a B \/ exists h f' ft' args, free_funs h B /\ lifted fm h = Some (f', ft', args) /\ In a args)).
    { intros a I. rewrite EL in I. apply lifted_vars_in in I as [I _]. rewrite EF, elements_In, ES in I.
      apply lift_fvs_sound in I as [G I]; [|intros y J; apply OB; exact J].
      destruct OK as (OK1 & OK2 & OK3). cbn [bv] in OK2.
      assert (P : (a < N0)%positive /\ (free_funs a B \/ exists h f' ft' args, free_funs h B /\ lifted fm h = Some (f', ft', args) /\ In a args)).
      { destruct I as [I|(h & f' & ft' & args & F & L & [->|I])]; [split; [apply OF; exact I|auto]| |].
        - exfalso. apply M2 in L as (_ & _ & L & _). congruence.
        - split; [apply (M2 _ _ _ _ L); exact I|]. right. exists h, f', ft', args. auto. }
      destruct P as [P1 P2]. split; [exact P1|].
      assert (NI : ~ In a (bv_funs B ++ bv e)).
      { intro J. destruct (OK2 a J) as (O1 & O2 & O3). destruct P2 as [P2|(h & f' & ft' & args & F & L & P2)].
        - apply O3. apply free_funs_Efun. exact P2.
        - destruct O1 as (_ & _ & O1). exact (O1 _ _ _ _ L P2). }
      split; [intro J; apply NI, in_or_app; auto|]. split; [intro J; apply NI, in_or_app; auto|exact P2]. }
    assert (OLD : forall x, ~ In x (fnames B) -> lifted fm' x = lifted fm x /\ get x fm' = get x fm).
    { intros x I. unfold lifted. rewrite (S2 x I). auto. }
    assert (CASES : (length fvs = length lfvs) \/ (length fvs <> length lfvs)) by (destruct (Nat.eq_dec (length fvs) (length lfvs)); auto).
    assert (NEWA : forall h f' ft' a, lifted fm' h = Some (f', ft', a) -> In h (fnames B) -> a = lfvs /\ (nv s <= f' < nv sa)%positive /\ get f' g' <> None).
    { intros h f' ft' a L I. destruct CASES as [C|C].
      - destruct (S3 C) as [T1 _]. destruct (T1 h I) as (f1 & t1 & E & R & G). rewrite (lifted_get _ _ _ _ _ _ _ E) in L.
        assert (f1 = f' /\ lfvs = a) as [<- <-] by (split; congruence). auto.
      - unfold lifted in L. rewrite (S4 C h I) in L. discriminate. }
    assert (OKF : okfuns fvm fm' B).
    { split; [exact N|]. split; [|exact OF]. intros x I. destruct (OB x I) as ((O1 & O2 & O3) & O4 & O5). split.
      - split; [exact O1|]. split; [exact O2|]. intros h f' ft' args L J. destruct (in_dec Pos.eq_dec h (fnames B)) as [K|K].
        + apply NEWA in L as [-> _]; [|exact K]. destruct (ARGS x J) as (_ & A & _). contradiction.
        + destruct (OLD h K) as [E _]. rewrite E in L. exact (O3 _ _ _ _ L J).
      - split; [|exact O5]. destruct (in_dec Pos.eq_dec x (fnames B)) as [K|K]; [left; exact K|right]. rewrite (S2 x K). exact O4. }
    split; [exact OKF|]. split; [|split; [exact S1|split; [exact OLD|split; [intros h f' ft' a L I; apply (NEWA _ _ _ _ L I)|split; [exact ARGS|]]]]].
    - split; [lia|]. split; [|split].
      + intros x i E. destruct (M1 x i E) as (A & B1 & C). split; [exact A|]. split; [lia|].
        intros h f' ft' args L. destruct (in_dec Pos.eq_dec h (fnames B)) as [K|K].
        * apply NEWA in L as (_ & L & _); [|exact K]. lia.
        * destruct (OLD h K) as [E1 _]. rewrite E1 in L. eapply C; eauto.
      + intros h f' ft' args L. destruct (in_dec Pos.eq_dec h (fnames B)) as [K|K].
        * apply NEWA in L as (-> & L & G); [|exact K]. split; [apply OB, fnames_bv; exact K|]. split; [lia|]. split; [exact G|].
          intros a I. apply ARGS. exact I.
        * destruct (OLD h K) as [E1 _]. rewrite E1 in L. destruct (M2 _ _ _ _ L) as (A & B1 & C & D). split; [exact A|]. split; [lia|]. split; [auto|exact D].
      + intros x y f' t1 a1 t2 a2 L1 L2. destruct (in_dec Pos.eq_dec x (fnames B)) as [K1|K1], (in_dec Pos.eq_dec y (fnames B)) as [K2|K2].
        * destruct CASES as [C|C].
          -- destruct (S3 C) as [_ T2]. eapply T2; eauto.
          -- unfold lifted in L1. rewrite (S4 C x K1) in L1. discriminate.
        * exfalso. apply NEWA in L1 as (_ & L1 & _); [|exact K1]. destruct (OLD y K2) as [E _]. rewrite E in L2. apply M2 in L2. lia.
        * exfalso. apply NEWA in L2 as (_ & L2 & _); [|exact K2]. destruct (OLD x K1) as [E _]. rewrite E in L1. apply M2 in L1. lia.
        * destruct (OLD x K1) as [E1 _]. destruct (OLD y K2) as [E2 _]. rewrite E1 in L1. rewrite E2 in L2. eapply M3; eauto.
    - destruct CASES as [C|C].
      + left. destruct (S3 C) as [T1 _]. split.
        * intros x I. destruct (T1 x I) as (f' & ft' & E & _). exists f', ft', fvs, sfvs. exact E.
        * intros x I. destruct (T1 x I) as (f' & ft' & E & R & _). exists f', ft'. split; [eapply lifted_get; eauto|exact R].
      + right. split; [intros x I; exists fvs, sfvs; apply S4; auto|].
        destruct (lifted_vars_cases max_args max_push fvs B) as [E|E]; rewrite <- EL in E; [exfalso; apply C; congruence|]. split; [exact E|].
        intros ->. apply C. rewrite E, EF, ES. reflexivity.
  Qed.

  Definition rrel (r r' : res val) : Prop :=
    match r, r' with OOT, OOT => True | Res v, Res v' => lval v v' | _, _ => False end.

  Lemma step_after rho1 e1 c0 r k (P : res val -> Prop) : bstep cenv rho1 e1 k r -> c0 <= k -> P r ->
    exists c2 r2, bstep_fuel cenv rho1 e1 c2 r2 /\ c0 + 1 <= c2 /\ P r2.
  Proof. intros B L R. exists (k + 1), r. split; [apply BStepf_run; exact B|]. split; [lia|exact R]. Qed.

  Lemma okexp_body B e fvm fm fvm' fm' lfvs : okexp fvm fm (Efun B e) ->
    (forall x, ~ In x (fnames B) -> get x fvm' = get x fvm) ->
    (forall x, ~ In x (fnames B) -> lifted fm' x = lifted fm x /\ get x fm' = get x fm) ->
    (forall h f' ft' a, lifted fm' h = Some (f', ft', a) -> In h (fnames B) -> a = lfvs) ->
    (forall a, In a lfvs -> ~ In a (bv e)) -> okexp fvm' fm' e.
  Proof.
    intros (N & Bd & C) HF HM HA HL. cbn [bv] in N, Bd. split; [exact (NoDup_app_r _ _ _ N)|]. split.
    - intros x I. destruct (Bd x) as ((X1 & X2 & X3) & X4 & X5); [apply in_or_app; auto|].
      assert (NB : ~ In x (fnames B)) by (intro J; apply fnames_bv in J; exact (NoDup_app_disj _ _ _ _ N J I)).
      destruct (HM x NB) as [E1 E2]. split; [split; [exact X1|split]|].
      + rewrite HF by exact NB. exact X2.
      + intros h f' ft' args L J. destruct (in_dec Pos.eq_dec h (fnames B)) as [K|K].
        * rewrite (HA _ _ _ _ L K) in J. exact (HL _ J I).
        * destruct (HM h K) as [E _]. rewrite E in L. exact (X3 _ _ _ _ L J).
      + rewrite E2. split; [exact X4|]. intro F. apply X5. cbn [free]. auto.
    - intros x F. destruct (in_dec Pos.eq_dec x (fnames B)) as [J|J].
      + apply Bd. apply in_or_app. left. apply fnames_bv. exact J.
      + apply C. cbn [free]. auto.
  Qed.

  Lemma sim : forall c rho e r, bstep_fuel cenv rho e c r ->
    forall sc fvm fm g s e1 s1 rho', ll e sc fvm fm g s = Some (e1, s1) ->
      okexp fvm fm e -> okmaps (nv s) fvm fm g -> (forall x, free x e -> vrel fvm fm rho rho' x) ->
      exists c2 r2, bstep_fuel cenv rho' e1 c2 r2 /\ c <= c2 /\ rrel r r2.
  Proof.
    induction c as [c IH] using lt_wf_ind. intros rho e r HB sc fvm fm g s e1 s1 rho' HC OK M HV.
    apply bstep_fuel_inv in HB as [[-> ->]|(c' & -> & HB)].
    { exists 0, OOT. split; [apply bstep_fuel_zero|]. split; [lia|exact I]. }
    replace (S c') with (c' + 1) in * by lia.
    assert (LT : forall x, free x e -> (x < N0)%positive) by apply OK.
    destruct e as [x t ys e|x l|x t n y e|x f t ys e|B e|f t ys|x p e|x p ys e|x].
    - apply ll_constr in HC as (e' & C1 & ->). inversion HB; subst.
      destruct (okexp_bind x e fvm fm (Econstr x t ys e) eq_refl ltac:(cbn [free]; auto) OK) as (OK' & Ox & Gx).
      destruct (vrel_list fvm fm rho rho' ys vs) as (vs' & A1 & A2); [intros y I; apply HV; cbn [free]; auto|assumption|].
      edestruct (IH c') as (c2 & r2 & D1 & D2 & D3); [lia|eassumption|exact C1|exact OK'|exact M| |].
      { intros z Fz. eapply vrel_set with (v' := Vconstr t vs') (rho' := rho'); [exact M|exact Ox|exact Gx|constructor; exact A2| |].
        - intro D. apply LT. cbn [free]. auto.
        - intro D. apply HV. cbn [free]. auto. }
      eapply step_after; [|exact D2|exact D3]. econstructor; eauto.
    - apply ll_case_inv in HC as (l' & C1 & ->).
      inversion HB as [| |? ? e0 t ? vl ? ? GX CC FT B| | | | |]; subst.
      destruct (okexp_case _ _ _ _ _ _ OK FT) as [OK' FR].
      destruct (pats_find _ _ _ _ _ _ _ _ _ _ _ _ _ C1 FT) as (sa & e1 & sb & P1 & P2 & P4).
      destruct (HV x ltac:(left; reflexivity)) as (v & v' & A1 & A2 & A3 & _).
      assert (v = Vconstr t vl) by congruence. subst v. inversion A3 as [? ? vl' F| | | |]; subst.
      edestruct (IH c') as (c2 & r2 & D1 & D2 & D3); [lia|eassumption|exact P1|exact OK'|eapply okmaps_le; [|exact M]; lia|intros z Fz; apply HV; auto|].
      eapply step_after; [|exact D2|exact D3]. econstructor; [exact A2| |exact P4|exact D1].
      rewrite (pats_tags _ _ _ _ _ _ _ _ _ _ _ _ _ C1). exact CC.
    - apply ll_proj in HC as (e' & C1 & ->).
      inversion HB as [|? vs ? ? ? ? ? v ? ? GX NT B| | | | | |]; subst.
      destruct (okexp_bind x e fvm fm (Eproj x t n y e) eq_refl ltac:(cbn [free]; auto) OK) as (OK' & Ox & Gx).
      destruct (HV y ltac:(left; reflexivity)) as (w & w' & A1 & A2 & A3 & _).
      assert (w = Vconstr t vs) by congruence. subst w. inversion A3 as [? ? vs' F| | | |]; subst.
      destruct (Forall2_nthN _ _ _ _ _ F _ _ NT) as (v' & NT' & V).
      edestruct (IH c') as (c2 & r2 & D1 & D2 & D3); [lia|eassumption|exact C1|exact OK'|exact M| |].
      { intros z Fz. eapply vrel_set with (v' := v') (rho' := rho'); [exact M|exact Ox|exact Gx|exact V| |].
        - intro D. apply LT. cbn [free]. auto.
        - intro D. apply HV. cbn [free]. auto. }
      eapply step_after; [|exact D2|exact D3]. econstructor; eauto.
    - apply ll_letapp in HC as (e' & h & t' & zs & C1 & -> & CT).
      apply bstep_letapp_inv in HB as (vf & vs & rhob & eb & GF & GL & EN & HB).
      destruct (okexp_bind x e fvm fm (Eletapp x f t ys e) eq_refl ltac:(cbn [free]; auto) OK) as (OK' & Ox & Gx).
      destruct (call_rel _ _ _ _ rho rho' _ _ _ _ _ _ vf vs rhob eb M CT ltac:(intros z Hz; apply HV; cbn [free]; destruct Hz; auto) GF GL EN)
        as (vf' & vs' & rb' & eb' & rho2 & e2 & A1 & A2 & A3 & (n & A4) & (scb & fvmb & fmb & gb & sb & sb' & B1 & B2 & B3 & B4)).
      destruct HB as [[-> HB]|(v & c1 & c2 & -> & HB1 & HB2)].
      + edestruct (IH c') as (k & r2 & D1 & D2 & D3); [lia|exact HB|exact B1|exact B2|exact B3|exact B4|].
        destruct r2 as [|]; [|destruct D3]. apply A4 in D1.
        eapply step_after with (k := k + n); [|lia|exact D3]. eapply bstep_letapp_oot_intro; eauto.
      + edestruct (IH c1) as (k & r2 & D1 & D2 & D3); [lia|exact HB1|exact B1|exact B2|exact B3|exact B4|].
        destruct r2 as [|v']; [destruct D3|]. cbn in D3. apply A4 in D1.
        edestruct (IH c2) as (k2 & r2 & E1 & E2 & E3); [lia|exact HB2|exact C1|exact OK'|exact M| |].
        { intros z Fz. eapply vrel_set with (v' := v') (rho' := rho'); [exact M|exact Ox|exact Gx|exact D3| |].
          - intro D. apply LT. cbn [free]. auto.
          - intro D. apply HV. cbn [free]. auto. }
        eapply step_after with (k := (k + n) + k2); [|lia|exact E3]. eapply bstep_letapp_intro; eauto.
    - apply ll_fun in HC as (sfvs & fvs & lfvs & fm' & g' & sa & B' & sb & ob & fvm' & sd & e' & ES & EF & EL & C1 & C2 & C3 & C4 & ->).
      inversion HB; subst r0 B0 e0 rho0 c. 
      destruct (fun_maps _ _ _ _ _ _ _ _ _ _ _ _ OK M ES EF EL C1) as (OKF & M' & L1 & OLD & NEWA & ARGS & CASES).
      pose proof OKF as (OKF1 & OKF2 & OKF3). pose proof M as (M0 & M1 & M2 & M3). pose proof M' as (M0' & M1' & M2' & M3').
      pose proof (proj2 (ll_le max_args max_push lift_dec) _ _ _ _ _ _ _ _ _ C2) as L2. pose proof (make_wrappers_le _ _ _ _ _ _ _ C3) as L3.
      (* the values of the lifted variables *)
      assert (VA : forall a, In a lfvs -> exists w w', get a rho = Some w /\ get (rename fvm a) rho' = Some w' /\ lval w w').
      { intros a I. destruct (ARGS a I) as (_ & _ & _ & [F|(h & f' & ft' & args & F & L & J)]).
        - destruct (HV a (free_funs_Efun _ _ _ F)) as (w & w' & A1 & A2 & A3 & _). eauto.
        - destruct (HV h (free_funs_Efun _ _ _ F)) as (w & w' & A1 & A2 & A3 & A4). destruct (A4 _ _ _ L) as (r0 & B0 & vl & D1 & D2 & D3 & D4).
          destruct (D4 a J) as (u & u' & Q1 & Q2 & Q3 & Q4). eauto. }
      assert (HF : forall x, free_funs x B -> vrel fvm fm' rho rho' x).
      { intros x F. destruct (OLD x (proj1 F)) as [E _]. eapply vrel_ext; [apply HV, free_funs_Efun; exact F|exact E| |reflexivity].
        split; [split; reflexivity|]. intros; split; reflexivity. }
      assert (AB : forall a, In a lfvs -> ~ In a (fnames B)) by (intros a I J; destruct (ARGS a I) as (_ & Q & _); apply Q, fnames_bv; exact J).
      destruct CASES as [[AL NEW]|(AL & EN & NB)].
      + destruct (make_wrappers_lift fvm fm' lfvs B sb AL (NoDup_fnames _ OKF1)) as (Bw & fvm0 & sd0 & MW & W1 & W2 & W3 & W4).
        rewrite C3 in MW. apply some3 in MW as (-> & <- & <-).
        set (rho1 := def_funs B' B' rho' rho'). set (rho2 := def_funs Bw Bw rho1 rho1).
        assert (FNB : forall z, In z (fnames B') <-> exists x ft0, In x (fnames B) /\ lifted fm' x = Some (z, ft0, lfvs))
          by (eapply llf_fnames; eauto).
        assert (LOW : forall z, (z < nv s)%positive -> get z rho2 = get z rho').
        { intros z Lz. unfold rho2. rewrite def_get_other by (intro J; apply W4 in J; lia). unfold rho1. apply def_get_other.
          intro J. apply FNB in J as (x & ft0 & I & L). destruct (NEW x I) as (f' & ft' & L' & R). rewrite L in L'.
          assert (z = f') by congruence. lia. }
        assert (CL : forall x f' ft', In x (fnames B) -> lifted fm' x = Some (f', ft', lfvs) -> lclo rho B x ft' lfvs (Vfun rho' B' f')).
        { intros x f' ft' I L. eapply lclo_intro; eauto. }
        assert (GF : forall x f' ft', In x (fnames B) -> lifted fm' x = Some (f', ft', lfvs) -> get f' rho1 = Some (Vfun rho' B' f') /\ get f' rho2 = Some (Vfun rho' B' f')).
        { intros x f' ft' I L. assert (G : get f' rho1 = Some (Vfun rho' B' f')) by (apply def_get_in; apply FNB; eauto). split; [exact G|].
          unfold rho2. rewrite def_get_other; [exact G|]. intro J. apply W4 in J. apply M2' in L. lia. }
        assert (V1 : forall a, In a lfvs -> exists w w', get a rho = Some w /\ get (rename fvm a) rho1 = Some w' /\ get (rename fvm a) rho2 = Some w' /\ lval w w').
        { intros a I. destruct (VA a I) as (w & w' & A1 & A2 & A3). exists w, w'. pose proof (rename_lt _ _ _ _ _ M (proj1 (ARGS a I))) as RL.
          split; [exact A1|]. rewrite LOW by exact RL. split; [|auto]. rewrite <- A2, <- LOW by exact RL. unfold rho2. symmetry. apply def_get_other.
          intro J. apply W4 in J. lia. }
        assert (OKE : okexp fvm' fm' e) by (eapply okexp_body; [exact OK|exact W2|exact OLD|exact NEWA|intros a I; apply ARGS; exact I]).
        assert (MB : okmaps (nv sd) fvm' fm' g').
        { split; [lia|]. split; [|split; [|exact M3']].
          - intros x i E. destruct (in_dec Pos.eq_dec x (fnames B)) as [J|J].
            + destruct (In_find_def _ _ J) as (t1 & xs1 & e1 & FD1). destruct (W3 _ _ _ _ FD1) as (h & xs' & f1 & ft1 & A1 & _ & _ & _ & _ & A6 & _).
              assert (i = WrapperFun h) by congruence. subst i. cbn [target]. split; [apply OKF2, fnames_bv; exact J|]. split; [lia|].
              intros h0 f0 ft0 a0 L0. apply M2' in L0. lia.
            + rewrite W2 in E by exact J. destruct (M1' _ _ E) as (A & B1 & D). split; [exact A|]. split; [lia|exact D].
          - intros h0 f0 ft0 a0 L0. destruct (M2' _ _ _ _ L0) as (A & B1 & D). split; [exact A|]. split; [lia|exact D]. }
        edestruct (IH c') as (c2 & r2 & D1 & D2 & D3); [lia|eassumption|exact C4|exact OKE|exact MB| |].
        { intros x Fx. instantiate (1 := rho2). destruct (in_dec Pos.eq_dec x (fnames B)) as [J|J].
          - destruct (In_find_def _ _ J) as (t1 & xs1 & e1 & FD1). destruct (W3 _ _ _ _ FD1) as (h & xs' & f1 & ft1 & A1 & A2 & A3 & A4 & A5 & A6 & A7).
            destruct (GF _ _ _ J A2) as [G1 G2]. destruct (M2' _ _ _ _ A2) as (_ & FB & _).
            exists (Vfun rho B x), (Vfun rho1 Bw h). split; [apply def_get_in; exact J|].
            split; [rewrite (rename_target _ _ _ A1); cbn [target]; apply def_get_in; eapply find_def_In; eauto|]. split.
            + eapply lval_wrap with (args := lfvs) (f' := f1); [exact FD1|exact A3|exact A4|exact A5| |exact G1|apply CL; auto|].
              * intros z Hz. assert (LZ : (z < nv sb)%positive).
                { destruct Hz as [->|Hz]; [lia|]. unfold rename_lst in Hz. apply in_map_iff in Hz as (a & <- & Ia).
                  pose proof (rename_lt _ _ _ _ _ M (proj1 (ARGS a Ia))). lia. }
                split; intro Q; [apply A7 in Q|apply W4 in Q]; lia.
              * assert (V1' : forall a, In a lfvs -> exists w w', get a rho = Some w /\ get (rename fvm a) rho1 = Some w' /\ lval w w').
                { intros a Ia. destruct (V1 a Ia) as (w & w' & Q1 & Q2 & _ & Q3). eauto. }
                clear -V1'. unfold rename_lst. induction lfvs as [|a l IHl]; cbn [map]; constructor; [apply V1'; left; reflexivity|].
                apply IHl. intros b Ib. apply V1'. right. exact Ib.
            + intros f2 ft2 a2 L2'. rewrite A2 in L2'. assert (f2 = f1 /\ ft2 = ft1 /\ a2 = lfvs) as (-> & -> & ->) by (repeat split; congruence).
              exists rho, B, (Vfun rho' B' f1). split; [reflexivity|]. split; [exact G2|]. split; [apply CL; auto|].
              intros a Ia. destruct (V1 a Ia) as (w & w' & Q1 & Q2 & Q3 & Q4). exists w, w'.
              rewrite (def_get_other B rho rho a (AB a Ia)). split; [exact Q1|]. split; [exact Q1|].
              rewrite (rename_eq fvm fvm' a) by (apply W2, AB, Ia). auto.
          - assert (F' : free x (Efun B e)) by (cbn [free]; auto). destruct (OLD x J) as [E _].
            assert (REN : forall a, (a < N0)%positive -> ~ In a (fnames B) -> get a (def_funs B B rho rho) = get a rho /\ get (rename fvm' a) rho2 = get (rename fvm a) rho').
            { intros a La Ia. split; [apply def_get_other; exact Ia|]. rewrite (rename_eq fvm fvm' a) by (apply W2; exact Ia). apply LOW. eapply rename_lt; eauto. }
            eapply vrel_ext; [apply HV; exact F'|exact E| |].
            + split; [apply REN; auto|]. intros f' ft' args L a Ia. apply REN; [apply (M2 _ _ _ _ L); exact Ia|].
              intro Q. apply fnames_bv in Q. destruct OK as (_ & OK2 & _). cbn [bv] in OK2.
              destruct (OK2 a ltac:(apply in_or_app; auto)) as ((_ & _ & O) & _). exact (O _ _ _ _ L Ia).
            + intros f' ft' args L. apply LOW. apply M2 in L. lia. }
        exists (c2 + 1 + 1), r2. split; [|split; [lia|exact D3]]. apply BStepf_run. constructor. apply BStepf_run. constructor. exact D1.
      + rewrite (make_wrappers_nolift fvm fm' B sb AL NB) in C3. apply some3 in C3 as (<- & <- & <-).
        pose proof (llf_nl_fnames _ _ _ _ _ _ _ _ _ _ _ _ C2 AL) as FN.
        assert (OKE : okexp fvm fm' e) by (eapply okexp_body; [exact OK|reflexivity|exact OLD|exact NEWA|intros a I; apply ARGS; exact I]).
        set (rho1 := def_funs B' B' rho' rho').
        edestruct (IH c') as (c2 & r2 & D1 & D2 & D3); [lia|eassumption|exact C4|exact OKE|eapply okmaps_le; [|exact M']; lia| |].
        { intros x Fx. instantiate (1 := rho1). destruct (in_dec Pos.eq_dec x (fnames B)) as [J|J].
          - assert (O2 : get x fvm = None) by apply (OKF2 x (fnames_bv _ _ J)). exists (Vfun rho B x), (Vfun rho' B' x).
            rewrite (rename_other _ _ O2). split; [apply def_get_in; exact J|]. split; [apply def_get_in; rewrite FN; exact J|].
            split; [eapply lval_nolift; eauto|]. destruct (AL x J) as (a & b & E). unfold lifted. rewrite E. discriminate.
          - assert (F' : free x (Efun B e)) by (cbn [free]; auto). destruct (OLD x J) as [E _].
            assert (HIGH : forall z, (N0 <= z)%positive -> get z rho1 = get z rho').
            { intros z Lz. apply def_get_other. rewrite FN. intro Q. apply fnames_bv, OKF2 in Q as ((Q & _) & _). lia. }
            assert (REN : forall a, (a < N0)%positive -> ~ In a (fnames B) -> get a (def_funs B B rho rho) = get a rho /\ get (rename fvm a) rho1 = get (rename fvm a) rho').
            { intros a La Ia. split; [apply def_get_other; exact Ia|].
              destruct (rename_cases _ _ _ _ _ M La) as [->|[R _]]; [apply def_get_other; rewrite FN; exact Ia|apply HIGH; lia]. }
            eapply vrel_ext; [apply HV; exact F'|exact E| |].
            + split; [apply REN; auto|]. intros f' ft' args L a Ia. apply REN; [apply (M2 _ _ _ _ L); exact Ia|].
              intro Q. apply fnames_bv in Q. destruct OK as (_ & OK2 & _). cbn [bv] in OK2.
              destruct (OK2 a ltac:(apply in_or_app; auto)) as ((_ & _ & O) & _). exact (O _ _ _ _ L Ia).
            + intros f' ft' args L. apply HIGH. apply M2 in L. lia. }
        eapply step_after; [|exact D2|exact D3]. constructor. exact D1.
    - apply ll_app in HC as (h & t' & zs & -> & -> & CT).
      apply bstep_app_inv in HB as (vf & vs & rhob & eb & GF & GL & EN & HB).
      destruct (call_rel _ _ _ _ rho rho' _ _ _ _ _ _ vf vs rhob eb M CT ltac:(intros z Hz; apply HV; cbn [free]; destruct Hz; auto) GF GL EN)
        as (vf' & vs' & rb' & eb' & rho2 & e2 & A1 & A2 & A3 & (n & A4) & (scb & fvmb & fmb & gb & sb & sb' & B1 & B2 & B3 & B4)).
      edestruct (IH c') as (k & r2 & D1 & D2 & D3); [lia|exact HB|exact B1|exact B2|exact B3|exact B4|]. apply A4 in D1.
      eapply step_after with (k := k + n); [|lia|exact D3]. eapply bstep_app_intro; eauto.
    - inversion HB.
    - inversion HB.
    - apply ll_halt in HC as [-> ->]. inversion HB; subst. destruct (HV x ltac:(reflexivity)) as (w & w' & A1 & A2 & A3 & _).
      assert (w = v) by congruence. subst w. eapply step_after with (r := Res w'); [constructor; exact A2|lia|exact A3].
  Qed.
End Sim.
