(** * The shrink reducer: evaluation of one step *)
From Coq Require Import ZArith NArith PArith List Lia Bool Arith Permutation.
From Verif Require Import ANF_Syntax ANF_Eval ANF_Spec ANF_EvalProofs ANF_FreeProofs ANF_Scope ANF_LR ANF_LRProofs ANF_Subst
  ANF_Alpha CC_Scope Shrink_Census
  Shrink_CensusProofs Shrink_Model Shrink_Total Inline_Model Inline_LetProofs Inline_Syn Inline_Sem Inline_Obs Shrink_Inv Shrink_Env
  Shrink_Bind Shrink_Fold Shrink_Inl Shrink_LetApp.
Import ListNotations.

Lemma same_gets cenv e rho rho' : (forall x, free x e -> get x rho = get x rho') ->
  forall c r, bstep_fuel cenv rho e c r -> exists r', bstep_fuel cenv rho' e c r' /\ same_res cenv r r'.
Proof.
  intro H. apply eqc_env. intros x F k v G. rewrite H in G by auto. exists v. split; [auto|]. apply vrel_refl_eqc.
Qed.

Lemma same_trans cenv r1 r2 r3 : same_res cenv r1 r2 -> same_res cenv r2 r3 -> same_res cenv r1 r3.
Proof.
  destruct r1, r2, r3; cbn; try tauto. intros [H1 H2] [H3 H4]. split.
  - intro k. eapply vrel_eqc_l; [exact H1|apply H3].
  - intro D. specialize (H2 D). subst. auto.
Qed.

(** the second run is no longer than the first, the first at most [A] times as
    long as the second, up to [B] *)
Definition slin (A B : nat) : cost_rel := fun b c1 c2 => lin A B b c1 c2 /\ c2 <= c1.

Lemma slin_weaken A B B' b c1 c2 : B <= B' -> slin A B b c1 c2 -> slin A B' b c1 c2.
Proof. intros L [H1 H2]. split; [eapply lin_weaken; eauto|auto]. Qed.
Lemma slin_step A G B : 1 <= A -> G + 1 <= A + B -> step_ok (slin A G) (slin A B).
Proof.
  intros L1 L2. destruct (lin_step A G B L1 L2) as [Z S]. split; [split; [auto|lia]|].
  intros b c1 c2 [H1 H2]. split; [auto|lia].
Qed.
Lemma slin_let A G B : G + 1 <= A -> let_ok (slin A G) (slin A B) (slin A B).
Proof.
  intros L. destruct (lin_let A G B L) as (Z & T & S). split; [split; [auto|lia]|]. split.
  - intros c1 c2 [H1 H2]. split; [auto|lia].
  - intros c1 c2 b d1 d2 [H1 H2] [H3 H4]. split; [auto|lia].
Qed.

Section Sem.
  Variables (cenv : ctor_env) (A G : nat).
  Hypothesis HA : 1 <= A.
  Hypothesis HAG : G + 1 <= A.
  Notation VR := (vrel cenv (slin A G)).
  Notation ER i := (erel cenv VR (slin A i)).

  Definition sem (n : nat) (sig : subst) (e : exp) (sub : ctx_map) (im : b_map) (P : list fdef) (e' : exp) : Prop :=
    2 * n <= G -> forall k rho1 rho2, envok VR k rho1 rho2 sig (fun w => free w e) sub im P (fun w => free w e') ->
    ER (2 * n) k rho1 e rho2 e'.

  Lemma VR_mono : forall k j v1 v2, j <= k -> VR k v1 v2 -> VR j v1 v2.
  Proof. intros. eapply vrel_mono; eauto. Qed.

  (** a program run for less steps than another one *)
  Lemma ER_later i k rho1 e1 rho2 e2 :
    (forall c r, bstep_fuel cenv rho1 e1 (c + 1) r -> exists rho1' e1',
       ER i k rho1' e1' rho2 e2 /\ bstep_fuel cenv rho1' e1' c r) ->
    ER (i + 2) k rho1 e1 rho2 e2.
  Proof.
    intros H c r L B. inversion B as [? ? ? L0|? ? ? c0 B0]; subst.
    - exists 0, OOT. split; [apply bstep_fuel_zero|]. split; [split; cbn; lia|exact I].
    - destruct (H c0 r B) as (rho1' & e1' & E & B').
      destruct (E c0 r ltac:(lia) B') as (c2 & r2 & B2 & P2 & R2). exists c2, r2. split; [auto|]. split.
      + unfold slin, lin in *. destruct (is_res r); lia.
      + destruct r, r2; cbn in *; auto. eapply VR_mono; [|exact R2]. lia.
  Qed.

  (** like [erel_constr], with the fields of the new value *)
  Lemma erel_constr' i k x t ys1 ys2 e1 e2 rho1 rho2 :
    Forall2 (fun y1 y2 => arel cenv (slin A G) k rho1 y1 rho2 y2) ys1 ys2 ->
    (forall j vs1 vs2, j < k -> get_list ys1 rho1 = Some vs1 -> Forall2 (VR j) vs1 vs2 ->
       ER i j (set x (Vconstr t vs1) rho1) e1 (set x (Vconstr t vs2) rho2) e2) ->
    ER (i + 2) k rho1 (Econstr x t ys1 e1) rho2 (Econstr x t ys2 e2).
  Proof.
    intros AA H c1 r1 C B. inversion B as [? ? ? L0|? ? ? c0 B0]; subst.
    { exists 0, OOT. split; [apply bstep_fuel_zero|]. split; [split; cbn; lia|exact I]. }
    inversion B0; subst.
    edestruct (arel_list cenv (slin A G) k rho1 rho2 ys1 ys2 AA) as (vs2 & G2 & V2); [eassumption|].
    edestruct (H (k - 1)) as (c2 & r2 & B2 & P2 & R2); [|eassumption|eapply Forall2_vrel_mono; [|exact V2]; lia| |eassumption|].
    { lia. } { lia. }
    exists (c2 + 1), r2. split; [|split].
    - apply BStepf_run. econstructor; eauto.
    - unfold slin, lin in *. destruct (is_res r1); nia.
    - replace (k - (c0 + 1)) with (k - 1 - c0) by lia. exact R2.
  Qed.

  Lemma env_arel k rho1 rho2 sig fe sub im P fe' w : envok VR k rho1 rho2 sig fe sub im P fe' ->
    need fe sub im P w -> fe' (apply_r sig w) -> arel cenv (slin A G) k rho1 w rho2 (apply_r sig w).
  Proof. intros E N F v Gv. destruct (E w v N Gv) as [K _]. auto. Qed.

  (** ** a call replaced by the body *)
  Lemma app_inlined n f t ys R sig count sub im P t' xs m e' :
    inve R sig count (Eapp f t ys) sub im P ->
    get_c (apply_r sig f) count = 1 -> get (apply_r sig f) sub = Some (SVfun t' xs m) ->
    get_b (apply_r sig f) im = false -> length ys = length xs ->
    sem n (set_list (combine xs (apply_r_list sig ys)) sig) m sub (set (apply_r sig f) true im) P e' ->
    sem (S n) sig (Eapp f t ys) sub im P e'.
  Proof.
    intros IV C1 Gf Ef Len S LG k rho1 rho2 E. intros c r L B.
    inversion B as [? ? ? L0|? ? ? c0 B0]; subst.
    { exists 0, OOT. split; [apply bstep_fuel_zero|]. split; [split; cbn; lia|exact I]. }
    inversion B0; subst.
    match goal with
    | G1 : get f rho1 = Some _, GL0 : get_list ys rho1 = Some ?vs, FD : find_def _ _ = Some _,
      SL0 : set_lists _ _ _ = Some _, BS0 : bstep_fuel _ _ _ _ _ |- _ =>
      destruct (E f _ ltac:(left; cbn; auto) G1) as [_ K]; rewrite Gf in K; cbn [known] in K;
      destruct (K Ef) as (rhoc & B1 & EV & FD' & HU); injection EV as -> -> ->;
      rewrite FD' in FD; injection FD as -> -> ->; rename GL0 into GL; rename SL0 into SL; rename BS0 into BS
    end.
    pose proof (set_lists_len _ _ _ _ _ SL) as LV.
    destruct (set_lists_ex _ xs0 vs rho1 LV) as (rho1' & SL').
    destruct (same_gets cenv e rho'' rho1') with (c := c0) (r := r) as (r' & BS' & SR); [|exact BS|].
    { intros u Fu. destruct (in_dec Pos.eq_dec u xs0) as [X|X].
      - eapply set_lists_in; eauto.
      - rewrite (set_lists_out _ _ _ _ _ _ SL X), (set_lists_out _ _ _ _ _ _ SL' X). apply HU. split; auto. }
    assert (E1 : envok VR k rho1' rho2 (set_list (combine xs0 (apply_r_list sig ys)) sig) (fun w => free w e) sub
        (set (apply_r sig f) true im) P (fun w => free w e')).
    { eapply (il_env (Eapp f t ys) f ys [] (fun _ => False)); eauto.
      - intro w. cbn. intuition.
      - intro z. lia.
      - exact VR_mono. }
    destruct (S ltac:(lia) k rho1' rho2 E1 c0 r' ltac:(lia) BS') as (c2 & r2 & B2 & P2 & R2).
    exists c2, r2. split; [auto|]. rewrite <- (same_is_res cenv r r' SR) in P2. split.
    - unfold slin, lin in *. destruct (is_res r); lia.
    - eapply (res_eqc_l cenv (slin A G)); [exact SR|]. destruct r', r2; cbn in *; auto. eapply VR_mono; [|exact R2]. lia.
  Qed.

  (** ** a let-bound call replaced by the body *)
  Lemma letapp_inlined n x f t ys e R sig count sub im P t' xs m C x' e' :
    inve R sig count (Eletapp x f t ys e) sub im P ->
    get_c (apply_r sig f) count = 1 -> get (apply_r sig f) sub = Some (SVfun t' xs m) ->
    get_b (apply_r sig f) im = false -> length ys = length xs ->
    inline_letapp m x = Some (C, x') ->
    sem n (set_list (combine xs (apply_r_list sig ys)) sig) (app_ctx_f C (rename_all_ns (set x x' []) e))
      sub (set (apply_r sig f) true im) P e' ->
    sem (S n) sig (Eletapp x f t ys e) sub im P e'.
  Proof.
    intros IV C1 Gf Ef Len IL S LG k rho1 rho2 E.
    set (e1 := app_ctx_f C (rename_all_ns (set x x' []) e)) in *.
    destruct (la_x x f t ys e R sig count sub im P IV t' xs m C1 Gf Ef Len) as (X1 & X2 & X3).
    assert (RN : rename_all_ns (set x x' []) e = rename x' x e).
    { unfold rename. apply (proj1 rename_ns_eq). intros z Z. cbn [get set]. destruct (Pos.eq_dec z x); [congruence|auto]. }
    assert (ND : forall u, free u e -> u <> x -> need (fun w => free w (Eletapp x f t ys e)) sub im P u).
    { intros u F N. left. cbn. auto. }
    assert (LAR : forall rho, _) by (intro rho; refine (letapp_rename cenv m x C x' x e rho IL _ _);
      [intros y F N; split; [auto|]; destruct (i_need _ _ _ _ _ _ _ _ _ IV y (ND y F N)) as [B0 _];
       rewrite (il_bnd _ f ys _ eq_refl R sig count sub im P IV t' xs m C1 Gf Ef Len) in B0; apply cnt_notIn; lia
      |intro J; destruct (letapp_var _ _ _ _ IL) as [K|[K|K]];
        [subst x'; auto
        |apply cnt_In in J, K; pose proof (la_uniq x f t ys e R sig count sub im P IV t' xs m C1 Gf Ef Len x') as UQ;
         rewrite cnt_cons in UQ; lia
        |destruct (il_fm _ f R sig count sub im P IV t' xs m Gf Ef x' K) as [Nd|X];
          [destruct (i_need _ _ _ _ _ _ _ _ _ IV x' Nd) as [B0 _];
           rewrite (il_bnd _ f ys _ eq_refl R sig count sub im P IV t' xs m C1 Gf Ef Len) in B0; apply cnt_In in J;
           cbn [bv] in B0; rewrite cnt_cons in B0; lia
          |apply cnt_In in J, X; pose proof (la_uniq x f t ys e R sig count sub im P IV t' xs m C1 Gf Ef Len x') as UQ;
         rewrite cnt_cons in UQ; lia]]]).
    rewrite <- RN in LAR. fold e1 in LAR.
    assert (HE : forall rho1' vs, get_list ys rho1 = Some vs -> set_lists xs vs rho1 = Some rho1' -> ER (2 * n) k rho1' e1 rho2 e').
    { intros rho1' vs GL SL. apply S; [lia|].
      eapply (il_env (Eletapp x f t ys e) f ys (x :: bv e) (fun w => w <> x /\ free w e)); eauto.
      - apply la_HF.
      - eapply la_bv; eauto.
      - eapply la_free; eauto.
      - exact VR_mono. }
    intros c r L B. inversion B as [? ? ? L0|? ? ? c0 B0]; subst.
    { exists 0, OOT. split; [apply bstep_fuel_zero|]. split; [split; cbn; lia|exact I]. }
    inversion B0; subst;
    (match goal with
    | G1 : get f rho1 = Some _, GL0 : get_list ys rho1 = Some ?vs, FD : find_def _ _ = Some _,
      SL0 : set_lists _ _ _ = Some _, BS : bstep_fuel _ ?rr ?ee _ _ |- _ =>
      destruct (E f _ ltac:(left; cbn; auto) G1) as [_ K]; rewrite Gf in K; cbn [known] in K;
      destruct (K Ef) as (rhoc & B1 & EV & FD' & HU); injection EV as -> -> ->;
      rewrite FD' in FD; injection FD as -> -> ->; rename GL0 into GL; rename SL0 into SL
    end;
    pose proof (set_lists_len _ _ _ _ _ SL) as LV;
    destruct (set_lists_ex _ xs0 vs rho1 LV) as (rho1' & SL'); specialize (HE rho1' vs GL SL');
    assert (SG : forall u, free u e_body -> get u rho'' = get u rho1');
    [intros u Fu; destruct (in_dec Pos.eq_dec u xs0) as [X|X];
      [eapply set_lists_in; eauto
      |rewrite (set_lists_out _ _ _ _ _ _ SL X), (set_lists_out _ _ _ _ _ _ SL' X); apply HU; split; auto]|];
    destruct (LAR rho1') as [LA1 LA2]).
    - match goal with BS1 : bstep_fuel cenv rho'' e_body ?ca (Res ?v), BS2 : bstep_fuel cenv (set x ?v rho1) e ?cb r |- _ =>
        destruct (same_gets cenv _ _ _ SG _ _ BS1) as ([|v'] & BS1' & SR); [destruct SR|]; destruct SR as [SR _];
        destruct (LA1 ca v' BS1') as (c0 & LC & LA3 & _);
        destruct (eqc_env cenv e (set x v rho1) (set x v' rho1')) with (c := cb) (r := r) as (r2 & BS3 & SR2); [|exact BS2|]
      end.
      { intros u Fu j w Gw. rewrite get_set in *. destruct (Pos.eq_dec u x) as [->|N].
        - injection Gw as <-. exists v'. split; [auto|apply SR].
        - exists w. split; [|apply vrel_refl_eqc]. rewrite (set_lists_out _ _ _ _ _ _ SL'); [auto|].
          exact (proj1 (il_nd _ f ys _ eq_refl R sig count sub im P IV _ xs0 e_body C1 Gf Ef Len u (ND u Fu N))). }
      destruct (LA3 _ _ BS3) as (r3 & BS4 & SR3).
      pose proof (same_trans cenv _ _ _ SR2 SR3) as SR4.
      edestruct HE as (c3 & r4 & B4 & P4 & R4); [|exact BS4|]; [lia|].
      exists c3, r4. split; [auto|]. rewrite <- (same_is_res cenv r r3 SR4) in P4. split.
      + unfold slin, lin in *. destruct (is_res r); lia.
      + eapply (res_eqc_l cenv (slin A G)); [exact SR4|]. destruct r3, r4; cbn in *; auto. eapply VR_mono; [|exact R4]. lia.
    - match goal with BS1 : bstep_fuel cenv rho'' e_body ?ca OOT |- _ =>
        destruct (same_gets cenv _ _ _ SG _ _ BS1) as ([|v'] & BS1' & SR); [|destruct SR];
        pose proof (LA2 ca BS1') as BS2 end.
      edestruct HE as (c3 & r4 & B4 & P4 & R4); [|exact BS2|]; [lia|]. exists c3, r4. split; [auto|].
      split; [unfold slin, lin in *; cbn in *; lia|destruct r4; cbn in *; auto].
  Qed.
End Sem.
