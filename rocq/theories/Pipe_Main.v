(** * The LambdaANF pipeline on whole programs: total, names, behaviour *)
From Coq Require Import ZArith NArith PArith List Lia Bool Arith String Permutation.
From Verif Require Import ANF_Syntax ANF_Eval ANF_Spec ANF_Scope ANF_EvalProofs ANF_FreeProofs ANF_LR ANF_LRProofs
  CC_Spec LL_Spec UC_Spec Hoist_Spec Hoist_Proofs Comp_Model Pipe_Model Pipe_Spec Pipe_Steps Pipe_DPE.
From Verif Require Inline_Model Shrink_Model UC_Model LL_Model CC_Model Hoist_Model DPE_Model DPE_Spec DPE_Proofs
  CC_Top Inline_Sem Inline_Syn Properties_Inline Shrink_Top Shrink_Total Properties_ShrinkPass Properties_Uncurry Properties_LambdaLift Properties_Closure
  Properties_DPE Properties_Comp.
Import ListNotations.

(** ** Each kind of value relation keeps the tree *)
Lemma Forall2_map_rel {A B} (R S : A -> B -> Prop) l l' : Forall2 R l l' -> Forall (fun a => forall b, R a b -> S a b) l -> Forall2 S l l'.
Proof. intros F. induction F; intro G; inversion G; subst; constructor; auto. Qed.

Lemma shape_tree : forall v v', same_shape v v' -> tree_like v v'.
Proof.
  apply (val_ind2 (fun v => forall v', same_shape v v' -> tree_like v v')).
  - intros t vs F v' H. inversion H; subst. constructor. eapply Forall2_map_rel; eauto.
  - intros rho B f _ v' H. inversion H; subst. constructor.
  - intros p v' H. inversion H; subst. constructor.
  - intros p v' H. inversion H; subst. constructor.
Qed.

Lemma kind_tree : forall v v', same_kind v v' -> tree_like v v'.
Proof.
  apply (val_ind2 (fun v => forall v', same_kind v v' -> tree_like v v')).
  - intros t vs F v' H. inversion H; subst. constructor. eapply Forall2_map_rel; eauto.
  - intros rho B f _ v' H. inversion H; subst. constructor.
  - intros p v' H. inversion H; subst. constructor.
  - intros p v' H. inversion H; subst. constructor.
Qed.

Lemma hval_tree e0 B0 rho0 : forall v v', hval e0 B0 rho0 v v' -> tree_like v v'.
Proof.
  apply (val_ind2 (fun v => forall v', hval e0 B0 rho0 v v' -> tree_like v v')).
  - intros t vs F v' H. inversion H; subst. constructor. eapply Forall2_map_rel; eauto.
  - intros rho B f _ v' H. inversion H; subst; constructor.
  - intros p v' H. inversion H; subst. constructor.
  - intros p v' H. inversion H; subst. constructor.
Qed.

Lemma dval_tree K B0 B1 rho0 : forall v v', DPE_Spec.dval K B0 B1 rho0 v v' -> tree_like v v'.
Proof.
  apply (val_ind2 (fun v => forall v', DPE_Spec.dval K B0 B1 rho0 v v' -> tree_like v v')).
  - intros t vs F v' H. inversion H; subst. constructor. eapply Forall2_map_rel; eauto.
  - intros rho B f _ v' H. inversion H; subst; constructor.
  - intros p v' H. inversion H; subst. constructor.
  - intros p v' H. inversion H; subst. constructor.
Qed.

Lemma same_val_compiled clo : forall v v', same_val clo v v' -> compiled clo v v'.
Proof.
  apply (val_ind2 (fun v => forall v', same_val clo v v' -> compiled clo v v')).
  - intros t vs F v' H. inversion H; subst. constructor. eapply Forall2_map_rel; eauto.
  - intros rho B f _ v' H. inversion H; subst. constructor.
  - intros p v' H. inversion H; subst. constructor.
  - intros p v' H. inversion H; subst. constructor.
Qed.

(** ** Names between passes *)
Record good (lo : positive) (c : comp_data) (e : exp) : Prop := {
  g_once : NoDup (bv e);
  g_closed : forall x, ~ free x e;
  g_above : forall x, In x (bv e) -> (lo <= x)%positive;
  g_below : forall x, In x (bv e) -> (x < next_var c)%positive;
  g_lo : (lo <= next_var c)%positive;
  g_one : (1 < next_var c)%positive }.

Lemma good_below lo c e : good lo c e -> below (next_var c) e.
Proof. intros [A B C D E F] x [I|I]; [auto|destruct (B x I)]. Qed.
Lemma good_separate lo c e : good lo c e -> forall x, In x (bv e) -> ~ free x e.
Proof. intros G x _. apply (g_closed _ _ _ G). Qed.

(** ** Passes that leave constructors as they are *)
Definition same_tables (c c' : comp_data) : Prop := cenv c' = cenv c /\ nect_ctor_tag c' = nect_ctor_tag c.

Definition keeps (lo lo' : positive) (p : anf_trans) : Prop := forall e c, good lo c e ->
  exists e' c', p e c = (Ret e', c') /\ good lo' c' e' /\ same_tables c c' /\ implements tree_like (cenv c) e (cenv c') e'.

Lemma keeps_id lo : keeps lo lo id_trans.
Proof. intros e c G. exists e, c. split; [reflexivity|]. split; [auto|]. split; [split; auto|]. apply implements_refl. Qed.

Lemma erel_implements cenv A B PG e e' :
  (forall k, ANF_LR.erel cenv (ANF_LR.vrel cenv PG) (ANF_LRProofs.lin A B) k [] e [] e') -> implements tree_like cenv e cenv e'.
Proof.
  intro H. apply implements_intro; [|exact (adequacy_div cenv _ _ _ _ _ _ _ H)].
  intros c v BS. destruct (adequacy_res cenv _ _ _ _ _ _ _ H c v BS) as (c' & v' & B' & V & _).
  exists c', v'. split; [auto|]. eapply vrel_tree; eauto.
Qed.

Lemma shrunk_ok e : NoDup (bv e) -> (forall x, In x (bv e) -> ~ free x e) ->
  NoDup (bv (shrunk e)) /\ (forall x, In x (bv (shrunk e)) -> In x (bv e)) /\ (forall x, free x (shrunk e) -> free x e) /\
  forall cenv, implements tree_like cenv e cenv (shrunk e).
Proof.
  intros ND FR. unfold shrunk. destruct (Shrink_Model.shrink_top e) as [[e' s]|] eqn:H; [|destruct (Shrink_Total.shrink_total e H)].
  destruct (Shrink_Top.shrink_top_contract e e' s H) as (c & c' & im' & HC & HK).
  destruct (Shrink_Top.pass_names _ _ _ _ _ _ _ ND FR HC HK) as (A1 & A2 & A3 & _).
  split; [auto|]. split; [auto|]. split; [auto|]. intro cenv.
  eapply erel_implements. intro k. apply Shrink_Top.erel_slin_lin.
  exact (Shrink_Top.pass_sem _ _ _ _ _ _ _ ND FR HC HK cenv [] k).
Qed.

Lemma good_shrunk lo c e : good lo c e -> good lo c (shrunk e).
Proof.
  intros G. destruct (shrunk_ok e (g_once _ _ _ G) (good_separate _ _ _ G)) as (A1 & A2 & A3 & _).
  destruct G as [B1 B2 B3 B4 B5 B6]. constructor; auto. intros x F. apply (B2 x). auto.
Qed.

Lemma keeps_shrink lo : keeps lo lo shrink_err.
Proof.
  intros e c G. exists (shrunk e), c. split; [reflexivity|]. split; [apply good_shrunk; auto|]. split; [split; auto|].
  apply shrunk_ok; [apply (g_once _ _ _ G)|eapply good_separate; eauto].
Qed.

Lemma keeps_uncurry lo cps : keeps lo lo (UC_Model.uncurry_proto_top cps).
Proof.
  intros e c G. destruct (proj2 (Properties_Uncurry.C55_total cps e c)) as (e' & c' & H).
  { split; [apply (g_one _ _ _ G)|]. intros x I. apply (good_below _ _ _ G). exact I. }
  exists e', c'. split; [auto|].
  destruct (Properties_Uncurry.C55_names _ _ _ _ _ H) as (N1 & N2 & N3 & N4 & N5).
  destruct (Properties_Uncurry.C55_tables _ _ _ _ _ H) as (T1 & T2 & _).
  destruct (Properties_Uncurry.C55_preserves _ _ _ _ _ H (cenv c) [] []) as (P1 & P2 & _).
  { intros x F. destruct (g_closed _ _ _ G x F). }
  destruct G as [A1 A2 A3 A4 A5 A6]. split; [constructor|split; [split; auto|]].
  - apply N5. exact A1.
  - intros x F. apply (A2 x). auto.
  - intros x I. destruct (Pos.ltb_spec x (next_var c)) as [L|L]; [apply A3; apply N4; auto|lia].
  - intros x I. apply N3. auto.
  - lia.
  - lia.
  - rewrite T1. apply implements_intro; [|exact P2]. intros k v B. destruct (P1 k v B) as (k' & v' & B' & _ & S & _).
    exists k', v'. split; [auto|]. apply shape_tree. exact S.
Qed.

Lemma inline_top_good St (IH : InlineHeuristic St) mv d s e c lo e' c' b : good lo c e ->
  inline_top' St IH mv d s e c = (Ret e', c', b) ->
  good (mv + 1) c' e' /\ same_tables c c' /\ implements tree_like (cenv c) e (cenv c') e'.
Proof.
  intros G. unfold inline_top'.
  destruct (Inline_Model.inline_top' St IH mv d s e) as [e1 w1] eqn:E. intro H. injection H as -> <- <-.
  pose proof (Properties_Inline.inline_top_sem St IH mv d s e (g_once _ _ _ G) (good_separate _ _ _ G)) as SM.
  rewrite E in SM. cbn [fst] in SM.
  split; [|split; [split; reflexivity|cbn [cenv]; eapply erel_implements; intro k; apply SM]].
  destruct (Properties_Inline.restart_above mv e) as [RA RB].
  unfold Inline_Model.inline_top' in E.
  destruct (Inline_Syn.inline_syn St IH d _ _ _ _ _ _ _ _ E) as (A1 & A2 & A3 & A4).
  - apply Properties_Inline.below_top.
  - apply Inline_Sem.NoDup_bundles. apply (g_once _ _ _ G).
  - intros f t xs b0 K. discriminate.
  - cbn [Inline_Model.next_var] in *. constructor; cbn [next_var]; auto; try lia.
    + intros x F. destruct (A4 x F) as (y & [Fy|(f & dd & K & _)] & ->); [|discriminate].
      destruct (g_closed _ _ _ G y Fy).
    + intros x I. apply A3 in I. lia.
    + intros x I. apply A3 in I. lia.
Qed.

Lemma keeps_inline_top St (IH : InlineHeuristic St) mv d (s : comp_data -> St) lo : keeps lo (mv + 1) (fun e c => inline_top St IH mv d (s c) e c).
Proof.
  intros e c G. unfold inline_top. destruct (inline_top' St IH mv d (s c) e c) as [[r c'] b] eqn:E.
  assert (exists e', r = Ret e') as [e' ->].
  { unfold inline_top' in E. destruct (Inline_Model.inline_top' St IH mv d (s c) e). injection E as <- _ _. eauto. }
  exists e', c'. split; [auto|]. eapply inline_top_good; eauto.
Qed.

Lemma keeps_inline_loop St (IH : InlineHeuristic St) mv d s : forall fuel, keeps (mv + 1) (mv + 1) (fun e c => inline_loop_aux St IH mv fuel d s e c).
Proof.
  induction fuel as [|fuel IHf]; [exact (keeps_id _)|].
  intros e c G. cbn [inline_loop_aux]. destruct (inline_top' St IH mv d s e c) as [[r c'] b] eqn:E.
  assert (exists e', r = Ret e') as [e' ->].
  { unfold inline_top' in E. destruct (Inline_Model.inline_top' St IH mv d s e). injection E as <- _ _. eauto. }
  destruct (inline_top_good _ _ _ _ _ _ _ _ _ _ _ G E) as (G' & T' & I').
  pose proof (good_shrunk _ _ _ G') as G2.
  assert (I2 : implements tree_like (cenv c) e (cenv c') (shrunk e')).
  { eapply implements_trans; [exact tree_like_trans|exact I'|].
    apply shrunk_ok; [apply (g_once _ _ _ G')|eapply good_separate; eauto]. }
  destruct b; [|exists (shrunk e'), c'; auto].
  destruct (IHf _ _ G2) as (e3 & c3 & H3 & G3 & T3 & I3). exists e3, c3.
  split; [auto|]. split; [auto|]. split.
  - destruct T' as [T1 T2], T3 as [T4 T5]. split; congruence.
  - eapply implements_trans; [exact tree_like_trans|exact I2|exact I3].
Qed.

Lemma keeps_lambda_lift lo a p i : keeps lo lo (lambda_lift a p i).
Proof.
  intros e c G. unfold lambda_lift. set (s := LL_Model.mkl (next_var c) (next_fun_tag c) (fenv c)).
  destruct (Properties_LambdaLift.C67_total a p i e s) as (e' & s' & H). rewrite H.
  eexists _, _. split; [reflexivity|].
  assert (BL : below (LL_Model.lv_var s) e) by exact (good_below _ _ _ G).
  destruct (Properties_LambdaLift.C67_names _ _ _ _ _ _ _ H (g_once _ _ _ G) (good_separate _ _ _ G) BL) as (N1 & N2 & N3 & N4 & N5 & N6).
  destruct (Properties_LambdaLift.C67_preserves _ _ _ _ _ _ _ H (g_once _ _ _ G) (good_separate _ _ _ G) BL (cenv c) [] []) as (P1 & P2 & _).
  { intros x F. destruct (g_closed _ _ _ G x F). }
  destruct G as [A1 A2 A3 A4 A5 A6]. cbn [LL_Model.lv_var s] in N5, N6.
  split; [constructor; cbn [next_var]|split; [split; auto|]].
  - exact N2.
  - intros x F. apply (A2 x). auto.
  - intros x I. destruct (N6 x I) as [I'|I']; [auto|lia].
  - intros x I. apply N4. auto.
  - lia.
  - lia.
  - cbn [cenv]. apply implements_intro; [|exact P2]. intros k v B. destruct (P1 k v B) as (k' & v' & B' & _ & S & _).
    exists k', v'. split; [auto|]. apply kind_tree. exact S.
Qed.

Lemma keeps_DPE lo : keeps lo lo DPE.
Proof.
  intros e c G. unfold DPE. destruct (DPE_Model.DPE e _) as [e' s'] eqn:H.
  eexists _, _. split; [reflexivity|].
  destruct (dpe_names _ _ _ _ H (g_once _ _ _ G)) as (N1 & N2 & N3).
  destruct (Properties_DPE.C29_dpe_preserves (cenv c) [] _ _ _ _ H (g_once _ _ _ G)) as (P1 & _ & P2 & _).
  destruct G as [A1 A2 A3 A4 A5 A6].
  split; [constructor; cbn [next_var]; auto|split; [split; auto|]].
  - intros x F. apply (A2 x). auto.
  - cbn [cenv]. apply implements_intro; [|exact P2]. intros k v B. destruct (P1 k v B) as (v' & B' & S & _).
    exists k, v'. split; [auto|]. unfold Properties_DPE.dpe_val in S.
    destruct e, e'; try (subst; apply tree_like_refl). eapply dval_tree; eauto.
Qed.

(** ** Closure conversion *)
Definition tables (clo : ctor_tag) (c : comp_data) : Prop :=
  tags_below (nect_ctor_tag c) (cenv c) /\ (clo < nect_ctor_tag c)%positive /\ get clo (cenv c) = None.

Lemma cc_good lo clo cloi e c : good lo c e -> tables clo c ->
  exists e' c', closure_conversion_hoist clo cloi e c = (Ret e', c') /\ good lo c' e' /\
    (forall t i, get t (cenv c) = Some i -> get t (cenv c') = Some i) /\ tags_below (nect_ctor_tag c') (cenv c') /\
    implements (compiled clo) (cenv c) e (cenv c') e'.
Proof.
  intros G (T1 & T2 & T3). unfold closure_conversion_hoist.
  set (s := CC_Model.mkst (next_var c) (nect_ctor_tag c) (next_ind_tag c) (cenv c)).
  destruct (CC_Model.closure_conversion_top clo cloi e s) as [e' s'] eqn:H.
  eexists _, _. split; [reflexivity|].
  assert (BL : below (CC_Model.nv s) e) by exact (good_below _ _ _ G).
  destruct (Properties_Closure.C28_unique _ _ _ _ _ _ H (g_once _ _ _ G) BL) as (U1 & U2 & U3).
  pose proof (Properties_Closure.C28_hoistable _ _ _ _ _ _ H (g_once _ _ _ G) BL (fun x F => False_ind _ (g_closed _ _ _ G x F))) as HO.
  destruct (Properties_Closure.C28_tables _ _ _ _ _ _ H T1 T2 T3) as (S1 & S2 & _).
  destruct (Properties_Closure.C28_then_hoist _ _ _ _ _ _ H (g_once _ _ _ G) BL (g_closed _ _ _ G) T1 T2 T3) as (P1 & P2 & _).
  assert (CL : forall x, ~ free x e').
  { intros x F. apply (g_closed _ _ _ G x). eapply Properties_Closure.C28_no_new_free; eauto. }
  assert (LE : (next_var c <= CC_Model.nv s')%positive).
  { apply Pos.lt_le_incl; exact (CC_Top.top_nv _ _ _ _ _ _ H). }
  pose proof (bv_hoist e') as BH.
  destruct G as [A1 A2 A3 A4 A5 A6].
  split; [constructor; cbn [next_var]|split; [exact S1|split; [exact S2|]]].
  - apply (Permutation_NoDup (Permutation_sym BH)). exact U1.
  - apply hoist_closed; auto.
  - intros x I. apply (Permutation_in _ BH) in I. destruct (Pos.ltb_spec x (next_var c)) as [L|L]; [apply A3; apply U3; auto|lia].
  - intros x I. apply (Permutation_in _ BH) in I. apply U2. auto.
  - lia.
  - lia.
  - cbn [cenv]. apply implements_intro; [|exact P2]. intros k v B. destruct (P1 k v B) as (k' & v' & B' & (w & V1 & V2) & _).
    exists k', v'. split; [exact B'|]. eapply compiled_post; [apply same_val_compiled; exact V1|eapply hval_tree; exact V2].
Qed.

(** ** Passes one after the other *)
Lemma keeps_bind lo1 lo2 lo3 (p q : anf_trans) : keeps lo1 lo2 p -> keeps lo2 lo3 q -> keeps lo1 lo3 (fun e => abind (p e) q).
Proof.
  intros HP HQ e c G. destruct (HP e c G) as (e1 & c1 & H1 & G1 & [T1 T1'] & I1).
  destruct (HQ e1 c1 G1) as (e2 & c2 & H2 & G2 & [T2 T2'] & I2). exists e2, c2.
  split; [unfold abind; rewrite H1; exact H2|]. split; [auto|]. split; [split; congruence|].
  eapply implements_trans; [exact tree_like_trans|exact I1|exact I2].
Qed.

Lemma keeps_time lo1 lo2 opts n (p : anf_trans) : keeps lo1 lo2 p -> keeps lo1 lo2 (time_anf opts n p).
Proof. intros HP e c G. unfold time_anf, timePhase. destruct (o_time opts); apply HP; exact G. Qed.

Lemma keeps_if lo1 lo2 (b : bool) (p q : anf_trans) : keeps lo1 lo2 p -> keeps lo1 lo2 q -> keeps lo1 lo2 (fun e => if b then p e else q e).
Proof. intros HP HQ. destruct b; auto. Qed.

Definition converts (clo : ctor_tag) (lo lo' : positive) (p : anf_trans) : Prop := forall e c, good lo c e -> tables clo c ->
  exists e' c', p e c = (Ret e', c') /\ good lo' c' e' /\
    (forall t i, get t (cenv c) = Some i -> get t (cenv c') = Some i) /\ tags_below (nect_ctor_tag c') (cenv c') /\
    implements (compiled clo) (cenv c) e (cenv c') e'.

Lemma converts_pre clo lo1 lo2 lo3 (p q : anf_trans) : keeps lo1 lo2 p -> converts clo lo2 lo3 q -> converts clo lo1 lo3 (fun e => abind (p e) q).
Proof.
  intros HP HQ e c G T. destruct (HP e c G) as (e1 & c1 & H1 & G1 & [T1 T1'] & I1).
  assert (T' : tables clo c1). { unfold tables. rewrite T1, T1'. exact T. }
  destruct (HQ e1 c1 G1 T') as (e2 & c2 & H2 & G2 & X2 & B2 & I2). exists e2, c2.
  split; [unfold abind; rewrite H1; exact H2|]. split; [auto|]. split; [rewrite <- T1; auto|]. split; [auto|].
  eapply implements_trans; [exact (compiled_pre clo)|exact I1|exact I2].
Qed.

Lemma converts_post clo lo1 lo2 lo3 (p q : anf_trans) : converts clo lo1 lo2 p -> keeps lo2 lo3 q -> converts clo lo1 lo3 (fun e => abind (p e) q).
Proof.
  intros HP HQ e c G T. destruct (HP e c G T) as (e1 & c1 & H1 & G1 & X1 & B1 & I1).
  destruct (HQ e1 c1 G1) as (e2 & c2 & H2 & G2 & [T2 T2'] & I2). exists e2, c2.
  split; [unfold abind; rewrite H1; exact H2|]. split; [auto|]. rewrite T2, T2'. split; [auto|]. split; [auto|].
  rewrite T2 in I2. eapply implements_trans; [exact (compiled_post clo)|exact I1|exact I2].
Qed.

Lemma converts_time clo lo1 lo2 opts n (p : anf_trans) : converts clo lo1 lo2 p -> converts clo lo1 lo2 (time_anf opts n p).
Proof. intros HP e c G T. unfold time_anf, timePhase. destruct (o_time opts); apply HP; auto. Qed.

Lemma pipeline_converts lo nv opts : converts clo_tag lo (nv + 1) (anf_pipeline passes nv opts).
Proof.
  unfold anf_pipeline. cbn [passes Comp_Model.shrink_err Comp_Model.uncurry_top Comp_Model.inline_uncurry
    Comp_Model.inline_shrink_loop Comp_Model.lambda_lift Comp_Model.closure_conversion_hoist Comp_Model.DPE Comp_Model.inline_lifted].
  eapply converts_pre; [apply keeps_time, keeps_shrink|].
  eapply converts_pre; [apply keeps_time, keeps_uncurry|].
  eapply converts_pre; [apply keeps_time; exact (keeps_inline_top _ _ nv 100 (fun c => ([], inline_map c)) lo)|].
  eapply converts_pre; [apply keeps_if; [apply keeps_time; exact (keeps_inline_loop _ _ nv 100 [] 1000)|apply keeps_id]|].
  eapply converts_pre; [apply keeps_if; [apply keeps_time, keeps_lambda_lift|apply keeps_id]|].
  eapply converts_pre; [apply keeps_time, keeps_shrink|].
  eapply converts_post; [apply converts_time; intros e c; apply cc_good|].
  eapply keeps_bind; [apply keeps_time, keeps_shrink|].
  eapply keeps_bind; [apply keeps_if; [apply keeps_time; exact (keeps_inline_loop _ _ nv 100 [] 1000)|apply keeps_id]|].
  eapply keeps_bind; [apply keeps_if; [apply keeps_time, keeps_DPE|apply keeps_id]|].
  eapply keeps_bind; [apply keeps_time, keeps_shrink|].
  eapply keeps_bind; [apply keeps_if; [apply keeps_time; exact (keeps_inline_top _ _ nv 1000 (fun _ => []) (nv + 1))|apply keeps_id]|].
  exact (keeps_id _).
Qed.
