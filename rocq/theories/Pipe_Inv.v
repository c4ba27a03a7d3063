(** * The pipeline brings no new shapes, and functions to the top *)
From Coq Require Import ZArith NArith PArith List Lia Bool Arith String.
From Verif Require Import ANF_Syntax ANF_Eval ANF_Spec ANF_Scope ANF_EvalProofs CC_Spec Comp_Model Pipe_Model Pipe_Spec Pipe_Shapes
  Pipe_ShapesOpt Pipe_ShapesPre Pipe_ShapesCC Pipe_DPE WA_Spec.
From Verif Require Inline_Model Shrink_Model Shrink_Top UC_Model LL_Model CC_Model Hoist_Model DPE_Model Properties_Uncurry.
Import ListNotations.

(** a pass that leaves the tables and the shapes as they are *)
Definition tame (p : anf_trans) : Prop := forall e c e' c', p e c = (Ret e', c') ->
  cenv c' = cenv c /\ nect_ctor_tag c' = nect_ctor_tag c /\ next_ind_tag c' = next_ind_tag c /\
  (forall S, blind S -> all S e -> all S e') /\ (returns e -> returns e').
(** functions stay at the top *)
Definition levels (p : anf_trans) : Prop := forall e c e' c', p e c = (Ret e', c') -> flat e -> flat e'.

Ltac stay := split; [reflexivity|]; split; [reflexivity|]; split; [reflexivity|].

Lemma ret2 {A B} (a a' : A) (b b' : B) : (Ret a, b) = (Ret a', b') -> a' = a /\ b' = b.
Proof. intro H. injection H as <- <-. auto. Qed.

Lemma tame_id : tame id_trans.
Proof. intros e c e' c' H. apply ret2 in H as [-> ->]. stay. auto. Qed.
Lemma levels_id : levels id_trans.
Proof. intros e c e' c' H. apply ret2 in H as [-> ->]. auto. Qed.

Lemma shrunk_all S e : all S e -> all S (shrunk e).
Proof.
  intro A. unfold shrunk. destruct (Shrink_Model.shrink_top e) as [[e' s]|] eqn:H; [|exact A].
  destruct (Shrink_Top.shrink_top_contract e e' s H) as (c & c' & im' & _ & HK).
  eapply contract_all; [exact HK| |exact A]. intros f t xs b K. discriminate.
Qed.
Lemma shrunk_flat e : flat e -> flat (shrunk e).
Proof.
  intro A. unfold shrunk. destruct (Shrink_Model.shrink_top e) as [[e' s]|] eqn:H; [|exact A].
  destruct (Shrink_Top.shrink_top_contract e e' s H) as (c & c' & im' & _ & HK). eapply contract_flat; eauto.
Qed.
Lemma shrunk_returns e : returns e -> returns (shrunk e).
Proof.
  intro A. unfold shrunk. destruct (Shrink_Model.shrink_top e) as [[e' s]|] eqn:H; [|exact A].
  destruct (Shrink_Top.shrink_top_contract e e' s H) as (c & c' & im' & _ & HK). eapply contract_returns; eauto.
Qed.

Lemma tame_shrink : tame shrink_err.
Proof.
  intros e c e' c' H. apply ret2 in H as [-> ->]. stay. split; [intros; apply shrunk_all; auto|apply shrunk_returns].
Qed.
Lemma levels_shrink : levels shrink_err.
Proof. intros e c e' c' H. apply ret2 in H as [-> ->]. apply shrunk_flat. Qed.

Lemma tame_uncurry cps : tame (UC_Model.uncurry_proto_top cps).
Proof.
  intros e c e' c' H. destruct (Properties_Uncurry.C55_tables _ _ _ _ _ H) as (T1 & T2 & T3 & _).
  pose proof (Properties_Uncurry.C55_pass_is_rewrites _ _ _ _ _ H) as R.
  split; [auto|]. split; [auto|]. split; [auto|]. split; [intros S BL; eapply uncurry_all; eauto|eapply uncurry_returns; eauto].
Qed.

Section Inl.
  Variables (St : Type) (IH : InlineHeuristic St).
  Lemma inline_top_tame mv d s e c e' c' b : inline_top' St IH mv d s e c = (Ret e', c', b) ->
    cenv c' = cenv c /\ nect_ctor_tag c' = nect_ctor_tag c /\ next_ind_tag c' = next_ind_tag c /\
    (forall S, all S e -> all S e') /\ (returns e -> returns e') /\ (flat e -> flat e').
  Proof.
    unfold inline_top'. destruct (Inline_Model.inline_top' St IH mv d s e) as [e1 w1] eqn:E. intro H. injection H as -> <- _. stay.
    unfold Inline_Model.inline_top' in E.
    split; [intros S A; eapply inl_all; [exact E|exact A|]; intros f t xs b0 K; discriminate|]. split; [eapply inl_returns; eauto|eapply inl_flat; eauto].
  Qed.
  Lemma tame_inline_top mv d (s : comp_data -> St) : tame (fun e c => inline_top St IH mv d (s c) e c).
  Proof.
    intros e c e' c' H. unfold inline_top in H. destruct (inline_top' St IH mv d (s c) e c) as [[r c1] b] eqn:E. injection H as -> <-.
    destruct (inline_top_tame _ _ _ _ _ _ _ _ E) as (A1 & A2 & A3 & A4 & A5 & A6). auto 10.
  Qed.
  Lemma levels_inline_top mv d (s : comp_data -> St) : levels (fun e c => inline_top St IH mv d (s c) e c).
  Proof.
    intros e c e' c' H. unfold inline_top in H. destruct (inline_top' St IH mv d (s c) e c) as [[r c1] b] eqn:E. injection H as -> <-.
    destruct (inline_top_tame _ _ _ _ _ _ _ _ E) as (A1 & A2 & A3 & A4 & A5 & A6). auto.
  Qed.
  Lemma loop_tame mv d s : forall fuel e c e' c', inline_loop_aux St IH mv fuel d s e c = (Ret e', c') ->
    cenv c' = cenv c /\ nect_ctor_tag c' = nect_ctor_tag c /\ next_ind_tag c' = next_ind_tag c /\
    (forall S, all S e -> all S e') /\ (returns e -> returns e') /\ (flat e -> flat e').
  Proof.
    induction fuel as [|fuel IHf]; intros e c e' c' H; cbn [inline_loop_aux] in H; [apply ret2 in H as [-> ->]; stay; auto|].
    destruct (inline_top' St IH mv d s e c) as [[[m|e1] c1] b] eqn:E; [discriminate|].
    destruct (inline_top_tame _ _ _ _ _ _ _ _ E) as (A1 & A2 & A3 & A4 & A5 & A6). destruct b.
    - destruct (IHf _ _ _ _ H) as (B1 & B2 & B3 & B4 & B5 & B6).
      split; [congruence|]. split; [congruence|]. split; [congruence|].
      split; [intros S A; apply B4, shrunk_all; auto|]. split; [intro A; apply B5, shrunk_returns; auto|intro A; apply B6, shrunk_flat; auto].
    - apply ret2 in H as [-> ->]. split; [auto|]. split; [auto|]. split; [auto|].
      split; [intros S A; apply shrunk_all; auto|]. split; [intro A; apply shrunk_returns; auto|intro A; apply shrunk_flat; auto].
  Qed.
  Lemma tame_loop mv d s fuel : tame (fun e c => inline_loop_aux St IH mv fuel d s e c).
  Proof. intros e c e' c' H. destruct (loop_tame _ _ _ _ _ _ _ _ H) as (A1 & A2 & A3 & A4 & A5 & A6). auto 10. Qed.
  Lemma levels_loop mv d s fuel : levels (fun e c => inline_loop_aux St IH mv fuel d s e c).
  Proof. intros e c e' c' H. destruct (loop_tame _ _ _ _ _ _ _ _ H) as (A1 & A2 & A3 & A4 & A5 & A6). auto. Qed.
End Inl.

Lemma tame_lambda_lift a p i : tame (lambda_lift a p i).
Proof.
  intros e c e' c' H. unfold lambda_lift in H.
  destruct (LL_Model.lambda_lift a p i e _) as [[e1 s1]|] eqn:E; [|discriminate]. apply ret2 in H as [-> ->]. stay.
  unfold LL_Model.lambda_lift in E. split; [intros S BL A; eapply ll_all; eauto|intro A; eapply ll_returns; eauto].
Qed.

Lemma tame_DPE : tame DPE.
Proof.
  intros e c e' c' H. unfold DPE in H. destruct (DPE_Model.DPE e _) as [e1 s1] eqn:E. apply ret2 in H as [-> ->]. stay.
  split; [intros S BL A; eapply dpe_all; eauto|eapply dpe_returns; eauto].
Qed.
Lemma levels_DPE : levels DPE.
Proof.
  intros e c e' c' H. unfold DPE in H. destruct (DPE_Model.DPE e _) as [e1 s1] eqn:E. apply ret2 in H as [-> ->]. eapply dpe_flat; eauto.
Qed.

Lemma abind_inv (p : anf_state exp) (q : anf_trans) c e' c' : abind p q c = (Ret e', c') -> exists e1 c1, p c = (Ret e1, c1) /\ q e1 c1 = (Ret e', c').
Proof. unfold abind. destruct (p c) as [[m|e1] c1]; [discriminate|]. eauto. Qed.

Lemma tame_bind (p q : anf_trans) : tame p -> tame q -> tame (fun e => abind (p e) q).
Proof.
  intros HP HQ e c e' c' H. destruct (abind_inv _ _ _ _ _ H) as (e1 & c1 & H1 & H2).
  destruct (HP _ _ _ _ H1) as (A1 & A2 & A3 & A4 & A5). destruct (HQ _ _ _ _ H2) as (B1 & B2 & B3 & B4 & B5).
  split; [congruence|]. split; [congruence|]. split; [congruence|]. auto.
Qed.
Lemma levels_bind (p q : anf_trans) : levels p -> levels q -> levels (fun e => abind (p e) q).
Proof. intros HP HQ e c e' c' H. destruct (abind_inv _ _ _ _ _ H) as (e1 & c1 & H1 & H2). eauto. Qed.
Lemma tame_time opts n p : tame p -> tame (time_anf opts n p).
Proof. intros HP e c e' c'. unfold time_anf, timePhase. destruct (o_time opts); apply HP. Qed.
Lemma levels_time opts n p : levels p -> levels (time_anf opts n p).
Proof. intros HP e c e' c'. unfold time_anf, timePhase. destruct (o_time opts); apply HP. Qed.
Lemma tame_if (b : bool) (p q : anf_trans) : tame p -> tame q -> tame (fun e => if b then p e else q e).
Proof. destruct b; auto. Qed.
Lemma levels_if (b : bool) (p q : anf_trans) : levels p -> levels q -> levels (fun e => if b then p e else q e).
Proof. destruct b; auto. Qed.

(** ** The pipeline *)
Definition table_fine (c : comp_data) : Prop := fine_table clo_ind_tag (nect_ctor_tag c) (next_ind_tag c) (cenv c).

Definition settles (p : anf_trans) : Prop := forall e c e' c' V P LL, p e c = (Ret e', c') ->
  table_fine c -> (clo_tag < nect_ctor_tag c)%positive -> get clo_tag (cenv c) = None ->
  all (shape_ok (cenv c) V P LL) e ->
  all (shape_ok (cenv c') V P LL) e' /\ ordinals_ok (cenv c') /\ flat e' /\ (returns e -> returns e').

Lemma settles_cc : settles (closure_conversion_hoist clo_tag clo_ind_tag).
Proof.
  intros e c e' c' V P LL H TF L N A. unfold closure_conversion_hoist in H.
  destruct (CC_Model.closure_conversion_top _ _ _ _) as [e1 s1] eqn:E. apply ret2 in H as [-> ->]. cbn [cenv].
  split; [apply hoist_all; eapply cc_shapes; [exact E|exact (ft_tags _ _ _ _ TF)|exact L|exact N|exact A]|].
  split; [eapply cc_table; [exact E|exact TF]|]. split; [apply hoist_flat|]. intro R. apply hoist_returns. eapply cc_returns; eauto.
Qed.
Lemma settles_pre (p q : anf_trans) : tame p -> settles q -> settles (fun e => abind (p e) q).
Proof.
  intros HP HQ e c e' c' V P LL H TF L N A. destruct (abind_inv _ _ _ _ _ H) as (e1 & c1 & H1 & H2).
  destruct (HP _ _ _ _ H1) as (A1 & A2 & A3 & A4 & A5).
  destruct (HQ _ _ _ _ V P LL H2) as (B1 & B2 & B3 & B4).
  - unfold table_fine. rewrite A1, A2, A3. exact TF.
  - rewrite A2. exact L.
  - rewrite A1. exact N.
  - rewrite A1. apply A4; [apply shape_blind|exact A].
  - split; [exact B1|]. split; [exact B2|]. split; [exact B3|auto].
Qed.
Lemma settles_post (p q : anf_trans) : settles p -> tame q -> levels q -> settles (fun e => abind (p e) q).
Proof.
  intros HP HQ HL e c e' c' V P LL H TF L N A. destruct (abind_inv _ _ _ _ _ H) as (e1 & c1 & H1 & H2).
  destruct (HP _ _ _ _ V P LL H1 TF L N A) as (A1 & A2 & A3 & A4). destruct (HQ _ _ _ _ H2) as (B1 & B2 & B3 & B4 & B5).
  rewrite B1. split; [apply B4; [apply shape_blind|exact A1]|]. split; [exact A2|]. split; [eapply HL; eauto|auto].
Qed.
Lemma settles_time opts n p : settles p -> settles (time_anf opts n p).
Proof. intros HP e c e' c'. unfold time_anf, timePhase. destruct (o_time opts); apply HP. Qed.

Lemma pipeline_settles nv opts : settles (anf_pipeline passes nv opts).
Proof.
  unfold anf_pipeline. cbn [passes Comp_Model.shrink_err Comp_Model.uncurry_top Comp_Model.inline_uncurry
    Comp_Model.inline_shrink_loop Comp_Model.lambda_lift Comp_Model.closure_conversion_hoist Comp_Model.DPE Comp_Model.inline_lifted].
  eapply settles_pre; [apply tame_time, tame_shrink|].
  eapply settles_pre; [apply tame_time, tame_uncurry|].
  eapply settles_pre; [apply tame_time; exact (tame_inline_top _ _ nv 100 (fun c => ([], inline_map c)))|].
  eapply settles_pre; [apply tame_if; [apply tame_time; exact (tame_loop _ _ nv 100 [] 1000)|apply tame_id]|].
  eapply settles_pre; [apply tame_if; [apply tame_time, tame_lambda_lift|apply tame_id]|].
  eapply settles_pre; [apply tame_time, tame_shrink|].
  eapply settles_post; [apply settles_time, settles_cc| |].
  - eapply tame_bind; [apply tame_time, tame_shrink|].
    eapply tame_bind; [apply tame_if; [apply tame_time; exact (tame_loop _ _ nv 100 [] 1000)|apply tame_id]|].
    eapply tame_bind; [apply tame_if; [apply tame_time, tame_DPE|apply tame_id]|].
    eapply tame_bind; [apply tame_time, tame_shrink|].
    eapply tame_bind; [apply tame_if; [apply tame_time; exact (tame_inline_top _ _ nv 1000 (fun _ => []))|apply tame_id]|].
    exact tame_id.
  - eapply levels_bind; [apply levels_time, levels_shrink|].
    eapply levels_bind; [apply levels_if; [apply levels_time; exact (levels_loop _ _ nv 100 [] 1000)|apply levels_id]|].
    eapply levels_bind; [apply levels_if; [apply levels_time, levels_DPE|apply levels_id]|].
    eapply levels_bind; [apply levels_time, levels_shrink|].
    eapply levels_bind; [apply levels_if; [apply levels_time; exact (levels_inline_top _ _ nv 1000 (fun _ => []))|apply levels_id]|].
    exact levels_id.
Qed.
