(** * Shrinking and inlining bring no new shapes *)
From Coq Require Import ZArith NArith PArith List Lia Bool Arith.
From Verif Require Import ANF_Syntax ANF_Scope ANF_Subst ANF_Alpha Shrink_Census Shrink_Model Shrink_Total Shrink_Top Pipe_Shapes Inline_Model Inline_Syn.
Import ListNotations.
Local Open Scope nat_scope.

(** ** Shrinking *)
Section Shrink.
  Variable S : shape -> Prop.

  Definition sub_all (sub : ctx_map) : Prop := forall f t xs b, get f sub = Some (SVfun t xs b) -> all S b.

  Lemma pre_all sig sub0 : forall B c, (forall f t xs b, In (f, t, xs, b) (flist B) -> all S b) -> sub_all sub0 ->
    forall B1 c1 sub1, precontract sig c sub0 B = (B1, c1, sub1) -> incl (flist B1) (flist B) /\ sub_all sub1.
  Proof.
    induction B as [f t ys e B IH|]; intros c HB HS B1 c1 sub1 H; cbn [precontract] in H.
    - destruct (get_c f c).
      + destruct (IH _ (fun f t xs b I => HB f t xs b (or_intror I)) HS _ _ _ H) as [A1 A2]. split; [|auto].
        intros d I. right. auto.
      + destruct (precontract sig c sub0 B) as [[B2 c2] sub2] eqn:E. injection H as <- <- <-.
        destruct (IH _ (fun f t xs b I => HB f t xs b (or_intror I)) HS _ _ _ E) as [A1 A2]. split.
        * intros d [<-|I]; [left; auto|right; auto].
        * intros g t' xs b. rewrite get_set. destruct (Pos.eq_dec g f); [|apply A2]. intro K. injection K as <- <- <-.
          eapply HB. left. reflexivity.
    - injection H as <- <- <-. split; [apply incl_refl|auto].
  Qed.

  Lemma post_all (fcon : c_map -> exp -> b_map -> option (shrunk exp)) sig :
    (forall c e im e' s c' im', fcon c e im = Some (e', s, c', im') -> all S e -> all S e') ->
    forall B c im s0 B' s c' im', (forall f t xs b, In (f, t, xs, b) (flist B) -> all S b) ->
    postcontractfun fcon sig c im B s0 = Some (B', s, c', im') ->
    forall f t xs b, In (f, t, xs, b) (flist B') -> all S b /\ exists b0, In (f, t, xs, b0) (flist B).
  Proof.
    intros HF. induction B as [f t ys e B IH|]; intros c im s0 B' s c' im' HB H; cbn [postcontractfun] in H.
    - assert (HB' : forall f t xs b, In (f, t, xs, b) (flist B) -> all S b) by (intros; eapply HB; right; eauto).
      destruct (get_b f im).
      { intros. destruct (IH _ _ _ _ _ _ _ HB' H _ _ _ _ H0) as (A & b0 & I). split; [auto|]. exists b0. right. auto. }
      destruct (get_c f c).
      { intros. destruct (IH _ _ _ _ _ _ _ HB' H _ _ _ _ H0) as (A & b0 & I). split; [auto|]. exists b0. right. auto. }
      destruct (fcon c e im) as [[[[e1 s1] c1] i1]|] eqn:E1; [|discriminate].
      destruct (postcontractfun fcon sig c1 i1 B s0) as [[[[l2 s2] c2] i2]|] eqn:E2; [|discriminate].
      injection H as <- <- <- <-. intros f0 t0 xs0 b0 [E|I].
      + injection E as <- <- <- <-. split; [eapply HF; eauto; eapply HB; left; reflexivity|]. exists e. left. reflexivity.
      + destruct (IH _ _ _ _ _ _ _ HB' E2 _ _ _ _ I) as (A & b1 & I1). split; [auto|]. exists b1. right. auto.
    - injection H as <- <- <- <-. intros ? ? ? ? [].
  Qed.

  Lemma cases_all (fcon : c_map -> exp -> b_map -> option (shrunk exp)) :
    (forall c e im e' s c' im', fcon c e im = Some (e', s, c', im') -> all S e -> all S e') ->
    forall cl c im cl' s c' im', all_cases S cl -> contractcases fcon c im cl = Some (cl', s, c', im') -> all_cases S cl'.
  Proof.
    intros HF. induction cl as [|[y e] cl IH]; intros c im cl' s c' im' HC H; cbn in H.
    - injection H as <- <- <- <-. constructor.
    - destruct (fcon c e im) as [[[[e1 s1] c1] i1]|] eqn:E1; [|discriminate].
      destruct (contractcases fcon c1 i1 cl) as [[[[l2 s2] c2] i2]|] eqn:E2; [|discriminate].
      injection H as <- <- <- <-. inversion HC as [|? ? [H1 H2] H3]; subst. constructor; [cbn in *; split; eauto|eapply IH; eauto].
  Qed.

  Lemma contract_all : forall n sig c e sub im e' s c' im',
    contract n sig c e sub im = Some (e', s, c', im') -> sub_all sub -> all S e -> all S e'.
  Proof.
    assert (AR : forall sig ys, length (apply_r_list sig ys) = length ys) by (intros; unfold apply_r_list; apply map_length).
    induction n as [|n IH]; intros sig c e sub im e' s c' im' E HS HA; [discriminate|].
    destruct e as [x t ys e|v cl|v t i y e|x f t ys e|B e|f t ys|x p e|x p ys e|v]; cbn [contract] in E; cbv zeta in E.
    - destruct HA as [HA1 HA2]. destruct (get_c x c).
      + apply incr_inv in E as (s' & E & _). eauto.
      + destruct (contract n sig c e _ im) as [[[[e1 s1] c1] i1]|] eqn:E1; [|discriminate].
        assert (HS' : sub_all (set x (SVconstr t ys) sub)).
        { intros g t' xs b. rewrite get_set. destruct (Pos.eq_dec g x); [discriminate|apply HS]. }
        apply IH in E1; [|auto|auto]. destruct (get_c x c1); injection E as <- <- <- <-; [auto|]. cbn [all]. rewrite AR. auto.
    - apply all_Ecase in HA.
      destruct (get (apply_r sig v) sub) as [[t ys|]|] eqn:G.
      2,3: (destruct (contractcases _ c im cl) as [[[[l1 s1] c1] i1]|] eqn:E1; [|discriminate]; injection E as <- <- <- <-;
            apply all_Ecase; eapply cases_all; [|exact HA|exact E1]; cbn beta; intros; eauto).
      destruct (findtag cl t) as [k|] eqn:F.
      + apply incr_inv in E as (s' & E & _). eapply IH; [exact E|auto|]. eapply all_findtag; eauto.
      + destruct (contractcases _ c im cl) as [[[[l1 s1] c1] i1]|] eqn:E1; [|discriminate]. injection E as <- <- <- <-.
        apply all_Ecase. eapply cases_all; [|exact HA|exact E1]. cbn beta. intros. eauto.
    - cbn [all] in HA. destruct (get_c v c).
      + apply incr_inv in E as (s' & E & _). eauto.
      + destruct (match get (apply_r sig y) sub with Some (SVconstr t' ys) => nthN ys i | _ => None end) as [yn|].
        * apply incr_inv in E as (s' & E & _). eauto.
        * destruct (contract n sig c e sub im) as [[[[e1 s1] c1] i1]|] eqn:E1; [|discriminate].
          destruct (get_c v c1); injection E as <- <- <- <-; cbn [all]; eauto.
    - destruct HA as [[HA1 SL] HA2]. set (keep := match contract n sig c e sub im with Some _ => _ | None => None end) in E.
      assert (K : keep = Some (e', s, c', im') -> all S e').
      { unfold keep. destruct (contract n sig c e sub im) as [[[[e1 s1] c1] i1]|] eqn:E1; [|discriminate].
        intro K. injection K as <- <- <- <-. cbn [all]. rewrite AR. eauto. }
      clearbody keep. destruct (get_c (apply_r sig f) c) as [|[|]]; [auto| |auto].
      destruct (get (apply_r sig f) sub) as [[|t' xs m]|] eqn:G; [auto| |auto].
      destruct (_ && _ && _); [|auto]. destruct (inline_letapp m x) as [[C x']|] eqn:L; [|auto].
      apply incr_inv in E as (s' & E & _). eapply IH; [exact E|auto|]. eapply all_letapp; [exact SL|exact L|eapply HS; eauto|].
      apply all_rename. exact HA2.
    - apply all_Efun in HA. destruct HA as [HA1 HA2].
      destruct (precontract sig c sub B) as [[B1 c1] sub1] eqn:P.
      destruct (pre_all _ _ _ _ (fun f t xs b I => proj2 (HA1 f t xs b I)) HS _ _ _ P) as [P1 P2].
      destruct (contract n sig c1 e sub1 im) as [[[[e2 s2] c2] i2]|] eqn:E1; [|discriminate].
      destruct (postcontractfun _ sig c2 i2 B1 0) as [[[[B3 s3] c3] i3]|] eqn:E2; [|discriminate].
      assert (A2 : all S e2) by eauto.
      assert (A3 : all_funs S B3).
      { apply all_funs_list. intros f t xs b I.
        assert (HB : forall f t xs b, In (f, t, xs, b) (flist B1) -> all S b) by (intros; eapply HA1; eauto).
        assert (HF : forall c e im e' s c' im', (fun count e im => contract n sig count e sub im) c e im = Some (e', s, c', im') -> all S e -> all S e')
          by (cbn beta; intros; eauto).
        destruct (post_all _ sig HF _ _ _ _ _ _ _ _ HB E2 f t xs b I) as (Q1 & b0 & Q2). split; [|auto]. eapply HA1; eauto. }
      destruct B3; injection E as <- <- <- <-; [split; auto|exact A2].
    - assert (K : Some (Eapp (apply_r sig f) t (apply_r_list sig ys), 0, c, im) = Some (e', s, c', im') -> all S e').
      { intro K. injection K as <- <- <- <-. cbn [all] in *. rewrite AR. auto. }
      destruct (get_c (apply_r sig f) c) as [|[|]]; [auto| |auto].
      destruct (get (apply_r sig f) sub) as [[|t' xs m]|] eqn:G; [auto| |auto].
      destruct (_ && _); [|auto].
      apply incr_inv in E as (s' & E & _). eapply IH; [exact E|auto|]. eapply HS; eauto.
    - destruct HA as [HA1 HA2]. destruct (contract n sig c e sub im) as [[[[e1 s1] c1] i1]|] eqn:E1; [|discriminate].
      injection E as <- <- <- <-. cbn [all]. eauto.
    - destruct HA as [HA1 HA2]. destruct (contract n sig c e sub im) as [[[[e1 s1] c1] i1]|] eqn:E1; [|discriminate].
      injection E as <- <- <- <-. cbn [all]. rewrite AR. eauto.
    - injection E as <- <- <- <-. exact I.
  Qed.
End Shrink.

Lemma contract_flat n c e e' s c' im' : contract n [] c e [] [] = Some (e', s, c', im') -> flat e -> flat e'.
Proof.
  intros E HF.
  assert (ATOM : all no_fun e -> flat e').
  { intro A. eapply contract_all in A; [|exact E|intros f t xs b G; discriminate]. unfold flat. destruct e'; auto. apply all_Efun in A. destruct A as [A1 A2].
    split; [|auto]. intros. eapply A1; eauto. }
  destruct e as [| | | |B m| | | |]; try (apply ATOM; exact HF). destruct HF as [HF1 HF2]. clear ATOM.
  destruct n as [|n]; [discriminate|]. cbn [contract] in E.
  destruct (precontract [] c [] B) as [[B1 c1] sub1] eqn:P.
  destruct (pre_all no_fun [] [] B c HF1 ltac:(intros f t xs b G; discriminate) _ _ _ P) as [P1 P2].
  destruct (contract n [] c1 m sub1 []) as [[[[e2 s2] c2] i2]|] eqn:E1; [|discriminate].
  destruct (postcontractfun _ [] c2 i2 B1 0) as [[[[B3 s3] c3] i3]|] eqn:E2; [|discriminate].
  assert (A2 : all no_fun e2) by (eapply contract_all; eauto).
  assert (A3 : forall f t xs b, In (f, t, xs, b) (flist B3) -> all no_fun b).
  { intros f t xs b I. 
    assert (HB : forall f t xs b, In (f, t, xs, b) (flist B1) -> all no_fun b) by (intros; eapply HF1; eauto).
    refine (proj1 (post_all no_fun _ _ _ _ _ _ _ _ _ _ _ HB E2 f t xs b I)).
    cbn beta. intros. eapply contract_all; eauto. intros g t' xs' b' G. discriminate. }
  destruct B3; injection E as <- <- <- <-; [split; auto|]. unfold flat. destruct e2; auto. apply all_Efun in A2. destruct A2 as [A1 A2'].
  split; [|auto]. intros. eapply A1; eauto.
Qed.

Lemma contract_returns : forall n sig c e sub im e' s c' im',
  contract n sig c e sub im = Some (e', s, c', im') -> returns e -> returns e'.
Proof.
  induction n as [|n IH]; intros sig c e sub im e' s c' im' E HA; [discriminate|].
  assert (CS : forall cl c im cl' s c' im', contractcases (fun count e im => contract n sig count e sub im) c im cl = Some (cl', s, c', im') ->
     Forall (fun p => returns (snd p)) cl -> Forall (fun p => returns (snd p)) cl').
  { induction cl as [|[y k] cl IHc]; intros ca ima cl' sa c1 im1 H F; cbn in H; [injection H as <- <- <- <-; constructor|].
    destruct (contract n sig ca k sub ima) as [[[[e1 s1] c2] i1]|] eqn:E1; [|discriminate].
    destruct (contractcases _ c2 i1 cl) as [[[[l2 s2] c3] i2]|] eqn:E2; [|discriminate].
    injection H as <- <- <- <-. inversion F; subst. constructor; [cbn in *; eauto|eauto]. }
  destruct e as [x t ys e|v cl|v t i y e|x f t ys e|B e|f t ys|x p e|x p ys e|v]; cbn [contract] in E; cbv zeta in E; cbn [returns] in HA.
  - destruct (get_c x c).
    + apply incr_inv in E as (s' & E & _). eauto.
    + destruct (contract n sig c e _ im) as [[[[e1 s1] c1] i1]|] eqn:E1; [|discriminate].
      apply IH in E1; [|auto]. destruct (get_c x c1); injection E as <- <- <- <-; auto.
  - apply (returns_Ecase v) in HA.
    destruct (get (apply_r sig v) sub) as [[t ys|]|] eqn:G.
    2,3: (destruct (contractcases _ c im cl) as [[[[l1 s1] c1] i1]|] eqn:E1; [|discriminate]; injection E as <- <- <- <-;
          apply returns_Ecase; eauto).
    destruct (findtag cl t) as [k|] eqn:F.
    + apply incr_inv in E as (s' & E & _). eapply IH; [exact E|]. eapply returns_findtag; eauto.
    + destruct (contractcases _ c im cl) as [[[[l1 s1] c1] i1]|] eqn:E1; [|discriminate]. injection E as <- <- <- <-.
      apply returns_Ecase. eauto.
  - destruct (get_c v c).
    + apply incr_inv in E as (s' & E & _). eauto.
    + destruct (match get (apply_r sig y) sub with Some (SVconstr t' ys) => nthN ys i | _ => None end) as [yn|].
      * apply incr_inv in E as (s' & E & _). eauto.
      * destruct (contract n sig c e sub im) as [[[[e1 s1] c1] i1]|] eqn:E1; [|discriminate].
        destruct (get_c v c1); injection E as <- <- <- <-; cbn [returns]; eauto.
  - set (keep := match contract n sig c e sub im with Some _ => _ | None => None end) in E.
    assert (K : keep = Some (e', s, c', im') -> returns e').
    { unfold keep. destruct (contract n sig c e sub im) as [[[[e1 s1] c1] i1]|] eqn:E1; [|discriminate].
      intro K. injection K as <- <- <- <-. cbn [returns]. eauto. }
    clearbody keep. destruct (get_c (apply_r sig f) c) as [|[|]]; [auto| |auto].
    destruct (get (apply_r sig f) sub) as [[|t' xs m]|] eqn:G; [auto| |auto].
    destruct (_ && _ && _); [|auto]. destruct (inline_letapp m x) as [[C x']|] eqn:L; [|auto].
    apply incr_inv in E as (s' & E & _). eapply IH; [exact E|]. eapply (returns_letapp m); [exact L|].
    apply returns_rename. exact HA.
  - destruct (precontract sig c sub B) as [[B1 c1] sub1] eqn:P.
    destruct (contract n sig c1 e sub1 im) as [[[[e2 s2] c2] i2]|] eqn:E1; [|discriminate].
    destruct (postcontractfun _ sig c2 i2 B1 0) as [[[[B3 s3] c3] i3]|] eqn:E2; [|discriminate].
    assert (A2 : returns e2) by eauto. destruct B3; injection E as <- <- <- <-; exact A2.
  - destruct HA.
  - destruct (contract n sig c e sub im) as [[[[e1 s1] c1] i1]|] eqn:E1; [|discriminate].
    injection E as <- <- <- <-. cbn [returns]. eauto.
  - destruct (contract n sig c e sub im) as [[[[e1 s1] c1] i1]|] eqn:E1; [|discriminate].
    injection E as <- <- <- <-. cbn [returns]. eauto.
  - injection E as <- <- <- <-. exact I.
Qed.

(** ** Inlining *)
Section Inl.
  Variables (St : Type) (IH : InlineHeuristic St).
  Notation inl := (inline_exp St IH).
  Variable S : shape -> Prop.

  Definition fm_all (fm : fun_map) : Prop := forall f t xs b, get f fm = Some (t, xs, b) -> all S b.

  Lemma fm_mremove fm f : fm_all fm -> fm_all (mremove f fm).
  Proof. intros H g t xs b G. apply (H g t xs b). rewrite get_mremove in G. destruct (Pos.eq_dec g f); [discriminate|auto]. Qed.

  Lemma fm_add B fm : (forall f t xs b, In (f, t, xs, b) (flist B) -> all S b) -> fm_all fm -> fm_all (add_fundefs B fm).
  Proof.
    induction B as [f t xs e B IHB|]; intros H K; cbn [add_fundefs]; [|auto].
    intros g t' xs' b. rewrite get_set. destruct (Pos.eq_dec g f).
    - intro G. injection G as <- <- <-. eapply H. left. reflexivity.
    - apply IHB; [|auto]. intros. eapply H. right. eauto.
  Qed.

  Lemma fresh_length : forall xs w xs' w', get_fresh_names xs w = (xs', w') -> length xs' = length xs.
  Proof.
    induction xs as [|x xs IHx]; intros w xs' w' H; cbn in H; [injection H as <- <-; reflexivity|].
    destruct (get_fresh_names xs _) as [l w1] eqn:E. injection H as <- <-. cbn. f_equal. eauto.
  Qed.

  Definition inl_ok d e := forall j sig fm s w e' w', inl d j e sig fm s w = (e', w') -> all S e -> fm_all fm -> all S e'.

  Lemma fds_all d j sig sig' fm : forall B, (forall f t xs b, In (f, t, xs, b) (flist B) -> inl_ok d b) -> fm_all fm ->
    (forall f t xs b, In (f, t, xs, b) (flist B) -> all S b) ->
    forall s w B' w', inl_fds St IH (fun e sg f s w => inl d j e sg (mremove f fm) s w) sig sig' B s w = (B', w') ->
    forall f t xs b, In (f, t, xs, b) (flist B') -> all S b /\ exists f0 xs0 b0, In (f0, t, xs0, b0) (flist B) /\ length xs = length xs0.
  Proof.
    induction B as [g t0 ys e B IHB|]; intros HI HM HB s w B' w' H.
    - rewrite inl_fds_cons in H. destruct (get_fresh_names ys w) as [ys' w1] eqn:E1.
      destruct (inl d j e _ (mremove g fm) _ w1) as [e1 w2] eqn:E2.
      destruct (inl_fds _ _ _ sig sig' B s w2) as [B2 w3] eqn:E3. injection H as <- <-.
      intros f t xs b [E|I].
      + injection E as <- <- <- <-. split.
        * eapply (HI g t0 ys e); [left; reflexivity|exact E2|eapply HB; left; reflexivity|apply fm_mremove; auto].
        * exists g, ys, e. split; [left; reflexivity|]. eapply fresh_length; eauto.
      + edestruct IHB as (A1 & f0 & xs0 & b0 & A2 & A3);
          [intros; eapply HI; right; eauto|auto|intros; eapply HB; right; eauto|exact E3|exact I|].
        split; [auto|]. exists f0, xs0, b0. split; [right; auto|auto].
    - cbn in H. injection H as <- <-. intros ? ? ? ? [].
  Qed.

  Lemma inl_all : forall d e, inl_ok d e.
  Proof.
    assert (AR : forall sig ys, length (apply_r_list sig ys) = length ys) by (intros; unfold apply_r_list; apply map_length).
    induction d as [d IHd] using lt_wf_ind. 
    apply (exp_ind2 (inl_ok d) (fun B => forall f t xs e, In (f, t, xs, e) (flist B) -> inl_ok d e)); unfold inl_ok.
    - intros x t ys e IHe j sig fm s w e' w' H [A1 A2] HM. rewrite inl_Econstr in H. cbn [get_fresh_name] in H.
      destruct (inl d j e _ fm s _) as [e1 w1] eqn:E. injection H as <- <-. cbn [all]. rewrite AR. eauto.
    - intros x l F j sig fm s w e' w' H HA HM. rewrite inl_Ecase in H.
      destruct (inl_cl _ l w) as [l' w1] eqn:E. injection H as <- <-. apply all_Ecase in HA. apply all_Ecase.
      revert w l' w1 E HA. induction F as [|[c e] l Hp F IHl]; intros w l' w1 E HA; cbn [inl_cl] in E; [injection E as <- <-; constructor|].
      destruct (inl d j e sig fm s w) as [e1 w2] eqn:E1.
      destruct (inl_cl _ l w2) as [l2 w3] eqn:E2.
      injection E as <- <-. inversion HA as [|? ? [H1 H2] H3]; subst. constructor; [cbn in *; eauto|]. eapply IHl; [exact E2|auto].
    - intros x t n y e IHe j sig fm s w e' w' H A HM. rewrite inl_Eproj in H. cbn [get_fresh_name] in H.
      destruct (inl d j e _ fm s _) as [e1 w1] eqn:E. injection H as <- <-. cbn [all] in *. eauto.
    - intros x f t ys e IHe j sig fm s w e' w' H [[A1 SL] A2] HM. rewrite inl_Eletapp in H.
      destruct (update_letApp IH f t (apply_r_list sig ys) s) as [[s1 s2] b].
      assert (K : forall s w, keep_let St IH d j x f t ys e sig fm s w = (e', w') -> all S e').
      { intros s0 w0 K. unfold keep_let in K. cbn [get_fresh_name] in K. destruct (inl d j e _ fm s0 _) as [e1 w1] eqn:E.
        injection K as <- <-. cbn [all]. rewrite AR. eauto. }
      destruct b; [|eauto]. destruct (get f fm) as [[[ft xs] m]|] eqn:G; [|eauto]. destruct d as [|d']; [eauto|].
      destruct j as [|j']; [eauto|]. destruct (_ =? _); [|eauto]. cbn [get_fresh_name split_fuel] in H. cbv zeta in H.
      destruct (inl d' _ m _ (mremove f fm) s1 _) as [e1 w1] eqn:E1.
      destruct (inline_letapp e1 _) as [[C x1]|] eqn:L; [|eauto].
      destruct (inl d' _ e _ fm s2 (click w1)) as [e2 w2] eqn:E2. injection H as <- <-.
      eapply all_letapp; [exact SL|exact L| |].
      + eapply (IHd d'); [lia|exact E1|eapply HM; eauto|apply fm_mremove; auto].
      + eapply (IHd d'); [lia|exact E2|auto|auto].
    - intros B e IHB IHe j sig fm s w e' w' H A HM. rewrite inl_Efun in H. cbv zeta in H.
      apply all_Efun in A. destruct A as [A1 A2].
      destruct (update_funDef IH B sig s) as [s1 s2]. destruct (get_fresh_names _ w) as [ns w1].
      destruct (inl_fds _ _ _ sig _ B s1 w1) as [B1 w2] eqn:E1. destruct (inl d j e _ _ s2 w2) as [e1 w3] eqn:E2. injection H as <- <-.
      assert (HM' : fm_all (add_fundefs B fm)) by (apply fm_add; [intros; eapply A1; eauto|auto]).
      apply all_Efun. split; [|eauto]. intros f t xs b I.
      assert (HB' : forall f t xs b, In (f, t, xs, b) (flist B) -> all S b) by (intros; eapply A1; eauto).
      destruct (fds_all d j _ _ _ B IHB HM' HB' _ _ _ _ E1 f t xs b I) as (Q1 & f0 & xs0 & b0 & Q2 & Q3).
      split; [|auto]. rewrite Q3. eapply A1; eauto.
    - intros f t ys j sig fm s w e' w' H A HM. rewrite inl_Eapp in H. cbv zeta in H.
      destruct (update_App IH f t (apply_r_list sig ys) s) as [s1 b].
      assert (K : (Eapp (apply_r sig f) t (apply_r_list sig ys), w) = (e', w') -> all S e').
      { intro K. injection K as <- <-. cbn [all] in *. rewrite AR. auto. }
      destruct b; [|auto]. destruct (get f fm) as [[[ft xs] m]|] eqn:G; [|auto]. destruct d as [|d']; [auto|].
      destruct j as [|j']; [auto|]. destruct (_ =? _); [|auto].
      eapply (IHd d'); [lia|exact H|eapply HM; eauto|apply fm_mremove; auto].
    - intros x p e IHe j sig fm s w e' w' H [A1 A2] HM. rewrite inl_Eprim_val in H. cbn [get_fresh_name] in H.
      destruct (inl d j e _ fm s _) as [e1 w1] eqn:E. injection H as <- <-. cbn [all] in *. eauto.
    - intros x p ys e IHe j sig fm s w e' w' H [A1 A2] HM. rewrite inl_Eprim in H. cbn [get_fresh_name] in H.
      destruct (inl d j e _ fm s _) as [e1 w1] eqn:E. injection H as <- <-. cbn [all] in *. rewrite AR. eauto.
    - intros x j sig fm s w e' w' H A HM. rewrite inl_Ehalt in H. injection H as <- <-. exact I.
    - intros f t xs e B He HB f0 t0 xs0 e0 [E|I]; [injection E as <- <- <- <-; exact He|eapply HB; eauto].
    - intros ? ? ? ? [].
  Qed.
End Inl.

Section Inl2.
  Variables (St : Type) (IH : InlineHeuristic St).
  Notation inl := (inline_exp St IH).

  Lemma inl_flat d j e s w e' w' : inl d j e [] [] s w = (e', w') -> flat e -> flat e'.
  Proof.
    intros H HF.
    assert (NO : forall S, fm_all S []) by (intros S f t xs b G; discriminate).
    assert (ATOM : all no_fun e -> flat e').
    { intro A. apply (inl_all St IH no_fun d e _ _ _ _ _ _ _ H) in A; [|apply NO]. unfold flat. destruct e'; auto. apply all_Efun in A. destruct A as [A1 A2].
      split; [|auto]. intros. eapply A1; eauto. }
    destruct e as [| | | |B m| | | |]; try (apply ATOM; exact HF). destruct HF as [HF1 HF2]. clear ATOM.
    rewrite inl_Efun in H. cbv zeta in H.
    destruct (update_funDef IH B [] s) as [s1 s2]. destruct (get_fresh_names _ w) as [ns w1].
    destruct (inl_fds _ _ _ [] _ B s1 w1) as [B1 w2] eqn:E1. destruct (inl d j m _ _ s2 w2) as [e1 w3] eqn:E2. injection H as <- <-.
    assert (HM' : fm_all no_fun (add_fundefs B [])) by (apply fm_add; [auto|apply NO]).
    split; [|exact (inl_all St IH no_fun d m _ _ _ _ _ _ _ E2 HF2 HM')]. intros f t xs b I.
    refine (proj1 (fds_all St IH no_fun d j _ _ _ B _ HM' HF1 _ _ _ _ E1 f t xs b I)). intros. apply inl_all.
  Qed.

  Lemma inl_returns : forall d e j sig fm s w e' w', inl d j e sig fm s w = (e', w') -> returns e -> returns e'.
  Proof.
    induction d as [d IHd] using lt_wf_ind. 
    apply (exp_ind2 (fun e => forall j sig fm s w e' w', inl d j e sig fm s w = (e', w') -> returns e -> returns e') (fun B => True));
      try (intros; exact I).
    - intros x t ys e IHe j sig fm s w e' w' H A. rewrite inl_Econstr in H. cbn [get_fresh_name] in H.
      destruct (inl d j e _ fm s _) as [e1 w1] eqn:E. injection H as <- <-. cbn [returns] in *. eauto.
    - intros x l F j sig fm s w e' w' H HA. rewrite inl_Ecase in H.
      destruct (inl_cl _ l w) as [l' w1] eqn:E. injection H as <- <-. apply returns_Ecase in HA. apply returns_Ecase.
      revert w l' w1 E HA. induction F as [|[c e] l Hp F IHl]; intros w l' w1 E HA; cbn [inl_cl] in E; [injection E as <- <-; constructor|].
      destruct (inl d j e sig fm s w) as [e1 w2] eqn:E1.
      destruct (inl_cl _ l w2) as [l2 w3] eqn:E2.
      injection E as <- <-. inversion HA; subst. constructor; [cbn in *; eauto|]. eapply IHl; [exact E2|auto].
    - intros x t n y e IHe j sig fm s w e' w' H A. rewrite inl_Eproj in H. cbn [get_fresh_name] in H.
      destruct (inl d j e _ fm s _) as [e1 w1] eqn:E. injection H as <- <-. cbn [returns] in *. eauto.
    - intros x f t ys e IHe j sig fm s w e' w' H A. cbn [returns] in A. rewrite inl_Eletapp in H.
      destruct (update_letApp IH f t (apply_r_list sig ys) s) as [[s1 s2] b].
      assert (K : forall s w, keep_let St IH d j x f t ys e sig fm s w = (e', w') -> returns e').
      { intros s0 w0 K. unfold keep_let in K. cbn [get_fresh_name] in K. destruct (inl d j e _ fm s0 _) as [e1 w1] eqn:E.
        injection K as <- <-. cbn [returns]. eauto. }
      destruct b; [|eauto]. destruct (get f fm) as [[[ft xs] m]|] eqn:G; [|eauto]. destruct d as [|d']; [eauto|].
      destruct j as [|j']; [eauto|]. destruct (_ =? _); [|eauto]. cbn [get_fresh_name split_fuel] in H. cbv zeta in H.
      destruct (inl d' _ m _ (mremove f fm) s1 _) as [e1 w1] eqn:E1.
      destruct (inline_letapp e1 _) as [[C x1]|] eqn:L; [|eauto].
      destruct (inl d' _ e _ fm s2 (click w1)) as [e2 w2] eqn:E2. injection H as <- <-.
      eapply (returns_letapp e1); [exact L|]. eapply (IHd d'); [lia|exact E2|auto].
    - intros B e _ IHe j sig fm s w e' w' H A. rewrite inl_Efun in H. cbv zeta in H.
      destruct (update_funDef IH B sig s) as [s1 s2]. destruct (get_fresh_names _ w) as [ns w1].
      destruct (inl_fds _ _ _ sig _ B s1 w1) as [B1 w2] eqn:E1. destruct (inl d j e _ _ s2 w2) as [e1 w3] eqn:E2. injection H as <- <-.
      cbn [returns] in *. eauto.
    - intros f t ys j sig fm s w e' w' H [].
    - intros x p e IHe j sig fm s w e' w' H A. rewrite inl_Eprim_val in H. cbn [get_fresh_name] in H.
      destruct (inl d j e _ fm s _) as [e1 w1] eqn:E. injection H as <- <-. cbn [returns] in *. eauto.
    - intros x p ys e IHe j sig fm s w e' w' H A. rewrite inl_Eprim in H. cbn [get_fresh_name] in H.
      destruct (inl d j e _ fm s _) as [e1 w1] eqn:E. injection H as <- <-. cbn [returns] in *. eauto.
    - intros x j sig fm s w e' w' H A. rewrite inl_Ehalt in H. injection H as <- <-. exact I.
  Qed.
End Inl2.
