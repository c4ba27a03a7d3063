(** * The shrink reducer: whole programs *)
From Coq Require Import ZArith NArith PArith List Lia Bool Arith Permutation.
From Verif Require Import ANF_Syntax ANF_Eval ANF_Spec ANF_EvalProofs ANF_FreeProofs ANF_Scope ANF_LR ANF_LRProofs ANF_Subst
  ANF_Alpha CC_Scope Shrink_Census Comp_Model
  Shrink_CensusProofs Shrink_Model Shrink_Total Inline_Spec Inline_Model Inline_LetProofs Inline_Syn Inline_Sem Inline_Obs Shrink_Inv Shrink_Env
  Shrink_Bind Shrink_Fold Shrink_Inl Shrink_LetApp Shrink_Sem Shrink_Funs Shrink_Post Shrink_FunSem Shrink_Main.
Import ListNotations.

(** ** Values related to themselves, for any cost relation *)
Section Refl.
  Variables (cenv : ctor_env) (PG : cost_rel).
  Hypothesis SO : step_ok PG PG.
  Hypothesis LO : let_ok PG PG PG.
  Hypothesis HO : PG true 1 1.

  Lemma aeq_id e (P : var -> Prop) : (forall x, free x e -> P x) -> aeq (fun a b => P a /\ a = b) e e.
  Proof.
    intros HP.
    assert (Z : aeq (graph P []) e (rename_all [] e)) by (apply rename_aeq; [auto|discriminate]).
    rewrite rename_all_nil in Z. revert Z. apply (proj1 aeq_mono). intros a b [Pa ->]. auto.
  Qed.

  Lemma vrel_refl_gen : forall v k, vrel cenv PG k v v.
  Proof.
    apply (val_ind2 (fun v => forall k, vrel cenv PG k v v)).
    - intros t vs F k. apply vrel_constr. split; auto. apply Forall2_same. intros v I.
      rewrite Forall_forall in F. auto.
    - intros rho B f F k. revert f. induction k as [k IHk] using lt_wf_ind. intro f. apply vrel_fun.
      intros t xs1 e1 vs1 rho1' vs2 Fd S L.
      assert (S' : length xs1 = length vs2) by (rewrite <- L; eapply set_lists_length; exact S).
      destruct (set_lists_total xs1 vs2 (def_funs B B rho rho) S') as [rho2' S2].
      exists xs1, e1, rho2'. split; [auto|split; [auto|]]. intros j J FV.
      eapply (proj1 (aeq_sem cenv PG SO LO HO)); [apply (aeq_id e1 (fun _ => True)); auto|].
      intros a b [_ <-]. eapply (set_lists_arel cenv PG j xs1 vs1 vs2); eauto. right.
      intros v Gv. rewrite def_funs_get in *. destruct (in_dec Pos.eq_dec a (fnames B)) as [Jy|Jy].
      + injection Gv as <-. eexists. split; [reflexivity|]. apply IHk. lia.
      + exists v. split; auto. exact (get_Forall _ (fun v => forall k, vrel cenv PG k v v) _ _ _ F Gv j).
    - intros p k. destruct k; reflexivity.
    - intros p k. destruct k; reflexivity.
  Qed.

  Lemma erel_same k e rho1 rho2 : (forall x, arel cenv PG k rho1 x rho2 x) -> erel cenv (vrel cenv PG) PG k rho1 e rho2 e.
  Proof.
    intro H. eapply (proj1 (aeq_sem cenv PG SO LO HO)); [apply (aeq_id e (fun _ => True)); auto|].
    intros a b [_ <-]. apply H.
  Qed.
End Refl.

Section Top.
  Variables (cenv : ctor_env) (A G : nat).
  Hypothesis HA : 1 <= A.
  Hypothesis HAG : G + 1 <= A.
  Notation VR := (vrel cenv (slin A G)).

  Lemma slin_refl v k : VR k v v.
  Proof.
    apply vrel_refl_gen; [apply slin_step; lia|apply slin_let; lia|split; cbn; lia].
  Qed.

  Lemma erel_slin_lin B k rho1 e1 rho2 e2 : erel cenv VR (slin A B) k rho1 e1 rho2 e2 -> erel cenv VR (lin A B) k rho1 e1 rho2 e2.
  Proof. apply erel_weaken. intros b c1 c2 [H _]. exact H. Qed.

  Lemma refines_slin v v' : (forall k, VR k v v') -> refines cenv v v'.
  Proof.
    intros V x rho e.
    assert (H : forall k, erel cenv VR (lin A G) k (set x v rho) e (set x v' rho) e).
    { intro k. apply erel_slin_lin. apply erel_same; [apply slin_step; lia|apply slin_let; lia|split; cbn; lia|].
      intros y w Gw. rewrite get_set in *. destruct (Pos.eq_dec y x).
      - injection Gw as <-. eauto.
      - exists w. split; [auto|apply slin_refl]. }
    split.
    - intros c u B. destruct (adequacy_res cenv A G (slin A G) _ _ _ _ H c u B) as (c' & u' & B' & _ & D). eauto.
    - apply (adequacy_div cenv A G (slin A G) _ _ _ _ H).
  Qed.
End Top.

(** ** A program whose names are bound once *)
Lemma start_inv c e : NoDup (bv e) -> (forall x, In x (bv e) -> ~ free x e) ->
  (forall z, cnt z (uses e) <= get_c z c) -> inve (fun _ => 0) [] c e [] [] [].
Proof.
  intros ND FR HC.
  assert (NE : forall w, need (fun w => free w e) [] [] [] w -> free w e).
  { intros w [|[(d & [[] _] & _)|(c0 & t & ys & K & _)]]; [auto|discriminate]. }
  assert (BN : forall z, bnd (bv e) [] [] z = cnt z (bv e)).
  { intro z. unfold bnd, pbv. cbn. lia. }
  constructor.
  - intro z. rewrite apply_r_list_nil. specialize (HC z). unfold pocc. cbn. lia.
  - intro z. rewrite BN. apply cnt_NoDup. auto.
  - intros w Nw. apply NE in Nw. rewrite apply_r_nil, BN.
    assert (K : cnt w (bv e) = 0) by (apply cnt_notIn; intro I; apply (FR w I); auto). auto.
  - reflexivity.
  - reflexivity.
  - reflexivity.
  - reflexivity.
  - discriminate.
  - discriminate.
  - intros d [].
  - constructor.
  - apply uses_free.
  - apply uses_scope.
Qed.

Lemma start_free w fe : need fe [] [] [] w -> fe w.
Proof. intros [|[(d & [[] _] & _)|(c0 & t & ys & K & _)]]; [auto|discriminate]. Qed.

(** names and census after one call of the reducer *)
Lemma pass_names n c e e' s c' im' : NoDup (bv e) -> (forall x, In x (bv e) -> ~ free x e) ->
  (forall z, cnt z (uses e) <= get_c z c) ->
  contract n [] c e [] [] = Some (e', s, c', im') ->
  NoDup (bv e') /\ (forall x, In x (bv e') -> In x (bv e)) /\ (forall x, free x e' -> free x e) /\
  (forall z, cnt z (uses e') <= get_c z c').
Proof.
  intros ND FR HC H.
  destruct (contract_ok [] (S (2 * n)) (2 * n) ltac:(lia) ltac:(lia) n _ _ _ _ _ _ _ _ _ _ _ H (start_inv c e ND FR HC)) as [Q _].
  assert (K : forall z, cnt z (bv e') <= cnt z (bv e)).
  { intro z. pose proof (p_bv _ _ _ _ _ _ _ _ _ _ _ _ Q z) as K. unfold bnd, pbv in K. cbn in K. lia. }
  split; [apply cnt_NoDup; intro z; pose proof (proj1 (cnt_NoDup _) ND z); specialize (K z); lia|].
  split; [intros x I; apply cnt_In in I; apply cnt_In; specialize (K x); lia|].
  split.
  - intros x F. destruct (p_free _ _ _ _ _ _ _ _ _ _ _ _ Q x F) as (w & Nw & ->). rewrite apply_r_nil. apply start_free in Nw. auto.
  - intro z. pose proof (p_cnt _ _ _ _ _ _ _ _ _ _ _ _ Q z) as P. cbv beta in P. lia.
Qed.

Lemma pass_sem n c e e' s c' im' : NoDup (bv e) -> (forall x, In x (bv e) -> ~ free x e) ->
  (forall z, cnt z (uses e) <= get_c z c) ->
  contract n [] c e [] [] = Some (e', s, c', im') ->
  forall cenv rho k, erel cenv (vrel cenv (slin (S (2 * n)) (2 * n))) (slin (S (2 * n)) (2 * n)) k rho e rho e'.
Proof.
  intros ND FR HC H cenv rho k.
  destruct (contract_ok cenv (S (2 * n)) (2 * n) ltac:(lia) ltac:(lia) n _ _ _ _ _ _ _ _ _ _ _ H (start_inv c e ND FR HC)) as [Q S].
  apply S; [lia|]. intros w v Nw Gw. rewrite apply_r_nil. split; [|exact I].
  intros _. exists v. split; [auto|]. apply slin_refl; lia.
Qed.

(** ** The wrapper of [shrink_top] *)
Lemma shrink_top_contract e e' s : shrink_top e = Some (e', s) ->
  exists c c' im', (forall z, cnt z (uses e) <= get_c z c) /\
    contract (term_size e + 4) [] c e [] [] = Some (e', s, c', im').
Proof.
  unfold shrink_top. cbv zeta. set (f := (max_var e 1 + 1)%positive). clearbody f.
  set (e0 := Efun (Fcons f 1%positive (exp_fv e) e Fnil) (Ehalt f)).
  assert (CE : forall z, get_c z (init_census e0) = cnt z (uses e0)).
  { intro z. unfold init_census. rewrite inc_exp, (proj1 rename_nil). reflexivity. }
  assert (U0 : uses e0 = uses e ++ [f]) by (cbn; rewrite app_nil_r; reflexivity).
  assert (CF : exists m, get_c f (init_census e0) = S m).
  { rewrite CE, U0, cnt_app. change [f] with (f :: []). rewrite cnt_cons. destruct (Pos.eq_dec f f); [|congruence].
    rewrite Nat.add_comm. cbn [Nat.add]. eexists. reflexivity. }
  destruct CF as (m & CF).
  assert (DE : depth e0 = S (term_size e + 4)).
  { unfold depth, term_sub_inl_size, e0. cbn. lia. }
  rewrite DE. clear DE. set (c0 := init_census e0) in *. clearbody c0. unfold e0. intro H.
  cbn [contract precontract] in H. rewrite CF in H.
  replace (term_size e + 4) with (S (term_size e + 3)) in H by lia. cbn [postcontractfun] in H.
  change (contract (S (term_size e + 3)) [] c0 (Ehalt f) (set f (SVfun 1%positive (exp_fv e) e) []) [])
    with (Some (Ehalt f, 0, c0, @nil (var * bool))) in H.
  cbv iota beta in H. rewrite CF in H. change (get_b f []) with false in H. cbv iota in H.
  replace (S (term_size e + 3)) with (term_size e + 4) in H by lia.
  match type of H with context [contract ?a ?b ?c e ?d ?i] => destruct (contract a b c e d i) as [[[[e1 s1] c1] im1]|] eqn:HC; [|discriminate] end.
  cbn in H. injection H as <- <-. exists c0, c1, im1. split.
  - intro z. rewrite CE, U0, cnt_app. lia.
  - etransitivity; [exact HC|]. rewrite !Nat.add_0_r. reflexivity.
Qed.
