(* C79: conversion to continuation-passing style (LambdaBoxLocal_to_LambdaANF.v)
   preserves evaluation. *)
From Coq Require Import ZArith List Arith NArith PArith String Bool Lia Permutation.
From Verif Require Import ANF_Syntax ANF_Subst ANF_Eval ANF_Spec ANF_Scope WA_Spec WA_Eval LM_Model LM_Spec LB_Model LB_Spec LB_Env LB_EnvProofs
  LB_EvalProofs AN_Model AN_Spec AN_Eval AN_Proofs AN_Scope CP_Model CP_Spec CP_Proofs CP_Scope CP_Prim
  Properties_LambdaBoxLocal Properties_LambdaBoxMut Properties_ANormal.
Import ListNotations.

Section Statement.
  Variable prims : tmap nat.
  Variables func_tag kon_tag default_tag : positive.
  Variable tgm : conId_map.
  Variable cenv : ctor_env.
  Variable pr : tmap (list val -> option val).
  Notation convert := (convert_whole_exp prims func_tag kon_tag default_tag tgm).

  (* The conversion succeeds on every well-scoped term (without primitives). *)
  Theorem C79_total : forall e s, exp_wf 0 e -> exists e' s', convert s e = Some (e', s').
  Proof.
    intros e s W. unfold convert_whole_exp. cbn [fresh].
    destruct (proj1 (cps_total prims func_tag kon_tag default_tag tgm) e _ W [] s (s + 1 + 1 + 1)%positive eq_refl) as [[r s1] E].
    rewrite E. eauto.
  Qed.

  (* The result is closed. *)
  Theorem C79_closed : forall e s e' s', convert s e = Some (e', s') -> forall x, ~ free x e'.
  Proof.
    intros e s e' s' H x F. unfold convert_whole_exp in H. cbn [fresh] in H. dopt H [[b s1] |] E. injection H as <- <-.
    cbn [free free_body fnames In] in F. destruct F as [N [[Q | [Q | []]] | [[N2 F] | [[N2 F] | []]]]].
    - subst. apply N. auto.
    - subst. apply N. auto.
    - apply (proj1 (cps_free prims func_tag kon_tag default_tag tgm) _ _ _ _ _ _ E) in F. destruct F as [Q | []]. apply N2. auto.
    - subst. apply N2. auto.
  Qed.

  (* The names it binds are the fresh ones taken.  One name, that of the
     outermost continuation, is bound twice; every other name is bound once. *)
  Theorem C79_names : forall e s e' s', convert s e = Some (e', s') ->
    (s < s')%positive /\ (forall x, In x (bv e') -> (s <= x < s')%positive) /\
    exists l, Permutation (bv e') (s :: s :: l) /\ NoDup (s :: l).
  Proof.
    intros e s e' s' H. unfold convert_whole_exp in H. cbn [fresh] in H. dopt H [[b s1] |] E. injection H as <- <-.
    pose proof (proj1 (cps_grows prims func_tag kon_tag default_tag tgm) _ _ _ _ _ _ E) as G.
    destruct (proj1 (cps_bind prims func_tag kon_tag default_tag tgm) _ _ _ _ _ _ E) as [B1 B2]. unfold btw in B2.
    cbn [bv bv_funs app]. rewrite app_nil_r.
    split; [lia |]. split.
    - intros x Hx. in_split; bound; lia.
    - exists ((s + 1)%positive :: (s + 1 + 1)%positive :: bv b). split.
      + transitivity (s :: (s + 1)%positive :: bv b ++ [s; (s + 1 + 1)%positive]); [constructor |].
        constructor. transitivity ((s + 1)%positive :: s :: (s + 1 + 1)%positive :: bv b).
        * constructor. rewrite Permutation_app_comm. apply Permutation_refl.
        * apply perm_swap.
      + repeat (rewrite NoDup_cons_iff). repeat split; auto; intro X; in_split; bound; lia.
  Qed.

  Hypothesis SIG : good_sig default_tag tgm cenv.

  Lemma cps_value : forall n e s e' s' v, uses tgm e -> convert s e = Some (e', s') -> eeval false n [] e = EVal v ->
    exists m v', peval cenv pr m [] e' = PVal v' /\ same_tree default_tag tgm (readback v) v'.
  Proof.
    intros n e s e' s' v U H E.
    pose proof (whole_sim prims func_tag kon_tag default_tag tgm cenv pr SIG n s e e' s' U H) as X. rewrite E in X.
    destruct X as (m & v' & V & P). exists m, v'. split; auto. eapply vrel_tree; eauto.
  Qed.
  Lemma cps_time : forall n e s e' s', uses tgm e -> convert s e = Some (e', s') -> eeval false n [] e = ETime ->
    peval cenv pr n [] e' = PTime.
  Proof.
    intros n e s e' s' U H E.
    pose proof (whole_sim prims func_tag kon_tag default_tag tgm cenv pr SIG n s e e' s' U H) as X. rewrite E in X. exact X.
  Qed.

  (* A term with a value becomes a program with the corresponding value, and no
     other. *)
  Theorem C79_preserves : forall e s e' s' v, exp_wf 0 e -> uses tgm e ->
    convert s e = Some (e', s') -> eval e v -> esafe false e ->
    exists v' c, bstep_e cenv pr [] e' v' c /\ same_tree default_tag tgm v v' /\
      forall w d, bstep_e cenv pr [] e' w d -> w = v'.
  Proof.
    intros e s e' s' v W U H E N. destruct (strict_value e v W E N) as [n [w [X <-]]].
    destruct (cps_value n e s e' s' w U H X) as (m & v' & Y1 & Y2).
    destruct (peval_bstep_e cenv pr _ _ _ Y1) as [c B]. exists v', c. split; auto. split; auto.
    intros w' d B'. apply bstep_e_peval in B'.
    destruct (Nat.le_ge_cases m d) as [L | L].
    - assert (Z := peval_mono cenv pr [] e' L Y1 ltac:(discriminate)). congruence.
    - assert (Z := peval_mono cenv pr [] e' L B' ltac:(discriminate)). congruence.
  Qed.

  (* A term that runs for ever becomes a program that runs for ever. *)
  Theorem C79_preserves_divergence : forall e s e' s', uses tgm e ->
    convert s e = Some (e', s') -> ediverges false e -> forall n, peval cenv pr n [] e' = PTime.
  Proof. intros e s e' s' U H D n. eapply cps_time; eauto. Qed.

  (* A term that does not get stuck becomes a program that does not get stuck,
     and what the program computes is what the term computes. *)
  Theorem C79_preserves_safety : forall e s e' s', uses tgm e ->
    convert s e = Some (e', s') -> esafe false e -> psafe cenv pr [] e'.
  Proof.
    intros e s e' s' U H N n X. destruct (eeval false n [] e) as [v | |] eqn:E; [| | destruct (N n E)].
    - destruct (cps_value n e s e' s' v U H E) as (m & v' & Y1 & _).
      destruct (Nat.le_ge_cases m n) as [L | L].
      + assert (Z := peval_mono cenv pr [] e' L Y1 ltac:(discriminate)). congruence.
      + assert (Z := peval_mono cenv pr [] e' L X ltac:(discriminate)). congruence.
    - rewrite (cps_time n e s e' s' U H E) in X. discriminate.
  Qed.
  Theorem C79_reflects : forall e s e' s' v' c, exp_wf 0 e -> uses tgm e ->
    convert s e = Some (e', s') -> esafe false e -> bstep_e cenv pr [] e' v' c ->
    exists v, eval e v /\ same_tree default_tag tgm v v'.
  Proof.
    intros e s e' s' v' c W U H N B. apply bstep_e_peval in B.
    destruct (eeval false c [] e) as [w | |] eqn:E; [| | destruct (N c E)].
    - destruct (cps_value c e s e' s' w U H E) as (m & u & Y1 & Y2).
      assert (u = v').
      { destruct (Nat.le_ge_cases m c) as [L | L].
        - assert (Z := peval_mono cenv pr [] e' L Y1 ltac:(discriminate)). congruence.
        - assert (Z := peval_mono cenv pr [] e' L B ltac:(discriminate)). congruence. }
      subst u. exists (readback w). split; auto. apply C54_evaluator_exact; auto. exists c, w. split; auto.
      destruct (eeval_strict c [] e); congruence.
    - rewrite (cps_time c e s e' s' U H E) in B. discriminate.
  Qed.

  (* From the erased language with its global environment, for data results. *)
  Theorem C79_from_erased : forall p t s e' s' r v, crctEnv p -> crct p 0 t -> globals_ok p ->
    uses tgm (translate_program [] p t) -> convert s (translate_program [] p t) = Some (e', s') ->
    esafe false (translate_program [] p t) -> WcbvEval p t r -> same_data r v ->
    exists v' c, bstep_e cenv pr [] e' v' c /\ same_tree default_tag tgm v v'.
  Proof.
    intros p t s e' s' r v CE CT GO U H N E D.
    assert (X := proj2 (C66_data p t CE CT GO r v D) E).
    destruct (C79_preserves _ _ _ _ _ (C49_well_formed p t CE CT) U H X N) as [v' [c [A [B _]]]]. eauto.
  Qed.
End Statement.

(* Both conversions agree: the program in continuation-passing style and the
   program in direct style give corresponding values. *)
Theorem C79_agrees_with_direct : forall prims ft kt ft' dt tgm cenv pr e s1 e1 s1' s2 e2 s2',
  good_sig dt tgm cenv -> exp_wf 0 e -> uses tgm e -> esafe false e ->
  convert_whole_exp prims ft kt dt tgm s1 e = Some (e1, s1') ->
  convert_anf_exp prims ft' dt tgm s2 e = Some (e2, s2') ->
  forall v1 c, bstep_e cenv pr [] e1 v1 c ->
  exists v2 c2 v, bstep_e cenv pr [] e2 v2 c2 /\ same_tree dt tgm v v1 /\ same_tree dt tgm v v2.
Proof.
  intros prims ft kt ft' dt tgm cenv pr e s1 e1 s1' s2 e2 s2' SIG W U N H1 H2 v1 c B.
  destruct (C79_reflects prims ft kt dt tgm cenv pr SIG _ _ _ _ _ _ W U H1 N B) as (v & E & T).
  destruct (C54_preserves prims ft' dt tgm cenv pr SIG _ _ _ _ _ W U H2 E N) as (v2 & c2 & B2 & T2 & _).
  exists v2, c2, v. auto.
Qed.

(* A registered primitive of arity n becomes a function that, given n arguments
   one at a time and a continuation each time, computes the primitive on them in
   order. *)
Theorem C79_primitive : forall cenv pr prims func_tag kon_tag default_tag tgm p n s vs f r,
  get p prims = Some n -> List.length vs = n -> get p pr = Some f -> f vs = Some r ->
  exists e' s' g c, convert_whole_exp prims func_tag kon_tag default_tag tgm s (Prim_e p) = Some (e', s') /\
    bstep_e cenv pr [] e' g c /\ kapplied cenv pr func_tag kon_tag g vs r.
Proof.
  intros cenv pr prims func_tag kon_tag default_tag tgm p n s vs f r GP LV GF FV.
  unfold convert_whole_exp. cbn [fresh cps_cvt]. rewrite GP.
  destruct (convert_prim func_tag kon_tag n p [] s (s + 1 + 1 + 1)) as [b s'] eqn:E.
  set (k := s). set (g := (s + 1)%positive). set (x := (g + 1)%positive).
  set (B := Fcons g kon_tag [k] b (Fcons k kon_tag [x] (Ehalt x) Fnil)).
  set (kv := Vfun [] B k). set (r0 := def_funs B B [] []).
  assert (GK : get k r0 = Some kv) by (apply get_def_funs_in; right; left; reflexivity).
  assert (GG : get g r0 = Some (Vfun [] B g)) by (apply get_def_funs_in; left; reflexivity).
  destruct (prim_run cenv pr func_tag kon_tag n p [] k _ b s' E ltac:(intros y []) ltac:(unfold k; lia) (set k kv r0) kv [] vs f r
    (get_set_same _ _ _ _) eq_refl LV GF FV) as (w & RW & KW).
  assert (PV : peval cenv pr 2 [] (Efun B (Eapp g kon_tag [k])) = PVal w).
  { change (peval cenv pr 2 r0 (Eapp g kon_tag [k]) = PVal w).
    rewrite (peval_app cenv pr 2 r0 g kon_tag [k] (Vfun [] B g) [kv]); [| exact GG | cbn [get_list]; rewrite GK; reflexivity].
    erewrite callf_S; [| unfold B; cbn [find_def]; destruct (Pos.eq_dec g g); [reflexivity | congruence] | reflexivity].
    etransitivity; [apply RW |]. unfold kv. erewrite callf_S.
    2:{ unfold B. cbn [find_def]. destruct (Pos.eq_dec k g) as [Q |]; [unfold g, k in Q; lia |].
        destruct (Pos.eq_dec k k); [reflexivity | congruence]. }
    2:{ reflexivity. }
    unfold WA_Spec.peval. cbn [WA_Spec.ev]. rewrite get_set_same. reflexivity. }
  destruct (peval_bstep_e cenv pr _ _ _ PV) as [c BS].
  eexists _, s', w, c. split; [reflexivity |]. split; [exact BS | exact KW].
Qed.

(* ---- Examples ---- *)

Definition zk_out : exp :=
  match convert_whole_exp [] 3 2 99 z_tgm 100 x_prog with Some (e, _) => e | None => Ehalt 1%positive end.

Example C79_total_ex : exp_wf 0 x_prog /\ uses z_tgm x_prog /\
  exists s', convert_whole_exp [] 3 2 99 z_tgm 100 x_prog = Some (zk_out, s') /\ (s' = 140)%positive.
Proof. split; [exact x_prog_wf |]. split; [exact x_prog_uses |]. eexists. split; vm_compute; reflexivity. Qed.
Example C79_names_ex : (forall x, ~ free x zk_out) /\ List.length (bv zk_out) = 41 /\
  count_occ Pos.eq_dec (bv zk_out) 100%positive = 2.
Proof.
  destruct C79_total_ex as (_ & _ & s' & E & _). split; [exact (C79_closed _ _ _ _ _ _ _ _ _ E) |].
  split; vm_compute; reflexivity.
Qed.
Example C79_preserves_ex : good_sig 99 z_tgm z_cenv /\ esafe false x_prog /\ eval x_prog x_four /\
  same_tree 99 z_tgm x_four (z_num 4) /\ exists c, bstep_e z_cenv [] [] zk_out (z_num 4) c.
Proof.
  split; [exact z_sig |]. split; [exact x_prog_safe |].
  split; [apply (proj1 (eval_n_sound 30)); vm_compute; reflexivity |].
  split.
  - repeat (first [ apply st_nil | apply st_cons | apply (st_con 99 z_tgm (x_nat, 0%N))
                  | apply (st_con 99 z_tgm (x_nat, 1%N)) ]).
  - apply (peval_bstep_e z_cenv [] 60). vm_compute; reflexivity.
Qed.
(* both conversions of the program give 4 *)
Example C79_agrees_with_direct_ex : exists c1 c2,
  bstep_e z_cenv [] [] zk_out (z_num 4) c1 /\ bstep_e z_cenv [] [] z_out (z_num 4) c2.
Proof.
  destruct C79_preserves_ex as (_ & _ & _ & _ & c1 & A). destruct C54_preserves_ex as (_ & _ & _ & _ & c2 & B).
  exists c1, c2. auto.
Qed.
Example C79_preserves_divergence_ex : uses z_tgm z_loop /\ ediverges false z_loop /\
  esafe false z_loop /\
  exists e' s', convert_whole_exp [] 3 2 99 z_tgm 100 z_loop = Some (e', s') /\ peval z_cenv [] 50 [] e' = PTime.
Proof.
  split; [repeat split; try apply z_known; lia |].
  split; [apply z_loop_diverges |].
  split; [intros n; rewrite z_loop_diverges; discriminate |].
  eexists _, _. split; [vm_compute; reflexivity | vm_compute; reflexivity].
Qed.
Example C79_from_erased_ex :
  crctEnv y_env /\ crct y_env 0 y_main /\ globals_ok y_env /\
  uses z_tgm (translate_program [] y_env y_main) /\ esafe false (translate_program [] y_env y_main) /\
  WcbvEval y_env y_main (y_num 8) /\ same_data (y_num 8) (x_num 8) /\
  exists e' s' c, convert_whole_exp [] 3 2 99 z_tgm 100 (translate_program [] y_env y_main) = Some (e', s') /\
    bstep_e z_cenv [] [] e' (z_num 8) c.
Proof.
  destruct C54_from_erased_ex as (A1 & A2 & A3 & A4 & A5 & A6 & A7 & _).
  repeat (split; [assumption |]).
  assert (PV : match convert_whole_exp [] 3 2 99 z_tgm 100 (translate_program [] y_env y_main) with
               | Some (e', _) => peval z_cenv [] 100 [] e' = PVal (z_num 8) | None => False end) by (vm_compute; reflexivity).
  destruct (convert_whole_exp [] 3 2 99 z_tgm 100 (translate_program [] y_env y_main)) as [[e' s'] |]; [| destruct PV].
  destruct (peval_bstep_e _ _ _ _ _ PV) as [c B]. exists e', s', c. auto.
Qed.
(* subtraction, applied to 50 and then 8, each time with the continuation that
   returns its argument *)
Definition zk_stop : val := Vfun [] (Fcons 1%positive 2%positive [2%positive] (Ehalt 2%positive) Fnil) 1%positive.
Example C79_primitive_ex :
  get 7%positive [(7%positive, 2)] = Some 2 /\
  z_sub [Vprim (PVint 50%Z); Vprim (PVint 8%Z)] = Some (Vprim (PVint 42%Z)) /\
  exists e' s' g h, convert_whole_exp [(7%positive, 2)] 3 2 99 z_tgm 100 (Prim_e 7%positive) = Some (e', s') /\
    peval z_cenv [(7%positive, z_sub)] 5 [] e' = PVal g /\
    callf z_cenv [(7%positive, z_sub)] 5 g 3%positive [zk_stop; Vprim (PVint 50%Z)] = PVal h /\
    callf z_cenv [(7%positive, z_sub)] 5 h 3%positive [zk_stop; Vprim (PVint 8%Z)] = PVal (Vprim (PVint 42%Z)).
Proof.
  split; [reflexivity |]. split; [reflexivity |]. eexists _, _, _, _.
  split; [vm_compute; reflexivity |]. split; [vm_compute; reflexivity |].
  split; vm_compute; reflexivity.
Qed.

(* The program does not bind every variable once, which all later passes assume
   of their input: the name of the outermost continuation is a function of the
   bundle and a parameter of the other function of the bundle. *)
Theorem C79_unique_bindings_refuted : exists e e' s', exp_wf 0 e /\ uses z_tgm e /\
  convert_whole_exp [] 3 2 99 z_tgm 100 e = Some (e', s') /\ ~ NoDup (bv e').
Proof.
  exists x_prog, zk_out. destruct C79_total_ex as (A & B & s' & C & _). exists s'. repeat (split; [assumption |]).
  destruct (C79_names _ _ _ _ _ _ _ _ _ C) as (_ & _ & l & P & _). intro N.
  apply (Permutation_NoDup P) in N. inversion N; subst. apply H1. left. reflexivity.
Qed.
(* Nor can an erased proof be applied after conversion. *)
Theorem C79_applied_proof_refuted : exists t,
  crct [] 0 t /\ WcbvEval [] t TProof /\
  eval (translate_program [] [] t) Prf_e /\ uses z_tgm (translate_program [] [] t) /\
  exists e' s', convert_whole_exp [] 3 2 99 z_tgm 100 (translate_program [] [] t) = Some (e', s') /\
    forall pr v c, ~ bstep_e z_cenv pr [] e' v c.
Proof.
  exists (TApp TProof TProof).
  split; [cbn; auto |]. split; [eapply (C50_sound _ 5); reflexivity |].
  split; [apply (proj1 (eval_n_sound 5)); reflexivity |]. split; [cbn; auto |].
  eexists _, _. split; [vm_compute; reflexivity |].
  intros pr v c B. apply bstep_e_peval in B.
  match type of B with peval _ _ _ _ ?e = _ => assert (X : peval z_cenv pr 10 [] e = PStuck) by (vm_compute; reflexivity) end.
  destruct (Nat.le_ge_cases c 10) as [L | L].
  - assert (Z := peval_mono z_cenv pr [] _ L B ltac:(discriminate)). rewrite X in Z. discriminate.
  - assert (Z := peval_mono z_cenv pr [] _ L X ltac:(discriminate)). congruence.
Qed.

Print Assumptions C79_total.
Print Assumptions C79_closed.
Print Assumptions C79_names.
Print Assumptions C79_preserves.
Print Assumptions C79_preserves_divergence.
Print Assumptions C79_preserves_safety.
Print Assumptions C79_reflects.
Print Assumptions C79_from_erased.
Print Assumptions C79_agrees_with_direct.
Print Assumptions C79_primitive.
Print Assumptions C79_unique_bindings_refuted.
Print Assumptions C79_applied_proof_refuted.
