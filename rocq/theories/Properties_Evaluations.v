(** C94: the definitions of evaluation of the intermediate language agree.
    Model: SV_Model.v, ANF_Eval.v; specification: SV_Spec.v; proofs: SV_Proofs.v. *)
From Coq Require Import ZArith NArith List Bool Lia.
From Coq Require Import Relations.
From Verif Require Import ANF_Syntax ANF_Eval SV_Model SV_Spec SV_Proofs.
Import ListNotations.

(** A program that calls the identity on a constructed value and takes its field *)
Definition id_funs : fundefs := Fcons 1%positive 9%positive [2%positive] (Ehalt 2%positive) Fnil.
Definition ex_app : exp :=
  Efun id_funs
   (Econstr 3%positive 5%positive []
    (Econstr 4%positive 6%positive [3%positive]
     (Eproj 7%positive 6%positive 0%N 4%positive
      (Eapp 1%positive 9%positive [7%positive])))).
(** The same with the result of the call bound to a name *)
Definition ex_letapp : exp :=
  Efun id_funs
   (Econstr 3%positive 5%positive []
    (Eletapp 8%positive 1%positive 9%positive [3%positive] (Ehalt 8%positive))).
(** A literal *)
Definition ex_lit : exp := Eprim_val 3%positive (PVint 7) (Ehalt 3%positive).

(** ** The evaluator *)

(** The evaluator returns a value, with some fuel, exactly if the relation gives it; more fuel changes
    neither a value nor an exception; after an exception there is no value. *)
Theorem C94_evaluator : forall pr cenv rho e,
  (forall v, (exists c, bstep_e pr cenv rho e v c) <->
             (exists n, bstep_f pr cenv rho e n = Ret (inr v))) /\
  (forall n m r, n <= m -> bstep_f pr cenv rho e n = r -> (forall st, r <> Ret (inl st)) ->
     bstep_f pr cenv rho e m = r) /\
  (forall n, bstep_f pr cenv rho e n = Exc -> forall v c, ~ bstep_e pr cenv rho e v c).
Proof.
  intros pr cenv rho e. split; [|split].
  - intro v. split.
    + intros [c H]. eapply bstep_f_complete. exact H.
    + intros [n H]. eapply bstep_f_sound. exact H.
  - intros n m r. apply bstep_f_mono.
  - intros n H v c B. destruct (bstep_f_complete _ _ _ _ _ _ B) as [m M].
    assert (E1 : bstep_f pr cenv rho e (n + m) = Exc)
      by (apply bstep_f_mono with (n := n); [lia|exact H|discriminate]).
    assert (E2 : bstep_f pr cenv rho e (n + m) = Ret (inr v))
      by (apply bstep_f_mono with (n := m); [lia|exact M|discriminate]).
    congruence.
Qed.

Example C94_evaluator_ex :
  bstep_f [] [] [] ex_letapp 5 = Ret (inr (Vconstr 5%positive [])) /\
  (exists st, bstep_f [] [] [] ex_letapp 3 = Ret (inl st)) /\
  bstep_f [] [] [] (Ehalt 3%positive) 1 = Exc.
Proof. split; [reflexivity|]. split; [eexists; reflexivity|reflexivity]. Qed.

(** ** Costs *)

Lemma bstep_e_det : forall pr cenv rho e v1 c1, bstep_e pr cenv rho e v1 c1 ->
  forall v2 c2, bstep_e pr cenv rho e v2 c2 -> v1 = v2 /\ c1 = c2.
Proof.
  induction 1; intros v2 c2 B; inversion B; subst;
    repeat match goal with
           | A : ?a = Some _, B : ?a = Some _ |- _ =>
               rewrite A in B; injection B; clear B; intros; subst
           end; auto.
  - clear H3. edestruct IHbstep_e; [eassumption|]. subst. auto.
  - clear H3 H4. edestruct IHbstep_e1; [eassumption|]. subst.
    edestruct IHbstep_e2; [eassumption|]. subst. auto.
Qed.

(** The semantics with costs gives the same values, and the cost of a run exceeds the number of its
    calls. *)
Theorem C94_cost : forall pr cenv rho e v,
  ((exists c, bstep_e pr cenv rho e v c) <-> (exists k, bstep_cost pr cenv rho e v k)) /\
  (forall c k, bstep_e pr cenv rho e v c -> bstep_cost pr cenv rho e v k -> c < k).
Proof.
  intros pr cenv rho e v. split; [split|].
  - intros [c H]. eapply cost_complete. exact H.
  - intros [k H]. destruct (cost_sound _ _ _ _ _ _ H) as [c [A _]]. exists c. exact A.
  - intros c k A B. destruct (cost_sound _ _ _ _ _ _ B) as [c' [A' L]].
    destruct (bstep_e_det _ _ _ _ _ _ A _ _ A') as [_ ->]. exact L.
Qed.

Example C94_cost_ex : exists v c k,
  bstep_e [] [] [] ex_app v c /\ c = 1 /\ bstep_cost [] [] [] ex_app v k /\ k = 8.
Proof.
  exists (Vconstr 5%positive []). eexists. eexists. split; [|split; [|split]].
  - apply BStep_fun. eapply BStep_constr; [reflexivity|]. eapply BStep_constr; [reflexivity|].
    eapply BStep_proj; [reflexivity|reflexivity|].
    eapply BStep_app; [reflexivity|reflexivity|reflexivity|reflexivity|]. apply BStep_halt. reflexivity.
  - reflexivity.
  - apply BStepc_fun. eapply BStepc_constr; [reflexivity|]. eapply BStepc_constr; [reflexivity|].
    eapply BStepc_proj; [reflexivity|reflexivity|].
    eapply BStepc_app; [reflexivity|reflexivity|reflexivity|reflexivity|]. apply BStepc_halt. reflexivity.
  - reflexivity.
Qed.

(** ** Fuel *)

(** The semantics with fuel gives no other values.  It gives all of them to a program that contains
    no literals and no primitive operations, also in the closures it is given. *)
Theorem C94_fuel_partial : forall pr cenv rho e v,
  ((exists c, bstep_fuel cenv rho e c (Res v)) -> exists c, bstep_e pr cenv rho e v c) /\
  (forms_prims true false false pr -> forms_env true false false rho ->
   forms_e true false false e ->
   (exists c, bstep_e pr cenv rho e v c) -> exists c, bstep_fuel cenv rho e c (Res v)).
Proof.
  intros pr cenv rho e v. split.
  - intros [c H]. eapply (proj2 (fuel_sound pr cenv)); [exact H|reflexivity].
  - intros P E F [c H]. destruct (fuel_complete pr cenv P _ _ _ _ H E F) as [k K].
    exists (k + 1). constructor. exact K.
Qed.

Example C94_fuel_ex :
  forms_prims true false false [] /\ forms_env true false false [] /\
  forms_e true false false ex_letapp /\
  exists v c, bstep_e [] [] [] ex_letapp v c.
Proof.
  split; [intros f f' vs v H; discriminate|]. split; [constructor|]. split; [cbn; tauto|].
  exists (Vconstr 5%positive []). apply (bstep_f_sound _ _ 5). reflexivity.
Qed.

(** A literal has a value for the evaluator, but none with any fuel: the relation that the theorems of
    correctness speak about has no rule for it. *)
Theorem C94_fuel_refuted : exists e v,
  bstep_f [] [] [] e 2 = Ret (inr v) /\ bstep_e [] [] [] e v 0 /\
  forall c v', ~ bstep_fuel [] [] e c (Res v').
Proof.
  exists ex_lit, (Vprim (PVint 7)). split; [reflexivity|]. split.
  - apply BStep_prim_val. apply BStep_halt. reflexivity.
  - intros c v' H. inversion H; subst.
    match goal with B : bstep _ _ _ _ _ |- _ => inversion B end.
Qed.

(** ** Small steps *)

(** Small steps that end at a value give a value of the big steps.  All of these are reached by
    programs that contain no call whose result is used and no literal. *)
Theorem C94_small_partial : forall pr cenv rho e v,
  ((exists s, mstep pr cenv (rho, e) s /\ halt_state s v) -> exists c, bstep_e pr cenv rho e v c) /\
  (forms_prims false false true pr -> forms_env false false true rho ->
   forms_e false false true e ->
   (exists c, bstep_e pr cenv rho e v c) -> exists s, mstep pr cenv (rho, e) s /\ halt_state s v).
Proof.
  intros pr cenv rho e v. split.
  - intros [s [H HV]]. exact (mstep_sound pr cenv _ _ H _ HV).
  - intros P E F [c H]. exact (mstep_complete pr cenv P _ _ _ _ H E F).
Qed.

Example C94_small_ex :
  forms_prims false false true [] /\ forms_env false false true [] /\
  forms_e false false true ex_app /\
  exists v c, bstep_e [] [] [] ex_app v c.
Proof.
  split; [intros f f' vs v H; discriminate|]. split; [constructor|]. split; [cbn; tauto|].
  exists (Vconstr 5%positive []). apply (bstep_f_sound _ _ 6). reflexivity.
Qed.

(** The equivalence that eval.v states and leaves open (lines 1640-1687) is false: a closed program
    with a value that no sequence of small steps reaches. *)
Theorem C94_small_refuted : exists e v,
  (exists c, bstep_e [] [] [] e v c) /\
  forall s v', mstep [] [] ([], e) s -> ~ halt_state s v'.
Proof.
  exists ex_letapp, (Vconstr 5%positive []). split.
  - apply (bstep_f_sound _ _ 5). reflexivity.
  - intros s v' H HV.
    inversion H as [|y1 z1 S1 M1]; subst; [inversion HV|].
    inversion S1; subst. inversion M1 as [|y2 z2 S2 M2]; subst; [inversion HV|].
    inversion S2; subst. inversion M2 as [|y3 z3 S3 M3]; subst; [inversion HV|]. inversion S3.
Qed.

(** ** Reduction of a case *)

(** [preord_exp_Ecase_red] is admitted in LambdaBoxLocal_to_LambdaANF_correct.v:962-975 and
    LambdaBoxLocal_to_LambdaANF_anf_correct.v:525-535: the branch selected by the tag of a value would be
    approximated by the case.  It is false: the other branches may be of another type, and then the
    case has no value with any fuel, although the branch has one after a single step. *)
Theorem C94_case_refuted : exists cenv rho y P t vs e v,
  get y rho = Some (Vconstr t vs) /\ find_tag_nth P t e 1 /\ bstep_fuel cenv rho e 1 (Res v) /\
  forall c v', ~ bstep_fuel cenv rho (Ecase y P) c (Res v').
Proof.
  exists [(5%positive, {| ctor_ind_tag := 1%positive; ctor_arity := 0; ctor_ordinal := 0 |});
          (6%positive, {| ctor_ind_tag := 2%positive; ctor_arity := 0; ctor_ordinal := 0 |})],
    [(3%positive, Vconstr 5%positive [])], 3%positive,
    [(5%positive, Ehalt 3%positive); (6%positive, Ehalt 3%positive)], 5%positive, [], (Ehalt 3%positive),
    (Vconstr 5%positive []).
  split; [reflexivity|]. split; [constructor|]. split.
  - apply (BStepf_run _ _ _ _ 0). constructor. reflexivity.
  - intros c v' H. inversion H; subst.
    match goal with B : bstep _ _ _ _ _ |- _ => inversion B; subst end.
    match goal with G : get _ _ = Some _ |- _ => cbn in G; injection G as <- <- end.
    match goal with C : caseConsistent_f _ _ _ = true |- _ => cbn in C; discriminate end.
Qed.

Print Assumptions C94_evaluator.
Print Assumptions C94_cost.
Print Assumptions C94_fuel_partial.
Print Assumptions C94_fuel_refuted.
Print Assumptions C94_small_partial.
Print Assumptions C94_small_refuted.
Print Assumptions C94_case_refuted.
