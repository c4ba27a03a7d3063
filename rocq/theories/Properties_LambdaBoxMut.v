(* C49, C50, C66: the erased language LambdaBoxMut and its translation to
   LambdaBoxLocal. *)
From Coq Require Import List Arith NArith String Bool Lia.
From Verif Require Import LB_Model LB_Spec LB_Proofs LB_EvalProofs
  LM_Model LM_Spec LM_Proofs LM_TransProofs.
Import ListNotations.
Local Open Scope nat_scope.

(* ---- a program for the examples ----
   double := fix double n := match n with O => O | S m => S (S (double m)) end
   two    := S (S O)
   main   := let k := double two in (fun x => double x) k *)
Definition y_nat : inductive := ("nat"%string, 0).
Definition y_O : Term := TConstruct y_nat 0 tnil.
Definition y_S (e : Term) : Term := TConstruct y_nat 1 (tcons e tnil).
Definition y_double : Term :=
  TFix (dcons nAnon (TLambda nAnon
          (TCase y_nat (TRel 0)
            (bcons [] y_O
            (bcons [nAnon] (y_S (y_S (TApp (TRel 2) (TRel 0)))) bnil)))) 0 dnil) 0.
Definition y_env : environ :=
  [("four"%string, ecTrm (TApp (TConst "double"%string) (TConst "two"%string)));
   ("two"%string, ecTrm (y_S (y_S y_O)));
   ("nat"%string, ecTyp 0);
   ("double"%string, ecTrm y_double)].
Definition y_main : Term :=
  TLetIn nAnon (TApp (TConst "double"%string) (TConst "two"%string))
    (TApp (TLambda nAnon (TApp (TConst "double"%string) (TRel 0))) (TRel 0)).
Fixpoint y_num (n : nat) : Term := match n with 0 => y_O | S n => y_S (y_num n) end.
Fixpoint x_num (n : nat) : lexp :=
  match n with 0 => Con_e (y_nat, 0%N) enil | S n => Con_e (y_nat, 1%N) (econs (x_num n) enil) end.

Lemma y_env_ok : crctEnv y_env.
Proof. cbn. repeat (split; try lia; try discriminate; auto). Qed.
Lemma y_main_ok : crct y_env 0 y_main.
Proof. cbn. repeat (split; try lia; try discriminate; auto). Qed.
Lemma y_main_eval : WcbvEval y_env y_main (y_num 8).
Proof. apply (proj1 (wcbv_sound y_env 40)). vm_compute. reflexivity. Qed.

(* ================= C50 ================= *)

(* A term has at most one value. *)
Theorem C50_single_valued : forall p t s r, WcbvEval p t s -> WcbvEval p t r -> s = r.
Proof. intros p t s r A B. exact (proj1 (weval_det p) t s A r B). Qed.

(* The timed evaluator answers only what the relation derives.  This is the
   half left admitted in the code. *)
Theorem C50_sound : forall p n t s, wcbvEval p n t = Some s -> WcbvEval p t s.
Proof. intros p n. exact (proj1 (wcbv_sound p n)). Qed.

(* ... and answers it for all large enough timers. *)
Theorem C50_complete : forall p t s, WcbvEval p t s ->
  exists n, forall m, n <= m -> wcbvEval p m t = Some s.
Proof. intros p. exact (proj1 (wcbv_complete p)). Qed.

(* An answer stays the same with a larger timer. *)
Theorem C50_monotone : forall p n m t s,
  wcbvEval p n t = Some s -> n <= m -> wcbvEval p m t = Some s.
Proof. intros. eapply wcbv_mono; eauto. Qed.

(* The same three facts for argument lists. *)
Theorem C50_lists : forall p ts ss,
  ((exists n, wcbvEvals p n ts = Some ss) <-> WcbvEvals p ts ss) /\
  (WcbvEvals p ts ss -> forall rs, WcbvEvals p ts rs -> ss = rs).
Proof.
  intros p ts ss. repeat split.
  - intros [n H]. exact (proj2 (wcbv_sound p n) ts ss H).
  - intros H. destruct (proj2 (wcbv_complete p) ts ss H) as [n X]. exists n; auto.
  - intros A rs B. exact (proj2 (weval_det p) ts ss A rs B).
Qed.

Example C50_ex : wcbvEval y_env 40 y_main = Some (y_num 8) /\ wcbvEval y_env 5 y_main = None /\
  WcbvEval y_env y_main (y_num 8) /\ y_main <> y_num 8.
Proof. repeat split; try (vm_compute; reflexivity). exact y_main_eval. discriminate. Qed.

(* A term without a value: the evaluator answers nothing at any timer. *)
Definition y_loop : Term :=
  TApp (TFix (dcons nAnon (TLambda nAnon (TApp (TRel 1) (TRel 0))) 0 dnil) 0) TProof.
Theorem C50_no_value_no_answer : forall p t,
  (forall s, ~ WcbvEval p t s) <-> (forall n, wcbvEval p n t = None).
Proof.
  intros p t; split.
  - intros H n. destruct (wcbvEval p n t) eqn:E; auto. destruct (H t0). eapply C50_sound; eauto.
  - intros H s X. destruct (C50_complete _ _ _ X) as [n A]. specialize (A n (le_n n)). congruence.
Qed.
Lemma y_loop_none : forall p n, wcbvEval p n y_loop = None.
Proof.
  assert (A : forall p m n, n <= m -> wcbvEval p n y_loop = None /\
    wcbvEval p n (TApp (TLambda nAnon (TApp (TFix (dcons nAnon (TLambda nAnon (TApp (TRel 1) (TRel 0))) 0 dnil) 0) (TRel 0))) TProof) = None).
  { intros p. induction m; intros n L.
    - assert (n = 0) by lia; subst. split; reflexivity.
    - destruct n as [|[|n]]; [split; reflexivity | split; reflexivity |].
      destruct (IHm (S n) ltac:(lia)) as [A B]. split.
      + change (wcbvEval p (S n) (TApp (TLambda nAnon (TApp (TFix (dcons nAnon (TLambda nAnon (TApp (TRel 1) (TRel 0))) 0 dnil) 0) (TRel 0))) TProof) = None).
        exact B.
      + change (wcbvEval p (S n) y_loop = None). exact A. }
  intros p n. apply (A p n n). auto.
Qed.
Example C50_no_value_no_answer_ex : crct [] 0 y_loop /\ forall s, ~ WcbvEval [] y_loop s.
Proof.
  split; [cbn; repeat (split; try lia; auto) |].
  apply C50_no_value_no_answer. apply y_loop_none.
Qed.

(* Values have one of five forms - abstraction, fixpoint, proof, literal, or a
   constructor applied to values - and are their own values.  So the rule for
   applying a stuck head never produces a value at top level. *)
Theorem C50_values : forall p t s, WcbvEval p t s ->
  answer s /\ WcbvEval p s s /\ forall f a, s <> TApp f a.
Proof.
  intros p t s H. assert (A := proj1 (eval_answer p) t s H). split; auto.
  split; [apply answer_eval; auto |]. intros f a E. subst. inversion A.
Qed.
Example C50_values_ex :
  WcbvEval y_env (TConst "double"%string) y_double /\ answer y_double /\ ~ answer y_main.
Proof.
  split; [apply (C50_sound _ 3); reflexivity |]. split; [constructor |]. intros A; inversion A.
Qed.

(* Evaluating a well-formed program never leaves the well-formed terms. *)
Theorem C50_preserves_wf : forall p t s,
  crctEnv p -> crct p 0 t -> WcbvEval p t s -> crct p 0 s.
Proof. intros p t s H C E. exact (proj1 (weval_crct p H) t s E C). Qed.
Example C50_preserves_wf_ex : crctEnv y_env /\ crct y_env 0 y_main /\ WcbvEval y_env y_main (y_num 8).
Proof. exact (conj y_env_ok (conj y_main_ok y_main_eval)). Qed.

(* Adding fresh definitions in front neither adds nor removes values. *)
Theorem C50_more_globals : forall nm ec p t s,
  crctEnv p -> lookup nm p = None -> crct p 0 t ->
  (WcbvEval ((nm, ec) :: p) t s <-> WcbvEval p t s).
Proof.
  intros nm ec p t s H F C. split.
  - intros E. eapply (proj1 (weval_strengthen p _ (ext_cons nm ec p F) H)); eauto.
  - intros E. eapply (proj1 (weval_ext p _ (ext_cons nm ec p F))); eauto.
Qed.
Example C50_more_globals_ex :
  crctEnv y_env /\ lookup "loop"%string y_env = None /\ crct y_env 0 y_main /\
  WcbvEval (("loop"%string, ecTrm y_loop) :: y_env) y_main (y_num 8).
Proof.
  repeat (split; [first [exact y_env_ok | exact y_main_ok | reflexivity] |]).
  apply C50_more_globals; [exact y_env_ok | reflexivity | exact y_main_ok | exact y_main_eval].
Qed.
(* Freshness is needed: a later definition shadows. *)
Theorem C50_shadowing_refuted : exists nm ec p t s,
  crctEnv p /\ crct p 0 t /\ WcbvEval p t s /\ ~ WcbvEval ((nm, ec) :: p) t s.
Proof.
  exists "two"%string, (ecTrm y_O), y_env, (TConst "two"%string), (y_num 2).
  split; [exact y_env_ok |]. split; [cbn; discriminate |].
  split; [apply (C50_sound _ 9); reflexivity |].
  intros H. assert (X : WcbvEval (("two"%string, ecTrm y_O) :: y_env) (TConst "two"%string) y_O)
    by (apply (C50_sound _ 9); reflexivity).
  pose proof (C50_single_valued _ _ _ _ H X). discriminate.
Qed.

(* ================= C49 ================= *)

(* The translated program mentions no outer variable, whatever the primitives. *)
Theorem C49_closed : forall prims p t,
  scopedEnv prims p -> scoped (avail prims p) 0 t -> closed (translate_program prims p t).
Proof.
  intros prims p t H C. unfold translate_program. apply mkLets_occurs; auto.
  apply translate_occurs; auto.
Qed.
Example C49_closed_ex :
  let prims := [("add"%string, 1%positive)] in
  let t := TApp (TApp (TConst "add"%string) (TConst "four"%string)) y_main in
  scopedEnv prims y_env /\ scoped (avail prims y_env) 0 t /\ find_prim prims "add"%string = Some 1%positive.
Proof.
  cbn. unfold avail. repeat split; try lia;
    try (left; eexists; left; reflexivity);
    right; eexists; cbn;
    repeat (first [left; reflexivity | right]).
Qed.

(* Without primitives the result satisfies the well-formedness invariant of the
   target language. *)
Theorem C49_well_formed : forall p t,
  crctEnv p -> crct p 0 t -> exp_wf 0 (translate_program [] p t).
Proof. exact program_wf. Qed.
Example C49_well_formed_ex : crctEnv y_env /\ crct y_env 0 y_main /\
  exists b, translate_program [] y_env y_main = Let_e (nNamed "double"%string) b
    (Let_e (nNamed "two"%string) (x_num 2)
      (Let_e (nNamed "four"%string) (App_e (Var_e 1) (Var_e 0))
         (Let_e nAnon (App_e (Var_e 2) (Var_e 1))
            (App_e (Lam_e nAnon (App_e (Var_e 4) (Var_e 0))) (Var_e 0))))).
Proof. split; [exact y_env_ok |]. split; [exact y_main_ok |]. eexists. reflexivity. Qed.

(* The index given to a constant, counted from the innermost let, selects its
   own definition, translated in the scope of the definitions below it. *)
Theorem C49_index : forall prims p c d, lookupDfn c p = Some d ->
  exists before after, p = before ++ (c, ecTrm d) :: after /\
    (forall ec, ~ In (c, ec) before) /\
    nth_error (translate_env prims p) (N.to_nat (cst_offset (translate_env prims p) c))
    = Some (c, translate (translate_env prims after) prims d).
Proof. exact offset_lookup. Qed.
Example C49_index_ex : lookupDfn "double"%string y_env = Some y_double /\
  cst_offset (translate_env [] y_env) "double"%string = 2%N.
Proof. split; reflexivity. Qed.

(* A constant under [k] further binders is the variable that many places beyond
   the index above; nothing else in the term becomes a reference to a let. *)
Theorem C49_constant : forall prims p c k,
  find_prim prims c = None ->
  trans (translate_env prims p) prims k (TConst c) =
    Var_e (cst_offset (translate_env prims p) c + k) /\
  (forall t d, k = N.of_nat d -> scoped (fun _ => False) d t ->
     forall x, occurs x (trans (translate_env prims p) prims k t) -> (x < N.of_nat d)%N).
Proof.
  intros prims p c k F. split; [cbn; rewrite F; reflexivity |].
  intros t d -> H x O.
  pose proof (proj1 (trans_occurs [] prims (fun _ => False) ltac:(intros ? [])) t d d x) as X.
  assert (Q : forall e e', (forall t k n, scoped (fun _ => False) n t -> trans e prims k t = trans e' prims k t) /\
     (forall t k n, scopeds (fun _ => False) n t -> trans_args e prims k t = trans_args e' prims k t) /\
     (forall t i k j n, scopedBs (fun _ => False) n t -> trans_brs e prims i k j t = trans_brs e' prims i k j t) /\
     (forall t k n, scopedDs (fun _ => False) n t -> trans_fixes e prims k t = trans_fixes e' prims k t)).
  { intros e e'. pose proof TrmTrmsBrsDefs_ind as I.
    apply (I (fun t => forall k n, scoped (fun _ => False) n t -> trans e prims k t = trans e' prims k t)
             (fun t => forall k n, scopeds (fun _ => False) n t -> trans_args e prims k t = trans_args e' prims k t)
             (fun t => forall i k j n, scopedBs (fun _ => False) n t -> trans_brs e prims i k j t = trans_brs e' prims i k j t)
             (fun t => forall k n, scopedDs (fun _ => False) n t -> trans_fixes e prims k t = trans_fixes e' prims k t));
    intros; cbn [trans trans_args trans_brs trans_fixes scoped scopeds scopedBs scopedDs] in *;
    try reflexivity; try contradiction;
    repeat match goal with H : _ /\ _ |- _ => destruct H end; f_equal; eauto. }
  rewrite (proj1 (Q _ []) t _ d H) in O. apply X in O; auto. cbn in O. lia.
Qed.
Example C49_constant_ex : find_prim [] "two"%string = None /\
  trans (translate_env [] y_env) [] 5 (TConst "two"%string) = Var_e 6 /\
  scoped (fun _ => False) 1 (TApp (TRel 0) y_double).
Proof. cbn. repeat split; lia. Qed.

(* With primitives the invariant [TermWf] = [exp_wf 0], which the pipeline uses
   for this language, does not hold of the output: it has no rule for the
   primitive operations the translation emits. *)
Theorem C49_prims_wf_refuted : exists prims p t,
  scopedEnv prims p /\ scoped (avail prims p) 0 t /\ closed (translate_program prims p t) /\
  ~ exp_wf 0 (translate_program prims p t).
Proof.
  exists [("add"%string, 1%positive)], y_env, (TApp (TConst "add"%string) (TConst "two"%string)).
  assert (A := C49_closed_ex). cbv zeta in A.
  assert (B : scoped (avail [("add"%string, 1%positive)] y_env) 0
                (TApp (TConst "add"%string) (TConst "two"%string))).
  { cbn. unfold avail. split; [left; eexists; left; reflexivity |].
    right; eexists; right; left; reflexivity. }
  split; [exact (proj1 A) |]. split; [exact B |]. split; [apply C49_closed; [exact (proj1 A) | exact B] |].
  intros H. cbn in H.
  repeat match goal with
  | H : exp_wf _ (Let_e _ _ _) |- _ => inversion H; clear H; subst
  | H : exp_wf _ (App_e (Prim_e _) _) |- _ => inversion H; clear H; subst
  | H : exp_wf _ (Prim_e _) |- _ => inversion H
  end.
Qed.

(* ================= C66 ================= *)

(* The translated program has a value exactly when every global has one and the
   program has one; it is then the program's value, with the globals it refers
   to replaced by theirs. *)
Theorem C66_exact : forall p t, crctEnv p -> crct p 0 t -> forall v,
  eval (translate_program [] p t) v <->
  globals_ok p /\ exists g s, globals_are p g /\ WcbvEval p t s /\ v = close g s.
Proof. exact program_exact. Qed.

(* The assignment of values to globals that occurs above exists and is unique. *)
Theorem C66_globals_unique : forall p, crctEnv p -> globals_ok p ->
  exists g, globals_are p g /\
    forall h, globals_are p h -> forall c, lookupDfn c p <> None -> h c = g c.
Proof.
  intros p H O. destruct (globals_are_exists p H O) as [g G]. exists g. split; auto.
  intros h X c N. eapply globals_unique; eauto.
Qed.

Lemma same_data_inj :
  (forall s v, same_data s v -> forall r, same_data r v -> s = r) /\
  (forall ss vs, same_datas ss vs -> forall rs, same_datas rs vs -> ss = rs).
Proof.
  apply my_same_data_ind; intros.
  - inversion H1; subst. apply Nnat.Nat2N.inj in H5; subst. f_equal; auto.
  - inversion H; auto.
  - inversion H; auto.
  - inversion H; auto.
  - inversion H3; subst. f_equal; auto.
Qed.

(* For first-order data the two programs have literally the same answer. *)
Theorem C66_data : forall p t, crctEnv p -> crct p 0 t -> globals_ok p ->
  forall s v, same_data s v ->
  (eval (translate_program [] p t) v <-> WcbvEval p t s).
Proof.
  intros p t H C O s v D. rewrite (program_data p t H C s v D). split.
  - intros [_ [r [A B]]]. rewrite (proj1 same_data_inj s v D r A). exact B.
  - intros E. split; auto. exists s; auto.
Qed.

(* The two executable evaluators agree on first-order results. *)
Theorem C66_evaluators : forall p t, crctEnv p -> crct p 0 t -> globals_ok p ->
  forall s v, same_data s v ->
  ((exists n, eval_n n (translate_program [] p t) = Some v) <-> (exists n, wcbvEval p n t = Some s)).
Proof.
  intros p t H C O s v D. transitivity (eval (translate_program [] p t) v).
  - split; [intros [n E]; exact (proj1 (eval_n_sound n) _ _ E) | apply (proj1 eval_n_complete)].
  - rewrite (C66_data p t H C O s v D). split.
    + intros E. destruct (C50_complete _ _ _ E) as [n X]. exists n; auto.
    + intros [n E]. eapply C50_sound; eauto.
Qed.

Lemma y_globals_ok : globals_ok y_env.
Proof.
  intros c d H. unfold lookupDfn, y_env in H. cbn [lookup] in H.
  assert (W : forall s, wcbvEval y_env 30 d = Some s -> exists s, WcbvEval y_env d s)
    by (intros s E; exists s; eapply C50_sound; eauto).
  repeat match type of H with context [String.eqb c ?x] => destruct (String.eqb c x) end;
    cbv iota in H; try discriminate; match type of H with Some ?u = Some _ => assert (d = u) by congruence; subst d end;
    eapply W; vm_compute; reflexivity.
Qed.
Example C66_ex : crctEnv y_env /\ crct y_env 0 y_main /\ globals_ok y_env /\
  same_data (y_num 8) (x_num 8) /\ WcbvEval y_env y_main (y_num 8) /\
  eval (translate_program [] y_env y_main) (x_num 8) /\ eval_n 60 (translate_program [] y_env y_main) = Some (x_num 8).
Proof.
  assert (S8 : same_data (y_num 8) (x_num 8)) by (cbn; repeat constructor).
  repeat (split; [first [exact y_env_ok | exact y_main_ok | exact y_globals_ok | exact y_main_eval | exact S8] |]).
  split; [| vm_compute; reflexivity].
  apply (C66_data _ _ y_env_ok y_main_ok y_globals_ok _ _ S8), y_main_eval.
Qed.
Example C66_globals_ex : exists g, globals_are y_env g /\ g "four"%string = x_num 4.
Proof.
  destruct (C66_globals_unique y_env y_env_ok y_globals_ok) as [g [G U]]. exists g. split; auto.
  destruct (G "four"%string _ eq_refl) as [s [E ->]].
  assert (X : WcbvEval y_env (TApp (TConst "double"%string) (TConst "two"%string)) (y_num 4))
    by (apply (C50_sound _ 30); reflexivity).
  rewrite (C50_single_valued _ _ _ _ E X). reflexivity.
Qed.

(* Globals are evaluated eagerly: a global without a value - here an absurd case
   on an erased proof - takes the value away from every program beside it, even
   one that does not use it. *)
Theorem C66_unused_global_refuted : exists p t s,
  crctEnv p /\ crct p 0 t /\ WcbvEval p t s /\ (forall K, scoped K 0 t) /\
  forall v, ~ eval (translate_program [] p t) v.
Proof.
  exists [("absurd"%string, ecTrm (TCase ("False"%string, 0) TProof bnil))], y_O, y_O.
  split; [cbn; auto |]. split; [cbn; auto |].
  split; [repeat constructor |]. split; [intros K; cbn; auto |].
  intros v H. cbn in H. inversion H; subst.
  match goal with X : eval (Match_e Prf_e _ _) _ |- _ => inversion X; subst end.
  match goal with X : eval Prf_e (Con_e _ _) |- _ => inversion X end.
Qed.

Print Assumptions C50_single_valued.
Print Assumptions C50_sound.
Print Assumptions C50_complete.
Print Assumptions C50_monotone.
Print Assumptions C50_lists.
Print Assumptions C50_no_value_no_answer.
Print Assumptions C50_values.
Print Assumptions C50_preserves_wf.
Print Assumptions C50_more_globals.
Print Assumptions C50_shadowing_refuted.
Print Assumptions C49_closed.
Print Assumptions C49_well_formed.
Print Assumptions C49_index.
Print Assumptions C49_constant.
Print Assumptions C49_prims_wf_refuted.
Print Assumptions C66_exact.
Print Assumptions C66_globals_unique.
Print Assumptions C66_data.
Print Assumptions C66_evaluators.
Print Assumptions C66_unused_global_refuted.
