(* C47, C48, C65: the de Bruijn language LambdaBoxLocal. *)
From Coq Require Import List NArith ZArith String Bool Lia.
From Verif Require Import LB_Model LB_Spec LB_Proofs LB_EvalProofs LB_Env LB_EnvProofs.
Import ListNotations.
Local Open Scope N_scope.

(* ---- terms for the examples: booleans, numbers and a recursive function ---- *)

Definition x_nat : inductive := ("nat"%string, 0%nat).
Definition x_O : lexp := Con_e (x_nat, 0) enil.
Definition x_S (e : lexp) : lexp := Con_e (x_nat, 1) (econs e enil).
(* fix double n := match n with O => O | S m => S (S (double m)) end *)
Definition x_double : lexp :=
  Fix_e (eflcons nAnon (Lam_e nAnon
           (Match_e (Var_e 0) 0
             (brcons_e (x_nat, 0) (0, []) x_O
             (brcons_e (x_nat, 1) (1, [nAnon])
                (x_S (x_S (App_e (Var_e 2) (Var_e 0)))) brnil_e)))) eflnil) 0.
Definition x_prog : lexp :=
  Let_e nAnon x_double
    (App_e (Lam_e nAnon (App_e (Var_e 1) (Var_e 0))) (x_S (x_S x_O))).
Definition x_four : lexp := x_S (x_S (x_S (x_S x_O))).

Ltac wf_tac := repeat (constructor; cbn [efnlst_length nargs fst isLambda]; try lia; try exact I).

Lemma x_prog_wf : exp_wf 0 x_prog.
Proof. unfold x_prog, x_double, x_S, x_O; wf_tac. Qed.

(* ================= C47 ================= *)

(* A term has at most one value. *)
Theorem C47_eval_deterministic : forall e v w, eval e v -> eval e w -> v = w.
Proof. intros e v w A B. exact (proj1 eval_det e v A w B). Qed.

(* The interpreter answers with some fuel exactly when the semantics relates
   the term to that answer. *)
Theorem C47_interpreter_exact : forall e v,
  (exists n, eval_n n e = Some v) <-> eval e v.
Proof.
  intros e v; split.
  - intros [n H]. exact (proj1 (eval_n_sound n) e v H).
  - apply (proj1 eval_n_complete).
Qed.

(* More fuel never changes an answer. *)
Theorem C47_interpreter_monotone : forall n m e v,
  eval_n n e = Some v -> (n <= m)%nat -> eval_n m e = Some v.
Proof. intros n m e v A B. exact (proj1 (eval_n_mono n) e v m A B). Qed.

(* Answers with different fuels are the same. *)
Theorem C47_interpreter_coherent : forall n m e v w,
  eval_n n e = Some v -> eval_n m e = Some w -> v = w.
Proof.
  intros n m e v w A B. apply (proj1 eval_det) with e.
  - eapply (proj1 (eval_n_sound n)); eauto.
  - eapply (proj1 (eval_n_sound m)); eauto.
Qed.

(* The same for lists of terms. *)
Theorem C47_lists : forall es vs,
  ((exists n, evals_n n es = Some vs) <-> evals es vs) /\
  (evals es vs -> forall ws, evals es ws -> vs = ws).
Proof.
  intros es vs; repeat split.
  - intros [n H]. exact (proj2 (eval_n_sound n) es vs H).
  - apply (proj2 eval_n_complete).
  - intros A ws B. exact (proj2 eval_det es vs A ws B).
Qed.

Example C47_ex : eval_n 30 x_prog = Some x_four /\ eval_n 3 x_prog = None /\ eval x_prog x_four.
Proof.
  assert (A : eval_n 30 x_prog = Some x_four) by (vm_compute; reflexivity).
  split; [exact A |]. split; [vm_compute; reflexivity |].
  exact (proj1 (eval_n_sound 30) _ _ A).
Qed.

(* ================= C48 ================= *)

(* The well-formedness relation of the code is scoping plus shape. *)
Theorem C48_wf_is_scoping : forall e i,
  exp_wf i e <-> (forall x, occurs x e -> x < i) /\ shaped e.
Proof. apply (proj1 wf_iff). Qed.

(* Exactly which variables a shifted term mentions. *)
Theorem C48_shift_variables : forall e n k x, occurs x (shift n k e) <->
  (x < k /\ occurs x e) \/ (k + n <= x /\ occurs (x - n) e).
Proof. apply (proj1 shift_occurs). Qed.

(* Exactly which variables a substituted term mentions. *)
Theorem C48_subst_variables : forall v e k x, occurs x (subst v k e) <->
  (x < k /\ occurs x e) \/ (k <= x /\ occurs (x + 1) e) \/
  (k <= x /\ occurs k e /\ occurs (x - k) v).
Proof. intros v. apply (proj1 (subst_occurs' v)). Qed.

(* Substituting a well-scoped, possibly open, term is well-scoped. *)
Theorem C48_subst_wf : forall i k e v,
  k <= i -> exp_wf (1 + i) e -> exp_wf (i - k) v -> exp_wf i (subst v k e).
Proof. exact subst_wf. Qed.

Example C48_subst_wf_ex :
  exp_wf 3 (Lam_e nAnon (App_e (Var_e 2) (Var_e 3))) /\ exp_wf 1 (Var_e 0) /\
  subst (Var_e 0) 1 (Lam_e nAnon (App_e (Var_e 2) (Var_e 3)))
  = Lam_e nAnon (App_e (Var_e 2) (Var_e 2)).
Proof. split; [wf_tac | split; [wf_tac | reflexivity]]. Qed.

(* Shifting is well-scoped. *)
Theorem C48_shift_wf : forall i n k e, exp_wf i e -> exp_wf (i + n) (shift n k e).
Proof. exact shift_wf. Qed.

(* The substitution evaluation uses does not shift its substitute; for closed
   substitutes this makes no difference. *)
Theorem C48_sbst_is_subst : forall v e k, closed v -> sbst v k e = subst v k e.
Proof. intros v e k H. exact (proj1 (sbst_subst v H) e k). Qed.

(* For open substitutes it captures variables: closedness is needed. *)
Theorem C48_sbst_open_refuted : exists v e k i,
  k <= i /\ exp_wf (1 + i) e /\ exp_wf (i - k) v /\
  exists x, occurs x (subst v k e) /\ ~ occurs x (sbst v k e).
Proof.
  exists (Var_e 0), (Lam_e nAnon (Var_e 1)), 0, 1.
  split; [lia |]. split; [wf_tac |]. split; [wf_tac |].
  exists 0. split; [reflexivity | intros H; discriminate H].
Qed.

(* Evaluation of closed terms gives closed values. *)
Theorem C48_eval_closed : forall e v, eval e v -> exp_wf 0 e -> exp_wf 0 v.
Proof. apply (proj1 eval_wf). Qed.

Theorem C48_eval_no_outer_variables : forall e v,
  eval e v -> exp_wf 0 e -> forall x, ~ occurs x v.
Proof. intros e v H W x O. exact (wf0_closed v (proj1 eval_wf e v H W) x O). Qed.

(* Answers are values, closed values are their own answers, and the value test
   is exact. *)
Theorem C48_answers_are_values : forall e v, eval e v -> is_value v.
Proof. apply (proj1 eval_value). Qed.
Theorem C48_values_evaluate : forall v, is_value v -> exp_wf 0 v -> eval v v.
Proof. apply (proj1 value_eval). Qed.
Theorem C48_value_test : forall e, is_valueb e = true <-> is_value e.
Proof. apply (proj1 is_valueb_spec). Qed.

Example C48_eval_ex : exp_wf 0 x_prog /\ eval x_prog x_four /\ is_valueb x_four = true
  /\ is_valueb x_prog = false.
Proof.
  split; [exact x_prog_wf |]. split; [| split; reflexivity].
  apply (proj1 (eval_n_sound 30)). vm_compute; reflexivity.
Qed.

(* The largest-free-variable function is exact. *)
Theorem C48_maxFree : forall e n,
  (maxFree e < Z.of_N n)%Z <-> (forall x, occurs x e -> x < n).
Proof. apply (proj1 maxFree_spec). Qed.

(* Shifting and substitution commute in the usual ways. *)
Theorem C48_shift_shift : forall e i j m n,
  i <= j -> j <= i + m -> shift n j (shift m i e) = shift (m + n) i e.
Proof. apply (proj1 shift_twice). Qed.
Theorem C48_shift_subst : forall e i k j v,
  k <= j -> shift i k (subst v j e) = subst v (j + i) (shift i k e).
Proof. apply (proj1 shift_subst). Qed.
Theorem C48_subst_shifted : forall e k i j v,
  k <= i -> i < k + (j + 1) -> subst v i (shift (1 + j) k e) = shift j k e.
Proof. apply (proj1 shift_away_subst). Qed.
Theorem C48_subst_subst : forall e u v i j, i <= j ->
  subst v j (subst u i e) = subst (subst v (j - i) u) i (subst v (1 + j) e).
Proof. apply (proj1 substitution). Qed.

Example C48_subst_subst_ex :
  let e := App_e (Var_e 0) (Lam_e nAnon (App_e (Var_e 1) (Var_e 3))) in
  subst (Var_e 0) 1 (subst (Lam_e nAnon (Var_e 2)) 0 e)
  = subst (subst (Var_e 0) 1 (Lam_e nAnon (Var_e 2))) 0 (subst (Var_e 0) 2 e)
  /\ subst (Var_e 0) 1 (subst (Lam_e nAnon (Var_e 2)) 0 e) <> e.
Proof. split; [reflexivity | intros E; discriminate E]. Qed.

(* ================= C65 ================= *)

(* The two semantics agree on closed terms, when the environment semantics has
   its rules for proofs and literals. *)
Theorem C65_semantics_agree : forall e v, exp_wf 0 e ->
  (eval e v <-> exists w, eval_env true [] e w /\ readback w = v).
Proof. exact semantics_agree. Qed.

(* With the rules the code has, they agree on closed terms that contain no
   proofs and no literals. *)
Theorem C65_semantics_agree_plain : forall e v, exp_wf 0 e -> plain e ->
  (eval e v <-> exists w, eval_env false [] e w /\ readback w = v).
Proof. exact semantics_agree_plain. Qed.

(* With the rules the code has, the agreement fails for proofs, for literals
   and for applied proofs. *)
Theorem C65_proofs_and_literals_refuted :
  (exists e v, exp_wf 0 e /\ eval e v /\ forall w, ~ eval_env false [] e w) /\
  (exists p v, exp_wf 0 (Prim_val_e p) /\ eval (Prim_val_e p) v /\
     forall w, ~ eval_env false [] (Prim_val_e p) w) /\
  (exists a v, exp_wf 0 (App_e Prf_e a) /\ plain a /\ eval (App_e Prf_e a) v /\
     forall w, ~ eval_env false [] (App_e Prf_e a) w).
Proof.
  split; [| split].
  - exists Prf_e, Prf_e. split; [constructor |]. split; [constructor |].
    intros w H; inversion H; discriminate.
  - exists (ANF_Syntax.PVint 5%Z), (Prim_val_e (ANF_Syntax.PVint 5%Z)).
    split; [constructor |]. split; [constructor |].
    intros w H; inversion H; discriminate.
  - exists x_O, Prf_e. split; [unfold x_O; wf_tac |]. split; [exact I |].
    split; [eapply eval_ProofApp_e; [constructor | unfold x_O; repeat constructor] |].
    intros w H; inversion H; subst; try discriminate;
      match goal with A : eval_env false _ Prf_e _ |- _ => inversion A; discriminate end.
Qed.

(* The environment semantics is deterministic, and its answers are closed. *)
Theorem C65_environment_deterministic : forall full rho e v w,
  eval_env full rho e v -> eval_env full rho e w -> v = w.
Proof. intros full rho e v w A B. exact (proj1 (env_det full) rho e v A w B). Qed.

Theorem C65_environment_answers_closed : forall full e w,
  exp_wf 0 e -> eval_env full [] e w -> exp_wf 0 (readback w) /\ is_value (readback w).
Proof.
  intros full e w W H. split; [| apply readback_value].
  apply readback_wf. eapply (proj1 (env_wf full)); eauto. constructor.
Qed.

Example C65_ex : exp_wf 0 x_prog /\ plain x_prog /\
  exists w, eval_env false [] x_prog w /\ readback w = x_four.
Proof.
  split; [exact x_prog_wf |]. assert (P : plain x_prog) by (cbn; tauto). split; [exact P |].
  apply semantics_agree_plain; [exact x_prog_wf | exact P |].
  apply (proj1 (eval_n_sound 30)). vm_compute; reflexivity.
Qed.

Print Assumptions C47_eval_deterministic.
Print Assumptions C47_interpreter_exact.
Print Assumptions C47_interpreter_monotone.
Print Assumptions C47_interpreter_coherent.
Print Assumptions C47_lists.
Print Assumptions C48_wf_is_scoping.
Print Assumptions C48_shift_variables.
Print Assumptions C48_subst_variables.
Print Assumptions C48_subst_wf.
Print Assumptions C48_shift_wf.
Print Assumptions C48_sbst_is_subst.
Print Assumptions C48_sbst_open_refuted.
Print Assumptions C48_eval_closed.
Print Assumptions C48_eval_no_outer_variables.
Print Assumptions C48_answers_are_values.
Print Assumptions C48_values_evaluate.
Print Assumptions C48_value_test.
Print Assumptions C48_maxFree.
Print Assumptions C48_shift_shift.
Print Assumptions C48_shift_subst.
Print Assumptions C48_subst_shifted.
Print Assumptions C48_subst_subst.
Print Assumptions C65_semantics_agree.
Print Assumptions C65_semantics_agree_plain.
Print Assumptions C65_proofs_and_literals_refuted.
Print Assumptions C65_environment_deterministic.
Print Assumptions C65_environment_answers_closed.
