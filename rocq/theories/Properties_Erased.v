(** * C83: the first translation, from MetaRocq's erased programs *)
From Coq Require Import ZArith NArith PArith List Lia Bool Arith Ascii String.
From Verif Require Import LB_Model LB_Spec LM_Model LM_Spec LM_Proofs LM_TransProofs Properties_LambdaBoxMut EA_Model EA_Spec EA_Proofs.
Import ListNotations.
Local Open Scope nat_scope.

(** Well-formed erased programs become well-formed programs. *)
Theorem C83_wellformed : forall G t, wf_glob G = true -> wellformed G 0 t = true ->
  crctEnv (compile_ctx G) /\ crct (compile_ctx G) 0 (compile t).
Proof. intros G t WG W. split; [apply wf_crctEnv; exact WG|apply wf_crct; exact W]. Qed.
Print Assumptions C83_wellformed.

(** A term that evaluates is translated to a term that evaluates, to the
    translation of the value; the value is well-formed again. *)
Theorem C83_evaluates : forall G t v, wf_glob G = true -> wellformed G 0 t = true -> ev G t v ->
  WcbvEval (compile_ctx G) (compile t) (compile v) /\ wellformed G 0 v = true.
Proof. intros G t v WG W E. exact (proj1 (compile_ev G WG) t v E W). Qed.
Print Assumptions C83_evaluates.

(** The translation has no other value, and evaluation of erased terms is
    deterministic up to translation. *)
Theorem C83_single_valued : forall G t v u, wf_glob G = true -> wellformed G 0 t = true -> ev G t v ->
  WcbvEval (compile_ctx G) (compile t) u -> u = compile v.
Proof.
  intros G t v u WG W E U. destruct (C83_evaluates G t v WG W E) as [X _].
  exact (C50_single_valued _ _ _ _ U X).
Qed.
Print Assumptions C83_single_valued.

(** Without suspensions the translation has a value exactly when the term has
    one: nothing that is stuck or runs forever becomes a program with a value. *)
Theorem C83_reflects : forall G t, wf_glob G = true -> strict_env G = true -> no_prop G = true ->
  wellformed G 0 t = true -> strict t = true ->
  forall u, WcbvEval (compile_ctx G) (compile t) u <-> exists v, ev G t v /\ u = compile v.
Proof.
  intros G t WG SG NP W S u. split.
  - intro U. destruct (proj1 (compile_reflects G WG SG NP) _ _ U t eq_refl W S) as (v & E & V & _). eauto.
  - intros (v & V & ->). apply (C83_evaluates G t v WG W V).
Qed.
Print Assumptions C83_reflects.

(** With suspensions this fails: forcing a term that is not a suspension is
    stuck, but its translation is the application of a function. *)
Theorem C83_reflects_suspensions_refuted : exists G t u, wf_glob G = true /\ strict_env G = true /\ no_prop G = true /\
  wellformed G 0 t = true /\ WcbvEval (compile_ctx G) (compile t) u /\ forall v, ~ ev G t v.
Proof.
  exists [], (tForce (tLambda nAnon (tRel 0))), TProof. repeat (split; [reflexivity|]). split.
  - eapply wAppLam; [apply wLam|apply wProof|apply wProof].
  - intros v E. inversion E; subst. match goal with X : ev _ (tLambda _ _) _ |- _ => inversion X end.
Qed.
Print Assumptions C83_reflects_suspensions_refuted.

(** The translation commutes with making room for a binder (the lemma left
    unproved at theories/LambdaBoxMut/stripEvalCommute.v:512-518) and with the
    substitution of closed terms. *)
Theorem C83_lifting : forall t k, lift k (compile t) = compile (elift k t).
Proof. exact compile_lift. Qed.
Print Assumptions C83_lifting.
Theorem C83_substitution : forall G a t k, wellformed G 0 a = true ->
  instantiate (compile a) k (compile t) = compile (csubst a k t).
Proof. intros G a t k W. symmetry. apply (compile_csubst (compile_ctx G)). apply wf_crct. exact W. Qed.
Print Assumptions C83_substitution.

(** An error node appears exactly for the constructs the compiler does not
    support. *)
Theorem C83_errors : forall t, no_wrong (compile t) = true <-> supported t = true.
Proof. intro t. rewrite compile_supported. reflexivity. Qed.
Print Assumptions C83_errors.

(** Data are translated to the same data. *)
Theorem C83_data : forall G t v u, wf_glob G = true -> wellformed G 0 t = true -> ev G t v -> translated v u ->
  WcbvEval (compile_ctx G) (compile t) u.
Proof. intros G t v u WG W E D. rewrite (translated_compile _ _ D). apply (C83_evaluates G t v WG W E). Qed.
Print Assumptions C83_data.

(** Every global has a value in the one language if in the other. *)
Definition eglobals_ok (G : global_context) : Prop :=
  forall c b, lookup_env G c = Some (ConstantDecl (Some b)) -> exists v, ev G b v.
Theorem C83_globals : forall G, wf_glob G = true -> eglobals_ok G -> globals_ok (compile_ctx G).
Proof.
  intros G WG OK c d L. destruct (lookup_dfn_inv _ _ _ L) as (b & LB & ->). destruct (OK c b LB) as [v V].
  exists (compile v). apply (C83_evaluates G b v WG (const_wf _ WG _ _ LB) V).
Qed.
Print Assumptions C83_globals.

(** The same first-order datum before and after both translations. *)
Inductive edata : term -> lexp -> Prop :=
| ed_con : forall i n args args', edatas args args' -> edata (tConstruct i n args) (Con_e (i, N.of_nat n) args')
| ed_box : edata tBox Prf_e
| ed_prim : forall v, edata (tPrim v) (Prim_val_e v)
with edatas : list term -> exps -> Prop :=
| eds_nil : edatas [] enil
| eds_cons : forall t ts e es, edata t e -> edatas ts es -> edatas (t :: ts) (econs e es).

Lemma edata_split : forall v e, edata v e -> same_data (compile v) e.
Proof.
  fix IH 3. intros v e D. destruct D as [i n l es D| |w]; [|constructor|constructor].
  rewrite compile_con. constructor. revert l es D. fix IHs 3. intros l es D.
  destruct D as [|t l e es D Ds]; [constructor|]. rewrite cterms_cons. constructor; [apply IH; exact D|apply IHs; exact Ds].
Qed.

Lemma compile_strict_data : forall v e, same_data (compile v) e -> strict v = true -> edata v e.
Proof.
  apply (term_ind2 (fun v => forall e, same_data (compile v) e -> strict v = true -> edata v e)); intros;
    try (rewrite ?compile_app in *; match goal with X : same_data _ _ |- _ => inversion X; fail end); cbn in *; try discriminate.
  - inversion H. constructor.
  - match goal with X : same_data _ _ |- _ => inversion X; subst; clear X end. constructor.
    match goal with X : same_datas _ _ |- _ => revert X end. generalize args'. clear args'.
    revert H1. induction H as [|t l Ht _ IH]; intros S es D; inversion D; subst; [constructor|].
    cbn in S. apply andb_true_iff in S as [S1 S2]. constructor; auto.
  - inversion H. constructor.
Qed.

(** Through both translations: the program of the next language has a datum as
    its value exactly when the erased program has it. *)
Theorem C83_to_local : forall G t, wf_glob G = true -> wellformed G 0 t = true -> eglobals_ok G ->
  forall v e, ev G t v -> edata v e -> eval (translate_program [] (compile_ctx G) (compile t)) e.
Proof.
  intros G t WG W OK v e V D. destruct (C83_wellformed G t WG W) as [CE CT].
  exact (proj2 (C66_data _ _ CE CT (C83_globals G WG OK) _ _ (edata_split _ _ D)) (proj1 (C83_evaluates G t v WG W V))).
Qed.
Print Assumptions C83_to_local.
Theorem C83_from_local : forall G t, wf_glob G = true -> strict_env G = true -> no_prop G = true -> wellformed G 0 t = true -> strict t = true ->
  eglobals_ok G -> forall s e, same_data s e -> eval (translate_program [] (compile_ctx G) (compile t)) e ->
  exists v, ev G t v /\ edata v e.
Proof.
  intros G t WG SG NP W S OK s e D E. destruct (C83_wellformed G t WG W) as [CE CT].
  pose proof (proj1 (C66_data _ _ CE CT (C83_globals G WG OK) _ _ D) E) as X.
  destruct (proj1 (compile_reflects G WG SG NP) _ _ X t eq_refl W S) as (v & -> & V & SV).
  exists v. split; [exact V|]. apply compile_strict_data; assumption.
Qed.
Print Assumptions C83_from_local.

(** *** Examples *)
Definition e_O : term := tConstruct y_nat 0 [].
Definition e_S (t : term) : term := tConstruct y_nat 1 [t].
Fixpoint e_num (n : nat) : term := match n with 0 => e_O | S n => e_S (e_num n) end.
Definition e_double : term :=
  tFix [mkdef nAnon (tLambda nAnon
          (tCase (y_nat, 0) (tRel 0)
            [([], e_O); ([nAnon], e_S (e_S (tApp (tRel 2) (tRel 0))))])) 0] 0.
Definition e_env : global_context :=
  [("two"%string, ConstantDecl (Some (e_S (e_S e_O))));
   ("double"%string, ConstantDecl (Some e_double));
   ("nat"%string, InductiveDecl (mkmind 0 [(false, [0; 1])]))].
Definition e_main : term :=
  tLetIn nAnon (tApp (tConst "double"%string) (tConst "two"%string))
    (tApp (tLambda nAnon (tApp (tConst "double"%string) (tRel 0))) (tRel 0)).

Lemma e_num_inj : forall n v, compile v = y_num n -> strict v = true -> v = e_num n.
Proof.
  induction n as [|n IH]; intros v H S; destruct v; rewrite ?compile_app in *; try discriminate; rewrite compile_con in H;
    injection H as -> -> H; destruct l as [|x [|y l]]; try discriminate; [reflexivity|].
  injection H as H. cbn in S. rewrite andb_true_r in S. rewrite (IH x H S). reflexivity.
Qed.
Lemma e_main_ok : wf_glob e_env = true /\ strict_env e_env = true /\ no_prop e_env = true /\ wellformed e_env 0 e_main = true /\ strict e_main = true.
Proof. repeat split; reflexivity. Qed.
Lemma e_main_ev : ev e_env e_main (e_num 8).
Proof.
  destruct e_main_ok as (A & B & C & D & E).
  assert (X : WcbvEval (compile_ctx e_env) (compile e_main) (y_num 8))
    by (apply (proj1 (wcbv_sound (compile_ctx e_env) 40)); vm_compute; reflexivity).
  destruct (proj1 (compile_reflects _ A B C) _ _ X _ eq_refl D E) as (v & F & V & S).
  rewrite <- (e_num_inj 8 v); auto.
Qed.
Lemma e_globals_ok : eglobals_ok e_env.
Proof.
  intros c b L. cbn in L. destruct (String.eqb c "two"); [injection L as <-|].
  - exists (e_num 2). repeat econstructor; cbn; lia.
  - destruct (String.eqb c "double"); [injection L as <-; eexists; apply ev_atom_fix|].
    destruct (String.eqb c "nat"); discriminate.
Qed.
Lemma e_num_data : forall n, edata (e_num n) (x_num n).
Proof.
  induction n as [|n IH]; [exact (ed_con y_nat 0 [] enil eds_nil)|].
  exact (ed_con y_nat 1 [e_num n] (econs (x_num n) enil) (eds_cons _ _ _ _ IH eds_nil)).
Qed.
Example C83_example :
  wf_glob e_env = true /\ strict_env e_env = true /\ no_prop e_env = true /\ wellformed e_env 0 e_main = true /\ strict e_main = true /\
  eglobals_ok e_env /\ ev e_env e_main (e_num 8) /\ edata (e_num 8) (x_num 8) /\ translated (e_num 2) (y_num 2) /\
  compile e_main = y_main /\ compile e_double = y_double.
Proof.
  destruct e_main_ok as (A & B & C & D & E). repeat (split; [assumption|]). split; [exact e_globals_ok|]. split; [exact e_main_ev|].
  split; [exact (e_num_data 8)|]. split; [repeat constructor|]. split; reflexivity.
Qed.
(** A suspension under a binder, forced: the captured variable is found. *)
Definition e_susp : term :=
  tLetIn nAnon (e_num 1) (tLetIn nAnon (tLazy (e_S (tRel 0))) (tLetIn nAnon e_O (tForce (tRel 1)))).
Example C83_example_suspension :
  wf_glob e_env = true /\ wellformed e_env 0 e_susp = true /\ strict e_susp = false /\ ev e_env e_susp (e_num 2) /\
  compile (tLazy (e_S (tRel 0))) = TLambda nAnon (y_S (TRel 1)) /\
  wcbvEval (compile_ctx e_env) 40 (compile e_susp) = Some (y_num 2).
Proof.
  repeat (split; [reflexivity|]). split; [|split; reflexivity].
  assert (N : forall n, ev e_env (e_num n) (e_num n)).
  { induction n as [|n IH].
    - eapply (ev_construct e_env y_nat 0 0 false 0); [reflexivity|apply le_n|constructor].
    - eapply (ev_construct e_env y_nat 1 0 false 1); [reflexivity|apply le_n|constructor; [exact IH|constructor]]. }
  eapply ev_zeta; [exact (N 1)|]. eapply ev_zeta; [apply ev_atom_lazy|]. eapply ev_zeta; [exact (N 0)|].
  eapply ev_force; [apply ev_atom_lazy|]. exact (N 2).
Qed.
(** Lifting a branch and a fixpoint; substitution below a suspension. *)
Example C83_example_lift :
  lift 1 (compile (tApp (tRel 1) (tLambda nAnon (tRel 2)))) = TApp (TRel 2) (TLambda nAnon (TRel 3)) /\
  elift 1 (tApp (tRel 1) (tLambda nAnon (tRel 2))) = tApp (tRel 2) (tLambda nAnon (tRel 3)) /\
  wellformed e_env 0 (e_num 1) = true /\
  csubst (e_num 1) 0 (tLazy (tApp (tRel 0) (tRel 1))) = tLazy (tApp (e_num 1) (tRel 0)) /\
  instantiate (compile (e_num 1)) 0 (compile (tLazy (tApp (tRel 0) (tRel 1)))) = compile (tLazy (tApp (e_num 1) (tRel 0))).
Proof. repeat split; reflexivity. Qed.
Example C83_example_errors :
  supported e_susp = true /\ supported (tLambda nAnon (tProj (y_nat, 0, 0) (tRel 0))) = false /\
  no_wrong (compile (tLambda nAnon (tProj (y_nat, 0, 0) (tRel 0)))) = false.
Proof. repeat split; reflexivity. Qed.
