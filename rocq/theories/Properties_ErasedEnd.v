(** * C83, continued: from MetaRocq's erased programs to Wasm and C *)
From Coq Require Import ZArith NArith PArith List Lia Bool Arith Ascii String.
From Verif Require Import ANF_Syntax ANF_Subst ANF_Eval ANF_Spec ANF_Scope ANF_EvalProofs CC_Spec Comp_Model Pipe_Model Pipe_Spec Pipe_Steps Pipe_Main
  Pipe_Shapes Pipe_ShapesCC Properties_Pipeline End_Wasm WA_Wasm WA_Model WA_Spec WA_Eval Properties_WasmRun Properties_EndToEnd
  LB_Model LB_Spec LB_Env Properties_LambdaBoxLocal LM_Model LM_Spec LM_TransProofs Properties_LambdaBoxMut AN_Model AN_Spec AN_Sig AN_Eval AN_Proofs
  Properties_ANormal End_Front CP_Model CP_Proofs CP_Twin CP_End Properties_Whole Properties_WholeCPS
  CG_Clight CG_Model CG_Spec CG_Collector End_C Properties_Codegen Properties_EndToEndC KC_Model KC_Spec KC_Proofs KC_Top Properties_CodegenCPS End_KC
  Properties_WholeCPSC EA_Model EA_Spec EA_Proofs Properties_Erased.
From Verif Require Layout_Model Layout_Proofs Properties_Layout CG_Top Names_Model.
Import LB_Model LB_Spec Pipe_Shapes EA_Model EA_Spec EA_Proofs Properties_Erased.
Import ListNotations.
Local Open Scope nat_scope.

(** The program of the untyped language the erased program becomes. *)
Definition local_of (G : global_context) (t : term) : lexp :=
  LM_Model.translate_program [] (compile_ctx G) (compile t).

Theorem C83_to_wasm : forall prims penv nv opts name g nenv G t cenv' B M,
  wf_glob G = true -> wellformed G 0 t = true -> eglobals_ok G -> program_ok name g (local_of G t) ->
  compile_source prims penv nv opts name g nenv (local_of G t) = Some (cenv', B, M) ->
  esafe false (local_of G t) ->
  forall v e u, ev G t v -> edata v e -> tree_val (front_tags name g) e = Some u ->
  exists n, forall grow lf, (64 <= lf)%nat -> exists s, run_main grow lf M n = FOk s /\ (answers cenv' B s u \/ exhausted grow s).
Proof.
  intros prims penv nv opts name g nenv G t cenv' B M WG W GO OK H SF v e u V D T.
  eapply C77_data; [exact OK|exact H| |exact SF|exact T]. exact (C83_to_local G t WG W GO v e V D).
Qed.
Print Assumptions C83_to_wasm.

Theorem C83_to_wasm_cps : forall prims penv nv opts name g nenv G t cenv' B M,
  wf_glob G = true -> wellformed G 0 t = true -> eglobals_ok G -> program_ok name g (local_of G t) -> (3 <= nv)%positive ->
  compile_source_cps prims penv nv opts name g nenv (local_of G t) = Some (cenv', B, M) ->
  esafe false (local_of G t) ->
  forall v e u, ev G t v -> edata v e -> tree_val (front_tags name g) e = Some u ->
  exists n, forall grow lf, (64 <= lf)%nat -> exists s, run_main grow lf M n = FOk s /\ (answers cenv' B s u \/ exhausted grow s).
Proof.
  intros prims penv nv opts name g nenv G t cenv' B M WG W GO OK N3 H SF v e u V D T.
  eapply C80_data; [exact OK|exact N3|exact H| |exact SF|exact T]. exact (C83_to_local G t WG W GO v e V D).
Qed.
Print Assumptions C83_to_wasm_cps.

Theorem C83_to_c : forall nParam prims lprims nv opts name g nenv G t cenv' e' prog gc,
  wf_glob G = true -> wellformed G 0 t = true -> eglobals_ok G -> program_ok name g (local_of G t) -> (100 <= nv)%positive -> gc_ok gc ->
  compile_source_c nParam prims lprims nv opts name g nenv (local_of G t) = Some (cenv', e', prog) -> fits nParam cenv' e' ->
  forall m a ids, wfm m a ids -> area m a -> esafe false (local_of G t) ->
  forall v e u, ev G t v -> edata v e -> tree_val (front_tags name g) e = Some u ->
  exists n, forall k, n <= k ->
  run gc Names_Model.gcIdent prog k Names_Model.bodyIdent [] m = CAbort \/
  exists w m' a', run gc Names_Model.gcIdent prog k Names_Model.bodyIdent [] m = COk w m' /\ hr m' a' (enc cenv' u) w /\ area m' a'.
Proof.
  intros nParam prims lprims nv opts name g nenv G t cenv' e' prog gc WG W GO OK L GC H F m a ids WM AR SF v e u V D T.
  eapply C78_erased_data; [exact OK|exact L|exact GC|exact H|exact F|exact WM|exact AR| |exact SF|exact T].
  exact (C83_to_local G t WG W GO v e V D).
Qed.
Print Assumptions C83_to_c.

Theorem C82_from_metarocq_partial : forall nParam prims lprims nv opts name g nenv G t cenv' e' prog kgc,
  wf_glob G = true -> wellformed G 0 t = true -> eglobals_ok G -> program_ok name g (local_of G t) -> (100 <= nv)%positive -> kgc_ok kgc -> keeps_limit kgc ->
  compile_source_kc nParam prims lprims nv opts name g nenv (local_of G t) = Some (cenv', e', prog) -> kfits cenv' e' ->
  forall m a, (m_lo m <= a <= m_hi m)%Z -> area m a -> esafe false (local_of G t) ->
  forall v e u, ev G t v -> edata v e -> tree_val (front_tags name g) e = Some u ->
  exists n, forall k, n <= k ->
  krun kgc prog k Names_Model.bodyIdent [] m = CAbort \/
  exists w m' a', krun kgc prog k Names_Model.bodyIdent [] m = COk w m' /\ m_args m' 1 = Some w /\ hr m' a' (enc cenv' u) w /\ area m' a'.
Proof.
  intros nParam prims lprims nv opts name g nenv G t cenv' e' prog kgc WG W GO OK L GC KL H F m a Hb AR SF v e u V D T.
  eapply C82_erased_data_partial; [exact OK|exact L|exact GC|exact KL|exact H|exact F|exact Hb|exact AR| |exact SF|exact T].
  exact (C83_to_local G t WG W GO v e V D).
Qed.
Print Assumptions C82_from_metarocq_partial.

(** *** Example: doubling twice, from the erased program to both targets *)
Example C83_example_end :
  wf_glob e_env = true /\ wellformed e_env 0 e_main = true /\ eglobals_ok e_env /\ program_ok z_name z_env (local_of e_env e_main) /\
  esafe false (local_of e_env e_main) /\ ev e_env e_main (e_num 8) /\ edata (e_num 8) (x_num 8) /\
  tree_val (front_tags z_name z_env) (x_num 8) = Some (Nat.iter 8 (fun v => Vconstr 103%positive [v]) (Vconstr 102%positive [])) /\
  z_run (p_opts true true true true true) (local_of e_env e_main) 60 = Some (Some 8, 0%Z) /\
  zc_run (p_opts true true true true true) (local_of e_env e_main) 100 = Some (Some 8, 0%Z) /\
  q_out (q_src (p_opts true true true true true) 3 (local_of e_env e_main)) 3 9 80 = Some (true, Some 8) /\
  qk_out (qk_src (k_opts true true true true true) 3 (local_of e_env e_main)) 4 400 = Some (true, Some 8).
Proof.
  destruct e_main_ok as (A & _ & _ & B & _).
  destruct (C83_wellformed e_env e_main A B) as [CE CT].
  assert (W := C49_well_formed _ _ CE CT).
  assert (E := C83_to_local e_env e_main A B e_globals_ok _ _ e_main_ev (e_num_data 8)).
  split; [exact A|]. split; [exact B|]. split; [exact e_globals_ok|]. split; [|split; [|split; [exact e_main_ev|split; [exact (e_num_data 8)|]]]].
  - split; [exact z_name_inj|]. split; [exact (proj1 (proj2 z_ok))|]. split; [exact W|]. unfold local_of. vm_compute LM_Model.translate_program. z_conforms.
  - apply (C54_plain_safe _ (x_num 8) W); [|exact E]. unfold local_of. vm_compute LM_Model.translate_program. cbn. tauto.
  - split; [reflexivity|]. repeat split; vm_compute; reflexivity.
Qed.
