(** * C80: from the erased languages to Wasm modules, in continuation-passing style *)
From Coq Require Import ZArith NArith PArith List Lia Bool Arith Ascii String.
From Verif Require Import ANF_Syntax ANF_Subst ANF_Eval ANF_Spec ANF_Scope ANF_EvalProofs CC_Spec Comp_Model Pipe_Model Pipe_Spec Pipe_Steps Pipe_Main
  Pipe_Shapes Pipe_ShapesCC Properties_Pipeline End_Wasm RT_Int63Spec WA_Wasm WA_Model WA_Spec WA_Eval Properties_WasmRun Properties_EndToEnd
  LB_Model LB_Spec LB_Env Properties_LambdaBoxLocal LM_Model LM_Spec LM_TransProofs Properties_LambdaBoxMut AN_Model AN_Spec AN_Sig AN_Eval AN_Proofs
  Properties_ANormal End_Front CP_Model CP_Proofs CP_Twin CP_End Properties_Whole.
From Verif Require Layout_Model Layout_Proofs Properties_Layout.
Import ListNotations.
Local Open Scope nat_scope.

(** ** The compiler *)

(** theories/LambdaANF/toplevel.v:52 *)
Definition kon_fun_tag := 2%positive.

(** theories/LambdaANF/LambdaBoxLocal_to_LambdaANF.v:392-402 ([convert_top]) as called
    in theories/LambdaANF/toplevel.v:58-69, followed by [compile_wasm]:
    theories/Compiler/pipeline.v:70-79 and theories/CodegenWasm/toplevel.v:14-37 with
    the option [direct] off *)
Definition compile_source_cps (prims : tmap nat) (penv : tmap (option primop)) (nv : positive) (opts : anf_options) (name : positive -> string)
    (g : Layout_Model.ienv) (nenv : name_env) (e : lexp) : option (ctor_env * fundefs * wmodule) :=
  let '(cenv, ctag, itag, tgm) := front_tables name g in
  match convert_whole_exp prims fun_fun_tag kon_fun_tag default_ctor_tag tgm nv e with
  | Some (e', _) => compile_wasm penv nv opts cenv ctag itag nenv [(fun_fun_tag, (2%N, [0%N; 1%N])); (kon_fun_tag, (1%N, [0%N]))] e'
  | None => None
  end.

(** What the passes make of the program, they also make of a program ([t] below)
    that does bind every name once. *)
Lemma front_cps_ok prims nv name g e b s' : program_ok name g e -> (3 <= nv)%positive ->
  cps_cvt prims fun_fun_tag kon_fun_tag default_ctor_tag (front_tags name g) e [] nv (nv + 1 + 1 + 1)%positive = Some (b, s') ->
  let '(cenv, ctag, itag, tgm) := front_tables name g in
  wasm_source_ok cenv ctag itag (twin_at kon_fun_tag nv b) /\ all no_prim (twin_at kon_fun_tag nv b) /\ uses tgm e /\ good_sig default_ctor_tag tgm cenv.
Proof.
  intros (NI & ND & W & CF) N3 H. unfold front_tables.
  set (r := Layout_Model.convert_env default_ctor_tag default_ind_tag g) in *. fold (front_tags name g).
  change (rename name (Properties_Layout.ids_of r)) with (front_tags name g).
  assert (U : uses (front_tags name g) e).
  { apply (proj1 (conv_uses (front_tags name g) (declared_con name g) (fun d n K => proj1 (tags_known name g d n NI ND K))) _ CF). }
  assert (SH := twin_all prims (front_tags name g) fun_fun_tag kon_fun_tag default_ctor_tag (declared_con name g) nv s' e b CF H).
  pose proof (table_below default_ctor_tag default_ind_tag g ND) as TB. cbn zeta in TB. fold r in TB.
  destruct (next_below default_ctor_tag default_ind_tag g ND) as [NB1 NB2]. fold r in NB1, NB2.
  split; [split; [split|]|split; [|split; [exact U|]]].
  - split; [eapply twin_bound; eauto|intro x; eapply twin_closed; eauto].
  - split; [intros t i G; apply (TB t i G)|]. split; [unfold clo_tag, default_ctor_tag in *; lia|].
    destruct (get clo_tag (Properties_Layout.ctors_of r)) as [i|] eqn:G; [|reflexivity]. destruct (TB _ _ G) as [[X _] _]. unfold clo_tag, default_ctor_tag in X. lia.
  - split; [apply table_ordinals; exact ND|]. split; [|split].
    + intros t i G. destruct (TB _ _ G) as [_ X]. split; [apply X|]. unfold clo_ind_tag, default_ind_tag in *. intro Q. rewrite Q in X. lia.
    + unfold clo_ind_tag, default_ind_tag in *. lia.
    + apply SH; [|exists {| ctor_ind_tag := default_ind_tag; ctor_arity := 0; ctor_ordinal := 0 |}; split; [|reflexivity]|split; exact I].
      * intros d n D. destruct (tags_known name g d n NI ND D) as (_ & inf & G & A). cbn [shape_ok]. split; exists inf; [|exact G]. rewrite N2Nat.id. auto.
      * pose proof (Layout_Proofs.env_ok default_ctor_tag default_ind_tag g ND) as IV. fold r in IV. destruct r as [[[[ie ce] nc] ni] m]. apply IV.
  - apply SH; [intros; split; exact I|exact I|split; exact I].
  - apply built_sig; auto.
Qed.

Lemma compile_wasm_same penv nv opts cenv ctag itag nenv fenv e1 e2 :
  Pipe_Model.shrunk e1 = Pipe_Model.shrunk e2 -> max_var e1 1 = max_var e2 1 ->
  compile_wasm penv nv opts cenv ctag itag nenv fenv e1 = compile_wasm penv nv opts cenv ctag itag nenv fenv e2.
Proof. intros H M. unfold compile_wasm. rewrite (pipeline_same nv opts cenv ctag itag nenv fenv e1 e2 H M). reflexivity. Qed.

Lemma compile_cps_inv prims penv nv opts name g nenv e cenv' B M : program_ok name g e -> (3 <= nv)%positive ->
  compile_source_cps prims penv nv opts name g nenv e = Some (cenv', B, M) ->
  exists cenv ctag itag b s',
    wasm_source_ok cenv ctag itag (twin_at kon_fun_tag nv b) /\ all no_prim (twin_at kon_fun_tag nv b) /\
    uses (front_tags name g) e /\ good_sig default_ctor_tag (front_tags name g) cenv /\
    cps_cvt prims fun_fun_tag kon_fun_tag default_ctor_tag (front_tags name g) e [] nv (nv + 1 + 1 + 1)%positive = Some (b, s') /\
    compile_wasm penv nv opts cenv ctag itag nenv [(fun_fun_tag, (2%N, [0%N; 1%N])); (kon_fun_tag, (1%N, [0%N]))] (twin_at kon_fun_tag nv b) = Some (cenv', B, M).
Proof.
  intros OK N3 H. unfold compile_source_cps in H. pose proof (front_cps_ok prims nv name g e) as F.
  unfold front_tags in *. destruct (front_tables name g) as [[[cenv ctag] itag] tgm]. cbn [snd] in *.
  destruct (convert_whole_exp prims fun_fun_tag kon_fun_tag default_ctor_tag tgm nv e) as [[e' s']|] eqn:E; [|discriminate].
  destruct (convert_form _ _ _ _ _ _ _ _ _ E) as (b & CV & ->).
  destruct (F b s' OK N3 CV) as (W & N & U & G). exists cenv, ctag, itag, b, s'. repeat (split; [assumption|]).
  destruct OK as (_ & _ & _ & CF). rewrite <- H. symmetry. apply compile_wasm_same.
  - exact (twin_shrunk prims tgm fun_fun_tag kon_fun_tag default_ctor_tag _ nv s' e b N3 CF CV).
  - exact (same_max kon_fun_tag nv b N3 1%positive).
Qed.

Section Run.
  Variables (prims : tmap nat) (name : positive -> string) (g : Layout_Model.ienv) (cenv : ctor_env) (nv : positive) (e : lexp) (b : exp) (s' : positive).
  Hypothesis G : good_sig default_ctor_tag (front_tags name g) cenv.
  Hypothesis W : exp_wf 0 e.
  Hypothesis U : uses (front_tags name g) e.
  Hypothesis N3 : (3 <= nv)%positive.
  Hypothesis CV : cps_cvt prims fun_fun_tag kon_fun_tag default_ctor_tag (front_tags name g) e [] nv (nv + 1 + 1 + 1)%positive = Some (b, s').
  Hypothesis SF : esafe false e.

  Lemma twin_value v : eval e v -> exists w m, same_tree default_ctor_tag (front_tags name g) v w /\ peval cenv [] m [] (twin_at kon_fun_tag nv b) = PVal w.
  Proof.
    intro E. destruct (strict_value e v W E SF) as [n [u [X <-]]].
    pose proof (twin_sim prims fun_fun_tag kon_fun_tag default_ctor_tag (front_tags name g) cenv [] G n nv e b s' U N3 CV) as S. rewrite X in S.
    destruct S as (m & w & V & P). exists w, m. split; [eapply vrel_tree; eauto|exact P].
  Qed.
  Lemma twin_back m w : peval cenv [] m [] (twin_at kon_fun_tag nv b) = PVal w -> exists v, eval e v /\ same_tree default_ctor_tag (front_tags name g) v w.
  Proof.
    intro P. pose proof (twin_sim prims fun_fun_tag kon_fun_tag default_ctor_tag (front_tags name g) cenv [] G m nv e b s' U N3 CV) as S.
    destruct (eeval false m [] e) as [u| |] eqn:X; [| |destruct (SF m X)].
    - destruct S as (m' & w' & V & P'). assert (w' = w).
      { destruct (Nat.le_ge_cases m m') as [L|L].
        - assert (Z := peval_mono cenv [] [] _ L P ltac:(discriminate)). congruence.
        - assert (Z := peval_mono cenv [] [] _ L P' ltac:(discriminate)). congruence. }
      subst w'. exists (readback u). split; [|eapply vrel_tree; eauto]. apply C54_evaluator_exact; auto. exists m, u. split; auto.
      destruct (eeval_strict m [] e); congruence.
    - congruence.
  Qed.
End Run.

(** ** C80 *)

(** The module computes the value of the program, closures in the place of
    functions, or runs out of memory. *)
Theorem C80_value : forall prims penv nv opts name g nenv e cenv' B M, program_ok name g e -> (3 <= nv)%positive ->
  compile_source_cps prims penv nv opts name g nenv e = Some (cenv', B, M) ->
  forall v, eval e v -> esafe false e ->
  exists w v' n, same_tree default_ctor_tag (front_tags name g) v w /\ compiled clo_tag w v' /\ (data w -> v' = w) /\
    forall grow lf, (64 <= lf)%nat -> exists s, run_main grow lf M n = FOk s /\ (answers cenv' B s v' \/ exhausted grow s).
Proof.
  intros prims penv nv opts name g nenv e cenv' B M OK N3 H v E SF.
  destruct (compile_cps_inv _ _ _ _ _ _ _ _ _ _ _ OK N3 H) as (cenv & ctag & itag & b & s' & W & N & U & G & C & CW).
  destruct (twin_value prims name g cenv nv e b s' G (proj1 (proj2 (proj2 OK))) U N3 C SF v E) as (w & m & T & P).
  destruct (peval_fuel cenv [] m _ w N P) as [c' BF].
  destruct (C76_value _ _ _ _ _ _ _ _ _ _ _ _ W CW c' w BF) as (v' & n & V & D & R).
  exists w, v', n. auto.
Qed.
Print Assumptions C80_value.

(** A result made of constructors is the answer itself. *)
Theorem C80_data : forall prims penv nv opts name g nenv e cenv' B M, program_ok name g e -> (3 <= nv)%positive ->
  compile_source_cps prims penv nv opts name g nenv e = Some (cenv', B, M) ->
  forall v u, eval e v -> esafe false e -> tree_val (front_tags name g) v = Some u ->
  exists n, forall grow lf, (64 <= lf)%nat -> exists s, run_main grow lf M n = FOk s /\ (answers cenv' B s u \/ exhausted grow s).
Proof.
  intros prims penv nv opts name g nenv e cenv' B M OK N3 H v u E SF T.
  destruct (C80_value _ _ _ _ _ _ _ _ _ _ _ OK N3 H v E SF) as (w & v' & n & ST & V & D & R).
  destruct (proj1 (tree_same (front_tags name g)) _ _ _ ST T) as [-> DU]. rewrite (D DU) in R. exists n. exact R.
Qed.
Print Assumptions C80_data.

(** If the program has a value or runs forever, nothing else comes out: the
    module does not trap, and what it answers is the value of the program. *)
Theorem C80_answer : forall prims penv nv opts name g nenv e cenv' B M, program_ok name g e -> (3 <= nv)%positive ->
  compile_source_cps prims penv nv opts name g nenv e = Some (cenv', B, M) ->
  ((exists v, eval e v) /\ esafe false e) \/ ediverges false e ->
  forall grow lf n, (64 <= lf)%nat ->
  run_main grow lf M (S n) <> FTrap /\ run_main grow lf M (S n) <> FStuck /\
  forall s, run_main grow lf M (S n) = FOk s ->
    exhausted grow s \/
    exists v w v', eval e v /\ same_tree default_ctor_tag (front_tags name g) v w /\ compiled clo_tag w v' /\ answers cenv' B s v'.
Proof.
  intros prims penv nv opts name g nenv e cenv' B M OK N3 H RUN grow lf n Hlf.
  destruct (compile_cps_inv _ _ _ _ _ _ _ _ _ _ _ OK N3 H) as (cenv & ctag & itag & b & s' & W & N & U & G & C & CW).
  assert (WF := proj1 (proj2 (proj2 OK))).
  assert (SF : esafe false e) by (destruct RUN as [[_ SF]|D]; [exact SF|intros k K; rewrite D in K; discriminate]).
  assert (NS : not_stuck cenv [] (twin_at kon_fun_tag nv b)).
  { destruct RUN as [[[v E] _]|D].
    - destruct (twin_value prims name g cenv nv e b s' G WF U N3 C SF v E) as (w & m & T & P).
      destruct (peval_fuel cenv [] m _ w N P) as [c' BF]. left. eauto.
    - right. apply (peval_diverge cenv [] _ N). intro k.
      pose proof (twin_sim prims fun_fun_tag kon_fun_tag default_ctor_tag (front_tags name g) cenv [] G k nv e b s' U N3 C) as S. rewrite D in S. exact S. }
  destruct (C76_answer _ _ _ _ _ _ _ _ _ _ _ _ W CW NS grow lf n Hlf) as (T1 & T2 & A). split; [exact T1|]. split; [exact T2|].
  intros s R. destruct (A s R) as [X|(c & w & v' & BS & V & AN)]; [left; exact X|right].
  destruct (proj2 (bstep_bstep_e cenv []) _ _ _ _ BS w eq_refl) as [k K]. apply bstep_e_peval in K.
  destruct (twin_back prims name g cenv nv e b s' G WF U N3 C SF k w K) as (v & E & T).
  exists v, w, v'. auto.
Qed.
Print Assumptions C80_answer.

(** A program that runs forever becomes a module that runs forever or out of
    memory. *)
Theorem C80_divergence : forall prims penv nv opts name g nenv e cenv' B M, program_ok name g e -> (3 <= nv)%positive ->
  compile_source_cps prims penv nv opts name g nenv e = Some (cenv', B, M) -> ediverges false e ->
  forall grow lf n, (64 <= lf)%nat ->
  run_main grow lf M (S n) = FTime \/ exists s, run_main grow lf M (S n) = FOk s /\ exhausted grow s.
Proof.
  intros prims penv nv opts name g nenv e cenv' B M OK N3 H D grow lf n Hlf.
  destruct (compile_cps_inv _ _ _ _ _ _ _ _ _ _ _ OK N3 H) as (cenv & ctag & itag & b & s' & W & N & U & G & C & CW).
  refine (C76_divergence _ _ _ _ _ _ _ _ _ _ _ _ W CW _ grow lf n Hlf).
  apply (peval_diverge cenv [] _ N). intro k.
  pose proof (twin_sim prims fun_fun_tag kon_fun_tag default_ctor_tag (front_tags name g) cenv [] G k nv e b s' U N3 C) as S. rewrite D in S. exact S.
Qed.
Print Assumptions C80_divergence.

(** The same from programs of the erased language with their global definitions
    (theories/LambdaBoxMut), for results made of constructors. *)
Theorem C80_from_erased : forall prims penv nv opts name g nenv p t cenv' B M, crctEnv p -> crct p 0 t -> globals_ok p ->
  program_ok name g (translate_program [] p t) -> (3 <= nv)%positive ->
  compile_source_cps prims penv nv opts name g nenv (translate_program [] p t) = Some (cenv', B, M) ->
  esafe false (translate_program [] p t) ->
  forall r v u, WcbvEval p t r -> same_data r v -> tree_val (front_tags name g) v = Some u ->
  exists n, forall grow lf, (64 <= lf)%nat -> exists s, run_main grow lf M n = FOk s /\ (answers cenv' B s u \/ exhausted grow s).
Proof.
  intros prims penv nv opts name g nenv p t cenv' B M CE CT GO OK N3 H SF r v u E D T.
  eapply C80_data; [exact OK|exact N3|exact H| |exact SF|exact T]. exact (proj2 (C66_data p t CE CT GO r v D) E).
Qed.
Print Assumptions C80_from_erased.

(** The option [direct] does not matter: if both modules answer, and the value of
    the program is made of constructors, both answers represent it. *)
Theorem C80_agrees_with_direct : forall prims penv nv opts1 opts2 name g nenv e cenv1 B1 M1 cenv2 B2 M2,
  program_ok name g e -> (3 <= nv)%positive ->
  compile_source prims penv nv opts1 name g nenv e = Some (cenv1, B1, M1) ->
  compile_source_cps prims penv nv opts2 name g nenv e = Some (cenv2, B2, M2) ->
  esafe false e ->
  forall v u, eval e v -> tree_val (front_tags name g) v = Some u ->
  forall grow lf n1 n2 s1 s2, (64 <= lf)%nat -> run_main grow lf M1 (S n1) = FOk s1 -> run_main grow lf M2 (S n2) = FOk s2 ->
  (answers cenv1 B1 s1 u \/ exhausted grow s1) /\ (answers cenv2 B2 s2 u \/ exhausted grow s2).
Proof.
  intros prims penv nv opts1 opts2 name g nenv e cenv1 B1 M1 cenv2 B2 M2 OK N3 H1 H2 SF v u E T grow lf n1 n2 s1 s2 Hlf R1 R2.
  assert (RUN : ((exists v, eval e v) /\ esafe false e) \/ ediverges false e) by eauto.
  assert (X : forall cenv' B s, (exists v w v', eval e v /\ same_tree default_ctor_tag (front_tags name g) v w /\ compiled clo_tag w v' /\ answers cenv' B s v') -> answers cenv' B s u).
  { intros cenv' B s (v1 & w & v' & E1 & ST & V & A). assert (v1 = v) by (eapply C47_eval_deterministic; eauto). subst v1.
    destruct (proj1 (tree_same (front_tags name g)) _ _ _ ST T) as [-> DU]. rewrite <- (compiled_data _ u DU v' V). exact A. }
  split.
  - destruct (proj2 (proj2 (C77_answer _ _ _ _ _ _ _ _ _ _ _ OK H1 RUN grow lf n1 Hlf)) s1 R1) as [Y|Y]; [right; exact Y|left; apply X; exact Y].
  - destruct (proj2 (proj2 (C80_answer _ _ _ _ _ _ _ _ _ _ _ OK N3 H2 RUN grow lf n2 Hlf)) s2 R2) as [Y|Y]; [right; exact Y|left; apply X; exact Y].
Qed.
Print Assumptions C80_agrees_with_direct.

(** *** Examples: doubling two, the erased program that doubles twice, a loop *)
Definition zc_run (o : anf_options) (e : lexp) (n : nat) : option (option nat * Z) :=
  match compile_source_cps [] [] 100%positive o z_name z_env [] e with
  | Some (_, _, M) =>
      match run_main (fun _ => true) 64 M n with
      | FOk s => match nth_error (s_glob s) 2, nth_error (s_glob s) 3 with
                 | Some (I32 w), Some (I32 f) => Some (read_num 20 (s_mem s) w, f)
                 | _, _ => None
                 end
      | _ => None
      end
  | None => None
  end.
Example C80_example :
  program_ok z_name z_env x_prog /\ eval x_prog x_four /\ esafe false x_prog /\
  tree_val (front_tags z_name z_env) x_four = Some (Nat.iter 4 (fun v => Vconstr 103%positive [v]) (Vconstr 102%positive [])) /\
  zc_run (p_opts true true true true true) x_prog 60 = Some (Some 4, 0%Z) /\
  zc_run (p_opts false false false false false) x_prog 60 = Some (Some 4, 0%Z) /\
  z_run (p_opts true true true true true) x_prog 60 = Some (Some 4, 0%Z).
Proof.
  destruct C77_example as (A & B & C & D & _). repeat (split; [assumption|]). repeat split; vm_compute; reflexivity.
Qed.
Example C80_example_erased :
  crctEnv y_env /\ crct y_env 0 y_main /\ globals_ok y_env /\ program_ok z_name z_env (translate_program [] y_env y_main) /\
  esafe false (translate_program [] y_env y_main) /\ WcbvEval y_env y_main (y_num 8) /\ same_data (y_num 8) (x_num 8) /\
  zc_run (p_opts true true true true true) (translate_program [] y_env y_main) 100 = Some (Some 8, 0%Z).
Proof.
  destruct C77_example_erased as (A1 & A2 & A3 & A4 & A5 & A6 & A7 & _). repeat (split; [assumption|]). vm_compute. reflexivity.
Qed.
Example C80_example_loop :
  program_ok z_name z_env z_loop /\ ediverges false z_loop /\
  match compile_source_cps [] [] 100%positive (p_opts true true true true true) z_name z_env [] z_loop with
  | Some (_, _, M) => match run_main (fun _ => true) 64 M 100 with FTime => True | _ => False end
  | None => False
  end.
Proof. destruct C77_example_loop as (A & B & _). split; [exact A|]. split; [exact B|]. vm_compute. exact I. Qed.
