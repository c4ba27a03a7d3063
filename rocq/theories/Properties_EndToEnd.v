(** * C76: from LambdaANF programs to Wasm modules, through all passes *)
From Coq Require Import ZArith NArith PArith List Lia Bool Arith String.
From Verif Require Import ANF_Syntax ANF_Eval ANF_Spec ANF_Scope ANF_EvalProofs CC_Spec Comp_Model Pipe_Model Pipe_Spec Pipe_Steps Pipe_Main
  Pipe_Shapes Pipe_ShapesCC Pipe_Inv Properties_Pipeline End_Wasm RT_Int63Spec WA_Wasm WA_Model WA_Spec WA_Eval Properties_WasmRun.
Import ListNotations.
Local Open Scope nat_scope.

(** ** The compiler *)

(** theories/LambdaANF/toplevel.v:200-217 followed by
    theories/CodegenWasm/toplevel.v:14-28: the table, the functions and the module *)
Definition compile_wasm (penv : tmap (option primop)) (nv : positive) (opts : anf_options) (cenv : ctor_env) (ctag : ctor_tag) (itag : ind_tag)
    (nenv : name_env) (fenv : fun_env) (e : exp) : option (ctor_env * fundefs * wmodule) :=
  match fst (run_anf_pipeline passes nv opts (cenv, ctag, itag, nenv, fenv, e)) with
  | Ret (cenv', _, _, _, _, e') =>
      match ensure_top_level_Efun e' with
      | Efun B m => option_map (fun M => (cenv', B, M)) (LambdaANF_to_Wasm cenv' penv (Efun B m))
      | _ => None
      end
  | Err _ => None
  end.

(** What the compiler is given: besides the conditions of C74, constructors are in
    the table with the number of arguments they have, with different ordinals if
    they belong to one type, integer literals are 63-bit integers, and the types
    are numbered below the next number, none with the number of closures
    (theories/LambdaANF/toplevel.v:46-52: the front end starts at 99). *)
Definition wasm_source_ok (cenv : ctor_env) (ctag : ctor_tag) (itag : ind_tag) (e : exp) : Prop :=
  source_ok cenv ctag e /\ ordinals_ok cenv /\
  (forall t i, get t cenv = Some i -> (ctor_ind_tag i < itag)%positive /\ ctor_ind_tag i <> clo_ind_tag) /\ (clo_ind_tag < itag)%positive /\
  all (shape_ok cenv lit_ok (fun _ _ => True) True) e.

(** What the passes leave is what the code generator wants. *)
Lemma pipeline_shapes V P L nv opts cenv ctag itag nenv fenv e cenv' ctag' itag' nenv' fenv' e' log :
  source_ok cenv ctag e -> ordinals_ok cenv ->
  (forall t i, get t cenv = Some i -> (ctor_ind_tag i < itag)%positive /\ ctor_ind_tag i <> clo_ind_tag) -> (clo_ind_tag < itag)%positive ->
  all (shape_ok cenv V P L) e ->
  run_anf_pipeline passes nv opts (cenv, ctag, itag, nenv, fenv, e) = (Ret (cenv', ctag', itag', nenv', fenv', e'), log) ->
  all (shape_ok cenv' V P L) e' /\ ordinals_ok cenv' /\ flat e' /\ (returns e -> returns e').
Proof.
  intros SO O I LT A. unfold run_anf_pipeline.
  destruct (anf_pipeline passes nv opts e (initial_data cenv ctag itag nenv fenv e)) as [[m|e1] c1] eqn:E; [discriminate|].
  intro H. destruct c1 as [n1 n2 n3 n4 ce fe ne im lg]. injection H as <- <- <- <- <- <- _.
  destruct SO as (W & T1 & T2 & T3).
  refine (pipeline_settles nv opts e (initial_data cenv ctag itag nenv fenv e) e1 _ V P L E _ T2 T3 A).
  constructor; cbn [initial_data nect_ctor_tag next_ind_tag Comp_Model.cenv].
  - exact T1.
  - intros t i G. apply (I t i G).
  - exact O.
  - split; [exact LT|]. intros t i G. apply (I t i G).
Qed.
Lemma pipeline_out nv opts cenv ctag itag nenv fenv e cenv' ctag' itag' nenv' fenv' e' log :
  wasm_source_ok cenv ctag itag e ->
  run_anf_pipeline passes nv opts (cenv, ctag, itag, nenv, fenv, e) = (Ret (cenv', ctag', itag', nenv', fenv', e'), log) ->
  all (shape_ok cenv' lit_ok (fun _ _ => True) True) e' /\ ordinals_ok cenv' /\ flat e' /\ (returns e -> returns e').
Proof. intros (SO & O & I & L & A). apply pipeline_shapes; auto. Qed.

Lemma compile_wasm_inv penv nv opts cenv ctag itag nenv fenv e cenv' B M :
  compile_wasm penv nv opts cenv ctag itag nenv fenv e = Some (cenv', B, M) ->
  exists ctag' itag' nenv' fenv' e' log m,
    run_anf_pipeline passes nv opts (cenv, ctag, itag, nenv, fenv, e) = (Ret (cenv', ctag', itag', nenv', fenv', e'), log) /\
    ensure_top_level_Efun e' = Efun B m /\ LambdaANF_to_Wasm cenv' penv (Efun B m) = Some M.
Proof.
  unfold compile_wasm. intro H.
  destruct (run_anf_pipeline passes nv opts (cenv, ctag, itag, nenv, fenv, e)) as [[s|[[[[[ce ct] it] ne] fe] e']] log]; [discriminate|]. cbn [fst] in H.
  destruct (wrap_form e') as (B1 & m & E). rewrite E in H. destruct (LambdaANF_to_Wasm ce penv (Efun B1 m)) as [M1|] eqn:K; [|discriminate].
  cbn [option_map] in H. injection H as <- <- <-. exists ct, it, ne, fe, e', log, m. auto.
Qed.

Lemma no_prims cenv penv : prims_ok cenv penv [].
Proof. intros p op f vs v _ H. discriminate. Qed.

(** the facts used below *)
Lemma compiled_facts penv nv opts cenv ctag itag nenv fenv e cenv' B M : wasm_source_ok cenv ctag itag e ->
  compile_wasm penv nv opts cenv ctag itag nenv fenv e = Some (cenv', B, M) ->
  exists e' m, ensure_top_level_Efun e' = Efun B m /\ LambdaANF_to_Wasm cenv' penv (Efun B m) = Some M /\
    ordinals_ok cenv' /\ wprog_ok cenv' B m /\ implements (compiled clo_tag) cenv e cenv' e'.
Proof.
  intros WS H. destruct (compile_wasm_inv _ _ _ _ _ _ _ _ _ _ _ _ H) as (ct & it & ne & fe & e' & log & m & R & E & C).
  destruct (pipeline_out _ _ _ _ _ _ _ _ _ _ _ _ _ _ _ WS R) as (A & O & F & _).
  destruct (C75_pipeline_names _ _ _ _ _ _ _ _ (proj1 WS) _ _ _ _ _ _ _ R) as ((ND & _) & _).
  destruct (C74_pipeline nv opts cenv ctag itag nenv fenv e (proj1 WS)) as (ce2 & ct2 & it2 & ne2 & fe2 & e2 & log2 & R2 & IM & _).
  rewrite R in R2. injection R2 as <- _ _ _ _ <- _.
  exists e', m. split; [exact E|]. split; [exact C|]. split; [exact O|]. split; [|exact IM].
  eapply shapes_wprog_ok; rewrite <- E; [apply wrap_all; exact A|rewrite wrap_bv; exact ND].
Qed.

(** ** C76 *)

(** A program with value [v] becomes a module whose [main_function] returns with a
    representation of [v], closures in the place of functions, or runs out of
    memory. *)
Theorem C76_value : forall penv nv opts cenv ctag itag nenv fenv e cenv' B M,
  wasm_source_ok cenv ctag itag e ->
  compile_wasm penv nv opts cenv ctag itag nenv fenv e = Some (cenv', B, M) ->
  forall c v, bstep_fuel cenv [] e c (Res v) ->
  exists v' n, compiled clo_tag v v' /\ (data v -> v' = v) /\
    forall grow lf, (64 <= lf)%nat -> exists s, run_main grow lf M n = FOk s /\ (answers cenv' B s v' \/ exhausted grow s).
Proof.
  intros penv nv opts cenv ctag itag nenv fenv e cenv' B M WS H c v BS.
  destruct (compiled_facts _ _ _ _ _ _ _ _ _ _ _ _ WS H) as (e' & m & E & C & O & W & IM).
  destruct (proj1 IM c v BS) as (c' & v' & B' & V).
  destruct (proj2 (bstep_bstep_e cenv' []) _ _ _ _ B' v' eq_refl) as [k K].
  destruct (proj2 (wrap_bstep cenv' [] e' v') (ex_intro _ k K)) as [k' K']. rewrite E in K'.
  exists v', (S k'). split; [exact V|]. split; [intro D; exact (compiled_data _ v D v' V)|].
  intros grow lf Hlf. eapply C64_value; [exact C|exact O|apply no_prims|exact W|exact Hlf|exact K'].
Qed.
Print Assumptions C76_value.

(** If the program does not get stuck, nothing else comes out: the module does not
    trap, and what it answers is the value of the program. *)
Theorem C76_answer : forall penv nv opts cenv ctag itag nenv fenv e cenv' B M,
  wasm_source_ok cenv ctag itag e ->
  compile_wasm penv nv opts cenv ctag itag nenv fenv e = Some (cenv', B, M) ->
  not_stuck cenv [] e ->
  forall grow lf n, (64 <= lf)%nat ->
  run_main grow lf M (S n) <> FTrap /\ run_main grow lf M (S n) <> FStuck /\
  forall s, run_main grow lf M (S n) = FOk s ->
    exhausted grow s \/ exists c v v', bstep_fuel cenv [] e c (Res v) /\ compiled clo_tag v v' /\ answers cenv' B s v'.
Proof.
  intros penv nv opts cenv ctag itag nenv fenv e cenv' B M WS H NS grow lf n Hlf.
  destruct (compiled_facts _ _ _ _ _ _ _ _ _ _ _ _ WS H) as (e' & m & E & C & O & W & IM).
  destruct (proj2 (proj2 IM) NS) as (NS' & BK & _).
  pose proof (wrap_psafe _ [] _ (not_stuck_safe cenv' [] [] e' NS')) as SF. rewrite E in SF.
  destruct (@C42_never_traps cenv' penv [] B m M grow lf n C O (no_prims _ _) W Hlf SF) as [T1 T2].
  split; [exact T1|]. split; [exact T2|]. intros s R.
  destruct (@C64_answer cenv' penv [] B m M grow lf n s C O (no_prims _ _) W Hlf SF R) as [X|(v' & k & K & AN)]; [left; exact X|right].
  rewrite <- E in K. destruct (proj1 (wrap_bstep cenv' [] e' v') (ex_intro _ k K)) as [k' K'].
  destruct NS' as [(c1 & v1 & B1)|D].
  - apply bstep_e_peval in K'. pose proof (peval_res cenv' [] k' [] e' c1 v1 B1) as Q. rewrite K' in Q. specialize (Q ltac:(discriminate)). injection Q as <-.
    destruct (BK c1 v' B1) as (c & v & BS & V). exists c, v, v'. auto.
  - apply bstep_e_peval in K'. rewrite (diverge_time cenv' [] [] e' D) in K'. discriminate.
Qed.
Print Assumptions C76_answer.

(** A program that runs forever becomes a module that runs forever or out of
    memory. *)
Theorem C76_divergence : forall penv nv opts cenv ctag itag nenv fenv e cenv' B M,
  wasm_source_ok cenv ctag itag e ->
  compile_wasm penv nv opts cenv ctag itag nenv fenv e = Some (cenv', B, M) ->
  diverge cenv [] e ->
  forall grow lf n, (64 <= lf)%nat ->
  run_main grow lf M (S n) = FTime \/ exists s, run_main grow lf M (S n) = FOk s /\ exhausted grow s.
Proof.
  intros penv nv opts cenv ctag itag nenv fenv e cenv' B M WS H D grow lf n Hlf.
  destruct (compiled_facts _ _ _ _ _ _ _ _ _ _ _ _ WS H) as (e' & m & E & C & O & W & IM).
  pose proof (proj1 (proj2 IM) D) as D'.
  pose proof (wrap_psafe _ [] _ (not_stuck_safe cenv' [] [] e' (or_intror D'))) as SF. rewrite E in SF.
  refine (@C64_divergence cenv' penv [] B m M grow lf C O (no_prims _ _) W Hlf SF _ n).
  intros v c K. rewrite <- E in K. apply bstep_e_peval in K. rewrite wrap_peval, (diverge_time cenv' [] [] e' D') in K. discriminate.
Qed.
Print Assumptions C76_divergence.

(** *** Example: two plus one, with and without optimisations *)
Lemma p_wasm_ok : wasm_source_ok p_cenv 102%positive 101%positive p_prog.
Proof.
  split; [exact p_ok|]. split; [|split; [|split; [reflexivity|]]].
  - intros t1 t2 i1 i2. unfold p_cenv. cbn [get].
    repeat (destruct (Pos.eq_dec _ _) as [->|]; [|]); intros E1 E2; try discriminate; auto; injection E1 as <-; injection E2 as <-; cbn; discriminate.
  - intros t i. unfold p_cenv. cbn [get]. repeat (destruct (Pos.eq_dec _ _) as [->|]; [intro E; injection E as <-; split; [reflexivity|discriminate]|]). discriminate.
  - cbn. repeat split; eexists; (split; [reflexivity|reflexivity]) || reflexivity.
Qed.

(** the unary number at a word of memory *)
Fixpoint read_unary (fuel : nat) (m : bytes) (w : Z) : option nat :=
  match fuel with
  | O => None
  | S k => if Z.eqb w 1 then Some O else if Z.eqb (rd 4 m w) 1 then option_map S (read_unary k m (rd 4 m (w + 4))) else None
  end.
Definition p_run (o : anf_options) (ok : bool) (n : nat) : option (option nat * Z) :=
  match compile_wasm [] 100%positive o p_cenv 102%positive 101%positive [] [(3%positive, (1%N, [0%N]))] p_prog with
  | Some (_, _, M) =>
      match run_main (fun _ => ok) 64 M n with
      | FOk s => match nth_error (s_glob s) 2, nth_error (s_glob s) 3 with
                 | Some (I32 w), Some (I32 f) => Some (read_unary 10 (s_mem s) w, f)
                 | _, _ => None
                 end
      | _ => None
      end
  | None => None
  end.
Example C76_example :
  wasm_source_ok p_cenv 102%positive 101%positive p_prog /\ (exists c, bstep_fuel p_cenv [] p_prog c (Res (p_nat 3))) /\
  p_run (p_opts true true true true true) true 10 = Some (Some 3, 0%Z) /\
  p_run (p_opts false false false false false) true 20 = Some (Some 3, 0%Z).
Proof.
  split; [exact p_wasm_ok|]. split; [exact (proj1 (proj2 C74_example))|]. split; vm_compute; reflexivity.
Qed.

(** <<let rec loop x = loop x in loop 0>> *)
Definition p_loopB : fundefs := (Fcons 10 3 [11] (Eapp 10 3 [11]) Fnil)%positive.
Definition p_loop : exp := (Efun p_loopB (Econstr 20 100 [] (Eletapp 21 10 3 [20] (Ehalt 21))))%positive.
Definition p_loop_module : option wmodule :=
  option_map snd (compile_wasm [] 100%positive (p_opts true true true true true) p_cenv 102%positive 101%positive [] [(3%positive, (1%N, [0%N]))] p_loop).

Lemma p_loop_diverges : diverge p_cenv [] p_loop.
Proof.
  set (v := Vconstr 100%positive []).
  assert (H : forall c rho, get 10%positive rho = Some (Vfun [] p_loopB 10%positive) -> get 11%positive rho = Some v -> bstep_fuel p_cenv rho (Eapp 10 3 [11])%positive c OOT).
  { induction c as [|c IH]; intros rho G1 G2; [constructor; lia|]. replace (S c) with (c + 1) by lia. apply BStepf_run.
    eapply BStept_app with (vs := [v]); [exact G1|cbn [get_list]; rewrite G2; reflexivity|reflexivity|reflexivity|]. apply IH; reflexivity. }
  intro c. do 2 (destruct c as [|c]; [constructor; lia|replace (S c) with (c + 1) by lia; apply BStepf_run; econstructor; try reflexivity]).
  destruct c as [|c]; [constructor; lia|]. replace (S c) with (c + 1) by lia. apply BStepf_run.
  eapply BStept_letapp_oot; [reflexivity|reflexivity|reflexivity|reflexivity|]. apply H; reflexivity.
Qed.

Example C76_example_loop :
  wasm_source_ok p_cenv 102%positive 101%positive p_loop /\ diverge p_cenv [] p_loop /\
  match p_loop_module with
  | Some M => match run_main (fun _ => true) 64 M 100 with FTime => True | _ => False end
  | None => False
  end.
Proof.
  split; [|split; [exact p_loop_diverges|vm_compute; exact I]].
  destruct p_wasm_ok as ((_ & T) & O & N & L & _). split; [split; [|exact T]|].
  - split; [unfold p_loop, p_loopB; cbn; repeat (constructor; [cbn; intuition discriminate|]); constructor|].
    intros x F. apply ANF_FreeProofs.exp_fv_spec in F. vm_compute in F. exact F.
  - split; [exact O|]. split; [exact N|]. split; [exact L|]. cbn. repeat split. eexists; split; reflexivity.
Qed.
