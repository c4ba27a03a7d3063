(** * C77: from the erased languages to Wasm modules *)
From Coq Require Import ZArith NArith PArith List Lia Bool Arith Ascii String.
From Verif Require Import ANF_Syntax ANF_Subst ANF_Eval ANF_Spec ANF_Scope ANF_EvalProofs CC_Spec Comp_Model Pipe_Model Pipe_Spec Pipe_Steps Pipe_Main
  Pipe_Shapes Pipe_ShapesCC Properties_Pipeline End_Wasm RT_Int63Spec WA_Wasm WA_Model WA_Spec WA_Eval Properties_WasmRun Properties_EndToEnd
  LB_Model LB_Spec LB_Env Properties_LambdaBoxLocal LM_Model LM_Spec LM_TransProofs Properties_LambdaBoxMut AN_Model AN_Spec AN_Sig Properties_ANormal End_Front.
From Verif Require Layout_Model Layout_Proofs Properties_Layout.
Import ListNotations.
Local Open Scope nat_scope.

(** ** The compiler *)

(** theories/LambdaANF/toplevel.v:43-51 *)
Definition default_ctor_tag := 99%positive.
Definition default_ind_tag := 99%positive.
Definition fun_fun_tag := 3%positive.

(** theories/LambdaANF/LambdaBoxLocal_to_LambdaANF.v:777-785 ([convert_top_anf]) as
    called in theories/LambdaANF/toplevel.v:69-80: the tables from the
    declarations, then the A-normal form.  The names for printing are the
    caller's. *)
Definition front_tables (name : positive -> string) (g : Layout_Model.ienv) : ctor_env * ctor_tag * ind_tag * conId_map :=
  let r := Layout_Model.convert_env default_ctor_tag default_ind_tag g in
  (Properties_Layout.ctors_of r, Properties_Layout.next_ctor r, Properties_Layout.next_ind r, rename name (Properties_Layout.ids_of r)).
Definition front_tags (name : positive -> string) (g : Layout_Model.ienv) : conId_map := snd (front_tables name g).

(** followed by [compile_wasm]: theories/Compiler/pipeline.v:72-79 and
    theories/CodegenWasm/toplevel.v:14-37 for the direct style *)
Definition compile_source (prims : tmap nat) (penv : tmap (option primop)) (nv : positive) (opts : anf_options) (name : positive -> string)
    (g : Layout_Model.ienv) (nenv : name_env) (e : lexp) : option (ctor_env * fundefs * wmodule) :=
  let '(cenv, ctag, itag, tgm) := front_tables name g in
  match convert_anf_exp prims fun_fun_tag default_ctor_tag tgm nv e with
  | Some (e', _) => compile_wasm penv nv opts cenv ctag itag nenv [(fun_fun_tag, (1%N, [0%N]))] e'
  | None => None
  end.

(** ** Programs *)

(** constructor [d] is declared with [n] arguments *)
Definition declared_con (name : positive -> string) (g : Layout_Model.ienv) (d : dcon) (n : N) : Prop :=
  exists kn i j cs a, d = ((name kn, i), N.of_nat j) /\ Layout_Proofs.declared g kn i j cs a /\ n = N.of_nat a.

(** Packs of types have different names; the term is closed; its constructors
    and branches are declared ones, with the right number of arguments; it has no
    literals and no primitive operations ([conforms]). *)
Definition program_ok (name : positive -> string) (g : Layout_Model.ienv) (e : lexp) : Prop :=
  (forall a b, name a = name b -> a = b) /\ NoDup (map fst g) /\ exp_wf 0 e /\ conforms (declared_con name g) e.

(** Values made of constructors, as LambdaANF values. *)
Fixpoint tree_val (tgm : conId_map) (v : lexp) : option val :=
  match v with
  | Con_e d es => option_map (Vconstr (dcon_to_tag default_ctor_tag d tgm)) (tree_vals tgm es)
  | Prf_e => Some (Vconstr default_ctor_tag [])
  | _ => None
  end
with tree_vals (tgm : conId_map) (es : exps) : option (list val) :=
  match es with
  | enil => Some []
  | econs e es => match tree_val tgm e, tree_vals tgm es with Some v, Some vs => Some (v :: vs) | _, _ => None end
  end.

Lemma tree_same tgm :
  (forall v w u, same_tree default_ctor_tag tgm v w -> tree_val tgm v = Some u -> w = u /\ data u) /\
  (forall vs ws us, same_trees default_ctor_tag tgm vs ws -> tree_vals tgm vs = Some us -> ws = us /\ Forall data us) /\
  (forall fs : efnlst, True) /\ (forall bs : branches_e, True).
Proof.
  assert (DF : forall l, Forall data l -> (fix go (vs : list val) : Prop := match vs with [] => True | v :: vs' => data v /\ go vs' end) l).
  { induction 1; [exact I|split; auto]. }
  apply my_exp_ind; try (intros; exact I); try (intros; cbn [tree_val] in *; discriminate).
  - intros d es IH w u S T. cbn [tree_val] in T. destruct (tree_vals tgm es) as [us|] eqn:E; [|discriminate]. injection T as <-.
    inversion S; subst. match goal with Q : same_trees _ _ es _ |- _ => destruct (IH _ _ Q eq_refl) as [-> D] end. split; [reflexivity|]. cbn [data]. apply DF. exact D.
  - intros w u S T. injection T as <-. inversion S; subst. split; [reflexivity|exact I].
  - intros ws us S T. cbn in T. injection T as <-. inversion S; subst. auto.
  - intros e IH1 es IH2 ws us S T. cbn [tree_vals] in T. destruct (tree_val tgm e) as [u|] eqn:E1; [|discriminate]. destruct (tree_vals tgm es) as [us'|] eqn:E2; [|discriminate].
    injection T as <-. inversion S; subst.
    match goal with Q1 : same_tree _ _ e _, Q2 : same_trees _ _ es _ |- _ => destruct (IH1 _ _ Q1 eq_refl) as [-> D1]; destruct (IH2 _ _ Q2 eq_refl) as [-> D2] end. auto.
Qed.

(** ** What the front end makes is in order for the passes *)
Lemma tags_known name g d n : (forall a b, name a = name b -> a = b) -> NoDup (map fst g) -> declared_con name g d n ->
  known (front_tags name g) d /\ exists inf, get (dcon_to_tag default_ctor_tag d (front_tags name g)) (Properties_Layout.ctors_of (Layout_Model.convert_env default_ctor_tag default_ind_tag g)) = Some inf /\ ctor_arity inf = n.
Proof.
  intros NI ND (kn & i & j & cs & a & -> & D & ->). unfold front_tags, front_tables. cbn [snd].
  destruct (declared_entry default_ctor_tag default_ind_tag g kn i j cs a ND D) as (inf & G & A & K).
  change (name kn, i, N.of_nat j) with (rename_dcon name (kn, i, N.of_nat j)). split.
  - unfold known, rename. rewrite map_map. cbn [fst]. apply in_map_iff in K. destruct K as ([d t] & K1 & K2). cbn [fst] in K1. subst d.
    apply in_map_iff. exists ((kn, i, N.of_nat j), t). split; [reflexivity|exact K2].
  - rewrite (rename_tag name NI default_ctor_tag). exists inf. auto.
Qed.

Lemma front_ok prims nv name g e e' s' : program_ok name g e ->
  convert_anf_exp prims fun_fun_tag default_ctor_tag (front_tags name g) nv e = Some (e', s') ->
  let '(cenv, ctag, itag, tgm) := front_tables name g in
  wasm_source_ok cenv ctag itag e' /\ all no_prim e' /\ uses tgm e /\ good_sig default_ctor_tag tgm cenv /\ returns e'.
Proof.
  intros (NI & ND & W & CF) H. unfold front_tables.
  set (r := Layout_Model.convert_env default_ctor_tag default_ind_tag g) in *. fold (front_tags name g).
  change (rename name (Properties_Layout.ids_of r)) with (front_tags name g).
  assert (U : uses (front_tags name g) e).
  { apply (proj1 (conv_uses (front_tags name g) (declared_con name g) (fun d n K => proj1 (tags_known name g d n NI ND K))) _ CF). }
  assert (SH : forall S : shape -> Prop, (forall d n, declared_con name g d n -> S (SConstr (dcon_to_tag default_ctor_tag d (front_tags name g)) (N.to_nat n)) /\ S (SBranch (dcon_to_tag default_ctor_tag d (front_tags name g)))) ->
    S (SConstr default_ctor_tag 0) -> (S (SFun fun_fun_tag 1) /\ S (SCall fun_fun_tag 1) /\ S SLet) -> all S e').
  { intros S S1 S2 S3. unfold convert_anf_exp in H. destruct (convert_anf prims fun_fun_tag default_ctor_tag (front_tags name g) e new_var_map nv) as [[[x C] s1]|] eqn:E; [|discriminate].
    injection H as <- <-. eapply (proj1 (conv_all S prims (front_tags name g) fun_fun_tag default_ctor_tag (declared_con name g) S1 S2 S3)); [exact CF|exact E|exact I]. }
  pose proof (table_below default_ctor_tag default_ind_tag g ND) as TB. cbn zeta in TB. fold r in TB.
  destruct (next_below default_ctor_tag default_ind_tag g ND) as [NB1 NB2]. fold r in NB1, NB2.
  split; [split; [split|]|split; [|split; [exact U|split]]].
  - split; [apply (C54_unique_bindings prims fun_fun_tag default_ctor_tag (front_tags name g) e nv e' s' U H)|exact (C54_closed prims fun_fun_tag default_ctor_tag (front_tags name g) e nv e' s' U H)].
  - split; [intros t i G; apply (TB t i G)|]. split; [unfold clo_tag, default_ctor_tag in *; lia|].
    destruct (get clo_tag (Properties_Layout.ctors_of r)) as [i|] eqn:G; [|reflexivity]. destruct (TB _ _ G) as [[X _] _]. unfold clo_tag, default_ctor_tag in X. lia.
  - split; [apply table_ordinals; exact ND|]. split; [|split].
    + intros t i G. destruct (TB _ _ G) as [_ X]. split; [apply X|]. unfold clo_ind_tag, default_ind_tag in *. intro Q. rewrite Q in X. lia.
    + unfold clo_ind_tag, default_ind_tag in *. lia.
    + apply SH; [|exists {| ctor_ind_tag := default_ind_tag; ctor_arity := 0; ctor_ordinal := 0 |}; split; [|reflexivity]|split; [|split]; exact I].
      * intros d n D. destruct (tags_known name g d n NI ND D) as (_ & inf & G & A). cbn [shape_ok]. split; exists inf; [|exact G]. rewrite N2Nat.id. auto.
      * pose proof (Layout_Proofs.env_ok default_ctor_tag default_ind_tag g ND) as IV. fold r in IV. destruct r as [[[[ie ce] nc] ni] m]. apply IV.
  - apply SH; [intros; split; exact I|exact I|split; [|split]; exact I].
  - apply built_sig; auto.
  - unfold convert_anf_exp in H. destruct (convert_anf prims fun_fun_tag default_ctor_tag (front_tags name g) e new_var_map nv) as [[[x C] s1]|] eqn:E; [|discriminate].
    injection H as <- <-. eapply (proj1 (conv_returns prims fun_fun_tag default_ctor_tag (front_tags name g))); [exact E|exact I].
Qed.

Lemma compile_source_inv prims penv nv opts name g nenv e cenv' B M : program_ok name g e ->
  compile_source prims penv nv opts name g nenv e = Some (cenv', B, M) ->
  exists cenv ctag itag e' s',
    wasm_source_ok cenv ctag itag e' /\ all no_prim e' /\ uses (front_tags name g) e /\ good_sig default_ctor_tag (front_tags name g) cenv /\
    convert_anf_exp prims fun_fun_tag default_ctor_tag (front_tags name g) nv e = Some (e', s') /\
    compile_wasm penv nv opts cenv ctag itag nenv [(fun_fun_tag, (1%N, [0%N]))] e' = Some (cenv', B, M).
Proof.
  intros OK H. unfold compile_source in H. pose proof (front_ok prims nv name g e) as F.
  unfold front_tags in *. destruct (front_tables name g) as [[[cenv ctag] itag] tgm]. cbn [snd] in *.
  destruct (convert_anf_exp prims fun_fun_tag default_ctor_tag tgm nv e) as [[e' s']|]; [|discriminate].
  destruct (F e' s' OK eq_refl) as (W & N & U & G & _). exists cenv, ctag, itag, e', s'. auto 10.
Qed.

(** ** C77 *)

(** A program with value [v] that applies no erased proof becomes a module whose
    [main_function] returns with a representation of [v], closures in the place of
    functions, or runs out of memory. *)
Theorem C77_value : forall prims penv nv opts name g nenv e cenv' B M, program_ok name g e ->
  compile_source prims penv nv opts name g nenv e = Some (cenv', B, M) ->
  forall v, eval e v -> esafe false e ->
  exists w v' n, same_tree default_ctor_tag (front_tags name g) v w /\ compiled clo_tag w v' /\ (data w -> v' = w) /\
    forall grow lf, (64 <= lf)%nat -> exists s, run_main grow lf M n = FOk s /\ (answers cenv' B s v' \/ exhausted grow s).
Proof.
  intros prims penv nv opts name g nenv e cenv' B M OK H v E SF.
  destruct (compile_source_inv _ _ _ _ _ _ _ _ _ _ _ OK H) as (cenv & ctag & itag & e' & s' & W & N & U & G & C & CW).
  destruct (C54_preserves prims fun_fun_tag default_ctor_tag (front_tags name g) cenv [] G e nv e' s' v (proj1 (proj2 (proj2 OK))) U C E SF) as (w & c & BS & T & _).
  destruct (peval_fuel cenv [] c e' w N (bstep_e_peval BS)) as [c' BF].
  destruct (C76_value _ _ _ _ _ _ _ _ _ _ _ _ W CW c' w BF) as (v' & n & V & D & R).
  exists w, v', n. auto.
Qed.
Print Assumptions C77_value.

(** A result made of constructors is the answer itself. *)
Theorem C77_data : forall prims penv nv opts name g nenv e cenv' B M, program_ok name g e ->
  compile_source prims penv nv opts name g nenv e = Some (cenv', B, M) ->
  forall v u, eval e v -> esafe false e -> tree_val (front_tags name g) v = Some u ->
  exists n, forall grow lf, (64 <= lf)%nat -> exists s, run_main grow lf M n = FOk s /\ (answers cenv' B s u \/ exhausted grow s).
Proof.
  intros prims penv nv opts name g nenv e cenv' B M OK H v u E SF T.
  destruct (C77_value _ _ _ _ _ _ _ _ _ _ _ OK H v E SF) as (w & v' & n & ST & V & D & R).
  destruct (proj1 (tree_same (front_tags name g)) _ _ _ ST T) as [-> DU]. rewrite (D DU) in R. exists n. exact R.
Qed.
Print Assumptions C77_data.

(** If the program has a value or runs forever, nothing else comes out: the
    module does not trap, and what it answers is the value of the program. *)
Theorem C77_answer : forall prims penv nv opts name g nenv e cenv' B M, program_ok name g e ->
  compile_source prims penv nv opts name g nenv e = Some (cenv', B, M) ->
  ((exists v, eval e v) /\ esafe false e) \/ ediverges false e ->
  forall grow lf n, (64 <= lf)%nat ->
  run_main grow lf M (S n) <> FTrap /\ run_main grow lf M (S n) <> FStuck /\
  forall s, run_main grow lf M (S n) = FOk s ->
    exhausted grow s \/
    exists v w v', eval e v /\ same_tree default_ctor_tag (front_tags name g) v w /\ compiled clo_tag w v' /\ answers cenv' B s v'.
Proof.
  intros prims penv nv opts name g nenv e cenv' B M OK H RUN grow lf n Hlf.
  destruct (compile_source_inv _ _ _ _ _ _ _ _ _ _ _ OK H) as (cenv & ctag & itag & e' & s' & W & N & U & G & C & CW).
  assert (SF : esafe false e) by (destruct RUN as [[_ SF]|D]; [exact SF|intros k K; rewrite D in K; discriminate]).
  assert (NS : not_stuck cenv [] e').
  { destruct RUN as [[[v E] _]|D].
    - destruct (C54_preserves prims fun_fun_tag default_ctor_tag (front_tags name g) cenv [] G e nv e' s' v (proj1 (proj2 (proj2 OK))) U C E SF) as (w & c & BS & T & _).
      destruct (peval_fuel cenv [] c e' w N (bstep_e_peval BS)) as [c' BF]. left. eauto.
    - right. apply (peval_diverge cenv [] e' N). exact (C54_preserves_divergence prims fun_fun_tag default_ctor_tag (front_tags name g) cenv [] G e nv e' s' U C D). }
  destruct (C76_answer _ _ _ _ _ _ _ _ _ _ _ _ W CW NS grow lf n Hlf) as (T1 & T2 & A). split; [exact T1|]. split; [exact T2|].
  intros s R. destruct (A s R) as [X|(c & w & v' & BS & V & AN)]; [left; exact X|right].
  destruct (proj2 (bstep_bstep_e cenv []) _ _ _ _ BS w eq_refl) as [k K].
  destruct (C54_reflects prims fun_fun_tag default_ctor_tag (front_tags name g) cenv [] G e nv e' s' w k (proj1 (proj2 (proj2 OK))) U C SF K) as (v & E & T).
  exists v, w, v'. auto.
Qed.
Print Assumptions C77_answer.

(** A program that runs forever becomes a module that runs forever or out of
    memory. *)
Theorem C77_divergence : forall prims penv nv opts name g nenv e cenv' B M, program_ok name g e ->
  compile_source prims penv nv opts name g nenv e = Some (cenv', B, M) -> ediverges false e ->
  forall grow lf n, (64 <= lf)%nat ->
  run_main grow lf M (S n) = FTime \/ exists s, run_main grow lf M (S n) = FOk s /\ exhausted grow s.
Proof.
  intros prims penv nv opts name g nenv e cenv' B M OK H D grow lf n Hlf.
  destruct (compile_source_inv _ _ _ _ _ _ _ _ _ _ _ OK H) as (cenv & ctag & itag & e' & s' & W & N & U & G & C & CW).
  refine (C76_divergence _ _ _ _ _ _ _ _ _ _ _ _ W CW _ grow lf n Hlf).
  apply (peval_diverge cenv [] e' N). exact (C54_preserves_divergence prims fun_fun_tag default_ctor_tag (front_tags name g) cenv [] G e nv e' s' U C D).
Qed.
Print Assumptions C77_divergence.

(** The same from programs of the erased language with their global definitions
    (theories/LambdaBoxMut), for results made of constructors. *)
Theorem C77_from_erased : forall prims penv nv opts name g nenv p t cenv' B M, crctEnv p -> crct p 0 t -> globals_ok p ->
  program_ok name g (translate_program [] p t) ->
  compile_source prims penv nv opts name g nenv (translate_program [] p t) = Some (cenv', B, M) ->
  esafe false (translate_program [] p t) ->
  forall r v u, WcbvEval p t r -> same_data r v -> tree_val (front_tags name g) v = Some u ->
  exists n, forall grow lf, (64 <= lf)%nat -> exists s, run_main grow lf M n = FOk s /\ (answers cenv' B s u \/ exhausted grow s).
Proof.
  intros prims penv nv opts name g nenv p t cenv' B M CE CT GO OK H SF r v u E D T.
  eapply C77_data; [exact OK|exact H| |exact SF|exact T]. exact (proj2 (C66_data p t CE CT GO r v D) E).
Qed.
Print Assumptions C77_from_erased.

(** *** Examples: doubling two, and the erased program that doubles twice *)
Fixpoint z_bits (p : positive) : string :=
  match p with xH => "1"%string | xO p => String "0"%char (z_bits p) | xI p => String "1"%char (z_bits p) end.
Definition z_name (p : positive) : string := if Pos.eqb p 3 then "nat"%string else z_bits p.
Lemma z_name_inj a b : z_name a = z_name b -> a = b.
Proof.
  assert (NE : forall p, z_bits p <> ""%string) by (destruct p; discriminate).
  assert (NN : forall p, z_bits p <> "nat"%string) by (destruct p; discriminate).
  assert (I : forall p q, z_bits p = z_bits q -> p = q).
  { induction p as [p IH|p IH|]; intros [q|q|] E; cbn [z_bits] in E; try discriminate; try (injection E as E; try (rewrite (IH _ E); reflexivity)); auto;
      exfalso; [exact (NE _ E)|exact (NE _ (eq_sym E))]. }
  unfold z_name. destruct (Pos.eqb_spec a 3), (Pos.eqb_spec b 3); intro E; subst; auto; [destruct (NN b); auto|destruct (NN a); auto].
Qed.
(** booleans and numbers *)
Definition z_env : Layout_Model.ienv := [(7%positive, [[0; 0]]); (3%positive, [[0; 1]])].
Lemma z_declared k n : (k = 0%N /\ n = 0%N) \/ (k = 1%N /\ n = 1%N) -> declared_con z_name z_env (("nat"%string, 0), k) n.
Proof.
  intros [[-> ->]|[-> ->]]; [exists 3%positive, 0, 0, [0; 1], 0|exists 3%positive, 0, 1, [0; 1], 1]; (split; [reflexivity|]; split; [|reflexivity]);
    exists [[0; 1]]; cbn; auto.
Qed.
Ltac z_conforms :=
  repeat (cbn [conforms conforms_es conforms_fs conforms_bs efnlst_length exps_length nargs fst];
          first [ split | exact I | apply z_declared; cbn; auto; fail | reflexivity | exists y_nat; cbn [brs_of]; repeat split ]).
Lemma z_ok : program_ok z_name z_env x_prog.
Proof.
  split; [exact z_name_inj|]. split; [cbn; repeat (constructor; [cbn; intuition discriminate|]); constructor|]. split; [exact x_prog_wf|].
  unfold x_prog, x_double, x_S, x_O. z_conforms.
Qed.
(** the number at a word of memory: [O] is the word 1, [S] a block with header 0 *)
Fixpoint read_num (fuel : nat) (m : bytes) (w : Z) : option nat :=
  match fuel with
  | O => None
  | S k => if Z.eqb w 1 then Some O else if Z.eqb (rd 4 m w) 0 then option_map S (read_num k m (rd 4 m (w + 4))) else None
  end.
Definition z_run (o : anf_options) (e : lexp) (n : nat) : option (option nat * Z) :=
  match compile_source [] [] 100%positive o z_name z_env [] e with
  | Some (_, _, M) =>
      match run_main (fun _ => true) 64 M n with
      | FOk s => match nth_error (s_glob s) 2, nth_error (s_glob s) 3 with
                 | Some (I32 w), Some (I32 f) => Some (read_num 20 (s_mem s) w, f)
                 | _, _ => None
                 end
      | _ => None
      end
  | None => None
  end.
Example C77_example :
  program_ok z_name z_env x_prog /\ eval x_prog x_four /\ esafe false x_prog /\
  tree_val (front_tags z_name z_env) x_four = Some (Nat.iter 4 (fun v => Vconstr 103%positive [v]) (Vconstr 102%positive [])) /\
  z_run (p_opts true true true true true) x_prog 20 = Some (Some 4, 0%Z) /\
  z_run (p_opts false false false false false) x_prog 20 = Some (Some 4, 0%Z).
Proof.
  split; [exact z_ok|]. split; [apply (proj1 (LB_EvalProofs.eval_n_sound 30)); vm_compute; reflexivity|]. split; [exact x_prog_safe|].
  split; [reflexivity|]. split; vm_compute; reflexivity.
Qed.
Example C77_example_erased :
  crctEnv y_env /\ crct y_env 0 y_main /\ globals_ok y_env /\ program_ok z_name z_env (translate_program [] y_env y_main) /\
  esafe false (translate_program [] y_env y_main) /\ WcbvEval y_env y_main (y_num 8) /\ same_data (y_num 8) (x_num 8) /\
  z_run (p_opts true true true true true) (translate_program [] y_env y_main) 60 = Some (Some 8, 0%Z).
Proof.
  assert (S8 : same_data (y_num 8) (x_num 8)) by (cbn; repeat constructor).
  assert (W := C49_well_formed y_env y_main y_env_ok y_main_ok).
  assert (E : eval (translate_program [] y_env y_main) (x_num 8)) by exact (proj2 (C66_data _ _ y_env_ok y_main_ok y_globals_ok _ _ S8) y_main_eval).
  repeat (split; [first [exact y_env_ok|exact y_main_ok|exact y_globals_ok]|]).
  split; [|split; [|split; [exact y_main_eval|split; [exact S8|vm_compute; reflexivity]]]].
  - split; [exact z_name_inj|]. split; [exact (proj1 (proj2 z_ok))|]. split; [exact W|]. vm_compute translate_program. z_conforms.
  - apply (C54_plain_safe _ (x_num 8) W); [|exact E]. vm_compute translate_program. cbn. tauto.
Qed.

(** <<let rec loop x = loop x in loop 0>> *)
Definition z_loop : lexp :=
  App_e (Fix_e (eflcons nAnon (Lam_e nAnon (App_e (Var_e 1) (Var_e 0))) eflnil) 0) x_O.
Example C77_example_loop :
  program_ok z_name z_env z_loop /\ ediverges false z_loop /\
  match compile_source [] [] 100%positive (p_opts true true true true true) z_name z_env [] z_loop with
  | Some (_, _, M) => match run_main (fun _ => true) 64 M 100 with FTime => True | _ => False end
  | None => False
  end.
Proof.
  split; [|split; [|vm_compute; exact I]].
  - split; [exact z_name_inj|]. split; [exact (proj1 (proj2 z_ok))|]. split; [unfold z_loop, x_O; wf_tac|]. unfold z_loop, x_O. z_conforms.
  - assert (L : forall n fs, fs = eflcons nAnon (Lam_e nAnon (App_e (Var_e 1) (Var_e 0))) eflnil ->
      eeval false n [Con_v (x_nat, 0%N) []; ClosFix_v [] fs 0] (App_e (Var_e 1) (Var_e 0)) = ETime).
    { induction n as [|n IH]; intros fs ->; [reflexivity|]. cbn. apply (IH _ eq_refl). }
    intros [|n]; [reflexivity|]. cbn. apply (L n _ eq_refl).
Qed.
