(** * C78: from LambdaANF and erased programs to C, through all passes *)
From Coq Require Import ZArith NArith PArith List Lia Bool Arith String.
From Verif Require Import ANF_Syntax ANF_Subst ANF_Eval ANF_Spec ANF_Scope ANF_EvalProofs CC_Spec Comp_Model Pipe_Model Pipe_Spec Pipe_Steps Pipe_Main
  Pipe_ShapesCC Properties_Pipeline End_Wasm WA_Spec WA_Eval Properties_EndToEnd
  LB_Model LB_Spec LB_Env Properties_LambdaBoxLocal LM_Model LM_Spec LM_TransProofs Properties_LambdaBoxMut AN_Model AN_Spec AN_Sig Properties_ANormal End_Front
  Properties_Whole CG_Clight CG_Model CG_Spec CG_Collector End_C Properties_Codegen.
From Verif Require Layout_Model Layout_Proofs Properties_Layout CG_Top Names_Model.
Import LB_Model LB_Spec Pipe_Shapes.
Import ListNotations.
Local Open Scope nat_scope.

(** ** The compiler *)

(** theories/LambdaANF/toplevel.v:200-217 followed by
    theories/Codegen/toplevel.v:66-98 (direct style): the table, the program
    given to the code generator and the C program.  [nParam] is the number of C
    parameters, [prims] tells which primitives take the thread information;
    the first fresh identifier is theories/Codegen/LambdaANF_to_Clight_stack.v:1480. *)
Definition compile_c (nParam : nat) (prims : tmap bool) (nv : positive) (opts : anf_options) (cenv : ctor_env) (ctag : ctor_tag) (itag : ind_tag)
    (nenv : name_env) (fenv : Comp_Model.fun_env) (e : exp) : option (ctor_env * exp * cprog) :=
  match fst (run_anf_pipeline passes nv opts (cenv, ctag, itag, nenv, fenv, e)) with
  | Ret (cenv', _, _, _, _, e') =>
      option_map (fun p => (cenv', e', p)) (compile nParam false prims cenv' (max_var (wrap_in_fun e') 100 + 1)%positive e')
  | Err _ => None
  end.

(** The same after the front end (compare [compile_source]). *)
Definition compile_source_c (nParam : nat) (prims : tmap bool) (lprims : tmap nat) (nv : positive) (opts : anf_options) (name : positive -> string)
    (g : Layout_Model.ienv) (nenv : name_env) (e : lexp) : option (ctor_env * exp * cprog) :=
  let '(cenv, ctag, itag, tgm) := front_tables name g in
  match convert_anf_exp lprims fun_fun_tag default_ctor_tag tgm nv e with
  | Some (e', _) => compile_c nParam prims nv opts cenv ctag itag nenv [(fun_fun_tag, (1%N, [0%N]))] e'
  | None => None
  end.

(** Identifiers up to 100 belong to the code generator (theories/Compiler/pipeline.v:84);
    the main expression does not end in a tail call. *)
Definition c_source_ok (nv : positive) (cenv : ctor_env) (ctag : ctor_tag) (itag : ind_tag) (e : exp) : Prop :=
  wasm_source_ok cenv ctag itag e /\ returns e /\ (100 <= nv)%positive.

Lemma compile_c_inv nParam prims nv opts cenv ctag itag nenv (fenv : Comp_Model.fun_env) e cenv' e' prog :
  compile_c nParam prims nv opts cenv ctag itag nenv fenv e = Some (cenv', e', prog) ->
  exists ctag' itag' nenv' fenv' log n,
    run_anf_pipeline passes nv opts (cenv, ctag, itag, nenv, fenv, e) = (Ret (cenv', ctag', itag', nenv', fenv', e'), log) /\
    compile nParam false prims cenv' n e' = Some prog.
Proof.
  unfold compile_c. intro H.
  destruct (run_anf_pipeline passes nv opts (cenv, ctag, itag, nenv, fenv, e)) as [[s|[[[[[ce ct] it] ne] fe] e1]] log]; [discriminate|]. cbn [fst] in H.
  destruct (compile nParam false prims ce (max_var (wrap_in_fun e1) 100 + 1)%positive e1) as [p|] eqn:K; [|discriminate].
  cbn [option_map] in H. injection H as <- <- <-. exists ct, it, ne, fe, log, (max_var (wrap_in_fun e1) 100 + 1)%positive. auto.
Qed.

Lemma c_facts nParam prims nv opts cenv ctag itag nenv (fenv : Comp_Model.fun_env) e cenv' e' prog :
  c_source_ok nv cenv ctag itag e ->
  compile_c nParam prims nv opts cenv ctag itag nenv fenv e = Some (cenv', e', prog) -> fits nParam cenv' e' ->
  exists B m n, wrap_in_fun e' = Efun B m /\ compile nParam false prims cenv' n (Efun B m) = Some prog /\
    CG_Top.prog_ok nParam cenv' B m /\ implements (compiled clo_tag) cenv e cenv' e'.
Proof.
  intros (WS & RT & L) H FT. destruct (compile_c_inv _ _ _ _ _ _ _ _ _ _ _ _ _ H) as (ct & it & ne & fe & log & n & R & C).
  destruct (pipeline_out _ _ _ _ _ _ _ _ _ _ _ _ _ _ _ WS R) as (A & O & F & RR).
  destruct (C75_pipeline_names _ _ _ _ _ _ _ _ (proj1 WS) _ _ _ _ _ _ _ R) as (W & NM & _).
  destruct (C74_pipeline nv opts cenv ctag itag nenv fenv e (proj1 WS)) as (ce2 & ct2 & it2 & ne2 & fe2 & e2 & log2 & R2 & IM & _).
  rewrite R in R2. injection R2 as <- _ _ _ _ <- _.
  destruct (wrap_form_c e') as (B & m & E & RM).
  assert (C' : compile nParam false prims cenv' n (Efun B m) = Some prog).
  { rewrite <- E. unfold compile in *. replace (wrap_in_fun (wrap_in_fun e')) with (wrap_in_fun e') by (destruct e'; reflexivity). exact C. }
  exists B, m, n. split; [exact E|]. split; [exact C'|]. split; [|exact IM].
  eapply prog_fine; [exact C'| | | | | |]; rewrite <- ?E.
  - apply wrap_all_c. exact A.
  - exact O.
  - apply RM, RR, RT.
  - apply wrap_whole. exact W.
  - rewrite wrap_bv_c. intros x I. specialize (NM x I). lia.
  - destruct FT as (F1 & F2 & F3 & F4). split; [exact F1|]. split; [exact F2|]. split; [apply wrap_all_c; exact F3|rewrite wrap_words; exact F4].
Qed.

(** ** C78: from LambdaANF *)

(** A program with value [v] becomes C code whose body function returns with a
    word for [v], closures in the place of functions, or stops because memory is
    exhausted.  Any collector that keeps what is reachable from the shadow stack
    will do. *)
Theorem C78_value : forall nParam prims nv opts cenv ctag itag nenv fenv e cenv' e' prog gc,
  c_source_ok nv cenv ctag itag e -> gc_ok gc ->
  compile_c nParam prims nv opts cenv ctag itag nenv fenv e = Some (cenv', e', prog) -> fits nParam cenv' e' ->
  forall m a ids, wfm m a ids -> area m a ->
  forall c v, bstep_fuel cenv [] e c (Res v) ->
  exists v' n, compiled clo_tag v v' /\ (data v -> v' = v) /\
  forall k, n <= k ->
  run gc Names_Model.gcIdent prog k Names_Model.bodyIdent [] m = CAbort \/
  exists w m' a', run gc Names_Model.gcIdent prog k Names_Model.bodyIdent [] m = COk w m' /\
    hr m' a' (enc cenv' v') w /\ area m' a' /\ (m_lo m' <= a' <= m_hi m')%Z /\ m_fp m' = m_fp m /\ keepf m a ids (m_next m) m' a'.
Proof.
  intros nParam prims nv opts cenv ctag itag nenv fenv e cenv' e' prog gc SO GC H RD m a ids W AR c v BS.
  destruct (c_facts _ _ _ _ _ _ _ _ _ _ _ _ _ SO H RD) as (B & mn & n & E & C & PO & IM).
  destruct (proj1 IM c v BS) as (c' & v' & B' & V). destruct (wrap_run _ _ _ _ B') as [k K]. rewrite E in K.
  exists v', k. split; [exact V|]. split; [intro D; exact (compiled_data _ v D v' V)|].
  intros k' L. exact (@C63_program_value_partial gc nParam prims cenv' B mn n prog GC PO C m a ids W AR k v' K k' L).
Qed.
Print Assumptions C78_value.

(** If the program does not get stuck, the code has no undefined behaviour, and
    what it returns is the value of the program. *)
Theorem C78_answer : forall nParam prims nv opts cenv ctag itag nenv fenv e cenv' e' prog gc,
  c_source_ok nv cenv ctag itag e -> gc_ok gc ->
  compile_c nParam prims nv opts cenv ctag itag nenv fenv e = Some (cenv', e', prog) -> fits nParam cenv' e' ->
  forall m a ids, wfm m a ids -> area m a -> not_stuck cenv [] e ->
  forall k, run gc Names_Model.gcIdent prog k Names_Model.bodyIdent [] m <> CUB /\
  forall w m', run gc Names_Model.gcIdent prog k Names_Model.bodyIdent [] m = COk w m' ->
    exists c v v' a', bstep_fuel cenv [] e c (Res v) /\ compiled clo_tag v v' /\ hr m' a' (enc cenv' v') w.
Proof.
  intros nParam prims nv opts cenv ctag itag nenv fenv e cenv' e' prog gc SO GC H RD m a ids W AR NS k.
  destruct (c_facts _ _ _ _ _ _ _ _ _ _ _ _ _ SO H RD) as (B & mn & n & E & C & PO & IM).
  destruct (proj2 (proj2 IM) NS) as (NS' & BK & _). pose proof (wrap_not_stuck _ _ NS') as NW. rewrite E in NW.
  destruct (@C63_program_safe_partial gc nParam prims cenv' B mn n prog GC PO C m a ids W AR NW k) as [U A]. split; [exact U|].
  intros w m' R. destruct (A w m' R) as (c & v' & a' & BS & HR). rewrite <- E in BS. destruct (wrap_run_inv _ _ _ _ BS) as [c1 B1].
  destruct (BK c1 v' B1) as (c2 & v & B2 & V). exists c2, v, v', a'. auto.
Qed.
Print Assumptions C78_answer.

(** A program that runs forever becomes code that runs forever or out of memory. *)
Theorem C78_divergence : forall nParam prims nv opts cenv ctag itag nenv fenv e cenv' e' prog gc,
  c_source_ok nv cenv ctag itag e -> gc_ok gc ->
  compile_c nParam prims nv opts cenv ctag itag nenv fenv e = Some (cenv', e', prog) -> fits nParam cenv' e' ->
  forall m a ids, wfm m a ids -> area m a -> diverge cenv [] e ->
  forall k, run gc Names_Model.gcIdent prog k Names_Model.bodyIdent [] m = CTime \/ run gc Names_Model.gcIdent prog k Names_Model.bodyIdent [] m = CAbort.
Proof.
  intros nParam prims nv opts cenv ctag itag nenv fenv e cenv' e' prog gc SO GC H RD m a ids W AR D k.
  destruct (c_facts _ _ _ _ _ _ _ _ _ _ _ _ _ SO H RD) as (B & mn & n & E & C & PO & IM).
  pose proof (wrap_diverge _ _ (proj1 (proj2 IM) D)) as DW. rewrite E in DW.
  exact (@C63_program_diverges_partial gc nParam prims cenv' B mn n prog GC PO C m a ids W AR DW k).
Qed.
Print Assumptions C78_divergence.

(** ** C78: from erased programs *)
Lemma compile_source_c_inv nParam prims lprims nv opts name g nenv e cenv' e' prog : program_ok name g e -> (100 <= nv)%positive ->
  compile_source_c nParam prims lprims nv opts name g nenv e = Some (cenv', e', prog) ->
  exists cenv ctag itag e1 s',
    c_source_ok nv cenv ctag itag e1 /\ all no_prim e1 /\ uses (front_tags name g) e /\ good_sig default_ctor_tag (front_tags name g) cenv /\
    convert_anf_exp lprims fun_fun_tag default_ctor_tag (front_tags name g) nv e = Some (e1, s') /\
    compile_c nParam prims nv opts cenv ctag itag nenv [(fun_fun_tag, (1%N, [0%N]))] e1 = Some (cenv', e', prog).
Proof.
  intros OK L H. unfold compile_source_c in H. pose proof (front_ok lprims nv name g e) as F.
  unfold front_tags in *. destruct (front_tables name g) as [[[cenv ctag] itag] tgm]. cbn [snd] in *.
  destruct (convert_anf_exp lprims fun_fun_tag default_ctor_tag tgm nv e) as [[e1 s']|]; [|discriminate].
  destruct (F e1 s' OK eq_refl) as (W & N & U & G & R). exists cenv, ctag, itag, e1, s'. unfold c_source_ok. auto 10.
Qed.

(** A result made of constructors is what the code returns. *)
Theorem C78_erased_data : forall nParam prims lprims nv opts name g nenv e cenv' e' prog gc,
  program_ok name g e -> (100 <= nv)%positive -> gc_ok gc ->
  compile_source_c nParam prims lprims nv opts name g nenv e = Some (cenv', e', prog) -> fits nParam cenv' e' ->
  forall m a ids, wfm m a ids -> area m a ->
  forall v u, eval e v -> esafe false e -> tree_val (front_tags name g) v = Some u ->
  exists n, forall k, n <= k ->
  run gc Names_Model.gcIdent prog k Names_Model.bodyIdent [] m = CAbort \/
  exists w m' a', run gc Names_Model.gcIdent prog k Names_Model.bodyIdent [] m = COk w m' /\ hr m' a' (enc cenv' u) w /\ area m' a'.
Proof.
  intros nParam prims lprims nv opts name g nenv e cenv' e' prog gc OK L GC H RD m a ids W AR v u E SF T.
  destruct (compile_source_c_inv _ _ _ _ _ _ _ _ _ _ _ _ OK L H) as (cenv & ctag & itag & e1 & s' & SO & N & U & G & C & CC).
  destruct (C54_preserves lprims fun_fun_tag default_ctor_tag (front_tags name g) cenv [] G e nv e1 s' v (proj1 (proj2 (proj2 OK))) U C E SF) as (w & c & BS & ST & _).
  destruct (peval_fuel cenv [] c e1 w N (bstep_e_peval BS)) as [c' BF].
  destruct (C78_value _ _ _ _ _ _ _ _ _ _ _ _ _ gc SO GC CC RD m a ids W AR c' w BF) as (v' & n & V & D & R).
  destruct (proj1 (tree_same (front_tags name g)) _ _ _ ST T) as [-> DU]. rewrite (D DU) in R. exists n.
  intros k K. destruct (R k K) as [X|(w0 & m' & a' & X1 & X2 & X3 & _)]; [left; exact X|right]. exists w0, m', a'. auto.
Qed.
Print Assumptions C78_erased_data.

(** An erased program that has a value or runs forever becomes code without
    undefined behaviour; one that runs forever never returns. *)
Theorem C78_erased_safe : forall nParam prims lprims nv opts name g nenv e cenv' e' prog gc,
  program_ok name g e -> (100 <= nv)%positive -> gc_ok gc ->
  compile_source_c nParam prims lprims nv opts name g nenv e = Some (cenv', e', prog) -> fits nParam cenv' e' ->
  forall m a ids, wfm m a ids -> area m a ->
  ((exists v, eval e v) /\ esafe false e) \/ ediverges false e ->
  forall k, run gc Names_Model.gcIdent prog k Names_Model.bodyIdent [] m <> CUB /\
  (forall w m', run gc Names_Model.gcIdent prog k Names_Model.bodyIdent [] m = COk w m' ->
    exists v w0 v' a', eval e v /\ same_tree default_ctor_tag (front_tags name g) v w0 /\ compiled clo_tag w0 v' /\ hr m' a' (enc cenv' v') w) /\
  (ediverges false e -> run gc Names_Model.gcIdent prog k Names_Model.bodyIdent [] m = CTime \/ run gc Names_Model.gcIdent prog k Names_Model.bodyIdent [] m = CAbort).
Proof.
  intros nParam prims lprims nv opts name g nenv e cenv' e' prog gc OK L GC H RD m a ids W AR RUN k.
  destruct (compile_source_c_inv _ _ _ _ _ _ _ _ _ _ _ _ OK L H) as (cenv & ctag & itag & e1 & s' & SO & N & U & G & C & CC).
  assert (SF : esafe false e) by (destruct RUN as [[_ SF]|D]; [exact SF|intros j K; rewrite D in K; discriminate]).
  assert (DV : ediverges false e -> diverge cenv [] e1).
  { intro D. apply (peval_diverge cenv [] e1 N). exact (C54_preserves_divergence lprims fun_fun_tag default_ctor_tag (front_tags name g) cenv [] G e nv e1 s' U C D). }
  assert (NS : not_stuck cenv [] e1).
  { destruct RUN as [[[v E] _]|D]; [left|right; exact (DV D)].
    destruct (C54_preserves lprims fun_fun_tag default_ctor_tag (front_tags name g) cenv [] G e nv e1 s' v (proj1 (proj2 (proj2 OK))) U C E SF) as (w & c & BS & T & _).
    destruct (peval_fuel cenv [] c e1 w N (bstep_e_peval BS)) as [c' BF]. eauto. }
  destruct (C78_answer _ _ _ _ _ _ _ _ _ _ _ _ _ gc SO GC CC RD m a ids W AR NS k) as [X1 X2]. split; [exact X1|]. split.
  - intros w m' R. destruct (X2 w m' R) as (c & w0 & v' & a' & BS & V & HR).
    destruct (proj2 (bstep_bstep_e cenv []) _ _ _ _ BS w0 eq_refl) as [j K].
    destruct (C54_reflects lprims fun_fun_tag default_ctor_tag (front_tags name g) cenv [] G e nv e1 s' w0 j (proj1 (proj2 (proj2 OK))) U C SF K) as (v & E & T).
    exists v, w0, v', a'. auto.
  - intro D. exact (C78_divergence _ _ _ _ _ _ _ _ _ _ _ _ _ gc SO GC CC RD m a ids W AR (DV D) k).
Qed.
Print Assumptions C78_erased_safe.

(** ** The conditions on the output can be checked *)
Fixpoint shapes (e : exp) : list shape :=
  match e with
  | Econstr _ t ys e => SConstr t (List.length ys) :: shapes e
  | Ecase _ cl => flat_map (fun p => SBranch (fst p) :: shapes (snd p)) cl
  | Eproj _ _ _ _ e => shapes e
  | Eletapp _ _ t ys e => SCall t (List.length ys) :: SLet :: shapes e
  | Efun B e => shapes_funs B ++ shapes e
  | Eapp _ t ys => [SCall t (List.length ys)]
  | Eprim_val _ p e => SVal p :: shapes e
  | Eprim _ p ys e => SPrim p (List.length ys) :: shapes e
  | Ehalt _ => []
  end
with shapes_funs (B : fundefs) : list shape :=
  match B with
  | Fcons _ t xs e B => SFun t (List.length xs) :: shapes e ++ shapes_funs B
  | Fnil => []
  end.
Lemma shapes_all S : (forall e, Forall S (shapes e) -> all S e) /\ (forall B, Forall S (shapes_funs B) -> all_funs S B).
Proof.
  apply exp_fundefs_ind; cbn [shapes shapes_funs]; try (intros; cbn [all all_funs]; inversion_clear H0; auto; fail); try (intros; cbn [all all_funs]; auto; fail).
  - intros x l F H. rewrite all_Ecase. unfold all_cases. induction F as [|[c e] l Hp F IH]; cbn [flat_map fst snd] in H; constructor.
    + inversion H as [|? ? H1 H2]; subst. apply Forall_app in H2. cbn in *. tauto.
    + apply IH. inversion H as [|? ? H1 H2]; subst. apply Forall_app in H2. tauto.
  - intros x f t ys e IH H. inversion H as [|? ? H1 H2]; subst. inversion H2; subst. cbn [all]. auto.
  - intros B e IHB IHe H. apply Forall_app in H. apply all_Efun0. tauto.
  - intros f t ys H. inversion H; auto.
  - intros f t xs e B IHe IHB H. inversion H as [|? ? H1 H2]; subst. apply Forall_app in H2. apply all_Fcons. tauto.
Qed.

Definition c_check (nParam : nat) (cenv : ctor_env) (e : exp) : bool :=
  let l := shapes e in
  forallb (fun p => let i : ctor_ty_info := snd p in
             if N.eqb (ctor_arity i) 0 then (Z.of_N (ctor_ordinal i) <? 2 ^ 62)%Z
             else ((Z.of_N (ctor_ordinal i) <? 251) && (Z.of_N (ctor_arity i) <? 2 ^ 53))%Z) cenv &&
  forallb (fun s => match s with SFun _ n => Nat.leb n (Nat.max 1024 nParam) | _ => true end) l &&
  (Z.of_nat (End_C.words e) <? 2 ^ 62)%Z.
Lemma get_in {A} t (m : tmap A) i : get t m = Some i -> exists k, In (k, i) m.
Proof.
  induction m as [|[k a] m IH]; cbn [get]; [discriminate|]. destruct (Pos.eq_dec t k) as [->|]; [intro H; injection H as ->; exists k; left; auto|].
  intro H. destruct (IH H) as [k' I]. exists k'. right. exact I.
Qed.
Theorem C78_check : forall nParam cenv e, c_check nParam cenv e = true -> fits nParam cenv e.
Proof.
  intros nParam cenv e H. unfold c_check in H. rewrite !andb_true_iff, !forallb_forall in H. destruct H as ((H2 & H3) & H4).
  split; [|split; [|split]].
  - intros t i G NZ. destruct (get_in _ _ _ G) as [k I]. specialize (H2 _ I). cbn [snd] in H2. apply N.eqb_neq in NZ. rewrite NZ in H2.
    apply andb_true_iff in H2. destruct H2 as [A B]. apply Z.ltb_lt in A, B. auto.
  - intros t i G Z0. destruct (get_in _ _ _ G) as [k I]. specialize (H2 _ I). cbn [snd] in H2. apply N.eqb_eq in Z0. rewrite Z0 in H2. apply Z.ltb_lt. exact H2.
  - apply (proj1 (shapes_all _)), Forall_forall. intros s I. specialize (H3 s I). destruct s; auto. apply Nat.leb_le in H3. clear -H3. lia.
  - apply Z.ltb_lt. exact H4.
Qed.
Print Assumptions C78_check.

(** *** Examples *)

(** compiled, checked and run; unary numbers read from the heap *)
Definition q_out (r : option (ctor_env * exp * cprog)) (nParam : nat) (space : Z) (fuel : nat) : option (bool * option nat) :=
  match r with
  | Some (cenv', e', prog) =>
      Some (c_check nParam cenv' e',
            match run shift_gc Names_Model.gcIdent prog fuel Names_Model.bodyIdent [] (start space) with
            | COk w m => read_nat 20 m w
            | _ => None
            end)
  | None => None
  end.
Definition q_anf (o : anf_options) (nParam : nat) (e : exp) :=
  compile_c nParam [] 100%positive o p_cenv 102%positive 101%positive [] [(3%positive, (1%N, [0%N]))] e.
Definition q_src (o : anf_options) (nParam : nat) (e : lexp) := compile_source_c nParam [] [] 100%positive o z_name z_env [] e.

Example C78_example :
  c_source_ok 100%positive p_cenv 102%positive 101%positive p_prog /\ gc_ok shift_gc /\ wfm (start 5) 100 [] /\ area (start 5) 100 /\
  (exists c, bstep_fuel p_cenv [] p_prog c (Res (p_nat 3))) /\
  map (fun n => q_out (q_anf (p_opts true true true true true) n p_prog) n 5 60) [0; 2; 7] = repeat (Some (true, Some 3)) 3 /\
  map (fun n => q_out (q_anf (p_opts false false false false false) n p_prog) n 5 60) [0; 2; 7] = repeat (Some (true, Some 3)) 3.
Proof.
  split; [split; [exact p_wasm_ok|split; [cbn; tauto|lia]]|]. split; [exact shift_gc_ok|]. split; [apply start_ok; lia|]. split; [apply start_ok; lia|].
  split; [exact (proj1 (proj2 C74_example))|]. split; vm_compute; reflexivity.
Qed.
Example C78_example_erased :
  program_ok z_name z_env x_prog /\ eval x_prog x_four /\ esafe false x_prog /\
  tree_val (front_tags z_name z_env) x_four = Some (Nat.iter 4 (fun v => Vconstr 103%positive [v]) (Vconstr 102%positive [])) /\
  q_out (q_src (p_opts true true true true true) 2 x_prog) 2 5 60 = Some (true, Some 4) /\
  q_out (q_src (p_opts false false false false false) 0 x_prog) 0 5 60 = Some (true, Some 4) /\
  q_out (q_src (p_opts true true true true true) 3 (LM_Model.translate_program [] y_env y_main)) 3 9 80 = Some (true, Some 8).
Proof.
  destruct C77_example as (A & B & C & D & _). split; [exact A|]. split; [exact B|]. split; [exact C|]. split; [exact D|].
  split; [vm_compute; reflexivity|]. split; vm_compute; reflexivity.
Qed.
Example C78_example_loop :
  program_ok z_name z_env z_loop /\ ediverges false z_loop /\
  match q_src (p_opts true true true true true) 1 z_loop with
  | Some (cenv', e', prog) => c_check 1 cenv' e' = true /\ run shift_gc Names_Model.gcIdent prog 50 Names_Model.bodyIdent [] (start 5) = CTime
  | None => False
  end.
Proof.
  destruct C77_example_loop as (A & B & _). split; [exact A|]. split; [exact B|]. vm_compute. auto.
Qed.
