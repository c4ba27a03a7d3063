(** * C82: from the erased languages to C, in continuation-passing style *)
From Coq Require Import ZArith NArith PArith List Lia Bool Arith Ascii String.
From Verif Require Import ANF_Syntax ANF_Subst ANF_Eval ANF_Spec ANF_Scope ANF_EvalProofs CC_Spec Comp_Model Pipe_Model Pipe_Spec Pipe_Steps Pipe_Main
  Pipe_Shapes Pipe_ShapesCC Properties_Pipeline End_Wasm WA_Spec WA_Eval Properties_EndToEnd
  LB_Model LB_Spec LB_Env Properties_LambdaBoxLocal LM_Model LM_Spec LM_TransProofs Properties_LambdaBoxMut AN_Model AN_Spec AN_Sig AN_Eval AN_Proofs
  Properties_ANormal End_Front CP_Model CP_Proofs CP_Twin CP_End Properties_Whole Properties_WholeCPS
  CG_Clight CG_Model CG_Spec CG_Collector End_C Properties_Codegen Properties_EndToEndC KC_Model KC_Spec KC_Proofs KC_Top Properties_CodegenCPS End_KC.
From Verif Require Layout_Model Layout_Proofs Properties_Layout CG_Top Names_Model.
Import LB_Model LB_Spec Pipe_Shapes.
Import ListNotations.
Local Open Scope nat_scope.

(** ** The compiler *)

(** theories/LambdaANF/toplevel.v:200-217 followed by
    theories/Codegen/toplevel.v:39-51, 85-95 with the option [direct] off: the
    table, the program given to the code generator and the C program.  [nParam]
    is the number of C parameters, [prims] tells which primitives take the thread
    information; the first fresh identifier is
    theories/Codegen/LambdaANF_to_Clight.v:1904. *)
Definition compile_kc (nParam : nat) (prims : tmap bool) (nv : positive) (opts : anf_options) (cenv : ctor_env) (ctag : ctor_tag) (itag : ind_tag)
    (nenv : name_env) (fenv : Comp_Model.fun_env) (e : exp) : option (ctor_env * exp * kprog) :=
  match fst (run_anf_pipeline passes nv opts (cenv, ctag, itag, nenv, fenv, e)) with
  | Ret (cenv', _, _, _, _, e') =>
      option_map (fun p => (cenv', e', p)) (kcompile nParam prims cenv' (max_var (wrap_in_fun e') 100 + 1)%positive e')
  | Err _ => None
  end.

(** The same after the front end (compare [compile_source_cps]). *)
Definition compile_source_kc (nParam : nat) (prims : tmap bool) (lprims : tmap nat) (nv : positive) (opts : anf_options) (name : positive -> string)
    (g : Layout_Model.ienv) (nenv : name_env) (e : lexp) : option (ctor_env * exp * kprog) :=
  let '(cenv, ctag, itag, tgm) := front_tables name g in
  match convert_whole_exp lprims fun_fun_tag kon_fun_tag default_ctor_tag tgm nv e with
  | Some (e', _) => compile_kc nParam prims nv opts cenv ctag itag nenv [(fun_fun_tag, (2%N, [0%N; 1%N])); (kon_fun_tag, (1%N, [0%N]))] e'
  | None => None
  end.

(** Identifiers up to 100 belong to the code generator
    (theories/Compiler/pipeline.v:84); every call is a tail call. *)
Definition k_source_ok (nv : positive) (cenv : ctor_env) (ctag : ctor_tag) (itag : ind_tag) (e : exp) : Prop :=
  source_ok cenv ctag e /\ ordinals_ok cenv /\
  (forall t i, get t cenv = Some i -> (ctor_ind_tag i < itag)%positive /\ ctor_ind_tag i <> clo_ind_tag) /\
  (clo_ind_tag < itag)%positive /\
  all (shape_ok cenv (fun _ => True) (fun _ _ => True) False) e /\ (100 <= nv)%positive.

Lemma compile_kc_inv nParam prims nv opts cenv ctag itag nenv (fenv : Comp_Model.fun_env) e cenv' e' prog :
  compile_kc nParam prims nv opts cenv ctag itag nenv fenv e = Some (cenv', e', prog) ->
  exists ctag' itag' nenv' fenv' log n,
    run_anf_pipeline passes nv opts (cenv, ctag, itag, nenv, fenv, e) = (Ret (cenv', ctag', itag', nenv', fenv', e'), log) /\
    kcompile nParam prims cenv' n e' = Some prog.
Proof.
  unfold compile_kc. intro H.
  destruct (run_anf_pipeline passes nv opts (cenv, ctag, itag, nenv, fenv, e)) as [[s|[[[[[ce ct] it] ne] fe] e1]] log]; [discriminate|]. cbn [fst] in H.
  destruct (kcompile nParam prims ce (max_var (wrap_in_fun e1) 100 + 1)%positive e1) as [p|] eqn:K; [|discriminate].
  cbn [option_map] in H. injection H as <- <- <-. exists ct, it, ne, fe, log, (max_var (wrap_in_fun e1) 100 + 1)%positive. auto.
Qed.

Lemma kc_facts nParam prims nv opts cenv ctag itag nenv (fenv : Comp_Model.fun_env) e cenv' e' prog :
  k_source_ok nv cenv ctag itag e ->
  compile_kc nParam prims nv opts cenv ctag itag nenv fenv e = Some (cenv', e', prog) -> kfits cenv' e' ->
  exists B m n, wrap_in_fun e' = Efun B m /\ kcompile nParam prims cenv' n (Efun B m) = Some prog /\
    kprog_ok cenv' B m /\ implements (compiled clo_tag) cenv e cenv' e'.
Proof.
  intros (SO & OO & IT & CL & SH & L) H FT. destruct (compile_kc_inv _ _ _ _ _ _ _ _ _ _ _ _ _ H) as (ct & it & ne & fe & log & n & R & C).
  destruct (pipeline_shapes _ _ _ _ _ _ _ _ _ _ _ _ _ _ _ _ _ _ SO OO IT CL SH R) as (A & O & F & RR).
  destruct (C75_pipeline_names _ _ _ _ _ _ _ _ SO _ _ _ _ _ _ _ R) as (W & NM & _).
  destruct (C74_pipeline nv opts cenv ctag itag nenv fenv e SO) as (ce2 & ct2 & it2 & ne2 & fe2 & e2 & log2 & R2 & IM & _).
  rewrite R in R2. injection R2 as <- _ _ _ _ <- _.
  destruct (wrap_form_c e') as (B & m & E & _).
  assert (C' : kcompile nParam prims cenv' n (Efun B m) = Some prog).
  { rewrite <- E. unfold kcompile in *. replace (wrap_in_fun (wrap_in_fun e')) with (wrap_in_fun e') by (destruct e'; reflexivity). exact C. }
  exists B, m, n. split; [exact E|]. split; [exact C'|]. split; [|exact IM].
  eapply kprog_fine; [exact C'| | | | |]; rewrite <- ?E.
  - apply wrap_all_c. exact A.
  - exact O.
  - apply wrap_whole. exact W.
  - rewrite wrap_bv_c. intros x I. specialize (NM x I). lia.
  - apply wrap_kfits. exact FT.
Qed.

(** ** C82: from LambdaANF *)

(** A program with value [v], all of whose calls are tail calls, becomes C code
    whose body function returns with a word for [v], closures in the place of
    functions, which is also in slot 1 of the args array; or the collector gives
    up.  Missing for the whole statement: programs with a case analysis in the
    main expression (excluded by [kfits], see [C81_main_case_refuted]) and
    collectors that move the end of the free area ([C81_stale_limit_refuted]). *)
Theorem C82_value_partial : forall nParam prims nv opts cenv ctag itag nenv fenv e cenv' e' prog kgc,
  k_source_ok nv cenv ctag itag e -> kgc_ok kgc -> keeps_limit kgc ->
  compile_kc nParam prims nv opts cenv ctag itag nenv fenv e = Some (cenv', e', prog) -> kfits cenv' e' ->
  forall m a, (m_lo m <= a <= m_hi m)%Z -> area m a ->
  forall c v, bstep_fuel cenv [] e c (Res v) ->
  exists v' n, compiled clo_tag v v' /\ (data v -> v' = v) /\
  forall k, n <= k ->
  krun kgc prog k Names_Model.bodyIdent [] m = CAbort \/
  exists w m' a', krun kgc prog k Names_Model.bodyIdent [] m = COk w m' /\
    m_args m' 1 = Some w /\ hr m' a' (enc cenv' v') w /\ area m' a' /\ (m_lo m' <= a' <= m_hi m')%Z.
Proof.
  intros nParam prims nv opts cenv ctag itag nenv fenv e cenv' e' prog kgc SO GC KL H RD m a Hb AR c v BS.
  destruct (kc_facts _ _ _ _ _ _ _ _ _ _ _ _ _ SO H RD) as (B & mn & n & E & C & PO & IM).
  destruct (proj1 IM c v BS) as (c' & v' & B' & V). destruct (wrap_run _ _ _ _ B') as [k K]. rewrite E in K.
  exists v', k. split; [exact V|]. split; [intro D; exact (compiled_data _ v D v' V)|].
  intros k' L. exact (@C81_program_value_partial kgc nParam prims cenv' B mn n prog GC KL PO C m a Hb AR k v' K k' L).
Qed.
Print Assumptions C82_value_partial.

(** If the program does not get stuck, the code has no undefined behaviour, and
    what it returns is the value of the program.  (Partial as above.) *)
Theorem C82_answer_partial : forall nParam prims nv opts cenv ctag itag nenv fenv e cenv' e' prog kgc,
  k_source_ok nv cenv ctag itag e -> kgc_ok kgc -> keeps_limit kgc ->
  compile_kc nParam prims nv opts cenv ctag itag nenv fenv e = Some (cenv', e', prog) -> kfits cenv' e' ->
  forall m a, (m_lo m <= a <= m_hi m)%Z -> area m a -> not_stuck cenv [] e ->
  forall k, krun kgc prog k Names_Model.bodyIdent [] m <> CUB /\
  forall w m', krun kgc prog k Names_Model.bodyIdent [] m = COk w m' ->
    exists c v v' a', bstep_fuel cenv [] e c (Res v) /\ compiled clo_tag v v' /\ hr m' a' (enc cenv' v') w.
Proof.
  intros nParam prims nv opts cenv ctag itag nenv fenv e cenv' e' prog kgc SO GC KL H RD m a Hb AR NS k.
  destruct (kc_facts _ _ _ _ _ _ _ _ _ _ _ _ _ SO H RD) as (B & mn & n & E & C & PO & IM).
  destruct (proj2 (proj2 IM) NS) as (NS' & BK & _). pose proof (wrap_not_stuck _ _ NS') as NW. rewrite E in NW.
  destruct (@C81_program_safe_partial kgc nParam prims cenv' B mn n prog GC KL PO C m a Hb AR NW k) as [U A]. split; [exact U|].
  intros w m' R. destruct (A w m' R) as (c & v' & a' & BS & HR). rewrite <- E in BS. destruct (wrap_run_inv _ _ _ _ BS) as [c1 B1].
  destruct (BK c1 v' B1) as (c2 & v & B2 & V). exists c2, v, v', a'. auto.
Qed.
Print Assumptions C82_answer_partial.

(** A program that runs forever becomes code that runs forever or out of memory.
    (Partial as above.) *)
Theorem C82_divergence_partial : forall nParam prims nv opts cenv ctag itag nenv fenv e cenv' e' prog kgc,
  k_source_ok nv cenv ctag itag e -> kgc_ok kgc -> keeps_limit kgc ->
  compile_kc nParam prims nv opts cenv ctag itag nenv fenv e = Some (cenv', e', prog) -> kfits cenv' e' ->
  forall m a, (m_lo m <= a <= m_hi m)%Z -> area m a -> diverge cenv [] e ->
  forall k, krun kgc prog k Names_Model.bodyIdent [] m = CTime \/ krun kgc prog k Names_Model.bodyIdent [] m = CAbort.
Proof.
  intros nParam prims nv opts cenv ctag itag nenv fenv e cenv' e' prog kgc SO GC KL H RD m a Hb AR D k.
  destruct (kc_facts _ _ _ _ _ _ _ _ _ _ _ _ _ SO H RD) as (B & mn & n & E & C & PO & IM).
  pose proof (wrap_diverge _ _ (proj1 (proj2 IM) D)) as DW. rewrite E in DW.
  exact (@C81_program_diverges_partial kgc nParam prims cenv' B mn n prog GC KL PO C m a Hb AR DW k).
Qed.
Print Assumptions C82_divergence_partial.

(** ** C82: from erased programs *)
Lemma front_kc_ok prims nv name g e b s' : program_ok name g e -> (100 <= nv)%positive ->
  cps_cvt prims fun_fun_tag kon_fun_tag default_ctor_tag (front_tags name g) e [] nv (nv + 1 + 1 + 1)%positive = Some (b, s') ->
  let '(cenv, ctag, itag, tgm) := front_tables name g in
  k_source_ok nv cenv ctag itag (twin_at kon_fun_tag nv b) /\ all no_prim (twin_at kon_fun_tag nv b) /\ uses tgm e /\ good_sig default_ctor_tag tgm cenv.
Proof.
  intros OK L H. assert (F := front_cps_ok prims nv name g e b s' OK ltac:(lia) H).
  destruct OK as (NI & ND & W & CF).
  assert (SH := twin_all prims (front_tags name g) fun_fun_tag kon_fun_tag default_ctor_tag (declared_con name g) nv s' e b CF H).
  unfold front_tables in *. set (r := Layout_Model.convert_env default_ctor_tag default_ind_tag g) in *.
  destruct F as ((SO & OO & IT & CL & _) & N & U & G). split; [|auto]. unfold k_source_ok. repeat (split; [assumption|]). split; [|exact L].
  apply SH; [|exists {| ctor_ind_tag := default_ind_tag; ctor_arity := 0; ctor_ordinal := 0 |}; split; [|reflexivity]|split; exact I].
  - intros d n D. destruct (tags_known name g d n NI ND D) as (_ & inf & G' & A). cbn [shape_ok]. split; exists inf; [|exact G']. rewrite N2Nat.id. auto.
  - pose proof (Layout_Proofs.env_ok default_ctor_tag default_ind_tag g ND) as IV. fold r in IV. destruct r as [[[[ie ce] nc] ni] m]. apply IV.
Qed.

Lemma compile_kc_same nParam prims nv opts cenv ctag itag nenv fenv e1 e2 :
  Pipe_Model.shrunk e1 = Pipe_Model.shrunk e2 -> max_var e1 1 = max_var e2 1 ->
  compile_kc nParam prims nv opts cenv ctag itag nenv fenv e1 = compile_kc nParam prims nv opts cenv ctag itag nenv fenv e2.
Proof. intros H M. unfold compile_kc. rewrite (pipeline_same nv opts cenv ctag itag nenv fenv e1 e2 H M). reflexivity. Qed.

Lemma compile_source_kc_inv nParam prims lprims nv opts name g nenv e cenv' e' prog : program_ok name g e -> (100 <= nv)%positive ->
  compile_source_kc nParam prims lprims nv opts name g nenv e = Some (cenv', e', prog) ->
  exists cenv ctag itag b s',
    k_source_ok nv cenv ctag itag (twin_at kon_fun_tag nv b) /\ all no_prim (twin_at kon_fun_tag nv b) /\
    uses (front_tags name g) e /\ good_sig default_ctor_tag (front_tags name g) cenv /\
    cps_cvt lprims fun_fun_tag kon_fun_tag default_ctor_tag (front_tags name g) e [] nv (nv + 1 + 1 + 1)%positive = Some (b, s') /\
    compile_kc nParam prims nv opts cenv ctag itag nenv [(fun_fun_tag, (2%N, [0%N; 1%N])); (kon_fun_tag, (1%N, [0%N]))] (twin_at kon_fun_tag nv b) = Some (cenv', e', prog).
Proof.
  intros OK L H. unfold compile_source_kc in H. pose proof (front_kc_ok lprims nv name g e) as F.
  unfold front_tags in *. destruct (front_tables name g) as [[[cenv ctag] itag] tgm]. cbn [snd] in *.
  destruct (convert_whole_exp lprims fun_fun_tag kon_fun_tag default_ctor_tag tgm nv e) as [[e1 s']|] eqn:E; [|discriminate].
  destruct (convert_form _ _ _ _ _ _ _ _ _ E) as (b & CV & ->).
  destruct (F b s' OK L CV) as (W & N & U & G). exists cenv, ctag, itag, b, s'. repeat (split; [assumption|]).
  destruct OK as (_ & _ & _ & CF). assert (N3 : (3 <= nv)%positive) by lia. rewrite <- H. symmetry. apply compile_kc_same.
  - exact (twin_shrunk lprims tgm fun_fun_tag kon_fun_tag default_ctor_tag _ nv s' e b N3 CF CV).
  - exact (same_max kon_fun_tag nv b N3 1%positive).
Qed.

(** A result made of constructors is what the code returns.  (Partial as above.) *)
Theorem C82_erased_data_partial : forall nParam prims lprims nv opts name g nenv e cenv' e' prog kgc,
  program_ok name g e -> (100 <= nv)%positive -> kgc_ok kgc -> keeps_limit kgc ->
  compile_source_kc nParam prims lprims nv opts name g nenv e = Some (cenv', e', prog) -> kfits cenv' e' ->
  forall m a, (m_lo m <= a <= m_hi m)%Z -> area m a ->
  forall v u, eval e v -> esafe false e -> tree_val (front_tags name g) v = Some u ->
  exists n, forall k, n <= k ->
  krun kgc prog k Names_Model.bodyIdent [] m = CAbort \/
  exists w m' a', krun kgc prog k Names_Model.bodyIdent [] m = COk w m' /\ m_args m' 1 = Some w /\ hr m' a' (enc cenv' u) w /\ area m' a'.
Proof.
  intros nParam prims lprims nv opts name g nenv e cenv' e' prog kgc OK L GC KL H RD m a Hb AR v u E SF T.
  destruct (compile_source_kc_inv _ _ _ _ _ _ _ _ _ _ _ _ OK L H) as (cenv & ctag & itag & b & s' & SO & N & U & G & C & CC).
  assert (N3 : (3 <= nv)%positive) by lia.
  destruct (twin_value lprims name g cenv nv e b s' G (proj1 (proj2 (proj2 OK))) U N3 C SF v E) as (w & j & ST & P).
  destruct (peval_fuel cenv [] j _ w N P) as [c' BF].
  destruct (C82_value_partial _ _ _ _ _ _ _ _ _ _ _ _ _ kgc SO GC KL CC RD m a Hb AR c' w BF) as (v' & n & V & D & R).
  destruct (proj1 (tree_same (front_tags name g)) _ _ _ ST T) as [-> DU]. rewrite (D DU) in R. exists n.
  intros k K. destruct (R k K) as [X|(w0 & m' & a' & X1 & X2 & X3 & X4 & _)]; [left; exact X|right]. exists w0, m', a'. auto.
Qed.
Print Assumptions C82_erased_data_partial.

(** An erased program that has a value or runs forever becomes code without
    undefined behaviour; one that runs forever never returns.  (Partial as above.) *)
Theorem C82_erased_safe_partial : forall nParam prims lprims nv opts name g nenv e cenv' e' prog kgc,
  program_ok name g e -> (100 <= nv)%positive -> kgc_ok kgc -> keeps_limit kgc ->
  compile_source_kc nParam prims lprims nv opts name g nenv e = Some (cenv', e', prog) -> kfits cenv' e' ->
  forall m a, (m_lo m <= a <= m_hi m)%Z -> area m a ->
  ((exists v, eval e v) /\ esafe false e) \/ ediverges false e ->
  forall k, krun kgc prog k Names_Model.bodyIdent [] m <> CUB /\
  (forall w m', krun kgc prog k Names_Model.bodyIdent [] m = COk w m' ->
    exists v w0 v' a', eval e v /\ same_tree default_ctor_tag (front_tags name g) v w0 /\ compiled clo_tag w0 v' /\ hr m' a' (enc cenv' v') w) /\
  (ediverges false e -> krun kgc prog k Names_Model.bodyIdent [] m = CTime \/ krun kgc prog k Names_Model.bodyIdent [] m = CAbort).
Proof.
  intros nParam prims lprims nv opts name g nenv e cenv' e' prog kgc OK L GC KL H RD m a Hb AR RUN k.
  destruct (compile_source_kc_inv _ _ _ _ _ _ _ _ _ _ _ _ OK L H) as (cenv & ctag & itag & b & s' & SO & N & U & G & C & CC).
  assert (N3 : (3 <= nv)%positive) by lia. assert (WF := proj1 (proj2 (proj2 OK))).
  assert (SF : esafe false e) by (destruct RUN as [[_ SF]|D]; [exact SF|intros j K; rewrite D in K; discriminate]).
  assert (DV : ediverges false e -> diverge cenv [] (twin_at kon_fun_tag nv b)).
  { intro D. apply (peval_diverge cenv [] _ N). intro j.
    pose proof (twin_sim lprims fun_fun_tag kon_fun_tag default_ctor_tag (front_tags name g) cenv [] G j nv e b s' U N3 C) as S. rewrite D in S. exact S. }
  assert (NS : not_stuck cenv [] (twin_at kon_fun_tag nv b)).
  { destruct RUN as [[[v E] _]|D]; [left|right; exact (DV D)].
    destruct (twin_value lprims name g cenv nv e b s' G WF U N3 C SF v E) as (w & j & T & P).
    destruct (peval_fuel cenv [] j _ w N P) as [c' BF]. eauto. }
  destruct (C82_answer_partial _ _ _ _ _ _ _ _ _ _ _ _ _ kgc SO GC KL CC RD m a Hb AR NS k) as [X1 X2]. split; [exact X1|]. split.
  - intros w m' R. destruct (X2 w m' R) as (c & w0 & v' & a' & BS & V & HR).
    destruct (proj2 (bstep_bstep_e cenv []) _ _ _ _ BS w0 eq_refl) as [j K]. apply bstep_e_peval in K.
    destruct (twin_back lprims name g cenv nv e b s' G WF U N3 C SF j w0 K) as (v & E & T). exists v, w0, v', a'. auto.
  - intro D. exact (C82_divergence_partial _ _ _ _ _ _ _ _ _ _ _ _ _ kgc SO GC KL CC RD m a Hb AR (DV D) k).
Qed.
Print Assumptions C82_erased_safe_partial.

(** The two C back ends agree on results made of constructors: if both programs
    return, both words denote the value.  (Partial as above.) *)
Theorem C82_agrees_with_direct_partial : forall nParam1 nParam2 prims lprims nv opts1 opts2 name g nenv e cenv1 e1 prog1 cenv2 e2 prog2 gc kgc,
  program_ok name g e -> (100 <= nv)%positive -> gc_ok gc -> kgc_ok kgc -> keeps_limit kgc ->
  compile_source_c nParam1 prims lprims nv opts1 name g nenv e = Some (cenv1, e1, prog1) -> fits nParam1 cenv1 e1 ->
  compile_source_kc nParam2 prims lprims nv opts2 name g nenv e = Some (cenv2, e2, prog2) -> kfits cenv2 e2 ->
  esafe false e -> forall v u, eval e v -> tree_val (front_tags name g) v = Some u ->
  forall m1 a1 ids m2 a2, wfm m1 a1 ids -> area m1 a1 -> (m_lo m2 <= a2 <= m_hi m2)%Z -> area m2 a2 ->
  forall k1 k2 w1 w2 m1' m2',
  run gc Names_Model.gcIdent prog1 k1 Names_Model.bodyIdent [] m1 = COk w1 m1' ->
  krun kgc prog2 k2 Names_Model.bodyIdent [] m2 = COk w2 m2' ->
  (exists a', hr m1' a' (enc cenv1 u) w1) /\ (exists a', hr m2' a' (enc cenv2 u) w2).
Proof.
  intros nParam1 nParam2 prims lprims nv opts1 opts2 name g nenv e cenv1 e1 prog1 cenv2 e2 prog2 gc kgc OK L GC KG KL H1 F1 H2 F2 SF v u E T
    m1 a1 ids m2 a2 W1 A1 B2 A2 k1 k2 w1 w2 m1' m2' R1 R2.
  assert (X : forall w0 v' v1, eval e v1 -> same_tree default_ctor_tag (front_tags name g) v1 w0 -> compiled clo_tag w0 v' -> v' = u).
  { intros w0 v' v1 E1 ST V. assert (v1 = v) by (eapply C47_eval_deterministic; eauto). subst v1.
    destruct (proj1 (tree_same (front_tags name g)) _ _ _ ST T) as [-> DU]. exact (compiled_data _ u DU v' V). }
  assert (RUN : ((exists v, eval e v) /\ esafe false e) \/ ediverges false e) by eauto. split.
  - destruct (proj1 (proj2 (C78_erased_safe _ _ _ _ _ _ _ _ _ _ _ _ gc OK L GC H1 F1 m1 a1 ids W1 A1 RUN k1)) w1 m1' R1) as (v1 & w0 & v' & a' & E1 & ST & V & HR).
    rewrite (X _ _ _ E1 ST V) in HR. eauto.
  - destruct (proj1 (proj2 (C82_erased_safe_partial _ _ _ _ _ _ _ _ _ _ _ _ kgc OK L KG KL H2 F2 m2 a2 B2 A2 RUN k2)) w2 m2' R2) as (v1 & w0 & v' & a' & E1 & ST & V & HR).
    rewrite (X _ _ _ E1 ST V) in HR. eauto.
Qed.
Print Assumptions C82_agrees_with_direct_partial.

(** The same from programs of the erased language with their global definitions. *)
Theorem C82_from_erased_partial : forall nParam prims lprims nv opts name g nenv p t cenv' e' prog kgc, crctEnv p -> crct p 0 t -> globals_ok p ->
  program_ok name g (LM_Model.translate_program [] p t) -> (100 <= nv)%positive -> kgc_ok kgc -> keeps_limit kgc ->
  compile_source_kc nParam prims lprims nv opts name g nenv (LM_Model.translate_program [] p t) = Some (cenv', e', prog) -> kfits cenv' e' ->
  forall m a, (m_lo m <= a <= m_hi m)%Z -> area m a ->
  esafe false (LM_Model.translate_program [] p t) ->
  forall r v u, WcbvEval p t r -> same_data r v -> tree_val (front_tags name g) v = Some u ->
  exists n, forall k, n <= k ->
  krun kgc prog k Names_Model.bodyIdent [] m = CAbort \/
  exists w m' a', krun kgc prog k Names_Model.bodyIdent [] m = COk w m' /\ m_args m' 1 = Some w /\ hr m' a' (enc cenv' u) w /\ area m' a'.
Proof.
  intros nParam prims lprims nv opts name g nenv p t cenv' e' prog kgc CE CT GO OK L GC KL H RD m a Hb AR SF r v u E D T.
  eapply C82_erased_data_partial; [exact OK|exact L|exact GC|exact KL|exact H|exact RD|exact Hb|exact AR| |exact SF|exact T].
  exact (proj2 (C66_data p t CE CT GO r v D) E).
Qed.
Print Assumptions C82_from_erased_partial.

(** ** The conditions on the output can be checked *)
Fixpoint cases_main (e : exp) : bool :=
  match e with
  | Econstr _ _ _ e' | Eproj _ _ _ _ e' | Eprim_val _ _ e' | Eprim _ _ _ e' | Eletapp _ _ _ _ e' => cases_main e'
  | Ecase _ _ => true
  | _ => false
  end.
Definition kc_check (cenv : ctor_env) (e : exp) : bool := c_check 0 cenv e && negb (cases_main (main_of e)).
Theorem C82_check : forall cenv e, kc_check cenv e = true -> kfits cenv e.
Proof.
  intros cenv e H. apply andb_true_iff in H as [H1 H2]. split; [apply C78_check; exact H1|].
  apply negb_true_iff in H2. revert H2. generalize (main_of e). clear.
  apply (exp_ind2 (fun e => cases_main e = false -> no_case e) (fun _ => True)); try (intros; exact I); cbn [cases_main no_case]; try (intros; auto; discriminate).
Qed.
Print Assumptions C82_check.

(** *** Examples *)
Definition k_opts (lift before after known dpe : bool) : anf_options :=
  {| o_time := false; o_cps := true; do_lambda_lift := lift; o_args := 5; no_push := 5; inl_wrappers := true;
     inl_known := known; inl_before := before; inl_after := after; o_dpe := dpe |}.
Definition qk_out (r : option (ctor_env * exp * kprog)) (space : Z) (fuel : nat) : option (bool * option nat) :=
  match r with
  | Some (cenv', e', prog) =>
      Some (kc_check cenv' e', kread (krun kshift_gc prog fuel Names_Model.bodyIdent [] (start space)))
  | None => None
  end.
Definition qk_src (o : anf_options) (nParam : nat) (e : lexp) := compile_source_kc nParam [] [] 100%positive o z_name z_env [] e.

(** addition in continuation-passing style: [add n m k] *)
Definition kc_funs : fundefs := (
  Fcons 10 3 [11; 12; 13]
    (Ecase 11 [(100, Eapp 13 2 [12]);
               (101, Eproj 14 101 0 11
                  (Efun (Fcons 15 2 [16] (Econstr 17 101 [16] (Eapp 13 2 [17])) Fnil)
                     (Eapp 10 3 [14; 12; 15])))])
 (Fcons 20 2 [21] (Ehalt 21) Fnil))%positive.
Definition kc_prog : exp := (
  Efun kc_funs (Econstr 30 100 [] (Econstr 31 101 [30] (Econstr 32 101 [31] (Eapp 10 3 [32; 31; 20])))))%positive.
Lemma kc_prog_ok : k_source_ok 100%positive p_cenv 102%positive 101%positive kc_prog.
Proof.
  destruct p_wasm_ok as ((_ & T) & O & N & L & _). split; [split; [split|exact T]|].
  - unfold kc_prog, kc_funs. cbn. repeat (constructor; [cbn; intuition discriminate|]). constructor.
  - intros x F. apply ANF_FreeProofs.exp_fv_spec in F. vm_compute in F. exact F.
  - split; [exact O|]. split; [exact N|]. split; [exact L|]. split; [|lia].
    cbn. repeat split; eexists; (split; [reflexivity|reflexivity]) || reflexivity.
Qed.
Definition qk_anf (o : anf_options) (nParam : nat) (e : exp) :=
  compile_kc nParam [] 100%positive o p_cenv 102%positive 101%positive [] [(3%positive, (3%N, [0%N; 1%N; 2%N])); (2%positive, (1%N, [0%N]))] e.
Example C82_example_anf :
  k_source_ok 100%positive p_cenv 102%positive 101%positive kc_prog /\ (exists c, bstep_fuel p_cenv [] kc_prog c (Res (p_nat 3))) /\
  map (fun n => qk_out (qk_anf (k_opts true true true true true) n kc_prog) 60 100) [0; 2; 7] = repeat (Some (true, Some 3)) 3 /\
  map (fun n => qk_out (qk_anf (k_opts false false false false false) n kc_prog) 60 100) [0; 2; 7] = repeat (Some (true, Some 3)) 3.
Proof.
  split; [exact kc_prog_ok|]. split; [exists 20; apply interp_sound with (d := 60%nat); vm_compute; reflexivity|]. split; vm_compute; reflexivity.
Qed.
Example C82_example :
  program_ok z_name z_env x_prog /\ eval x_prog x_four /\ esafe false x_prog /\
  tree_val (front_tags z_name z_env) x_four = Some (Nat.iter 4 (fun v => Vconstr 103%positive [v]) (Vconstr 102%positive [])) /\
  kgc_ok kshift_gc /\ keeps_limit kshift_gc /\ (m_lo (start 4) <= 100 <= m_hi (start 4))%Z /\ area (start 4) 100 /\
  map (fun n => qk_out (qk_src (k_opts true true true true true) n x_prog) 4 100) [0; 2; 7] = repeat (Some (true, Some 4)) 3 /\
  map (fun n => qk_out (qk_src (k_opts false false false false false) n x_prog) 60 100) [0; 2; 7] = repeat (Some (true, Some 4)) 3.
Proof.
  destruct C77_example as (A & B & C & D & _). repeat (split; [assumption|]). split; [apply kshift_gc_ok|]. split; [apply kshift_gc_ok|].
  split; [cbn; lia|]. split; [apply start_ok; lia|]. split; vm_compute; reflexivity.
Qed.
Example C82_example_erased :
  crctEnv y_env /\ crct y_env 0 y_main /\ globals_ok y_env /\ program_ok z_name z_env (LM_Model.translate_program [] y_env y_main) /\
  esafe false (LM_Model.translate_program [] y_env y_main) /\ WcbvEval y_env y_main (y_num 8) /\ same_data (y_num 8) (x_num 8) /\
  map (fun s => qk_out (qk_src (k_opts true true true true true) 3 (LM_Model.translate_program [] y_env y_main)) s 200) [4; 60]%Z = repeat (Some (true, Some 8)) 2 /\
  q_out (q_src (p_opts true true true true true) 3 (LM_Model.translate_program [] y_env y_main)) 3 9 80 = Some (true, Some 8).
Proof.
  destruct C77_example_erased as (A1 & A2 & A3 & A4 & A5 & A6 & A7 & _). repeat (split; [assumption|]). split; vm_compute; reflexivity.
Qed.
Example C82_example_loop :
  program_ok z_name z_env z_loop /\ ediverges false z_loop /\
  match qk_src (k_opts true true true true true) 1 z_loop with
  | Some (cenv', e', prog) => kc_check cenv' e' = true /\ krun kshift_gc prog 50 Names_Model.bodyIdent [] (start 5) = CTime
  | None => False
  end.
Proof. destruct C77_example_loop as (A & B & _). split; [exact A|]. split; [exact B|]. vm_compute. auto. Qed.
