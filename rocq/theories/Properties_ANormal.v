(* C54: A-normalisation of LambdaBoxLocal terms. *)
From Coq Require Import List Arith NArith PArith ZArith String Bool Lia.
From Verif Require Import ANF_Syntax ANF_Subst ANF_Spec ANF_Scope WA_Spec WA_Eval
  LB_Model LB_Spec LB_Proofs LB_EvalProofs LB_Env LB_EnvProofs Properties_LambdaBoxLocal
  LM_Model LM_Spec LM_Proofs LM_TransProofs Properties_LambdaBoxMut
  AN_Model AN_Spec AN_Proofs AN_Scope AN_Eval AN_Prim AN_Sig.
From Verif Require Layout_Model Layout_Proofs Properties_Layout.
Import ListNotations.
Local Open Scope nat_scope.

(* ---- data for the examples: O has tag 10, S has tag 11, both of type 5; the
   default tag is 99 ---- *)
Definition z_tgm : conId_map := [((x_nat, 0%N), 10%positive); ((x_nat, 1%N), 11%positive)].
Definition z_cenv : ctor_env :=
  [(10%positive, {| ctor_ind_tag := 5%positive; ctor_arity := 0; ctor_ordinal := 0 |});
   (11%positive, {| ctor_ind_tag := 5%positive; ctor_arity := 1; ctor_ordinal := 1 |})].
Lemma z_sig : good_sig 99 z_tgm z_cenv.
Proof.
  split.
  - intros d d' [<- | [<- | []]] [<- | [<- | []]] H; cbn in H; try reflexivity; discriminate.
  - intros d d' [<- | [<- | []]] [<- | [<- | []]] _; cbn; eexists _, _; (split; [reflexivity | split; reflexivity]).
Qed.
Lemma z_known : forall k, (k < 2)%N -> known z_tgm (x_nat, k).
Proof. intros k H. assert (k = 0 \/ k = 1)%N as [-> | ->] by lia; cbn; auto. Qed.
Lemma x_prog_uses : uses z_tgm x_prog.
Proof.
  unfold x_prog, x_double, x_S, x_O.
  repeat (cbn [uses uses_es uses_fs uses_bs efnlst_length];
          first [ split | exact I | apply z_known; lia | reflexivity
                | exists x_nat; cbn [brs_of]; repeat split ]).
Qed.

Section Statement.
  Variable prims : tmap nat.
  Variables func_tag default_tag : positive.
  Variable tgm : conId_map.
  Variable cenv : ctor_env.
  Variable pr : tmap (list val -> option val).
  Notation convert := (convert_anf_exp prims func_tag default_tag tgm).

  (* Every closed well-formed term is converted. *)
  Theorem C54_total : forall e s, exp_wf 0 e -> exists e' s', convert s e = Some (e', s').
  Proof.
    intros e s W.
    destruct (proj1 (conv_total prims func_tag default_tag tgm) e _ W new_var_map [] s vm_new eq_refl) as [[[r C] s1] E].
    unfold convert_anf_exp. rewrite E. eauto.
  Qed.

  (* The result is closed, it binds every variable once, and the variables it
     binds are the fresh ones taken. *)
  Theorem C54_closed : forall e s e' s', uses tgm e -> convert s e = Some (e', s') ->
    forall x, ~ free x e'.
  Proof.
    intros e s e' s' U H x F. unfold convert_anf_exp in H. dopt H [[[r C] s1] |] E. injection H as <- <-.
    destruct (proj1 (conv_free prims func_tag default_tag tgm) _ U _ [] _ _ _ _ E vm_new) as [A B].
    apply B in F. destruct F as [[] | [F N]]. cbn in F. subst. destruct A as [[] | A]. contradiction.
  Qed.
  Theorem C54_unique_bindings : forall e s e' s', uses tgm e -> convert s e = Some (e', s') ->
    NoDup (bv e') /\ (s <= s')%positive /\ forall x, In x (bv e') -> (s <= x < s')%positive.
  Proof.
    intros e s e' s' U H. unfold convert_anf_exp in H. dopt H [[[r C] s1] |] E. injection H as <- <-.
    destruct (proj1 (conv_bind prims func_tag default_tag tgm) _ U _ _ _ _ _ E) as [A [N B]].
    destruct (proj1 (conv_bounds prims func_tag default_tag tgm) _ U _ _ _ _ _ E) as [L _].
    rewrite bvc_app by auto. cbn [bv]. rewrite app_nil_r. auto.
  Qed.

  (* The evaluator used below to speak of divergence and of getting stuck is
     exact for evaluation of the de Bruijn language. *)
  Theorem C54_evaluator_exact : forall e v, exp_wf 0 e ->
    (eval e v <-> exists n w, eeval true n [] e = EVal w /\ readback w = v).
  Proof.
    intros e v W. rewrite (semantics_agree e v W). split.
    - intros [w [E R]]. destruct (proj1 (eeval_complete true true (fun x => x)) _ _ _ E) as [n X]. exists n, w; auto.
    - intros [n [w [E R]]]. exists w. split; auto. eapply eeval_sound; eauto.
  Qed.
  Theorem C54_evaluator_monotone : forall papp n m rho e r, n <= m ->
    eeval papp n rho e = r -> r <> ETime -> eeval papp m rho e = r.
  Proof. intros papp n m rho e r L E N. destruct (eeval_mono1 papp n m L rho e); congruence. Qed.
  (* Terms without proofs are evaluated the same whether or not proofs can be
     applied. *)
  Lemma strict_value : forall e v, exp_wf 0 e -> eval e v -> esafe false e ->
    exists n w, eeval false n [] e = EVal w /\ readback w = v.
  Proof.
    intros e v W E N. apply C54_evaluator_exact in E; auto. destruct E as [n [w [E R]]]. exists n, w. split; auto.
    destruct (eeval_strict n [] e) as [X | X]; [destruct (N n X) | congruence].
  Qed.
  Theorem C54_plain_safe : forall e v, exp_wf 0 e -> plain e -> eval e v -> esafe false e.
  Proof.
    intros e v W P E n X. apply (semantics_agree_plain e v W P) in E. destruct E as [w [E _]].
    destruct (proj1 (eeval_complete false false ltac:(discriminate)) _ _ _ E) as [m Y].
    destruct (Nat.le_ge_cases n m) as [L | L]; destruct (eeval_mono1 false _ _ L [] e); congruence.
  Qed.

  Hypothesis SIG : good_sig default_tag tgm cenv.

  Lemma run_sim : forall e s e' s', uses tgm e -> convert s e = Some (e', s') -> forall n,
    match eeval false n [] e with
    | EVal v => exists v', peval cenv pr n [] e' = PVal v' /\ same_tree default_tag tgm (readback v) v'
    | ETime => peval cenv pr n [] e' = PTime
    | EStuck => True
    end.
  Proof.
    intros e s e' s' U H n. unfold convert_anf_exp in H. dopt H [[[r C] s1] |] E. injection H as <- <-.
    assert (X := body_sim prims func_tag default_tag tgm cenv pr SIG n e U _ [] _ _ _ _ [] [] vm_new
      ltac:(intros y []) E (Forall2_nil _)).
    destruct (eeval false n [] e); auto. destruct X as [v' [X1 X2]]. exists v'. split; auto. apply vrel_tree in X2. exact X2.
  Qed.

  (* If the term evaluates (and no proof is applied on the way), the A-normal
     program evaluates to the corresponding value, and to nothing else. *)
  Theorem C54_preserves : forall e s e' s' v, exp_wf 0 e -> uses tgm e ->
    convert s e = Some (e', s') -> eval e v -> esafe false e ->
    exists v' c, bstep_e cenv pr [] e' v' c /\ same_tree default_tag tgm v v' /\
      forall w d, bstep_e cenv pr [] e' w d -> w = v'.
  Proof.
    intros e s e' s' v W U H E N. destruct (strict_value e v W E N) as [n [w [X <-]]].
    assert (Y := run_sim e s e' s' U H n). rewrite X in Y. destruct Y as [v' [Y1 Y2]].
    destruct (peval_bstep_e cenv pr _ _ _ Y1) as [c B]. exists v', c. split; auto. split; auto.
    intros w' d B'. apply bstep_e_peval in B'.
    destruct (Nat.le_ge_cases n d) as [L | L].
    - assert (Z := peval_mono cenv pr [] e' L Y1 ltac:(discriminate)). congruence.
    - assert (Z := peval_mono cenv pr [] e' L B' ltac:(discriminate)). congruence.
  Qed.

  (* Terms without proofs and literals: no further assumption. *)
  Theorem C54_preserves_plain : forall e s e' s' v, exp_wf 0 e -> uses tgm e -> plain e ->
    convert s e = Some (e', s') -> eval e v ->
    exists v' c, bstep_e cenv pr [] e' v' c /\ same_tree default_tag tgm v v'.
  Proof.
    intros e s e' s' v W U P H E.
    destruct (C54_preserves e s e' s' v W U H E (C54_plain_safe e v W P E)) as [v' [c [A [B _]]]]. eauto.
  Qed.

  (* A term that runs for ever becomes a program that runs for ever. *)
  Theorem C54_preserves_divergence : forall e s e' s', uses tgm e ->
    convert s e = Some (e', s') -> ediverges false e -> forall n, peval cenv pr n [] e' = PTime.
  Proof. intros e s e' s' U H D n. assert (Y := run_sim e s e' s' U H n). rewrite D in Y. exact Y. Qed.

  (* A term that does not get stuck becomes a program that does not get stuck,
     and what the program computes is what the term computes. *)
  Theorem C54_preserves_safety : forall e s e' s', uses tgm e ->
    convert s e = Some (e', s') -> esafe false e -> psafe cenv pr [] e'.
  Proof.
    intros e s e' s' U H N n X. assert (Y := run_sim e s e' s' U H n).
    destruct (eeval false n [] e) eqn:E; [destruct Y as [v' [Y _]] | | destruct (N n E)]; congruence.
  Qed.
  Theorem C54_reflects : forall e s e' s' v' c, exp_wf 0 e -> uses tgm e ->
    convert s e = Some (e', s') -> esafe false e -> bstep_e cenv pr [] e' v' c ->
    exists v, eval e v /\ same_tree default_tag tgm v v'.
  Proof.
    intros e s e' s' v' c W U H N B. apply bstep_e_peval in B. assert (Y := run_sim e s e' s' U H c).
    destruct (eeval false c [] e) as [w | |] eqn:E; [| congruence | destruct (N c E)].
    destruct Y as [u [Y1 Y2]]. assert (u = v') by congruence. subst u. exists (readback w). split; auto.
    apply C54_evaluator_exact; auto. exists c, w. split; auto.
    destruct (eeval_strict c [] e); congruence.
  Qed.

  (* From the erased language with its global environment down to A-normal
     form, for data results. *)
  Theorem C54_from_erased : forall p t s e' s' r v, crctEnv p -> crct p 0 t -> globals_ok p ->
    uses tgm (translate_program [] p t) -> convert s (translate_program [] p t) = Some (e', s') ->
    esafe false (translate_program [] p t) -> WcbvEval p t r -> same_data r v ->
    exists v' c, bstep_e cenv pr [] e' v' c /\ same_tree default_tag tgm v v'.
  Proof.
    intros p t s e' s' r v CE CT GO U H N E D.
    assert (X := proj2 (C66_data p t CE CT GO r v D) E).
    destruct (C54_preserves _ _ _ _ _ (C49_well_formed p t CE CT) U H X N) as [v' [c [A [B _]]]]. eauto.
  Qed.
End Statement.

(* A registered primitive of arity n becomes a function that, given n arguments
   one at a time, computes the primitive on them in order; with arity 0 it is
   computed at once. *)
Theorem C54_primitive : forall cenv pr prims func_tag default_tag tgm p n s vs f r,
  get p prims = Some n -> List.length vs = n -> get p pr = Some f -> f vs = Some r ->
  exists e' s' g c, convert_anf_exp prims func_tag default_tag tgm s (Prim_e p) = Some (e', s') /\
    bstep_e cenv pr [] e' g c /\
    applied (fun g t l w => exists n, callf cenv pr n g t l = PVal w) func_tag g vs r.
Proof.
  intros cenv pr prims func_tag default_tag tgm p n s vs f r GP LV GF FV.
  unfold convert_anf_exp. cbn [convert_anf]. rewrite GP.
  destruct (convert_prim_anf func_tag n p [] s) as [[x C] s'] eqn:E.
  destruct (prim_run cenv pr func_tag n p [] s x C s' E ltac:(intros y []) [] [] vs f r eq_refl LV GF FV 0) as [g [A B]].
  destruct (peval_bstep_e cenv pr _ _ _ A) as [c A'].
  exists (app_ctx_f C (Ehalt x)), s', g, c. split; [reflexivity |]. split; [exact A' |].
  clear - B. induction B; [apply ap_nil | eapply ap_cons; [exists 1; apply H | exact IHB]].
Qed.

(* ---- examples ---- *)

Definition z_out : exp := match convert_anf_exp [] 3 99 z_tgm 100 x_prog with Some (e, _) => e | None => Ehalt 1%positive end.
Definition z_num (n : nat) : val := Nat.iter n (fun v => Vconstr 11%positive [v]) (Vconstr 10%positive []).
Lemma x_prog_safe : esafe false x_prog.
Proof.
  apply (C54_plain_safe x_prog x_four x_prog_wf); [cbn; tauto |].
  apply (proj1 (eval_n_sound 30)). vm_compute; reflexivity.
Qed.
Example C54_total_ex : exp_wf 0 x_prog /\ uses z_tgm x_prog /\
  exists s', convert_anf_exp [] 3 99 z_tgm 100 x_prog = Some (z_out, s') /\ (s' = 117)%positive.
Proof. split; [exact x_prog_wf |]. split; [exact x_prog_uses |]. eexists. split; vm_compute; reflexivity. Qed.
Example C54_closed_ex : (forall x, ~ free x z_out) /\ NoDup (bv z_out) /\ List.length (bv z_out) = 17.
Proof.
  destruct C54_total_ex as [_ [U [s' [E _]]]].
  split; [exact (C54_closed _ _ _ _ _ _ _ _ U E) |].
  split; [exact (proj1 (C54_unique_bindings _ _ _ _ _ _ _ _ U E)) | vm_compute; reflexivity].
Qed.
Example C54_preserves_ex : good_sig 99 z_tgm z_cenv /\ esafe false x_prog /\ eval x_prog x_four /\
  same_tree 99 z_tgm x_four (z_num 4) /\ exists c, bstep_e z_cenv [] [] z_out (z_num 4) c.
Proof.
  split; [exact z_sig |]. split; [exact x_prog_safe |].
  split; [apply (proj1 (eval_n_sound 30)); vm_compute; reflexivity |].
  split.
  - repeat (first [ apply st_nil | apply st_cons | apply (st_con 99 z_tgm (x_nat, 0%N))
                  | apply (st_con 99 z_tgm (x_nat, 1%N)) ]).
  - apply (peval_bstep_e z_cenv [] 20). vm_compute; reflexivity.
Qed.
Example C54_evaluator_ex : (exists n w, eeval true n [] x_prog = EVal w /\ readback w = x_four) /\
  eeval true 2 [] x_prog = ETime.
Proof. split; [eexists 20, _; split; vm_compute; reflexivity | vm_compute; reflexivity]. Qed.

(* (fix f x := f x) O *)
Definition z_loop : lexp :=
  App_e (Fix_e (eflcons nAnon (Lam_e nAnon (App_e (Var_e 1) (Var_e 0))) eflnil) 0) x_O.
Lemma z_loop_diverges : forall p, ediverges p z_loop.
Proof.
  intros p.
  set (fs := eflcons nAnon (Lam_e nAnon (App_e (Var_e 1) (Var_e 0))) eflnil).
  assert (A : forall n v, eeval p n [v; ClosFix_v [] fs 0] (App_e (Var_e 1) (Var_e 0)) = ETime).
  { induction n; intros v; [reflexivity |]. rewrite eeval_es. cbn. apply IHn. }
  intros n. destruct n; [reflexivity |]. rewrite eeval_es. cbn. apply A.
Qed.
Example C54_preserves_divergence_ex : exp_wf 0 z_loop /\ uses z_tgm z_loop /\ ediverges false z_loop /\
  esafe false z_loop /\
  exists e' s', convert_anf_exp [] 3 99 z_tgm 100 z_loop = Some (e', s') /\ peval z_cenv [] 50 [] e' = PTime.
Proof.
  split; [unfold z_loop, x_O; wf_tac |].
  split; [repeat split; try apply z_known; lia |].
  split; [apply z_loop_diverges |].
  split; [intros n; rewrite z_loop_diverges; discriminate |].
  eexists _, _. split; [vm_compute; reflexivity | vm_compute; reflexivity].
Qed.

Lemma y_main_uses : uses z_tgm (translate_program [] y_env y_main).
Proof.
  match goal with |- uses _ ?e => let e' := eval vm_compute in e in change e with e' end.
  repeat (cbn [uses uses_es uses_fs uses_bs efnlst_length];
          first [ split | exact I | apply z_known; lia | reflexivity
                | exists x_nat; cbn [brs_of]; repeat split ]).
Qed.
Example C54_from_erased_ex :
  crctEnv y_env /\ crct y_env 0 y_main /\ globals_ok y_env /\
  uses z_tgm (translate_program [] y_env y_main) /\ esafe false (translate_program [] y_env y_main) /\
  WcbvEval y_env y_main (y_num 8) /\ same_data (y_num 8) (x_num 8) /\
  exists e' s' c, convert_anf_exp [] 3 99 z_tgm 100 (translate_program [] y_env y_main) = Some (e', s') /\
    bstep_e z_cenv [] [] e' (z_num 8) c.
Proof.
  assert (D : same_data (y_num 8) (x_num 8)) by (repeat constructor).
  assert (EV : eval (translate_program [] y_env y_main) (x_num 8))
    by (apply (C66_data _ _ y_env_ok y_main_ok y_globals_ok _ _ D); exact y_main_eval).
  split; [exact y_env_ok |]. split; [exact y_main_ok |]. split; [exact y_globals_ok |].
  split; [exact y_main_uses |].
  split.
  { refine (C54_plain_safe _ _ (C49_well_formed _ _ y_env_ok y_main_ok) _ EV).
    match goal with |- plain ?e => let e' := eval vm_compute in e in change e with e' end. cbn. tauto. }
  split; [exact y_main_eval |]. split; [exact D |].
  assert (B : exists c, bstep_e z_cenv [] []
    (match convert_anf_exp [] 3 99 z_tgm 100 (translate_program [] y_env y_main) with Some (e, _) => e | None => Ehalt 1%positive end)
    (z_num 8) c) by (apply (peval_bstep_e z_cenv [] 40); vm_compute; reflexivity).
  destruct B as [c B].
  destruct (C54_total [] 3 99 z_tgm _ 100 (C49_well_formed _ _ y_env_ok y_main_ok)) as [e' [s' E]].
  rewrite E in B. exists e', s', c. auto.
Qed.

Definition z_sub : list val -> option val := fun vs =>
  match vs with [Vprim (PVint a); Vprim (PVint b)] => Some (Vprim (PVint (a - b))) | _ => None end.
Example C54_primitive_ex :
  get 7%positive [(7%positive, 2)] = Some 2 /\
  z_sub [Vprim (PVint 50); Vprim (PVint 8)] = Some (Vprim (PVint 42)) /\
  exists e' s' x y g h, convert_anf_exp [(7%positive, 2)] 3 99 z_tgm 100 (Prim_e 7%positive) = Some (e', s') /\
    peval z_cenv [(7%positive, z_sub)] 5 [] e' = PVal g /\
    callf z_cenv [(7%positive, z_sub)] 5 g 3%positive [x] = PVal h /\ x = Vprim (PVint 50) /\ y = Vprim (PVint 8) /\
    callf z_cenv [(7%positive, z_sub)] 5 h 3%positive [y] = PVal (Vprim (PVint 42)).
Proof.
  split; [reflexivity |]. split; [reflexivity |].
  eexists _, _, (Vprim (PVint 50)), (Vprim (PVint 8)), _, _.
  split; [vm_compute; reflexivity |]. split; [vm_compute; reflexivity |].
  split; [vm_compute; reflexivity |]. split; [reflexivity |]. split; [reflexivity |]. vm_compute; reflexivity.
Qed.

(* The tables the compiler builds from the declared datatypes are good, whatever
   the kernel names are, provided packs of datatypes are declared once; and every
   declared constructor is known. *)
Theorem C54_tables : forall (name : positive -> string) dt dit g,
  (forall a b, name a = name b -> a = b) -> NoDup (map fst g) ->
  let r := Layout_Model.convert_env dt dit g in
  let tgm := map (fun p => (((name (fst (fst (fst p))), snd (fst (fst p))), snd (fst p)), snd p)) (Properties_Layout.ids_of r) in
  good_sig dt tgm (Properties_Layout.ctors_of r) /\
  forall kn i j cs a, Layout_Proofs.declared g kn i j cs a -> known tgm ((name kn, i), N.of_nat j).
Proof.
  intros name dt dit g NI ND r tgm. split; [exact (built_sig name NI dt dit g ND) |].
  intros kn i j cs a D.
  destruct (@Properties_Layout.C34_tags_distinct dt dit g _ _ _ _ _ _ _ _ _ _ ND D D) as [[L _] _].
  fold r in L. unfold Layout_Model.dcon_to_tag in L. unfold known, tgm. rewrite map_map.
  clear - L. induction (Properties_Layout.ids_of r) as [|[d t] m IH]; cbn [Layout_Model.dcon_to_info] in L; [lia |].
  cbn [map In fst snd]. destruct (Layout_Model.conId_dec (kn, i, N.of_nat j) d) as [<- |]; [left; reflexivity |].
  right. auto.
Qed.
Definition z_name (p : positive) : string := Nat.iter (Pos.to_nat p) (String (Ascii.ascii_of_nat 97)) EmptyString.
Lemma z_name_inj : forall a b, z_name a = z_name b -> a = b.
Proof.
  assert (L : forall n, String.length (Nat.iter n (String (Ascii.ascii_of_nat 97)) EmptyString) = n)
    by (induction n as [|n IH]; [reflexivity |]; cbn [Nat.iter nat_rect]; cbn [String.length]; f_equal; exact IH).
  intros a b H. apply (f_equal String.length) in H. unfold z_name in H. rewrite !L in H. lia.
Qed.
Example C54_tables_ex :
  let g := [(2%positive, [[0; 1]])] in
  let r := Layout_Model.convert_env 99 99 g in
  let tgm := [(("aa"%string, 0, 1%N), 101%positive); (("aa"%string, 0, 0%N), 100%positive)] in
  (forall a b, z_name a = z_name b -> a = b) /\ NoDup (map fst g) /\
  map (fun p => (((z_name (fst (fst (fst p))), snd (fst (fst p))), snd (fst p)), snd p)) (Properties_Layout.ids_of r) = tgm /\
  good_sig 99 tgm (Properties_Layout.ctors_of r).
Proof.
  intros g r tgm. assert (ND : NoDup (map fst g)) by (repeat constructor; intros []).
  split; [exact z_name_inj |]. split; [exact ND |]. split; [reflexivity |].
  exact (proj1 (C54_tables z_name 99 99 g z_name_inj ND)).
Qed.

(* Applying an erased proof: the term has a value, in the erased language and in
   the de Bruijn language, but its A-normal form has none, because a proof
   becomes a constructor and applying a constructor is stuck.  Terms in which
   proofs are applied are therefore outside of what the conversion preserves. *)
Theorem C54_applied_proof_refuted : exists t,
  crct [] 0 t /\ WcbvEval [] t TProof /\
  eval (translate_program [] [] t) Prf_e /\ uses z_tgm (translate_program [] [] t) /\
  exists e' s', convert_anf_exp [] 3 99 z_tgm 100 (translate_program [] [] t) = Some (e', s') /\
    forall pr v c, ~ bstep_e z_cenv pr [] e' v c.
Proof.
  exists (TApp TProof TProof).
  split; [cbn; auto |]. split; [eapply (C50_sound _ 5); reflexivity |].
  split; [apply (proj1 (eval_n_sound 5)); reflexivity |]. split; [cbn; auto |].
  eexists _, _. split; [vm_compute; reflexivity |].
  intros pr v c B. apply bstep_e_peval in B. unfold peval in B. cbn in B. destruct c; cbn in B; discriminate.
Qed.

Print Assumptions C54_total.
Print Assumptions C54_closed.
Print Assumptions C54_unique_bindings.
Print Assumptions C54_evaluator_exact.
Print Assumptions C54_evaluator_monotone.
Print Assumptions C54_plain_safe.
Print Assumptions C54_preserves.
Print Assumptions C54_preserves_plain.
Print Assumptions C54_preserves_divergence.
Print Assumptions C54_preserves_safety.
Print Assumptions C54_reflects.
Print Assumptions C54_from_erased.
Print Assumptions C54_primitive.
Print Assumptions C54_tables.
Print Assumptions C54_applied_proof_refuted.
