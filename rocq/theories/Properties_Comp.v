(** * Properties of the compilation state and of the pipeline *)
From Coq Require Import ZArith NArith PArith List Lia Bool String.
From Verif Require Import ANF_Syntax ANF_Spec ANF_Scope Comp_Model Comp_Proofs.
Import ListNotations.

(** a name of a program: bound or free in it *)
Definition name_of (x : var) (e : exp) : Prop := In x (bv e) \/ free x e.

(** ** C25: fresh names are fresh *)

(** [max_var] is the largest name of the program (and of [z]). *)
Theorem C25_max_var : forall e z,
  (max_var e z = z \/ name_of (max_var e z) e) /\
  (z <= max_var e z)%positive /\
  (forall x, name_of x e -> (x <= max_var e z)%positive).
Proof.
  intros e z. destruct (proj1 max_var_max e z) as (A & B & C). split; [|split].
  - destruct A as [A|A]; [auto|]. right. apply (proj1 allv_spec). exact A.
  - exact B.
  - intros x N. apply C. apply (proj1 allv_spec). exact N.
Qed.
Print Assumptions C25_max_var.

Example C25_max_var_example :
  max_var (Efun (Fcons 4 1 [7; 5]%positive (Ehalt 9) Fnil) (Ecase 3 [(1, Ehalt 8); (2, Eapp 4 1 [2])]))%positive 1 = 9%positive /\
  name_of 9%positive (Efun (Fcons 4 1 [7; 5]%positive (Ehalt 9) Fnil) (Ecase 3 [(1, Ehalt 8); (2, Eapp 4 1 [2])]))%positive.
Proof.
  split; [reflexivity|]. right. cbn. split; [lia|]. right. left. split; [intuition discriminate|reflexivity].
Qed.

(** Any sequence of requests from a state whose counter is above the names of
    the program succeeds; the variables handed out are pairwise different and
    no name of the program; the tags handed out are pairwise different and
    recorded with the arity asked for; and the state is above the names of any
    program made of the names of the old one and the new variables. *)
Theorem C25_requests : forall (S : Type) (st : S) (e : exp) (c : comp_data) (rs : list request),
  (forall x, name_of x e -> (x < next_var c)%positive) ->
  exists l c', mapM serve rs tt (c, st) = (Ret l, (c', st)) /\
    Forall2 (fits c') rs l /\
    NoDup (vars_of l) /\ (forall x, In x (vars_of l) -> ~ name_of x e /\ get x (nenv c') <> None) /\
    (forall x, name_of x e -> get x (nenv c') = get x (nenv c)) /\
    (forall e', (forall x, name_of x e' -> name_of x e \/ In x (vars_of l)) ->
       forall x, name_of x e' -> (x < next_var c')%positive).
Proof.
  intros S st e c rs Above.
  destruct (serve_all_ok rs c st) as (l & c' & E & F & (L & V & V' & _)).
  exists l, c'. split; [exact E|]. split; [exact F|]. split; [exact V|].
  destruct L as (L1 & _ & _ & _ & L5 & _).
  split; [|split].
  - intros x I. destruct (V' x I) as [R N]. split; [|exact N]. intro O. apply Above in O. lia.
  - intros x O. apply L5. apply Above. exact O.
  - intros e' H x O. apply H in O as [O|I]; [apply Above in O; lia|].
    destruct (V' x I) as [R _]. lia.
Qed.
Print Assumptions C25_requests.

Theorem C25_tags : forall (S : Type) (st : S) (c : comp_data) (rs : list request),
  (forall t i, get t (cenv c) = Some i -> (t < nect_ctor_tag c)%positive) ->
  (forall t i, get t (fenv c) = Some i -> (t < next_fun_tag c)%positive) ->
  exists l c', mapM serve rs tt (c, st) = (Ret l, (c', st)) /\
    Forall2 (fits c') rs l /\
    NoDup (ctags_of l) /\ (forall t, In t (ctags_of l) -> get t (cenv c) = None) /\
    NoDup (ftags_of l) /\ (forall t, In t (ftags_of l) -> get t (fenv c) = None) /\
    (forall t i, get t (cenv c) = Some i -> get t (cenv c') = Some i) /\
    (forall t i, get t (fenv c) = Some i -> get t (fenv c') = Some i).
Proof.
  intros S st c rs HC HF.
  destruct (serve_all_ok rs c st) as (l & c' & E & F & (L & _ & _ & C & C' & T & T')).
  exists l, c'. split; [exact E|]. split; [exact F|]. split; [exact C|].
  destruct L as (_ & _ & _ & _ & _ & L6 & L7 & _).
  split; [|split; [exact T|split; [|split]]].
  - intros t I. destruct (get t (cenv c)) as [i|] eqn:G; [|reflexivity].
    apply HC in G. apply C' in I. lia.
  - intros t I. destruct (get t (fenv c)) as [i|] eqn:G; [|reflexivity].
    apply HF in G. apply T' in I. lia.
  - intros t i G. rewrite L6; [exact G|]. eapply HC; eauto.
  - intros t i G. rewrite L7; [exact G|]. eapply HF; eauto.
Qed.
Print Assumptions C25_tags.

(** [make_ftag], used outside the monad, also gives unused tags and keeps the
    state such that later requests do. *)
Theorem C25_make_ftag : forall n c,
  (forall t i, get t (fenv c) = Some i -> (t < next_fun_tag c)%positive) ->
  let (f, c') := make_ftag n c in
  get f (fenv c) = None /\
  (exists l, get f (fenv c') = Some (N.of_nat n, l) /\ List.length l = n) /\
  (forall t i, get t (fenv c) = Some i -> get t (fenv c') = Some i) /\
  (forall t i, get t (fenv c') = Some i -> (t < next_fun_tag c')%positive).
Proof.
  intros n [x ct it f e fe nm im lg] H. cbn [make_ftag fenv next_fun_tag] in *.
  split; [|split; [|split]].
  - destruct (get f fe) as [i|] eqn:G; [|reflexivity]. apply H in G. lia.
  - rewrite get_set_same. eexists. split; [reflexivity|]. apply (fromN_spec n 0%N).
  - intros t i G. rewrite get_set_other; [exact G|]. apply H in G. intro; subst. lia.
  - intros t i G. destruct (Pos.eq_dec t f) as [->|N]; [lia|].
    rewrite get_set_other in G by (first [exact N|intro Q; apply N; symmetry; exact Q]). apply H in G. lia.
Qed.
Print Assumptions C25_make_ftag.

Example C25_make_ftag_example :
  let c := initial_data [] 1%positive 1%positive [] [(4%positive, (1%N, [0%N]))] (Ehalt 1%positive) in
  fst (make_ftag 2 c) = 5%positive /\ get 5%positive (fenv (snd (make_ftag 2 c))) = Some (2%N, [0%N; 1%N]) /\
  fst (make_ftag 3 (snd (make_ftag 2 c))) = 6%positive.
Proof. vm_compute. auto. Qed.

(** The pipeline starts in such a state. *)
Theorem C25_initial : forall cenv ctag itag nenv fenv e,
  let c := initial_data cenv ctag itag nenv fenv e in
  (forall x, name_of x e -> (x < next_var c)%positive) /\
  (forall t i, get t fenv = Some i -> (t < next_fun_tag c)%positive).
Proof.
  intros cenv ctag itag nenv fenv e c. split.
  - intros x O. destruct (C25_max_var e 1) as (_ & _ & H). apply H in O. cbn [c initial_data next_var]. lia.
  - intros t i G. apply (proj2 (fold_max_ge fenv 1)) in G. cbn [c initial_data next_fun_tag]. lia.
Qed.
Print Assumptions C25_initial.

Local Open Scope string_scope.
Example C25_requests_example :
  let e := Eletapp 7%positive 3%positive 1%positive [5%positive] (Ehalt 7%positive) in
  let c := initial_data [] 99%positive 99%positive [(5%positive, nNamed "f")] [(3%positive, (1%N, [0%N]))] e in
  (forall x, name_of x e -> (x < next_var c)%positive) /\
  exists c', mapM serve [Rname 5%positive "_env"; Rftag 2; Rnames [5; 7]%positive "_u"; Rrecord 3; Rnamed nAnon] tt (c, tt) =
  (Ret [Avars [8%positive]; Aftag 4%positive; Avars [9; 10]%positive; Actag 99%positive; Avars [11%positive]], (c', tt)) /\
  get 8%positive (nenv c') = Some (nNamed "f_env") /\ get 10%positive (nenv c') = Some (nNamed "anon_u") /\
  get 4%positive (fenv c') = Some (2%N, [0%N; 1%N]).
Proof.
  split.
  - apply C25_initial.
  - eexists. split; [vm_compute; reflexivity|]. vm_compute. auto.
Qed.

(** Identifiers of primitives: consecutive, so pairwise different, and below
    the first variable of the program. *)
Theorem C25_prims : forall id prs,
  let '(l, id') := pick_prim_ident id prs in
  map fst l = prs /\ NoDup (map snd l) /\
  (forall p x, In (p, x) l -> (id <= x < id')%positive) /\
  Pos.to_nat id' = (Pos.to_nat id + List.length prs)%nat.
Proof.
  intros id prs. revert id. induction prs as [|p prs IH]; intro id; cbn [pick_prim_ident].
  - repeat split; try constructor; try (intros ? ? []); cbn; try lia; try (exact (NoDup_nil _));
      destruct H.
  - specialize (IH (id + 1)%positive). destruct (pick_prim_ident (id + 1) prs) as [l id'].
    destruct IH as (A & B & C & D). cbn [map fst snd].
    split; [f_equal; exact A|]. split; [|split].
    + constructor; [|exact B]. intro I. apply in_map_iff in I as ([q y] & E & I). cbn in E. subst y.
      apply C in I. lia.
    + intros q x [[= <- <-]|I]; [cbn in D; lia|]. apply C in I. lia.
    + rewrite D. cbn. lia.
Qed.
Print Assumptions C25_prims.

Example C25_prims_example :
  pick_prim_ident 100 [mk_primitive "add" "prim_add" 2 false; mk_primitive "mul" "prim_mul" 2 true] =
  ([(mk_primitive "add" "prim_add" 2 false, 100); (mk_primitive "mul" "prim_mul" 2 true, 101)], 102)%positive.
Proof. reflexivity. Qed.

(** ** C56: errors *)

(** A list of passes takes [(e, c)] to [(e', c')], every pass succeeding. *)
Inductive all_succeed : list anf_trans -> exp -> comp_data -> exp -> comp_data -> Prop :=
| as_nil e c : all_succeed [] e c e c
| as_cons f l e c e1 c1 e2 c2 :
    f e c = (Ret e1, c1) -> all_succeed l e1 c1 e2 c2 -> all_succeed (f :: l) e c e2 c2.

(** The passes selected by the options, in order. *)
Definition selected (P : anf_passes) (nv : positive) (o : anf_options) : list anf_trans :=
  ([shrink_err P; uncurry_top P (o_cps o); inline_uncurry P nv 10 100] ++
  (if inl_before o then [inline_shrink_loop P nv 10 100] else []) ++
  (if do_lambda_lift o then [lambda_lift P (o_args o) (no_push o) (inl_wrappers o)] else []) ++
  [shrink_err P; closure_conversion_hoist P clo_tag clo_ind_tag; shrink_err P] ++
  (if inl_after o then [inline_shrink_loop P nv 10 100] else []) ++
  (if o_dpe o then [DPE P] else []) ++
  [shrink_err P] ++
  (if inl_known o then [inline_lifted P nv 10 1000] else []))%list.

(** one after the other *)
Fixpoint fold_passes (l : list anf_trans) (e : exp) : anf_state exp :=
  match l with
  | [] => aret e
  | f :: l => abind (f e) (fold_passes l)
  end.

Lemma fold_passes_app l1 l2 e c :
  fold_passes (l1 ++ l2)%list e c = abind (fold_passes l1 e) (fold_passes l2) c.
Proof.
  revert e c. induction l1 as [|f l1 IH]; intros e c; cbn [app fold_passes].
  - reflexivity.
  - unfold abind at 1 2. unfold abind at 1. destruct (f e c) as [[s|e1] c1]; [reflexivity|]. apply IH.
Qed.

Lemma time_anf_eq o A B name (f : A -> anf_state B) x s : time_anf o name f x s = f x s.
Proof. unfold time_anf, timePhase. destruct (o_time o); reflexivity. Qed.

Lemma abind_ext A B (m m' : anf_state A) (f f' : A -> anf_state B) c :
  m c = m' c -> (forall x c, f x c = f' x c) -> abind m f c = abind m' f' c.
Proof.
  unfold abind. intros -> H. destruct (m' c) as [[s|a] c']; [reflexivity|apply H].
Qed.

Lemma abind_id A (e : exp) (f : exp -> anf_state A) c : abind (id_trans e) f c = f e c.
Proof. reflexivity. Qed.

Lemma anf_pipeline_fold P nv o e c : anf_pipeline P nv o e c = fold_passes (selected P nv o) e c.
Proof.
  unfold anf_pipeline, selected.
  destruct (inl_before o), (do_lambda_lift o), (inl_after o), (o_dpe o), (inl_known o);
    cbn [app fold_passes];
    repeat (rewrite ?abind_id; first
      [ reflexivity
      | apply abind_ext; [apply time_anf_eq|intros ? ?]
      | match goal with |- abind (if ?b then _ else _) _ _ = _ => idtac end ]);
    reflexivity.
Qed.

Lemma fold_passes_ret l : forall e c e' c',
  fold_passes l e c = (Ret e', c') <-> all_succeed l e c e' c'.
Proof.
  induction l as [|f l IH]; intros e c e' c'; cbn [fold_passes].
  - split.
    + intros [= <- <-]. constructor.
    + intro H. inversion H; subst. reflexivity.
  - unfold abind. split.
    + destruct (f e c) as [[s|e1] c1] eqn:E; [discriminate|]. intro H. econstructor; [exact E|].
      apply IH. exact H.
    + intro H. inversion H as [|? ? ? ? e1 c1 ? ? E R]; subst. rewrite E. apply IH. exact R.
Qed.

Lemma fold_passes_err l : forall e c s c',
  fold_passes l e c = (Err s, c') <->
  exists l1 f l2 e1 c1, l = (l1 ++ f :: l2)%list /\ all_succeed l1 e c e1 c1 /\ f e1 c1 = (Err s, c').
Proof.
  induction l as [|f l IH]; intros e c s c'; cbn [fold_passes].
  - split; [discriminate|]. intros ([|] & ? & ? & ? & ? & H & _); discriminate.
  - unfold abind. split.
    + destruct (f e c) as [[s'|e1] c1] eqn:E.
      * intros [= -> ->]. exists [], f, l, e, c. split; [reflexivity|]. split; [constructor|exact E].
      * intro H. apply IH in H as (l1 & g & l2 & e2 & c2 & -> & A & B).
        exists (f :: l1), g, l2, e2, c2. split; [reflexivity|]. split; [|exact B].
        econstructor; eauto.
    + intros ([|h l1] & g & l2 & e2 & c2 & H & A & B); cbn in H; injection H as <- ->.
      * inversion A; subst. rewrite B. reflexivity.
      * inversion A as [|? ? ? ? e1 c1 ? ? E R]; subst. rewrite E. apply IH.
        exists l1, g, l2, e2, c2. auto.
Qed.

(** The pipeline on LambdaANF succeeds iff every selected pass does, with the
    composition of their results; it fails iff some pass fails after all
    earlier ones have succeeded, with that pass's error and state, whatever
    the later passes are. *)
Theorem C56_anf : forall P nv o e c,
  (forall e' c', anf_pipeline P nv o e c = (Ret e', c') <->
     all_succeed (selected P nv o) e c e' c') /\
  (forall s c', anf_pipeline P nv o e c = (Err s, c') <->
     exists before f after e1 c1, selected P nv o = (before ++ f :: after)%list /\
       all_succeed before e c e1 c1 /\ f e1 c1 = (Err s, c')).
Proof.
  intros. split; intros; rewrite anf_pipeline_fold.
  - apply fold_passes_ret.
  - apply fold_passes_err.
Qed.
Print Assumptions C56_anf.

(** a pipeline whose closure conversion fails *)
Definition ex_pass (n : var) : anf_trans := fun e c => (Ret (Eprim_val n (PVint 0) e), add_log "x" c).
Definition ex_passes : anf_passes :=
  {| shrink_err := ex_pass 1; uncurry_top := fun b => ex_pass (if b then 2 else 3);
     inline_uncurry := fun _ _ _ => ex_pass 4; inline_shrink_loop := fun _ _ _ => ex_pass 5;
     lambda_lift := fun _ _ _ => ex_pass 6;
     closure_conversion_hoist := fun t _ e c => (Err "no tag", c);
     DPE := ex_pass 8; inline_lifted := fun _ _ _ => ex_pass 9 |}%positive.
Definition ex_passes_ok : anf_passes :=
  {| shrink_err := ex_pass 1; uncurry_top := fun b => ex_pass (if b then 2 else 3);
     inline_uncurry := fun _ _ _ => ex_pass 4; inline_shrink_loop := fun _ _ _ => ex_pass 5;
     lambda_lift := fun _ _ _ => ex_pass 6;
     closure_conversion_hoist := fun t _ => ex_pass 7;
     DPE := ex_pass 8; inline_lifted := fun _ _ _ => ex_pass 9 |}%positive.
Definition ex_opts : Options :=
  {| direct := true; c_args := 5; anf_conf := 7; o_level := 1; time := true; debug := true;
     prims := [mk_primitive "M.add" "prim_add" 2 false] |}.

Example C56_anf_example :
  let c := initial_data [] 99%positive 99%positive [] [] (Ehalt 1%positive) in
  fst (anf_pipeline ex_passes 100 (make_anf_options ex_opts) (Ehalt 1%positive) c) = Err "no tag" /\
  fst (anf_pipeline ex_passes_ok 100 (make_anf_options ex_opts) (Ehalt 1%positive) c) =
  Ret (fold_left (fun e n => Eprim_val n (PVint 0) e) [1; 3; 4; 5; 6; 1; 7; 1; 8; 1]%positive (Ehalt 1%positive)).
Proof. vm_compute. auto. Qed.

(** What the whole compiler returns, step by step. [realised] axioms are those
    that have an entry in the list of primitives. *)
Definition axiom_of {T} (p : Program T) (k : string) : Prop := In (k, ecTyp 0 []) (env_of p).
Definition realised (o : Options) (k : string) : Prop := In k (map prim_name (prims o)).

Section Spec.
  Variable F : front.
  Variable o : Options.
  Definition numbered := fst (pick_prim_ident 100 (prims o)).
  Definition first_var := snd (pick_prim_ident 100 (prims o)).

  Definition convert := if direct o then convert_top_anf F else convert_top F.
  Definition generate prs args t :=
    if direct o then fst (codegen F prs args t) else codegen_cps F prs args t.
  Definition start (t : full_term) : comp_data :=
    let '(ce, ct, it, ne, fe, e) := t in initial_data ce ct it ne fe e.
  Definition program_of (t : full_term) : exp := snd t.
  Definition finish (c : comp_data) (e : exp) : full_term :=
    (cenv c, nect_ctor_tag c, next_ind_tag c, nenv c, fenv c, e).

  Inductive compiles (p : src_program F) : error (target F) -> Prop :=
  | c_axiom ks k :
      axiom_of (compile_program F p) k -> ~ realised o k ->
      (forall k', In k' ks <-> axiom_of (compile_program F p) k' /\ ~ realised o k') ->
      compiles p (Err ("Axioms found, use Extract Constant to realize them in C: " ++ newline ++ print_list ", " ks))
  | c_convert s :
      (forall k, axiom_of (compile_program F p) k -> realised o k) ->
      convert numbered first_var (translate_program F numbered (compile_program F p)) = Err s ->
      compiles p (Err s)
  | c_pass t before f after e1 c1 s c2 :
      (forall k, axiom_of (compile_program F p) k -> realised o k) ->
      convert numbered first_var (translate_program F numbered (compile_program F p)) = Ret t ->
      selected (passes F) first_var (make_anf_options o) = (before ++ f :: after)%list ->
      all_succeed before (program_of t) (start t) e1 c1 -> f e1 c1 = (Err s, c2) ->
      compiles p (Err ("Failed compiling LambdaANF program: " ++ s))
  | c_generate t e1 c1 r :
      (forall k, axiom_of (compile_program F p) k -> realised o k) ->
      convert numbered first_var (translate_program F numbered (compile_program F p)) = Ret t ->
      all_succeed (selected (passes F) first_var (make_anf_options o)) (program_of t) (start t) e1 c1 ->
      generate numbered (c_args o) (finish c1 e1) = r ->
      compiles p r.
End Spec.

Lemma find_axioms_spec {T} (prs : list (primitive * positive)) (en : environ T) : forall acc,
  find_axioms prs acc en =
  (rev (filter (fun k => negb (existsb (fun q : primitive * positive => String.eqb k (prim_name (fst q))) prs))
     (flat_map (fun d : string * envClass T => match snd d with ecTyp 0 [] => [fst d] | _ => [] end) en)) ++ acc)%list.
Proof.
  assert (FE : forall k, match List.find (fun q : primitive * positive => String.eqb k (prim_name (fst q))) prs with
                    Some _ => true | None => false end =
          existsb (fun q : primitive * positive => String.eqb k (prim_name (fst q))) prs).
  { intro k. induction prs as [|q prs IH]; cbn; [reflexivity|].
    destruct (String.eqb k (prim_name (fst q))); [reflexivity|exact IH]. }
  induction en as [|[k d] en IH]; intro acc; [reflexivity|].
  cbn [find_axioms flat_map fst snd].
  destruct d as [t|[|n] [|i l]]; cbn [app]; try apply IH.
  cbn [filter]. specialize (FE k).
  destruct (List.find _ prs) eqn:E; rewrite <- FE; cbn [negb app]; [apply IH|].
  cbn [rev]. rewrite IH, <- app_assoc. reflexivity.
Qed.

Lemma existsb_prims k prs :
  existsb (fun q : primitive * positive => String.eqb k (prim_name (fst q))) prs = true <->
  In k (map prim_name (map fst prs)).
Proof.
  rewrite existsb_exists. split.
  - intros (q & I & E). apply String.eqb_eq in E. subst k. apply in_map. apply in_map. exact I.
  - intro I. apply in_map_iff in I as (r & <- & I). apply in_map_iff in I as (q & <- & I).
    exists q. split; [exact I|]. apply String.eqb_refl.
Qed.

Lemma find_axioms_in {T} o (p : Program T) k :
  In k (find_axioms (numbered o) [] (env_of p)) <-> axiom_of p k /\ ~ realised o k.
Proof.
  rewrite find_axioms_spec, app_nil_r, <- in_rev, filter_In, in_flat_map.
  assert (E : map fst (numbered o) = prims o).
  { unfold numbered. pose proof (C25_prims 100 (prims o)) as H.
    destruct (pick_prim_ident 100 (prims o)). apply H. }
  split.
  - intros (([k' d] & I & J) & N). split.
    + cbn in J. destruct d as [t|[|n] [|i l]]; cbn in J; try destruct J as [].
      subst k'. exact I. destruct H.
    + unfold realised. rewrite <- E, <- existsb_prims. intro B. rewrite B in N. discriminate.
  - intros (A & N). split.
    + exists (k, ecTyp 0 []). split; [exact A|]. cbn. auto.
    + unfold realised in N. rewrite <- E, <- existsb_prims in N.
      destruct (existsb _ _); [tauto|reflexivity].
Qed.

Lemma debug_msg_ret s o w : exists w', debug_msg s o w = (Ret tt, w').
Proof.
  unfold debug_msg, bind, get_options, ask. destruct (debug o).
  - destruct w. unfold getM, putM. eauto.
  - unfold ret. eauto.
Qed.

Lemma timePhase_opt_eq A o s (f : unit -> A) : timePhase_opt o s f = f tt.
Proof. unfold timePhase_opt, timePhase. destruct (time o); reflexivity. Qed.

Lemma bind_eq R W A B (m : compM R W A) (f : A -> compM R W B) r w :
  bind m f r w = match m r w with (Err s, w') => (Err s, w') | (Ret a, w') => f a r w' end.
Proof. unfold bind. destruct (m r w) as [[s|a] w']; reflexivity. Qed.

Lemma stage_fst A B (g : A -> pipelineM B) (m : pipelineM A) o w :
  (exists s w', m o w = (Err s, w') /\ fst (bind m g o w) = Err s) \/
  (exists a w', m o w = (Ret a, w') /\ bind m g o w = g a o w').
Proof.
  rewrite bind_eq. destruct (m o w) as [[s|a] w']; [left|right]; eauto 6.
Qed.

Lemma box_mut F o w p : exists w', compile_LambdaBoxMut F p o w = (Ret (compile_program F p), w').
Proof.
  unfold compile_LambdaBoxMut. rewrite bind_eq.
  destruct (debug_msg_ret "Translating from L1g to L1k" o w) as (w' & ->).
  unfold LiftCertiRocqTrans, bind, get_options, ask, ret. rewrite timePhase_opt_eq. eauto.
Qed.

Lemma box_local F o w prs p : exists w', compile_LambdaBoxLocal F prs p o w = (Ret (translate_program F prs p), w').
Proof.
  unfold compile_LambdaBoxLocal. rewrite bind_eq.
  destruct (debug_msg_ret "Translating from LambdaBoxMut to LambdaBoxLocal" o w) as (w' & ->).
  unfold LiftCertiRocqTrans, bind, get_options, ask, ret. rewrite timePhase_opt_eq. eauto.
Qed.

Lemma conv F o w prs nv p : exists w',
  (if direct o then compile_LambdaANF_ANF F nv prs p else compile_LambdaANF_CPS F nv prs p) o w =
  (convert F o prs nv p, w').
Proof.
  unfold convert. destruct (direct o); unfold compile_LambdaANF_ANF, compile_LambdaANF_CPS; rewrite bind_eq.
  - destruct (debug_msg_ret "Translating from LambdaBoxLocal to LambdaANF (ANF)" o w) as (w' & ->).
    unfold LiftErrorCertiRocqTrans. rewrite timePhase_opt_eq. eauto.
  - destruct (debug_msg_ret "Translating from LambdaBoxLocal to LambdaANF (CPS)" o w) as (w' & ->).
    unfold LiftErrorCertiRocqTrans. rewrite timePhase_opt_eq. eauto.
Qed.

Lemma anf F o w nv t : exists w',
  compile_LambdaANF F nv t o w =
  (match fold_passes (selected (passes F) nv (make_anf_options o)) (program_of t) (start t) with
   | (Ret e, c) => Ret (finish c e)
   | (Err s, c) => Err ("Failed compiling LambdaANF program: " ++ s)
   end, w').
Proof.
  unfold compile_LambdaANF. rewrite bind_eq.
  destruct (debug_msg_ret "Compiling LambdaANF" o w) as (w' & ->).
  unfold bind, get_options, ask, LiftErrorLogCertiRocqTrans. rewrite timePhase_opt_eq.
  destruct t as [[[[[ce ct] it] ne] fe] e]. unfold run_anf_pipeline, start, program_of. cbn [snd].
  rewrite anf_pipeline_fold.
  destruct (fold_passes _ e _) as [[s|e'] c']; [eauto|]. destruct c'. unfold finish. cbn. eauto.
Qed.

Lemma gen F o w prs t : exists w',
  compile_target F prs t o w = (generate F o prs (c_args o) t, w').
Proof.
  unfold compile_target. rewrite bind_eq.
  destruct (debug_msg_ret "Translating from LambdaANF to C" o w) as (w' & ->).
  unfold bind, get_options, ask, generate. destruct (direct o); cbn [negb].
  - unfold LiftErrorLogCertiRocqTrans. rewrite timePhase_opt_eq.
    destruct (codegen F prs (c_args o) t). cbn. eauto.
  - unfold LiftErrorCertiRocqTrans. rewrite timePhase_opt_eq. eauto.
Qed.

Lemma compile_eq F o p :
  fst (compile F o p) =
  match find_axioms (numbered o) [] (env_of (compile_program F p)) with
  | [] =>
      match convert F o (numbered o) (first_var o) (translate_program F (numbered o) (compile_program F p)) with
      | Err s => Err s
      | Ret t =>
          match fold_passes (selected (passes F) (first_var o) (make_anf_options o)) (program_of t) (start t) with
          | (Ret e, c) => generate F o (numbered o) (c_args o) (finish c e)
          | (Err s, c) => Err ("Failed compiling LambdaANF program: " ++ s)
          end
      end
  | l => Err ("Axioms found, use Extract Constant to realize them in C: " ++ newline ++ print_list ", " l)
  end.
Proof.
  unfold compile, run_pipeline, pipeline. rewrite bind_eq.
  unfold register_prims at 1. unfold bind at 1, get_options at 1, ask at 1, ret at 1.
  unfold next_id. fold (numbered o) (first_var o).
  destruct (pick_prim_ident 100 (prims o)) as [prs nv] eqn:EP.
  assert (EN : numbered o = prs) by (unfold numbered; rewrite EP; reflexivity).
  assert (EV : first_var o = nv) by (unfold first_var; rewrite EP; reflexivity).
  rewrite EN, EV. clear EN EV EP.
  rewrite bind_eq. unfold CertiRocq_pipeline. rewrite bind_eq.
  change (get_options o {| time_log := []; ci_log := []; debug_log := [] |}) with
    (@Ret Options o, {| time_log := []; ci_log := []; debug_log := [] |}). cbn beta iota.
  rewrite bind_eq. destruct (box_mut F o {| time_log := []; ci_log := []; debug_log := [] |} p) as (w1 & ->).
  rewrite bind_eq. unfold check_axioms.
  destruct (find_axioms prs [] (env_of (compile_program F p))) as [|k ks].
  - unfold ret. rewrite bind_eq. destruct (box_local F o w1 prs (compile_program F p)) as (w2 & ->).
    rewrite bind_eq.
    destruct (conv F o w2 prs nv (translate_program F prs (compile_program F p))) as (w3 & E3).
    destruct (direct o); rewrite E3; clear E3;
      (destruct (convert F o prs nv _) as [s|t]; [reflexivity|];
       destruct (anf F o w3 nv t) as (w4 & ->);
       destruct (fold_passes _ _ _) as [[s|e] c]; [reflexivity|];
       destruct (gen F o w4 prs (finish c e)) as (w5 & ->); reflexivity).
  - reflexivity.
Qed.

(** The compiler returns exactly what the first failing step returns, or the
    result of the composition; steps after a failing one do not matter. *)
Theorem C56_compile : forall F o p r, fst (compile F o p) = r -> compiles F o p r.
Proof.
  intros F o p r <-. rewrite compile_eq.
  destruct (find_axioms (numbered o) [] (env_of (compile_program F p))) as [|k ks] eqn:EA.
  - assert (Ax : forall k, axiom_of (compile_program F p) k -> realised o k).
    { intros k A. unfold realised. destruct (in_dec String.string_dec k (map prim_name (prims o))) as [I|N]; [exact I|].
      exfalso. pose proof (proj2 (find_axioms_in o (compile_program F p) k) (conj A N)) as I.
      rewrite EA in I. destruct I. }
    destruct (convert F o _ _ _) as [s|t] eqn:EC.
    + eapply c_convert; eauto.
    + destruct (fold_passes _ _ _) as [[s|e] c] eqn:EF.
      * apply fold_passes_err in EF as (l1 & f & l2 & e1 & c1 & E & A & B).
        eapply c_pass; eauto.
      * apply fold_passes_ret in EF. eapply c_generate; eauto.
  - assert (H : forall k', In k' (k :: ks) <-> axiom_of (compile_program F p) k' /\ ~ realised o k').
    { intro k'. rewrite <- EA. apply find_axioms_in. }
    destruct (proj1 (H k) (or_introl eq_refl)) as [A N].
    eapply c_axiom; eauto.
Qed.
Print Assumptions C56_compile.

(** The result does not depend on the timing and debugging flags. *)
Theorem C56_flags : forall F o o' p,
  direct o = direct o' -> c_args o = c_args o' -> anf_conf o = anf_conf o' ->
  o_level o = o_level o' -> prims o = prims o' ->
  fst (compile F o p) = fst (compile F o' p).
Proof.
  intros F o o' p E1 E2 E3 E4 E5. rewrite !compile_eq.
  unfold convert, generate, numbered, first_var. rewrite E1, E2, E5.
  replace (selected (passes F) (snd (pick_prim_ident 100 (prims o'))) (make_anf_options o)) with
    (selected (passes F) (snd (pick_prim_ident 100 (prims o'))) (make_anf_options o')); [reflexivity|].
  unfold selected, make_anf_options. rewrite E1, E2, E3, E4.
  destruct (anf_conf o') as [|n]; [reflexivity|]. do 10 (try (destruct n as [|n]; [reflexivity|])). reflexivity.
Qed.
Print Assumptions C56_flags.

(** Lambda lifting is run from optimisation level 1 on and not at level 0. *)
Definition with_lift (P : anf_passes) (l : nat -> nat -> bool -> anf_trans) : anf_passes :=
  {| shrink_err := shrink_err P; uncurry_top := uncurry_top P; inline_uncurry := inline_uncurry P;
     inline_shrink_loop := inline_shrink_loop P; lambda_lift := l;
     closure_conversion_hoist := closure_conversion_hoist P; DPE := DPE P; inline_lifted := inline_lifted P |}.

Theorem C56_level : forall P nv o e c,
  (o_level o = 0%nat -> forall l,
     anf_pipeline (with_lift P l) nv (make_anf_options o) e c = anf_pipeline P nv (make_anf_options o) e c) /\
  ((1 <= o_level o)%nat -> forall msg e' c',
     anf_pipeline (with_lift P (fun _ _ _ _ c => (Err msg, c))) nv (make_anf_options o) e c <> (Ret e', c')).
Proof.
  intros P nv o e c.
  assert (L : do_lambda_lift (make_anf_options o) = (1 <=? o_level o)%nat).
  { unfold make_anf_options. destruct (anf_conf o) as [|n]; [reflexivity|].
    do 10 (try (destruct n as [|n]; [reflexivity|])). reflexivity. }
  split.
  - intros H l. rewrite !anf_pipeline_fold. unfold selected. rewrite L, H. reflexivity.
  - intros H msg e' c' E. rewrite anf_pipeline_fold in E. unfold selected in E. rewrite L in E.
    replace (1 <=? o_level o)%nat with true in E by (symmetry; apply Nat.leb_le; exact H).
    apply fold_passes_ret in E.
    assert (G : forall l1 (f : anf_trans) l2 e c e' c', (forall e c, exists s, fst (f e c) = Err s) ->
              ~ all_succeed (l1 ++ f :: l2)%list e c e' c').
    { clear. induction l1 as [|g l1 IH]; intros f l2 e c e' c' F S; inversion S; subst.
      - destruct (F e c) as (s & Q). match goal with K : f e c = _ |- _ => rewrite K in Q end. discriminate.
      - eapply IH; eauto. }
    revert E. rewrite !app_assoc. rewrite <- !app_assoc.
    match goal with |- all_succeed (?a ++ ?b ++ (?c ++ ?d)) _ _ _ _ -> _ =>
      rewrite (app_assoc a b (c ++ d)%list); cbn [app]; intro E; revert E; apply (G (a ++ b)%list) end.
    intros. eexists. reflexivity.
Qed.
Print Assumptions C56_level.

Example C56_level_example :
  let c := initial_data [] 99%positive 99%positive [] [] (Ehalt 1%positive) in
  o_level ex_opts = 1%nat /\
  fst (anf_pipeline (with_lift ex_passes_ok (fun _ _ _ _ c => (Err "stop", c))) 100 (make_anf_options ex_opts) (Ehalt 1%positive) c) = Err "stop".
Proof. vm_compute. auto. Qed.

(** With debugging on the log returned starts with the message of the first
    step, and when the compilation succeeds it has those of all steps, oldest
    first: no step throws away the log of the steps before it. *)
Definition grows {A} (o : Options) (m : pipelineM A) (s : string) : Prop :=
  debug o = true -> forall w, exists l, debug_log (snd (m o w)) = (l ++ s :: debug_log w)%list.

Lemma debug_grows o s w : debug o = true ->
  exists w', debug_msg s o w = (Ret tt, w') /\ debug_log w' = s :: debug_log w.
Proof.
  intro D. unfold debug_msg, bind, get_options, ask. rewrite D. destruct w. unfold getM, putM.
  eexists; split; reflexivity.
Qed.

Lemma grows_mut F o p : grows o (compile_LambdaBoxMut F p) "Translating from L1g to L1k".
Proof.
  intros D w. unfold compile_LambdaBoxMut. rewrite bind_eq. destruct (debug_grows o "Translating from L1g to L1k" w D) as (w' & -> & E).
  exists []. unfold LiftCertiRocqTrans, bind, get_options, ask, ret. exact E.
Qed.

Lemma grows_local F o prs p : grows o (compile_LambdaBoxLocal F prs p) "Translating from LambdaBoxMut to LambdaBoxLocal".
Proof.
  intros D w. unfold compile_LambdaBoxLocal. rewrite bind_eq.
  destruct (debug_grows o "Translating from LambdaBoxMut to LambdaBoxLocal" w D) as (w' & -> & E).
  exists []. unfold LiftCertiRocqTrans, bind, get_options, ask, ret. exact E.
Qed.

Definition conv_msg (o : Options) : string :=
  if direct o then "Translating from LambdaBoxLocal to LambdaANF (ANF)" else "Translating from LambdaBoxLocal to LambdaANF (CPS)".

Lemma grows_conv F o prs nv p :
  grows o (if direct o then compile_LambdaANF_ANF F nv prs p else compile_LambdaANF_CPS F nv prs p) (conv_msg o).
Proof.
  intros D w. unfold conv_msg. destruct (direct o); unfold compile_LambdaANF_ANF, compile_LambdaANF_CPS; rewrite bind_eq.
  - destruct (debug_grows o "Translating from LambdaBoxLocal to LambdaANF (ANF)" w D) as (w' & -> & E).
    exists []. unfold LiftErrorCertiRocqTrans. rewrite timePhase_opt_eq. exact E.
  - destruct (debug_grows o "Translating from LambdaBoxLocal to LambdaANF (CPS)" w D) as (w' & -> & E).
    exists []. unfold LiftErrorCertiRocqTrans. rewrite timePhase_opt_eq. exact E.
Qed.

Lemma grows_log {A B} o name (f : A -> error B * string) x w :
  exists l, debug_log (snd (LiftErrorLogCertiRocqTrans name f x o w)) = (l ++ debug_log w)%list.
Proof.
  unfold LiftErrorLogCertiRocqTrans. rewrite timePhase_opt_eq. destruct (f x) as [r d]. exists [d]. reflexivity.
Qed.

Lemma grows_anf F o nv t : grows o (compile_LambdaANF F nv t) "Compiling LambdaANF".
Proof.
  intros D w. unfold compile_LambdaANF. rewrite bind_eq. destruct (debug_grows o "Compiling LambdaANF" w D) as (w' & -> & E).
  rewrite <- E. unfold bind, get_options, ask. apply grows_log.
Qed.

Lemma grows_target F o prs t : grows o (compile_target F prs t) "Translating from LambdaANF to C".
Proof.
  intros D w. unfold compile_target. rewrite bind_eq. destruct (debug_grows o "Translating from LambdaANF to C" w D) as (w' & -> & E).
  rewrite <- E. unfold bind, get_options, ask. destruct (negb (direct o)).
  - exists []. unfold LiftErrorCertiRocqTrans. rewrite timePhase_opt_eq. reflexivity.
  - apply grows_log.
Qed.

Theorem C56_log : forall F o p, debug o = true ->
  exists later, snd (compile F o p) = log_to_string (later ++ ["Translating from L1g to L1k"])%list /\
  forall t, fst (compile F o p) = Ret t ->
    exists l4 l5, later = (l5 ++ "Translating from LambdaANF to C" :: l4 ++ "Compiling LambdaANF" ::
       conv_msg o :: ["Translating from LambdaBoxMut to LambdaBoxLocal"])%list.
Proof.
  intros F o p D. destruct (compile F o p) as [r lg] eqn:R. cbn [fst snd]. revert R.
  unfold compile, run_pipeline, pipeline. rewrite bind_eq.
  unfold register_prims at 1. unfold bind at 1, get_options at 1, ask at 1, ret at 1.
  unfold next_id. destruct (pick_prim_ident 100 (prims o)) as [prs nv].
  rewrite bind_eq. unfold CertiRocq_pipeline. rewrite bind_eq.
  change (get_options o {| time_log := []; ci_log := []; debug_log := [] |}) with
    (@Ret Options o, {| time_log := []; ci_log := []; debug_log := [] |}). cbn beta iota.
  rewrite bind_eq.
  set (w0 := {| time_log := []; ci_log := []; debug_log := [] |}).
  assert (E1 : exists w1, compile_LambdaBoxMut F p o w0 = (Ret (compile_program F p), w1) /\
            debug_log w1 = ["Translating from L1g to L1k"]).
  { unfold compile_LambdaBoxMut. rewrite bind_eq. destruct (debug_grows o "Translating from L1g to L1k" w0 D) as (w' & -> & E).
    unfold LiftCertiRocqTrans, bind, get_options, ask, ret. rewrite timePhase_opt_eq. eauto. }
  destruct E1 as (w1 & -> & L1).
  rewrite bind_eq. unfold check_axioms.
  destruct (find_axioms prs [] (env_of (compile_program F p))) as [|k ks].
  2:{ unfold failwith. intros [= <- <-]. exists []. rewrite L1. split; [reflexivity|intros ? Q; discriminate Q]. }
  unfold ret. rewrite bind_eq.
  assert (E2 : exists w2, compile_LambdaBoxLocal F prs (compile_program F p) o w1 =
            (Ret (translate_program F prs (compile_program F p)), w2) /\
            debug_log w2 = ["Translating from LambdaBoxMut to LambdaBoxLocal"; "Translating from L1g to L1k"]).
  { unfold compile_LambdaBoxLocal. rewrite bind_eq. destruct (debug_grows o "Translating from LambdaBoxMut to LambdaBoxLocal" w1 D) as (w' & -> & E).
    unfold LiftCertiRocqTrans, bind, get_options, ask, ret. rewrite timePhase_opt_eq. rewrite L1 in E. eauto. }
  destruct E2 as (w2 & -> & L2). rewrite bind_eq.
  set (q := translate_program F prs (compile_program F p)).
  assert (E3 : exists r w3, (if direct o then compile_LambdaANF_ANF F nv prs q else compile_LambdaANF_CPS F nv prs q) o w2 = (r, w3) /\
     debug_log w3 = [conv_msg o; "Translating from LambdaBoxMut to LambdaBoxLocal"; "Translating from L1g to L1k"]).
  { unfold conv_msg. destruct (direct o); unfold compile_LambdaANF_ANF, compile_LambdaANF_CPS; rewrite bind_eq.
    - destruct (debug_grows o "Translating from LambdaBoxLocal to LambdaANF (ANF)" w2 D) as (w' & -> & E).
      unfold LiftErrorCertiRocqTrans. rewrite timePhase_opt_eq. rewrite L2 in E. eauto.
    - destruct (debug_grows o "Translating from LambdaBoxLocal to LambdaANF (CPS)" w2 D) as (w' & -> & E).
      unfold LiftErrorCertiRocqTrans. rewrite timePhase_opt_eq. rewrite L2 in E. eauto. }
  destruct E3 as (r3 & w3 & E3 & L3). destruct (direct o) eqn:DO; rewrite E3; clear E3.
  all: destruct r3 as [m3|t3]; [intros [= <- <-]; exists [conv_msg o; "Translating from LambdaBoxMut to LambdaBoxLocal"];
    rewrite L3; split; [reflexivity|intros ? Q; discriminate Q]|].
  all: destruct (grows_anf F o nv t3 D w3) as (l4 & L4); destruct (compile_LambdaANF F nv t3 o w3) as [[m4|t4] w4]; cbn [snd] in L4; rewrite L3 in L4.
  1,3: intros [= <- <-]; rewrite L4; exists (l4 ++ ["Compiling LambdaANF"; conv_msg o; "Translating from LambdaBoxMut to LambdaBoxLocal"])%list;
    split; [rewrite <- app_assoc; reflexivity|intros ? Q; discriminate Q].
  all: destruct (grows_target F o prs t4 D w4) as (l5 & L5); destruct (compile_target F prs t4 o w4) as [r5 w5]; cbn [snd] in L5; rewrite L4 in L5.
  all: intros [= <- <-]; rewrite L5; exists (l5 ++ "Translating from LambdaANF to C" :: l4 ++ "Compiling LambdaANF" :: conv_msg o :: ["Translating from LambdaBoxMut to LambdaBoxLocal"])%list;
    split; [rewrite <- !app_assoc; cbn [app]; rewrite <- !app_assoc; reflexivity|intros _ _; eauto].
Qed.
Print Assumptions C56_log.

(** ** C61: unrealised axioms are rejected *)
Theorem C61_axioms : forall F o p,
  ((exists k, axiom_of (compile_program F p) k /\ ~ realised o k) ->
     exists ks, fst (compile F o p) =
       Err ("Axioms found, use Extract Constant to realize them in C: " ++ newline ++ print_list ", " ks) /\
       ks <> [] /\
       (forall k, In k ks <-> axiom_of (compile_program F p) k /\ ~ realised o k)) /\
  (forall t, fst (compile F o p) = Ret t ->
     forall k, axiom_of (compile_program F p) k -> realised o k).
Proof.
  intros F o p. split.
  - intros (k & A). rewrite compile_eq. apply find_axioms_in in A.
    destruct (find_axioms (numbered o) [] (env_of (compile_program F p))) as [|k0 ks] eqn:EA; [destruct A|].
    exists (k0 :: ks). split; [reflexivity|]. split; [discriminate|].
    intro k'. rewrite <- EA. apply find_axioms_in.
  - intros t E. apply C56_compile in E. inversion E; subst; assumption.
Qed.
Print Assumptions C61_axioms.

Definition ex_front (P : anf_passes) : front :=
  {| src_program := list string; mut_term := unit; local_term := unit; target := exp;
     compile_program := fun ks => {| main := tt; env_of := (map (fun k => (k, ecTyp 0 [])) ks ++ [("M.t", ecTrm tt)])%list |};
     translate_program := fun _ _ => tt;
     convert_top_anf := fun _ nv _ => Ret ([], 99, 99, [], [], Ehalt nv)%positive;
     convert_top := fun _ _ _ => Err "no";
     passes := P;
     codegen_cps := fun _ _ _ => Err "cps";
     codegen := fun _ _ t => (Ret (snd t), "") |}.

Example C56_C61_example :
  fst (compile (ex_front ex_passes_ok) ex_opts ["M.add"]) =
    Ret (fold_left (fun e n => Eprim_val n (PVint 0) e) [1; 3; 4; 5; 6; 1; 7; 1; 8; 1]%positive (Ehalt 101%positive)) /\
  fst (compile (ex_front ex_passes) ex_opts ["M.add"]) = Err "Failed compiling LambdaANF program: no tag" /\
  (exists k, axiom_of (compile_program (ex_front ex_passes) ["M.add"; "M.mul"]) k /\ ~ realised ex_opts k) /\
  fst (compile (ex_front ex_passes) ex_opts ["M.sub"; "M.add"; "M.mul"]) =
    Err ("Axioms found, use Extract Constant to realize them in C: " ++ newline ++ "M.mul, M.sub").
Proof.
  split; [vm_compute; reflexivity|]. split; [vm_compute; reflexivity|]. split; [|vm_compute; reflexivity].
  exists "M.mul". split; [cbn; auto|]. intros [H|[]]. discriminate.
Qed.

(** ** C62: [register_record_ctor_tag] registers another tag *)
Theorem C62_register_refuted : exists (c0 : comp_data) (c : ctor_tag) (i : ind_tag) (n : N),
  let '(r, (c1, _)) := register_record_ctor_tag (S := unit) c i n tt (c0, tt) in
  r = Ret tt /\
  (* the tag asked for is not in the table *)
  get c (cenv c1) = None /\
  (* a tag that will be handed out later is *)
  get (nect_ctor_tag c1) (cenv c1) <> None.
Proof.
  exists (initial_data [] 99%positive 99%positive [] [] (Ehalt 1%positive)), 15%positive, 16%positive, 2%N.
  vm_compute. split; [reflexivity|]. split; [reflexivity|discriminate].
Qed.
Print Assumptions C62_register_refuted.
