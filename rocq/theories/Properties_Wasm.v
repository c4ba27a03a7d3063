(** * C43, C45, C46: static properties of generated Wasm modules *)
From Coq Require Import ZArith NArith List Lia Bool Ascii String.
Import ListNotations.
From Verif Require Import ANF_Syntax ANF_FreeProofs CG_Proofs Names_Model Properties_Names WA_Wasm WA_Model WA_Spec WA_Proofs.
Set Implicit Arguments.
Local Open Scope Z_scope.
Ltac Zify.zify_post_hook ::= idtac.

(** ** Specification *)

(** the definitions of a bundle *)
Inductive fdef_in (f : var) (t : fun_tag) (xs : list var) (b : exp) : fundefs -> Prop :=
| fdef_here B : fdef_in f t xs b (Fcons f t xs b B)
| fdef_later g u ys c B : fdef_in f t xs b B -> fdef_in f t xs b (Fcons g u ys c B).

(** subexpressions, function bodies included *)
Inductive subexp : exp -> exp -> Prop :=
| sub_refl e : subexp e e
| sub_constr e x t ys e' : subexp e e' -> subexp e (Econstr x t ys e')
| sub_case e x l t e' : In (t, e') l -> subexp e e' -> subexp e (Ecase x l)
| sub_proj e x t n y e' : subexp e e' -> subexp e (Eproj x t n y e')
| sub_letapp e x f t ys e' : subexp e e' -> subexp e (Eletapp x f t ys e')
| sub_fun e B e' : subexp e e' -> subexp e (Efun B e')
| sub_body e B e' f t xs b : fdef_in f t xs b B -> subexp e b -> subexp e (Efun B e')
| sub_prim_val e x p e' : subexp e e' -> subexp e (Eprim_val x p e')
| sub_prim e x p ys e' : subexp e e' -> subexp e (Eprim x p ys e').

(** the constructor is known and its number fits the encoding as an odd i32 *)
Definition ord_ok (cenv : ctor_env) (t : ctor_tag) : Prop :=
  exists i, get t cenv = Some i /\ Z.of_N (ctor_ordinal i) < 2 ^ 31.

(** the number of definitions of a bundle *)
Fixpoint ndefs (B : fundefs) : nat := match B with Fnil => 0 | Fcons _ _ _ _ B' => S (ndefs B') end.

(** the bounds, at the root of an expression *)
Definition within (cenv : ctor_env) (e : exp) : Prop :=
  match e with
  | Econstr _ t ys _ => ord_ok cenv t /\ Z.of_nat (List.length ys) <= 1024
  | Ecase _ l => forall t e', In (t, e') l -> ord_ok cenv t
  | Eletapp _ _ _ ys _ => Z.of_nat (List.length ys) <= 100
  | Eapp _ _ ys => Z.of_nat (List.length ys) <= 100
  | Efun B _ => Z.of_nat (ndefs B) <= 1000000 /\ forall f t xs b, fdef_in f t xs b B -> Z.of_nat (List.length xs) <= 100
  | _ => True
  end.

(** ** C43 *)

Lemma ndefs_num B : numOf_fundefs B = ndefs B.
Proof. induction B; cbn [numOf_fundefs ndefs]; congruence. Qed.

Lemma ord_ok_check cenv t : ord_ok cenv t <-> match get_ctor_ord cenv t with Some o => (Z.of_N o <? 2147483648) = true | None => False end.
Proof.
  unfold ord_ok, get_ctor_ord. change (2 ^ 31) with 2147483648. destruct (get t cenv) as [i|]; [|split; [intros (i & E & _); discriminate|tauto]].
  rewrite Z.ltb_lt. split; [intros (j & E & H); apply Some_inj in E; subst j; exact H|eauto].
Qed.


(** a condition on all subexpressions, one level at a time *)
Definition all_within (cenv : ctor_env) (e : exp) : Prop := forall e', subexp e' e -> within cenv e'.

Lemma all_simple cenv e e1 : (forall e', subexp e' e <-> e' = e \/ subexp e' e1) ->
  (all_within cenv e <-> within cenv e /\ all_within cenv e1).
Proof.
  intro H. unfold all_within. split.
  - intro A. split; [apply A, H; left; reflexivity|]. intros e' S. apply A, H. right. exact S.
  - intros [W A] e' S. apply H in S. destruct S as [->|S]; auto.
Qed.

Ltac sub1 := apply all_simple; intro e'; split;
  [intro S; inversion S; subst; auto | intros [->|S]; [apply sub_refl|econstructor; exact S]].

Lemma all_leaf cenv e : (forall e', subexp e' e -> e' = e) -> (all_within cenv e <-> within cenv e).
Proof. intro H. split; [intro A; apply A, sub_refl|]. intros W e' S. rewrite (H e' S). exact W. Qed.

Lemma check_all cenv :
  (forall e, check_restrictions cenv e = true <-> all_within cenv e) /\
  (forall B, check_restrictions_fundefs cenv B = true <->
     forall f t xs b, fdef_in f t xs b B -> Z.of_nat (List.length xs) <= 100 /\ all_within cenv b).
Proof.
  apply (@exp_fundefs_ind (fun e => check_restrictions cenv e = true <-> all_within cenv e)
    (fun B => check_restrictions_fundefs cenv B = true <->
       forall f t xs b, fdef_in f t xs b B -> Z.of_nat (List.length xs) <= 100 /\ all_within cenv b)).
  - intros x t ys e IH. assert (E : all_within cenv (Econstr x t ys e) <-> within cenv (Econstr x t ys e) /\ all_within cenv e) by sub1.
    rewrite E, <- IH. cbn [check_restrictions within]. rewrite ord_ok_check. destruct (get_ctor_ord cenv t); [|split; [discriminate|tauto]].
    rewrite !andb_true_iff. unfold max_constr_args. rewrite Z.leb_le. tauto.
  - intros x l IH. split.
    + intro C. assert (G : forall t e, In (t, e) l -> ord_ok cenv t /\ all_within cenv e).
      { clear - C IH. cbn [check_restrictions] in C. induction IH as [|[c b] l H IH' IH]; intros t e I; [destruct I|]. cbn [fst snd] in *.
        destruct (get_ctor_ord cenv c) eqn:Eo; [|discriminate]. rewrite !andb_true_iff in C. destruct C as [[C1 C2] C3].
        destruct I as [I|I]; [|exact (IH C3 t e I)]. apply pair_equal_spec in I. destruct I as [<- <-].
        split; [apply ord_ok_check; rewrite Eo; exact C1|apply H; exact C2]. }
      intros e' S. inversion S; subst; [cbn [within]; intros t e' I; exact (proj1 (G t e' I))|].
      match goal with H : In _ l |- _ => apply (proj2 (G _ _ H)); assumption end.
    + intro A. assert (G : forall t e, In (t, e) l -> ord_ok cenv t /\ all_within cenv e).
      { intros t e I. split; [exact (A _ (sub_refl _) t e I)|]. intros e' S. apply A. econstructor; eassumption. }
      clear A. cbn [check_restrictions]. induction IH as [|[c b] l H IH' IH]; [reflexivity|]. cbn [fst snd] in *.
      destruct (G c b (or_introl eq_refl)) as [G1 G2]. apply ord_ok_check in G1. destruct (get_ctor_ord cenv c) as [o|]; [|destruct G1].
      rewrite !andb_true_iff. split; [split; [exact G1|apply H; exact G2]|]. apply IH. intros t e I. apply (G t e). right. exact I.
  - intros x t n y e IH. assert (E : all_within cenv (Eproj x t n y e) <-> within cenv (Eproj x t n y e) /\ all_within cenv e) by sub1.
    rewrite E, <- IH. cbn [check_restrictions within]. tauto.
  - intros x f t ys e IH. assert (E : all_within cenv (Eletapp x f t ys e) <-> within cenv (Eletapp x f t ys e) /\ all_within cenv e) by sub1.
    rewrite E, <- IH. cbn [check_restrictions within]. rewrite andb_true_iff. unfold max_function_args. rewrite Z.leb_le. tauto.
  - intros B e IHB IH. cbn [check_restrictions]. rewrite !andb_true_iff. unfold max_num_functions. rewrite Z.leb_le, IHB, IH, ndefs_num. split.
    + intros [[N G] A] e' S. inversion S; subst.
      * cbn [within]. split; [exact N|]. intros f t xs b I. exact (proj1 (G f t xs b I)).
      * auto.
      * match goal with H : fdef_in _ _ _ _ B |- _ => apply (proj2 (G _ _ _ _ H)); assumption end.
    + intro A. pose proof (A _ (sub_refl _)) as [N L]. split; [split; [exact N|]|].
      * intros f t xs b I. split; [exact (L f t xs b I)|]. intros e' S. apply A. eapply sub_body; eassumption.
      * intros e' S. apply A. constructor. exact S.
  - intros f t ys. rewrite all_leaf by (intros e' S; inversion S; reflexivity). cbn [check_restrictions within]. unfold max_function_args. apply Z.leb_le.
  - intros x p e IH. assert (E : all_within cenv (Eprim_val x p e) <-> within cenv (Eprim_val x p e) /\ all_within cenv e) by sub1.
    rewrite E, <- IH. cbn [check_restrictions within]. tauto.
  - intros x p ys e IH. assert (E : all_within cenv (Eprim x p ys e) <-> within cenv (Eprim x p ys e) /\ all_within cenv e) by sub1.
    rewrite E, <- IH. cbn [check_restrictions within]. tauto.
  - intros x. rewrite all_leaf by (intros e' S; inversion S; reflexivity). cbn [check_restrictions within]. tauto.
  - intros f t xs e B IH IHB. cbn [check_restrictions_fundefs]. rewrite !andb_true_iff. unfold max_function_args. rewrite Z.leb_le, IHB, IH. split.
    + intros [[N G] A] f' t' xs' b' I. inversion I; subst; [split; [exact N|exact A]|eauto].
    + intro G. destruct (G f t xs e (fdef_here _ _ _ _ _)) as [N A]. split; [split; [exact N|]|exact A].
      intros f' t' xs' b' I. apply (G f' t' xs' b'). constructor. exact I.
  - cbn [check_restrictions_fundefs]. split; [intros _ f t xs b I; inversion I|reflexivity].
Qed.

(** The check accepts exactly the programs all of whose subexpressions, nested
    function bodies and branches included, are within the bounds. *)
Theorem C43_check_exact : forall cenv e,
  check_restrictions cenv e = true <-> forall e', subexp e' e -> within cenv e'.
Proof. intros cenv e. apply (proj1 (check_all cenv)). Qed.

Definition ex_wcenv : ctor_env :=
  [(1%positive, {| ctor_ind_tag := 1%positive; ctor_arity := 0; ctor_ordinal := 0 |});
   (2%positive, {| ctor_ind_tag := 1%positive; ctor_arity := 2; ctor_ordinal := 1 |})].
Example C43_check_exact_ex : (
  check_restrictions ex_wcenv (Efun (Fcons 10 1 [11; 12] (Ecase 11 [(1, Ehalt 12); (2, Eapp 10 1 [11; 12])]) Fnil) (Econstr 20 1 [] (Econstr 21 2 [20; 20] (Ehalt 21)))) = true /\
  check_restrictions ex_wcenv (Efun (Fcons 10 1 [11; 12] (Ecase 11 [(1, Ehalt 12); (2, Eapp 10 1 (repeat 11 101))]) Fnil) (Ehalt 20)) = false /\
  check_restrictions ex_wcenv (Efun (Fcons 10 1 [11; 12] (Ecase 11 [(1, Ehalt 12); (3, Eapp 10 1 [11; 12])]) Fnil) (Ehalt 20)) = false)%positive.
Proof. vm_compute. repeat split. Qed.
Print Assumptions C43_check_exact.

(** In an accepted program no call has more arguments than there are function types,
    no object is larger than a page, and every constructor number fits an i32. *)
Theorem C43_check_sound : forall cenv penv e M, LambdaANF_to_Wasm cenv penv e = Some M ->
  forall e', subexp e' e ->
  match e' with
  | Eletapp _ _ _ ys _ | Eapp _ _ ys => nth_error (wm_types M) (List.length ys) = Some (List.length ys)
  | Econstr _ t ys _ => 4 * (1 + Z.of_nat (List.length ys)) <= 65536 /\
      exists i, get t cenv = Some i /\ 0 < 2 * Z.of_N (ctor_ordinal i) + 1 < 2 ^ 32
  | Efun B _ => 1 + Z.of_nat (ndefs B) < 2 ^ 32 /\
      forall f t xs b, fdef_in f t xs b B -> nth_error (wm_types M) (List.length xs) = Some (List.length xs)
  | _ => True
  end.
Proof.
  intros cenv penv e M C e' S.
  assert (T : wm_types M = list_function_types 100 /\ check_restrictions cenv e = true).
  { unfold LambdaANF_to_Wasm in C. destruct (check_restrictions cenv e); [|discriminate]. split; [|reflexivity].
    destruct e; try discriminate. destruct (translate_functions _ _ _ _); [|discriminate]. destruct (translate_body _ _ _ _ _); [|discriminate].
    apply Some_inj in C. subst M. reflexivity. }
  destruct T as [T K]. pose proof (proj1 (C43_check_exact cenv e) K e' S) as W.
  assert (N : forall n, Z.of_nat n <= 100 -> nth_error (list_function_types 100) n = Some n).
  { assert (G : forall k n, (n <= k)%nat -> nth_error (list_function_types k) n = Some n).
    { induction k as [|k IH]; intros [|n] L; cbn [list_function_types nth_error]; try reflexivity; [lia|].
      apply map_nth_error, IH. lia. }
    intros n L. apply G. lia. }
  rewrite T. destruct e'; cbn [within] in W; auto.
  - destruct W as [(i & G & O) L]. split; [lia|]. exists i. split; [exact G|].
    change (2 ^ 31) with 2147483648 in O. change (2 ^ 32) with 4294967296. lia.
  - destruct W as [L W]. split; [change (2 ^ 32) with 4294967296; lia|]. intros f0 t0 xs0 b0 I. apply N. exact (W f0 t0 xs0 b0 I).
Qed.
Definition ex_wprog : exp := (
  Efun (Fcons 10 1 [11; 12] (Ecase 11 [(1, Ehalt 12); (2, Eproj 13 2 0 11 (Eletapp 14 10 1 [13; 12] (Eapp 10 1 [14; 13])))])
       (Fcons 15 1 [16] (Ehalt 16) Fnil))
       (Econstr 20 1 [] (Econstr 21 2 [20; 20] (Eapp 10 1 [21; 20]))))%positive.
Example C43_check_sound_ex :
  (match LambdaANF_to_Wasm ex_wcenv [] ex_wprog with Some M => nth_error (wm_types M) 2 | None => None end) = Some 2%nat /\
  subexp (Eapp 10 1 [14; 13])%positive ex_wprog.
Proof.
  split; [vm_compute; reflexivity|]. eapply sub_body; [constructor|]. eapply sub_case; [right; left; reflexivity|].
  apply sub_proj, sub_letapp, sub_refl.
Qed.
Print Assumptions C43_check_sound.

(** ** C45 *)

(** every local index used is below [n], every call has a type below [m] *)
Inductive in_range (n : N) (m : nat) : instr -> Prop :=
| ir_lget i : (i < n)%N -> in_range n m (Ilget i)
| ir_lset i : (i < n)%N -> in_range n m (Ilset i)
| ir_call t : (t < m)%nat -> in_range n m (Icall_ind t)
| ir_rcall t : (t < m)%nat -> in_range n m (Iretcall_ind t)
| ir_if bt a b : Forall (in_range n m) a -> Forall (in_range n m) b -> in_range n m (Iif bt a b)
| ir_loop a : Forall (in_range n m) a -> in_range n m (Iloop a)
| ir_other i : match i with Ilget _ | Ilset _ | Icall_ind _ | Iretcall_ind _ | Iif _ _ _ | Iloop _ => False | _ => True end -> in_range n m i.

Ltac rng := repeat first
  [ assumption
  | match goal with
    | |- Forall _ (_ ++ _) => apply Forall_app; split
    | |- Forall _ (_ :: _) => constructor
    | |- Forall _ [] => constructor
    | |- Forall _ (if ?b then _ else _) => destruct b
    end
  | apply ir_lget; assumption | apply ir_lset; assumption | apply ir_if | apply ir_loop | (apply ir_other; exact I) ].

Section Range.
  Variable cenv : ctor_env.
  Variable fenv : fname_env.
  Variable penv : tmap (option primop).
  Variable lenv : localvar_env.
  Variable n : N.
  Hypothesis L : forall x i, get x lenv = Some i -> (i < n)%N.
  Notation ok := (in_range n 101).

  Lemma grow_range mem r : Forall ok (fst (call_grow_mem_if_necessary mem r)).
  Proof. unfold call_grow_mem_if_necessary. destruct (N.leb r mem); cbn [fst]; [constructor|]. unfold grow_memory_if_necessary, c32. rng. Qed.

  Lemma read_range y r : instr_local_var_read lenv fenv y = Some r -> ok r.
  Proof.
    unfold instr_local_var_read, c32. destruct (get y fenv); [intro E; apply Some_inj in E; subst r; rng|].
    destruct (get y lenv) as [i|] eqn:G; [|discriminate]. intro E. apply Some_inj in E. subst r. apply L in G. rng.
  Qed.

  Lemma pass_range : forall ys ps, pass_function_args lenv fenv ys = Some ps -> Forall ok ps.
  Proof.
    induction ys as [|y ys IH]; intros ps E; cbn [pass_function_args] in E; [apply Some_inj in E; subst ps; constructor|].
    destruct (instr_local_var_read lenv fenv y) as [r|] eqn:R; [|discriminate]. destruct (pass_function_args lenv fenv ys) as [q|]; [|discriminate].
    apply Some_inj in E. subst ps. constructor; [eapply read_range; exact R|apply IH; reflexivity].
  Qed.

  Lemma call_range f ys tc is : Z.of_nat (List.length ys) <= 100 -> translate_call lenv fenv f ys tc = Some is -> Forall ok is.
  Proof.
    unfold translate_call. intros Ly E. destruct (pass_function_args lenv fenv ys) as [q|] eqn:P; [|discriminate].
    destruct (instr_local_var_read lenv fenv f) as [r|] eqn:R; [|discriminate]. apply Some_inj in E. subst is.
    apply Forall_app. split; [eapply pass_range; exact P|]. constructor; [eapply read_range; exact R|]. constructor; [|constructor].
    destruct tc; constructor; lia.
  Qed.

  Lemma store_range : forall ys c is, store_constructor_args lenv fenv ys c = Some is -> Forall ok is.
  Proof.
    induction ys as [|y ys IH]; intros c is E; cbn [store_constructor_args] in E; [apply Some_inj in E; subst is; constructor|].
    destruct (instr_local_var_read lenv fenv y) as [r|] eqn:R; [|discriminate]. destruct (store_constructor_args lenv fenv ys (1 + c)) as [q|] eqn:Q; [|discriminate].
    apply Some_inj in E. subst is. apply read_range in R. apply IH in Q. unfold c32. rng.
  Qed.

  Lemma prim_range op ys is : translate_primitive_operation lenv op ys = Some is -> Forall ok is.
  Proof.
    unfold translate_primitive_operation. destruct op as [op|]; [|discriminate].
    destruct ys as [|x [|y [|z [|]]]]; try discriminate;
    repeat match goal with |- context [match get ?v lenv with _ => _ end] => let G := fresh in destruct (get v lenv) eqn:G; [apply L in G|discriminate] end;
    destruct op; cbn [translate_primitive_unary_op translate_primitive_binary_op translate_primitive_ternary_op]; try discriminate;
    intro E; apply Some_inj in E; subst is;
    unfold apply_binop_and_store_i64, div_instrs, mod_instrs, shift_instrs, make_boolean_valued_comparison, compare_instrs,
      apply_add_carry_operation, apply_sub_carry_operation, mulc_instrs, diveucl_instrs, head0_instrs, tail0_instrs,
      diveucl_21_instrs, diveucl_21_loop, diveucl_21_loop_body, addmuldiv_instrs, make_product, make_carry, increment_glob_mem_ptr,
      bitmask_instrs, load_local_i64, low32, high32, c32, c64; rng.
  Qed.

  Lemma chain_range b xv : (xv < n)%N -> forall es, (forall o is, In (o, is) es -> Forall ok is) -> Forall ok (create_case_nested_if_chain b xv es).
  Proof.
    intros X. induction es as [|[o is] es IH]; intro H; cbn [create_case_nested_if_chain]; [rng|].
    pose proof (H o is (or_introl eq_refl)). assert (Forall ok (create_case_nested_if_chain b xv es)) by (apply IH; intros o' is' I; apply (H o' is'); right; exact I).
    unfold c32. constructor; [rng|]. apply Forall_app. split; [destruct b; rng|rng].
  Qed.

  Lemma body_range : forall e mem is, check_restrictions cenv e = true -> translate_body cenv fenv penv lenv e mem = Some is -> Forall ok is.
  Proof.
    apply (@exp_ind2 (fun e => forall mem is, check_restrictions cenv e = true -> translate_body cenv fenv penv lenv e mem = Some is -> Forall ok is) (fun _ => True));
      try (intros; exact I).
    - intros x t ys e IH mem is CR T. cbn [check_restrictions] in CR. destruct (get_ctor_ord cenv t) as [o|] eqn:Eo; [|discriminate]. rewrite !andb_true_iff in CR. destruct CR as [_ CR].
      cbn [translate_body] in T. destruct (get x lenv) as [xv|] eqn:G; [apply L in G|discriminate]. destruct ys as [|y ys].
      + rewrite Eo in T. destruct (translate_body cenv fenv penv lenv e mem) as [q|] eqn:Q; [|discriminate]. apply Some_inj in T. subst is.
        apply IH in Q; [|exact CR]. unfold c32. rng.
      + unfold store_constructor in T. rewrite Eo in T. destruct (store_constructor_args lenv fenv (y :: ys) 0) as [sc|] eqn:SC; [|discriminate].
        destruct (get_ctor_size cenv t) as [sz|]; [|discriminate].
        destruct (translate_body cenv fenv penv lenv e (snd (call_grow_mem_if_necessary mem sz))) as [q|] eqn:Q; [|discriminate].
        apply Some_inj in T. subst is. apply IH in Q; [|exact CR]. apply store_range in SC. pose proof (grow_range mem sz). unfold c32. rng.
    - intros x l IH mem is CR T. rewrite translate_case in T. destruct (get x lenv) as [xv|] eqn:G; [apply L in G|discriminate].
      destruct (branches cenv penv fenv lenv mem l) as [p|] eqn:Eb; [|discriminate]. apply Some_inj in T. subst is.
      assert (A : (forall o is, In (o, is) (fst p) -> Forall ok is) /\ (forall o is, In (o, is) (snd p) -> Forall ok is)).
      { revert p Eb. induction IH as [|[c b] l H IH' IH]; intros p Eb; [cbn in Eb; apply Some_inj in Eb; subst p; cbn; tauto|].
        cbn [branches fst snd] in Eb, H. fold (branches cenv penv fenv lenv mem) in Eb.
        destruct (cr_case _ _ _ _ CR) as (_ & C1 & C2).
        destruct (translate_body cenv fenv penv lenv b mem) as [is0|] eqn:Et; [|discriminate].
        destruct (branches cenv penv fenv lenv mem l) as [q|] eqn:Eq; [|discriminate].
        destruct (get_ctor_ord cenv c) as [o|]; [|discriminate]. destruct (get_ctor_arity cenv c) as [ar|]; [|discriminate].
        destruct (IH C2 q eq_refl) as [A1 A2]. pose proof (H mem is0 C1 Et) as A3.
        destruct (Nat.eqb ar 0); apply Some_inj in Eb; subst p; cbn [fst snd]; split; try assumption;
          (intros o' is' [I|I]; [apply pair_equal_spec in I; destruct I as [_ <-]; exact A3|eauto]). }
      destruct A as [A1 A2]. pose proof (@chain_range true xv G _ A1). pose proof (@chain_range false xv G _ A2). unfold c32. rng.
    - intros x t k y e IH mem is CR T. cbn [check_restrictions] in CR. cbn [translate_body] in T.
      destruct (translate_body cenv fenv penv lenv e mem) as [q|] eqn:Q; [|discriminate].
      destruct (get y lenv) as [yv|] eqn:Gy; [apply L in Gy|discriminate]. destruct (get x lenv) as [xv|] eqn:G; [apply L in G|discriminate].
      apply Some_inj in T. subst is. apply IH in Q; [|exact CR]. unfold c32. rng.
    - intros x f t ys e IH mem is CR T. cbn [check_restrictions] in CR. apply andb_true_iff in CR. destruct CR as [C1 CR]. apply Z.leb_le in C1. unfold max_function_args in C1. cbn [translate_body] in T.
      destruct (get x lenv) as [xv|] eqn:G; [apply L in G|discriminate]. destruct (translate_body cenv fenv penv lenv e 0) as [q|] eqn:Q; [|discriminate].
      destruct (translate_call lenv fenv f ys false) as [ci|] eqn:TC; [|discriminate]. apply Some_inj in T. subst is.
      apply IH in Q; [|exact CR]. apply call_range in TC; [|exact C1]. rng.
    - intros B e _ _ mem is CR T. discriminate.
    - intros f t ys mem is CR T. cbn [check_restrictions] in CR. apply Z.leb_le in CR. eapply call_range; eassumption.
    - intros x p e IH mem is CR T. cbn [check_restrictions] in CR. cbn [translate_body] in T.
      destruct (get x lenv) as [xv|] eqn:G; [apply L in G|discriminate]. destruct (translate_primitive_value p) as [z|]; [|discriminate].
      destruct (translate_body cenv fenv penv lenv e (snd (call_grow_mem_if_necessary mem 32))) as [q|] eqn:Q; [|discriminate].
      apply Some_inj in T. subst is. apply IH in Q; [|exact CR]. pose proof (grow_range mem 32). unfold c32. rng.
    - intros x p ys e IH mem is CR T. cbn [check_restrictions] in CR. cbn [translate_body] in T. destruct (get p penv) as [op|]; [|discriminate].
      destruct (get x lenv) as [xv|] eqn:G; [apply L in G|discriminate]. destruct (translate_primitive_operation lenv op ys) as [pi|] eqn:P; [|discriminate].
      destruct (translate_body cenv fenv penv lenv e (snd (call_grow_mem_if_necessary mem 52))) as [q|] eqn:Q; [|discriminate].
      apply Some_inj in T. subst is. apply IH in Q; [|exact CR]. apply prim_range in P. pose proof (grow_range mem 52). rng.
    - intros x mem is CR T. cbn [translate_body] in T. destruct (get x lenv) as [xv|] eqn:G; [apply L in G|discriminate]. apply Some_inj in T. subst is. rng.
  Qed.
End Range.

(** Distinct variables of a function have distinct indices, below the number of
    variables. *)
Theorem C45_locals_distinct : forall vars x y,
  In x vars -> In y vars ->
  exists i j, get x (create_local_variable_mapping vars) = Some i /\ get y (create_local_variable_mapping vars) = Some j /\
    (i < N.of_nat (List.length vars))%N /\ (i = j <-> x = y).
Proof.
  intros vars x y Hx Hy. destruct (@cvm_In vars 0%N x Hx) as [i Gi]. destruct (@cvm_In vars 0%N y Hy) as [j Gj].
  exists i, j. split; [exact Gi|]. split; [exact Gj|]. split; [apply cvm_range in Gi; unfold var in *; lia|].
  split; [intros <-; eapply cvm_inj; eassumption|intros ->; congruence].
Qed.
Example C45_locals_distinct_ex : (
  map (fun x => get x (create_local_variable_mapping [7; 5; 9; 5])) [7; 5; 9; 4] = [Some 0%N; Some 1%N; Some 2%N; None])%positive.
Proof. reflexivity. Qed.
Print Assumptions C45_locals_distinct.

(** Every function of a generated module uses local indices below its number of
    parameters and locals, and calls through types that exist. *)
Theorem C45_indices_in_range : forall cenv penv e M k fn,
  LambdaANF_to_Wasm cenv penv e = Some M -> In (k, fn) (wm_funs M) ->
  Forall (in_range (N.of_nat (wf_params fn + wf_locals fn)) (List.length (wm_types M))) (wf_body fn).
Proof.
  intros cenv penv e M k fn C I. unfold LambdaANF_to_Wasm in C. destruct (check_restrictions cenv e) eqn:CR; [|discriminate].
  destruct e as [| | | |B e0| | | |]; try discriminate. cbn [check_restrictions] in CR. rewrite !andb_true_iff in CR. destruct CR as [[_ C2] C3].
  destruct (translate_functions cenv (create_fname_mapping B) penv B) as [fns|] eqn:T1; [|discriminate].
  destruct (translate_body cenv (create_fname_mapping B) penv (create_local_variable_mapping (collect_local_variables e0)) e0 0) as [is|] eqn:T2; [|discriminate].
  apply Some_inj in C. subst M. cbn [wm_funs wm_types] in *. change (List.length (list_function_types (Z.to_nat max_function_args))) with 101%nat.
  assert (Lm : forall vars x i, get x (create_local_variable_mapping vars) = Some i -> (i < N.of_nat (List.length vars))%N)
    by (intros vars x i G; apply cvm_range in G; unfold var in *; lia).
  destruct I as [I|I].
  - apply pair_equal_spec in I. destruct I as [_ <-]. cbn [wf_params wf_locals wf_body]. eapply body_range; [apply Lm|exact C3|exact T2].
  - assert (G : forall fenv B fns, check_restrictions_fundefs cenv B = true -> translate_functions cenv fenv penv B = Some fns -> In (k, fn) fns ->
      Forall (in_range (N.of_nat (wf_params fn + wf_locals fn)) 101) (wf_body fn)).
    { clear - Lm. intro fenv. induction B as [g t ys c B IH|]; intros fns C2 T I; cbn [translate_functions] in T; [|apply Some_inj in T; subst fns; destruct I].
      cbn [check_restrictions_fundefs] in C2. rewrite !andb_true_iff in C2. destruct C2 as [[_ C2] Cc].
      unfold translate_function in T. destruct (get g fenv); [|discriminate].
      destruct (translate_body cenv fenv penv (create_local_variable_mapping (ys ++ collect_local_variables c)) c 0) as [js|] eqn:Tb; [|discriminate].
      destruct (translate_functions cenv fenv penv B) as [fns'|] eqn:Tf; [|discriminate]. apply Some_inj in T. subst fns.
      destruct I as [I|I]; [|eapply IH; eauto].
      apply pair_equal_spec in I. destruct I as [_ <-]. cbn [wf_params wf_locals wf_body].
      rewrite <- app_length. eapply body_range; [apply Lm|exact Cc|exact Tb]. }
    eapply G; eassumption.
Qed.
Example C45_indices_in_range_ex :
  option_map (fun M => (map fst (wm_funs M), map (fun p => (wf_params (snd p), wf_locals (snd p))) (wm_funs M), map snd (wm_elems M)))
    (LambdaANF_to_Wasm ex_wcenv [] ex_wprog) = Some ([0; 1; 2]%N, [(0, 2); (2, 2); (1, 0)]%nat, [0; 1; 2]%N).
Proof. vm_compute. reflexivity. Qed.
Print Assumptions C45_indices_in_range.

(** Function [f] has the index under which the module holds its code; the table
    entry at this position is the function itself; its type takes as many
    parameters as [f] has; different functions have different indices. *)
Theorem C45_functions_distinct : forall cenv penv B e M f t xs b,
  LambdaANF_to_Wasm cenv penv (Efun B e) = Some M -> find_def f B = Some (t, xs, b) ->
  exists k fn, get f (create_fname_mapping B) = Some k /\
    nth_error (wm_funs M) (N.to_nat k) = Some (k, fn) /\ (0 < k)%N /\
    nth_error (wm_elems M) (N.to_nat k) = Some (Z.of_N k, k) /\
    wf_params fn = List.length xs /\ nth_error (wm_types M) (List.length xs) = Some (List.length xs) /\
    forall g, get g (create_fname_mapping B) = Some k -> g = f.
Proof.
  intros cenv penv B e M f t xs b C F.
  assert (I : In f (collect_function_vars B) /\ fdef_in f t xs b B).
  { clear C. induction B as [g u ys c B IH|]; cbn [find_def] in F; [|discriminate]. cbn [collect_function_vars].
    destruct (Pos.eq_dec f g) as [->|N]; [|destruct (IH F) as [I1 I2]; split; [right; exact I1|constructor; exact I2]].
    apply Some_inj in F. assert (t = u /\ xs = ys /\ b = c) as (-> & -> & ->) by (split; [|split]; congruence). split; [left; reflexivity|constructor]. }
  destruct I as [I ID]. destruct (@cvm_In _ 1%N f I) as [k Gk]. pose proof (cvm_range _ _ _ Gk) as R. pose proof (@C43_check_sound _ _ _ _ C _ (sub_refl _)) as [SZ TY].
  assert (A : nth_error (wm_types M) (List.length xs) = Some (List.length xs)) by (eapply TY; exact ID).
  unfold LambdaANF_to_Wasm in C. destruct (check_restrictions cenv (Efun B e)) eqn:CR; [|discriminate].
  destruct (translate_functions cenv (create_fname_mapping B) penv B) as [fns|] eqn:T1; [|discriminate].
  destruct (translate_body cenv (create_fname_mapping B) penv _ e 0) as [is|]; [|discriminate].
  apply Some_inj in C. subst M. cbn [wm_funs wm_elems wm_types] in *.
  assert (Lf : List.length fns = ndefs B).
  { revert T1. generalize (create_fname_mapping B) as fenv. clear. intro fenv. revert fns. induction B as [g u ys c B IH|]; intros fns T; cbn [translate_functions] in T.
    - destruct (translate_function cenv fenv penv g ys c); [|discriminate]. destruct (translate_functions cenv fenv penv B) as [q|]; [|discriminate].
      apply Some_inj in T. subst fns. cbn [List.length ndefs]. rewrite (IH q eq_refl). reflexivity.
    - apply Some_inj in T. subst fns. reflexivity. }
  assert (Nf : forall B' n fns', translate_functions cenv (create_fname_mapping B) penv B' = Some fns' ->
     get f (create_var_mapping n (collect_function_vars B') []) = Some k -> find_def f B' = Some (t, xs, b) ->
     exists fn, nth_error fns' (N.to_nat (k - n)) = Some (k, fn) /\ wf_params fn = List.length xs).
  { clear - Gk. induction B' as [g u ys c B' IH|]; intros n fns' T G F; cbn [find_def] in F; [|discriminate].
    cbn [translate_functions] in T. unfold translate_function in T. cbn [collect_function_vars create_var_mapping] in G. rewrite get_set in G.
    destruct (get g (create_fname_mapping B)) as [gi|] eqn:Gg; [|discriminate].
    destruct (translate_body _ _ _ _ c 0) as [js|]; [|discriminate].
    destruct (translate_functions cenv (create_fname_mapping B) penv B') as [q|] eqn:Tq; [|discriminate]. apply Some_inj in T. subst fns'.
    destruct (Pos.eq_dec f g) as [->|N].
    - apply Some_inj in G. subst n. unfold create_fname_mapping in Gg. assert (gi = k) by congruence. subst gi. apply Some_inj in F. assert (xs = ys) as -> by congruence.
      rewrite N.sub_diag. eexists. split; [reflexivity|reflexivity].
    - pose proof (cvm_range _ _ _ G). destruct (IH (N.succ n) q eq_refl G F) as (fn & H1 & H2). exists fn. split; [|exact H2].
      replace (N.to_nat (k - n)) with (S (N.to_nat (k - N.succ n))) by lia. exact H1. }
  destruct (Nf B 1%N fns T1 Gk F) as (fn & N1 & N2). exists k, fn. split; [exact Gk|].
  split; [replace (N.to_nat k) with (S (N.to_nat (k - 1))) by lia; exact N1|]. split; [lia|]. split; [|split; [exact N2|split; [exact A|]]].
  - assert (El : forall len st i, (i < len)%nat -> nth_error (table_element_mapping len st) i = Some (Z.of_nat (st + i) mod 4294967296, N.of_nat (st + i))).
    { clear. induction len as [|len IH]; intros st i Hi; [lia|]. cbn [table_element_mapping]. destruct i as [|i]; cbn [nth_error]; [rewrite Nat.add_0_r; reflexivity|].
      rewrite IH by lia. replace (Datatypes.S st + i)%nat with (st + Datatypes.S i)%nat by lia. reflexivity. }
    rewrite len_cfv, ndefs_num in R. rewrite El by lia. cbn [Nat.add]. rewrite N2Nat.id. change (2 ^ 32) with 4294967296 in SZ. rewrite Z.mod_small by lia.
    do 2 f_equal. lia.
  - intros g Gg. eapply cvm_inj; eassumption.
Qed.
Example C45_functions_distinct_ex :
  map (fun f => get f (create_fname_mapping (match ex_wprog with Efun B _ => B | _ => Fnil end))) [10; 15; 20]%positive = [Some 1%N; Some 2%N; None].
Proof. reflexivity. Qed.
Print Assumptions C45_functions_distinct.

(** ** C46 *)

Lemma NoDup_app A (l1 l2 : list A) : NoDup l1 /\ NoDup l2 /\ (forall x, In x l1 -> ~ In x l2) -> NoDup (l1 ++ l2).
Proof.
  intros (N1 & N2 & D). induction N1 as [|x l1 Nx N1 IH]; [exact N2|]. cbn [app]. constructor.
  - intro I. apply in_app_or in I. destruct I as [I|I]; [contradiction|exact (D x (or_introl eq_refl) I)].
  - apply IH. intros y Hy. apply D. right. exact Hy.
Qed.

(** digits before the first underscore determine the number *)
Lemma digits_split : forall d d' (r r' : string), forallb digit (list_ascii_of_string d) = true -> forallb digit (list_ascii_of_string d') = true ->
  (d ++ String "_" r)%string = (d' ++ String "_" r')%string -> d = d'.
Proof.
  induction d as [|c d IH]; intros d' r r' D D' E; destruct d' as [|c' d']; cbn [append list_ascii_of_string forallb] in *; [reflexivity| | |].
  - injection E as E _. subst c'. discriminate.
  - injection E as E _. subst c. discriminate.
  - apply andb_true_iff in D. apply andb_true_iff in D'. injection E as -> E. f_equal. eapply IH; [apply D|apply D'|exact E].
Qed.

Lemma string_of_nat_digits n : forallb digit (list_ascii_of_string (string_of_nat n)) = true.
Proof. destruct n; [reflexivity|]. apply show_pos_digits. Qed.

Lemma string_of_nat_inj n m : string_of_nat n = string_of_nat m -> n = m.
Proof.
  assert (Z0 : forall p, string_of_nat 0 <> show_pos p).
  { intros p H. unfold show_pos in H. cbn [string_of_nat] in H. apply (f_equal DecimalString.NilEmpty.uint_of_string) in H.
    rewrite DecimalString.NilEmpty.usu in H. change (DecimalString.NilEmpty.uint_of_string "0") with (Some (Decimal.D0 Decimal.Nil)) in H.
    apply Some_inj in H. pose proof (DecimalPos.Unsigned.of_to p) as Q. rewrite <- H in Q. discriminate. }
  destruct n as [|n], m as [|m]; intro H; [reflexivity|destruct (Z0 _ H)|symmetry in H; destruct (Z0 _ H)|].
  cbn [string_of_nat] in H. apply show_pos_inj in H. lia.
Qed.

Lemma unique_In : forall names i s, In s (unique_export_names i names) ->
  exists j q, (i <= j)%nat /\ s = String "_" (string_of_nat j ++ String "_" q).
Proof.
  induction names as [|n names IH]; intros i s I; cbn [unique_export_names] in I; [destruct I|].
  destruct I as [<-|I]; [exists i, (String "_" (undot n)); split; [lia|reflexivity]|]. destruct (IH _ _ I) as (j & q & L & E). exists j, q. split; [lia|exact E].
Qed.

(** No two exports have the same name, whatever the functions are called. *)
Theorem C46_export_names_unique : forall names, NoDup (export_names names).
Proof.
  intro names. unfold export_names.
  assert (U : forall i, NoDup (unique_export_names i names)).
  { induction names as [|n names IH]; intro i; cbn [unique_export_names]; constructor; [|apply IH].
    intro I. destruct (unique_In _ _ _ I) as (j & q & L & E). unfold sanitize_function_name in E.
    injection E as E. apply digits_split in E; try apply string_of_nat_digits. apply string_of_nat_inj in E. lia. }
  assert (H : forall s, In s (unique_export_names 0 names) -> exists q, s = String "_" q).
  { intros s I. destruct (unique_In _ _ _ I) as (j & q & _ & E). eauto. }
  constructor.
  - intro I. apply in_app_or in I. destruct I as [I|I]; [destruct (H _ I) as [q E]; discriminate|]. cbn in I. intuition discriminate.
  - apply NoDup_app. split; [apply U|]. split.
    + repeat constructor; cbn; intuition discriminate.
    + intros s I J. destruct (H _ I) as [q ->]. cbn in J. intuition discriminate.
Qed.
Example C46_export_names_unique_ex :
  export_names ["foo.bar"; "foo_bar"; "1__x"; ""; "main_function"]%string =
  ["main_function"; "_0__foo_bar"; "_1__foo_bar"; "_2__1__x"; "_3__"; "_4__main_function"; "out_of_mem"; "mem_ptr"; "result"; "memory"]%string.
Proof. reflexivity. Qed.
Print Assumptions C46_export_names_unique.
