(** * C35-C38, C63: the C back end

    Specification: CG_Spec.v (what a word denotes, the shadow stack, what the
    collector must do) and the source semantics ANF_Eval.v. *)
From Coq Require Import ZArith NArith List Lia Bool.
Import ListNotations.
From Verif Require Import ANF_Syntax ANF_Eval ANF_EvalProofs ANF_Spec ANF_FreeProofs.
From Verif Require Import CG_Clight CG_Model CG_Spec CG_Stack CG_Proofs CG_Top CG_Collector CG_Layout.
From Verif Require Layout_Model Layout_Proofs Properties_Layout RT_String RT_Values.
Set Implicit Arguments.
Local Open Scope Z_scope.

(** ** Examples used below *)

Definition ci (it : positive) (a o : N) : ctor_ty_info := {| ctor_ind_tag := it; ctor_arity := a; ctor_ordinal := o |}.

(** tags: 1 = O, 2 = S, 3 = true, 4 = false, 5 = pair *)
Definition ex_cenv : ctor_env :=
  [(1%positive, ci 1 0 0); (2%positive, ci 1 1 0); (3%positive, ci 2 0 0); (4%positive, ci 2 0 1); (5%positive, ci 3 2 0)].

(** [add n m], and [swap k n m] which needs its first parameter after a call *)
Definition ex_funs : fundefs := (
  Fcons 200 20 [201; 202]
    (Ecase 201 [(1, Ehalt 202);
                (2, Eproj 203 2 0%N 201
                   (Eletapp 204 200 20 [203; 202]
                      (Econstr 205 2 [204] (Ehalt 205))))])
  (Fcons 210 21 [211; 212; 213]
    (Eletapp 214 200 20 [212; 213]
       (Eletapp 215 200 20 [214; 211]
          (Econstr 216 5 [215; 211] (Ehalt 216))))
   Fnil))%positive.

Definition ex_main : exp := (
  Econstr 220 1 []
 (Econstr 221 2 [220]
 (Econstr 222 2 [221]
 (Eletapp 223 210 21 [221; 222; 222]
 (Ehalt 223)))))%positive.

Definition nat_val (n : nat) : val := Nat.iter n (fun v => Vconstr 2%positive [v]) (Vconstr 1%positive []).

(** the heap is empty except for the free words 100 .. 100 + n - 1 *)
Definition start (n : Z) : mem :=
  {| m_heap := fun _ => None; m_lo := 100; m_hi := 100 + n; m_args := fun _ => None;
     m_alloc := VP BHeap 100; m_limit := VP BHeap (100 + n); m_fp := VZ 0; m_nalloc := VZ 0;
     m_frames := []; m_next := 1%positive |}.

Lemma start_ok n : 0 <= n -> wfm (start n) 100 [] /\ area (start n) 100.
Proof.
  intro H. split; [|split; reflexivity]. constructor.
  - cbn [start m_lo m_hi]. lia.
  - constructor.
  - intros id [].
  - intros id fr o [].
Qed.

Lemma ex_cenv_ok : cenv_ok ex_cenv.
Proof.
  assert (H : forall t i, get t ex_cenv = Some i -> In (t, i) ex_cenv).
  { intros t i. generalize ex_cenv. induction c as [|[t' i'] c IH]; cbn [get]; [discriminate|].
    destruct (Pos.eq_dec t t'); [intro E; left; congruence|right; auto]. }
  constructor.
  - intros t i G A. apply H in G. cbn in G. repeat (destruct G as [G|G]; [injection G as <- <-; cbn in *; try lia|]); destruct G.
  - intros t i G A. apply H in G. cbn in G. repeat (destruct G as [G|G]; [injection G as <- <-; cbn in *; try lia|]); destruct G.
  - intros t1 t2 i1 i2 G1 G2. apply H in G1. apply H in G2. cbn in G1, G2.
    repeat (destruct G1 as [G1|G1]; [injection G1 as <- <-; cbn|]); try destruct G1;
    repeat (destruct G2 as [G2|G2]; [injection G2 as <- <-; cbn; intros; (reflexivity || (exfalso; intuition congruence))|]); destruct G2.
Qed.

Ltac in_cases I := cbn in I; repeat (destruct I as [I|I]; [subst|]); try (destruct I; fail).

Lemma free_dec_incl e l : incl (exp_fv e) l -> forall x, free x e -> In x l.
Proof. intros H x F. apply H. apply exp_fv_spec. exact F. Qed.

Lemma ex_prog_ok nParam : prog_ok nParam ex_cenv ex_funs ex_main.
Proof.
  constructor.
  - exact ex_cenv_ok.
  - intros f I. in_cases I; repeat split; try discriminate; intro J; in_cases J; discriminate.
  - cbn [all_funs ex_funs]. repeat split; auto.
    all: try (left; cbn; lia).
    all: try (repeat constructor; cbn; intuition discriminate).
    all: try (cbn; lia).
    all: try (intros x I; in_cases I; split; intro J; in_cases J; discriminate).
    all: try (intros x F; apply in_app_or; revert x F; apply free_dec_incl; intros x I; vm_compute in I; cbn; tauto).
    all: try (cbn; intros; match goal with H : Some _ = Some _ |- _ => injection H as <-; reflexivity end).
    all: try (cbn; intuition discriminate).
    all: intro J; match goal with H : In ?y (_ ++ _) |- _ => in_cases H; in_cases J; discriminate end.
  - split.
    all: try (cbn; lia).
    + intros x I. cbn in I. split; intro J; in_cases I; in_cases J; discriminate.
    + cbn. repeat split; try (intros i E; injection E as <-; reflexivity); try lia; intuition discriminate.
  - cbn. exact Logic.I.
Qed.

(** ** Whole programs *)

(** The compiled program, started with some free words and any frames of the
    caller, returns a word denoting the value of the source program, unless the
    collector gives up; the caller's frames and what they keep alive are intact.
    Missing for the whole statement: primitives and literals (the source
    semantics has no rule for them), programs whose main expression ends in a
    tail call (see [C63_main_tail_call_refuted]). *)
Theorem C63_program_value_partial : forall gc nParam prims cenv B e n prog,
  gc_ok gc -> prog_ok nParam cenv B e ->
  compile nParam false prims cenv n (Efun B e) = Some prog ->
  forall m a ids, wfm m a ids -> area m a ->
  forall c v, bstep_fuel cenv [] (Efun B e) c (Res v) ->
  forall k, (c <= k)%nat ->
  run gc gcIdent prog k bodyIdent [] m = CAbort \/
  exists w m' a', run gc gcIdent prog k bodyIdent [] m = COk w m' /\
    hr m' a' (enc cenv v) w /\ area m' a' /\ m_lo m' <= a' <= m_hi m' /\
    m_fp m' = m_fp m /\ keepf m a ids (m_next m) m' a'.
Proof.
  intros gc nParam prims cenv B e n prog GC PO CO m a ids W Ar c v H k Hk.
  destruct (@compile_term gc GC nParam prims cenv B e PO n prog CO c v m a ids H W Ar k Hk) as [[[] _]|[E|(v' & w & m' & a' & <- & E & A' & B' & F' & K' & O1 & _)]].
  - left. exact E.
  - right. exists w, m', a'. split; [exact E|]. split; [exact O1|]. split; [exact A'|]. split; [exact B'|]. split; assumption.
Qed.
Print Assumptions C63_program_value_partial.

(** A program that does not go wrong is never compiled to code with undefined
    behaviour, and when the code returns, it returns the value of the program. *)
Theorem C63_program_safe_partial : forall gc nParam prims cenv B e n prog,
  gc_ok gc -> prog_ok nParam cenv B e ->
  compile nParam false prims cenv n (Efun B e) = Some prog ->
  forall m a ids, wfm m a ids -> area m a ->
  not_stuck cenv [] (Efun B e) ->
  forall k,
  run gc gcIdent prog k bodyIdent [] m <> CUB /\
  (forall w m', run gc gcIdent prog k bodyIdent [] m = COk w m' ->
     exists c v a', bstep_fuel cenv [] (Efun B e) c (Res v) /\ hr m' a' (enc cenv v) w).
Proof.
  intros gc nParam prims cenv B e n prog GC PO CO m a ids W Ar H k.
  destruct (@compile_safe gc GC nParam prims cenv B e PO n prog CO m a ids H W Ar k) as [[_ E]|[E|(v & w & m' & a' & (c & Hv) & E & _ & _ & _ & _ & O1 & _)]];
    rewrite E; (split; [discriminate|]); intros w0 m0 E0; try discriminate.
  assert (Q : w = w0 /\ m' = m0) by (split; congruence). destruct Q as [<- <-]. exists c, v, a'. split; assumption.
Qed.
Print Assumptions C63_program_safe_partial.

(** A diverging program is compiled to code that never returns. *)
Theorem C63_program_diverges_partial : forall gc nParam prims cenv B e n prog,
  gc_ok gc -> prog_ok nParam cenv B e ->
  compile nParam false prims cenv n (Efun B e) = Some prog ->
  forall m a ids, wfm m a ids -> area m a ->
  diverge cenv [] (Efun B e) ->
  forall k, run gc gcIdent prog k bodyIdent [] m = CTime \/ run gc gcIdent prog k bodyIdent [] m = CAbort.
Proof.
  intros gc nParam prims cenv B e n prog GC PO CO m a ids W Ar H k.
  destruct (@compile_safe gc GC nParam prims cenv B e PO n prog CO m a ids (or_intror H) W Ar k) as [[_ E]|[E|(v & w & m' & a' & (c & Hv) & E & _)]];
    [left; exact E|right; exact E|]. exfalso. specialize (H (S c)).
  pose proof (bstep_fuel_oot_lt _ _ _ _ _ _ H Hv). lia.
Qed.
Print Assumptions C63_program_diverges_partial.

(** the hypotheses hold of the example program, and its code really runs, with
    collections that move what was allocated *)
Definition ex_code (nParam : nat) : cprog :=
  match compile nParam false [] ex_cenv 1000 (Efun ex_funs ex_main) with Some p => p | None => [] end.

Definition ex_run (nParam : nat) (words : Z) : rres := run shift_gc gcIdent (ex_code nParam) 40 bodyIdent [] (start words).

(** the word read back as a value, [fuel] levels deep *)
Fixpoint read_nat (fuel : nat) (m : mem) (w : cval) : option nat :=
  match fuel, w with
  | S k, VZ 1 => Some O
  | S k, VP BHeap p => match m_heap m p with Some w' => option_map S (read_nat k m w') | None => None end
  | _, _ => None
  end.
Definition read_pair (r : rres) : option (nat * nat) :=
  match r with
  | COk (VP BHeap p) m =>
      match m_heap m p, m_heap m (p + 1) with
      | Some w1, Some w2 => match read_nat 20 m w1, read_nat 20 m w2 with Some a, Some b => Some (a, b) | _, _ => None end
      | _, _ => None
      end
  | _ => None
  end.

Example C63_example : forall nParam,
  gc_ok shift_gc /\ prog_ok nParam ex_cenv ex_funs ex_main /\ wfm (start 5) 100 [] /\ area (start 5) 100 /\
  bstep_fuel ex_cenv [] (Efun ex_funs ex_main) 44 (Res (Vconstr 5%positive [nat_val 5; nat_val 1])).
Proof.
  intro nParam. split; [exact shift_gc_ok|]. split; [apply ex_prog_ok|]. split; [apply start_ok; lia|]. split; [apply start_ok; lia|].
  apply interp_sound with (d := 60%nat). vm_compute. reflexivity.
Qed.

Example C63_example_runs :
  map (fun n => match compile n false [] ex_cenv 1000 (Efun ex_funs ex_main) with Some _ => true | None => false end) [0; 2; 7]%nat
    = [true; true; true] /\
  map (fun n => read_pair (ex_run n 1)) [0; 2; 7]%nat = repeat (Some (5, 1)%nat) 3 /\
  map (fun n => read_pair (ex_run n 5)) [0; 2; 7]%nat = repeat (Some (5, 1)%nat) 3 /\
  map (fun n => read_pair (ex_run n 20)) [0; 2; 7]%nat = repeat (Some (5, 1)%nat) 3.
Proof. vm_compute. repeat split. Qed.

(** a program that loops: [f x = f x] *)
Definition loop_funs : fundefs := (Fcons 200 20 [201; 202] (Eapp 200 20 [202; 201]) Fnil)%positive.
Definition loop_main : exp := (Econstr 220 1 [] (Eletapp 221 200 20 [220; 220] (Ehalt 221)))%positive.

Example C63_example_loop :
  prog_ok 2 ex_cenv loop_funs loop_main /\ diverge ex_cenv [] (Efun loop_funs loop_main) /\
  exists p, compile 2 false [] ex_cenv 1000 (Efun loop_funs loop_main) = Some p.
Proof.
  split; [|split].
  - constructor.
    + exact ex_cenv_ok.
    + intros f I. in_cases I; repeat split; try discriminate; intro J; in_cases J; discriminate.
    + cbn [all_funs loop_funs]. repeat split; auto.
      all: try (left; cbn; lia).
      all: try (repeat constructor; cbn; intuition discriminate).
      all: try (cbn; lia).
      all: try (intros x F; apply in_app_or; revert x F; apply free_dec_incl; intros x I; vm_compute in I; cbn; tauto).
      all: intro J; match goal with H : In ?y (_ ++ _) |- _ => in_cases H; in_cases J; discriminate end.
    + split.
      all: try (cbn; lia).
      * intros x I. cbn in I. split; intro J; in_cases I; in_cases J; discriminate.
      * cbn. repeat split; try (intros i E; injection E as <-; reflexivity); try lia; intuition discriminate.
    + cbn. exact Logic.I.
  - assert (H : forall c rho v w, get 200%positive rho = Some (Vfun [] loop_funs 200%positive) ->
        get 201%positive rho = Some v -> get 202%positive rho = Some w ->
        bstep_fuel ex_cenv rho (Eapp 200 20 [202; 201])%positive c OOT).
    { induction c as [|c IH]; intros rho v w G1 G2 G3; [constructor; lia|].
      replace (S c) with (c + 1)%nat by lia. apply BStepf_run.
      eapply BStept_app; [exact G1|cbn [get_list]; rewrite G3, G2; reflexivity|reflexivity|reflexivity|].
      eapply IH; reflexivity. }
    intro c. destruct c as [|c]; [constructor; lia|]. replace (S c) with (c + 1)%nat by lia. apply BStepf_run. apply BStept_fun.
    destruct c as [|c]; [constructor; lia|]. replace (S c) with (c + 1)%nat by lia. apply BStepf_run. eapply BStept_constr; [reflexivity|].
    destruct c as [|c]; [constructor; lia|]. replace (S c) with (c + 1)%nat by lia. apply BStepf_run.
    eapply BStept_letapp_oot; [reflexivity|reflexivity|reflexivity|reflexivity|]. eapply H; reflexivity.
  - eexists. vm_compute. reflexivity.
Qed.

(** The main function does not declare the temporary that receives the result
    of a tail call (LambdaANF_to_Clight_stack.v:1160-1190; the other functions
    declare it), so a main expression ending in a tail call is translated to
    code that assigns an undeclared variable. *)
Theorem C63_main_tail_call_refuted : exists B e v c prog,
  bstep_fuel ex_cenv [] (Efun B e) c (Res v) /\
  compile 2 false [] ex_cenv 1000 (Efun B e) = Some prog /\
  (forall k, run shift_gc gcIdent prog (S (S k)) bodyIdent [] (start 50) = CUB).
Proof.
  exists (Fcons 200 20 [201; 202] (Ehalt 202) Fnil)%positive, (Econstr 220 1 [] (Eapp 200 20 [220; 220]))%positive.
  eexists. eexists. eexists. split; [|split].
  - apply interp_sound with (d := 10%nat). vm_compute. reflexivity.
  - vm_compute. reflexivity.
  - intro k. reflexivity.
Qed.
Print Assumptions C63_main_tail_call_refuted.

(** ** C35: tags *)

(** What is stored for a constructor: an immediate, or the header of a block.
    Two constructors of a datatype are told apart by the word (immediates) and
    by the low byte of the header (blocks); the collector scans the blocks and
    reads their size from the header. *)
Theorem C35_tags_distinct_partial : forall cenv t1 t2 i1 i2 z1 z2,
  cenv_ok cenv -> get t1 cenv = Some i1 -> get t2 cenv = Some i2 ->
  makeTagZ cenv t1 = Some z1 -> makeTagZ cenv t2 = Some z2 ->
  ctor_ind_tag i1 = ctor_ind_tag i2 -> t1 <> t2 ->
  (* both immediates: odd and different *)
  (ctor_arity i1 = 0%N -> ctor_arity i2 = 0%N -> Z.odd z1 = true /\ Z.odd z2 = true /\ z1 <> z2) /\
  (* both blocks: different tag bytes, below No_scan_tag (gc_stack.h), right size, no overflow *)
  (ctor_arity i1 <> 0%N -> ctor_arity i2 <> 0%N ->
     Z.land z1 255 <> Z.land z2 255 /\ Z.land z1 255 < 251 /\
     Z.shiftr z1 10 = Z.of_N (ctor_arity i1) /\ 0 <= z1 < 2 ^ 64).
Proof.
  intros cenv t1 t2 i1 i2 z1 z2 CE G1 G2 M1 M2 It Nt.
  unfold makeTagZ, make_ctor_rep in M1, M2. rewrite G1 in M1. rewrite G2 in M2. split; intros A1 A2.
  - rewrite A1 in M1. rewrite A2 in M2. cbn [N.eqb] in M1, M2. rewrite tag_enum in M1, M2.
    apply Some_inj in M1. apply Some_inj in M2. subst z1 z2.
    split; [apply Z.odd_spec; eexists; reflexivity|]. split; [apply Z.odd_spec; eexists; reflexivity|].
    intro E. apply Nt. apply (ce_inj CE t1 t2 G1 G2 It); [lia|]. rewrite A1, A2. tauto.
  - pose proof A1 as A1'. pose proof A2 as A2'. apply N.eqb_neq in A1'. apply N.eqb_neq in A2'. rewrite A1' in M1. rewrite A2' in M2.
    rewrite tag_boxed in M1, M2. apply Some_inj in M1. apply Some_inj in M2. subst z1 z2.
    pose proof (ce_boxed CE t1 G1 A1) as [B1 B1']. pose proof (ce_boxed CE t2 G2 A2) as [B2 B2'].
    rewrite !hdr_low by lia. split.
    + intro E. apply Nt. apply (ce_inj CE t1 t2 G1 G2 It); [lia|]. tauto.
    + split; [lia|]. rewrite hdr_size by lia. split; [reflexivity|].
      change (2 ^ 53) with 9007199254740992 in *. change (2 ^ 64) with 18446744073709551616. lia.
Qed.
Print Assumptions C35_tags_distinct_partial.

Example C35_tags_example :
  let cenv := [(1%positive, ci 1 0 0); (2%positive, ci 1 0 250); (3%positive, ci 1 3 0); (4%positive, ci 1 3 250)] in
  cenv_ok cenv /\
  map (makeTagZ cenv) [1; 2; 3; 4]%positive = [Some 1; Some 501; Some 3072; Some 3322] /\ Z.land 3072 255 = 0 /\ Z.land 3322 255 = 250.
Proof.
  intro cenv. split; [|vm_compute; repeat split].
  assert (H : forall t i, get t cenv = Some i -> In (t, i) cenv).
  { intros t i. generalize cenv. induction cenv0 as [|[t' i'] c IH]; cbn [get]; [discriminate|].
    destruct (Pos.eq_dec t t'); [intro E; left; congruence|right; auto]. }
  constructor.
  - intros t i G A. apply H in G. cbn in G. repeat (destruct G as [G|G]; [injection G as <- <-; cbn in *; try lia|]); destruct G.
  - intros t i G A. apply H in G. cbn in G. repeat (destruct G as [G|G]; [injection G as <- <-; cbn in *; try lia|]); destruct G.
  - intros t1 t2 i1 i2 G1 G2. apply H in G1. apply H in G2. cbn in G1, G2.
    repeat (destruct G1 as [G1|G1]; [injection G1 as <- <-; cbn|]); try destruct G1;
    repeat (destruct G2 as [G2|G2]; [injection G2 as <- <-; cbn; intros; (reflexivity || (exfalso; intuition congruence))|]); destruct G2.
Qed.

(** The table the compiler builds for declarations with at most 251 constructors
    with arguments per datatype (each with fewer than [2 ^ 53] arguments) and
    [2 ^ 62] without meets the conditions above, which also appear in C63. *)
Theorem C35_built_tables_partial : forall dt dit g,
  NoDup (map fst g) -> small_types g -> cenv_ok (Properties_Layout.ctors_of (Layout_Model.convert_env dt dit g)).
Proof. exact built_cenv_ok. Qed.
Print Assumptions C35_built_tables_partial.

(** nat, list and a pack of two types; the largest type allowed *)
Example C35_built_example :
  small_types [(5%positive, [[0; 1]%nat]); (6%positive, [[0; 2]%nat]); (7%positive, [[1; 1; 0]; repeat 1 251]%nat)] /\
  ~ small_types [(7%positive, [repeat 1 252]%nat)].
Proof.
  split.
  - intros kn i j cs a (ty & I & E1 & E2). cbn [In] in I. change (2 ^ 53) with 9007199254740992. change (2 ^ 62) with 4611686018427387904.
    assert (L : (length (filter (fun a => negb (Nat.eqb a 0)) cs) <= 251)%nat /\ Forall (fun a => (a <= 2)%nat) cs /\ (length (filter (Nat.eqb 0) cs) <= 1)%nat).
    { destruct I as [I|[I|[I|[]]]]; injection I as <- <-; destruct i as [|[|i]]; cbn in E1; try discriminate; try (destruct i; discriminate); injection E1 as <-.
      - cbn; repeat split; try lia; repeat constructor.
      - cbn; repeat split; try lia; repeat constructor.
      - cbn; repeat split; try lia; repeat constructor.
      - cbn; repeat split; try lia; repeat constructor. }
    destruct L as (L1 & L2 & L3). rewrite Forall_forall in L2. specialize (L2 a (nth_error_In _ _ E2)). repeat split; lia.
  - intro H. destruct (H 7%positive 0%nat 0%nat (repeat 1%nat 252) 1%nat) as (L & _); [exists [repeat 1%nat 252]; repeat split; left; reflexivity|].
    apply Nat.leb_le in L. vm_compute in L. discriminate.
Qed.

(** The emitted switch runs the code of the branch for the constructor in the
    variable (of a branch that returns, aborts or needs more fuel). *)
Theorem C35_switch_partial : forall gc nParam prims cenv fenv fmap fv L locs slots y cl s n t i e vs w,
  cenv_ok cenv ->
  translate_body nParam false prims fenv cenv fmap fv L locs (Ecase y cl) slots = Some (s, n) ->
  caseConsistent_f cenv cl t = true -> findtag cl t = Some e -> get t cenv = Some i ->
  exists s' n', translate_body nParam false prims fenv cenv fmap fv L locs e slots = Some (s', n') /\
    forall call decl id tm m a,
      get y tm = Some w -> hr m a (enc cenv (Vconstr t vs)) w ->
      match exec gc call decl gcIdent id s' tm m with ROk (Oret _) _ _ | RAbort | RTime => True | _ => False end ->
      exec gc call decl gcIdent id s tm m = exec gc call decl gcIdent id s' tm m.
Proof.
  intros gc nParam prims cenv fenv fmap fv L locs slots y cl s n t0 i e vs w CE E CC FT Gi.
  rewrite tb_case in E. destruct (mkc nParam prims cenv fenv fmap fv L locs slots cl) as [[[ls ls'] n']|] eqn:Em; [|discriminate].
  apply Some_inj in E. assert (En : n' = n /\ s = make_case_switch y ls ls') by (split; congruence).
  destruct En as [-> ->]. clear E.
  destruct (@cases_ok gc nParam prims cenv CE fenv fmap fv L locs slots t0 i e Gi cl ls ls' n Em CC FT) as (NN & s1 & ne & Es & Hne & Hsel).
  exists s1, ne. split; [exact Es|]. intros call decl id t m a Gt Hw Hx.
  specialize (Hsel call decl id t m Hx).
  unfold make_case_switch, pick in *. cbn [enc] in Hw. rewrite Gi in Hw.
  destruct (N.eqb (ctor_arity i) 0) eqn:Ea.
  - assert (Ew : w = VZ (2 * Z.of_N (ctor_ordinal i) + 1)) by (inversion Hw; reflexivity). subst w.
    rewrite exec_if.
    assert (Ei : eval id t m (isPtr y) = Some (VZ 0)).
    { unfold isPtr. cbn [eval]. rewrite Gt. change (if (- 2 ^ 63 <=? 1) && (1 <? 2 ^ 64) then Some (VZ 1) else None) with (Some (VZ 1)).
      change (if (- 2 ^ 63 <=? 0) && (0 <? 2 ^ 64) then Some (VZ 0) else None) with (Some (VZ 0)). cbn [binop_eval]. rewrite and_enum. reflexivity. }
    rewrite Ei. rewrite Z.eqb_refl.
    assert (E2 : eval id t m (Xbin Oshr (Xtemp y) (Xconst 1)) = Some (VZ (Z.of_N (ctor_ordinal i)))).
    { cbn [eval]. rewrite Gt. change (if (- 2 ^ 63 <=? 1) && (1 <? 2 ^ 64) then Some (VZ 1) else None) with (Some (VZ 1)). cbn [binop_eval]. rewrite shr_enum. reflexivity. }
    rewrite exec_switch. rewrite E2, Hsel. reflexivity.
  - apply hrepr_block in Hw. destruct Hw as (p & ws' & -> & H1 & H5 & H6).
    rewrite exec_if.
    assert (Ei : eval id t m (isPtr y) = Some (VZ 1)).
    { unfold isPtr. cbn [eval]. rewrite Gt. reflexivity. }
    rewrite Ei. change (1 =? 0) with false. cbv iota.
    assert (E2 : eval id t m (Xbin Oand (Field (Xtemp y) (-1)) (Xconst 255)) = Some (VZ (Z.of_N (ctor_ordinal i)))).
    { unfold Field. cbn [eval]. rewrite Gt.
      change (if (- 2 ^ 63 <=? -1) && (-1 <? 2 ^ 64) then Some (VZ (-1)) else None) with (Some (VZ (-1))).
      cbn [binop_eval load]. change (p + -1) with (p - 1). rewrite H1.
      change (if (- 2 ^ 63 <=? 255) && (255 <? 2 ^ 64) then Some (VZ 255) else None) with (Some (VZ 255)).
      cbn [binop_eval]. rewrite hdr_low; [reflexivity|]. apply N.eqb_neq in Ea. pose proof (ce_boxed CE t0 Gi Ea). lia. }
    rewrite exec_switch. rewrite E2, Hsel. reflexivity.
Qed.
Print Assumptions C35_switch_partial.

Example C35_switch_example :
  let cl := [(1, Ehalt 202); (2, Eproj 203 2 0%N 201 (Ehalt 203))]%positive in
  let m := start 0 in
  let m := set_heap m (upd (upd (m_heap m) 40 (VZ 1024)) 41 (VZ 1)) in
  (exists s n, translate_body 2 false [] [] ex_cenv [] [] [201; 202; 203]%positive [] (Ecase 201%positive cl) 0 = Some (s, n)) /\
  caseConsistent_f ex_cenv cl 2%positive = true /\ findtag cl 2%positive = Some (Eproj 203 2 0%N 201 (Ehalt 203))%positive /\
  hr m 100 (enc ex_cenv (nat_val 1)) (VP BHeap 41).
Proof.
  intros cl m. split; [eexists; eexists; vm_compute; reflexivity|]. split; [reflexivity|]. split; [reflexivity|].
  apply (@HR_block _ _ _ _ _ _ (fun _ => VZ 1)); try reflexivity.
  - left. cbn. lia.
  - intros [|[|i]] v E; try discriminate. split; [left; cbn; lia|reflexivity].
  - intros [|[|i]] v E; try discriminate. injection E as <-. constructor.
Qed.

(** Refuted in general.  A datatype with 258 unary constructors, numbered by
    the compiler's own table: constructors 1 and 257 get headers with the same
    low byte, and constructor 251 a header that the collector takes for opaque
    data. *)
Definition big_type : Layout_Model.ienv := [(7%positive, [repeat 1%nat 258])].
Definition big_cenv : ctor_env := Properties_Layout.ctors_of (Layout_Model.convert_env 1 1 big_type).
Definition big_tag (j : nat) : positive :=
  Layout_Model.dcon_to_tag 1 ((7%positive, 0%nat), N.of_nat j) (Properties_Layout.ids_of (Layout_Model.convert_env 1 1 big_type)).

Theorem C35_tags_refuted : exists z1 z257 z251,
  makeTagZ big_cenv (big_tag 1) = Some z1 /\ makeTagZ big_cenv (big_tag 257) = Some z257 /\
  makeTagZ big_cenv (big_tag 251) = Some z251 /\ big_tag 1 <> big_tag 257 /\
  Z.land z1 255 = Z.land z257 255 /\ RT_Values.No_scan (Z.land z251 255) = true.
Proof.
  eexists. eexists. eexists. split; [vm_compute; reflexivity|]. split; [vm_compute; reflexivity|]. split; [vm_compute; reflexivity|].
  split; [vm_compute; discriminate|]. split; vm_compute; reflexivity.
Qed.
Print Assumptions C35_tags_refuted.

(** And the program that builds constructor 257 and matches on it with one
    branch per constructor takes the branch of constructor 1. *)
Definition big_case : exp := (
  Econstr 300 (big_tag 257) [299]
   (Ecase 300 (map (fun j => (big_tag j, if Nat.eqb j 1 then Ehalt 299 else Ehalt 300)) (seq 0 258))))%positive.
Definition big_main : exp := (Econstr 299 1 [] big_case)%positive.

Theorem C35_switch_refuted : exists c prog m',
  bstep_fuel big_cenv [] (Efun Fnil big_main) c (Res (Vconstr (big_tag 257) [Vconstr 1%positive []])) /\
  compile 2 false [] big_cenv 1000 (Efun Fnil big_main) = Some prog /\
  (forall k, run shift_gc gcIdent prog (S k) bodyIdent [] (start 50) = COk (VZ 1) m') /\
  enc big_cenv (Vconstr 1%positive []) = HInt 1.
Proof.
  eexists. eexists. eexists. split; [|split; [|split]].
  - apply interp_sound with (d := 10%nat). vm_compute. reflexivity.
  - vm_compute. reflexivity.
  - intro k. vm_compute. reflexivity.
  - vm_compute. reflexivity.
Qed.
Print Assumptions C35_switch_refuted.

(** ** C36: reserving heap words *)

(** [words prims cenv e n]: some path through [e] writes [n] heap words before
    the next collector check (calls and primitives that get thread_info are
    followed by one) or the end. *)
Inductive words (prims : tmap bool) (cenv : ctor_env) : exp -> nat -> Prop :=
| W_enum x t ys e i n : get t cenv = Some i -> ctor_arity i = 0%N ->
    words prims cenv e n -> words prims cenv (Econstr x t ys e) n
| W_block x t ys e i n : get t cenv = Some i -> ctor_arity i <> 0%N ->
    words prims cenv e n -> words prims cenv (Econstr x t ys e) (1 + N.to_nat (ctor_arity i) + n)
| W_case x cs t e n : In (t, e) cs -> words prims cenv e n -> words prims cenv (Ecase x cs) n
| W_proj x t k y e n : words prims cenv e n -> words prims cenv (Eproj x t k y e) n
| W_letapp x f t ys e : words prims cenv (Eletapp x f t ys e) 0
| W_app f t ys : words prims cenv (Eapp f t ys) 0
| W_int x i e n : words prims cenv e n -> words prims cenv (Eprim_val x (PVint i) e) n
| W_float x b e n : words prims cenv e n -> words prims cenv (Eprim_val x (PVfloat b) e) (2 + n)
| W_string x s e n : words prims cenv e n -> words prims cenv (Eprim_val x (PVstring s) e) (List.length s / 8 + 2 + n)
| W_prim_call x p ys e : get p prims = Some true -> words prims cenv (Eprim x p ys e) 0
| W_prim x p ys e n : get p prims = Some false -> words prims cenv e n -> words prims cenv (Eprim x p ys e) n
| W_halt x : words prims cenv (Ehalt x) 0.

(** no float or string literal before the next check, constructors applied to
    as many arguments as declared *)
Fixpoint no_literal (cenv : ctor_env) (e : exp) : Prop :=
  match e with
  | Econstr _ t ys e' => (forall i, get t cenv = Some i -> ctor_arity i = N.of_nat (length ys)) /\ no_literal cenv e'
  | Ecase _ cs => (fix go cs := match cs with [] => True | p :: cs' => no_literal cenv (snd p) /\ go cs' end) cs
  | Eproj _ _ _ _ e' => no_literal cenv e'
  | Eprim_val _ (PVint _) e' => no_literal cenv e'
  | Eprim_val _ _ _ => False
  | Eprim _ _ _ e' => no_literal cenv e'
  | _ => True
  end.

Lemma no_literal_case cenv cs t e : (fix go (cs : list (ctor_tag * exp)) := match cs with [] => True | p :: cs' => no_literal cenv (snd p) /\ go cs' end) cs ->
  In (t, e) cs -> no_literal cenv e.
Proof. induction cs as [|p cs IH]; [intros _ []|]. intros [H1 H2] [->|I]; [exact H1|auto]. Qed.

(** What is asked for covers every path (and [C63_program_safe_partial]: no
    write of a compiled program ever falls outside what the collector handed
    out). *)
Theorem C36_reserved_partial : forall prims cenv e n,
  no_literal cenv e -> words prims cenv e n -> (n <= max_allocs e)%nat.
Proof.
  intros prims cenv e n H W. revert H.
  induction W as [x t ys e i n G A W IH|x t ys e i n G A W IH|x cs t e n I W IH|x t k y e n W IH|x f t ys e|f t ys|x i e n W IH
    |x b e n W IH|x s e n W IH|x p ys e G|x p ys e n G W IH|x]; intro H; cbn [no_literal] in H; cbn [max_allocs]; try lia; auto.
  - destruct H as [H1 H2]. specialize (IH H2). destruct ys; lia.
  - destruct H as [H1 H2]. specialize (IH H2). specialize (H1 _ G). rewrite H1 in A |- *.
    destruct ys; cbn [length] in *; lia.
  - pose proof (no_literal_case _ cs _ _ H I) as H1. specialize (IH H1).
    pose proof (max_case cs (t, e) I) as M. cbn [snd] in M. lia.
Qed.
Print Assumptions C36_reserved_partial.

Example C36_reserved_example :
  let e := (Econstr 1 2 [9] (Ecase 1 [(1, Ehalt 9); (2, Econstr 3 5 [1; 9] (Eletapp 4 200 20 [3; 3] (Econstr 5 5 [4; 4] (Ehalt 5))))]))%positive in
  no_literal ex_cenv e /\ words [] ex_cenv e 5 /\ max_allocs e = 5%nat.
Proof.
  intro e. split; [|split; [|reflexivity]].
  - cbn. repeat split; intros i E; injection E as <-; reflexivity.
  - apply (@W_block [] ex_cenv 1%positive 2%positive _ _ (ci 1 1 0) 3); [reflexivity|discriminate|].
    eapply W_case; [right; left; reflexivity|].
    apply (@W_block [] ex_cenv 3%positive 5%positive _ _ (ci 3 2 0) 0); [reflexivity|discriminate|]. apply W_letapp.
Qed.

(** Refuted for literals: a float needs two words and a string [len/8 + 2], and
    neither is counted (LambdaANF_to_Clight_stack.v:240-268, [Eprim_val]). *)
Theorem C36_literals_refuted :
  (exists e n, words [] ex_cenv e n /\ (n > max_allocs e)%nat) /\
  (forall s, words [] ex_cenv (Eprim_val 220 (PVstring s) (Ehalt 220))%positive (List.length s / 8 + 2) /\
             max_allocs (Eprim_val 220 (PVstring s) (Ehalt 220))%positive = 0%nat).
Proof.
  split.
  - exists (Eprim_val 220 (PVfloat 0) (Ehalt 220))%positive, 2%nat. split; [|cbn; lia].
    apply (@W_float [] ex_cenv 220%positive 0 (Ehalt 220)%positive 0). apply W_halt.
  - intro s. split; [|reflexivity]. pose proof (@W_string [] ex_cenv 220%positive s (Ehalt 220%positive) 0 (W_halt _ _ _)) as H.
    replace (List.length s / 8 + 2 + 0)%nat with (List.length s / 8 + 2)%nat in H by lia. exact H.
Qed.
Print Assumptions C36_literals_refuted.

(** The compiled program then writes outside the words it was given: no check
    is emitted and the literal is stored at the end of the free area.  The same
    program is fine when two (three) words happen to be free. *)
Theorem C36_overflow_refuted : exists p1 p2,
  compile 2 false [] ex_cenv 1000 (Efun Fnil (Eprim_val 220 (PVfloat 4609434218613702656%Z) (Ehalt 220)))%positive = Some p1 /\
  compile 2 false [] ex_cenv 1000 (Efun Fnil (Eprim_val 220 (PVstring (repeat 65%Z 12)) (Ehalt 220)))%positive = Some p2 /\
  (forall k, run shift_gc gcIdent p1 (S k) bodyIdent [] (start 1) = CUB) /\
  (forall k, run shift_gc gcIdent p2 (S k) bodyIdent [] (start 2) = CUB) /\
  (exists w m, run shift_gc gcIdent p1 1 bodyIdent [] (start 2) = COk w m) /\
  (exists w m, run shift_gc gcIdent p2 1 bodyIdent [] (start 3) = COk w m).
Proof.
  eexists. eexists. split; [vm_compute; reflexivity|]. split; [vm_compute; reflexivity|].
  split; [intro k; vm_compute; reflexivity|]. split; [intro k; vm_compute; reflexivity|].
  split; eexists; eexists; vm_compute; reflexivity.
Qed.
Print Assumptions C36_overflow_refuted.

(** ** C37: roots across calls *)

(** The variables saved around a call with result [x] and continuation [e]
    include every local variable the continuation reads except [x].  Saving
    puts variable [i] in slot [i] of the function's frame; whatever the callee
    and the collector leave in the slots, the code after the call puts the word
    in slot [i] back into variable [i] and touches no other variable. *)
Theorem C37_saved_and_reloaded : forall gc call decl id L x e t m fr,
  let xs := live_after L x e in
  get id (m_frames m) = Some fr -> Z.of_nat (length xs) <= f_size fr < 2 ^ 63 -> incl xs decl ->
  (forall y, In y xs -> exists w, get y t = Some w) ->
  (forall y, free y e -> In y L -> y <> x -> In y xs) /\ NoDup xs /\
  exists m1 fr1,
    exec gc call decl gcIdent id (fst (push_live_vars xs)) t m = ROk Onormal t m1 /\
    get id (m_frames m1) = Some fr1 /\
    (forall i y, nth_error xs i = Some y -> f_arr fr1 (Z.of_nat i) = get y t) /\
    (forall t2 m2 fr2, get id (m_frames m2) = Some fr2 -> f_size fr2 = f_size fr ->
       (forall o, 0 <= o < Z.of_nat (length xs) -> exists w, f_arr fr2 o = Some w) ->
       exists t3, exec gc call decl gcIdent id (pop_live_vars xs) t2 m2 = ROk Onormal t3 m2 /\
         (forall i y, nth_error xs i = Some y -> get y t3 = f_arr fr2 (Z.of_nat i)) /\
         (forall y, ~ In y xs -> get y t3 = get y t2)).
Proof.
  intros gc call decl id L x e t m fr xs G [H1 H2] D V.
  assert (ND : NoDup xs).
  { unfold xs, live_after, remove1, inter. apply NoDup_filter. apply NoDup_filter. apply exp_fv_aux_NoDup. constructor. }
  split; [|split; [exact ND|]].
  { intros y F I N. apply remove1_In. split; [|exact N]. apply inter_In. split; [apply exp_fv_spec; exact F|exact I]. }
  destruct (@exec_push gc call decl id xs 0%N Sskip t m fr G) as (arr & m1 & [P1 P2] & F & E); [lia|exact H2|exact V|].
  exists m1, (set_arr fr arr). split; [exact E|]. split; [exact (frame_upd_get F)|]. split.
  { intros i y N. cbn [set_arr f_arr]. rewrite <- (P1 i y N). f_equal. }
  intros t2 m2 fr2 G2 S2 A2.
  destruct (@exec_pop gc call decl id xs 0%N Sskip t2 m2 fr2 G2) as (t3 & Q1 & Q2 & E3);
    [cbn; lia|lia|exact D|intros o Ho; apply A2; cbn in Ho; lia|].
  exists t3. split; [exact E3|]. split; [|exact Q2].
  intros i y N. destruct (Q1 y (nth_error_In _ _ N)) as (j & Nj & Ej).
  assert (i = j). { apply (proj1 (NoDup_nth_error xs) ND); [apply nth_error_Some; congruence|congruence]. }
  subst j. rewrite Ej. f_equal.
Qed.
Print Assumptions C37_saved_and_reloaded.

Example C37_example :
  let e := (Econstr 216 5 [215; 211] (Ehalt 216))%positive in
  live_after [211; 212; 213; 214; 215; 216]%positive 215 e = [211%positive] /\
  live_after [211; 212; 213; 214; 215; 216]%positive 214
    (Eletapp 215 200 20 [214; 211] e)%positive = [211%positive] /\
  live_after [203; 202; 201; 204]%positive 204 (Eletapp 204 203 20 [202; 201] (Econstr 7 5 [202; 203] (Ehalt 7)))%positive
    = [201; 202; 203]%positive.
Proof. vm_compute. repeat split. Qed.

(** Dropping one of the saves would be noticed: with the collector above, the
    program whose code saves no variable around calls reads a stale pointer. *)
Fixpoint drop_saves (s : stmt) : stmt :=
  match s with
  | Sassign (Xderef (Xbin Oadd Xroots _)) _ => Sskip
  | Sset _ (Xderef (Xbin Oadd Xroots _)) => Sskip
  | Sseq s1 s2 => Sseq (drop_saves s1) (drop_saves s2)
  | Sif e s1 s2 => Sif e (drop_saves s1) (drop_saves s2)
  | _ => s
  end.

Example C37_needed :
  let code := map (fun p => (fst p, {| cf_params := cf_params (snd p); cf_temps := cf_temps (snd p); cf_slots := cf_slots (snd p);
                                       cf_body := drop_saves (cf_body (snd p)) |})) (ex_code 2) in
  let r := run shift_gc gcIdent code 40 bodyIdent [] (start 5) in
  (match r with COk _ _ => true | _ => false end, match read_pair r with Some (5, 1)%nat => true | _ => false end) = (true, false).
Proof. vm_compute. reflexivity. Qed.

(** ** C38: arguments *)

(** [means fenv fmap t y w]: in the caller, source variable [y] (a function of
    the program or a local) has the word [w] *)
Definition means (fenv : tmap (N * list N)) (fmap : tmap (positive * positive)) (t : tmap cval) (y : positive) (w : cval) : Prop :=
  forall id m, eval id t m (makeVar y fenv fmap) = Some w.

Lemma means_evv fenv fmap t y w : means fenv fmap t y w -> evv fenv fmap t y w.
Proof.
  intro H. specialize (H 1%positive (start 0)). unfold evv, makeVar in *.
  destruct (get y fmap) as [[i tg]|]; [destruct (get tg fenv)|]; cbn [eval] in H.
  - left. split; congruence.
  - right. split; [reflexivity|exact H].
  - right. split; [reflexivity|exact H].
Qed.

(** The caller stores and passes the words [ws] of its arguments; in any later
    state with the same args array, a callee with as many parameters has [ws]
    in them after its entry code. *)
Theorem C38_arguments_partial : forall gc call decl id nParam fenv fmap ys ws t m asgn f r c,
  let n := length ys in
  let ind := map N.of_nat (seq 0 n) in
  (n <= 1024 \/ n <= nParam)%nat ->
  Forall2 (means fenv fmap t) ys ws -> ~ In argsIdent ys -> In argsIdent decl ->
  asgnAppVars nParam ys ind fenv fmap = Some asgn ->
  mkCall nParam r fenv fmap f (Nat.min n nParam) ys = Some c ->
  exists t1 m1 es,
    exec gc call decl gcIdent id asgn t m = ROk Onormal t1 m1 /\
    (forall y, y <> argsIdent -> get y t1 = get y t) /\
    c = Scall r f es /\ (forall m', eval_list id t1 m' es = Some (firstn nParam ws)) /\
    (forall gc' call' decl' id' xs t0 m0 passign,
       length xs = n -> NoDup xs -> ~ In argsIdent xs -> incl xs decl' ->
       asgnFunVars nParam xs ind = Some passign ->
       set_lists (firstn nParam xs) (firstn nParam ws) [] = Some t0 ->
       m_args m0 = m_args m1 ->
       exists t2, exec gc' call' decl' gcIdent id' passign (set argsIdent (VP BArgs 0) t0) m0 = ROk Onormal t2 m0 /\
         Forall2 (fun x w => get x t2 = Some w) xs ws).
Proof.
  intros gc call decl id nParam fenv fmap ys ws t m asgn f r c n ind Hb FM Na Da Ea Ec.
  assert (F : Forall2 (evv fenv fmap t) ys ws).
  { clear -FM. induction FM; constructor; [apply means_evv; assumption|assumption]. }
  assert (Lw : length ws = n) by (symmetry; exact (Forall2_length F)).
  unfold asgnAppVars, asgnAppVars' in Ea. unfold ind in Ea. rewrite skipn_map, skipn_seq in Ea. cbn [Nat.add] in Ea.
  assert (Ls : length (skipn nParam ys) = (n - nParam)%nat) by (rewrite skipn_length; reflexivity).
  rewrite <- Ls in Ea.
  destruct (asgnAppVars'' (skipn nParam ys) _ fenv fmap) as [s0|] eqn:E0; [|discriminate].
  apply Some_inj in Ea. subst asgn.
  assert (F1 : Forall2 (evv fenv fmap (set argsIdent (VP BArgs 0) t)) ys ws).
  { clear -F Na. induction F as [|y w ys ws H F IH]; constructor.
    - eapply evv_agree; [exact H|]. apply get_set_other. intros ->. apply Na. left. reflexivity.
    - apply IH. intro I. apply Na. right. exact I. }
  destruct (@exec_args gc fenv fmap decl id call (skipn nParam ys) (skipn nParam ws) nParam (set argsIdent (VP BArgs 0) t) m) with (s := s0)
    as (A & Ex & HA); auto.
  { apply Forall2_skipn. exact F1. }
  { rewrite Ls. lia. }
  unfold mkCall in Ec. destruct (mkCallVars fenv fmap (Nat.min n nParam) (firstn nParam ys)) as [es|] eqn:Em; [|discriminate].
  apply Some_inj in Ec. subst c.
  exists (set argsIdent (VP BArgs 0) t), (set_args m A), es.
  split. { rewrite exec_seq. cbn [exec eval tinfo_get]. rewrite assign_temp_ok by exact Da. cbn [andthen]. exact Ex. }
  split. { intros y N. apply get_set_other. exact N. }
  split; [reflexivity|].
  split. { intro m'. eapply eval_callvars; [exact Em|]. apply Forall2_firstn. exact F1. }
  intros gc' call' decl' id' xs t0 m0 passign Lx ND Nx Dx Ep Et0 Em0.
  unfold asgnFunVars, ind in Ep. rewrite skipn_map, skipn_seq in Ep. cbn [Nat.add] in Ep.
  assert (Lsk : length (skipn nParam xs) = (n - nParam)%nat) by (rewrite skipn_length; lia).
  rewrite <- Lsk in Ep.
  pose proof ND as ND'. rewrite <- (firstn_skipn nParam xs) in ND'. apply NoDup_split in ND'.
  assert (Isk : incl (skipn nParam xs) xs).
  { intros x I. rewrite <- (firstn_skipn nParam xs). apply in_or_app. right. exact I. }
  assert (Hargs : forall i w, nth_error ws i = Some w -> (nParam <= i)%nat -> m_args m0 (Z.of_nat i) = Some w).
  { intros i w Ew Hi. rewrite Em0. cbn [set_args m_args]. specialize (HA (i - nParam)%nat w).
    replace (nParam + (i - nParam))%nat with i in HA by lia. apply HA. rewrite nth_error_skipn.
    replace (nParam + (i - nParam))%nat with i by lia. exact Ew. }
  destruct (@exec_params gc' decl' id' call' (skipn nParam xs) nParam (set argsIdent (VP BArgs 0) t0) m0 passign Ep) as (t4 & E4 & P4 & Q4).
  { apply get_set_same. }
  { rewrite Lsk. lia. }
  { intros x I. apply Dx. apply Isk. exact I. }
  { intro I. apply Nx. apply Isk. exact I. }
  { apply ND'. }
  { intros i Hi. destruct (nth_error ws (nParam + i)) as [w|] eqn:Ew.
    - exists w. apply Hargs; [exact Ew|lia].
    - apply nth_error_None in Ew. lia. }
  exists t4. split; [exact E4|].
  assert (G4 : forall i x w, nth_error xs i = Some x -> nth_error ws i = Some w -> get x t4 = Some w).
  { intros i x w Exx Ew. destruct (Nat.lt_ge_cases i nParam) as [Lt|Ge].
    - assert (I1 : nth_error (firstn nParam xs) i = Some x) by (rewrite firstn_nth_error; auto).
      rewrite Q4.
      + rewrite get_set_other by (intros ->; apply Nx; eapply nth_error_In; exact Exx).
        eapply set_lists_nth; [exact Et0| |exact I1|rewrite firstn_nth_error; auto].
        apply ND'.
      + apply nth_error_In in I1. apply ND'. exact I1.
    - rewrite (P4 (i - nParam)%nat x).
      + replace (nParam + (i - nParam))%nat with i by lia. apply Hargs; auto.
      + rewrite nth_error_skipn. replace (nParam + (i - nParam))%nat with i by lia. exact Exx. }
  clear -G4 Lx Lw. assert (L : length xs = length ws) by congruence. clear Lx Lw. revert ws L G4.
  induction xs as [|x xs IH]; intros [|w ws] L G4; try discriminate; constructor.
  - exact (G4 0%nat x w eq_refl eq_refl).
  - apply IH; [injection L; auto|]. intros i y v E1 E2. exact (G4 (S i) y v E1 E2).
Qed.
Print Assumptions C38_arguments_partial.

Example C38_example :
  let t := [(11%positive, VZ 3); (12%positive, VP BHeap 50); (13%positive, VZ 5)] in
  let ys := [11; 12; 11; 13]%positive in
  Forall2 (means [] [] t) ys [VZ 3; VP BHeap 50; VZ 3; VZ 5] /\ ~ In argsIdent ys /\
  (exists s, asgnAppVars 2 ys (map N.of_nat (seq 0 4)) [] [] = Some s) /\
  (exists c, mkCall 2 None [] [] (Xfun 9%positive) (Nat.min 4 2) ys = Some c) /\
  (exists s, asgnFunVars 2 [21; 22; 23; 24]%positive (map N.of_nat (seq 0 4)) = Some s).
Proof.
  intros t ys. split; [repeat constructor; intros ? ?; reflexivity|]. split; [intro I; in_cases I; discriminate|].
  split; [eexists; vm_compute; reflexivity|]. split; eexists; vm_compute; reflexivity.
Qed.

(** Refuted for functions with more parameters than the args array (1024 words,
    runtime/gc_stack.h) and the C parameters can take: the compiler does not
    check, and the code writes beyond the array. *)
Definition many : list positive := map (fun i => Pos.of_nat (1000 + i)) (seq 0 1030).
Theorem C38_too_many_refuted : exists B e c v prog,
  bstep_fuel ex_cenv [] (Efun B e) c (Res v) /\
  compile 5 false [] ex_cenv 1000 (Efun B e) = Some prog /\
  (forall k, run shift_gc gcIdent prog (S k) bodyIdent [] (start 50) = CUB).
Proof.
  exists (Fcons 200 20 many (Ehalt 1000) Fnil)%positive, (Econstr 220 1 [] (Eletapp 221 200 20 (repeat 220 1030) (Ehalt 221)))%positive.
  eexists. eexists. eexists. split; [|split].
  - apply interp_sound with (d := 10%nat). vm_compute. reflexivity.
  - vm_compute. reflexivity.
  - intro k. vm_compute. reflexivity.
Qed.
Print Assumptions C38_too_many_refuted.

(** Refuted for the variant that leaves out stores ([args_opt]): a store is
    left out when the argument is the caller's own parameter for the same slot,
    but a call in between has overwritten the slot.  Here [f x y z] calls
    [h x y z] after [g x y x], and [h], which returns its third argument, gets
    [x].  (The pipeline never turns this variant on: theories/Codegen/toplevel.v,
    [Clight_trans_ANF].) *)
Definition opt_funs : fundefs := (
  Fcons 200 20 [201; 202] (Eapp 210 21 [201; 201; 202])
 (Fcons 210 21 [211; 212; 213] (Eletapp 214 230 21 [211; 212; 211] (Eapp 240 21 [211; 212; 213]))
 (Fcons 230 21 [231; 232; 233] (Ehalt 231)
 (Fcons 240 21 [241; 242; 243] (Ehalt 243) Fnil))))%positive.
Definition opt_main : exp := (Econstr 220 3 [] (Econstr 221 4 [] (Eletapp 223 200 20 [220; 221] (Ehalt 223))))%positive.

Theorem C38_optimised_refuted : exists c prog prog' m m',
  bstep_fuel ex_cenv [] (Efun opt_funs opt_main) c (Res (Vconstr 4%positive [])) /\
  enc ex_cenv (Vconstr 4%positive []) = HInt 3 /\
  compile 2 true [] ex_cenv 1000 (Efun opt_funs opt_main) = Some prog /\
  run shift_gc gcIdent prog 10 bodyIdent [] (start 50) = COk (VZ 1) m /\
  compile 2 false [] ex_cenv 1000 (Efun opt_funs opt_main) = Some prog' /\
  run shift_gc gcIdent prog' 10 bodyIdent [] (start 50) = COk (VZ 3) m'.
Proof.
  eexists. eexists. eexists. eexists. eexists. split.
  - apply interp_sound with (d := 20%nat). vm_compute. reflexivity.
  - split; [reflexivity|]. split; [vm_compute; reflexivity|]. split; [vm_compute; reflexivity|].
    split; [vm_compute; reflexivity|vm_compute; reflexivity].
Qed.
Print Assumptions C38_optimised_refuted.

(** With that variant a call passing a non-parameter in the args array does not
    compile at all (its other variant does). *)
Theorem C38_optimised_error_refuted :
  let e := (Efun opt_funs (Econstr 220 3 [] (Eletapp 223 210 21 [220; 220; 220] (Ehalt 223))))%positive in
  compile 2 true [] ex_cenv 1000 e = None /\ exists prog, compile 2 false [] ex_cenv 1000 e = Some prog.
Proof. split; [vm_compute; reflexivity|eexists; vm_compute; reflexivity]. Qed.
Print Assumptions C38_optimised_error_refuted.
