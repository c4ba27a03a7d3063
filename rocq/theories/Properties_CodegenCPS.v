(** * C81: the C back end for programs in continuation-passing style

    Specification: CG_Spec.v (what a word denotes), KC_Spec.v (what the
    collector must do) and the source semantics ANF_Eval.v. *)
From Coq Require Import ZArith NArith List Lia Bool.
Import ListNotations.
From Verif Require Import ANF_Syntax ANF_Eval ANF_EvalProofs ANF_Spec ANF_FreeProofs.
From Verif Require Import CG_Clight CG_Model CG_Spec CG_Stack CG_Proofs CG_Top CG_Collector KC_Model KC_Spec KC_Proofs KC_Top.
From Verif Require Import Properties_Codegen.
Set Implicit Arguments.
Local Open Scope Z_scope.

(** ** Two collectors, for the examples *)

(** makes room for [fi[0]] words by moving every block below the free area; the
    slots of the args array that are not roots are lost; [hi] is the new end of
    the free area and [lim] the new [limit] *)
Definition kshift (hi : Z -> mem -> Z) (lim : Z -> mem -> cval) (info : list Z) (m : mem) : gres :=
  match m_alloc m with
  | VP BHeap a =>
      if a <? m_hi m then
        let n := nth 0 info 0 in
        GOk {| m_heap := shift_heap a (m_hi m) n (m_heap m); m_lo := a - n; m_hi := hi a m;
               m_args := fun i => if existsb (Z.eqb i) (roots info) then option_map (reloc a n) (m_args m i) else None;
               m_alloc := VP BHeap (a - n); m_limit := lim a m; m_fp := m_fp m; m_nalloc := m_nalloc m;
               m_frames := m_frames m; m_next := m_next m |}
      else GAbort
  | _ => GAbort
  end.

(** leaves the end of the free area where it is *)
Definition kshift_gc : list Z -> mem -> gres := kshift (fun _ m => m_hi m) (fun _ m => m_limit m).

(** leaves exactly the words asked for *)
Definition ktight_gc : list Z -> mem -> gres := kshift (fun a _ => a) (fun a _ => VP BHeap a).

Lemma hrepr_hi h lo hi hi' v w : hi' <= hi -> hrepr h lo hi v w -> hrepr h lo hi' v w.
Proof.
  intros L. induction 1 as [z|f|hdr vs p ws Hh Ho Hl Hs Hf Hr IH]; [constructor|constructor|].
  apply (@HR_block _ _ _ _ _ _ ws); auto; [destruct Ho; [left|right]; lia|].
  intros i v N. destruct (Hf _ _ N) as [[O|O] E]; (split; [|exact E]); [left; exact O|right; lia].
Qed.

Lemma kshift_ok hi lim :
  (forall a m, m_lo m <= a < m_hi m -> area m a -> a <= hi a m <= m_hi m /\ lim a m = VP BHeap (hi a m)) -> kgc_ok (kshift hi lim).
Proof.
  intros H info m a Hba Ar Pn Hr. pose proof Ar as [A1 A2]. unfold kshift. rewrite A1.
  destruct (Z.ltb_spec a (m_hi m)) as [L|L]; [right|left; reflexivity].
  destruct (H a m ltac:(lia) Ar) as [H1 H2].
  eexists. exists (a - nth 0 info 0). split; [reflexivity|]. split; [split; [reflexivity|exact H2]|].
  cbn [m_lo m_hi m_args]. split; [lia|]. split; [lia|].
  intros i w v I G R.
  assert (E : existsb (Z.eqb i) (roots info) = true) by (apply existsb_exists; exists i; split; [exact I|apply Z.eqb_refl]).
  rewrite E, G. exists (reloc a (nth 0 info 0) w). split; [reflexivity|].
  unfold hr. cbn [m_heap m_hi]. apply hrepr_hi with (hi := m_hi m); [lia|]. apply shift_repr; assumption.
Qed.

Lemma kshift_gc_ok : kgc_ok kshift_gc /\ keeps_limit kshift_gc.
Proof.
  split.
  - apply kshift_ok. intros a m Hb [_ A]. split; [lia|exact A].
  - intros info m m' H. unfold kshift_gc, kshift in H. destruct (m_alloc m) as [|[]|]; try discriminate.
    destruct (o <? m_hi m); [|discriminate]. assert (E : forall x y, GOk x = GOk y -> x = y) by (intros; congruence).
    apply E in H. subst m'. reflexivity.
Qed.

Lemma ktight_gc_ok : kgc_ok ktight_gc.
Proof. apply kshift_ok. intros a m Hb _. split; [lia|reflexivity]. Qed.

(** ** Whole programs *)

(** The compiled program, started with some free words, returns a word denoting
    the value of the source program, which is also left in slot 1 of the args
    array, unless the collector gives up.  For every collector that meets the
    contract of runtime/gc.h and does not move the end of the free area (without
    the latter: [C81_stale_limit_refuted]), every number of C parameters.
    Missing for the whole statement: primitives and literals (no rule in the
    source semantics), programs whose main expression analyses a value
    ([C81_main_case_refuted]), calls that are not tail calls
    ([C81_letapp_refuted]; conversion to continuation-passing style leaves
    none). *)
Theorem C81_program_value_partial : forall kgc nParam prims cenv B e n prog,
  kgc_ok kgc -> keeps_limit kgc -> kprog_ok cenv B e ->
  kcompile nParam prims cenv n (Efun B e) = Some prog ->
  forall m a, m_lo m <= a <= m_hi m -> area m a ->
  forall c v, bstep_fuel cenv [] (Efun B e) c (Res v) ->
  forall k, (c <= k)%nat ->
  krun kgc prog k bodyIdent [] m = CAbort \/
  exists w m' a', krun kgc prog k bodyIdent [] m = COk w m' /\
    m_args m' 1 = Some w /\ hr m' a' (enc cenv v) w /\ area m' a' /\ m_lo m' <= a' <= m_hi m'.
Proof.
  intros kgc nParam prims cenv B e n prog GC KL PO CO m a Hb Ar c v H k Hk.
  destruct (@kcompile_term kgc GC KL nParam prims cenv B e PO n prog CO c v m a H Hb Ar k Hk) as [[[] _]|[E|(v' & w & m' & a' & <- & E & A' & B' & W' & O1 & _)]].
  - left. exact E.
  - right. exists w, m', a'. split; [exact E|]. split; [exact W'|]. split; [exact O1|]. split; assumption.
Qed.
Print Assumptions C81_program_value_partial.

(** A program that does not go wrong is never compiled to code with undefined
    behaviour, and when the code returns, it returns the value of the program. *)
Theorem C81_program_safe_partial : forall kgc nParam prims cenv B e n prog,
  kgc_ok kgc -> keeps_limit kgc -> kprog_ok cenv B e ->
  kcompile nParam prims cenv n (Efun B e) = Some prog ->
  forall m a, m_lo m <= a <= m_hi m -> area m a ->
  not_stuck cenv [] (Efun B e) ->
  forall k,
  krun kgc prog k bodyIdent [] m <> CUB /\
  (forall w m', krun kgc prog k bodyIdent [] m = COk w m' ->
     exists c v a', bstep_fuel cenv [] (Efun B e) c (Res v) /\ hr m' a' (enc cenv v) w).
Proof.
  intros kgc nParam prims cenv B e n prog GC KL PO CO m a Hb Ar H k.
  destruct (@kcompile_safe kgc GC KL nParam prims cenv B e PO n prog CO m a H Hb Ar k) as [[_ E]|[E|(v & w & m' & a' & (c & Hv) & E & _ & _ & _ & O1 & _)]];
    rewrite E; (split; [discriminate|]); intros w0 m0 E0; try discriminate.
  assert (Q : w = w0 /\ m' = m0) by (split; congruence). destruct Q as [<- <-]. exists c, v, a'. split; assumption.
Qed.
Print Assumptions C81_program_safe_partial.

(** A diverging program is compiled to code that never returns. *)
Theorem C81_program_diverges_partial : forall kgc nParam prims cenv B e n prog,
  kgc_ok kgc -> keeps_limit kgc -> kprog_ok cenv B e ->
  kcompile nParam prims cenv n (Efun B e) = Some prog ->
  forall m a, m_lo m <= a <= m_hi m -> area m a ->
  diverge cenv [] (Efun B e) ->
  forall k, krun kgc prog k bodyIdent [] m = CTime \/ krun kgc prog k bodyIdent [] m = CAbort.
Proof.
  intros kgc nParam prims cenv B e n prog GC KL PO CO m a Hb Ar H k.
  destruct (@kcompile_safe kgc GC KL nParam prims cenv B e PO n prog CO m a (or_intror H) Hb Ar k) as [[_ E]|[E|(v & w & m' & a' & (c & Hv) & E & _)]];
    [left; exact E|right; exact E|]. exfalso. specialize (H (S c)).
  pose proof (bstep_fuel_oot_lt _ _ _ _ _ _ H Hv). lia.
Qed.
Print Assumptions C81_program_diverges_partial.

(** ** Examples *)

(** [add n m k], where a continuation is a pair of a function and its environment *)
Definition kex_funs : fundefs := (
  Fcons 200 20 [201; 202; 203]
    (Ecase 201 [(1, Eproj 204 5 0%N 203 (Eproj 205 5 1%N 203 (Eapp 204 21 [205; 202])));
                (2, Eproj 206 2 0%N 201
                   (Econstr 207 5 [210; 203]
                   (Eapp 200 20 [206; 202; 207])))])
  (Fcons 210 21 [211; 212]
    (Econstr 213 2 [212]
    (Eproj 214 5 0%N 211 (Eproj 215 5 1%N 211 (Eapp 214 21 [215; 213]))))
  (Fcons 220 21 [221; 222] (Ehalt 222) Fnil)))%positive.

Definition kex_main : exp := (
  Econstr 230 1 []
 (Econstr 231 2 [230]
 (Econstr 232 2 [231]
 (Econstr 233 5 [220; 230]
 (Eapp 200 20 [232; 232; 233])))))%positive.

Ltac kfun_ok :=
  cbn [all_funs]; repeat split; auto;
    try (repeat constructor; cbn; intuition discriminate);
    try (cbn; lia);
    try (let x := fresh "x" in let I := fresh "I" in intros x I; in_cases I; split; let J := fresh "J" in intro J; in_cases J; discriminate);
    try (let x := fresh "x" in let F := fresh "F" in intros x F; apply in_app_or; revert x F; apply free_dec_incl; let I := fresh "I" in intros x I; vm_compute in I; cbn; tauto);
    try (cbn; intros; match goal with H : Some _ = Some _ |- _ => injection H as <-; reflexivity end);
    try (cbn; intuition discriminate);
    try (let J := fresh "J" in intro J; match goal with H : In ?y (_ ++ _) |- _ => in_cases H; in_cases J; discriminate end).

Lemma kex_prog_ok : kprog_ok ex_cenv kex_funs kex_main.
Proof.
  constructor.
  - exact ex_cenv_ok.
  - intros f I. in_cases I; repeat split; try discriminate; intro J; in_cases J; discriminate.
  - unfold kex_funs at 2. kfun_ok.
  - split.
    all: try (cbn; lia).
    + intros x I. cbn in I. split; intro J; in_cases I; in_cases J; discriminate.
    + cbn. repeat split; try (intros i E; injection E as <-; reflexivity); try lia; intuition discriminate.
  - cbn. exact Logic.I.
Qed.

Example C81_example : kgc_ok kshift_gc /\ keeps_limit kshift_gc /\ kprog_ok ex_cenv kex_funs kex_main /\
  m_lo (start 2) <= 100 <= m_hi (start 2) /\ area (start 2) 100 /\
  bstep_fuel ex_cenv [] (Efun kex_funs kex_main) 27 (Res (nat_val 4)).
Proof.
  split; [apply kshift_gc_ok|]. split; [apply kshift_gc_ok|]. split; [exact kex_prog_ok|].
  split; [cbn; lia|]. split; [apply start_ok; lia|].
  apply interp_sound with (d := 60%nat). vm_compute. reflexivity.
Qed.

Definition kread (r : rres) : option nat := match r with COk w m => read_nat 20 m w | _ => None end.
Definition krun_ex (kgc : list Z -> mem -> gres) (B : fundefs) (e : exp) (nParam : nat) (words : Z) : option rres :=
  match kcompile nParam [] ex_cenv 1000 (Efun B e) with
  | Some p => Some (krun kgc p 40 bodyIdent [] (start words))
  | None => None
  end.

(** it runs, with none, some and all parameters in the args array, and with
    collections that move what was allocated *)
Example C81_example_runs :
  map (fun n => option_map kread (krun_ex kshift_gc kex_funs kex_main n 2)) [0; 2; 7]%nat = repeat (Some (Some 4%nat)) 3 /\
  map (fun n => option_map kread (krun_ex kshift_gc kex_funs kex_main n 9)) [0; 2; 7]%nat = repeat (Some (Some 4%nat)) 3 /\
  map (fun n => option_map kread (krun_ex kshift_gc kex_funs kex_main n 60)) [0; 2; 7]%nat = repeat (Some (Some 4%nat)) 3.
Proof. vm_compute. repeat split. Qed.

(** a program that loops *)
Definition kloop_main : exp := (Econstr 220 1 [] (Eapp 200 20 [220; 220]))%positive.

Example C81_example_loop :
  kprog_ok ex_cenv loop_funs kloop_main /\ diverge ex_cenv [] (Efun loop_funs kloop_main) /\
  exists p, kcompile 2 [] ex_cenv 1000 (Efun loop_funs kloop_main) = Some p.
Proof.
  split; [|split].
  - constructor.
    + exact ex_cenv_ok.
    + intros f I. in_cases I; repeat split; try discriminate; intro J; in_cases J; discriminate.
    + unfold loop_funs at 2. kfun_ok.
    + split.
      all: try (cbn; lia).
      * intros x I. cbn in I. split; intro J; in_cases I; in_cases J; discriminate.
      * cbn. repeat split; try (intros i E; injection E as <-; reflexivity); try lia; intuition discriminate.
    + cbn. exact Logic.I.
  - assert (H : forall c rho v w, get 200%positive rho = Some (Vfun [] loop_funs 200%positive) ->
        get 201%positive rho = Some v -> get 202%positive rho = Some w ->
        bstep_fuel ex_cenv rho (Eapp 200 20 [202; 201])%positive c OOT).
    { induction c as [|c IH]; intros rho v w G1 G2 G3; [constructor; lia|].
      replace (S c) with (c + 1)%nat by lia. apply BStepf_run.
      eapply BStept_app; [exact G1|cbn [get_list]; rewrite G3, G2; reflexivity|reflexivity|reflexivity|].
      eapply IH; reflexivity. }
    intro c. destruct c as [|c]; [constructor; lia|]. replace (S c) with (c + 1)%nat by lia. apply BStepf_run. apply BStept_fun.
    destruct c as [|c]; [constructor; lia|]. replace (S c) with (c + 1)%nat by lia. apply BStepf_run. eapply BStept_constr; [reflexivity|].
    destruct c as [|c]; [constructor; lia|]. replace (S c) with (c + 1)%nat by lia. apply BStepf_run.
    eapply BStept_app; [reflexivity|reflexivity|reflexivity|reflexivity|]. eapply H; reflexivity.
  - eexists. vm_compute. reflexivity.
Qed.

(** ** Where the code falls short *)

(** After a collection the code reloads [alloc] but not [limit]
    (LambdaANF_to_Clight.v:445-452, 701-719), and the next call stores the old
    [limit] into thread_info.  With a collector that meets its documented contract
    but moves the end of the free area, later checks for room pass wrongly and
    the code writes outside the free area. *)
Theorem C81_stale_limit_refuted : exists kgc B e v c nParam prog m a,
  kgc_ok kgc /\ kprog_ok ex_cenv B e /\ kcompile nParam [] ex_cenv 1000 (Efun B e) = Some prog /\
  m_lo m <= a <= m_hi m /\ area m a /\ bstep_fuel ex_cenv [] (Efun B e) c (Res v) /\
  krun kgc prog c bodyIdent [] m = CUB.
Proof.
  exists ktight_gc, kex_funs, kex_main, (nat_val 4), 27%nat, 2%nat. eexists. exists (start 5), 100.
  split; [exact ktight_gc_ok|]. split; [exact kex_prog_ok|]. split; [vm_compute; reflexivity|].
  split; [cbn; lia|]. split; [apply start_ok; lia|].
  split; [apply interp_sound with (d := 60%nat); vm_compute; reflexivity|]. vm_compute. reflexivity.
Qed.
Print Assumptions C81_stale_limit_refuted.

(** The main function does not declare the temporary that receives the result
    of [is_ptr] (LambdaANF_to_Clight.v:1150-1179; the other functions declare
    it), so a main expression with a case analysis is translated to code that
    assigns an undeclared variable. *)
Theorem C81_main_case_refuted : exists e v c prog,
  bstep_fuel ex_cenv [] (Efun Fnil e) c (Res v) /\
  kcompile 2 [] ex_cenv 1000 (Efun Fnil e) = Some prog /\
  (forall k, krun kshift_gc prog (S k) bodyIdent [] (start 50) = CUB).
Proof.
  exists (Econstr 230 3 [] (Ecase 230 [(3, Ehalt 230); (4, Ehalt 230)]))%positive.
  eexists. eexists. eexists. split; [|split].
  - apply interp_sound with (d := 10%nat). vm_compute. reflexivity.
  - vm_compute. reflexivity.
  - intro k. destruct k; vm_compute; reflexivity.
Qed.
Print Assumptions C81_main_case_refuted.

(** The back end also translates calls that are not tail calls
    (LambdaANF_to_Clight.v:854-872), but neither checks for room after them (the
    callee used up some of what was reserved) nor keeps the variables needed
    after the call where the collector sees them: [(2 + 2, 2)] in direct style. *)
Definition letapp_main : exp := (
  Econstr 220 1 []
 (Econstr 221 2 [220]
 (Econstr 222 2 [221]
 (Eletapp 223 200 20 [222; 222]
 (Econstr 224 5 [223; 222]
 (Ehalt 224))))))%positive.

Theorem C81_letapp_refuted : exists e v c prog,
  bstep_fuel ex_cenv [] (Efun ex_funs e) c (Res v) /\
  kcompile 3 [] ex_cenv 1000 (Efun ex_funs e) = Some prog /\
  krun kshift_gc prog c bodyIdent [] (start 9) = CUB.
Proof.
  exists letapp_main. eexists. eexists. eexists. split; [|split].
  - apply interp_sound with (d := 60%nat). vm_compute. reflexivity.
  - vm_compute. reflexivity.
  - vm_compute. reflexivity.
Qed.
Print Assumptions C81_letapp_refuted.

(** With room for everything, calls that are not tail calls do work: the result
    is in slot 1, [alloc] is read again, and the variables are still there. *)
Example C81_letapp_room :
  map (fun n => option_map read_pair (krun_ex kshift_gc ex_funs letapp_main n 60)) [0; 2; 7]%nat = repeat (Some (Some (4, 2)%nat)) 3.
Proof. vm_compute. reflexivity. Qed.

(** A float literal is stored by assigning a [double] to an lvalue of type
    [void *] (LambdaANF_to_Clight.v:776-782; the other back end casts the
    pointer, LambdaANF_to_Clight_stack.v:862): the code has no meaning in C,
    while the program for an integer literal returns it. *)
Theorem C81_float_literal_refuted : exists p1 p2,
  kcompile 2 [] ex_cenv 1000 (Efun Fnil (Eprim_val 230 (PVfloat 4609434218613702656%Z) (Ehalt 230)))%positive = Some p1 /\
  kcompile 2 [] ex_cenv 1000 (Efun Fnil (Eprim_val 230 (PVint 5) (Ehalt 230)))%positive = Some p2 /\
  (forall k, krun kshift_gc p1 (S k) bodyIdent [] (start 50) = CUB) /\
  (exists m, krun kshift_gc p2 1 bodyIdent [] (start 50) = COk (VZ 11) m).
Proof.
  eexists. eexists. split; [vm_compute; reflexivity|]. split; [vm_compute; reflexivity|].
  split; [intro k; vm_compute; reflexivity|]. eexists. vm_compute. reflexivity.
Qed.
Print Assumptions C81_float_literal_refuted.
