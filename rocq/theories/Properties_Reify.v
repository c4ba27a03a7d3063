(** * C85: reading a result back as a Rocq term *)
From Coq Require Import ZArith NArith PArith List Lia Bool Arith Ascii String.
From Verif Require Import ANF_Syntax ANF_Eval Pipe_Model Pipe_Main Properties_Pipeline End_Wasm Properties_EndToEnd AN_Model AN_Spec AN_Sig AN_Eval End_Front Properties_Whole
  CG_Clight CG_Model CG_Spec CG_Collector End_C Properties_Codegen Properties_EndToEndC CP_Model CP_Proofs CP_Twin CP_End Properties_WholeCPS KC_Model KC_Spec KC_Proofs KC_Top Properties_CodegenCPS End_KC Properties_WholeCPSC
  EA_Model EA_Spec EA_Proofs Properties_Erased Properties_ErasedEnd.
From Verif Require Import LB_Spec.
From Verif Require Layout_Model Layout_Proofs Properties_Layout LB_Model Names_Model.
Import LB_Model.
From Verif Require Import RF_Model RF_Spec RF_Subst RF_Proofs RF_End.
Import ListNotations.
Local Open Scope nat_scope.

(** A value in memory is read back as itself. *)
Theorem C85_reads_back : forall E im strings h lo hi ty t hv w,
  readable E im -> closed ty -> value E ty t -> relevant E t -> shown E im t hv -> hrepr h lo hi hv w ->
  exists n, forall f, n <= f -> reify_result f strings E im h ty w = Done t.
Proof.
  intros E im strings h lo hi ty t hv w RD C V R SH HR.
  destruct (meets_likes E ty ty t V (or_intror (conj C eq_refl))) as (r & Q1 & Q2).
  destruct (reads_back E im strings h lo hi RD ty t V R hv w SH HR r Q2) as [n N].
  exists n. intros f L. unfold reify_result. rewrite Q1. cbn [andthen]. apply N. exact L.
Qed.
Print Assumptions C85_reads_back.

Lemma readable_orders E im : readable E im -> orders_ok E im.
Proof. intros RD i d tags Ei En k I. exact (own_inverse_bound _ _ (rd_order _ _ RD i d tags Ei En) k I). Qed.

(** Compiled to C and run, a program whose value is the erasure of [c] returns a
    word that is read back as [c], unless memory is exhausted. *)
Theorem C85_eval : forall nParam prims lprims nv opts name g nenv G t cenv' e' prog gc,
  wf_glob G = true -> wellformed G 0 t = true -> eglobals_ok G -> program_ok name g (local_of G t) -> (100 <= nv)%positive -> gc_ok gc ->
  compile_source_c nParam prims lprims nv opts name g nenv (local_of G t) = Some (cenv', e', prog) -> fits nParam cenv' e' ->
  forall m a ids, wfm m a ids -> area m a -> esafe false (local_of G t) ->
  forall E im strings ty c v,
  readable E im -> same_types E im name g -> closed ty -> value E ty c -> relevant E c -> erases E im c v -> ev G t v ->
  exists n, forall k, n <= k ->
  run gc Names_Model.gcIdent prog k Names_Model.bodyIdent [] m = CAbort \/
  exists w m', run gc Names_Model.gcIdent prog k Names_Model.bodyIdent [] m = COk w m' /\
    exists n', forall f, n' <= f -> reify_result f strings E im (m_heap m') ty w = Done c.
Proof.
  intros nParam prims lprims nv opts name g nenv G t cenv' e' prog gc WG W GO OK L GC H F m a ids WM AR SF E im strings ty c v RD ST C V R ER EV.
  destruct (final_table _ _ _ _ _ _ _ _ _ _ _ _ OK H) as [TAB DEF].
  destruct (erased_shown E im name g cenv' ST (readable_orders E im RD) TAB DEF c v ER) as (e & u & D & T & SH).
  destruct (C83_to_c nParam prims lprims nv opts name g nenv G t cenv' e' prog gc WG W GO OK L GC H F m a ids WM AR SF v e u EV D T) as [n N].
  exists n. intros k K. destruct (N k K) as [X|(w & m' & a' & X1 & X2 & _)]; [left; exact X|right]. exists w, m'. split; [exact X1|].
  exact (C85_reads_back E im strings _ _ _ ty c _ w RD C V R SH X2).
Qed.
Print Assumptions C85_eval.

(** The same in continuation-passing style.  Partial as C82 is: [kfits] asks that
    the main expression of the compiled program branch on nothing. *)
Theorem C85_eval_cps_partial : forall nParam prims lprims nv opts name g nenv G t cenv' e' prog kgc,
  wf_glob G = true -> wellformed G 0 t = true -> eglobals_ok G -> program_ok name g (local_of G t) -> (100 <= nv)%positive -> kgc_ok kgc -> keeps_limit kgc ->
  compile_source_kc nParam prims lprims nv opts name g nenv (local_of G t) = Some (cenv', e', prog) -> kfits cenv' e' ->
  forall m a, (m_lo m <= a <= m_hi m)%Z -> area m a -> esafe false (local_of G t) ->
  forall E im strings ty c v,
  readable E im -> same_types E im name g -> closed ty -> value E ty c -> relevant E c -> erases E im c v -> ev G t v ->
  exists n, forall k, n <= k ->
  krun kgc prog k Names_Model.bodyIdent [] m = CAbort \/
  exists w m', krun kgc prog k Names_Model.bodyIdent [] m = COk w m' /\
    exists n', forall f, n' <= f -> reify_result f strings E im (m_heap m') ty w = Done c.
Proof.
  intros nParam prims lprims nv opts name g nenv G t cenv' e' prog kgc WG W GO OK L GC KL H F m a Hb AR SF E im strings ty c v RD ST C V R ER EV.
  destruct (final_table_cps _ _ _ _ _ _ _ _ _ _ _ _ OK L H) as [TAB DEF].
  destruct (erased_shown E im name g cenv' ST (readable_orders E im RD) TAB DEF c v ER) as (e & u & D & T & SH).
  destruct (C82_from_metarocq_partial nParam prims lprims nv opts name g nenv G t cenv' e' prog kgc WG W GO OK L GC KL H F m a Hb AR SF v e u EV D T) as [n N].
  exists n. intros k K. destruct (N k K) as [X|(w & m' & a' & X1 & _ & X2 & _)]; [left; exact X|right]. exists w, m'. split; [exact X1|].
  exact (C85_reads_back E im strings _ _ _ ty c _ w RD C V R SH X2).
Qed.
Print Assumptions C85_eval_cps_partial.

(** The order used for a type, by the reader and in the statements here, is the
    one registered last. *)
Theorem C85_latest_order : forall i im o, latest i im o <-> entry i im = o.
Proof.
  assert (IE : forall i j, ind_eqb i j = true <-> i = j).
  { intros [a n] [b m]. unfold ind_eqb. cbn [fst snd]. rewrite andb_true_iff, String.eqb_eq, Nat.eqb_eq. split; [intros [-> ->]; reflexivity|intro Q; injection Q; auto]. }
  intros i im o. split.
  - induction 1 as [|tags im|j tags im o N L IH]; cbn [entry]; [reflexivity| |].
    + now rewrite (proj2 (IE i i) eq_refl).
    + destruct (ind_eqb j i) eqn:Q; [apply IE in Q; contradiction|exact IH].
  - intros <-. induction im as [|[j tags] im IH]; cbn [entry]; [constructor|].
    destruct (ind_eqb j i) eqn:Q; [apply IE in Q; subst; constructor|]. constructor; [|exact IH].
    intro Q'. apply IE in Q'. congruence.
Qed.
Print Assumptions C85_latest_order.

(** A registered order of constructors is undone by the reader exactly when it
    undoes itself. *)
Theorem C85_orders : forall i tags, NoDup tags -> (forall k, In k tags -> k < List.length tags) ->
  ((forall k k', placed [(i, tags)] i k k' -> find_reverse_mapping i [(i, tags)] k' = k) <-> own_inverse (List.length tags) tags).
Proof.
  intros i tags ND B.
  assert (IE : ind_eqb i i = true) by (destruct i; unfold ind_eqb; cbn [fst snd]; rewrite String.eqb_refl, Nat.eqb_refl; reflexivity).
  unfold placed, find_reverse_mapping. cbn [entry]. rewrite IE. split.
  - intro H. split; [reflexivity|]. intros j k N. specialize (H k j N).
    assert (IN : In j tags).
    { assert (INC : incl (seq 0 (List.length tags)) tags).
      { apply NoDup_length_incl; [exact ND|rewrite seq_length; lia|]. intros x I. apply in_seq. specialize (B x I). lia. }
      apply INC. apply in_seq. assert (j < List.length tags) by (apply nth_error_Some; congruence). lia. }
    apply In_nth_error in IN as [q Q]. rewrite (index0_nth tags q j ND Q) in H. subst. exact Q.
  - intros O k k' N. rewrite (index0_nth tags k k' ND (proj2 O _ _ N)). reflexivity.
Qed.
Print Assumptions C85_orders.

(** ** Examples *)

(** naturals, lists, truth values, vectors; triples with a definition among the
    arguments *)
Definition i_nat : LB_Model.inductive := ("nat"%string, 0).
Definition i_list : LB_Model.inductive := ("list"%string, 0).
Definition i_bool : LB_Model.inductive := ("bool"%string, 0).
Definition i_vec : LB_Model.inductive := ("vec"%string, 0).
Definition i_lets : LB_Model.inductive := ("lets"%string, 0).
Definition t_nat : cterm := cInd i_nat.
Definition t_O : cterm := cConstruct i_nat 0.
Definition t_S (t : cterm) : cterm := cApp (cConstruct i_nat 1) [t].
Definition d_nat : idecl := mkidecl 0 false [mkctor [] []; mkctor [Assum t_nat] []].
Definition d_list : idecl := mkidecl 1 false [mkctor [] []; mkctor [Assum (cRel 0); Assum (cApp (cInd i_list) [cRel 1])] []].
Definition d_bool : idecl := mkidecl 0 false [mkctor [] []; mkctor [] []].
Definition d_vec : idecl := mkidecl 1 false
  [mkctor [] [t_O]; mkctor [Assum (cRel 0); Assum t_nat; Assum (cApp (cInd i_vec) [cRel 2; cRel 0])] [t_S (cRel 1)]].
(* Inductive lets A := mk (a : A) (B := A) (b : list B) *)
Definition d_lets : idecl := mkidecl 1 false [mkctor [Assum (cRel 0); Def (cRel 1) (cConst "Type"); Assum (cApp (cInd i_list) [cRel 0])] []].
Definition x_genv : genv := fun i =>
  if ind_eqb i i_nat then Some d_nat else if ind_eqb i i_list then Some d_list else if ind_eqb i i_bool then Some d_bool
  else if ind_eqb i i_vec then Some d_vec else if ind_eqb i i_lets then Some d_lets else None.
Definition x_map : mapping := [(i_bool, [1; 0])].

Lemma x_cases i d : x_genv i = Some d -> In (i, d) [(i_nat, d_nat); (i_list, d_list); (i_bool, d_bool); (i_vec, d_vec); (i_lets, d_lets)].
Proof.
  assert (Q : forall j, ind_eqb i j = true -> i = j).
  { intros j H. unfold ind_eqb in H. apply andb_true_iff in H as [H1 H2]. apply String.eqb_eq in H1. apply Nat.eqb_eq in H2.
    destruct i, j; cbn [fst snd] in *; congruence. }
  unfold x_genv. intro H.
  repeat match type of H with context [if ind_eqb i ?j then _ else _] => let e := fresh in destruct (ind_eqb i j) eqn:e; [apply Q in e; injection H as <-; rewrite e; cbn [In]; tauto|] end.
  discriminate.
Qed.

Ltac each_ctor I := cbn [i_ctors d_nat d_list d_bool d_vec d_lets In] in I; repeat destruct I as [<-|I]; try contradiction.
Lemma x_readable : readable x_genv x_map.
Proof.
  constructor.
  - intros i d c j ty Ei I N. apply x_cases in Ei. repeat destruct Ei as [Ei|Ei]; try contradiction; injection Ei as <- <-; each_ctor I;
      destruct j as [|[|[|j]]]; vm_compute in N; try discriminate; try (destruct j; discriminate); injection N as <-; cbn [i_params d_nat d_list d_bool d_vec d_lets].
    + exact (sa_ind x_genv 0 0 i_nat d_nat [] eq_refl (le_n 0) (Forall_nil _)).
    + apply sa_param; lia.
    + apply (sa_ind x_genv 1 1 i_list d_list [cRel 1] eq_refl (le_n 1)). cbn. constructor; [cbn; lia|constructor].
    + apply sa_param; lia.
    + exact (sa_ind x_genv 1 1 i_nat d_nat [] eq_refl (le_n 0) (Forall_nil _)).
    + apply (sa_ind x_genv 1 2 i_vec d_vec [cRel 2; cRel 0] eq_refl); [cbn; lia|]. cbn. constructor; [cbn; lia|constructor].
    + apply sa_param; lia.
    + apply (sa_ind x_genv 1 1 i_list d_list [cRel 1] eq_refl (le_n 1)). cbn. constructor; [cbn; lia|constructor].
  - intros i d c Ei I A. apply x_cases in Ei. repeat destruct Ei as [Ei|Ei]; try contradiction; injection Ei as <- <-; each_ctor I; cbn in A |- *; auto; discriminate.
  - intros i d tags Ei En. apply x_cases in Ei. repeat destruct Ei as [Ei|Ei]; try contradiction; injection Ei as <- <-; cbn in En; try discriminate.
    injection En as <-. split; [reflexivity|]. intros [|[|[|j]]] k N; cbn in N; try discriminate; injection N as <-; reflexivity.
  - intros i d Ei. apply x_cases in Ei. repeat destruct Ei as [Ei|Ei]; try contradiction; injection Ei as <- <-; cbn; lia.
Qed.

(** the vector [true] and the record of [true] and [[false; true]] *)
Definition t_bool : cterm := cInd i_bool.
Definition t_true : cterm := cConstruct i_bool 0.
Definition t_false : cterm := cConstruct i_bool 1.
Definition t_cons (a l : cterm) : cterm := cApp (cConstruct i_list 1) [t_bool; a; l].
Definition t_nil : cterm := cApp (cConstruct i_list 0) [t_bool].
Definition x_vec : cterm := cApp (cConstruct i_vec 1) [t_bool; t_true; t_O; cApp (cConstruct i_vec 0) [t_bool]].
Definition x_lets : cterm := cApp (cConstruct i_lets 0) [t_bool; t_true; t_cons t_false (t_cons t_true t_nil)].
Definition x_vec_ty : cterm := cApp (cInd i_vec) [t_bool; t_S t_O].
Definition x_lets_ty : cterm := cApp (cInd i_lets) [t_bool].
Definition x_vec_hv : hval := HBlock 3072 [HInt 3; HInt 1; HInt 1].
Definition x_lets_hv : hval := HBlock 2048 [HInt 3; HBlock 2048 [HInt 1; HBlock 2048 [HInt 3; HInt 1]]].
(** blocks at 10, 20, 30, 40 *)
Definition block_at (p : Z) (hdr : Z) (ws : list cval) (h : Z -> option cval) : Z -> option cval :=
  fun x => if (x =? p - 1)%Z then Some (VZ hdr) else
           if ((p <=? x) && (x <? p + Z.of_nat (List.length ws)))%Z%bool then nth_error ws (Z.to_nat (x - p)) else h x.
Definition x_heap : Z -> option cval :=
  block_at 10 3072 [VZ 3; VZ 1; VZ 1] (block_at 20 2048 [VZ 3; VP BHeap 30] (block_at 30 2048 [VZ 1; VP BHeap 40] (block_at 40 2048 [VZ 3; VZ 1] (fun _ => None)))).

Lemma hr_block h lo hi hdr vs p l : h (p - 1)%Z = Some (VZ hdr) -> (p - 1 < lo)%Z -> (p + Z.of_nat (List.length vs) <= lo)%Z ->
  Z.shiftr hdr 10 = Z.of_nat (List.length vs) -> (Z.land hdr 255 < 251)%Z ->
  (forall i, i < List.length vs -> h (p + Z.of_nat i)%Z = nth_error l i) -> Forall2 (hrepr h lo hi) vs l -> hrepr h lo hi (HBlock hdr vs) (VP BHeap p).
Proof.
  intros H1 H2 H3 H4 H5 H6 F. apply HR_block with (ws := fun i => nth i l (VZ 0)); auto.
  - left. exact H2.
  - intros i v N. assert (i < List.length vs) by (apply nth_error_Some; congruence). split; [left; lia|]. rewrite H6 by assumption.
    destruct (Forall2_nth _ _ _ _ _ F N) as (b & B1 & _). rewrite B1. f_equal. symmetry. apply nth_error_nth. exact B1.
  - intros i v N. destruct (Forall2_nth _ _ _ _ _ F N) as (b & B1 & B2). rewrite (nth_error_nth _ _ _ B1). exact B2.
Qed.
Ltac blk ll := eapply (hr_block _ _ _ _ _ _ ll); [reflexivity|cbn; lia|cbn; lia|reflexivity|vm_compute; reflexivity|
  let i := fresh in let L := fresh in intros i L; cbn [List.length] in L; destruct i as [|[|[|i]]]; first [reflexivity|lia]|
  repeat (constructor; [first [apply HR_int|idtac]|]); try constructor].

Lemma bool_value t : t = t_true \/ t = t_false -> value x_genv t_bool t.
Proof.
  intros [-> | ->]; [exact (v_ctor x_genv i_bool d_bool 0 (mkctor [] []) [] [] [] eq_refl eq_refl eq_refl (vs_nil _ _))
                 |exact (v_ctor x_genv i_bool d_bool 1 (mkctor [] []) [] [] [] eq_refl eq_refl eq_refl (vs_nil _ _))].
Qed.
Lemma O_value : value x_genv t_nat t_O.
Proof. exact (v_ctor x_genv i_nat d_nat 0 (mkctor [] []) [] [] [] eq_refl eq_refl eq_refl (vs_nil _ _)). Qed.
Lemma nil_value : value x_genv (cApp (cInd i_list) [t_bool]) t_nil.
Proof. exact (v_ctor x_genv i_list d_list 0 (mkctor [] []) [t_bool] [] [] eq_refl eq_refl eq_refl (vs_nil _ _)). Qed.
Lemma cons_value a l : value x_genv t_bool a -> value x_genv (cApp (cInd i_list) [t_bool]) l -> value x_genv (cApp (cInd i_list) [t_bool]) (t_cons a l).
Proof.
  intros A L. refine (v_ctor x_genv i_list d_list 1 _ [t_bool] [] [a; l] eq_refl eq_refl eq_refl _).
  apply vs_arg; [exact A|]. apply vs_arg; [exact L|]. constructor.
Qed.

Example C85_example :
  readable x_genv x_map /\
  (closed x_vec_ty /\ value x_genv x_vec_ty x_vec /\ relevant x_genv x_vec /\ shown x_genv x_map x_vec x_vec_hv /\ hrepr x_heap 100 200 x_vec_hv (VP BHeap 10)) /\
  (closed x_lets_ty /\ value x_genv x_lets_ty x_lets /\ relevant x_genv x_lets /\ shown x_genv x_map x_lets x_lets_hv /\ hrepr x_heap 100 200 x_lets_hv (VP BHeap 20)) /\
  reify_result 5 true x_genv x_map x_heap x_vec_ty (VP BHeap 10) = Done x_vec /\
  reify_result 5 true x_genv x_map x_heap x_lets_ty (VP BHeap 20) = Done x_lets.
Proof.
  split; [exact x_readable|].
  assert (RB : forall k, relevant x_genv (cConstruct i_bool k)) by (intro k; exact (rl_ctor x_genv i_bool d_bool k [] [] eq_refl eq_refl eq_refl (Forall_nil _))).
  assert (RO : relevant x_genv t_O) by exact (rl_ctor x_genv i_nat d_nat 0 [] [] eq_refl eq_refl eq_refl (Forall_nil _)).
  assert (RC : forall a l, relevant x_genv a -> relevant x_genv l -> relevant x_genv (t_cons a l)).
  { intros a l A L. apply (rl_ctor x_genv i_list d_list 1 [t_bool] [a; l] eq_refl eq_refl eq_refl). auto. }
  assert (RN : relevant x_genv t_nil) by exact (rl_ctor x_genv i_list d_list 0 [t_bool] [] eq_refl eq_refl eq_refl (Forall_nil _)).
  assert (ST : shown x_genv x_map t_true (HInt 3)) by exact (sh_const x_genv x_map i_bool d_bool 0 (mkctor [] []) [] 1 eq_refl eq_refl eq_refl eq_refl eq_refl eq_refl).
  assert (SF : shown x_genv x_map t_false (HInt 1)) by exact (sh_const x_genv x_map i_bool d_bool 1 (mkctor [] []) [] 0 eq_refl eq_refl eq_refl eq_refl eq_refl eq_refl).
  assert (SO : shown x_genv x_map t_O (HInt 1)) by exact (sh_const x_genv x_map i_nat d_nat 0 (mkctor [] []) [] 0 eq_refl eq_refl eq_refl eq_refl eq_refl eq_refl).
  assert (SN : shown x_genv x_map t_nil (HInt 1)) by exact (sh_const x_genv x_map i_list d_list 0 (mkctor [] []) [t_bool] 0 eq_refl eq_refl eq_refl eq_refl eq_refl eq_refl).
  assert (SV : shown x_genv x_map (cApp (cConstruct i_vec 0) [t_bool]) (HInt 1)) by exact (sh_const x_genv x_map i_vec d_vec 0 (mkctor [] [t_O]) [t_bool] 0 eq_refl eq_refl eq_refl eq_refl eq_refl eq_refl).
  assert (SC : forall a l ha hl, shown x_genv x_map a ha -> shown x_genv x_map l hl -> shown x_genv x_map (t_cons a l) (HBlock 2048 [ha; hl])).
  { intros a l ha hl A L. refine (sh_block x_genv x_map i_list d_list 1 _ [t_bool] [a; l] 1 [ha; hl] eq_refl eq_refl eq_refl eq_refl eq_refl _ eq_refl _); [discriminate|].
    repeat constructor; assumption. }
  split; [split; [cbn; tauto|split; [|split; [|split]]]|split; [split; [cbn; tauto|split; [|split; [|split]]]|split; vm_compute; reflexivity]].
  - refine (v_ctor x_genv i_vec d_vec 1 _ [t_bool] [t_S t_O] [t_true; t_O; cApp (cConstruct i_vec 0) [t_bool]] eq_refl eq_refl eq_refl _).
    apply vs_arg; [apply bool_value; auto|]. apply vs_arg; [exact O_value|]. apply vs_arg; [|constructor].
    exact (v_ctor x_genv i_vec d_vec 0 (mkctor [] [t_O]) [t_bool] [t_O] [] eq_refl eq_refl eq_refl (vs_nil _ _)).
  - apply (rl_ctor x_genv i_vec d_vec 1 [t_bool] [t_true; t_O; cApp (cConstruct i_vec 0) [t_bool]] eq_refl eq_refl eq_refl).
    constructor; [apply RB|]. constructor; [exact RO|]. constructor; [|constructor].
    exact (rl_ctor x_genv i_vec d_vec 0 [t_bool] [] eq_refl eq_refl eq_refl (Forall_nil _)).
  - refine (sh_block x_genv x_map i_vec d_vec 1 _ [t_bool] [t_true; t_O; cApp (cConstruct i_vec 0) [t_bool]] 1 [HInt 3; HInt 1; HInt 1] eq_refl eq_refl eq_refl eq_refl eq_refl _ eq_refl _); [discriminate|].
    repeat (constructor; [assumption|]). constructor.
  - blk [VZ 3; VZ 1; VZ 1].
  - refine (v_ctor x_genv i_lets d_lets 0 _ [t_bool] [] [t_true; t_cons t_false (t_cons t_true t_nil)] eq_refl eq_refl eq_refl _).
    apply vs_arg; [apply bool_value; auto|]. apply vs_let. apply vs_arg; [|constructor].
    apply cons_value; [apply bool_value; auto|]. apply cons_value; [apply bool_value; auto|exact nil_value].
  - apply (rl_ctor x_genv i_lets d_lets 0 [t_bool] [t_true; t_cons t_false (t_cons t_true t_nil)] eq_refl eq_refl eq_refl).
    constructor; [apply RB|]. constructor; [|constructor]. apply RC; [apply RB|]. apply RC; [apply RB|exact RN].
  - refine (sh_block x_genv x_map i_lets d_lets 0 _ [t_bool] [t_true; t_cons t_false (t_cons t_true t_nil)] 0 _ eq_refl eq_refl eq_refl eq_refl eq_refl _ eq_refl _); [discriminate|].
    constructor; [exact ST|]. constructor; [|constructor]. apply SC; [exact SF|]. apply SC; [exact ST|exact SN].
  - blk [VZ 3; VP BHeap 30]. blk [VZ 1; VP BHeap 40]. blk [VZ 3; VZ 1].
Qed.

(** doubling twice, compiled, run and read back *)
Definition n_genv : genv := fun i => if ind_eqb i i_nat then Some d_nat else None.
Fixpoint t_num (n : nat) : cterm := match n with 0 => t_O | S n => t_S (t_num n) end.
Definition x_eval (space : Z) (fuel : nat) : option (answer cterm) :=
  match q_src (p_opts true true true true true) 3 (local_of e_env e_main) with
  | Some (_, _, prog) =>
      match run shift_gc Names_Model.gcIdent prog fuel Names_Model.bodyIdent [] (start space) with
      | COk w m => Some (reify_result 20 true n_genv [] (m_heap m) t_nat w)
      | _ => None
      end
  | None => None
  end.
Lemma n_inv i d : n_genv i = Some d -> i = i_nat /\ d = d_nat.
Proof.
  unfold n_genv. destruct (ind_eqb i i_nat) eqn:Q; [|discriminate]. intro H. injection H as <-. split; [|reflexivity].
  unfold ind_eqb in Q. apply andb_true_iff in Q as [H1 H2]. apply String.eqb_eq in H1. apply Nat.eqb_eq in H2. destruct i; cbn [fst snd] in *. subst. reflexivity.
Qed.
Example C85_example_eval :
  wf_glob e_env = true /\ wellformed e_env 0 e_main = true /\ eglobals_ok e_env /\ program_ok z_name z_env (local_of e_env e_main) /\
  esafe false (local_of e_env e_main) /\ gc_ok shift_gc /\ wfm (start 9) 100 [] /\ area (start 9) 100 /\
  readable n_genv [] /\ same_types n_genv [] z_name z_env /\ closed t_nat /\ value n_genv t_nat (t_num 8) /\ relevant n_genv (t_num 8) /\
  erases n_genv [] (t_num 8) (e_num 8) /\ ev e_env e_main (e_num 8) /\
  x_eval 9 80 = Some (Done (t_num 8)).
Proof.
  destruct C83_example_end as (A1 & A2 & A3 & A4 & A5 & A6 & _).
  do 5 (split; [assumption|]). split; [exact shift_gc_ok|]. split; [apply start_ok; lia|]. split; [apply start_ok; lia|].
  split; [|split; [|split; [exact I|split; [|split; [|split; [|split; [exact A6|vm_compute; reflexivity]]]]]]].
  - constructor.
    + intros i d c j ty Ei I N. apply n_inv in Ei as [-> ->]. each_ctor I; destruct j as [|j]; vm_compute in N; try discriminate; try (destruct j; discriminate).
      injection N as <-. exact (sa_ind n_genv 0 0 i_nat d_nat [] eq_refl (le_n 0) (Forall_nil _)).
    + intros i d c Ei I A. apply n_inv in Ei as [-> ->]. each_ctor I; cbn in *; [reflexivity|discriminate].
    + intros i d tags Ei En. discriminate.
    + intros i d Ei. apply n_inv in Ei as [-> ->]. cbn. lia.
  - intros i d Ei _. apply n_inv in Ei as [-> ->]. exists 3%positive, [[0; 1]]. split; [reflexivity|]. split; [cbn; auto|reflexivity].
  - generalize 8. induction n as [|n IH]; cbn [t_num].
    + exact (v_ctor n_genv i_nat d_nat 0 (mkctor [] []) [] [] [] eq_refl eq_refl eq_refl (vs_nil _ _)).
    + refine (v_ctor n_genv i_nat d_nat 1 (mkctor [Assum t_nat] []) [] [] [t_num n] eq_refl eq_refl eq_refl _). apply vs_arg; [exact IH|constructor].
  - generalize 8. induction n as [|n IH]; cbn [t_num].
    + exact (rl_ctor n_genv i_nat d_nat 0 [] [] eq_refl eq_refl eq_refl (Forall_nil _)).
    + exact (rl_ctor n_genv i_nat d_nat 1 [] [t_num n] eq_refl eq_refl eq_refl (Forall_cons _ IH (Forall_nil _))).
  - generalize 8. induction n as [|n IH]; cbn [t_num e_num].
    + exact (er_ctor n_genv [] i_nat d_nat 0 (mkctor [] []) [] [] 0 [] eq_refl eq_refl eq_refl eq_refl eq_refl eq_refl (ers_nil _ _)).
    + exact (er_ctor n_genv [] i_nat d_nat 1 (mkctor [Assum t_nat] []) [] [t_num n] 1 [e_num n] eq_refl eq_refl eq_refl eq_refl eq_refl eq_refl (ers_cons _ _ _ _ _ _ IH (ers_nil _ _))).
Qed.

(** the same in continuation-passing style *)
Definition x_eval_cps (space : Z) (fuel : nat) : option (bool * answer cterm) :=
  match qk_src (k_opts true true true true true) 3 (local_of e_env e_main) with
  | Some (cenv', e', prog) =>
      match krun kshift_gc prog fuel Names_Model.bodyIdent [] (start space) with
      | COk w m => Some (kc_check cenv' e', reify_result 20 true n_genv [] (m_heap m) t_nat w)
      | _ => None
      end
  | None => None
  end.
Example C85_example_cps : x_eval_cps 4 400 = Some (true, Done (t_num 8)).
Proof. vm_compute. reflexivity. Qed.

(** ** Where the reader goes wrong *)

Lemma value_con E ty i k l : value E ty (applist (cConstruct i k) l) ->
  exists d c ps idx args, l = ps ++ args /\ ty = applist (cInd i) (ps ++ idx) /\ E i = Some d /\ nth_error (i_ctors d) k = Some c /\ List.length ps = i_params d /\
    values E (subst_ctx (rev ps) 0 (c_args c)) (map (substl (rev ps) (List.length (c_args c))) (c_indices c)) args idx.
Proof.
  intro V. remember (applist (cConstruct i k) l) as t eqn:Et. destruct V as [i0 d k0 c ps idx args Ei Nk L V|z].
  - apply con_inj in Et as (-> & -> & <-). exists d, c, ps, idx, args. auto 10.
  - symmetry in Et. apply con_not_lit in Et. destruct Et.
Qed.

(** An order of three constructors that is a cycle: a block is read with the
    argument types of one constructor and the number of another; the term is
    ill-typed. *)
Definition i_abc : LB_Model.inductive := ("abc"%string, 0).
Definition d_abc : idecl := mkidecl 0 false [mkctor [] []; mkctor [] []; mkctor [Assum t_nat] []].
Definition c_genv : genv := fun i => if ind_eqb i i_abc then Some d_abc else n_genv i.
Theorem C85_cyclic_order_refuted : exists E im h lo hi ty t hv w i tags t',
  entry i im = Some tags /\ NoDup tags /\ (forall d, E i = Some d -> List.length tags = List.length (i_ctors d) /\ forall k, In k tags -> k < List.length tags) /\
  closed ty /\ value E ty t /\ relevant E t /\ shown E im t hv /\ hrepr h lo hi hv w /\
  reify_result 5 true E im h ty w = Done t' /\ t' <> t /\ ~ value E ty t'.
Proof.
  exists c_genv, [(i_abc, [1; 2; 0])], (block_at 10 1024 [VZ 1] (fun _ => None)), 100%Z, 200%Z, (cInd i_abc), (cApp (cConstruct i_abc 2) [t_O]),
    (HBlock 1024 [HInt 1]), (VP BHeap 10), i_abc, [1; 2; 0], (cApp (cConstruct i_abc 0) [t_O]).
  split; [reflexivity|]. split; [repeat constructor; cbn; intuition discriminate|].
  split; [intros d H; cbn in H; injection H as <-; split; [reflexivity|]; cbn; intuition lia|].
  split; [exact I|].
  assert (VO : value c_genv t_nat t_O) by exact (v_ctor c_genv i_nat d_nat 0 (mkctor [] []) [] [] [] eq_refl eq_refl eq_refl (vs_nil _ _)).
  split; [refine (v_ctor c_genv i_abc d_abc 2 (mkctor [Assum t_nat] []) [] [] [t_O] eq_refl eq_refl eq_refl _); apply vs_arg; [exact VO|constructor]|].
  split; [apply (rl_ctor c_genv i_abc d_abc 2 [] [t_O] eq_refl eq_refl eq_refl); constructor; [exact (rl_ctor c_genv i_nat d_nat 0 [] [] eq_refl eq_refl eq_refl (Forall_nil _))|constructor]|].
  split.
  { refine (sh_block c_genv [(i_abc, [1; 2; 0])] i_abc d_abc 2 (mkctor [Assum t_nat] []) [] [t_O] 1 [HInt 1] eq_refl eq_refl eq_refl eq_refl eq_refl _ eq_refl _); [discriminate|].
    constructor; [|constructor]. exact (sh_const c_genv [(i_abc, [1; 2; 0])] i_nat d_nat 0 (mkctor [] []) [] 0 eq_refl eq_refl eq_refl eq_refl eq_refl eq_refl). }
  split; [blk [VZ 1]|]. split; [reflexivity|]. split; [discriminate|]. intro V.
  destruct (value_con _ _ i_abc 0 [t_O] V) as (d & c & ps & idx & args & H1 & H2 & H3 & H4 & H5 & H6). cbn in H3. injection H3 as <-. cbn in H4. injection H4 as <-.
  destruct ps; [|discriminate]. cbn in H1. subst args. apply values_length in H6. discriminate.
Qed.
Print Assumptions C85_cyclic_order_refuted.

(** A parameter of an argument's type that is an earlier argument: the term read
    back has a variable that nothing binds.

    [Inductive Pair (n : nat) := pair (k : nat).  Inductive Box := box (n : nat) (p : Pair n).] *)
Definition i_pair : LB_Model.inductive := ("Pair"%string, 0).
Definition i_box : LB_Model.inductive := ("Box"%string, 0).
Definition d_pair : idecl := mkidecl 1 false [mkctor [Assum t_nat] []].
Definition d_box : idecl := mkidecl 0 false [mkctor [Assum t_nat; Assum (cApp (cInd i_pair) [cRel 0])] []].
Definition b_genv : genv := fun i => if ind_eqb i i_pair then Some d_pair else if ind_eqb i i_box then Some d_box else n_genv i.
Theorem C85_dependent_parameter_refuted : exists E h lo hi ty t hv w t',
  closed ty /\ value E ty t /\ closed t /\ relevant E t /\ shown E [] t hv /\ hrepr h lo hi hv w /\
  reify_result 5 true E [] h ty w = Done t' /\ t' <> t /\ ~ closed t'.
Proof.
  set (p := cApp (cConstruct i_pair 0) [t_O; t_O]).
  exists b_genv, (block_at 10 2048 [VZ 1; VP BHeap 20] (block_at 20 1024 [VZ 1] (fun _ => None))), 100%Z, 200%Z, (cInd i_box), (cApp (cConstruct i_box 0) [t_O; p]),
    (HBlock 2048 [HInt 1; HBlock 1024 [HInt 1]]), (VP BHeap 10), (cApp (cConstruct i_box 0) [t_O; cApp (cConstruct i_pair 0) [cRel 0; t_O]]).
  assert (VO : value b_genv t_nat t_O) by exact (v_ctor b_genv i_nat d_nat 0 (mkctor [] []) [] [] [] eq_refl eq_refl eq_refl (vs_nil _ _)).
  assert (RO : relevant b_genv t_O) by exact (rl_ctor b_genv i_nat d_nat 0 [] [] eq_refl eq_refl eq_refl (Forall_nil _)).
  assert (SO : shown b_genv [] t_O (HInt 1)) by exact (sh_const b_genv [] i_nat d_nat 0 (mkctor [] []) [] 0 eq_refl eq_refl eq_refl eq_refl eq_refl eq_refl).
  split; [exact I|]. split.
  { refine (v_ctor b_genv i_box d_box 0 _ [] [] [t_O; p] eq_refl eq_refl eq_refl _). apply vs_arg; [exact VO|]. apply vs_arg; [|constructor].
    refine (v_ctor b_genv i_pair d_pair 0 _ [t_O] [] [t_O] eq_refl eq_refl eq_refl _). apply vs_arg; [exact VO|constructor]. }
  split; [cbn; tauto|]. split.
  { apply (rl_ctor b_genv i_box d_box 0 [] [t_O; p] eq_refl eq_refl eq_refl). constructor; [exact RO|]. constructor; [|constructor].
    apply (rl_ctor b_genv i_pair d_pair 0 [t_O] [t_O] eq_refl eq_refl eq_refl). auto. }
  split.
  { refine (sh_block b_genv [] i_box d_box 0 _ [] [t_O; p] 0 [HInt 1; HBlock 1024 [HInt 1]] eq_refl eq_refl eq_refl eq_refl eq_refl _ eq_refl _); [discriminate|].
    constructor; [exact SO|]. constructor; [|constructor].
    refine (sh_block b_genv [] i_pair d_pair 0 _ [t_O] [t_O] 0 [HInt 1] eq_refl eq_refl eq_refl eq_refl eq_refl _ eq_refl _); [discriminate|].
    constructor; [exact SO|constructor]. }
  split; [blk [VZ 1; VP BHeap 20]; blk [VZ 1]|]. split; [reflexivity|]. split; [discriminate|]. unfold closed. cbn. lia.
Qed.
Print Assumptions C85_dependent_parameter_refuted.

(** A constructor whose only arguments are definitions is compiled as a constant
    one and read back as the next constant one ("FIXME lets in constructors").

    [Inductive two := first (n := O) | second.] *)
Definition i_two : LB_Model.inductive := ("two"%string, 0).
Definition d_two : idecl := mkidecl 0 false [mkctor [Def t_O t_nat] []; mkctor [] []].
Definition l_genv : genv := fun i => if ind_eqb i i_two then Some d_two else n_genv i.
Theorem C85_only_lets_refuted : exists E h lo hi ty t hv w t',
  closed ty /\ value E ty t /\ relevant E t /\ shown E [] t hv /\ hrepr h lo hi hv w /\
  reify_result 5 true E [] h ty w = Done t' /\ t' <> t.
Proof.
  exists l_genv, (fun _ => None), 100%Z, 200%Z, (cInd i_two), (cConstruct i_two 0), (HInt 1), (VZ 1), (cConstruct i_two 1).
  split; [exact I|]. split; [refine (v_ctor l_genv i_two d_two 0 _ [] [] [] eq_refl eq_refl eq_refl _); apply vs_let; constructor|].
  split; [exact (rl_ctor l_genv i_two d_two 0 [] [] eq_refl eq_refl eq_refl (Forall_nil _))|].
  split; [exact (sh_const l_genv [] i_two d_two 0 (mkctor [Def t_O t_nat] []) [] 0 eq_refl eq_refl eq_refl eq_refl eq_refl eq_refl)|].
  split; [constructor|]. split; [reflexivity|discriminate].
Qed.
Print Assumptions C85_only_lets_refuted.

(** A proof is erased to the number 1, which is read back as the first constant
    constructor of the proposition, whatever the indices; the term is ill-typed.

    [Inductive le (n : nat) : nat -> Prop := le_n : le n n | le_S m : le n m -> le n (S m).
     Inductive small := mk (p : le O (S O)).] *)
Definition i_le : LB_Model.inductive := ("le"%string, 0).
Definition i_small : LB_Model.inductive := ("small"%string, 0).
Definition d_le : idecl := mkidecl 1 true
  [mkctor [] [cRel 0]; mkctor [Assum t_nat; Assum (cApp (cInd i_le) [cRel 1; cRel 0])] [t_S (cRel 1)]].
Definition d_small : idecl := mkidecl 0 false [mkctor [Assum (cApp (cInd i_le) [t_O; t_S t_O])] []].
Definition p_genv : genv := fun i => if ind_eqb i i_le then Some d_le else if ind_eqb i i_small then Some d_small else n_genv i.
Theorem C85_proofs_refuted : exists E h lo hi ty t hv w t',
  closed ty /\ value E ty t /\ shown E [] t hv /\ hrepr h lo hi hv w /\
  reify_result 5 true E [] h ty w = Done t' /\ t' <> t /\ ~ value E ty t'.
Proof.
  set (pf := cApp (cConstruct i_le 1) [t_O; t_O; cApp (cConstruct i_le 0) [t_O]]).
  set (pf' := cApp (cConstruct i_le 0) [t_O]).
  exists p_genv, (block_at 10 1024 [VZ 1] (fun _ => None)), 100%Z, 200%Z, (cInd i_small), (cApp (cConstruct i_small 0) [pf]),
    (HBlock 1024 [HInt 1]), (VP BHeap 10), (cApp (cConstruct i_small 0) [pf']).
  split; [exact I|]. split.
  { refine (v_ctor p_genv i_small d_small 0 _ [] [] [pf] eq_refl eq_refl eq_refl _). apply vs_arg; [|constructor].
    refine (v_ctor p_genv i_le d_le 1 _ [t_O] [t_S t_O] [t_O; pf'] eq_refl eq_refl eq_refl _).
    apply vs_arg; [exact (v_ctor p_genv i_nat d_nat 0 (mkctor [] []) [] [] [] eq_refl eq_refl eq_refl (vs_nil _ _))|].
    apply vs_arg; [exact (v_ctor p_genv i_le d_le 0 (mkctor [] [cRel 0]) [t_O] [t_O] [] eq_refl eq_refl eq_refl (vs_nil _ _))|constructor]. }
  split.
  { refine (sh_block p_genv [] i_small d_small 0 _ [] [pf] 0 [HInt 1] eq_refl eq_refl eq_refl eq_refl eq_refl _ eq_refl _); [discriminate|].
    constructor; [exact (sh_proof p_genv [] i_le d_le 1 [t_O; t_O; pf'] eq_refl eq_refl)|constructor]. }
  split; [blk [VZ 1]|]. split; [reflexivity|]. split; [discriminate|]. intro V.
  destruct (value_con _ _ i_small 0 [pf'] V) as (d & c & ps & idx & args & H1 & H2 & H3 & H4 & H5 & H6). cbn in H3. injection H3 as <-. cbn in H4. injection H4 as <-.
  destruct ps; [|discriminate]. cbn in H1. subst args. cbn in H6. inversion H6 as [|ty0 r idx0 a args idx' V1 V2|]; subst.
  destruct (value_con _ _ i_le 0 [t_O] V1) as (d & c & ps & idx1 & args & K1 & K2 & K3 & K4 & K5 & K6). cbn in K3. injection K3 as <-. cbn in K4. injection K4 as <-.
  cbn in K5. destruct ps as [|q [|? ?]]; try discriminate. cbn in K1. injection K1 as <- <-. cbn in K6.
  destruct idx1 as [|x1 [|? ?]]; cbn in K2; try discriminate. injection K2 as <-. inversion K6.
Qed.
Print Assumptions C85_proofs_refuted.

(** The 257th constructor with an argument is read back as the first. *)
Definition d_many : idecl := mkidecl 0 false (repeat (mkctor [Assum t_nat] []) 257).
Definition i_many : LB_Model.inductive := ("many"%string, 0).
Definition m_genv : genv := fun i => if ind_eqb i i_many then Some d_many else n_genv i.
Theorem C85_many_constructors_refuted : exists E h lo hi ty t hv w t',
  closed ty /\ value E ty t /\ relevant E t /\ shown E [] t hv /\ hrepr h lo hi hv w /\
  reify_result 5 true E [] h ty w = Done t' /\ t' <> t.
Proof.
  exists m_genv, (block_at 10 1280 [VZ 1] (fun _ => None)), 100%Z, 200%Z, (cInd i_many), (cApp (cConstruct i_many 256) [t_O]),
    (HBlock 1280 [HInt 1]), (VP BHeap 10), (cApp (cConstruct i_many 0) [t_O]).
  split; [exact I|].
  split; [refine (v_ctor m_genv i_many d_many 256 (mkctor [Assum t_nat] []) [] [] [t_O] eq_refl eq_refl eq_refl _); apply vs_arg; [|constructor];
          exact (v_ctor m_genv i_nat d_nat 0 (mkctor [] []) [] [] [] eq_refl eq_refl eq_refl (vs_nil _ _))|].
  split; [apply (rl_ctor m_genv i_many d_many 256 [] [t_O] eq_refl eq_refl eq_refl); constructor; [exact (rl_ctor m_genv i_nat d_nat 0 [] [] eq_refl eq_refl eq_refl (Forall_nil _))|constructor]|].
  split.
  { refine (sh_block m_genv [] i_many d_many 256 (mkctor [Assum t_nat] []) [] [t_O] 256 [HInt 1] eq_refl eq_refl eq_refl eq_refl eq_refl _ eq_refl _); [discriminate|].
    constructor; [exact (sh_const m_genv [] i_nat d_nat 0 (mkctor [] []) [] 0 eq_refl eq_refl eq_refl eq_refl eq_refl eq_refl)|constructor]. }
  split; [blk [VZ 1]|]. split; [vm_compute; reflexivity|]. intro H. injection H. discriminate.
Qed.
Print Assumptions C85_many_constructors_refuted.
