(** * C51-C53: the generated glue code

    Specification: GL_Spec.v (what a constructed value looks like, which memory
    a call may change, the calling convention) and CG_Spec.v (what a word
    denotes in a compiled program).

    [linked (g_funs gl) prog] says that the glue file is part of the program;
    [gcId] is the collector, which the file does not define. *)
From Coq Require Import ZArith NArith List Lia Bool.
Import ListNotations.
From Verif Require Import ANF_Syntax ANF_Eval ANF_EvalProofs CG_Clight CG_Model CG_Spec CG_Stack CG_Proofs CG_Top.
From Verif Require Import GL_Model GL_Spec GL_Proofs GL_Link.
From Verif Require Layout_Model Layout_Proofs Properties_Layout CG_Collector Properties_Codegen.
Set Implicit Arguments.
Local Open Scope Z_scope.
Ltac Zify.zify_post_hook ::= idtac.

(** ** Examples used below *)

(** O, S, pair; and names *)
Definition c_O : ctor := {| cstr_name := [79]; cstr_arity := 0 |}.
Definition c_S : ctor := {| cstr_name := [83]; cstr_arity := 1 |}.
Definition c_pair : ctor := {| cstr_name := [112; 97; 105; 114]; cstr_arity := 2 |}.
Definition c_mix : list ctor :=
  [{| cstr_name := [97]; cstr_arity := 2 |}; {| cstr_name := [98; 98]; cstr_arity := 0 |};
   {| cstr_name := [99]; cstr_arity := 1 |}; {| cstr_name := []; cstr_arity := 0 |}; {| cstr_name := [100; 101; 102]; cstr_arity := 3 |}].
Definition ex_tys : list (list ctor) := [[c_O; c_S]; c_mix; [c_pair]].
Definition ex_gl (direct : bool) (c : nat) : glue := make_glue_program direct c 7 1000 ex_tys.
Definition ex_gc : mem -> gres := fun m => GOk m.
Definition ex_m : mem := Properties_Codegen.start 100.
Definition ex_run (direct : bool) (c : nat) (f : positive) (vs : list cval) (m : mem) : rres :=
  run ex_gc 1 (g_funs (ex_gl direct c)) 5 f vs m.
Definition tag_of (gl : glue) (i : nat) : positive := nth i (g_tag gl) 1%positive.
Definition make_of (gl : glue) (i k : nat) : positive := fst (nth k (nth i (g_make gl) []) (1%positive, None)).
Definition alloc_of (gl : glue) (i k : nat) : positive :=
  match snd (nth k (nth i (g_make gl) []) (1%positive, None)) with Some f => f | None => 1%positive end.

(** ** C51: tags *)

(** The tag reader of a type returns [k] for a value built by its [k]-th
    constructor, and changes nothing. *)
Theorem C51_get_tag : forall gc gcId prog direct c_args np n tys i cs,
  let gl := make_glue_program direct c_args np n tys in
  linked (g_funs gl) prog -> ~ In gcId (map fst (g_funs gl)) ->
  nth_error tys i = Some cs -> Z.of_nat (length cs) <= 2 ^ 31 ->
  exists f, nth_error (g_tag gl) i = Some f /\
  forall k w m, built (m_heap m) cs k w ->
  forall fuel, (2 <= fuel)%nat ->
  exists m', run gc gcId prog fuel f [w] m = COk (VZ (Z.of_nat k)) m' /\ untouched m m'.
Proof.
  intros gc gcId prog direct c_args np n tys i cs gl LK NG E L.
  destruct (glue_file direct c_args np n tys) as (K & G1 & (vg & G2) & (vb & G3) & T & _). fold gl in K, G1, G2, G3, T.
  destruct (T _ _ E) as (f & b & t & v & H1 & H2 & H3 & H4). exists f. split; [exact H1|].
  intros k w m Bt fuel Lf. destruct fuel as [|[|fuel]]; try lia.
  assert (N : forall g cf, get g (g_funs gl) = Some cf -> g <> gcId).
  { intros g cf G ->. apply NG. clear - G. induction (g_funs gl) as [|[h c] l IH]; [discriminate|]. cbn [get map fst In] in *.
    destruct (Pos.eq_dec gcId h) as [->|]; [left; reflexivity|right; apply IH; exact G]. }
  eapply run_get_tag; [exact (LK _ _ G1)|exact (LK _ _ G2)|exact (LK _ _ G3)|eapply N; exact G1|eapply N; exact G2|eapply N; exact G3|exact H2|exact H3|exact (LK _ _ H4)|exact L|exact Bt].
Qed.
Print Assumptions C51_get_tag.

Example C51_get_tag_ex :
  let gl := ex_gl true 2 in
  let blk h := {| m_heap := fun o => if o =? 120 then Some (VZ h) else None; m_lo := 100; m_hi := 200; m_args := fun _ => None;
     m_alloc := VP BHeap 150; m_limit := VP BHeap 200; m_fp := VZ 0; m_nalloc := VZ 0; m_frames := []; m_next := 1%positive |} in
  (* b and the empty name: second and fourth *)
  built (m_heap ex_m) c_mix 1 (VZ 1) /\ built (m_heap ex_m) c_mix 3 (VZ 3) /\
  (exists m', ex_run true 2 (tag_of gl 1) [VZ 1] ex_m = COk (VZ 1) m') /\
  (exists m', ex_run true 2 (tag_of gl 1) [VZ 3] ex_m = COk (VZ 3) m') /\
  (* def, the third of the constructors with arguments, is the fifth of all *)
  built (m_heap (blk (1024 * 3 + 2))) c_mix 4 (VP BHeap 121) /\
  (exists m', ex_run true 2 (tag_of gl 1) [VP BHeap 121] (blk (1024 * 3 + 2)) = COk (VZ 4) m') /\
  (* a type with a single constructor *)
  (exists m', ex_run true 2 (tag_of gl 2) [VP BHeap 121] (blk (1024 * 2)) = COk (VZ 0) m').
Proof.
  cbv zeta. split; [|split; [|split; [|split; [|split; [|split]]]]].
  - eexists. split; reflexivity.
  - eexists. split; reflexivity.
  - eexists. reflexivity.
  - eexists. reflexivity.
  - eexists. split; [reflexivity|]. cbn [cstr_arity]. exists 121, (1024 * 3 + 2). repeat split.
  - eexists. reflexivity.
  - eexists. reflexivity.
Qed.

(** The functions that build values: a constructor without arguments returns
    its immediate; a constructor with arguments writes header and fields at the
    place it is given, or at the allocation pointer, which then moves past them;
    nothing else changes.  The allocating function needs the caller to have made
    room (see C51_alloc_make_no_space_check_refuted). *)
Theorem C51_make : forall gc gcId prog direct c_args np n tys i cs k c,
  let gl := make_glue_program direct c_args np n tys in
  linked (g_funs gl) prog -> nth_error tys i = Some cs -> nth_error cs k = Some c ->
  boxed_count cs <= 256 -> Z.of_nat (length cs) < 2 ^ 30 -> Z.of_nat (cstr_arity c) < 2 ^ 53 ->
  exists nms nm, nth_error (g_make gl) i = Some nms /\ nth_error nms k = Some nm /\
  forall fuel, (1 <= fuel)%nat ->
  match cstr_arity c with
  | O => snd nm = None /\ forall m,
      exists m', run gc gcId prog fuel (fst nm) [] m = COk (VZ (2 * ordinal cs k c + 1)) m' /\ untouched m m'
  | S _ => exists al, snd nm = Some al /\ forall ws p m,
      length ws = cstr_arity c -> m_lo m <= p -> p + 1 + Z.of_nat (length ws) <= m_hi m ->
      (exists m', run gc gcId prog fuel (fst nm) (ws ++ [VP BHeap p]) m = COk (VP BHeap (p + 1)) m' /\
         block_at (m_heap m') (p + 1) cs k ws /\
         (forall o, o < p \/ p + 1 + Z.of_nat (length ws) <= o -> m_heap m' o = m_heap m o) /\
         m_alloc m' = m_alloc m /\ untouched_but_heap m m') /\
      (m_alloc m = VP BHeap p ->
       exists m', run gc gcId prog fuel al ws m = COk (VP BHeap (p + 1)) m' /\
         block_at (m_heap m') (p + 1) cs k ws /\
         (forall o, o < p \/ p + 1 + Z.of_nat (length ws) <= o -> m_heap m' o = m_heap m o) /\
         m_alloc m' = VP BHeap (p + 1 + Z.of_nat (length ws)) /\ untouched_but_heap m m')
  end.
Proof.
  intros gc gcId prog direct c_args np n tys i cs k c gl LK Ei Ek BC LC LA.
  destruct (glue_file direct c_args np n tys) as (K & _ & _ & _ & _ & M & _). fold gl in K, M.
  destruct (M _ _ Ei) as (nms & H1 & _ & H2). destruct (H2 _ _ Ek) as (nm & H3 & H4). exists nms, nm. split; [exact H1|]. split; [exact H3|].
  intros fuel Lf. destruct fuel as [|fuel]; [lia|]. clear H2 M.
  assert (LKg : forall f cf, In (f, cf) (g_funs gl) -> get f prog = Some cf) by (intros f cf I; apply LK, (keys_get _ _ K), I).
  pose proof (rank_le (arities cs) k (cstr_arity c)) as RL.
  assert (Kl : (k < length cs)%nat) by (apply nth_error_Some; congruence).
  pose proof (ordinal_nat cs k c) as ON.
  destruct (cstr_arity c) as [|a] eqn:Ea; cbn [made] in H4.
  - destruct H4 as [H4 H5]. split; [exact H4|]. intro m. rewrite ON. apply run_enum; [exact (LKg _ _ H5)|]. lia.
  - destruct H4 as (al & argv & args & H4 & H5 & H6 & H7 & H8). exists al. split; [exact H4|].
    pose proof (boxed_few _ _ Ek ltac:(congruence)) as OB.
    intros ws p m Lw B1 B2. rewrite Lw in B2.
    assert (BL : block_at (wrote (m_heap m) p (S a) (N.to_nat (Layout_Proofs.rank (arities cs) k (S a))) ws) (p + 1) cs k ws).
    { pose proof (@wrote_block (m_heap m) p cs k c ws Ek) as W. rewrite Ea in W. apply W; [lia|lia|]. rewrite Lw. exact LA. }
    assert (OE : forall o, o < p \/ p + 1 + Z.of_nat (length ws) <= o -> wrote (m_heap m) p (S a) (N.to_nat (Layout_Proofs.rank (arities cs) k (S a))) ws o = m_heap m o) by (intros o Ho; apply wrote_else; exact Ho).
    split.
    + destruct (@run_make gc gcId prog fuel (fst nm) argv args (S a) (N.to_nat (Layout_Proofs.rank (arities cs) k (S a))) ws p m (LKg _ _ H5) H7 H8 Lw LA ltac:(lia) B1 B2) as (m' & R & Hh & Ha & Hu).
      exists m'. split; [exact R|]. rewrite Hh. split; [exact BL|]. split; [exact OE|]. split; assumption.
    + intro Al. destruct (@run_alloc_make gc gcId prog fuel al argv args (S a) (N.to_nat (Layout_Proofs.rank (arities cs) k (S a))) ws p m (LKg _ _ H6) H7 H8 Lw LA ltac:(lia) Al B1 B2) as (m' & R & Hh & Ha & Hu).
      exists m'. split; [exact R|]. rewrite Hh. split; [exact BL|]. split; [exact OE|]. split; [rewrite Lw; exact Ha|assumption].
Qed.
Print Assumptions C51_make.

Example C51_make_ex :
  let gl := ex_gl true 2 in
  (exists m', ex_run true 2 (make_of gl 0 0) [] ex_m = COk (VZ 1) m') /\
  (exists m', ex_run true 2 (alloc_of gl 0 1) [VZ 1] ex_m = COk (VP BHeap 101) m' /\ m_heap m' 100 = Some (VZ 1024) /\ m_heap m' 101 = Some (VZ 1) /\ m_alloc m' = VP BHeap 102) /\
  (exists m', ex_run true 2 (make_of gl 1 4) [VZ 3; VZ 5; VZ 7; VP BHeap 120] ex_m = COk (VP BHeap 121) m' /\
     m_heap m' 120 = Some (VZ (1024 * 3 + 2)) /\ m_heap m' 121 = Some (VZ 3) /\ m_heap m' 122 = Some (VZ 5) /\ m_heap m' 123 = Some (VZ 7) /\ m_alloc m' = VP BHeap 100).
Proof. cbv zeta. split; [|split]; eexists; repeat split; reflexivity. Qed.

(** What a constructor function builds, the tag reader recognises: for types with
    at most 256 constructors with arguments.  For larger types it is false, see
    C51_many_constructors_refuted. *)
Theorem C51_round_trip_partial : forall gc gcId prog direct c_args np n tys i cs k c,
  let gl := make_glue_program direct c_args np n tys in
  linked (g_funs gl) prog -> ~ In gcId (map fst (g_funs gl)) ->
  nth_error tys i = Some cs -> nth_error cs k = Some c ->
  boxed_count cs <= 256 -> Z.of_nat (length cs) < 2 ^ 30 -> Z.of_nat (cstr_arity c) < 2 ^ 53 ->
  exists f nms nm, nth_error (g_tag gl) i = Some f /\ nth_error (g_make gl) i = Some nms /\ nth_error nms k = Some nm /\
  forall fuel m ws p, (2 <= fuel)%nat -> length ws = cstr_arity c ->
  m_lo m <= p -> p + 1 + Z.of_nat (length ws) <= m_hi m ->
  exists w m' m'', run gc gcId prog fuel (fst nm) (if Nat.eqb (cstr_arity c) 0 then [] else ws ++ [VP BHeap p]) m = COk w m' /\
    run gc gcId prog fuel f [w] m' = COk (VZ (Z.of_nat k)) m'' /\ untouched m' m''.
Proof.
  intros gc gcId prog direct c_args np n tys i cs k c gl LK NG Ei Ek BC LC LA.
  destruct (@C51_get_tag gc gcId prog direct c_args np n tys i cs LK NG Ei) as (f & F1 & F2); [change (2 ^ 30) with 1073741824 in LC; change (2 ^ 31) with 2147483648; lia|].
  destruct (@C51_make gc gcId prog direct c_args np n tys i cs k c LK Ei Ek BC LC LA) as (nms & nm & N1 & N2 & N3). fold gl in F1, N1.
  exists f, nms, nm. split; [exact F1|]. split; [exact N1|]. split; [exact N2|].
  intros fuel m ws p Lf Lw B1 B2. specialize (N3 fuel ltac:(lia)).
  destruct (cstr_arity c) as [|a] eqn:Ea; cbn [Nat.eqb].
  - destruct N3 as [_ N3]. destruct (N3 m) as (m' & R & U).
    assert (Bt : built (m_heap m') cs k (VZ (2 * ordinal cs k c + 1))) by (exists c; rewrite Ea; auto).
    destruct (F2 _ _ _ Bt fuel Lf) as (m'' & R2 & U2). exists (VZ (2 * ordinal cs k c + 1)), m', m''. auto.
  - destruct N3 as (al & _ & N3). destruct (N3 ws p m Lw B1 B2) as [(m' & R & BA & _) _].
    assert (Bt : built (m_heap m') cs k (VP BHeap (p + 1))) by (eapply block_built; [|exact BA]; destruct ws; [discriminate|discriminate]).
    destruct (F2 _ _ _ Bt fuel Lf) as (m'' & R2 & U2). exists (VP BHeap (p + 1)), m', m''. auto.
Qed.
Print Assumptions C51_round_trip_partial.

Example C51_round_trip_ex :
  let gl := ex_gl false 0 in
  let r := ex_run false 0 (make_of gl 1 2) [VZ 9; VP BHeap 130] ex_m in
  (exists m', r = COk (VP BHeap 131) m') /\
  match r with COk w m' => match ex_run false 0 (tag_of gl 1) [w] m' with COk (VZ k) _ => k = 2 | _ => False end | _ => False end.
Proof. cbv zeta. split; [eexists; reflexivity|reflexivity]. Qed.

(** The values of a compiled program: with the constructor table the compiler
    builds (C34), the tag reader of a type returns the number of the constructor
    of any value of the type. *)
Theorem C51_compiled_values : forall gc gcId prog direct c_args np n tys i cs dt dit g kn j k c,
  let gl := make_glue_program direct c_args np n tys in
  let r := Layout_Model.convert_env dt dit g in
  linked (g_funs gl) prog -> ~ In gcId (map fst (g_funs gl)) ->
  nth_error tys i = Some cs -> Z.of_nat (length cs) <= 2 ^ 31 -> boxed_count cs <= 256 ->
  NoDup (map fst g) -> Layout_Proofs.declared g kn j k (arities cs) (cstr_arity c) -> nth_error cs k = Some c ->
  exists f, nth_error (g_tag gl) i = Some f /\
  forall m a vs w, hr m a (enc (Properties_Layout.ctors_of r) (Vconstr (Layout_Model.dcon_to_tag dt ((kn, j), N.of_nat k) (Properties_Layout.ids_of r)) vs)) w ->
  forall fuel, (2 <= fuel)%nat ->
  exists m', run gc gcId prog fuel f [w] m = COk (VZ (Z.of_nat k)) m' /\ untouched m m'.
Proof.
  intros gc gcId prog direct c_args np n tys i cs dt dit g kn j k c gl r LK NG Ei LC BC ND D Ek.
  destruct (@C51_get_tag gc gcId prog direct c_args np n tys i cs LK NG Ei LC) as (f & F1 & F2). exists f. split; [exact F1|].
  intros m a vs w H fuel Lf. apply F2; [|exact Lf].
  destruct (@Properties_Layout.C34_layout dt dit g kn j k (arities cs) (cstr_arity c) ND D) as (it & row & G & _). fold r in G.
  cbn [enc] in H. rewrite G in H. cbn [ctor_arity ctor_ordinal] in H. exists c. split; [exact Ek|].
  pose proof (ordinal_nat cs k c) as ON. pose proof (fun N => boxed_few _ _ Ek N) as OB.
  destruct (cstr_arity c) as [|ar] eqn:Ea.
  - inversion H as [z Q1 Q2| |]; subst. unfold ordinal. rewrite Ea. reflexivity.
  - rewrite (proj2 (N.eqb_neq (N.of_nat (S ar)) 0)) in H by lia. remember (1024 * Z.of_N (N.of_nat (S ar)) + Z.of_N (Layout_Proofs.rank (arities cs) k (S ar))) as hdr eqn:Eh.
    remember (HBlock hdr (map (enc (Properties_Layout.ctors_of r)) vs)) as hv eqn:Ev. destruct H as [z|g'|hdr' vs' p ws Q1 Q2 Q3 Q4 Q5 Q6]; try discriminate.
    assert (hdr' = hdr) by congruence. subst hdr'. exists p, hdr. split; [reflexivity|]. split; [exact Q1|].
    rewrite ON. rewrite <- (@hdr_low (S ar)) by (specialize (OB ltac:(discriminate)); lia). f_equal. unfold hdr_of. lia.
Qed.
Print Assumptions C51_compiled_values.


Definition ex_decl : Layout_Model.ienv := [(8%positive, [[0; 1]]); (9%positive, [[2; 0; 1; 0; 3]; [2]])]%nat.
Definition ex_table : ctor_env := Properties_Layout.ctors_of (Layout_Model.convert_env 99 99 ex_decl).
Definition ex_ctor (k : N) : ctor_tag :=
  Layout_Model.dcon_to_tag 99 ((9%positive, 0%nat), k) (Properties_Layout.ids_of (Layout_Model.convert_env 99 99 ex_decl)).

Example C51_compiled_values_ex :
  Layout_Proofs.declared ex_decl 9 0 4 (arities c_mix) 3 /\
  enc ex_table (Vconstr (ex_ctor 3) []) = HInt 3 /\
  (exists m', ex_run true 2 (tag_of (ex_gl true 2) 1) [VZ 3] ex_m = COk (VZ 3) m').
Proof.
  split; [|split; [reflexivity|eexists; reflexivity]]. exists [[2; 0; 1; 0; 3]; [2]]%nat. cbn. auto 10.
Qed.

(** And conversely: the words the constructor functions return denote the values
    of the program, given that their arguments do. *)
Theorem C51_make_compiled : forall gc gcId prog direct c_args np n tys i cs dt dit g kn j k c,
  let gl := make_glue_program direct c_args np n tys in
  let r := Layout_Model.convert_env dt dit g in
  let v vs := enc (Properties_Layout.ctors_of r) (Vconstr (Layout_Model.dcon_to_tag dt ((kn, j), N.of_nat k) (Properties_Layout.ids_of r)) vs) in
  linked (g_funs gl) prog ->
  nth_error tys i = Some cs -> Z.of_nat (length cs) < 2 ^ 30 -> boxed_count cs <= 251 -> Z.of_nat (cstr_arity c) < 2 ^ 53 ->
  NoDup (map fst g) -> Layout_Proofs.declared g kn j k (arities cs) (cstr_arity c) -> nth_error cs k = Some c ->
  exists nms nm, nth_error (g_make gl) i = Some nms /\ nth_error nms k = Some nm /\
  forall fuel m a vs ws, (1 <= fuel)%nat -> area m a -> m_lo m <= a -> a + 1 + Z.of_nat (length vs) <= m_hi m ->
  length vs = cstr_arity c -> Forall2 (fun x w => hr m a (enc (Properties_Layout.ctors_of r) x) w) vs ws ->
  exists w m' a', run gc gcId prog fuel (match snd nm with Some al => al | None => fst nm end) ws m = COk w m' /\
    hr m' a' (v vs) w /\ area m' a' /\ m_lo m' <= a' <= m_hi m' /\
    (forall x w, hr m a x w -> hr m' a' x w) /\ untouched_but_heap m m'.
Proof.
  intros gc gcId prog direct c_args np n tys i cs dt dit g kn j k c gl r v LK Ei LC BC LA ND D Ek.
  destruct (@C51_make gc gcId prog direct c_args np n tys i cs k c LK Ei Ek ltac:(lia) LC LA) as (nms & nm & N1 & N2 & N3). fold gl in N1.
  exists nms, nm. split; [exact N1|]. split; [exact N2|]. intros fuel m a vs ws Lf [A1 A2] B1 B2 Lv FV. specialize (N3 fuel Lf).
  destruct (@Properties_Layout.C34_layout dt dit g kn j k (arities cs) (cstr_arity c) ND D) as (it & row & G & _). fold r in G.
  unfold v. cbn [enc]. rewrite G. cbn [ctor_arity ctor_ordinal].
  pose proof (ordinal_nat cs k c) as ON. pose proof (fun N => boxed_few _ _ Ek N) as OB. pose proof (Forall2_length FV) as Lw.
  destruct (cstr_arity c) as [|ar] eqn:Ea.
  - destruct vs; [|discriminate]. destruct ws; [|discriminate]. destruct N3 as [-> N3]. destruct (N3 m) as (m' & R & U).
    exists (VZ (2 * ordinal cs k c + 1)), m', a. split; [exact R|]. destruct U as [U1 U2 U3 U4 U5 U6 U7 U8 U9 U10].
    split; [unfold ordinal; rewrite Ea; constructor|]. split; [split; congruence|]. cbn [length] in B2. split; [rewrite U2, U3; lia|].
    split; [intros x w H; unfold hr in *; rewrite U1, U3; exact H|]. constructor; auto.
  - destruct N3 as (al & -> & N3). destruct (N3 ws a m ltac:(lia) B1 ltac:(lia)) as [_ N4]. destruct (N4 A1) as (m' & R & BA & OE & Al & U).
    destruct U as [U1 U2 U3 U4 U5 U6 U7 U8].
    exists (VP BHeap (a + 1)), m', (a + 1 + Z.of_nat (length ws)). split; [exact R|].
    assert (MO : forall x w, hr m a x w -> hr m' (a + 1 + Z.of_nat (length ws)) x w).
    { intros x w H. eapply hr_mono; [exact H|]. rewrite U2. unfold outside. intros o Ho. split; [lia|]. apply OE. lia. }
    split; [|split; [split; congruence|split; [rewrite U1, U2; lia|split; [exact MO|constructor; auto]]]].
    rewrite (proj2 (N.eqb_neq (N.of_nat (S ar)) 0)) by lia.
    destruct BA as (c' & hdr & E' & Lc' & H1 & H2 & H3 & H4 & H6 & H5). assert (c' = c) by congruence. subst c'.
    specialize (OB ltac:(discriminate)).
    assert (Eh : hdr = 1024 * Z.of_N (N.of_nat (S ar)) + Z.of_N (Layout_Proofs.rank (arities cs) k (S ar))).
    { rewrite (hdr_fields (proj1 H4) H3 H6 H2). unfold ordinal. rewrite Ea. lia. }
    rewrite <- Eh. unfold hr. apply HR_block with (ws := fun i => nth i ws (VZ 0)).
    + exact H1.
    + unfold outside. lia.
    + rewrite H3, map_length. lia.
    + rewrite H2. lia.
    + intros i0 x Hi. rewrite nth_error_map in Hi. destruct (nth_error vs i0) as [x0|] eqn:Ex; [|discriminate].
      assert (Li : (i0 < length vs)%nat) by (apply nth_error_Some; congruence).
      split; [unfold outside; rewrite U2; lia|]. apply H5. apply nth_error_nth'. lia.
    + intros i0 x Hi. rewrite nth_error_map in Hi. destruct (nth_error vs i0) as [x0|] eqn:Ex; [|discriminate]. cbn in Hi. apply Some_inj in Hi. subst x.
      apply MO. clear - FV Ex. revert i0 Ex. induction FV as [|v0 w0 vs ws H _ IH]; intros [|i0] Ex; try discriminate.
      * cbn in *. apply Some_inj in Ex. subst. exact H.
      * cbn [nth_error nth] in *. apply IH. exact Ex.
Qed.
Print Assumptions C51_make_compiled.


Example C51_make_compiled_ex :
  let m1 := match ex_run true 2 (make_of (ex_gl true 2) 1 3) [] ex_m with COk w m => Some (w, m) | _ => None end in
  enc ex_table (Vconstr (ex_ctor 2) [Vconstr (ex_ctor 3) []]) = HBlock (1024 + 1) [HInt 3] /\
  match m1 with
  | Some (w, m) => exists m', ex_run true 2 (alloc_of (ex_gl true 2) 1 2) [w] m = COk (VP BHeap 101) m' /\
      hr m' 102 (HBlock (1024 + 1) [HInt 3]) (VP BHeap 101)
  | None => False
  end.
Proof.
  cbv zeta. split; [reflexivity|]. cbn - [hr]. eexists. split; [reflexivity|]. apply HR_block with (ws := fun _ => VZ 3); try reflexivity.
  - left. lia.
  - intros [|[|i]] v H; try discriminate. split; [left; cbn; lia|reflexivity].
  - intros [|[|i]] v H; try discriminate. cbn in H. apply Some_inj in H. subst v. constructor.
Qed.

(** *** Violations *)

(** A type with 257 constructors with arguments: the tag reader returns 0 for
    what the last constructor built. *)
Definition many : list ctor := repeat {| cstr_name := []; cstr_arity := 1 |} 257.
Definition many_gl : glue := make_glue_program true 2 0 2 [many].

Theorem C51_many_constructors_refuted : exists tys i cs k c f nms nm ws p m w m' m'',
  let gl := make_glue_program true 2 0 2 tys in
  nth_error tys i = Some cs /\ nth_error cs k = Some c /\ length ws = cstr_arity c /\
  nth_error (g_tag gl) i = Some f /\ nth_error (g_make gl) i = Some nms /\ nth_error nms k = Some nm /\
  m_lo m <= p /\ p + 1 + Z.of_nat (length ws) <= m_hi m /\
  run ex_gc 1 (g_funs gl) 5 (fst nm) (ws ++ [VP BHeap p]) m = COk w m' /\
  run ex_gc 1 (g_funs gl) 5 f [w] m' = COk (VZ 0) m'' /\ k <> 0%nat.
Proof.
  exists [many], 0%nat, many, 256%nat, {| cstr_name := []; cstr_arity := 1 |}, (tag_of many_gl 0), (nth 0 (g_make many_gl) []), (nth 256 (nth 0 (g_make many_gl) []) (1%positive, None)).
  exists [VZ 1], 100, ex_m.
  assert (E : exists w m' m'', run ex_gc 1 (g_funs many_gl) 5 (fst (nth 256 (nth 0 (g_make many_gl) []) (1%positive, None))) [VZ 1; VP BHeap 100] ex_m = COk w m' /\
     run ex_gc 1 (g_funs many_gl) 5 (tag_of many_gl 0) [w] m' = COk (VZ 0) m'').
  { eexists. eexists. eexists. split; vm_compute; reflexivity. }
  destruct E as (w & m' & m'' & E1 & E2). exists w, m', m''. cbv zeta. fold many_gl.
  split; [reflexivity|]. split; [vm_compute; reflexivity|]. split; [reflexivity|]. split; [vm_compute; reflexivity|].
  split; [vm_compute; reflexivity|]. split; [vm_compute; reflexivity|]. split; [cbn; lia|]. split; [cbn; lia|]. split; [exact E1|]. split; [exact E2|]. discriminate.
Qed.
Print Assumptions C51_many_constructors_refuted.

(** The allocating constructor functions do not look at the limit: called with
    too little room left, they write outside the allocation area. *)
Theorem C51_alloc_make_no_space_check_refuted : exists tys m a ws al,
  let gl := make_glue_program true 2 0 2 tys in
  nth_error (g_make gl) 0 = Some [(nth 0 (map fst (nth 0 (g_make gl) [])) 1%positive, Some al)] /\
  wfm m a [] /\ area m a /\
  forall gc fuel, run gc 1 (g_funs gl) (S fuel) al ws m = CUB.
Proof.
  exists [[c_pair]], (Properties_Codegen.start 2), 100, [VZ 1; VZ 3], (alloc_of (make_glue_program true 2 0 2 [[c_pair]]) 0 0).
  cbv zeta. split; [vm_compute; reflexivity|]. destruct (@Properties_Codegen.start_ok 2 ltac:(lia)) as [W A]. split; [exact W|]. split; [exact A|].
  intros gc fuel. vm_compute. reflexivity.
Qed.
Print Assumptions C51_alloc_make_no_space_check_refuted.

(** ** C52: names *)

(** The table of names of a type has one row per constructor, in order; each row
    is the name, a NUL, and NULs up to the common width; the initialiser has
    exactly the size of the array; the width is the least that holds every name
    with its NUL. *)
Theorem C52_names : forall direct c_args np n tys i cs,
  let gl := make_glue_program direct c_args np n tys in
  nth_error tys i = Some cs ->
  exists id t, nth_error (g_names gl) i = Some (id, t) /\ nt_rows t = length cs /\
    fold_right Z.add 0 (map init_size (nt_init t)) = Z.of_nat (nt_rows t * nt_width t) /\
    (nt_width t = 1%nat \/ exists c, In c cs /\ nt_width t = S (length (cstr_name c))) /\
    forall k c, nth_error cs k = Some c ->
      (length (cstr_name c) < nt_width t)%nat /\ length (name_row t k) = nt_width t /\
      name_row t k = map Init_int8 (cstr_name c) ++ repeat (Init_int8 0) (nt_width t - length (cstr_name c)) /\
      (~ In 0 (cstr_name c) -> c_string (name_row t k) = Some (cstr_name c)).
Proof.
  intros direct c_args np n tys i cs gl E. destruct (glue_names direct c_args np n tys) as [H1 _]. fold gl in H1.
  assert (Ht : nth_error (map snd (g_names gl)) i = Some (make_name_array cs)) by (rewrite H1, nth_error_map, E; reflexivity).
  rewrite nth_error_map in Ht. destruct (nth_error (g_names gl) i) as [[id t]|] eqn:Eg; [|discriminate]. cbn in Ht. apply Some_inj in Ht. subst t.
  exists id, (make_name_array cs). split; [reflexivity|]. unfold make_name_array. destruct (normalized_names_array cs 1) as [w l] eqn:En.
  destruct (names_array _ _ En) as (L1 & L2 & L3 & ->). cbn [nt_rows nt_width nt_init]. split; [reflexivity|].
  assert (Lf : forall c, In c cs -> length (pad_char_init (string_as_array (cstr_name c)) w) = w) by (intros c I; apply padded_length, L2, I).
  split; [|split; [exact L3|]].
  - rewrite map_app, fold_right_app. cbn [map fold_right init_size]. change (Z.max 0 0 + 0) with 0.
    rewrite <- (flat_map_len _ cs Lf). clear - L2. 
    assert (G : forall l, (forall x, In x l -> init_size x = 1) -> fold_right Z.add 0 (map init_size l) = Z.of_nat (length l)).
    { induction l as [|x l IH]; intro H; [reflexivity|]. cbn [map fold_right length]. rewrite IH, (H x (or_introl eq_refl)); [lia|]. intros y I. apply H. right. exact I. }
    apply G. intros x I. apply in_flat_map in I. destruct I as (c & Ic & I). rewrite padded in I by (apply L2; exact Ic).
    apply in_app_or in I. destruct I as [I|I]; [apply in_map_iff in I; destruct I as (z & <- & _); reflexivity|]. apply repeat_spec in I. subst x. reflexivity.
  - intros k c Ek. assert (Ic : In c cs) by (eapply nth_error_In; exact Ek).
    assert (R : name_row {| nt_width := w; nt_rows := length cs; nt_init := flat_map (fun c => pad_char_init (string_as_array (cstr_name c)) w) cs ++ [Init_space 0] |} k = pad_char_init (string_as_array (cstr_name c)) w).
    { unfold name_row. cbn [nt_width nt_init]. apply (rows_nth (fun c => pad_char_init (string_as_array (cstr_name c)) w)); [exact Lf|exact Ek]. }
    rewrite R. split; [apply L2; exact Ic|]. split; [apply Lf; exact Ic|]. rewrite padded by (apply L2; exact Ic). split; [reflexivity|].
    intro Nz. specialize (L2 c Ic). replace (w - length (cstr_name c))%nat with (S (w - length (cstr_name c) - 1)) by lia. apply c_string_row. exact Nz.
Qed.
Print Assumptions C52_names.

(** Names of types and functions of the file are all different. *)
Theorem C52_identifiers : forall direct c_args np n tys,
  let gl := make_glue_program direct c_args np n tys in
  NoDup (map fst (g_names gl) ++ map fst (g_funs gl)) /\
  forall x, In x (map fst (g_funs gl)) -> (n <= x)%positive /\ (x < g_next gl)%positive.
Proof.
  intros direct c_args np n tys gl. split; [exact (proj2 (glue_names direct c_args np n tys))|].
  destruct (glue_file direct c_args np n tys) as ((_ & _ & K) & _). exact K.
Qed.
Print Assumptions C52_identifiers.

Example C52_names_ex :
  let t := snd (nth 1 (g_names (ex_gl true 2)) (1%positive, {| nt_width := 0; nt_rows := 0; nt_init := [] |})) in
  nt_width t = 4%nat /\ nt_rows t = 5%nat /\
  name_row t 1 = [Init_int8 98; Init_int8 98; Init_int8 0; Init_int8 0] /\
  map (fun k => c_string (name_row t k)) [0; 1; 2; 3; 4]%nat = [Some [97]; Some [98; 98]; Some [99]; Some []; Some [100; 101; 102]] /\
  map fst (g_names (ex_gl true 2)) = [1032; 1031; 1030]%positive.
Proof. vm_compute. repeat split. Qed.

(** ** C53: calls *)

(** Direct style: the function stored in the closure is called with the closure's
    environment and the argument, each as a C argument if its position is below
    the number of C arguments and in the args array otherwise, and its result is
    returned. *)
Theorem C53_call : forall gc gcId prog c_args np n tys,
  let gl := make_glue_program true c_args np n tys in
  linked (g_funs gl) prog ->
  forall m p g env arg fuel, m_heap m p = Some (VF g) -> m_heap m (p + 1) = Some env -> g <> gcId ->
  exists m1, passed c_args [env; arg] m m1 /\
    match run gc gcId prog fuel g (firstn c_args [env; arg]) m1 with
    | COk v m2 => exists m', run gc gcId prog (S fuel) (g_call gl) [VP BHeap p; arg] m = COk v m' /\ returned (m_next m) m2 m'
    | r => run gc gcId prog (S fuel) (g_call gl) [VP BHeap p; arg] m = r
    end.
Proof.
  intros gc gcId prog c_args np n tys gl LK m p g env arg fuel H0 H1 Ng.
  destruct (glue_file true c_args np n tys) as (_ & _ & _ & _ & _ & _ & _ & (h & clo & f & e & a & tmp & ND & G)). fold gl in G.
  destruct (@run_call_direct gc gcId prog fuel (g_call gl) c_args h clo f e a tmp g p env arg m (LK _ _ G) ND Ng H0 H1) as (m1 & P & R).
  exists m1. split; [exact P|]. rewrite R. destruct (run gc gcId prog fuel g (firstn c_args [env; arg]) m1) as [v m2| | |]; try reflexivity.
  exists (leave (m_next m) m2). split; [reflexivity|apply leave_returned].
Qed.
Print Assumptions C53_call.

(** a function of two parameters that returns its second argument, and one with
    three that stores it for the caller; both written for [c] C arguments *)
Definition second (c : nat) : cfun :=
  {| cf_params := firstn c [2; 3]%positive; cf_temps := []; cf_slots := 0;
     cf_body := Sreturn (if (1 <? c)%nat then Xtemp 3%positive else fld (Xtinfo Targs) 1) |}.

Definition clo_m : mem := set_heap ex_m (fun o => if o =? 10 then Some (VF 5%positive) else if o =? 11 then Some (VZ 77) else None).

Example C53_call_ex :
  map (fun c => match run ex_gc 1 ((5%positive, second c) :: g_funs (ex_gl true c)) 9 (g_call (ex_gl true c)) [VP BHeap 10; VZ 42] clo_m with
                | COk w m' => Some (w, m_args m' 0, m_args m' 1) | _ => None end) [0; 1; 2; 3]%nat =
  [Some (VZ 42, Some (VZ 77), Some (VZ 42)); Some (VZ 42, None, Some (VZ 42)); Some (VZ 42, None, None); Some (VZ 42, None, None)].
Proof. reflexivity. Qed.

(** Continuation-passing style: the items are environment, halt closure and
    argument; the result is what the callee left in args[1] ... *)
Theorem C53_call_cps : forall gc gcId prog c_args np n tys,
  let gl := make_glue_program false c_args np n tys in
  linked (g_funs gl) prog ->
  forall m p g env arg halt_clo fuel, m_heap m p = Some (VF g) -> m_heap m (p + 1) = Some env -> g <> gcId ->
  exists m1, passed c_args [env; halt_clo; arg] m m1 /\
    match run gc gcId prog fuel g (firstn c_args [env; halt_clo; arg]) m1 with
    | COk _ m2 => forall v, m_args m2 1 = Some v ->
        exists m', run gc gcId prog (S fuel) (g_call gl) [halt_clo; VP BHeap p; arg] m = COk v m' /\ returned (m_next m) m2 m'
    | r => run gc gcId prog (S fuel) (g_call gl) [halt_clo; VP BHeap p; arg] m = r
    end.
Proof.
  intros gc gcId prog c_args np n tys gl LK m p g env arg hc fuel H0 H1 Ng.
  destruct (glue_file false c_args np n tys) as (_ & _ & _ & _ & _ & _ & _ & (h & clo & f & e & a & tmp & ND & G)). fold gl in G.
  destruct (@run_call_cps gc gcId prog fuel (g_call gl) c_args h clo f e a tmp g p env arg hc m (LK _ _ G) ND Ng H0 H1) as (m1 & P & R).
  exists m1. split; [exact P|]. rewrite R. destruct (run gc gcId prog fuel g (firstn c_args [env; hc; arg]) m1) as [v m2| | |]; try reflexivity.
  intros w Hw. cbn [after_cps]. rewrite Hw. exists (leave (m_next m) m2). split; [reflexivity|apply leave_returned].
Qed.
Print Assumptions C53_call_cps.

(** ... which is where the halt continuation puts the value it is given,
    whatever the number of C arguments. *)
Theorem C53_halt : forall gc gcId prog c_args np n tys,
  let gl := make_glue_program false c_args np n tys in
  linked (g_funs gl) prog ->
  forall m m1 env v fuel, passed c_args [env; v] m m1 -> (1 <= fuel)%nat ->
  exists w m', run gc gcId prog fuel (g_halt gl) (firstn c_args [env; v]) m1 = COk w m' /\
    m_args m' 1 = Some v /\ (forall o, o <> 1 -> m_args m' o = m_args m1 o) /\ untouched (set_args m1 (m_args m')) m'.
Proof.
  intros gc gcId prog c_args np n tys gl LK m m1 env v fuel [P _ _] Lf. destruct fuel as [|fuel]; [lia|].
  destruct (glue_file false c_args np n tys) as (_ & _ & _ & _ & _ & _ & H & _). fold gl in H. destruct (H eq_refl) as (e & a & N & G).
  destruct (@run_halt gc gcId prog fuel (g_halt gl) c_args e a env v m1 (LK _ _ G) N P) as (m' & R). exists (VZ 0), m'. exact R.
Qed.
Print Assumptions C53_halt.

(** in continuation-passing style: read the continuation's code from its closure
    and pass it half of the argument *)
Definition half_cps (c : nat) : cfun :=
  let item i x := if (i <? c)%nat then Xtemp x else fld (Xtinfo Targs) (Z.of_nat i) in
  let argv := [Xtemp 23%positive; Xbin Oshr (Xtemp 22%positive) (Xconst 1)] in
  {| cf_params := firstn c [2; 3; 4]%positive; cf_temps := [21; 22; 23]%positive; cf_slots := 0;
     cf_body := Sseq (Sset 22 (item 2%nat 4%positive))
               (Sseq (Sset 21 (fld (item 1%nat 3%positive) 0%Z))
               (Sseq (Sset 23 (fld (item 1%nat 3%positive) 1%Z))
               (Sseq (multiple (skipn c (map (fun p => Sassign (fld (Xtinfo Targs) (fst p)) (snd p)) (combine [0; 1]%Z argv))))
               (Sseq (Scall None (Xtemp 21) (firstn c argv)) (Sreturn (Xconst 0%Z)))))) |}%positive.

Definition halt_m (c : nat) : mem := set_heap ex_m (fun o =>
  if o =? 10 then Some (VF 5%positive) else if o =? 11 then Some (VZ 77) else
  if o =? 20 then Some (VF (g_halt (ex_gl false c))) else if o =? 21 then Some (VZ 1) else None).

Example C53_cps_ex :
  map (fun c => match run ex_gc 1 ((5%positive, half_cps c) :: g_funs (ex_gl false c)) 9 (g_call (ex_gl false c)) [VP BHeap 20; VP BHeap 10; VZ 41] (halt_m c) with
                | COk w _ => Some w | _ => None end) [0; 1; 2; 3; 4]%nat =
  repeat (Some (VZ 20)) 5.
Proof. reflexivity. Qed.

(** A closure of a compiled program, called through the glue code: the word
    returned denotes the value the source program computes for the body. *)
Theorem C53_compiled : forall gc nParam prims cenv B e n prog np ng tys prog',
  let gl := make_glue_program true nParam np ng tys in
  gc_ok gc -> prog_ok nParam cenv B e -> compile nParam false prims cenv n (Efun B e) = Some prog ->
  linked prog prog' -> linked (g_funs gl) prog' ->
  forall m a ids ct i f t x1 x2 eb venv varg wclo warg rho c v,
  wfm m a ids -> area m a ->
  find_def f B = Some (t, [x1; x2], eb) -> get ct cenv = Some i -> ctor_arity i = 2%N ->
  wfv cenv B venv -> wfv cenv B varg ->
  hr m a (enc cenv (Vconstr ct [Vfun [] B f; venv])) wclo -> hr m a (enc cenv varg) warg ->
  set_lists [x1; x2] [venv; varg] (def_funs B B [] []) = Some rho -> bstep_fuel cenv rho eb c (Res v) ->
  forall k, (c < k)%nat ->
  run gc gcIdent prog' k (g_call gl) [wclo; warg] m = CAbort \/
  exists w m' a', run gc gcIdent prog' k (g_call gl) [wclo; warg] m = COk w m' /\
    hr m' a' (enc cenv v) w /\ area m' a' /\ m_lo m' <= a' <= m_hi m' /\ m_fp m' = m_fp m /\ keepf m a ids (m_next m) m' a'.
Proof.
  intros gc nParam prims cenv B e n prog np ng tys prog' gl GC PO CO L1 L2 m a ids ct i f t x1 x2 eb venv varg wclo warg rho c v W A F G Ai We Wa Hc Ha SL Hb k Hk.
  destruct (glue_file true nParam np ng tys) as (_ & _ & _ & _ & _ & _ & _ & (h & clo & fi & en & ag & tmp & ND & Gc)). fold gl in Gc.
  destruct k as [|k]; [lia|].
  destruct (@call_compiled gc GC nParam prims cenv B e PO n prog CO _ prog' (g_call gl) h clo fi en ag tmp eq_refl ND (L2 _ _ Gc) L1
    m a ids ct i f t x1 x2 eb venv varg wclo warg rho c v W A F G Ai We Wa Hc Ha SL Hb k ltac:(lia)) as [E|(w & m' & a' & E & H1 & _ & H2)].
  - left. exact E.
  - right. exists w, m', a'. split; [exact E|]. split; [exact H1|exact H2].
Qed.
Print Assumptions C53_compiled.

(** the addition of Properties_Codegen as the code of a closure: environment 2,
    argument 1; the collector moves blocks *)
Definition add_m (words : Z) : mem := set_heap (Properties_Codegen.start words) (fun o =>
  if o =? 10 then Some (VZ 2048) else if o =? 11 then Some (VF 200%positive) else if o =? 12 then Some (VP BHeap 15) else
  if o =? 14 then Some (VZ 1024) else if o =? 15 then Some (VP BHeap 18) else
  if o =? 17 then Some (VZ 1024) else if o =? 18 then Some (VZ 1) else None).

Example C53_compiled_ex :
  let cl c := make_glue_program true c 0 1000 ex_tys in
  enc Properties_Codegen.ex_cenv (Vconstr 5 [Vfun [] Properties_Codegen.ex_funs 200; Properties_Codegen.nat_val 2])%positive =
    HBlock 2048 [HFun 200; HBlock 1024 [HBlock 1024 [HInt 1]]]%positive /\
  map (fun c => match run CG_Collector.shift_gc gcIdent (Properties_Codegen.ex_code c ++ g_funs (cl c)) 40 (g_call (cl c)) [VP BHeap 11; VP BHeap 18] (add_m 50) with
                | COk w m' => Properties_Codegen.read_nat 9 m' w | _ => None end) [0; 1; 2; 3]%nat =
  repeat (Some 3%nat) 4.
Proof. cbv zeta. split; [reflexivity|]. vm_compute. reflexivity. Qed.

(** the two files of the example can be linked *)
Lemma get_app_l A f (p q : tmap A) : get f (p ++ q) = match get f p with Some x => Some x | None => get f q end.
Proof. induction p as [|[k x] p IH]; [reflexivity|]. cbn [app get]. destruct (Pos.eq_dec f k); [reflexivity|exact IH]. Qed.

Lemma linked_app p q : forallb (fun k => match get k p with None => true | Some _ => false end) (map fst q) = true -> linked p (p ++ q) /\ linked q (p ++ q).
Proof.
  intro D. split; intros f cf G; rewrite get_app_l.
  - rewrite G. reflexivity.
  - rewrite forallb_forall in D. specialize (D f). destruct (get f p) as [x|] eqn:E; [|exact G].
    assert (I : In f (map fst q)). { clear - G. induction q as [|[k y] q IH]; [discriminate|]. cbn [get map fst In] in *. destruct (Pos.eq_dec f k) as [->|]; [left; reflexivity|right; apply IH; exact G]. }
    specialize (D I). discriminate.
Qed.

Example C53_linked_ex :
  let gl := make_glue_program true 2 0 1000 ex_tys in let code := Properties_Codegen.ex_code 2 in
  linked code (code ++ g_funs gl) /\ linked (g_funs gl) (code ++ g_funs gl) /\ ~ In gcIdent (map fst (g_funs gl)).
Proof.
  cbv zeta. assert (H := @linked_app (Properties_Codegen.ex_code 2) (g_funs (make_glue_program true 2 0 1000 ex_tys)) ltac:(vm_compute; reflexivity)).
  split; [exact (proj1 H)|]. split; [exact (proj2 H)|]. intro I. apply (proj2 (C52_identifiers true 2 0 1000 ex_tys)) in I. destruct I as [I _]. vm_compute in I. congruence.
Qed.
