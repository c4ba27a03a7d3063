(** * Calls through the glue code, and glue code linked with a compiled program *)
From Coq Require Import ZArith NArith List Lia Bool.
Import ListNotations.
From Verif Require Import ANF_Syntax ANF_Eval CG_Clight CG_Model CG_Spec CG_Stack CG_Proofs CG_Top GL_Model GL_Spec GL_Proofs.
Set Implicit Arguments.
Local Open Scope Z_scope.
Ltac Zify.zify_post_hook ::= idtac.

(** ** A larger program *)

Scheme stmt_mut := Induction for stmt Sort Prop
  with lstmts_mut := Induction for lstmts Sort Prop.

Section Mono.
  Variable gc : mem -> gres.
  Variable gcId : positive.

  Section Calls.
    Variables c1 c2 : positive -> list cval -> mem -> rres.
    Hypothesis H : forall g vs m, c1 g vs m <> CUB -> c2 g vs m = c1 g vs m.
    Variable decl : list positive.
    Variable id : positive.

    Lemma andthen_mono r1 r2 f1 f2 : (r1 <> RUB -> r2 = r1) -> (forall t m, f1 t m <> RUB -> f2 t m = f1 t m) ->
      andthen r1 f1 <> RUB -> andthen r2 f2 = andthen r1 f1.
    Proof.
      intros A B N. destruct r1 as [o t m| | |]; cbn [andthen] in N.
      - rewrite A by discriminate. destruct o; cbn [andthen]; try reflexivity. apply B. exact N.
      - congruence.
      - rewrite A by discriminate. reflexivity.
      - rewrite A by discriminate. reflexivity.
    Qed.

    Lemma exec_mono : forall s t m, exec gc c1 decl gcId id s t m <> RUB -> exec gc c2 decl gcId id s t m = exec gc c1 decl gcId id s t m.
    Proof.
      apply (stmt_mut
        (fun s => forall t m, exec gc c1 decl gcId id s t m <> RUB -> exec gc c2 decl gcId id s t m = exec gc c1 decl gcId id s t m)
        (fun ls => (forall l t m, exec_sel gc c1 decl gcId id l ls t m <> RUB -> exec_sel gc c2 decl gcId id l ls t m = exec_sel gc c1 decl gcId id l ls t m) /\
                   (forall t m, exec_all gc c1 decl gcId id ls t m <> RUB -> exec_all gc c2 decl gcId id ls t m = exec_all gc c1 decl gcId id ls t m))); try reflexivity.
      - (* call *) intros x f args t m. cbn [exec]. destruct (eval id t m f) as [[| |g]|]; try reflexivity.
        destruct (eval_list id t m args) as [vs|]; [|reflexivity]. destruct (Pos.eqb g gcId); [reflexivity|].
        intro N. rewrite H; [reflexivity|]. intro Q. rewrite Q in N. apply N. reflexivity.
      - intros s1 I1 s2 I2 t m N. cbn [exec] in *. apply andthen_mono; auto.
      - intros e s1 I1 s2 I2 t m N. rewrite !ex_if in *. destruct (eval id t m e) as [[z| |]|]; try reflexivity.
        destruct (z =? 0); auto.
      - intros e ls [I1 I2] t m N. rewrite !ex_switch in *. destruct (eval id t m e) as [[z| |]|]; try reflexivity.
        match goal with |- context [exec_sel gc c1 decl gcId id ?l ls t m] => specialize (I1 l t m); destruct (exec_sel gc c1 decl gcId id l ls t m) as [o ? ?| | |] eqn:Q end;
          try (rewrite I1 by discriminate; reflexivity). exfalso. apply N. reflexivity.
      - split; reflexivity.
      - intros l s Is ls [I1 I2]. split.
        + intros l0 t m N. rewrite !ex_sel in *. destruct (lab_eqb l l0); [|auto]. apply andthen_mono; auto.
        + intros t m N. cbn [exec_all] in *. apply andthen_mono; auto.
    Qed.
  End Calls.

  Lemma run_mono p1 p2 : linked p1 p2 -> forall k f vs m, run gc gcId p1 k f vs m <> CUB -> run gc gcId p2 k f vs m = run gc gcId p1 k f vs m.
  Proof.
    intros L. induction k as [|k IH]; intros f vs m N; [reflexivity|]. cbn [run] in *.
    destruct (get f p1) as [cf|] eqn:G; [|congruence]. rewrite (L _ _ G).
    destruct (set_lists (cf_params cf) vs []) as [t|]; [|reflexivity].
    rewrite (@exec_mono (run gc gcId p1 k) (run gc gcId p2 k) IH).
    - reflexivity.
    - intro Q. rewrite Q in N. apply N. reflexivity.
  Qed.
End Mono.

(** ** Calls *)

Section Call.
  Variable gc : mem -> gres.
  Variable gcId : positive.
  Variable prog : cprog.

  Lemma ex_args call decl id i b w t m : 0 <= i < maxArgs -> eval id t m b = Some w ->
    exec gc call decl gcId id (Sassign (fld (Xtinfo Targs) i) b) t m = ROk Onormal t (set_args m (upd (m_args m) i w)).
  Proof.
    intros B E. unfold maxArgs in B. eapply ex_assign; [exact E|]. unfold fld. cbn [assign].
    assert (C : eval id t m (Xconst i) = Some (VZ i)) by (apply const_ok; change (2 ^ 64) with 18446744073709551616; lia).
    assert (Ea : eval id t m (Xbin Oadd (Xtinfo Targs) (Xconst i)) = Some (VP BArgs i)).
    { change (match eval id t m (Xtinfo Targs), eval id t m (Xconst i) with Some x, Some y => binop_eval Oadd x y | _, _ => None end = Some (VP BArgs i)). rewrite C. reflexivity. }
    rewrite Ea. unfold store, maxArgs. destruct (Z.leb_spec 0 i), (Z.ltb_spec i 1024); try lia. reflexivity.
  Qed.

  (** the stores of a call, from position [i] on *)
  Fixpoint arg_stores (i : nat) (es : list cexpr) : list stmt :=
    match es with [] => [] | e :: es' => Sassign (fld (Xtinfo Targs) (Z.of_nat i)) e :: arg_stores (S i) es' end.
  Fixpoint arg_write (h : Z -> option cval) (i : nat) (ws : list cval) : Z -> option cval :=
    match ws with [] => h | w :: ws' => arg_write (upd h (Z.of_nat i) w) (S i) ws' end.

  Lemma arg_write_in : forall ws h i j w, nth_error ws j = Some w -> arg_write h i ws (Z.of_nat (i + j)) = Some w.
  Proof.
    assert (Out : forall ws h i o, o < Z.of_nat i -> arg_write h i ws o = h o).
    { induction ws as [|w ws IH]; intros h i o L; [reflexivity|]. cbn [arg_write]. rewrite IH by lia. unfold upd. destruct (Z.eqb_spec o (Z.of_nat i)); [lia|reflexivity]. }
    induction ws as [|w0 ws IH]; intros h i [|j] w E; try discriminate; cbn [nth_error arg_write] in *.
    - apply Some_inj in E. subst w0. rewrite Out by lia. unfold upd. rewrite (proj2 (Z.eqb_eq _ _)) by lia. reflexivity.
    - replace (i + S j)%nat with (S i + j)%nat by lia. apply IH. exact E.
  Qed.
  Lemma arg_write_out : forall ws h i o, o < Z.of_nat i \/ Z.of_nat (i + length ws) <= o -> arg_write h i ws o = h o.
  Proof.
    induction ws as [|w ws IH]; intros h i o L; [reflexivity|]. cbn [arg_write length] in *. rewrite IH by lia. unfold upd. destruct (Z.eqb_spec o (Z.of_nat i)); [lia|reflexivity].
  Qed.

  Lemma ex_arg_stores call decl id t : forall es ws i m, Z.of_nat (i + length es) <= maxArgs ->
    Forall2 (fun e w => forall m, eval id t m e = Some w) es ws ->
    exec gc call decl gcId id (multiple (arg_stores i es)) t m = ROk Onormal t (set_args m (arg_write (m_args m) i ws)).
  Proof.
    induction es as [|e es IH]; intros ws i m L F; inversion F as [|? w ? ws' F1 F2]; subst.
    - cbn. destruct m; reflexivity.
    - cbn [length] in L. change (multiple (arg_stores i (e :: es))) with (Sseq (Sassign (fld (Xtinfo Targs) (Z.of_nat i)) e) (multiple (arg_stores (S i) es))).
      rewrite ex_seq. rewrite ex_args with (w := w) by (auto; lia). cbn [andthen]. rewrite (IH ws' (S i)) by (auto; lia). reflexivity.
  Qed.

  Lemma skipn_stores c es : forall i, skipn c (arg_stores i es) = arg_stores (i + Nat.min c (length es)) (skipn c es).
  Proof.
    revert es. induction c as [|c IH]; intros es i; [cbn; rewrite Nat.add_0_r; reflexivity|].
    destruct es as [|e es]; [reflexivity|]. cbn [skipn arg_stores length Nat.min]. rewrite IH. f_equal. lia.
  Qed.

  Lemma eval_list_ok id t m : forall es ws, Forall2 (fun e w => forall m, eval id t m e = Some w) es ws -> eval_list id t m es = Some ws.
  Proof. induction 1 as [|e w es ws H _ IH]; [reflexivity|]. cbn [eval_list]. rewrite H, IH. reflexivity. Qed.

  Lemma Forall2_firstn A B (R : A -> B -> Prop) l1 l2 c : Forall2 R l1 l2 -> Forall2 R (firstn c l1) (firstn c l2).
  Proof. intro H. revert c. induction H; intros [|c]; cbn; constructor; auto. Qed.
  Lemma Forall2_skipn A B (R : A -> B -> Prop) l1 l2 c : Forall2 R l1 l2 -> Forall2 R (skipn c l1) (skipn c l2).
  Proof. intro H. revert c. induction H; intros [|c]; cbn; try constructor; auto. Qed.

  Lemma passed_intro c items m size : (length items <= 3)%nat -> passed c items m (set_args (enter size m) (arg_write (m_args m) (Nat.min c (length items)) (skipn c items))).
  Proof.
    intro L3. constructor.
    - intros i w E L. cbn [set_args m_args]. assert (i < length items)%nat by (apply nth_error_Some; congruence).
      replace (Z.of_nat i) with (Z.of_nat (Nat.min c (length items) + (i - c))) by lia. apply arg_write_in.
      rewrite nth_error_skipn. replace (c + (i - c))%nat with i by lia. exact E.
    - intros o L. cbn [set_args m_args]. destruct (Nat.le_gt_cases c (length items)).
      + apply arg_write_out. rewrite skipn_length. lia.
      + rewrite skipn_all2 by lia. reflexivity.
    - constructor; try reflexivity; cbn [set_args enter m_next m_frames]; [|lia]. intros id H. apply get_set_other. lia.
  Qed.

  (** the result of a call, when the callee's result is [r] *)
  Definition after_call (m : mem) (r : rres) : rres :=
    match r with COk v m2 => COk v (leave (m_next m) m2) | r => r end.
  Definition after_cps (m : mem) (r : rres) : rres :=
    match r with COk _ m2 => match m_args m2 1 with Some v => COk v (leave (m_next m) m2) | None => CUB end | r => r end.

  Lemma run_call_direct k cl c h clo f env arg tmp g p we wa m : get cl prog = Some (make_call true c h clo f env arg tmp) ->
    NoDup [h; clo; f; env; arg; tmp] -> g <> gcId -> m_heap m p = Some (VF g) -> m_heap m (p + 1) = Some we ->
    exists m1, passed c [we; wa] m m1 /\
      run gc gcId prog (S k) cl [VP BHeap p; wa] m = after_call m (run gc gcId prog k g (firstn c [we; wa]) m1).
  Proof.
    intros G ND Ng H0 H1.
    exists (set_args (enter 0 m) (arg_write (m_args m) (Nat.min c 2) (skipn c [we; wa]))). split; [apply (@passed_intro c [we; wa]); cbn; lia|].
    assert (Q : clo <> f /\ clo <> env /\ clo <> arg /\ clo <> tmp /\ f <> env /\ f <> arg /\ f <> tmp /\ env <> arg /\ env <> tmp /\ arg <> tmp).
    { clear - ND. repeat match goal with H : NoDup (_ :: _) |- _ => inversion H; clear H; subst end. cbn [In] in *. repeat split; intro E; symmetry in E; tauto. }
    destruct Q as (Q1 & Q2 & Q3 & Q4 & Q5 & Q6 & Q7 & Q8 & Q9 & Q10).
    set (t0 := set clo (VP BHeap p) (set arg wa [])).
    rewrite run_S with (cf := make_call true c h clo f env arg tmp) (t := t0) by (assumption || reflexivity).
    cbn [make_call cf_body cf_slots cf_params cf_temps app].
    set (t1 := set f (VF g) t0). set (t2 := set env we t1).
    assert (Gc : get clo t0 = Some (VP BHeap p)) by apply get_set_same.
    assert (Gc1 : get clo t1 = Some (VP BHeap p)) by (unfold t1; rewrite get_set_other by congruence; exact Gc).
    assert (Ga : get arg t2 = Some wa).
    { unfold t2, t1, t0. rewrite !get_set_other by congruence. apply get_set_same. }
    assert (Ge : get env t2 = Some we) by apply get_set_same.
    assert (Gf : get f t2 = Some (VF g)) by (unfold t2; rewrite get_set_other by congruence; apply get_set_same).
    rewrite ex_seq. rewrite ex_set with (v := VF g); [| |cbn; tauto].
    2: { rewrite fld_ok with (b := BHeap) (o := p); [|exact Gc|change (2 ^ 63) with 9223372036854775808; change (2 ^ 64) with 18446744073709551616; lia]. rewrite Z.add_0_r. exact H0. }
    cbn [andthen]. fold t1. rewrite ex_seq. rewrite ex_set with (v := we); [| |cbn; tauto].
    2: { rewrite fld_ok with (b := BHeap) (o := p); [exact H1|exact Gc1|change (2 ^ 63) with 9223372036854775808; change (2 ^ 64) with 18446744073709551616; lia]. }
    cbn [andthen]. fold t2. rewrite ex_seq.
    change [Sassign (fld (Xtinfo Targs) 0) (Xtemp env); Sassign (fld (Xtinfo Targs) 1) (Xtemp arg)] with (arg_stores 0 [Xtemp env; Xtemp arg]).
    rewrite skipn_stores. cbn [length Nat.add].
    assert (F' : forall id, Forall2 (fun e w => forall m, eval id t2 m e = Some w) [Xtemp env; Xtemp arg] [we; wa]) by (intro; repeat constructor; intro; cbn [eval]; assumption).
    rewrite ex_arg_stores with (ws := skipn c [we; wa]); [|rewrite skipn_length; unfold maxArgs; cbn [length]; lia|apply Forall2_skipn, F'].
    cbn [andthen]. rewrite ex_seq.
    rewrite ex_call with (g := g) (vs := firstn c [we; wa]); [|exact Gf|exact Ng|apply eval_list_ok, Forall2_firstn, F'].
    cbn [enter m_args].
    match goal with |- context [run gc gcId prog k g _ ?mm] => set (m1 := mm) end.
    change (run gc gcId prog k g (firstn c [we; wa]) (set_args (enter 0 m) (arg_write (m_args m) (Nat.min c 2) (skipn c [we; wa])))) with (run gc gcId prog k g (firstn c [we; wa]) m1).
    destruct (run gc gcId prog k g (firstn c [we; wa]) m1) as [v m2| | |]; try reflexivity.
    rewrite assign_temp_ok by (cbn; tauto). cbn [andthen]. rewrite ex_return with (v := v); [reflexivity|]. cbn [eval]. apply get_set_same.
  Qed.

  Lemma run_call_cps k cl c h clo f env arg tmp g p we wa wh m : get cl prog = Some (make_call false c h clo f env arg tmp) ->
    NoDup [h; clo; f; env; arg; tmp] -> g <> gcId -> m_heap m p = Some (VF g) -> m_heap m (p + 1) = Some we ->
    exists m1, passed c [we; wh; wa] m m1 /\
      run gc gcId prog (S k) cl [wh; VP BHeap p; wa] m = after_cps m (run gc gcId prog k g (firstn c [we; wh; wa]) m1).
  Proof.
    intros G ND Ng H0 H1.
    exists (set_args (enter 0 m) (arg_write (m_args m) (Nat.min c 3) (skipn c [we; wh; wa]))). split; [apply (@passed_intro c [we; wh; wa]); cbn; lia|].
    assert (Q : h <> clo /\ h <> f /\ h <> env /\ h <> arg /\ clo <> f /\ clo <> env /\ clo <> arg /\ f <> env /\ f <> arg /\ env <> arg).
    { clear - ND. repeat match goal with H : NoDup (_ :: _) |- _ => inversion H; clear H; subst end. cbn [In] in *. repeat split; intro E; symmetry in E; tauto. }
    destruct Q as (Q1 & Q2 & Q3 & Q4 & Q5 & Q6 & Q7 & Q8 & Q9 & Q10).
    set (t0 := set h wh (set clo (VP BHeap p) (set arg wa []))).
    rewrite run_S with (cf := make_call false c h clo f env arg tmp) (t := t0) by (assumption || reflexivity).
    cbn [make_call cf_body cf_slots cf_params cf_temps app].
    set (t1 := set f (VF g) t0). set (t2 := set env we t1).
    assert (Gc : get clo t0 = Some (VP BHeap p)) by (unfold t0; rewrite get_set_other by congruence; apply get_set_same).
    assert (Gc1 : get clo t1 = Some (VP BHeap p)) by (unfold t1; rewrite get_set_other by congruence; exact Gc).
    assert (Ga : get arg t2 = Some wa).
    { unfold t2, t1, t0. rewrite !get_set_other by congruence. apply get_set_same. }
    assert (Gh : get h t2 = Some wh).
    { unfold t2, t1, t0. rewrite !get_set_other by congruence. apply get_set_same. }
    assert (Ge : get env t2 = Some we) by apply get_set_same.
    assert (Gf : get f t2 = Some (VF g)) by (unfold t2; rewrite get_set_other by congruence; apply get_set_same).
    rewrite ex_seq. rewrite ex_set with (v := VF g); [| |cbn; tauto].
    2: { rewrite fld_ok with (b := BHeap) (o := p); [|exact Gc|change (2 ^ 63) with 9223372036854775808; change (2 ^ 64) with 18446744073709551616; lia]. rewrite Z.add_0_r. exact H0. }
    cbn [andthen]. fold t1. rewrite ex_seq. rewrite ex_set with (v := we); [| |cbn; tauto].
    2: { rewrite fld_ok with (b := BHeap) (o := p); [exact H1|exact Gc1|change (2 ^ 63) with 9223372036854775808; change (2 ^ 64) with 18446744073709551616; lia]. }
    cbn [andthen]. fold t2. rewrite ex_seq.
    change [Sassign (fld (Xtinfo Targs) 0) (Xtemp env); Sassign (fld (Xtinfo Targs) 1) (Xtemp h); Sassign (fld (Xtinfo Targs) 2) (Xtemp arg)] with (arg_stores 0 [Xtemp env; Xtemp h; Xtemp arg]).
    rewrite skipn_stores. cbn [length Nat.add].
    assert (F' : forall id, Forall2 (fun e w => forall m, eval id t2 m e = Some w) [Xtemp env; Xtemp h; Xtemp arg] [we; wh; wa]) by (intro; repeat constructor; intro; cbn [eval]; assumption).
    rewrite ex_arg_stores with (ws := skipn c [we; wh; wa]); [|rewrite skipn_length; unfold maxArgs; cbn [length]; lia|apply Forall2_skipn, F'].
    cbn [andthen]. rewrite ex_seq.
    rewrite ex_call with (g := g) (vs := firstn c [we; wh; wa]); [|exact Gf|exact Ng|apply eval_list_ok, Forall2_firstn, F'].
    cbn [enter m_args].
    match goal with |- context [run gc gcId prog k g _ ?mm] => set (m1 := mm) end.
    change (run gc gcId prog k g (firstn c [we; wh; wa]) (set_args (enter 0 m) (arg_write (m_args m) (Nat.min c 3) (skipn c [we; wh; wa])))) with (run gc gcId prog k g (firstn c [we; wh; wa]) m1).
    destruct (run gc gcId prog k g (firstn c [we; wh; wa]) m1) as [v m2| | |]; try reflexivity.
    cbn [andthen].
    assert (E : eval (m_next m) t2 m2 (fld (Xtinfo Targs) 1) = m_args m2 1).
    { rewrite fld_ok with (b := BArgs) (o := 0); [reflexivity|reflexivity|change (2 ^ 63) with 9223372036854775808; change (2 ^ 64) with 18446744073709551616; lia]. }
    cbn [after_cps]. destruct (m_args m2 1) as [w|]; [rewrite (ex_return _ _ _ _ _ _ _ _ E); reflexivity|].
    change (match match eval (m_next m) t2 m2 (fld (Xtinfo Targs) 1) with Some v0 => ROk (Oret v0) t2 m2 | None => RUB end with
      | ROk (Oret v0) _ m' => COk v0 (leave (m_next m) m') | ROk _ _ _ => CUB | RUB => CUB | RAbort => CAbort | RTime => CTime end = CUB).
    rewrite E. reflexivity.
  Qed.

  (** the halt continuation leaves its argument in args[1] *)
  Lemma run_halt k f c env arg we w m : get f prog = Some (make_halt c env arg) -> env <> arg ->
    (forall i w', nth_error [we; w] i = Some w' -> (c <= i)%nat -> m_args m (Z.of_nat i) = Some w') ->
    exists m', run gc gcId prog (S k) f (firstn c [we; w]) m = COk (VZ 0) m' /\
      m_args m' 1 = Some w /\ (forall o, o <> 1 -> m_args m' o = m_args m o) /\ untouched (set_args m (m_args m')) m'.
  Proof.
    intros G N A. destruct (Nat.leb_spec 2 c) as [L|L].
    - assert (E : forall A (x y : A), firstn c [x; y] = [x; y]) by (intros A0 x y; rewrite firstn_all2; [reflexivity|cbn; lia]).
      assert (Ec : cf_params (make_halt c env arg) = [env; arg]) by apply E.
      rewrite E. rewrite run_S with (cf := make_halt c env arg) (t := set env we (set arg w [])); [|exact G|rewrite Ec; reflexivity].
      unfold make_halt. cbn [cf_body cf_slots]. rewrite (proj2 (Nat.leb_le 2 c) L). rewrite ex_seq.
      rewrite ex_args with (w := w); [|unfold maxArgs; lia|cbn [eval]; rewrite get_set_other by congruence; apply get_set_same].
      cbn [andthen]. rewrite ex_return with (v := VZ 0) by reflexivity.
      eexists. split; [reflexivity|]. cbn [leave set_frames set_args m_args enter]. split; [reflexivity|]. split.
      + intros o Ho. unfold upd. destruct (Z.eqb_spec o 1); [contradiction|reflexivity].
      + constructor; try reflexivity; cbn [leave set_frames set_args enter m_frames m_next]; [|lia].
        intros id H. rewrite filter_same by lia. apply get_set_other. lia.
    - destruct (@set_lists_total _ (firstn c [env; arg]) (firstn c [we; w]) []) as (t & Et); [rewrite !firstn_length; reflexivity|].
      rewrite run_S with (cf := make_halt c env arg) (t := t); [|exact G|exact Et].
      unfold make_halt. cbn [cf_body cf_slots]. destruct (Nat.leb_spec 2 c); [lia|]. rewrite ex_return with (v := VZ 0) by reflexivity.
      eexists. split; [reflexivity|]. cbn [leave set_frames m_args enter]. split; [exact (A 1%nat w eq_refl ltac:(lia))|]. split; [reflexivity|].
      constructor; try reflexivity; cbn [leave set_frames set_args enter m_frames m_next]; [|lia].
      intros id H'. rewrite filter_same by lia. apply get_set_other. lia.
  Qed.
End Call.

(** ** Values *)

(** frames, heap and thread_info as before: the same values are linked *)
Lemma wfm_untouched m m1 a ids : untouched (set_args m (m_args m1)) m1 -> wfm m a ids -> wfm m1 a ids.
Proof.
  intros [U1 U2 U3 U4 U5 U6 U7 U8 U9 U10] [W1 W2 W3 W4]. cbn [set_args m_heap m_lo m_hi m_fp m_frames m_next] in *. constructor.
  - rewrite U2, U3. exact W1.
  - rewrite U7. eapply chain_agree; [exact W2|]. intros id fr I G. exists fr. rewrite U9 by (apply W3; exact I). auto.
  - intros id I. specialize (W3 id I). lia.
  - intros id fr o I G Us. rewrite U9 in G by (apply W3; exact I). destruct (W4 _ _ _ I G Us) as (w & v & H1 & H2). exists w, v. split; [exact H1|].
    unfold hr in *. rewrite U1, U3. exact H2.
Qed.

Lemma keepf_untouched m m1 m2 a a' ids : untouched (set_args m (m_args m1)) m1 ->
  keepf m1 a ids (m_next m1) m2 a' -> keepf m a ids (m_next m) (leave (m_next m) m2) a'.
Proof.
  intros [U1 U2 U3 U4 U5 U6 U7 U8 U9 U10] [K1 K2]. cbn [set_args m_heap m_lo m_hi m_fp m_frames m_next] in *. split; [cbn [leave set_frames m_next]; lia|].
  intros id I. specialize (K2 id ltac:(lia)). rewrite U9 in K2 by exact I. cbn [leave set_frames m_frames]. rewrite filter_same by lia.
  destruct (get id (m_frames m)) as [fr|], (get id (m_frames m2)) as [fr2|]; try exact K2.
  destruct K2 as (E1 & E2 & E3 & E4 & E5). split; [exact E1|]. split; [exact E2|]. split; [exact E3|]. split; [exact E4|].
  intros In0 o w v Us Ea Hr. destruct (E5 In0 o w v Us Ea) as (w' & H1 & H2); [unfold hr in *; rewrite U1, U3; exact Hr|]. exists w'. split; [exact H1|]. exact H2.
Qed.

Section Compiled.
  Variable gc : mem -> gres.
  Hypothesis GC : gc_ok gc.
  Variable nParam : nat.
  Variable prims : tmap bool.
  Variable cenv : ctor_env.
  Variable B : fundefs.
  Variable e : exp.
  Hypothesis PO : prog_ok nParam cenv B e.
  Variable n0 : positive.
  Variable prog : cprog.
  Hypothesis CO : compile nParam false prims cenv n0 (Efun B e) = Some prog.

  Lemma compile_callee f t xs eb vs rho c v : find_def f B = Some (t, xs, eb) -> set_lists xs vs (def_funs B B [] []) = Some rho ->
    bstep_fuel cenv rho eb c (Res v) -> forall k, (c <= k)%nat -> callee_ok gc nParam cenv B prog False (eq v) k f vs.
  Proof.
    intros F SL H k Hk. destruct (@compile_inv nParam prims cenv B e n0 prog CO) as (fmap & _ & _ & _ & Hm & _ & _ & _).
    pose proof (proj2 (@sim_term gc GC nParam prims cenv (po_cenv PO) (compute_fun_env (Efun B e)) fmap B (ar_of (compute_fun_env (Efun B e))) prog
      (fun x I => makeVar_fun PO n0 x Hm I) (fun x I N => @makeVar_temp B e n0 fmap x Hm I N) (@prog_fenv B e)
      (fun x R I => proj1 (po_fnames PO x I) R) (fun I => proj2 (proj2 (po_fnames PO _ I)) eq_refl)
      (@prog_Hprog nParam prims cenv B e PO n0 prog CO fmap Hm) (@prog_Hwf _ _ _ _ PO)) _ _ _ _ H) as [L S].
    destruct k as [|k]; [lia|]. eapply callee_ok_S; [exact GC|exact (@prog_Hprog nParam prims cenv B e PO n0 prog CO fmap Hm)|exact (@prog_Hwf _ _ _ _ PO)|exact F|exact SL|].
    apply S. exact Hk.
  Qed.

  Lemma call_compiled direct_gl prog' cl h clo fi env arg tmp : direct_gl = make_call true nParam h clo fi env arg tmp ->
    NoDup [h; clo; fi; env; arg; tmp] -> get cl prog' = Some direct_gl -> linked prog prog' ->
    forall m a ids ct i f t x1 x2 eb venv varg wclo warg rho c v,
    wfm m a ids -> area m a ->
    find_def f B = Some (t, [x1; x2], eb) -> get ct cenv = Some i -> ctor_arity i = 2%N ->
    wfv cenv B venv -> wfv cenv B varg ->
    hr m a (enc cenv (Vconstr ct [Vfun [] B f; venv])) wclo -> hr m a (enc cenv varg) warg ->
    set_lists [x1; x2] [venv; varg] (def_funs B B [] []) = Some rho -> bstep_fuel cenv rho eb c (Res v) ->
    forall k, (c <= k)%nat ->
    run gc gcIdent prog' (S k) cl [wclo; warg] m = CAbort \/
    exists w m' a', run gc gcIdent prog' (S k) cl [wclo; warg] m = COk w m' /\
      hr m' a' (enc cenv v) w /\ wfv cenv B v /\ area m' a' /\ m_lo m' <= a' <= m_hi m' /\ m_fp m' = m_fp m /\ keepf m a ids (m_next m) m' a'.
  Proof.
    intros -> ND G LK m a ids ct i f t x1 x2 eb venv varg wclo warg rho c v W Ar F Gi Ai We Wa Hc Ha SL Hb k Hk.
    cbn [enc] in Hc. rewrite Gi in Hc. rewrite (proj2 (N.eqb_neq (ctor_arity i) 0)) in Hc by (rewrite Ai; discriminate).
    cbn [map enc] in Hc. inversion Hc as [| |hdr vs p ws Q1 Q2 Q3 Q4 Q5 Q6]; subst.
    destruct (Q5 0%nat _ eq_refl) as [_ A0]. destruct (Q5 1%nat _ eq_refl) as [_ A1].
    pose proof (Q6 0%nat _ eq_refl) as R0. pose proof (Q6 1%nat _ eq_refl) as R1.
    inversion R0 as [|f' E1 E2|]; subst. rewrite <- E2 in A0. rewrite Z.add_0_r in A0.
    assert (Nf : f <> gcIdent). { exact (proj2 (proj2 (po_fnames PO f (find_fname _ _ F)))). }
    destruct (@run_call_direct gc gcIdent prog' k cl nParam h clo fi env arg tmp f p (ws 1%nat) warg m G ND Nf A0 A1) as (m1 & [P1 P2 P3] & R).
    rewrite R. clear R.
    assert (W1 : wfm m1 a ids) by (eapply wfm_untouched; eassumption).
    assert (U := P3). destruct U as [U1 U2 U3 U4 U5 U6 U7 U8 U9 U10]. cbn [set_args m_heap m_lo m_hi m_alloc m_limit m_fp m_frames m_next] in *.
    assert (Ar1 : area m1 a). { destruct Ar as [B1 B2]. split; [rewrite U5; exact B1|rewrite U6, U3; exact B2]. }
    destruct (@compile_callee f t [x1; x2] eb [venv; varg] rho c v F SL Hb k Hk m1 a ids [ws 1%nat; warg] W1 Ar1) as [[[] _]|[Rn|(v' & w & m2 & a' & <- & Rn & Ra & Rb & Rf & Rk & Ro)]].
    - repeat constructor; unfold hr; rewrite ?U1, ?U3; auto.
    - exact P1.
    - left. rewrite (@run_mono gc gcIdent _ _ LK) by (rewrite Rn; discriminate). rewrite Rn. reflexivity.
    - right. rewrite (@run_mono gc gcIdent _ _ LK) by (rewrite Rn; discriminate). rewrite Rn.
      exists w, (leave (m_next m) m2), a'. split; [reflexivity|]. split; [exact (proj1 Ro)|]. split; [exact (proj2 Ro)|]. split; [exact Ra|].
      split; [exact Rb|]. split; [cbn [leave set_frames m_fp]; congruence|]. eapply keepf_untouched; [exact P3|exact Rk].
  Qed.
End Compiled.

Lemma leave_returned id m : returned id m (leave id m).
Proof.
  constructor; try reflexivity. intro i. cbn [leave set_frames m_frames]. destruct (Pos.eq_dec i id) as [->|N]; [|apply filter_same; exact N].
  induction (m_frames m) as [|[j v] l IH]; [reflexivity|]. cbn [filter fst]. destruct (Pos.eqb_spec j id) as [->|M]; cbn [negb]; [exact IH|].
  cbn [get]. destruct (Pos.eq_dec id j) as [->|]; [contradiction|exact IH].
Qed.
