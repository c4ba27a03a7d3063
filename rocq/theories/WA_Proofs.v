(** * Compiled Wasm functions simulate the source program *)
From Coq Require Import ZArith NArith List Lia Bool.
Import ListNotations.
From Verif Require Import ANF_Syntax ANF_FreeProofs RT_Int63Spec RT_Int63Proofs CG_Proofs WA_Wasm WA_Model WA_Spec WA_Eval WA_Exec WA_Arith WA_Prim.
Set Implicit Arguments.
Local Open Scope Z_scope.
Ltac Zify.zify_post_hook ::= idtac.

(** ** All primitives at once *)

Section AllPrims.
  Variable grow : Z -> bool.
  Variable mp : Z.
  Variable lf : nat.
  Variable call : Z -> nat -> list wval -> store -> fres.
  Notation ex := (exec grow mp lf call).

  Lemma opnd_u63 l m hi i z : opnd l m hi i z -> u63 z.
  Proof. intros (q & _ & _ & _ & H & _). exact H. Qed.

  Lemma prim_all lenv op ys is zs r l gmp cap res oom t1 t2 t3 t4 m p k :
    (64 <= lf)%nat ->
    translate_primitive_operation lenv (Some op) ys = Some is -> prim_rel op zs r ->
    Forall2 (fun y z => forall i, get y lenv = Some i -> opnd l m gmp i z) ys zs ->
    0 <= gmp -> gmp mod 4 = 0 -> gmp + 28 <= page * p -> p <= 32767 ->
    prim_post l gmp res oom m p k r (ex is l (st gmp cap res oom t1 t2 t3 t4 m p) k).
  Proof.
    intros Hlf T R F G0 G4 Room Pages. unfold translate_primitive_operation in T.
    destruct R;
      repeat match goal with H : Forall2 _ _ (_ :: _) |- _ => inversion H; subst; clear H | H : Forall2 _ _ [] |- _ => inversion H; subst; clear H end;
      repeat match type of T with
             | (match get ?y lenv with _ => _ end) = _ => let E := fresh "E" in destruct (get y lenv) eqn:E; [|discriminate]
             end;
      cbn [translate_primitive_unary_op translate_primitive_binary_op translate_primitive_ternary_op] in T;
      apply Some_inj in T; subst is;
      repeat match goal with H : forall i, Some _ = Some i -> _ |- _ => specialize (H _ eq_refl) end.
    - eapply (@arith_masked grow mp lf call) with (op := Wadd) (z := Z.add); try eassumption. intros; reflexivity.
    - eapply (@arith_masked grow mp lf call) with (op := Wsub) (z := Z.sub); try eassumption. intros; reflexivity.
    - eapply (@arith_masked grow mp lf call) with (op := Wmul) (z := Z.mul); try eassumption. intros; reflexivity.
    - eapply div_ok; eassumption.
    - eapply mod_ok; eassumption.
    - eapply lsl_ok; eassumption.
    - eapply lsr_ok; eassumption.
    - eapply arith_plain; try eassumption; [reflexivity|]. apply land_u63; eapply opnd_u63; eassumption.
    - eapply arith_plain; try eassumption; [reflexivity|]. apply lor_u63; eapply opnd_u63; eassumption.
    - eapply arith_plain; try eassumption; [reflexivity|]. apply lxor_u63; eapply opnd_u63; eassumption.
    - eapply (@cmp_ok grow mp lf call) with (op := Weq); eassumption.
    - eapply (@cmp_ok grow mp lf call) with (op := Wltu); eassumption.
    - eapply (@cmp_ok grow mp lf call) with (op := Wleu); eassumption.
    - eapply compare_ok; eassumption.
    - eapply addc_ok; eassumption.
    - eapply addcarryc_ok; eassumption.
    - eapply subc_ok; eassumption.
    - eapply subcarryc_ok; eassumption.
    - eapply mulc_ok; eassumption.
    - eapply diveucl_ok; eassumption.
    - eapply head0_ok; eassumption.
    - eapply tail0_ok; eassumption.
    - eapply diveucl_21_ok; eassumption.
    - eapply addmuldiv_ok; eassumption.
  Qed.
End AllPrims.

(** ** Representation *)

Section Rep.
  Variable cenv : ctor_env.
  Variable B0 : fundefs.
  Variable fnum : var -> option Z.
  Notation wrep := (wrep cenv B0 fnum).

  Definition same_below (hi : Z) (m m' : bytes) : Prop := forall x, x < hi -> m' x = m x.

  Lemma rd_below hi m m' n a : same_below hi m m' -> a + Z.of_nat n <= hi -> rd n m' a = rd n m a.
  Proof. intros S H. apply rd_ext. intros x Hx. apply S. lia. Qed.

  Lemma same_below_trans a b m1 m2 m3 : a <= b -> same_below a m1 m2 -> same_below b m2 m3 -> same_below a m1 m3.
  Proof. intros L S1 S2 x Hx. rewrite S2 by lia. apply S1. exact Hx. Qed.
  Lemma same_below_refl a m : same_below a m m.
  Proof. intros x _. reflexivity. Qed.

  Lemma int_mono m m' hi hi' z p : same_below hi m m' -> hi <= hi' -> int_at m hi z p -> int_at m' hi' z p.
  Proof.
    intros S L (H1 & H2 & H3 & H4). split; [exact H1|]. split; [lia|]. split; [exact H3|].
    rewrite (@rd_below hi m m') by (auto; cbn; lia). exact H4.
  Qed.

  Lemma wrep_mono m m' hi hi' v w : same_below hi m m' -> hi <= hi' -> wrep m hi v w -> wrep m' hi' v w.
  Proof.
    intros S L. induction 1 as [t i H1 H2 H3|t i vs p ws H1 H2 H3 H4 H5 H6 H7 H8 H9 H10 H11 IH|f k H|z p H].
    - constructor; assumption.
    - eapply WR_block; try eassumption; [lia|rewrite (@rd_below hi m m') by (auto; change (Z.of_nat 4) with 4; lia); exact H8|].
      intros k w E. rewrite (@rd_below hi m m'); [eauto|assumption|]. change (Z.of_nat 4) with 4.
      assert (k < length vs)%nat. { rewrite <- H9. apply nth_error_Some. congruence. } lia.
    - constructor. exact H.
    - constructor. eapply int_mono; eassumption.
  Qed.

  Lemma wrep_range m hi v w : (forall f k, fnum f = Some k -> 0 <= k < 4294967296) -> hi <= 4294967296 ->
    wrep m hi v w -> 0 <= w < 4294967296.
  Proof.
    intros F L. destruct 1 as [t i H1 H2 H3|t i vs p ws H1 H2 H3 H4 H5 H6 H7 _ _ _ _|f k H|z p (H1 & H2 & _)]; [lia|lia|eauto|lia].
  Qed.

  (** results of primitives *)
  Lemma res_wrep tags m hi r w : ptags_ok cenv tags -> res_at m hi r w -> wrep m hi (val_of tags r) w.
  Proof.
    intros (T1 & T2 & T3 & T4 & T5 & T6 & T7 & T8) R.
    assert (C : forall t o, ctor_is cenv t 0 o -> Z.of_N o < 2147483648 -> wrep m hi (Vconstr t []) (2 * Z.of_N o + 1)).
    { intros t o (i & G & A & O) L. rewrite <- O in *. constructor; assumption. }
    destruct r as [z|b|c|[c z]|[a b]]; cbn [res_at val_of] in *.
    - constructor. exact R.
    - subst w. destruct b; [apply (C _ 1%N T1); lia|apply (C _ 0%N T2); lia].
    - subst w. destruct c; [apply (C _ 0%N T3); lia|apply (C _ 1%N T4); lia|apply (C _ 2%N T5); lia].
    - destruct R as (R1 & R2 & R3 & R4 & R5).
      assert (Ci : ctor_is cenv (if c then t_C1 tags else t_C0 tags) 1 (if c then 1%N else 0%N)) by (destruct c; assumption).
      destruct Ci as (i & G & A & O).
      apply (@WR_block _ _ _ m hi _ i _ w [rd 4 m (w + 4)]); cbn [length]; auto; try lia; [discriminate|destruct c; lia|destruct c; rewrite O; assumption| |].
      + intros [|[|k]] w' E; cbn in E; try discriminate. apply Some_inj in E. subst w'. reflexivity.
      + intros [|[|k]] v w' E E'; cbn in E, E'; try discriminate. apply Some_inj in E. apply Some_inj in E'. subst. constructor. exact R5.
    - destruct R as (R1 & R2 & R3 & R4 & R5 & R6). destruct T8 as (i & G & A & O).
      apply (@WR_block _ _ _ m hi _ i _ w [rd 4 m (w + 4); rd 4 m (w + 8)]); cbn [length]; auto; try lia; [discriminate| |].
      + intros [|[|[|k]]] w' E; cbn in E; try discriminate; apply Some_inj in E; subst w'; reflexivity.
      + intros [|[|[|k]]] v w' E E'; cbn in E, E'; try discriminate; apply Some_inj in E; apply Some_inj in E'; subst; constructor; assumption.
  Qed.
End Rep.

(** ** Local variables *)

Lemma get_cvm : forall vars n x, get x (create_var_mapping n vars []) =
  (fix go n vars := match vars with [] => None | v :: l => if Pos.eq_dec x v then Some n else go (N.succ n) l end) n vars.
Proof. induction vars as [|v l IH]; intros n x; cbn [create_var_mapping]; [reflexivity|]. rewrite get_set, IH. reflexivity. Qed.

Lemma cvm_range : forall vars n x i, get x (create_var_mapping n vars []) = Some i -> (n <= i < n + N.of_nat (length vars))%N.
Proof.
  induction vars as [|v l IH]; intros n x i; cbn [create_var_mapping length]; [discriminate|]. rewrite get_set.
  destruct (Pos.eq_dec x v); intro E.
  - apply Some_inj in E. lia.
  - apply IH in E. lia.
Qed.

Lemma cvm_nth : forall vars n x i, get x (create_var_mapping n vars []) = Some i -> nth_error vars (N.to_nat (i - n)) = Some x.
Proof.
  induction vars as [|v l IH]; intros n x i; cbn [create_var_mapping]; [discriminate|]. rewrite get_set.
  destruct (Pos.eq_dec x v) as [->|N]; intro E.
  - apply Some_inj in E. subst i. rewrite N.sub_diag. reflexivity.
  - pose proof (cvm_range _ _ _ E). apply IH in E. replace (N.to_nat (i - n)) with (S (N.to_nat (i - N.succ n))) by lia. exact E.
Qed.

Lemma cvm_In : forall vars n x, In x vars -> exists i, get x (create_var_mapping n vars []) = Some i.
Proof.
  induction vars as [|v l IH]; intros n x H; cbn [create_var_mapping]; [destruct H|]. rewrite get_set.
  destruct (Pos.eq_dec x v); [eauto|]. apply IH. destruct H; [congruence|assumption].
Qed.

Lemma cvm_some_In vars n x i : get x (create_var_mapping n vars []) = Some i -> In x vars.
Proof. intro H. apply cvm_nth in H. eapply nth_error_In. exact H. Qed.

Lemma cvm_inj vars n x y i : get x (create_var_mapping n vars []) = Some i -> get y (create_var_mapping n vars []) = Some i -> x = y.
Proof. intros H1 H2. apply cvm_nth in H1. apply cvm_nth in H2. congruence. Qed.

Lemma names_cfv B x : In x (fundefs_names B) <-> In x (collect_function_vars B).
Proof. induction B as [f t xs e B IH|]; cbn [fundefs_names collect_function_vars]; [|tauto]. rewrite sadd_In, IH. cbn [In]. intuition congruence. Qed.

Lemma ok_locals cenv names : forall e, exp_ok cenv names e -> forall x, In x (collect_local_variables e) -> ~ In x names.
Proof.
  apply (@exp_ind2 (fun e => exp_ok cenv names e -> forall x, In x (collect_local_variables e) -> ~ In x names) (fun _ => True));
    try (intros; exact Logic.I); cbn [exp_ok collect_local_variables In].
  - intros x t ys e IH (N & _ & H) y [<-|Hy]; auto.
  - intros x l F. induction F as [|[c e] l He F IH]; cbn [flat_map fst snd] in *; [intros _ y []|].
    intros [H1 H2] y Hy. apply in_app_or in Hy. destruct Hy as [Hy|Hy]; [apply He; assumption|apply IH; assumption].
  - intros x t n y e IH (N & H) z [<-|Hz]; auto.
  - intros x f t ys e IH (N & H) z [<-|Hz]; auto.
  - intros B e _ IH H z Hz. auto.
  - intros f t ys _ z [].
  - intros x p e IH (N & _ & H) z [<-|Hz]; auto.
  - intros x p ys e IH (N & H) z [<-|Hz]; auto.
  - intros x _ z [].
Qed.

(** ** Bodies *)

Section Sim.
  Variable grow : Z -> bool.
  Variable lf : nat.
  Hypothesis Hlf : (64 <= lf)%nat.
  Variable cenv : ctor_env.
  Variable penv : tmap (option primop).
  Variable pr : tmap (list val -> option val).
  Variable B0 : fundefs.
  Variable fenv : tmap N.
  Hypothesis Ford : ordinals_ok cenv.
  Hypothesis Fprim : prims_ok cenv penv pr.
  Hypothesis Frange : forall f k, get f fenv = Some k -> (k <= 1000000)%N.

  Definition fnum (f : var) : option Z := option_map Z.of_N (get f fenv).
  Notation wrep := (wrep cenv B0 fnum).

  Lemma fnum_range f k : fnum f = Some k -> 0 <= k < 4294967296.
  Proof.
    unfold fnum. destruct (get f fenv) as [i|] eqn:E; cbn [option_map]; [|discriminate].
    intro H. apply Some_inj in H. apply Frange in E. lia.
  Qed.

  Definition inv (g : Z) (mem : Z) (p : Z) : Prop := 0 <= g /\ g mod 4 = 0 /\ g + mem <= page * p /\ p <= 30000.

  Lemma inv_lt g mem p : 0 <= mem -> inv g mem p -> g + mem < 2147483648.
  Proof. intros M (H1 & _ & H2 & H3). unfold page in H2. lia. Qed.

  (** out of memory: the flag is set, less than a page is left and growing fails *)
  Definition oom (fr : fres) : Prop :=
    exists g c r a b d e m p, fr = FOk (st g c r 1 a b d e m p) /\
      page * p <= g + page /\ g <= page * p /\ (p + 1 <= 30000 -> grow p = false).

  Definition goodf (g : Z) (m : bytes) (r : pres) (fr : fres) : Prop :=
    r = PStuck \/ oom fr \/
    match r with
    | PVal v => exists g' c' w a b d e m' p', fr = FOk (st g' c' w 0 a b d e m' p') /\
        g <= g' /\ inv g' 0 p' /\ same_below g m m' /\ wrep m' g' v w
    | PTime => fr = FTime
    | PStuck => True
    end.

  Lemma goodf_ext g m g1 m1 r fr : g <= g1 -> same_below g m m1 -> goodf g1 m1 r fr -> goodf g m r fr.
  Proof.
    intros L S [H|[H|H]]; [left; exact H|right; left; exact H|]. right; right. destruct r; auto.
    destruct H as (g' & c' & w & a & b & d & e & m' & p' & -> & H1 & H2 & H3 & H4).
    exists g', c', w, a, b, d, e, m', p'. split; [reflexivity|]. split; [lia|]. split; [exact H2|]. split; [|exact H4].
    eapply same_below_trans; eassumption.
  Qed.

  Variable call : Z -> nat -> list wval -> store -> fres.
  Variable callv : val -> fun_tag -> list val -> pres.
  Notation ex := (exec grow 30000 lf call).

  (** what a function does with the outcome of its body *)
  Definition fin (r : wres) : fres :=
    match r with
    | Rnorm _ _ _ => FStuck
    | Rbr _ _ _ _ => FStuck
    | Rret s => FOk s
    | Rtail f ty args s => call f ty args s
    | Rtrap => FTrap | Rstuck => FStuck | Rtime => FTime
    end.

  Lemma good_block g m r x n k f : goodf g m r (fin x) -> goodf g m r (fin (bindr (end_block n k x) f)).
  Proof.
    intros H. destruct x as [l s k'|j l s k'|s|f' ty args s| | |]; try exact H;
      (destruct H as [H|[H|H]]; [left; exact H|destruct H as (? & ? & ? & ? & ? & ? & ? & ? & ? & E & _); discriminate|]);
      (destruct r; [destruct H as (? & ? & ? & ? & ? & ? & ? & ? & ? & E & _); discriminate|discriminate|left; reflexivity]).
  Qed.

  Hypothesis CallOK : forall vf t vs w ws g c r a b d e m p,
    inv g 0 p -> wrep m g vf w -> Forall2 (wrep m g) vs ws ->
    goodf g m (callv vf t vs) (call w (length vs) (map I32 ws) (st g c r 0 a b d e m p)).

  (** *** The memory check *)

  (** the check: grow when the page after the one with the memory pointer does not
      exist; give up when growing fails *)
  Lemma grow_exec l g cap res a b d t m p k : 0 <= g -> 0 <= p -> g <= page * p -> p <= 30000 -> forall rest,
    ex (grow_memory_if_necessary ++ rest) l (st g cap res 0 a b d t m p) k =
        if p <=? g / 65536 + 1 then
          if (p + 1 <=? 30000) && grow p then ex rest l (st g cap res 0 a b d t m (p + 1)) k
          else Rret (st g cap res 1 a b d t m p)
        else ex rest l (st g cap res 0 a b d t m p) k.
  Proof.
    clear Hlf. intros I1 I2 I3 I4. unfold page in I3.
      assert (Eq : (g + 65536) / 65536 = g / 65536 + 1) by (rewrite <- (Z.mul_1_l 65536) at 1; apply Z.div_add; lia).
      assert (D : 65536 * (g / 65536) <= g < 65536 * (g / 65536) + 65536).
      { pose proof (Z.div_mod g 65536 ltac:(lia)). pose proof (Z.mod_pos_bound g 65536 ltac:(lia)). lia. }
      set (D0 := g / 65536) in *.
      intro rest. unfold grow_memory_if_necessary. cbn [app]. rewrite gget0, k32 by (unfold page; lia).
        unfold page. rewrite ex_add32 by lia. change (2 ^ 16) with 65536. rewrite k32 by lia.
        rewrite (@ex_bin32 _ _ _ _ Wdivs _ _ (D0 + 1)).
        2: { cbn [wbin_eval modulus]. change (65536 =? 0) with false. cbn iota.
             unfold sgn. cbn [modulus]. change (4294967296 / 2) with 2147483648. change (65536 <? 2147483648) with true. cbn iota.
             replace (g + 65536 <? 2147483648) with true by (symmetry; apply Z.ltb_lt; lia). cbn iota zeta.
             rewrite Z.quot_div_nonneg by lia. rewrite Eq. replace (D0 + 1 =? 2147483648) with false by (symmetry; apply Z.eqb_neq; lia).
             rewrite Z.mod_small by lia. reflexivity. }
        rewrite ex_cons. cbn [exec1 bindr st s_pages]. fold (st g cap res 0 a b d t m p).
        rewrite ex_rel32. cbn [wrel_eval]. unfold sgn. cbn [modulus]. change (4294967296 / 2) with 2147483648.
        replace (p <? 2147483648) with true by (symmetry; apply Z.ltb_lt; lia).
        replace (D0 + 1 <? 2147483648) with true by (symmetry; apply Z.ltb_lt; lia). cbn iota.
        rewrite ex_if. cbn [bt_len]. destruct (p <=? D0 + 1); [|reflexivity].
        rewrite k32 by lia. rewrite ex_cons. cbn [exec1 st s_pages]. fold (st g cap res 0 a b d t m p).
        destruct ((p + 1 <=? 30000) && grow p).
        - cbn [bindr]. rewrite ex_c32. change (-1 mod 4294967296) with 4294967295. rewrite ex_rel32. cbn [wrel_eval].
          replace (p =? 4294967295) with false by (symmetry; apply Z.eqb_neq; lia). reflexivity.
        - reflexivity.
  Qed.

  Lemma grow_ok mem req l g cap res a b d t m p k : (req <= 65536)%N -> inv g (Z.of_N mem) p ->
    let q := call_grow_mem_if_necessary mem req in
    (exists p', inv g (Z.of_N req + Z.of_N (snd q)) p' /\
       forall rest, ex (fst q ++ rest) l (st g cap res 0 a b d t m p) k = ex rest l (st g cap res 0 a b d t m p') k) \/
    (forall rest, oom (fin (ex (fst q ++ rest) l (st g cap res 0 a b d t m p) k))).
  Proof.
    intros Hr I. pose proof (inv_lt (N2Z.is_nonneg mem) I) as L. destruct I as (I1 & I2 & I3 & I4).
    unfold call_grow_mem_if_necessary. destruct (N.leb_spec req mem) as [C|C]; cbn [fst snd].
    - left. exists p. split; [|reflexivity]. split; [exact I1|]. split; [exact I2|]. split; [|exact I4]. lia.
    - clear C. assert (P0 : 0 <= p) by (unfold page in I3; lia).
      pose proof (@grow_exec l g cap res a b d t m p k I1 P0 ltac:(lia) I4) as H. unfold page in I3.
      assert (D : 65536 * (g / 65536) <= g < 65536 * (g / 65536) + 65536).
      { pose proof (Z.div_mod g 65536 ltac:(lia)). pose proof (Z.mod_pos_bound g 65536 ltac:(lia)). lia. }
      set (D0 := g / 65536) in *.
      destruct (Z.leb_spec p (D0 + 1)) as [P|P].
      + destruct ((p + 1 <=? 30000) && grow p) eqn:E.
        * left. exists (p + 1). split; [|exact H]. apply andb_true_iff in E. destruct E as [E _]. apply Z.leb_le in E.
          split; [exact I1|]. split; [exact I2|]. unfold page. lia.
        * right. intro rest. rewrite H. cbn [fin]. exists g, cap, res, a, b, d, t, m, p. split; [reflexivity|]. unfold page.
          split; [lia|]. split; [lia|]. intro Hp. apply andb_false_iff in E. destruct E as [E|E]; [apply Z.leb_gt in E; lia|exact E].
      + left. exists p. split; [|exact H]. split; [exact I1|]. split; [exact I2|]. unfold page. lia.
  Qed.

  (** *** Variables *)

  Variable names : list var.
  Variable lenv : tmap N.
  Hypothesis Hnames : forall x k, get x fenv = Some k -> In x names.
  Hypothesis Ldisj : forall x i, get x lenv = Some i -> get x fenv = None.
  Hypothesis Linj : forall x y i, get x lenv = Some i -> get y lenv = Some i -> x = y.

  Definition locals_ok (l : list wval) : Prop :=
    forall x i, get x lenv = Some i -> exists w, nthN l i = Some (I32 w).

  Definition env_rel (rho : env) (l : list wval) (m : bytes) (g : Z) : Prop :=
    forall x v, get x rho = Some v ->
      match get x fenv with
      | Some k => wrep m g v (Z.of_N k)
      | None => exists i w, get x lenv = Some i /\ nthN l i = Some (I32 w) /\ wrep m g v w
      end.

  Lemma env_rel_ext rho l m g m' g' : same_below g m m' -> g <= g' -> env_rel rho l m g -> env_rel rho l m' g'.
  Proof.
    intros S L E x v G. specialize (E x v G). destruct (get x fenv).
    - eapply wrep_mono; eassumption.
    - destruct E as (i & w & H1 & H2 & H3). exists i, w. split; [exact H1|]. split; [exact H2|]. eapply wrep_mono; eassumption.
  Qed.

  Lemma env_rel_local rho l m g x v i : env_rel rho l m g -> get x rho = Some v -> get x lenv = Some i ->
    exists w, nthN l i = Some (I32 w) /\ wrep m g v w.
  Proof.
    intros E G I. specialize (E x v G). rewrite (Ldisj _ I) in E. destruct E as (j & w & H1 & H2 & H3).
    assert (i = j) by congruence. subst j. eauto.
  Qed.

  (** assigning a local variable *)
  Lemma lset_ok x i w l is s k rho m g v : get x lenv = Some i -> locals_ok l -> env_rel rho l m g -> wrep m g v w ->
    exists l', ex (Ilset i :: is) l s (I32 w :: k) = ex is l' s k /\ locals_ok l' /\ env_rel (set x v rho) l' m g.
  Proof.
    intros Gi LO ER W. destruct (LO _ _ Gi) as (w0 & N0).
    destruct (@ex_lset grow 30000 lf call i (I32 w) (I32 w0) is l s k N0 eq_refl) as (l' & R & E).
    rewrite nthN_nth in N0. destruct (replace_some (I32 w) _ _ N0) as (l'' & R' & _ & S & O).
    assert (l'' = l') by congruence. subst l''. exists l'. split; [exact E|].
    assert (X : forall y j, get y lenv = Some j -> nthN l' j = if Pos.eq_dec y x then Some (I32 w) else nthN l j).
    { intros y j Gj. rewrite !nthN_nth. destruct (Pos.eq_dec y x) as [->|N].
      - assert (j = i) by congruence. subst j. exact S.
      - apply O. intro Eij. apply N2Nat.inj in Eij. subst j. apply N. eapply Linj; eassumption. }
    split.
    - intros y j Gj. rewrite (X _ _ Gj). destruct (Pos.eq_dec y x); eauto.
    - intros y u Gy. rewrite get_set in Gy. destruct (Pos.eq_dec y x) as [->|N].
      + apply Some_inj in Gy. subst u. rewrite (Ldisj _ Gi). exists i, w. split; [exact Gi|]. split; [|exact W].
        rewrite (X _ _ Gi). destruct (Pos.eq_dec x x); [reflexivity|contradiction].
      + specialize (ER y u Gy). destruct (get y fenv); [exact ER|]. destruct ER as (j & w' & H1 & H2 & H3).
        exists j, w'. split; [exact H1|]. split; [|exact H3]. rewrite (X _ _ H1). destruct (Pos.eq_dec y x); [contradiction|exact H2].
  Qed.

  (** reading a variable *)
  Definition reads (l : list wval) (y : var) (w : Z) : Prop :=
    0 <= w < 4294967296 /\
    forall i, instr_local_var_read lenv fenv y = Some i -> forall is s k, ex (i :: is) l s k = ex is l s (I32 w :: k).

  Lemma read_ok rho l m g y v : g <= 4294967296 -> env_rel rho l m g -> get y rho = Some v -> exists w, reads l y w /\ wrep m g v w.
  Proof.
    intros Hg E G. specialize (E y v G). unfold reads, instr_local_var_read. destruct (get y fenv) as [k|] eqn:F.
    - exists (Z.of_N k). split; [|exact E]. split; [apply Frange in F; lia|].
      intros i Ei is s k'. apply Some_inj in Ei. subst i. apply k32. apply Frange in F. lia.
    - destruct E as (i & w & H1 & H2 & H3). exists w. split; [|exact H3]. split; [exact (wrep_range fnum_range Hg H3)|].
      intros i' Ei is s k'. rewrite H1 in Ei. apply Some_inj in Ei. subst i'. apply ex_lget. exact H2.
  Qed.

  Lemma reads_ok rho l m g : g <= 4294967296 -> env_rel rho l m g -> forall ys vs, get_list ys rho = Some vs ->
    exists ws, Forall2 (reads l) ys ws /\ Forall2 (wrep m g) vs ws.
  Proof.
    intros Hg E ys vs G. apply get_list_Forall2 in G. induction G as [|y v ys vs Gy _ (ws & IH1 & IH2)]; [exists []; split; constructor|].
    destruct (read_ok y Hg E Gy) as (w & R & W). exists (w :: ws). split; constructor; assumption.
  Qed.

  Lemma pass_ok l : forall ys ws, Forall2 (reads l) ys ws -> forall ps, pass_function_args lenv fenv ys = Some ps ->
    forall rest s k, ex (ps ++ rest) l s k = ex rest l s (rev (map I32 ws) ++ k).
  Proof.
    induction 1 as [|y w ys ws R F IH]; cbn [pass_function_args]; intros ps E rest s k.
    - apply Some_inj in E. subst ps. reflexivity.
    - destruct (instr_local_var_read lenv fenv y) as [i|] eqn:Ei; [|discriminate].
      destruct (pass_function_args lenv fenv ys) as [ps'|] eqn:Ep; [|discriminate]. apply Some_inj in E. subst ps.
      cbn [app]. destruct R as [_ R]. rewrite (R i Ei). rewrite (IH _ eq_refl). cbn [map rev]. rewrite <- app_assoc. reflexivity.
  Qed.

  (** *** Constructors *)

  Lemma store_args_ok l p0 res a b d t p : 0 <= p0 -> p <= 30000 -> forall ys ws, Forall2 (reads l) ys ws ->
    forall j is g m, store_constructor_args lenv fenv ys j = Some is ->
    g = p0 + 4 * (1 + Z.of_nat j) -> g + 4 * Z.of_nat (length ys) <= page * p ->
    exists m', same_below g m m' /\ (forall i w, nth_error ws i = Some w -> rd 4 m' (g + 4 * Z.of_nat i) = w) /\
      forall rest k, ex (is ++ rest) l (st g p0 res 0 a b d t m p) k =
                     ex rest l (st (g + 4 * Z.of_nat (length ys)) p0 res 0 a b d t m' p) k.
  Proof.
    intros H0 Hp. induction 1 as [|y w ys ws R F IH]; cbn [store_constructor_args]; intros j is g m E Eg Room.
    - apply Some_inj in E. subst is. exists m. split; [apply same_below_refl|]. split; [intros [|i] w E; discriminate|].
      intros rest k. cbn [app length]. change (4 * Z.of_nat 0) with 0. rewrite Z.add_0_r. reflexivity.
    - destruct (instr_local_var_read lenv fenv y) as [ry|] eqn:Ei; [|discriminate].
      destruct (store_constructor_args lenv fenv ys (1 + j)) as [is'|] eqn:Es; [|discriminate]. apply Some_inj in E. subst is.
      cbn [length] in Room. unfold page in Room.
      destruct (IH (1 + j)%nat is' (g + 4) (wr 4 m g w) Es) as (m' & SB & D & X); [lia|unfold page; lia|].
      exists m'. destruct R as [Rw R]. split; [|split].
      + intros x Hx. rewrite SB by lia. apply wr_other. lia.
      + intros [|i] w' E'; cbn [nth_error] in E'.
        * apply Some_inj in E'. subst w'. change (Z.of_nat 0) with 0. rewrite Z.mul_0_r, Z.add_0_r.
          rewrite (rd_below _ _ SB) by (change (Z.of_nat 4) with 4; lia). apply rd_wr4. exact Rw.
        * replace (g + 4 * Z.of_nat (S i)) with (g + 4 + 4 * Z.of_nat i) by lia. apply D. exact E'.
      + intros rest k. cbn [app]. rewrite gget1, k32 by lia. rewrite ex_add32 by lia. rewrite (R ry Ei).
        rewrite sto32 by (unfold page; lia).
        replace (p0 + Z.of_nat (4 * (1 + j)) + 0) with g by lia. rewrite gget0, k32 by lia. rewrite ex_add32 by lia. rewrite gset0.
        rewrite X. cbn [length].
        replace (g + 4 + 4 * Z.of_nat (length ys)) with (g + 4 * Z.of_nat (Datatypes.S (length ys))) by lia. reflexivity.
  Qed.

  Lemma store_constr_ok l tg ys is ws vs i g cap res a b d t m p : inv g (4 * (1 + Z.of_nat (length ys))) p ->
    store_constructor cenv lenv fenv tg ys = Some is -> get tg cenv = Some i -> Z.of_N (ctor_ordinal i) < 2147483648 ->
    ctor_arity i = N.of_nat (length ys) -> ys <> [] -> length vs = length ys ->
    Forall2 (reads l) ys ws -> Forall2 (wrep m g) vs ws ->
    exists m', same_below g m m' /\ wrep m' (g + 4 * (1 + Z.of_nat (length ys))) (Vconstr tg vs) g /\
      forall rest k, ex (is ++ rest) l (st g cap res 0 a b d t m p) k =
                     ex rest l (st (g + 4 * (1 + Z.of_nat (length ys))) g res 0 a b d t m' p) k.
  Proof.
    intros I E Gi Ho Ar Ny Lv F W. pose proof (@inv_lt g (4 * (1 + Z.of_nat (length ys))) p ltac:(lia) I) as L. destruct I as (I1 & I2 & I3 & I4).
    unfold store_constructor, get_ctor_ord in E. rewrite Gi in E.
    destruct (store_constructor_args lenv fenv ys 0) as [is'|] eqn:Es; [|discriminate]. apply Some_inj in E. subst is.
    destruct (@store_args_ok l g res a b d t p I1 I4 ys ws F 0%nat is' (g + 4) (wr 4 m g (Z.of_N (ctor_ordinal i))) Es) as (m' & SB & D & X);
      [cbn; lia|lia|].
    assert (S' : same_below g m m'). { intros x Hx. rewrite SB by lia. apply wr_other. lia. }
    assert (Lw : length ws = length ys) by (symmetry; eapply Forall2_length; exact F).
    exists m'. split; [exact S'|]. split.
    - apply (@WR_block cenv B0 fnum m' (g + 4 * (1 + Z.of_nat (length ys))) tg i vs g ws); auto; try lia.
      + intro. subst vs. destruct ys; [contradiction|discriminate].
      + clear - I2. dlia.
      + rewrite (rd_below _ _ SB) by (change (Z.of_nat 4) with 4; lia). apply rd_wr4. lia.
      + intros k w Ek. replace (g + 4 * (1 + Z.of_nat k)) with (g + 4 + 4 * Z.of_nat k) by lia. apply D. exact Ek.
      + intros k v w Ev Ew. eapply wrep_mono; [exact S'| |]; [lia|]. clear - W Ev Ew. revert k Ev Ew.
        induction W; intros [|k] Ev Ew; cbn in Ev, Ew; try discriminate; [congruence|eauto].
    - intros rest k. cbn [app]. rewrite gget0, gset1, gget1, k32 by lia. rewrite sto32 by lia. rewrite Z.add_0_r.
      rewrite gget0, k32 by lia. rewrite ex_add32 by lia. rewrite gset0. rewrite X.
      replace (g + 4 + 4 * Z.of_nat (length ys)) with (g + 4 * (1 + Z.of_nat (length ys))) by lia. reflexivity.
  Qed.

  (** *** Case distinctions *)

  Fixpoint pick (ord : N) (es : list (N * list instr)) : option (list instr) :=
    match es with [] => None | (o, is) :: es' => if N.eqb o ord then Some is else pick ord es' end.

  (** the test made for each branch, on a word that represents a constructor *)
  Definition scrut (boxed : bool) (s : store) (ord : N) (w : Z) : Prop :=
    Z.of_N ord < 2147483648 /\
    if boxed then w + 4 <= page * s_pages s /\ rd 4 (s_mem s) w = Z.of_N ord else w = 2 * Z.of_N ord + 1.

  Lemma chain_step boxed xv o is es l s w ord : nthN l xv = Some (I32 w) -> scrut boxed s ord w -> Z.of_N o < 2147483648 ->
    ex (create_case_nested_if_chain boxed xv ((o, is) :: es)) l s [] =
    bindr (end_block 0 [] (if N.eqb o ord then ex is l s [] else ex (create_case_nested_if_chain boxed xv es) l s [])) (ex []).
  Proof.
    intros Nx [Ho Hs] Hr. cbn [create_case_nested_if_chain]. rewrite (@ex_lget _ _ _ _ _ _ _ _ _ _ Nx).
    assert (C : forall is', ex ((if boxed then [Iload T32 0; c32 (Z.of_N o)] else [c32 (Z.of_N (2 * o + 1))]) ++ [Irel T32 Weq; is']) l s [I32 w] =
              ex [is'] l s [b2i (N.eqb o ord)]).
    { intro is'. destruct boxed; cbn [app].
      - destruct Hs as [Hb Hv]. rewrite ex_load32 by lia. rewrite Z.add_0_r, Hv, k32 by lia. rewrite ex_rel32. cbn [wrel_eval].
        do 3 f_equal. destruct (N.eqb_spec o ord) as [->|N]; [apply Z.eqb_refl|apply Z.eqb_neq; lia].
      - rewrite k32 by lia. rewrite ex_rel32. cbn [wrel_eval].
        do 3 f_equal. destruct (N.eqb_spec o ord) as [->|N]; [apply Z.eqb_eq; lia|apply Z.eqb_neq; lia]. }
    rewrite C. rewrite ex_if. reflexivity.
  Qed.

  Lemma chain_good boxed xv l s w ord g m r : nthN l xv = Some (I32 w) -> scrut boxed s ord w ->
    forall es is, (forall o is', In (o, is') es -> Z.of_N o < 2147483648) -> pick ord es = Some is ->
    goodf g m r (fin (ex is l s [])) -> goodf g m r (fin (ex (create_case_nested_if_chain boxed xv es) l s [])).
  Proof.
    intros Nx Sc. induction es as [|[o is'] es IH]; intros is Hr P G; cbn [pick] in P; [discriminate|].
    rewrite (@chain_step boxed xv o is' es l s w ord Nx Sc) by (apply (Hr o is'); left; reflexivity).
    apply good_block. destruct (N.eqb o ord).
    - apply Some_inj in P. subst is'. exact G.
    - eapply IH; [|exact P|exact G]. intros o' is0 H. apply (Hr o' is0). right. exact H.
  Qed.

  Definition branches (mem : N) : list (ctor_tag * exp) -> option (list (N * list instr) * list (N * list instr)) :=
    fix branches (arms : list (ctor_tag * exp)) :=
      match arms with
      | [] => Some ([], [])
      | p :: tl =>
          match translate_body cenv fenv penv lenv (snd p) mem with
          | Some instrs =>
              match branches tl with
              | Some r =>
                  match get_ctor_ord cenv (fst p) with
                  | Some ord =>
                      match get_ctor_arity cenv (fst p) with
                      | Some arity => if Nat.eqb arity 0 then Some (fst r, (ord, instrs) :: snd r) else Some ((ord, instrs) :: fst r, snd r)
                      | None => None
                      end
                  | None => None
                  end
              | None => None
              end
          | None => None
          end
      end.

  Lemma translate_case x arms mem : translate_body cenv fenv penv lenv (Ecase x arms) mem =
    match get x lenv with
    | Some xv => match branches mem arms with
                 | Some p => Some [Ilget xv; c32 1; Ibin T32 Wand; Ieqz T32;
                     Iif None (create_case_nested_if_chain true xv (fst p)) (create_case_nested_if_chain false xv (snd p))]
                 | None => None
                 end
    | None => None
    end.
  Proof. reflexivity. Qed.

  Lemma cr_case x p arms : check_restrictions cenv (Ecase x (p :: arms)) = true ->
    (exists i, get (fst p) cenv = Some i /\ Z.of_N (ctor_ordinal i) < 2147483648) /\
    check_restrictions cenv (snd p) = true /\ check_restrictions cenv (Ecase x arms) = true.
  Proof.
    cbn [check_restrictions]. unfold get_ctor_ord. destruct (get (fst p) cenv) as [i|]; [|discriminate]. intro H.
    apply andb_true_iff in H. destruct H as [H H3]. apply andb_true_iff in H. destruct H as [H1 H2]. apply Z.ltb_lt in H1. eauto.
  Qed.

  Lemma branches_ok x mem t i : get t cenv = Some i -> forall arms p,
    branches mem arms = Some p -> caseConsistent_f cenv arms t = true -> check_restrictions cenv (Ecase x arms) = true ->
    (forall o is, In (o, is) (fst p) -> Z.of_N o < 2147483648) /\ (forall o is, In (o, is) (snd p) -> Z.of_N o < 2147483648) /\
    forall e, findtag arms t = Some e ->
      exists is, translate_body cenv fenv penv lenv e mem = Some is /\
        check_restrictions cenv e = true /\ In (t, e) arms /\
        pick (ctor_ordinal i) (if N.eqb (ctor_arity i) 0 then snd p else fst p) = Some is.
  Proof.
    intro Gi. induction arms as [|[c b] arms IH]; intros p Eb CC CR.
    - cbn in Eb. apply Some_inj in Eb. subst p. cbn. split; [tauto|]. split; [tauto|]. discriminate.
    - cbn [branches fst snd] in Eb. fold (branches mem) in Eb.
      destruct (cr_case _ _ _ CR) as ((i' & Gc & Ho) & CR1 & CR2). cbn [fst snd] in Gc, CR1.
      destruct (translate_body cenv fenv penv lenv b mem) as [is0|] eqn:Et; [|discriminate].
      destruct (branches mem arms) as [q|] eqn:Eq; [|discriminate]. unfold get_ctor_ord, get_ctor_arity in Eb. rewrite Gc in Eb.
      cbn [caseConsistent_f] in CC. rewrite Gi, Gc in CC. apply andb_true_iff in CC. destruct CC as [CC Ci]. apply Pos.eqb_eq in Ci.
      destruct (IH q eq_refl CC CR2) as (R1 & R2 & R3).
      assert (Az : Nat.eqb (N.to_nat (ctor_arity i')) 0 = N.eqb (ctor_arity i') 0).
      { destruct (N.eqb_spec (ctor_arity i') 0) as [->|N]; [reflexivity|]. apply Nat.eqb_neq. lia. }
      rewrite Az in Eb.
      assert (Ep : p = if N.eqb (ctor_arity i') 0 then (fst q, (ctor_ordinal i', is0) :: snd q) else ((ctor_ordinal i', is0) :: fst q, snd q)).
      { destruct (N.eqb (ctor_arity i') 0); apply Some_inj in Eb; auto. }
      split; [|split].
      + intros o is H. destruct (N.eqb (ctor_arity i') 0); subst p; cbn [fst] in H; [eapply R1; exact H|].
        destruct H as [H|H]; [|eapply R1; exact H]. apply pair_equal_spec in H. destruct H as [<- _]. exact Ho.
      + intros o is H. destruct (N.eqb (ctor_arity i') 0); subst p; cbn [snd] in H; [|eapply R2; exact H].
        destruct H as [H|H]; [|eapply R2; exact H]. apply pair_equal_spec in H. destruct H as [<- _]. exact Ho.
      + intros e Ft. cbn [findtag] in Ft. destruct (Pos.eq_dec c t) as [->|N].
        * apply Some_inj in Ft. subst b. assert (i' = i) by congruence. subst i'. exists is0. split; [exact Et|]. split; [exact CR1|].
          split; [left; reflexivity|]. subst p. destruct (N.eqb (ctor_arity i) 0); cbn [fst snd pick]; rewrite N.eqb_refl; reflexivity.
        * destruct (R3 e Ft) as (is & T1 & T2 & T3 & T4). exists is. split; [exact T1|]. split; [exact T2|]. split; [right; exact T3|].
          destruct (N.eqb (ctor_arity i') 0) eqn:Z1; destruct (N.eqb (ctor_arity i) 0) eqn:Z2; subst p; cbn [fst snd pick]; try exact T4;
            (destruct (N.eqb_spec (ctor_ordinal i') (ctor_ordinal i)) as [Eo|_]; [|exact T4]);
            exfalso; apply N; apply (@Ford c t i' i Gc Gi); auto; apply N.eqb_eq in Z1 || apply N.eqb_neq in Z1; apply N.eqb_eq in Z2 || apply N.eqb_neq in Z2; tauto.
  Qed.

  Lemma exp_ok_In x arms t e : exp_ok cenv names (Ecase x arms) -> In (t, e) arms -> exp_ok cenv names e.
  Proof. cbn [exp_ok]. induction arms as [|p arms IH]; intros H I; [destruct I|]. destruct H as [H1 H2]. destruct I as [->|I]; [exact H1|exact (IH H2 I)]. Qed.

  (** *** Every expression *)

  Notation tb := (translate_body cenv fenv penv lenv).

  Definition body_good (e : exp) : Prop := forall mem is l g cap res a b d t m p rho,
    tb e mem = Some is -> exp_ok cenv names e -> check_restrictions cenv e = true ->
    inv g (Z.of_N mem) p -> env_rel rho l m g -> locals_ok l ->
    goodf g m (ev cenv pr callv rho e) (fin (ex is l (st g cap res 0 a b d t m p) [])).

  Lemma inv_weaken g mem mem' p : mem' <= mem -> inv g mem p -> inv g mem' p.
  Proof. intros L (H1 & H2 & H3 & H4). repeat split; auto; lia. Qed.

  Lemma case_good x arms : Forall (fun q => body_good (snd q)) arms -> body_good (Ecase x arms).
  Proof.
    intros F mem is l g cap res a b d t m p rho T OK CR I ER LO. rewrite translate_case in T.
    destruct (get x lenv) as [xv|] eqn:Gx; [|discriminate]. destruct (branches mem arms) as [q|] eqn:Eb; [|discriminate].
    apply Some_inj in T. subst is. rewrite ev_case.
    destruct (get x rho) as [v|] eqn:Gr; [|left; reflexivity]. destruct v as [tg vs| | |]; try (left; reflexivity).
    destruct (caseConsistent_f cenv arms tg) eqn:CC; [|left; reflexivity].
    destruct (findtag arms tg) as [e|] eqn:Ft; [|left; reflexivity].
    destruct (env_rel_local x ER Gr Gx) as (w & Nx & W).
    pose proof (inv_lt (N2Z.is_nonneg mem) I) as L.
    rewrite (@ex_lget _ _ _ _ _ _ _ _ _ _ Nx). rewrite k32 by lia. rewrite (@ex_bin32 _ _ _ _ Wand w 1 (Z.land w 1)) by reflexivity.
    rewrite ex_eqz32. rewrite ex_if. apply good_block.
    change 1 with (Z.ones 1). rewrite Z.land_ones by lia. change (2 ^ 1) with 2.
    assert (Be : In (tg, e) arms -> body_good e).
    { intro Hin. rewrite Forall_forall in F. apply (F (tg, e) Hin). }
    inversion W as [t0 i Gi Ar Ho E1 E2|t0 i vs0 p0 ws Gi Ar Nv Ho P0 P2 Ph Pr Lw _ _ E1 E2| |]; subst.
    - destruct (@branches_ok x mem _ _ Gi arms q Eb CC CR) as (R1 & R2 & R3). destruct (R3 e Ft) as (is & T1 & T2 & T3 & T4).
      rewrite Ar in T4. cbn [N.eqb] in T4.
      replace ((2 * Z.of_N (ctor_ordinal i) + 1) mod 2 =? 0) with false by (symmetry; apply Z.eqb_neq; clear; dlia).
      eapply chain_good; [exact Nx| |exact R2|exact T4|]; [split; [exact Ho|reflexivity]|].
      eapply Be; try eassumption. eapply exp_ok_In; eassumption.
    - destruct (@branches_ok x mem _ _ Gi arms q Eb CC CR) as (R1 & R2 & R3). destruct (R3 e Ft) as (is & T1 & T2 & T3 & T4).
      replace (ctor_arity i =? 0)%N with false in T4.
      2: { symmetry. apply N.eqb_neq. rewrite Ar. destruct vs; [contradiction|cbn [length]; lia]. }
      rewrite P2. change (0 =? 0) with true. cbn iota.
      eapply chain_good; [exact Nx| |exact R1|exact T4|].
      + split; [exact Ho|]. cbn [st s_pages s_mem]. split; [destruct I as (_ & _ & I3 & _); lia|exact Pr].
      + eapply Be; try eassumption. eapply exp_ok_In; eassumption.
  Qed.

  (** a new value for a variable, then the rest *)
  Lemma rest_good x xv v w e mem is l g0 m0 g cap res a b d t m p rho :
    body_good e -> tb e mem = Some is -> exp_ok cenv names e -> check_restrictions cenv e = true ->
    get x lenv = Some xv -> inv g (Z.of_N mem) p -> env_rel rho l m g -> locals_ok l -> wrep m g v w ->
    g0 <= g -> same_below g0 m0 m ->
    goodf g0 m0 (ev cenv pr callv (set x v rho) e) (fin (ex (Ilset xv :: is) l (st g cap res 0 a b d t m p) [I32 w])).
  Proof.
    intros BG T OK CR Gx I ER LO W L S. destruct (lset_ok x is (st g cap res 0 a b d t m p) [] Gx LO ER W) as (l' & E & LO' & ER').
    rewrite E. eapply goodf_ext; [exact L|exact S|]. eapply BG; eassumption.
  Qed.

  Lemma constr_good x tg ys e : body_good e -> body_good (Econstr x tg ys e).
  Proof.
    intros BG mem is l g cap res a b d t m p rho T OK CR I ER LO. cbn [exp_ok] in OK. destruct OK as (_ & Ar & OK).
    cbn [check_restrictions] in CR. unfold get_ctor_ord in CR. destruct (get tg cenv) as [i|] eqn:Gi; [|discriminate].
    apply andb_true_iff in CR. destruct CR as [CR CR3]. apply andb_true_iff in CR. destruct CR as [CR1 CR2].
    apply Z.ltb_lt in CR1. apply Z.leb_le in CR2. unfold max_constr_args in CR2. specialize (Ar i eq_refl).
    pose proof (inv_lt (N2Z.is_nonneg mem) I) as L.
    cbn [ev]. destruct (get_list ys rho) as [vs|] eqn:Gl; [|left; reflexivity].
    pose proof (get_list_length _ _ Gl) as Lv.
    cbn [translate_body] in T. destruct (get x lenv) as [xv|] eqn:Gx; [|discriminate]. destruct ys as [|y0 ys0].
    - unfold get_ctor_ord in T. rewrite Gi in T. destruct (tb e mem) as [f|] eqn:Te; [|discriminate]. apply Some_inj in T. subst is.
      destruct vs; [|discriminate]. cbn [app]. rewrite k32 by lia.
      eapply rest_good; try eassumption; [|lia|apply same_below_refl].
      replace (Z.of_N (2 * ctor_ordinal i + 1)) with (2 * Z.of_N (ctor_ordinal i) + 1) by lia. constructor; assumption.
    - set (ys := y0 :: ys0) in *. unfold get_ctor_size, get_ctor_arity in T. rewrite Gi in T.
      destruct (store_constructor cenv lenv fenv tg ys) as [sc|] eqn:Es; [|discriminate].
      assert (Ny : length ys <> 0%nat) by (unfold ys; cbn [length]; lia).
      replace (N.to_nat (ctor_arity i)) with (length ys) in T by lia.
      rewrite (proj2 (Nat.eqb_neq _ _) Ny) in T. set (req := N.of_nat (4 * (length ys + 1) + 24)) in T.
      destruct (tb e (snd (call_grow_mem_if_necessary mem req))) as [f|] eqn:Te; [|discriminate]. apply Some_inj in T. subst is.
      assert (Hreq : (req <= 65536)%N) by (unfold req; lia).
      destruct (@grow_ok mem req l g cap res a b d t m p [] Hreq I) as [(p' & I' & G)|G]; [|right; left; apply G].
      rewrite G.
      destruct (@reads_ok rho l m g ltac:(lia) ER ys vs Gl) as (ws & Rw & Ww).
      destruct (@store_constr_ok l tg ys sc ws vs i g cap res a b d t m p') as (m' & SB & W & X); try assumption.
      { eapply inv_weaken; [|exact I']. unfold req. lia. }
      { unfold ys. discriminate. }
      rewrite X. cbn [app]. rewrite gget1.
      eapply rest_good; try eassumption; [|eapply env_rel_ext; try eassumption; lia|lia].
      destruct I' as (J1 & J2 & J3 & J4). split; [lia|]. split; [clear - J2; dlia|]. split; [|exact J4].
      unfold req in J3 at 1. lia.
  Qed.

  Lemma proj_good x tg n y e : body_good e -> body_good (Eproj x tg n y e).
  Proof.
    intros BG mem is l g cap res a b d t m p rho T OK CR I ER LO. cbn [exp_ok] in OK. destruct OK as (_ & OK).
    cbn [check_restrictions] in CR. cbn [translate_body] in T.
    destruct (tb e mem) as [f|] eqn:Te; [|discriminate]. destruct (get y lenv) as [yv|] eqn:Gy; [|discriminate].
    destruct (get x lenv) as [xv|] eqn:Gx; [|discriminate]. apply Some_inj in T. subst is.
    cbn [ev]. destruct (get y rho) as [v|] eqn:Gr; [|left; reflexivity]. destruct v as [tg' vs| | |]; try (left; reflexivity).
    destruct (Pos.eq_dec tg tg'); [subst tg'|left; reflexivity]. destruct (nthN vs n) as [v|] eqn:Nv; [|left; reflexivity].
    destruct (env_rel_local y ER Gr Gy) as (w & Nx & W). pose proof (inv_lt (N2Z.is_nonneg mem) I) as L.
    rewrite nthN_nth in Nv.
    inversion W as [t0 i Gi Ar Ho E1 E2|t0 i vs0 p0 ws Gi Ar Nn Ho P0 P2 Ph Pr Lw Rd Rw E1 E2| |]; subst.
    - destruct (N.to_nat n); discriminate.
    - assert (Hn : (N.to_nat n < length vs)%nat) by (apply nth_error_Some; congruence).
      destruct (nth_error ws (N.to_nat n)) as [u|] eqn:Nu; [|apply nth_error_None in Nu; lia].
      destruct I as (I1 & I2 & I3 & I4).
      cbn [app]. rewrite (@ex_lget _ _ _ _ _ _ _ _ _ _ Nx). rewrite k32 by lia. rewrite ex_add32 by lia.
      rewrite ex_load32 by (cbn [st s_pages]; lia). cbn [st s_mem]. fold (st g cap res 0 a b d t m p).
      replace (w + Z.of_nat ((N.to_nat n + 1) * 4) + 0) with (w + 4 * (1 + Z.of_nat (N.to_nat n))) by lia. rewrite (Rd _ _ Nu).
      eapply rest_good; try eassumption; [repeat split; assumption|eapply Rw; eassumption|lia|apply same_below_refl].
  Qed.

  Lemma call_args ws (k : list wval) : Nat.leb (length ws) (length (rev (map I32 ws) ++ k)) = true /\
    rev (firstn (length ws) (rev (map I32 ws) ++ k)) = map I32 ws /\ skipn (length ws) (rev (map I32 ws) ++ k) = k.
  Proof.
    assert (L : length (rev (map I32 ws)) = length ws) by (rewrite rev_length, map_length; reflexivity).
    split; [apply Nat.leb_le; rewrite app_length; lia|]. rewrite <- L at 1 2.
    rewrite firstn_app, Nat.sub_diag, firstn_all, firstn_O, app_nil_r, rev_involutive. split; [reflexivity|].
    rewrite skipn_app, Nat.sub_diag, skipn_all. reflexivity.
  Qed.

  Lemma letapp_good x f ft ys e : body_good e -> body_good (Eletapp x f ft ys e).
  Proof.
    intros BG mem is l g cap res a b d t m p rho T OK CR I ER LO. cbn [exp_ok] in OK. destruct OK as (_ & OK).
    cbn [check_restrictions] in CR. apply andb_true_iff in CR. destruct CR as [_ CR]. cbn [translate_body] in T.
    destruct (get x lenv) as [xv|] eqn:Gx; [|discriminate]. destruct (tb e 0%N) as [fo|] eqn:Te; [|discriminate].
    unfold translate_call in T. destruct (pass_function_args lenv fenv ys) as [ps|] eqn:Ep; [|discriminate].
    destruct (instr_local_var_read lenv fenv f) as [fi|] eqn:Ef; [|discriminate]. apply Some_inj in T. subst is.
    cbn [ev]. destruct (get f rho) as [vf|] eqn:Gf; [|left; reflexivity]. destruct (get_list ys rho) as [vs|] eqn:Gl; [|left; reflexivity].
    pose proof (inv_lt (N2Z.is_nonneg mem) I) as L. assert (Lg : g <= 4294967296) by lia.
    destruct (reads_ok Lg ER ys Gl) as (ws & Rs & Ws). destruct (read_ok f Lg ER Gf) as (wf & [_ Rf] & Wf).
    assert (I0 : inv g 0 p) by (eapply inv_weaken; [|exact I]; lia).
    pose proof (@CallOK vf ft vs wf ws g cap res a b d t m p I0 Wf Ws) as C.
    assert (Ly : length ys = length ws) by (eapply Forall2_length; exact Rs).
    assert (Lv : length vs = length ws) by (eapply Forall2_length; exact Ws).
    rewrite <- !app_assoc. rewrite (pass_ok Rs Ep). cbn [app]. rewrite (Rf fi Ef). rewrite ex_cons. cbn [exec1].
    destruct (call_args ws []) as (A1 & A2 & A3). rewrite Ly, A1, A2, A3. rewrite Lv in C.
    destruct C as [C|[C|C]].
    - rewrite C. left. reflexivity.
    - destruct C as (g' & c' & r' & a' & b' & d' & e' & m' & p' & E & C1 & C2 & C3). rewrite E. cbn [bindr].
      right; left. rewrite gget3. change (I32 1) with (b2i true). rewrite ex_if.
      exists g', c', r', a', b', d', e', m', p'. split; [reflexivity|]. auto.
    - destruct (callv vf ft vs) as [v| |]; [|rewrite C; right; right; reflexivity|left; reflexivity].
      destruct C as (g' & c' & w & a' & b' & d' & e' & m' & p' & E & C1 & C2 & C3 & C4). rewrite E. cbn [bindr].
      rewrite gget3. change (I32 0) with (b2i false).
      rewrite (@ex_if_norm _ _ _ _ None _ _ false _ l _ [] l (st g' c' w 0 a' b' d' e' m' p') []) by reflexivity.
      cbn [app]. rewrite gget2. eapply rest_good; try eassumption. eapply env_rel_ext; eassumption.
  Qed.

  Lemma app_good f ft ys : body_good (Eapp f ft ys).
  Proof.
    intros mem is l g cap res a b d t m p rho T OK CR I ER LO. cbn [translate_body] in T.
    unfold translate_call in T. destruct (pass_function_args lenv fenv ys) as [ps|] eqn:Ep; [|discriminate].
    destruct (instr_local_var_read lenv fenv f) as [fi|] eqn:Ef; [|discriminate]. apply Some_inj in T. subst is.
    cbn [ev]. destruct (get f rho) as [vf|] eqn:Gf; [|left; reflexivity]. destruct (get_list ys rho) as [vs|] eqn:Gl; [|left; reflexivity].
    pose proof (inv_lt (N2Z.is_nonneg mem) I) as L. assert (Lg : g <= 4294967296) by lia.
    destruct (reads_ok Lg ER ys Gl) as (ws & Rs & Ws). destruct (read_ok f Lg ER Gf) as (wf & [_ Rf] & Wf).
    assert (I0 : inv g 0 p) by (eapply inv_weaken; [|exact I]; lia).
    pose proof (@CallOK vf ft vs wf ws g cap res a b d t m p I0 Wf Ws) as C.
    assert (Ly : length ys = length ws) by (eapply Forall2_length; exact Rs).
    assert (Lv : length vs = length ws) by (eapply Forall2_length; exact Ws).
    rewrite (pass_ok Rs Ep). cbn [app]. rewrite (Rf fi Ef). rewrite ex_cons. cbn [exec1].
    destruct (call_args ws []) as (A1 & A2 & A3). rewrite Ly, A1, A2. rewrite Lv in C. exact C.
  Qed.

  Lemma prim_val_good x pv e : body_good e -> body_good (Eprim_val x pv e).
  Proof.
    intros BG mem is l g cap res a b d t m p rho T OK CR I ER LO. cbn [exp_ok] in OK. destruct OK as (_ & Hz & OK).
    cbn [check_restrictions] in CR. cbn [translate_body] in T. destruct (get x lenv) as [xv|] eqn:Gx; [|discriminate].
    destruct pv as [z| |]; cbn [translate_primitive_value] in T; try discriminate. unfold u63 in Hz.
    rewrite (Z.mod_small z) in T by lia.
    destruct (tb e (snd (call_grow_mem_if_necessary mem 32))) as [f|] eqn:Te; [|discriminate]. apply Some_inj in T. subst is.
    pose proof (inv_lt (N2Z.is_nonneg mem) I) as L. cbn [ev].
    destruct (@grow_ok mem 32%N l g cap res a b d t m p [] ltac:(lia) I) as [(p' & I' & G)|G]; [|right; left; apply G].
    rewrite G. destruct I' as (J1 & J2 & J3 & J4).
    cbn [app]. rewrite gget0, ex_const, sto64 by lia. rewrite Z.add_0_r. rewrite gget0.
    assert (SB : same_below g m (wr 8 m g z)) by (intros q Hq; apply wr_other; lia).
    assert (W : wrep (wr 8 m g z) (g + 8) (Vprim (PVint z)) g).
    { constructor. split; [lia|]. split; [lia|]. split; [exact Hz|]. apply rd_wr8. lia. }
    assert (ER' : env_rel rho l (wr 8 m g z) (g + 8)) by (eapply env_rel_ext; try eassumption; lia).
    destruct (@lset_ok x xv g l ([Igget glob_mem_ptr; c32 8; Ibin T32 Wadd; Igset glob_mem_ptr] ++ f)
      (st g cap res 0 a b d t (wr 8 m g z) p') [] rho _ _ _ Gx LO ER' W) as (l' & E & LO' & ER2).
    cbn [app] in E. rewrite E. rewrite gget0, k32 by lia. rewrite ex_add32 by lia. rewrite gset0.
    eapply goodf_ext; [|exact SB|]; [|eapply BG; try eassumption].
    - lia.
    - split; [lia|]. split; [clear - J2; dlia|]. split; [lia|exact J4].
  Qed.

  Lemma prim_good x pf ys e : body_good e -> body_good (Eprim x pf ys e).
  Proof.
    intros BG mem is l g cap res a b d t m p rho T OK CR I ER LO. cbn [exp_ok] in OK. destruct OK as (_ & OK).
    cbn [check_restrictions] in CR. cbn [translate_body] in T. destruct (get pf penv) as [op|] eqn:Gp; [|discriminate].
    destruct (get x lenv) as [xv|] eqn:Gx; [|discriminate].
    destruct (translate_primitive_operation lenv op ys) as [po|] eqn:To; [|discriminate].
    destruct (tb e (snd (call_grow_mem_if_necessary mem 52))) as [f|] eqn:Te; [|discriminate]. apply Some_inj in T. subst is.
    pose proof (inv_lt (N2Z.is_nonneg mem) I) as L. cbn [ev].
    destruct (get_list ys rho) as [vs|] eqn:Gl; [|left; reflexivity]. destruct (get pf pr) as [fp|] eqn:Gf; [|left; reflexivity].
    destruct (fp vs) as [v|] eqn:Ev; [|left; reflexivity].
    destruct op as [op|]; [|discriminate].
    destruct (@Fprim pf op fp vs v Gp Gf Ev) as (tags & zs & r & PT & Evs & PR & Er). subst vs v.
    destruct (@grow_ok mem 52%N l g cap res a b d t m p [] ltac:(lia) I) as [(p' & I' & G)|G]; [|right; left; apply G].
    rewrite G. destruct I' as (J1 & J2 & J3 & J4).
    assert (OP : Forall2 (fun y z => forall i, get y lenv = Some i -> opnd l m g i z) ys zs).
    { apply get_list_Forall2 in Gl. clear - Gl ER Ldisj. remember (map (fun z => Vprim (PVint z)) zs) as vs eqn:E. revert zs E.
      induction Gl as [|y v ys vs Gy _ IH]; intros [|z zs] E; try discriminate; [constructor|].
      cbn [map] in E. assert (v = Vprim (PVint z) /\ vs = map (fun z => Vprim (PVint z)) zs) as [-> ->] by (split; congruence). constructor; [|apply IH; reflexivity].
      intros i Gi. destruct (env_rel_local y ER Gy Gi) as (w & N & W). exists w. split; [exact N|].
      inversion W as [| | |z0 p0 H E1 E2]. assumption. }
    rewrite ex_app.
    destruct (@prim_all grow 30000 lf call lenv op ys po zs r l g cap res 0 a b d t m p' [] Hlf To PR OP J1 J2 ltac:(lia) ltac:(lia))
      as (w & g' & c' & a' & b' & d' & e' & m' & E & Hg & M4 & SB & _ & RA).
    rewrite E. cbn [bindr app].
    eapply rest_good; try eassumption.
    - split; [lia|]. split; [exact M4|]. split; [lia|exact J4].
    - eapply env_rel_ext; try eassumption. lia.
    - apply res_wrep; assumption.
    - lia.
  Qed.

  Lemma halt_good x : body_good (Ehalt x).
  Proof.
    intros mem is l g cap res a b d t m p rho T OK CR I ER LO. cbn [translate_body] in T.
    destruct (get x lenv) as [xv|] eqn:Gx; [|discriminate]. apply Some_inj in T. subst is. cbn [ev].
    destruct (get x rho) as [v|] eqn:Gr; [|left; reflexivity]. destruct (env_rel_local x ER Gr Gx) as (w & Nx & W).
    rewrite (@ex_lget _ _ _ _ _ _ _ _ _ _ Nx). rewrite gset2. right; right.
    exists g, cap, w, a, b, d, t, m, p. split; [reflexivity|]. split; [lia|]. split; [eapply inv_weaken; [|exact I]; lia|].
    split; [apply same_below_refl|exact W].
  Qed.

  Theorem body_sim : forall e, body_good e.
  Proof.
    apply (@exp_ind2 body_good (fun _ => True)); try (intros; exact Logic.I).
    - intros. apply constr_good. assumption.
    - intros. apply case_good. assumption.
    - intros. apply proj_good. assumption.
    - intros. apply letapp_good. assumption.
    - intros B e _ _ mem is l g cap res a b d t m p rho T. discriminate.
    - intros. apply app_good.
    - intros. apply prim_val_good. assumption.
    - intros. apply prim_good. assumption.
    - intros. apply halt_good.
  Qed.
End Sim.

(** ** Whole programs *)

Section Top.
  Variable grow : Z -> bool.
  Variable lf : nat.
  Hypothesis Hlf : (64 <= lf)%nat.
  Variable cenv : ctor_env.
  Variable penv : tmap (option primop).
  Variable pr : tmap (list val -> option val).
  Variable B0 : fundefs.
  Variable e0 : exp.
  Variable M : wmodule.
  Hypothesis Ford : ordinals_ok cenv.
  Hypothesis Fprim : prims_ok cenv penv pr.
  Hypothesis POK : wprog_ok cenv B0 e0.
  Hypothesis Comp : LambdaANF_to_Wasm cenv penv (Efun B0 e0) = Some M.

  Notation fenv := (create_fname_mapping B0).
  Notation funs := (map snd (wm_funs M)).
  Notation goodf := (goodf grow cenv B0 fenv).
  Notation wrep := (wrep cenv B0 (fnum fenv)).

  Lemma comp_inv : check_restrictions_fundefs cenv B0 = true /\ check_restrictions cenv e0 = true /\
    (Z.of_nat (numOf_fundefs B0) <= 1000000) /\
    exists fns is, translate_functions cenv fenv penv B0 = Some fns /\
      translate_body cenv fenv penv (create_local_variable_mapping (collect_local_variables e0)) e0 0%N = Some is /\
      funs = {| wf_params := 0; wf_locals := length (collect_local_variables e0); wf_body := is |} :: map snd fns.
  Proof.
    unfold LambdaANF_to_Wasm in Comp. destruct (check_restrictions cenv (Efun B0 e0)) eqn:CR; [|discriminate].
    cbn [check_restrictions] in CR. apply andb_true_iff in CR. destruct CR as [CR C3]. apply andb_true_iff in CR. destruct CR as [C1 C2].
    split; [exact C2|]. split; [exact C3|]. split; [apply Z.leb_le in C1; unfold max_num_functions in C1; lia|].
    destruct (translate_functions cenv fenv penv B0) as [fns|] eqn:T1; [|discriminate].
    destruct (translate_body cenv fenv penv (create_local_variable_mapping (collect_local_variables e0)) e0 0) as [is|] eqn:T2; [|discriminate].
    apply Some_inj in Comp. exists fns, is. split; [reflexivity|]. split; [reflexivity|]. rewrite <- Comp. reflexivity.
  Qed.

  Lemma len_cfv B : length (collect_function_vars B) = numOf_fundefs B.
  Proof. induction B as [f t xs e B IH|]; cbn [collect_function_vars numOf_fundefs length]; congruence. Qed.

  Lemma fenv_range f k : get f fenv = Some k -> (k <= 1000000)%N.
  Proof.
    intro H. apply cvm_range in H. rewrite len_cfv in H. destruct comp_inv as (_ & _ & L & _). lia.
  Qed.

  Lemma fenv_names f k : get f fenv = Some k -> In f (fundefs_names B0).
  Proof. intro H. apply names_cfv. eapply cvm_some_In. exact H. Qed.

  Lemma names_fenv f : ~ In f (fundefs_names B0) -> get f fenv = None.
  Proof. intro H. destruct (get f fenv) eqn:E; [|reflexivity]. exfalso. apply H. eapply fenv_names. exact E. Qed.

  Lemma lenv_disj vars : (forall x, In x vars -> ~ In x (fundefs_names B0)) ->
    forall x i, get x (create_local_variable_mapping vars) = Some i -> get x fenv = None.
  Proof. intros H x i G. apply names_fenv. apply H. eapply cvm_some_In. exact G. Qed.

  (** the code of a function is where its index says *)
  Lemma fun_at : forall B n fns f k t xs b, translate_functions cenv fenv penv B = Some fns ->
    get f (create_var_mapping n (collect_function_vars B) []) = Some k -> find_def f B = Some (t, xs, b) ->
    check_restrictions_fundefs cenv B = true ->
    check_restrictions cenv b = true /\
    exists is, translate_body cenv fenv penv (create_local_variable_mapping (xs ++ collect_local_variables b)) b 0%N = Some is /\
      nth_error (map snd fns) (N.to_nat (k - n)) =
      Some {| wf_params := length xs; wf_locals := length (collect_local_variables b); wf_body := is |}.
  Proof.
    induction B as [g t0 ys c B IH|]; intros n fns f k t xs b T G F CR; [|discriminate].
    cbn [translate_functions] in T. cbn [collect_function_vars create_var_mapping] in G. rewrite get_set in G. cbn [find_def] in F.
    cbn [check_restrictions_fundefs] in CR. apply andb_true_iff in CR. destruct CR as [CR C3]. apply andb_true_iff in CR. destruct CR as [_ C2].
    unfold translate_function in T. destruct (get g fenv) as [gi|]; [|discriminate].
    destruct (translate_body cenv fenv penv (create_local_variable_mapping (ys ++ collect_local_variables c)) c 0) as [is|] eqn:Tb; [|discriminate].
    destruct (translate_functions cenv fenv penv B) as [fns'|] eqn:Tf; [|discriminate]. apply Some_inj in T. subst fns.
    destruct (Pos.eq_dec f g) as [->|N].
    - apply Some_inj in G. subst k. assert (t = t0 /\ xs = ys /\ b = c) as (-> & -> & ->) by (split; [|split]; congruence).
      split; [exact C3|]. exists is. split; [exact Tb|]. rewrite N.sub_diag. reflexivity.
    - pose proof (cvm_range _ _ _ G) as R. destruct (IH (N.succ n) fns' f k t xs b eq_refl G F C2) as (H1 & is' & H2 & H3).
      split; [exact H1|]. exists is'. split; [exact H2|]. replace (N.to_nat (k - n)) with (S (N.to_nat (k - N.succ n))) by lia. exact H3.
  Qed.

  (** parameters are found where the call puts them *)
  Lemma params_ok (P : val -> Z -> Prop) xs : forall vs ws n rho rho' more, Forall2 P vs ws -> set_lists xs vs rho = Some rho' ->
    forall x v, get x rho' = Some v -> In x xs ->
    exists i w, get x (create_var_mapping n (xs ++ more) []) = Some i /\ nth_error (map I32 ws) (N.to_nat (i - n)) = Some (I32 w) /\ P v w.
  Proof.
    induction xs as [|x0 xs IH]; intros vs ws n rho rho' more F S x v G I; [destruct I|].
    destruct F as [|v0 w0 vs ws H0 F]; cbn [set_lists] in S; [discriminate|].
    destruct (set_lists xs vs rho) as [r|] eqn:E; [|discriminate]. apply Some_inj in S. subst rho'. rewrite get_set in G.
    cbn [app create_var_mapping]. rewrite get_set. destruct (Pos.eq_dec x x0) as [->|N].
    - apply Some_inj in G. subst v0. exists n, w0. split; [reflexivity|]. rewrite N.sub_diag. split; [reflexivity|exact H0].
    - destruct I as [->|I]; [contradiction|]. destruct (IH vs ws (N.succ n) rho r more F E x v G I) as (i & w & H1 & H2 & H3).
      exists i, w. split; [exact H1|]. pose proof (cvm_range _ _ _ H1). split; [|exact H3].
      replace (N.to_nat (i - n)) with (Datatypes.S (N.to_nat (i - N.succ n))) by lia. exact H2.
  Qed.

  Lemma run_fin n f ty args s fn g m r : 0 <= f -> nth_error funs (Z.to_nat f) = Some fn -> wf_params fn = ty ->
    goodf g m r (fin (run grow 30000 lf funs n) (exec grow 30000 lf (run grow 30000 lf funs n) (wf_body fn) (args ++ repeat (I32 0) (wf_locals fn)) s [])) ->
    goodf g m r (run grow 30000 lf funs (S n) f ty args s).
  Proof.
    intros H0 N T G. cbn [run]. assert (L : (Z.to_nat f < length funs)%nat) by (apply nth_error_Some; congruence).
    replace ((f <? 0) || (Z.of_nat (length funs) <=? f)) with false.
    2: { symmetry. apply orb_false_iff. split; [apply Z.ltb_ge; lia|apply Z.leb_gt; lia]. }
    rewrite N, T, Nat.eqb_refl.
    destruct (exec grow 30000 lf (run grow 30000 lf funs n) (wf_body fn) (args ++ repeat (I32 0) (wf_locals fn)) s []) as [l s' k| | | | | |]; try exact G.
    cbn [fin] in G. destruct G as [G|[G|G]]; [left; exact G|destruct G as (? & ? & ? & ? & ? & ? & ? & ? & ? & E & _); discriminate|].
    destruct r; [destruct G as (? & ? & ? & ? & ? & ? & ? & ? & ? & E & _); discriminate|discriminate|left; reflexivity].
  Qed.

  Lemma locals_init args vars n : length vars = (length args + n)%nat ->
    locals_ok (create_local_variable_mapping vars) (map I32 args ++ repeat (I32 0) n).
  Proof.
    intros L x i G. apply cvm_range in G. rewrite nthN_nth.
    destruct (nth_error (map I32 args ++ repeat (I32 0) n) (N.to_nat i)) as [v|] eqn:E.
    - assert (Hv : In v (map I32 args ++ repeat (I32 0) n)) by (eapply nth_error_In; exact E).
      apply in_app_or in Hv. destruct Hv as [Hv|Hv]; [apply in_map_iff in Hv; destruct Hv as (w & <- & _)|apply repeat_spec in Hv; subst v]; eauto.
    - exfalso. apply nth_error_None in E. rewrite app_length, map_length, repeat_length in E. lia.
  Qed.

  Lemma env_funs m g lenv l : env_rel cenv B0 fenv lenv (def_funs B0 B0 [] []) l m g.
  Proof.
    intros x v G. assert (D : forall B rho, get x (def_funs B0 B [] rho) = Some v ->
      (v = Vfun [] B0 x /\ In x (fundefs_names B)) \/ get x rho = Some v).
    { induction B as [f t xs e B IH|]; intros rho H; cbn [def_funs] in H; [|right; exact H]. rewrite get_set in H.
      cbn [fundefs_names]. rewrite sadd_In. destruct (Pos.eq_dec x f) as [->|N].
      - apply Some_inj in H. left. split; [symmetry; exact H|tauto].
      - destruct (IH _ H) as [[H1 H2]|H1]; [left; split; [exact H1|tauto]|right; exact H1]. }
    destruct (D B0 [] G) as [[-> I]|H]; [|discriminate]. apply names_cfv in I.
    destruct (@cvm_In _ 1%N x I) as [k Gk]. unfold create_fname_mapping in *. rewrite Gk. constructor. unfold fnum. rewrite Gk. reflexivity.
  Qed.

  (** calls *)
  Theorem call_sim : forall n vf t vs w ws g c r a b d e m p,
    inv g 0 p -> wrep m g vf w -> Forall2 (wrep m g) vs ws ->
    goodf g m (callf cenv pr n vf t vs) (run grow 30000 lf funs n w (length vs) (map I32 ws) (st g c r 0 a b d e m p)).
  Proof.
    induction n as [|n IH]; intros vf t vs w ws g c r a b d e m p I Wf Ws; [right; right; reflexivity|].
    cbn [callf]. destruct vf as [|rho' fl f'| |]; try (left; reflexivity).
    destruct (find_def f' fl) as [[[t' xs] body]|] eqn:F; [|left; reflexivity]. destruct (Pos.eq_dec t t'); [subst t'|left; reflexivity].
    destruct (set_lists xs vs (def_funs fl fl rho' rho')) as [rho''|] eqn:SL; [|left; reflexivity].
    assert (rho' = [] /\ fl = B0 /\ fnum fenv f' = Some w) as (-> & -> & Fk) by (inversion Wf; auto).
    unfold fnum in Fk. destruct (get f' fenv) as [ki|] eqn:Gf; cbn [option_map] in Fk; [|discriminate]. apply Some_inj in Fk. subst w.
    destruct comp_inv as (C1 & C2 & C3 & fns & is0 & T1 & T2 & EF).
    destruct (@fun_at B0 1%N fns f' ki t xs body T1 Gf F C1) as (CR & is & Tb & Nf).
    pose proof (cvm_range _ _ _ Gf) as R1.
    destruct POK as [_ PF]. destruct (PF f' t xs body F) as [OKb Dx].
    pose proof (set_lists_length _ _ _ SL) as Lx.
    assert (Lw : length vs = length ws) by (eapply Forall2_length; exact Ws).
    eapply run_fin with (fn := {| wf_params := length xs; wf_locals := length (collect_local_variables body); wf_body := is |}).
    - lia.
    - rewrite EF. replace (Z.to_nat (Z.of_N ki)) with (S (N.to_nat (ki - 1))) by lia. exact Nf.
    - cbn [wf_params]. exact Lx.
    - cbn [wf_body wf_locals].
      assert (Dall : forall x, In x (xs ++ collect_local_variables body) -> ~ In x (fundefs_names B0)).
      { intros x Hx. apply in_app_or in Hx. destruct Hx as [Hx|Hx]; [apply Dx; exact Hx|]. eapply ok_locals; eassumption. }
      eapply (@body_sim grow lf Hlf cenv penv pr B0 fenv Ford Fprim fenv_range (run grow 30000 lf funs n) (callf cenv pr n) IH
        (fundefs_names B0) (create_local_variable_mapping (xs ++ collect_local_variables body)) (lenv_disj _ Dall) ltac:(intros; eapply cvm_inj; eassumption) body 0%N);
        try eassumption.
      + intros x v G. destruct (in_dec Pos.eq_dec x xs) as [Ix|Nx].
        * rewrite (@names_fenv x (Dx x Ix)).
          destruct (@params_ok (wrep m g) xs vs ws 0%N _ _ (collect_local_variables body) Ws SL x v G Ix) as (i & u & H1 & H2 & H3).
          exists i, u. split; [exact H1|]. split; [|exact H3]. rewrite nthN_nth, nth_error_app1; [rewrite N.sub_0_r in H2; exact H2|].
          apply nth_error_Some. rewrite N.sub_0_r in H2. congruence.
        * rewrite (@set_lists_not_In _ _ _ _ _ _ SL Nx) in G. eapply env_funs. exact G.
      + apply locals_init. rewrite app_length. unfold var in *. lia.
  Qed.

  (** the exported main function *)
  Theorem main_sim : forall n,
    goodf 0 (fun _ => 0) (peval cenv pr n [] (Efun B0 e0)) (run grow 30000 lf funs (S n) 0 0 [] init_store).
  Proof.
    intro n. destruct comp_inv as (C1 & C2 & C3 & fns & is0 & T1 & T2 & EF). unfold peval. cbn [ev].
    eapply run_fin; [lia|rewrite EF; reflexivity|reflexivity|]. cbn [wf_body wf_locals].
    change init_store with (st 0 0 0 0 0 0 0 0 (fun _ => 0) 1).
    destruct POK as [OK0 _].
    eapply (@body_sim grow lf Hlf cenv penv pr B0 fenv Ford Fprim fenv_range (run grow 30000 lf funs n) (callf cenv pr n) (@call_sim n)
        (fundefs_names B0) (create_local_variable_mapping (collect_local_variables e0)) (@lenv_disj _ (@ok_locals _ _ _ OK0)) ltac:(intros; eapply cvm_inj; eassumption) e0 0%N);
        try eassumption.
    - split; [lia|]. split; [reflexivity|]. unfold page. split; lia.
    - apply env_funs.
    - apply (@locals_init [] (collect_local_variables e0)). reflexivity.
  Qed.
End Top.
