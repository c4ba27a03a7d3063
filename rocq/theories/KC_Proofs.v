(** * Simulation: the C code for programs in continuation-passing style computes the value of the source program *)
From Coq Require Import ZArith NArith List Lia Bool.
Import ListNotations.
From Verif Require Import ANF_Syntax ANF_Eval ANF_EvalProofs ANF_Spec ANF_FreeProofs CG_Clight CG_Model CG_Spec CG_Stack CG_Proofs KC_Model KC_Spec.
Set Implicit Arguments.
Local Open Scope Z_scope.
Ltac Zify.zify_post_hook ::= idtac.

(** ** Conditions on programs *)

(** every call is a tail call *)
Fixpoint no_letapp (e : exp) : Prop :=
  match e with
  | Econstr _ _ _ e' | Eproj _ _ _ _ e' | Eprim_val _ _ e' | Eprim _ _ _ e' => no_letapp e'
  | Ecase x cs => (fix go cs := match cs with [] => True | p :: cs' => no_letapp (snd p) /\ go cs' end) cs
  | Eletapp _ _ _ _ _ => False
  | _ => True
  end.

(** no case analysis *)
Fixpoint no_case (e : exp) : Prop :=
  match e with
  | Econstr _ _ _ e' | Eproj _ _ _ _ e' | Eprim_val _ _ e' | Eprim _ _ _ e' | Eletapp _ _ _ _ e' => no_case e'
  | Ecase _ _ => False
  | _ => True
  end.

Lemma nl_case (cs : list (ctor_tag * exp)) p : (fix go (cs : list (ctor_tag * exp)) := match cs with [] => True | p :: cs' => no_letapp (snd p) /\ go cs' end) cs -> In p cs -> no_letapp (snd p).
Proof. induction cs as [|q cs IH]; intros H I; [contradiction|]. destruct H as [H1 H2]. destruct I as [->|I]; auto. Qed.

Lemma kmax_case (cs : list (ctor_tag * exp)) p : In p cs -> (kmax_allocs (snd p) <= fold_right (fun p r => Nat.max (kmax_allocs (snd p)) r) 0 cs)%nat.
Proof. induction cs as [|q cs IH]; intros I; [contradiction|]. cbn [fold_right]. destruct I as [->|I]; [lia|]. specialize (IH I). lia. Qed.

Section KSim.
  Variable kgc : list Z -> mem -> gres.
  Hypothesis GC : kgc_ok kgc.
  Hypothesis KL : keeps_limit kgc.
  Variable nParam : nat.
  Variable prims : tmap bool.
  Variable cenv : ctor_env.
  Hypothesis CE : cenv_ok cenv.
  Variable fenv : tmap (N * list N).
  Variable fmap : tmap (positive * positive).
  Variable B0 : fundefs.
  Variable ar : positive -> nat.
  Variable prog : kprog.

  Notation tb := (ktranslate_body nParam prims fenv cenv fmap).
  Local Notation okv := (okv cenv B0).
  Local Notation evv := (evv fenv fmap).
  Local Notation envv := (envv cenv B0).
  Local Notation okname := (okname B0).

  Hypothesis Hfun : forall x, In x (fnames B0) -> makeVar x fenv fmap = Xfun x.
  Hypothesis Htemp : forall x, ~ In x (fnames B0) -> x <> mainIdent -> makeVar x fenv fmap = Xtemp x.
  Hypothesis Hfenv : forall t inf, get t fenv = Some inf -> inf = (N.of_nat (ar t), map N.of_nat (seq 0 (ar t))).
  Hypothesis Hres : forall x, In x reserved -> ~ In x (fnames B0).
  Hypothesis Hgc : ~ In gcIdent (fnames B0).
  Hypothesis Hip : ~ In isptrIdent (fnames B0).

  Record INV (L : list positive) (rho : env) (e : exp) (t : tmap cval) (m : mem) (a : Z) : Prop := {
    iv_area : m_lo m <= a <= m_hi m;
    iv_t : temps_ok t m a;
    iv_args : get argsIdent t = Some (VP BArgs 0);
    iv_b : a + Z.of_nat (kmax_allocs e) <= m_hi m;
    iv_env : forall x, free x e -> envv L rho t m a x }.

  (** the answer is in slot 1 of the args array (runtime/gc.h:139-141, [answer_index]) *)
  Definition answer (Q : val -> Prop) (m : mem) : Prop :=
    exists v w a, Q v /\ area m a /\ m_lo m <= a <= m_hi m /\ m_args m 1 = Some w /\ okv m a v w.

  Definition good (T : Prop) (Q : val -> Prop) (r : sres) : Prop :=
    (T /\ r = RTime) \/ r = RAbort \/ exists t' m', r = ROk Onormal t' m' /\ answer Q m'.

  Definition body_ok (T : Prop) (Q : val -> Prop) (k : nat) (rho : env) (e : exp) : Prop :=
    forall info L decl t m a s,
      tb e = Some s ->
      (forall x, In x L -> okname x) -> incl (get_locals e) L -> incl L decl ->
      In allocIdent decl -> In limitIdent decl -> In argsIdent decl ->
      (In caseIdent decl \/ no_case e) -> wf_exp cenv e -> no_letapp e ->
      INV L rho e t m a ->
      good T Q (exec (kgc info) (krun kgc prog k) decl gcIdent 1%positive s t m).

  Lemma answer_imp (Q Q' : val -> Prop) m : (forall v, Q v -> Q' v) -> answer Q m -> answer Q' m.
  Proof. intros H (v & w & a & HQ & R). exists v, w, a. auto. Qed.

  Lemma good_imp (T : Prop) (Q Q' : val -> Prop) r : (forall v, Q v -> Q' v) -> good T Q r -> good T Q' r.
  Proof.
    intros H [G|[G|(t' & m' & G & A)]]; [left; exact G|right; left; exact G|].
    right. right. exists t', m'. split; [exact G|eapply answer_imp; eauto].
  Qed.

  (** ** One lemma per construct *)

  Lemma body_constr (T : Prop) (Q : val -> Prop) k rho x t0 ys e vs :
    get_list ys rho = Some vs -> body_ok T Q k (set x (Vconstr t0 vs) rho) e -> body_ok T Q k rho (Econstr x t0 ys e).
  Proof.
    intros Gl IH info L decl t m a s E HL HG HD Da Dl Dg Dc W NL [K Tk Ga B V].
    cbn [ktranslate_body] in E. destruct (assignConstructorS cenv fenv fmap x t0 ys) as [s0|] eqn:E0; [|discriminate].
    destruct (tb e) as [s1|] eqn:E1; [|discriminate]. apply Some_inj in E. subst s.
    cbn [wf_exp] in W. destruct W as (W1 & W2 & W3). cbn [get_locals] in HG. cbn [no_letapp no_case] in *.
    assert (Bc : kmax_allocs (Econstr x t0 ys e) = (cost ys + kmax_allocs e)%nat).
    { cbn [kmax_allocs]. unfold var in *. destruct ys; cbn [cost length]; lia. }
    rewrite Bc in B.
    assert (Ix : In x L) by (apply HG; left; reflexivity).
    destruct (envv_list fenv fmap Hfun Htemp ys (fun y I => V y (or_introl I)) HL Gl) as (ws & F1 & F2).
    destruct (@exec_constr0 (kgc info) cenv CE fenv fmap B0 decl 1%positive (krun kgc prog k) x t0 ys vs ws t m a s0)
      as (t' & m' & a' & w & Ex & (h & Em) & Tk' & Ha & HM & Gx & Ox & Ot); auto.
    { intros y I. apply (envv_name Hres HL (V y (or_introl I))). cbn. tauto. }
    { lia. }
    rewrite exec_seq, Ex. cbn [andthen].
    assert (Hh : m_hi m' = m_hi m /\ m_lo m' = m_lo m) by (subst m'; split; reflexivity). destruct Hh as [Hh1 Hh2].
    eapply IH with (a := a'); [exact E1|exact HL| |exact HD|exact Da|exact Dl|exact Dg|exact Dc|exact W3|exact NL|].
    - intros y I. apply HG. right. exact I.
    - constructor; [lia|exact Tk'| |lia|].
      + rewrite Ot; [exact Ga| |discriminate]. intros <-. destruct (HL _ Ix) as [_ R]. apply R. cbn. tauto.
      + intros y Fy. destruct (Pos.eq_dec y x) as [->|N].
        * eapply envv_set; eauto.
        * apply envv_set_other; [exact N|]. assert (Vy : envv L rho t m a y) by (apply V; right; auto).
          eapply envv_mono; [exact Vy|exact HM|]. apply Ot; [exact N|]. apply (envv_name Hres HL Vy). cbn. tauto.
  Qed.

  Lemma body_proj (T : Prop) (Q : val -> Prop) k rho x t0 j y e vs v :
    get y rho = Some (Vconstr t0 vs) -> nthN vs j = Some v ->
    body_ok T Q k (set x v rho) e -> body_ok T Q k rho (Eproj x t0 j y e).
  Proof.
    intros Gy Gn IH info L decl t m a s E HL HG HD Da Dl Dg Dc W NL [K Tk Ga B V].
    cbn [ktranslate_body] in E. destruct (tb e) as [s1|] eqn:E1; [|discriminate]. apply Some_inj in E. subst s.
    cbn [wf_exp] in W. cbn [get_locals] in HG. cbn [kmax_allocs] in B. cbn [no_letapp no_case] in *.
    assert (Ix : In x L) by (apply HG; left; reflexivity).
    assert (Vy : envv L rho t m a y) by (apply V; left; reflexivity).
    destruct (envv_constr HL Vy Gy) as (w & i & Gt & Hw & Gi & Lv & Wv).
    rewrite nthN_nth_error in Gn.
    assert (Lj : (N.to_nat j < length vs)%nat) by (apply nth_error_Some; congruence).
    assert (Na : N.eqb (ctor_arity i) 0 = false) by (apply N.eqb_neq; lia).
    assert (Wv' : wfv cenv B0 v). { rewrite Forall_forall in Wv. apply Wv. eapply nth_error_In. exact Gn. }
    cbn [enc] in Hw. rewrite Gi, Na in Hw.
    assert (Sm : Z.of_N (ctor_arity i) < 2 ^ 53). { apply N.eqb_neq in Na. apply (ce_boxed CE t0 Gi Na). }
    apply hrepr_block in Hw. destruct Hw as (p & ws' & -> & H1 & H5 & H6).
    assert (En : nth_error (map (enc cenv) vs) (N.to_nat j) = Some (enc cenv v)) by (rewrite nth_error_map, Gn; reflexivity).
    destruct (H5 _ _ En) as [H7 H8]. specialize (H6 _ _ En).
    assert (Ex : exec (kgc info) (krun kgc prog k) decl gcIdent 1%positive (Sset x (Field (Xtemp y) (Z.of_N j))) t m
                 = ROk Onormal (set x (ws' (N.to_nat j)) t) m).
    { cbn [exec]. unfold Field.
      assert (Ev : eval 1%positive t m (Xderef (Xbin Oadd (Xcast (Xtemp y)) (Xconst (Z.of_N j)))) = Some (ws' (N.to_nat j))).
      { cbn [eval]. rewrite Gt.
        change (if (- 2 ^ 63 <=? Z.of_N j) && (Z.of_N j <? 2 ^ 64) then Some (VZ (Z.of_N j)) else None)
          with (eval 1%positive t m (Xconst (Z.of_N j))).
        rewrite eval_const by (change (2 ^ 63) with 9223372036854775808; change (2 ^ 53) with 9007199254740992 in Sm; lia).
        cbn [binop_eval load]. rewrite N_nat_Z in H8. exact H8. }
      rewrite Ev. apply assign_temp_ok. apply HD. exact Ix. }
    rewrite exec_seq, Ex. cbn [andthen].
    assert (Nx : forall z, In z reserved -> z <> x).
    { intros z Iz Q0. subst z. destruct (HL _ Ix) as [_ R]. contradiction. }
    eapply IH with (a := a); [exact E1|exact HL| |exact HD|exact Da|exact Dl|exact Dg|exact Dc|exact W|exact NL|].
    - intros z I. apply HG. right. exact I.
    - constructor; [exact K| | |exact B|].
      + destruct Tk as [T1 T2]. split; rewrite get_set_other; auto; apply Nx; cbn; tauto.
      + rewrite get_set_other; [exact Ga|]. apply Nx. cbn. tauto.
      + intros z Fz. destruct (Pos.eq_dec z x) as [->|N].
        * eapply envv_set; [exact Ix|apply get_set_same|]. split; [exact H6|exact Wv'].
        * apply envv_set_other; [exact N|]. eapply envv_mono; [apply V; right; split; [exact N|exact Fz]|auto|].
          apply get_set_other. exact N.
  Qed.

  (** *** Case analysis *)

  Fixpoint mkc (l : list (ctor_tag * exp)) : option (lstmts * lstmts) :=
    match l with
    | [] => Some (LSnil, LSnil)
    | p :: l' =>
        match tb (snd p) with
        | Some prog =>
            match mkc l' with
            | Some pn => kadd_case cenv (fst p) prog pn
            | None => None
            end
        | None => None
        end
    end.

  Lemma tb_case x l : tb (Ecase x l) =
    match mkc l with Some p => Some (kmake_case_switch x (fst p) (snd p)) | None => None end.
  Proof. reflexivity. Qed.

  Definition done (r : sres) : Prop := match r with ROk Onormal _ _ | RAbort | RTime => True | _ => False end.

  Lemma cases_ok t i e : get t cenv = Some i -> forall l ls ls',
    mkc l = Some (ls, ls') -> caseConsistent_f cenv l t = true -> findtag l t = Some e ->
    pick i ls ls' <> LSnil /\
    exists s, tb e = Some s /\
      forall gc call decl tm m,
        done (exec gc call decl gcIdent 1%positive s tm m) ->
        unbreak (exec_sel gc call decl gcIdent 1%positive
                   (if has_label (Z.of_N (ctor_ordinal i)) (pick i ls ls') then Some (Z.of_N (ctor_ordinal i)) else None)
                   (pick i ls ls') tm m)
        = exec gc call decl gcIdent 1%positive s tm m.
  Proof.
    intro Gi. induction l as [|[t' e'] l IH]; intros ls ls' E C F; [discriminate|].
    cbn [mkc fst snd] in E. destruct (tb e') as [s1|] eqn:E1; [|discriminate].
    destruct (mkc l) as [[l1 l1']|] eqn:E0; [|discriminate].
    cbn [caseConsistent_f] in C. apply andb_true_iff in C. destruct C as [C1 C2]. rewrite Gi in C2.
    destruct (get t' cenv) as [i'|] eqn:Gi'; [|discriminate]. apply Pos.eqb_eq in C2.
    unfold kadd_case, make_ctor_rep in E. rewrite Gi' in E.
    cbn [findtag] in F.
    assert (Lb : N.eqb (ctor_arity i') 0 = false -> Z.land (Z.shiftl (Z.of_N (ctor_arity i')) 10 + Z.of_N (ctor_ordinal i')) 255 = Z.of_N (ctor_ordinal i')).
    { intro Q. apply N.eqb_neq in Q. destruct (ce_boxed CE t' Gi' Q) as [B1 _]. rewrite tag_boxed. apply hdr_low. lia. }
    assert (Le : Z.shiftr (Z.shiftl (Z.of_N (ctor_ordinal i')) 1 + 1) 1 = Z.of_N (ctor_ordinal i')).
    { rewrite tag_enum. apply shr_enum. }
    assert (Sel : forall s sel gc call decl tm m o, done (exec gc call decl gcIdent 1%positive s tm m) ->
       unbreak (exec_sel gc call decl gcIdent 1%positive (if has_label o (LScons (match sel with LSnil => None | _ => Some o end) (Sseq s Sbreak) sel) then Some o else None)
          (LScons (match sel with LSnil => None | _ => Some o end) (Sseq s Sbreak) sel) tm m) = exec gc call decl gcIdent 1%positive s tm m).
    { intros s sel gc call decl tm m o H. destruct sel; cbn [has_label]; rewrite exec_sel_cons.
      - cbn [lab_eqb]. rewrite exec_seq. destruct (exec gc call decl gcIdent 1%positive s tm m) as [[]| | |]; try contradiction; reflexivity.
      - rewrite Z.eqb_refl. cbn [orb lab_eqb]. rewrite Z.eqb_refl.
        rewrite exec_seq. destruct (exec gc call decl gcIdent 1%positive s tm m) as [[]| | |]; try contradiction; reflexivity. }
    destruct (Pos.eq_dec t' t) as [->|Nt].
    - rewrite Gi in Gi'. injection Gi' as <-.
      assert (e' = e) by (destruct (Pos.eq_dec t t); congruence). subst e'.
      destruct (N.eqb (ctor_arity i) 0) eqn:Ea.
      + assert (R : ls = l1 /\ ls' = LScons (match l1' with LSnil => None | _ => Some (Z.of_N (ctor_ordinal i)) end) (Sseq s1 Sbreak) l1').
        { rewrite Le in E. destruct l1'; apply Some_inj in E; split; congruence. }
        destruct R as [-> ->]. unfold pick. rewrite Ea. split; [discriminate|].
        exists s1. split; [exact E1|]. intros gc call decl tm m H. apply Sel; auto.
      + assert (R : ls' = l1' /\ ls = LScons (match l1 with LSnil => None | _ => Some (Z.of_N (ctor_ordinal i)) end) (Sseq s1 Sbreak) l1).
        { rewrite (Lb eq_refl) in E. destruct l1; apply Some_inj in E; split; congruence. }
        destruct R as [-> ->]. unfold pick. rewrite Ea. split; [discriminate|].
        exists s1. split; [exact E1|]. intros gc call decl tm m H. apply Sel; auto.
    - assert (F' : findtag l t = Some e) by (destruct (Pos.eq_dec t' t); congruence).
      destruct (IH l1 l1' eq_refl C1 F') as (NN & s & Es & Hs).
      assert (Skip : forall sel gc call decl tm m o o' s', o' <> o ->
        exec_sel gc call decl gcIdent 1%positive (if has_label o (LScons (Some o') s' sel) then Some o else None) (LScons (Some o') s' sel) tm m
        = exec_sel gc call decl gcIdent 1%positive (if has_label o sel then Some o else None) sel tm m).
      { intros sel gc call decl tm m o o' s' No. cbn [has_label].
        assert (Q : (o' =? o) = false) by (apply Z.eqb_neq; exact No). rewrite Q. cbn [orb]. rewrite exec_sel_cons.
        destruct (has_label o sel); cbn [lab_eqb]; [rewrite Q|]; reflexivity. }
      assert (Inj : (N.eqb (ctor_arity i') 0 = N.eqb (ctor_arity i) 0) -> Z.of_N (ctor_ordinal i') <> Z.of_N (ctor_ordinal i)).
      { intros Q H. apply Nt. apply N2Z.inj in H. eapply (ce_inj CE); eauto.
        destruct (N.eqb (ctor_arity i') 0) eqn:A1; symmetry in Q;
          [apply N.eqb_eq in A1, Q|apply N.eqb_neq in A1, Q]; tauto. }
      assert (R : pick i ls ls' = pick i l1 l1' \/
                  (Z.of_N (ctor_ordinal i') <> Z.of_N (ctor_ordinal i) /\
                   pick i ls ls' = LScons (Some (Z.of_N (ctor_ordinal i'))) (Sseq s1 Sbreak) (pick i l1 l1'))).
      { unfold pick in *. destruct (N.eqb (ctor_arity i') 0) eqn:A1; destruct (N.eqb (ctor_arity i) 0) eqn:A2.
        - right. split; [apply Inj; reflexivity|]. rewrite Le in E. destruct l1'; [contradiction|]. apply Some_inj in E. congruence.
        - left. destruct l1'; apply Some_inj in E; congruence.
        - left. destruct l1; apply Some_inj in E; congruence.
        - right. split; [apply Inj; reflexivity|]. rewrite (Lb eq_refl) in E. destruct l1; [contradiction|]. apply Some_inj in E. congruence. }
      destruct R as [R|[No R]]; rewrite R.
      + split; [exact NN|]. exists s. split; [exact Es|exact Hs].
      + split; [discriminate|]. exists s. split; [exact Es|].
        intros gc call decl tm m H. rewrite Skip by exact No. apply Hs. exact H.
  Qed.

  Lemma good_done T Q r : good T Q r -> done r.
  Proof. intros [[_ ->]|[->|(t' & m' & -> & _)]]; exact I. Qed.

  Lemma krun_isptr k vs m : krun kgc prog k isptrIdent vs m = is_ptr vs m.
  Proof. destruct k; reflexivity. Qed.

  Lemma exec_isptr gc k decl y w z t m : In caseIdent decl -> get y t = Some w -> is_ptr [w] m = COk z m ->
    exec gc (krun kgc prog k) decl gcIdent 1%positive (kisPtr caseIdent y) t m = ROk Onormal (set caseIdent z t) m.
  Proof.
    intros D G E. unfold kisPtr. cbn [exec eval eval_list]. rewrite G.
    change (Pos.eqb isptrIdent gcIdent) with false. cbv iota. rewrite krun_isptr, E. apply assign_temp_ok. exact D.
  Qed.

  Lemma body_case (T : Prop) (Q : val -> Prop) k rho y cl t0 vs e :
    get y rho = Some (Vconstr t0 vs) -> caseConsistent_f cenv cl t0 = true -> findtag cl t0 = Some e ->
    body_ok T Q k rho e -> body_ok T Q k rho (Ecase y cl).
  Proof.
    intros Gy CC FT IH info L decl t m a s E HL HG HD Da Dl Dg Dc W NL [K Tk Ga B V].
    destruct Dc as [Dc|[]].
    rewrite tb_case in E. destruct (mkc cl) as [[ls ls']|] eqn:Em; [|discriminate].
    apply Some_inj in E. cbn [fst snd] in E. subst s.
    assert (Vy : envv L rho t m a y) by (apply V; left; reflexivity).
    destruct (envv_constr HL Vy Gy) as (w & i & Gt & Hw & Gi & Lv & Wv).
    destruct (cases_ok t0 Gi cl Em CC FT) as (NN & s1 & Es & Hsel).
    assert (Ie : In (t0, e) cl) by (apply findtag_In; exact FT).
    assert (Body : forall z, good T Q (exec (kgc info) (krun kgc prog k) decl gcIdent 1%positive s1 (set caseIdent z t) m)).
    { intro z. eapply IH with (a := a); [exact Es|exact HL| |exact HD|exact Da|exact Dl|exact Dg|left; exact Dc| | |].
      - intros x I. apply HG. cbn [get_locals]. apply in_flat_map. exists (t0, e). auto.
      - apply (wf_case cenv cl (t0, e) W Ie).
      - apply (nl_case cl (t0, e) NL Ie).
      - constructor; [exact K| | | |].
        + destruct Tk as [T1 T2]. split; rewrite get_set_other by discriminate; assumption.
        + rewrite get_set_other by discriminate. exact Ga.
        + cbn [kmax_allocs] in B. pose proof (kmax_case cl (t0, e) Ie) as M. cbn [snd] in M. lia.
        + intros x Fx. assert (Vx : envv L rho t m a x) by (apply V; apply free_Ecase; right; eapply free_case_In; eauto).
          eapply envv_mono; [exact Vx|auto|]. apply get_set_other. apply (envv_name Hres HL Vx). cbn. tauto. }
    assert (Gt' : forall z, get y (set caseIdent z t) = Some w).
    { intro z. rewrite get_set_other; [exact Gt|]. apply (envv_name Hres HL Vy). cbn. tauto. }
    pose proof (fun z => Hsel (kgc info) (krun kgc prog k) decl (set caseIdent z t) m (good_done (Body z))) as Hsel'. clear Hsel.
    unfold kmake_case_switch, pick in *. cbn [enc] in Hw. rewrite Gi in Hw. rewrite exec_seq.
    destruct (N.eqb (ctor_arity i) 0) eqn:Ea.
    - assert (Ew : w = VZ (2 * Z.of_N (ctor_ordinal i) + 1)) by (inversion Hw; reflexivity). subst w.
      rewrite (@exec_isptr (kgc info) k decl y _ (VZ 0) t m Dc Gt).
      2:{ cbn [is_ptr]. f_equal. unfold b2v.
          assert (Ev : Z.even (2 * Z.of_N (ctor_ordinal i) + 1) = false).
          { rewrite Z.add_1_r, Z.even_succ, Z.odd_mul. reflexivity. }
          rewrite Ev. reflexivity. }
      cbn [andthen]. rewrite exec_if. cbn [eval]. rewrite get_set_same. rewrite Z.eqb_refl.
      rewrite exec_switch.
      assert (E2 : eval 1%positive (set caseIdent (VZ 0) t) m (Xbin Oshr (Xtemp y) (Xconst 1)) = Some (VZ (Z.of_N (ctor_ordinal i)))).
      { cbn [eval]. rewrite Gt'. change (if (- 2 ^ 63 <=? 1) && (1 <? 2 ^ 64) then Some (VZ 1) else None) with (Some (VZ 1)). cbn [binop_eval]. rewrite shr_enum. reflexivity. }
      rewrite E2, Hsel'. apply Body.
    - apply hrepr_block in Hw. destruct Hw as (p & ws' & -> & H1 & H5 & H6).
      rewrite (@exec_isptr (kgc info) k decl y _ (VZ 1) t m Dc Gt eq_refl).
      cbn [andthen]. rewrite exec_if. cbn [eval]. rewrite get_set_same. change (1 =? 0) with false. cbv iota.
      assert (E2 : eval 1%positive (set caseIdent (VZ 1) t) m (Xbin Oand (Field (Xtemp y) (-1)) (Xconst 255)) = Some (VZ (Z.of_N (ctor_ordinal i)))).
      { unfold Field. cbn [eval]. rewrite Gt'.
        change (if (- 2 ^ 63 <=? -1) && (-1 <? 2 ^ 64) then Some (VZ (-1)) else None) with (Some (VZ (-1))).
        cbn [binop_eval load]. change (p + -1) with (p - 1). rewrite H1.
        change (if (- 2 ^ 63 <=? 255) && (255 <? 2 ^ 64) then Some (VZ 255) else None) with (Some (VZ 255)).
        cbn [binop_eval]. rewrite hdr_low; [reflexivity|]. apply N.eqb_neq in Ea. pose proof (ce_boxed CE t0 Gi Ea). lia. }
      rewrite exec_switch.
      rewrite E2, Hsel'. apply Body.
  Qed.

  Lemma body_halt (T : Prop) (Q : val -> Prop) k rho x v : get x rho = Some v -> Q v -> body_ok T Q k rho (Ehalt x).
  Proof.
    intros Gx HQ info L decl t m a s E HL HG HD Da Dl Dg Dc W NL [K Tk Ga B V].
    cbn [ktranslate_body] in E. apply Some_inj in E. subst s. unfold sync.
    destruct (envv_evv fenv fmap Hfun Htemp (V x eq_refl) HL Gx) as (w & Ew & Ow & _).
    replace m with (set_args m (m_args m)) by (destruct m; reflexivity).
    rewrite exec_sync with (a := a) by exact Tk. cbn [exec]. rewrite (evv_eval 1%positive _ Ew).
    unfold argsE. cbn [assign eval]. rewrite Ga. change (if (- 2 ^ 63 <=? 1) && (1 <? 2 ^ 64) then Some (VZ 1) else None) with (Some (VZ 1)).
    cbn [binop_eval store]. change ((0 <=? 0 + 1) && (0 + 1 <? maxArgs)) with true. cbv iota.
    right. right. eexists t, _. split; [reflexivity|].
    exists v, w, a. split; [exact HQ|]. split; [split; reflexivity|]. split; [exact K|]. split; [reflexivity|].
    destruct Ow as [O1 O2]. split; [|exact O2]. eapply hr_same; [|exact O1]. repeat split.
  Qed.

  (** *** Calls *)

  Definition locs_of (t : positive) : list N := map N.of_nat (seq 0 (ar t)).

  (** calling [f] with values for [vs] *)
  Definition callee_ok (T : Prop) (Q : val -> Prop) (k : nat) (f : positive) (vs : list val) : Prop :=
    forall m a ws, m_lo m <= a <= m_hi m -> area m a -> Forall2 (okv m a) vs ws ->
      (forall i w, nth_error ws i = Some w -> (nParam <= i)%nat -> m_args m (Z.of_nat i) = Some w) ->
      (T /\ krun kgc prog k f (firstn nParam ws) m = CTime) \/
      krun kgc prog k f (firstn nParam ws) m = CAbort \/
      exists r m', krun kgc prog k f (firstn nParam ws) m = COk r m' /\ answer Q m'.

  Lemma body_app (T : Prop) (Q : val -> Prop) k rho f t0 ys rho' fl f' vs xs e :
    get f rho = Some (Vfun rho' fl f') -> get_list ys rho = Some vs -> find_def f' fl = Some (t0, xs, e) -> length xs = length vs ->
    (fl = B0 -> (length xs <= 1024)%nat) ->
    (rho' = [] -> fl = B0 -> callee_ok T Q k f' vs) -> body_ok T Q k rho (Eapp f t0 ys).
  Proof.
    intros Gf Gl Fd Lv Hb IH info L decl t m a s E HL HG HD Da Dl Dg Dc W NL [K Tk Ga B V].
    cbn [ktranslate_body] in E.
    destruct (get t0 fenv) as [inf|] eqn:Gi; [|discriminate].
    destruct (asgnAppVars nParam ys (snd inf) fenv fmap) as [asgn|] eqn:Ea; [|discriminate].
    unfold kmkCall in E. destruct (mkCallVars fenv fmap _ (firstn nParam ys)) as [es|] eqn:Ec; [|discriminate].
    apply Some_inj in E. subst s.
    destruct (envv_evv fenv fmap Hfun Htemp (V f (or_introl eq_refl)) HL Gf) as (wf & Ewf & Owf & _).
    apply okv_fun in Owf. destruct Owf as (-> & -> & -> & If). specialize (IH eq_refl eq_refl). specialize (Hb eq_refl).
    destruct (envv_list fenv fmap Hfun Htemp ys (fun y I => V y (or_intror I)) HL Gl) as (ws & F1 & F2).
    assert (Ly := get_list_length _ _ Gl). rewrite Lv, Ly in Hb.
    assert (Ny : forall y, In y ys -> y <> argsIdent).
    { intros y I. apply (envv_name Hres HL (V y (or_intror I))). cbn. tauto. }
    destruct (@exec_asgn (kgc info) nParam fenv fmap ar Hfenv decl 1%positive (krun kgc prog k) t0 ys ws t m asgn inf Gi Ea (or_introl Hb) Dg Ny F1) as (A & Ex & HA).
    rewrite exec_seq, Ex. cbn [andthen]. unfold sync.
    set (t1 := set argsIdent (VP BArgs 0) t).
    assert (Tk1 : temps_ok t1 m a).
    { destruct Tk as [T1 T2]. split; unfold t1; rewrite get_set_other by discriminate; assumption. }
    rewrite exec_sync with (a := a) by exact Tk1.
    set (m1 := synced m A a).
    assert (F1' : Forall2 (evv t1) ys ws).
    { clear -F1 Ny. unfold t1. induction F1 as [|y w ys ws H F IH]; constructor.
      - eapply evv_agree; [exact H|]. apply get_set_other. apply Ny. left. reflexivity.
      - apply IH. intros y' I. apply Ny. right. exact I. }
    assert (Ewf1 : evv t1 f (VF f')).
    { eapply evv_agree; [exact Ewf|]. apply get_set_other. apply (envv_name Hres HL (V f (or_introl eq_refl))). cbn. tauto. }
    cbn [exec eval]. rewrite (evv_eval 1%positive m1 Ewf1).
    rewrite (eval_callvars 1%positive m1 _ Ec (Forall2_firstn nParam F1')).
    assert (Qg : Pos.eqb f' gcIdent = false) by (apply Pos.eqb_neq; intros ->; contradiction). rewrite Qg.
    destruct (IH m1 a ws) as [[HT Er]|[Er|(r & m' & Er & An)]].
    - exact K.
    - split; reflexivity.
    - eapply Forall2_imp; [|exact F2]. intros v w. apply okv_sync.
    - exact HA.
    - rewrite Er. left. split; [exact HT|reflexivity].
    - rewrite Er. right. left. reflexivity.
    - rewrite Er. right. right. exists t1, m'. split; [reflexivity|exact An].
  Qed.

  (** ** Entering a function *)

  (** storing arguments leaves other slots alone *)
  Lemma exec_args_other gc decl k : forall vs ws j t m,
    Forall2 (evv t) vs ws -> get argsIdent t = Some (VP BArgs 0) -> (length vs = 0 \/ j + length vs <= 1024)%nat ->
    forall s, asgnAppVars'' vs (map N.of_nat (seq j (length vs))) fenv fmap = Some s ->
    exists A, exec gc k decl gcIdent 1%positive s t m = ROk Onormal t (set_args m A) /\
      (forall i w, nth_error ws i = Some w -> A (Z.of_nat (j + i)) = Some w) /\
      (forall i, i < Z.of_nat j \/ Z.of_nat (j + length vs) <= i -> A i = m_args m i).
  Proof.
    induction vs as [|v vs IH]; intros ws j t m F Ga Hj s E.
    - inversion F; subst. cbn in E. injection E as <-. exists (m_args m). split; [destruct m; reflexivity|].
      split; [|auto]. intros [|i] w H; discriminate.
    - inversion F as [|? w0 ? ws' W F']; subst. cbn [length seq map asgnAppVars''] in E.
      destruct (asgnAppVars'' vs (map N.of_nat (seq (S j) (length vs))) fenv fmap) as [s'|] eqn:E'; [|discriminate].
      injection E as <-. cbn [length] in Hj.
      destruct (IH ws' (S j) t m F' Ga ltac:(lia) s' E') as (A & Ex & HA & HO).
      exists (upd A (Z.of_nat j) w0). split; [|split].
      + rewrite exec_seq, Ex. cbn [andthen exec]. rewrite (evv_eval 1%positive (set_args m A) W).
        cbn [assign argsE]. unfold argsE. cbn [assign eval]. rewrite Ga.
        change (if (- 2 ^ 63 <=? Z.of_N (N.of_nat j)) && (Z.of_N (N.of_nat j) <? 2 ^ 64) then Some (VZ (Z.of_N (N.of_nat j))) else None)
          with (eval 1%positive t (set_args m A) (Xconst (Z.of_N (N.of_nat j)))).
        rewrite eval_const by (change (2 ^ 63) with 9223372036854775808; lia).
        cbn [binop_eval store]. rewrite Z.add_0_l, nat_N_Z. unfold maxArgs.
        assert (Q : (0 <=? Z.of_nat j) && (Z.of_nat j <? 1024) = true).
        { apply andb_true_iff. rewrite Z.leb_le, Z.ltb_lt. lia. }
        rewrite Q. reflexivity.
      + intros [|i] w H; cbn [nth_error] in H; unfold upd.
        * injection H as <-. rewrite Nat.add_0_r, Z.eqb_refl. reflexivity.
        * destruct (Z.of_nat (j + S i) =? Z.of_nat j) eqn:Q; [apply Z.eqb_eq in Q; lia|].
          rewrite <- (HA i w H). f_equal. lia.
      + intros i Hi. cbn [length] in Hi. unfold upd. destruct (i =? Z.of_nat j) eqn:Q; [apply Z.eqb_eq in Q; lia|].
        apply HO. lia.
  Qed.

  (** the array describing a function of tag [t] with body [e] *)
  Definition info_of (t : positive) (e : exp) : list Z :=
    Z.of_nat (kmax_allocs e) :: Z.of_nat (ar t) :: map Z.of_N (locs_of t).

  Lemma roots_info t e : roots (info_of t e) = map Z.of_nat (seq 0 (ar t)).
  Proof.
    unfold roots, info_of. cbn [nth skipn]. rewrite Nat2Z.id. unfold locs_of. rewrite map_map.
    rewrite (map_ext (fun x => Z.of_N (N.of_nat x)) Z.of_nat) by (intro x; apply nat_N_Z).
    apply firstn_all2. rewrite map_length, seq_length. lia.
  Qed.

  Lemma firstn_seq n : forall j len, firstn n (seq j len) = seq j (Nat.min n len).
  Proof.
    induction n as [|n IH]; intros j len; cbn [firstn]; [reflexivity|].
    destruct len as [|len]; [reflexivity|]. cbn [seq Nat.min firstn]. rewrite IH. reflexivity.
  Qed.

  Lemma firstn_map' A B (f : A -> B) n : forall l, firstn n (map f l) = map f (firstn n l).
  Proof. induction n; intros [|x l]; cbn; auto. rewrite IHn. reflexivity. Qed.

  Lemma exec_reserve k decl tg xs e vs ws t m a s :
    kreserve nParam fenv fmap (info_of tg e) xs (locs_of tg) = Some s ->
    length xs = ar tg -> (length xs <= 1024)%nat -> length vs = length xs -> Z.of_nat (kmax_allocs e) < 2 ^ 63 ->
    In allocIdent decl -> incl xs decl -> NoDup xs -> (forall x, In x xs -> okname x) ->
    m_lo m <= a <= m_hi m -> area m a -> temps_ok t m a -> get argsIdent t = Some (VP BArgs 0) ->
    Forall2 (okv m a) vs ws ->
    (forall i x w, nth_error xs i = Some x -> nth_error ws i = Some w -> (i < nParam)%nat -> get x t = Some w) ->
    (forall i w, nth_error ws i = Some w -> (nParam <= i)%nat -> m_args m (Z.of_nat i) = Some w) ->
    exec (kgc (info_of tg e)) k decl gcIdent 1%positive s t m = RAbort \/
    exists t' m' a', exec (kgc (info_of tg e)) k decl gcIdent 1%positive s t m = ROk Onormal t' m' /\
      m_lo m' <= a' /\ a' + Z.of_nat (kmax_allocs e) <= m_hi m' /\
      temps_ok t' m' a' /\ get argsIdent t' = Some (VP BArgs 0) /\
      (forall i x v, nth_error xs i = Some x -> nth_error vs i = Some v -> exists w', okv m' a' v w' /\
        ((i < nParam)%nat -> get x t' = Some w') /\ ((nParam <= i)%nat -> m_args m' (Z.of_nat i) = Some w')).
  Proof.
    intros E Lx L1024 Lv Hmax Da Dx ND On Hba Ar Tk Ga F P1 P2.
    assert (Lw : length ws = length vs) by (symmetry; exact (Forall2_length F)).
    unfold kreserve in E.
    destruct (asgnAppVars'' (firstn nParam xs) (firstn nParam (locs_of tg)) fenv fmap) as [bef|] eqn:Eb; [|discriminate].
    destruct (asgnFunVars' (firstn nParam xs) (firstn nParam (locs_of tg))) as [aft|] eqn:Ef; [|discriminate].
    apply Some_inj in E. subst s.
    assert (Lf : length (firstn nParam xs) = Nat.min nParam (ar tg)) by (rewrite firstn_length; lia).
    unfold locs_of in Eb, Ef. rewrite firstn_map', firstn_seq, <- Lf in Eb. rewrite firstn_map', firstn_seq, <- Lf in Ef.
    rewrite exec_if.
    assert (Ec : eval 1%positive t m (Xnot (Xbin Ole (Xconst (nth 0 (info_of tg e) 0)) (Xbin Osub (Xtemp limitIdent) (Xtemp allocIdent))))
                 = Some (b2v (negb (Z.of_nat (kmax_allocs e) <=? m_hi m - a)))).
    { destruct Tk as [T1 T2]. cbn [info_of nth].
      assert (E1 : eval 1%positive t m (Xbin Ole (Xconst (Z.of_nat (kmax_allocs e))) (Xbin Osub (Xtemp limitIdent) (Xtemp allocIdent)))
                   = Some (b2v (Z.of_nat (kmax_allocs e) <=? m_hi m - a))).
      { cbn [eval]. rewrite T1, T2.
        change (if (- 2 ^ 63 <=? Z.of_nat (kmax_allocs e)) && (Z.of_nat (kmax_allocs e) <? 2 ^ 64) then Some (VZ (Z.of_nat (kmax_allocs e))) else None)
          with (eval 1%positive t m (Xconst (Z.of_nat (kmax_allocs e)))).
        rewrite eval_const by (change (2 ^ 63) with 9223372036854775808 in *; lia). reflexivity. }
      cbn [eval] in E1 |- *. rewrite E1. destruct (Z.of_nat (kmax_allocs e) <=? m_hi m - a); reflexivity. }
    rewrite Ec. destruct (Z.of_nat (kmax_allocs e) <=? m_hi m - a) eqn:Room; unfold b2v; cbn [negb].
    - change (0 =? 0) with true. cbv iota. cbn [exec]. right. exists t, m, a. split; [reflexivity|].
      apply Z.leb_le in Room. split; [lia|]. split; [lia|]. split; [exact Tk|]. split; [exact Ga|].
      intros i x v Ex Ev. destruct (nth_error_Forall2 F i Ev) as (w & Ew & O). exists w. split; [exact O|].
      split; [intro Hi; eapply P1; eauto|intro Hi; eapply P2; eauto].
    - change (1 =? 0) with false. cbv iota.
      assert (Fe : Forall2 (evv t) (firstn nParam xs) (firstn nParam ws)).
      { clear -P1 Lw Lv On Htemp. assert (Lxw : length xs = length ws) by lia. clear Lw Lv.
        revert ws xs P1 On Lxw. induction nParam as [|n IH]; intros ws xs P1 On Lxw; [constructor|].
        destruct xs as [|x xs]; destruct ws as [|w ws]; try discriminate; cbn [firstn]; [constructor|]. constructor.
        - right. split.
          + destruct (On x (or_introl eq_refl)) as [N R]. apply Htemp; [exact N|]. intros ->. apply R. cbn. tauto.
          + apply (P1 0%nat x w); auto. lia.
        - apply IH; [|intros y I; apply On; right; exact I|cbn in Lxw; lia].
          intros i y w' E1 E2 Hi. apply (P1 (S i) y w'); auto. lia. }
      destruct (@exec_args_other (kgc (info_of tg e)) decl k (firstn nParam xs) (firstn nParam ws) 0%nat t m Fe Ga
                  ltac:(rewrite firstn_length; lia) bef Eb) as (A & Ex & HA & HO).
      cbn [Nat.add] in HA, HO.
      rewrite !exec_seq, Ex. cbn [andthen].
      set (m1 := set_args m A).
      assert (Ar1 : area m1 a) by exact Ar.
      assert (HM1 : forall v w, hr m a v w -> hr m1 a v w) by (intros v w; apply hr_same; repeat split).
      assert (Slot : forall i w, nth_error ws i = Some w -> A (Z.of_nat i) = Some w).
      { intros i w Ew. destruct (Nat.lt_ge_cases i nParam) as [Lt|Ge].
        - apply HA. rewrite firstn_nth_error; assumption.
        - rewrite HO; [apply P2; assumption|]. right. rewrite firstn_length. lia. }
      cbn [exec eval eval_list]. rewrite Pos.eqb_refl.
      destruct (@GC (info_of tg e) m1 a Hba Ar1) as [Eg|(m2 & a2 & Eg & Ar2 & B2 & C2 & D2)].
      { cbn [info_of nth]. lia. }
      { rewrite roots_info. intros i I. apply in_map_iff in I. destruct I as (j & <- & I). apply in_seq in I.
        split; [unfold maxArgs; lia|].
        destruct (nth_error vs j) as [v|] eqn:Ev; [|apply nth_error_None in Ev; lia].
        destruct (nth_error_Forall2 F j Ev) as (w & Ew & [O1 O2]).
        exists w, (enc cenv v). split; [apply Slot; exact Ew|apply HM1; exact O1]. }
      { left. rewrite Eg. reflexivity. }
      right. rewrite Eg. cbn [andthen]. cbn [tinfo_get]. rewrite assign_temp_ok by exact Da. cbn [andthen].
      destruct Ar2 as [Ar2a Ar2b]. rewrite Ar2a. set (t2 := set allocIdent (VP BHeap a2) t).
      assert (Val : forall i v, nth_error vs i = Some v -> exists w', m_args m2 (Z.of_nat i) = Some w' /\ okv m2 a2 v w').
      { intros i v Ev. destruct (nth_error_Forall2 F i Ev) as (w & Ew & [O1 O2]).
        destruct (D2 (Z.of_nat i) w (enc cenv v)) as (w' & W1 & W2).
        - rewrite roots_info. apply in_map. apply in_seq. assert (i < length vs)%nat by (apply nth_error_Some; congruence). lia.
        - apply Slot. exact Ew.
        - apply HM1. exact O1.
        - exists w'. split; [exact W1|]. split; [exact W2|exact O2]. }
      assert (Nr : forall y, In y reserved -> ~ In y (firstn nParam xs)).
      { intros y Iy I. assert (Ix : In y xs) by (rewrite <- (firstn_skipn nParam xs); apply in_or_app; left; exact I).
        destruct (On y Ix) as [_ R]. contradiction. }
      destruct (@exec_params (kgc (info_of tg e)) decl 1%positive k (firstn nParam xs) 0%nat t2 m2 aft Ef) as (t3 & E3 & P3 & Q3).
      { unfold t2. rewrite get_set_other by discriminate. exact Ga. }
      { rewrite firstn_length. lia. }
      { intros x I. apply Dx. rewrite <- (firstn_skipn nParam xs). apply in_or_app. left. exact I. }
      { apply Nr. cbn. tauto. }
      { rewrite <- (firstn_skipn nParam xs) in ND. apply NoDup_split in ND. apply ND. }
      { intros i Hi. rewrite firstn_length in Hi. cbn [Nat.add].
        destruct (nth_error vs i) as [v|] eqn:Ev; [|apply nth_error_None in Ev; lia].
        destruct (Val i v Ev) as (w' & W & _). exists w'. exact W. }
      rewrite E3. exists t3, m2, a2. split; [reflexivity|]. split; [exact B2|]. cbn [info_of nth] in C2. split; [exact C2|].
      split; [|split].
      + split; rewrite Q3 by (apply Nr; cbn; tauto); unfold t2.
        * apply get_set_same.
        * rewrite get_set_other by discriminate. destruct Tk as [_ T2]. rewrite T2.
          pose proof (@KL _ _ _ Eg) as Q. destruct Ar1 as [_ R]. rewrite R, Ar2b in Q. cbn [m1 set_args m_hi] in Q. congruence.
      + rewrite Q3 by (apply Nr; cbn; tauto). unfold t2. rewrite get_set_other by discriminate. exact Ga.
      + intros i x v Exi Ev. destruct (Val i v Ev) as (w' & W1 & W2). exists w'. split; [exact W2|].
        split; [|intros _; exact W1]. intro Hi. rewrite (P3 i x); [cbn [Nat.add]; exact W1|].
        rewrite firstn_nth_error; assumption.
  Qed.

  (** the C function for a source function *)
  Definition kfun_of (t : positive) (xs : list positive) (e : exp) (res asgn s : stmt) : kfun :=
    {| kf_params := firstn nParam xs;
       kf_temps := (skipn nParam xs ++ get_locals e) ++ [allocIdent; limitIdent; argsIdent; caseIdent];
       kf_info := info_of t e;
       kf_body := Sseq (Sseq (Sset allocIdent (Xtinfo Talloc)) (Sseq (Sset limitIdent (Xtinfo Tlimit))
                         (Sseq (Sset argsIdent (Xtinfo Targs)) res)))
                       (Sseq asgn s) |}.

  Hypothesis Hprog : forall f t xs e, find_def f B0 = Some (t, xs, e) ->
    exists res asgn s, asgnFunVars nParam xs (locs_of t) = Some asgn /\
      kreserve nParam fenv fmap (info_of t e) xs (locs_of t) = Some res /\
      tb e = Some s /\ get f prog = Some (kfun_of t xs e res asgn s).
  Hypothesis Hwf : forall f t xs e, find_def f B0 = Some (t, xs, e) ->
    NoDup xs /\ (forall x, In x (xs ++ get_locals e) -> okname x) /\
    (forall x, free x e -> In x xs \/ In x (fnames B0)) /\ wf_exp cenv e /\ no_letapp e /\
    Z.of_nat (kmax_allocs e) < 2 ^ 63 /\ (length xs <= 1024)%nat.

  Lemma find_fname f : forall B1 t xs eb, find_def f B1 = Some (t, xs, eb) -> In f (fnames B1).
  Proof.
    induction B1 as [g t' xs' e' B1 IH|]; intros t xs eb H; cbn [find_def] in H; [|discriminate].
    cbn [fnames]. destruct (Pos.eq_dec f g) as [->|N]; [left; reflexivity|right; eapply IH; exact H].
  Qed.

  Lemma callee_ok_S (T : Prop) (Q : val -> Prop) k f t xs e vs rho'' :
    find_def f B0 = Some (t, xs, e) -> set_lists xs vs (def_funs B0 B0 [] []) = Some rho'' -> body_ok T Q k rho'' e ->
    callee_ok T Q (S k) f vs.
  Proof.
    intros Ef Er IH m a ws Hba Ar Fv Hargs.
    destruct (@Hprog _ _ _ _ Ef) as (res & asgn & s & Ea & Ers & Es & Gp).
    destruct (@Hwf _ _ _ _ Ef) as (ND & Hn & Hfree & We & NL & Hmax & Har).
    pose proof (set_lists_length _ _ _ Er) as Lv. pose proof (Forall2_length Fv) as Lw.
    unfold var, ANF_Syntax.ctor_tag, fun_tag in *.
    cbn [krun].
    assert (Np : Pos.eqb f isptrIdent = false).
    { apply Pos.eqb_neq. intros ->. apply Hip. eapply find_fname. exact Ef. }
    rewrite Np. rewrite Gp. cbn [kfun_of kf_params kf_temps kf_info kf_body].
    destruct (@set_lists_total _ (firstn nParam xs) (firstn nParam ws) []) as (t0 & Et0).
    { rewrite !firstn_length. lia. }
    rewrite Et0.
    set (decl := firstn nParam xs ++ (skipn nParam xs ++ get_locals e) ++ [allocIdent; limitIdent; argsIdent; caseIdent]).
    assert (Dres : forall x, In x [allocIdent; limitIdent; argsIdent; caseIdent] -> In x decl).
    { intros x I. unfold decl. apply in_or_app. right. apply in_or_app. right. exact I. }
    assert (Dxs : incl xs decl).
    { intros x I. rewrite <- (firstn_skipn nParam xs) in I. unfold decl. apply in_app_or in I. destruct I as [I|I].
      - apply in_or_app. left. exact I.
      - apply in_or_app. right. apply in_or_app. left. apply in_or_app. left. exact I. }
    assert (Dloc : incl (get_locals e) decl).
    { intros x I. unfold decl. apply in_or_app. right. apply in_or_app. left. apply in_or_app. right. exact I. }
    assert (Dal : In allocIdent decl) by (apply Dres; cbn; tauto).
    assert (Dli : In limitIdent decl) by (apply Dres; cbn; tauto).
    assert (Dar : In argsIdent decl) by (apply Dres; cbn; tauto).
    assert (Nx : forall x y, In x xs -> In y reserved -> x <> y).
    { intros x y I. apply okname_res with (B0 := B0). apply Hn. apply in_or_app. left. exact I. }
    set (call := krun kgc prog k). set (gc := kgc (info_of t e)).
    rewrite !exec_seq. cbn [exec eval tinfo_get]. rewrite assign_temp_ok by exact Dal. cbn [andthen].
    cbn [exec eval tinfo_get]. rewrite assign_temp_ok by exact Dli. cbn [andthen].
    cbn [exec eval tinfo_get]. rewrite assign_temp_ok by exact Dar. cbn [andthen].
    destruct Ar as [Ar1 Ar2]. rewrite Ar1, Ar2.
    set (t3 := set argsIdent (VP BArgs 0) (set limitIdent (VP BHeap (m_hi m)) (set allocIdent (VP BHeap a) t0))).
    assert (G3 : forall x, In x xs -> get x t3 = get x t0).
    { intros x I. unfold t3. rewrite !get_set_other; [reflexivity| | |]; apply Nx; auto; cbn; tauto. }
    pose proof ND as ND'. rewrite <- (firstn_skipn nParam xs) in ND'. apply NoDup_split in ND'.
    assert (T3 : temps_ok t3 m a).
    { split; unfold t3.
      - rewrite !get_set_other by discriminate. apply get_set_same.
      - rewrite get_set_other by discriminate. apply get_set_same. }
    assert (Ga3 : get argsIdent t3 = Some (VP BArgs 0)) by (unfold t3; apply get_set_same).
    (* number of parameters *)
    assert (Lsk : length (skipn nParam xs) = (ar t - nParam)%nat).
    { unfold asgnFunVars in Ea. apply asgnFun_len in Ea. unfold locs_of in Ea.
      rewrite Ea, skipn_map, map_length, skipn_length, seq_length. reflexivity. }
    assert (Lfi : length (firstn nParam xs) = Nat.min nParam (ar t)).
    { unfold kreserve in Ers. destruct (asgnAppVars'' (firstn nParam xs) (firstn nParam (locs_of t)) fenv fmap) as [bef|] eqn:Eb; [|discriminate].
      apply asgnApp_len in Eb. rewrite Eb. unfold locs_of. rewrite firstn_length, map_length, seq_length. reflexivity. }
    assert (Lxs : length xs = ar t).
    { rewrite skipn_length in Lsk. rewrite firstn_length in Lfi. lia. }
    destruct (@exec_reserve call decl t xs e vs ws t3 m a res) as [Eg|(t4 & m4 & a4 & Eg & B4a & B4b & T4 & Ga4 & V4)]; auto.
    { intros x I. apply Hn. apply in_or_app. left. exact I. }
    { split; assumption. }
    { intros i x w Ex Ew Hi. rewrite G3 by (eapply nth_error_In; exact Ex).
      eapply set_lists_nth; [exact Et0| | |].
      - apply ND'.
      - rewrite firstn_nth_error; eauto.
      - rewrite firstn_nth_error; eauto. }
    { right. left. fold gc in Eg. rewrite Eg. reflexivity. }
    fold gc in Eg. rewrite Eg. cbn [andthen]. clear Eg.
    unfold asgnFunVars in Ea. unfold locs_of in Ea. rewrite skipn_map, skipn_seq in Ea. cbn [Nat.add] in Ea. rewrite <- Lsk in Ea.
    assert (Nsk : forall y, In y reserved -> ~ In y (skipn nParam xs)).
    { intros y Iy I. apply (Nx y y); auto. rewrite <- (firstn_skipn nParam xs). apply in_or_app. right. exact I. }
    destruct (@exec_params gc decl 1%positive call (skipn nParam xs) nParam t4 m4 asgn Ea Ga4) as (t5 & E5 & P5 & Q5).
    { rewrite skipn_length. lia. }
    { intros x I. apply Dxs. rewrite <- (firstn_skipn nParam xs). apply in_or_app. right. exact I. }
    { apply Nsk. cbn. tauto. }
    { apply ND'. }
    { intros i Hi. rewrite skipn_length in Hi.
      destruct (nth_error xs (nParam + i)) as [x|] eqn:Ex; [|apply nth_error_None in Ex; lia].
      destruct (nth_error vs (nParam + i)) as [v|] eqn:Ev; [|apply nth_error_None in Ev; lia].
      destruct (V4 _ _ _ Ex Ev) as (w' & _ & _ & W). exists w'. apply W. lia. }
    rewrite E5. cbn [andthen]. clear E5.
    assert (V5 : forall i x v, nth_error xs i = Some x -> nth_error vs i = Some v -> exists w', get x t5 = Some w' /\ okv m4 a4 v w').
    { intros i x v Ex Ev. destruct (V4 _ _ _ Ex Ev) as (w' & O & W1 & W2). exists w'. split; [|exact O].
      destruct (Nat.lt_ge_cases i nParam) as [Lt|Ge].
      - rewrite Q5; [apply W1; exact Lt|].
        assert (I1 : nth_error (firstn nParam xs) i = Some x) by (rewrite firstn_nth_error; auto).
        apply nth_error_In in I1. apply ND'. exact I1.
      - rewrite (P5 (i - nParam)%nat x).
        + replace (nParam + (i - nParam))%nat with i by lia. apply W2. exact Ge.
        + rewrite nth_error_skipn. replace (nParam + (i - nParam))%nat with i by lia. exact Ex. }
    assert (Body : good T Q (exec gc call decl gcIdent 1%positive s t5 m4)).
    { eapply IH with (L := xs ++ get_locals e) (a := a4); [exact Es|exact Hn| | |exact Dal|exact Dli|exact Dar| |exact We|exact NL|].
      - intros x I. apply in_or_app. right. exact I.
      - intros x I. apply in_app_or in I. destruct I as [I|I]; auto.
      - left. apply Dres. cbn. tauto.
      - constructor.
        + lia.
        + destruct T4 as [T4a T4b]. split; rewrite Q5 by (apply Nsk; cbn; tauto); assumption.
        + rewrite Q5 by (apply Nsk; cbn; tauto). exact Ga4.
        + exact B4b.
        + intros x Fx. destruct (Hfree x Fx) as [I|I].
          * right. split; [apply in_or_app; left; exact I|].
            apply In_nth_error in I. destruct I as (i & Ex).
            assert (Hi : (i < length xs)%nat) by (apply nth_error_Some; congruence).
            destruct (nth_error vs i) as [v'|] eqn:Ev; [|apply nth_error_None in Ev; lia].
            destruct (V5 _ _ _ Ex Ev) as (w' & G & O). exists v', w'. split; [eapply set_lists_nth; eauto|]. auto.
          * left. split; [exact I|]. rewrite (@set_lists_not_In _ _ _ _ _ _ Er); [apply def_funs_name; exact I|].
            intro J. destruct (Hn x) as [Q0 _]; [apply in_or_app; left; exact J|]. contradiction. }
    destruct Body as [[HT Eb]|[Eb|(t6 & m6 & Eb & An)]]; rewrite Eb.
    - left. split; [exact HT|reflexivity].
    - right. left. reflexivity.
    - right. right. exists (VZ 0), m6. split; [reflexivity|exact An].
  Qed.

  (** ** Terminating programs *)

  Lemma body_letapp T Q k rho x f t ys e : body_ok T Q k rho (Eletapp x f t ys e).
  Proof. intros info L decl tm m a s E HL HG HD Da Dl Dg Dc W NL. destruct NL. Qed.

  Lemma sim_term :
    (forall rho e c r, bstep cenv rho e c r ->
       match r with Res v => forall k, (c <= k)%nat -> body_ok False (eq v) k rho e | OOT => True end) /\
    (forall rho e c r, bstep_fuel cenv rho e c r ->
       match r with Res v => (1 <= c)%nat /\ forall k, (c <= S k)%nat -> body_ok False (eq v) k rho e | OOT => True end).
  Proof.
    apply bstep_mutind.
    - intros x t ys e rho vs r c G _ IH. destruct r as [|v]; [exact I|]. intros k Hk.
      eapply body_constr; [exact G|]. apply IH. lia.
    - intros t vs rho x n y e v r c G N _ IH. destruct r as [|v']; [exact I|]. intros k Hk.
      eapply body_proj; [exact G|exact N|]. apply IH. lia.
    - intros y r e t cl vl rho c G C F _ IH. destruct r as [|v]; [exact I|]. intros k Hk.
      eapply body_case; [exact G|exact C|exact F|]. apply IH. lia.
    - intros rho' fl f' vs xs e rho'' rho f t ys r c G GL FD SL _ IH. destruct r as [|v]; [exact I|]. intros k Hk.
      destruct IH as [Hc IH]. destruct k as [|k]; [lia|].
      eapply body_app; [exact G|exact GL|exact FD|exact (set_lists_length _ _ _ SL)| |].
      + intros ->. apply (@Hwf _ _ _ _ FD).
      + intros -> ->. eapply callee_ok_S; [exact FD|exact SL|]. apply IH. lia.
    - intros rho' fl f' vs xs eb e rho'' rho x f t ys v r c1 c2 G GL FD SL _ _ _ _. destruct r as [|v']; [exact I|]. intros k Hk.
      apply body_letapp.
    - intros. exact I.
    - intros rho B e r c _ _. destruct r as [|v]; [exact I|].
      intros k Hk info L decl t m a s E. discriminate.
    - intros x v rho G k Hk. eapply body_halt; [exact G|reflexivity].
    - intros. exact I.
    - intros rho e r c _ IH. destruct r as [|v]; [exact I|]. split; [lia|]. intros k Hk. apply IH. lia.
  Qed.

  (** ** Programs that do not get stuck *)

  Lemma body_ok_imp (T : Prop) (Q Q' : val -> Prop) k rho e : (forall v, Q v -> Q' v) -> body_ok T Q k rho e -> body_ok T Q' k rho e.
  Proof.
    intros H IH info L decl t m a s H1 H2 H3 H4 H5 H6 H7 H8 H9 H10 H11. eapply good_imp; [exact H|]. eapply IH; eauto.
  Qed.

  Local Notation safe := (safe cenv).
  Local Notation returns := (returns cenv).

  Lemma sim_safe : forall k rho e, safe rho e -> body_ok True (returns rho e) k rho e.
  Proof.
    induction k as [k IHk] using lt_wf_ind. intros rho e. revert rho.
    apply (@exp_ind2 (fun e => forall rho, safe rho e -> body_ok True (returns rho e) k rho e) (fun _ => True)); clear e.
    - intros x t ys e IH rho S. pose proof (safe_step S) as S'.
      assert (G : exists vs, get_list ys rho = Some vs).
      { destruct (S' 0%nat) as [(c' & v & _ & H)|H]; inversion H; subst; eauto. }
      destruct G as (vs & G). eapply body_constr; [exact G|].
      eapply body_ok_imp; [|apply IH].
      + intros v (c & H). eapply returns_bstep. econstructor; eassumption.
      + intro c. destruct (S' c) as [(c' & v & L & H)|H]; inversion H; subst.
        * left. exists c', v. split; [exact L|congruence].
        * right. congruence.
    - intros y l F rho S. pose proof (safe_step S) as S'.
      assert (G : exists t vl e, get y rho = Some (Vconstr t vl) /\ caseConsistent_f cenv l t = true /\ findtag l t = Some e).
      { destruct (S' 0%nat) as [(c' & v & _ & H)|H]; inversion H; subst; eauto 6. }
      destruct G as (t & vl & e & G & C & Ft). eapply body_case; [exact G|exact C|exact Ft|].
      assert (IH : forall rho, safe rho e -> body_ok True (returns rho e) k rho e).
      { rewrite Forall_forall in F. apply (F (t, e)). apply findtag_In. exact Ft. }
      eapply body_ok_imp; [|apply IH].
      + intros v (c & H). eapply returns_bstep. econstructor; eassumption.
      + intro c. destruct (S' c) as [(c' & v & L & H)|H]; inversion H; subst.
        * left. exists c', v. split; [exact L|congruence].
        * right. congruence.
    - intros x t n y e IH rho S. pose proof (safe_step S) as S'.
      assert (G : exists vs v, get y rho = Some (Vconstr t vs) /\ nthN vs n = Some v).
      { destruct (S' 0%nat) as [(c' & v & _ & H)|H]; inversion H; subst; eauto. }
      destruct G as (vs & v & G & N). eapply body_proj; [exact G|exact N|].
      eapply body_ok_imp; [|apply IH].
      + intros v' (c & H). eapply returns_bstep. econstructor; eassumption.
      + intro c. destruct (S' c) as [(c' & v' & L & H)|H]; inversion H; subst.
        * left. exists c', v'. split; [exact L|congruence].
        * right. congruence.
    - intros x f t ys e IH rho S. apply body_letapp.
    - intros B e _ _ rho S info L decl t m a s E. discriminate.
    - intros f t ys rho S. pose proof (safe_step S) as S'.
      assert (G : exists rho' fl f' vs xs eb rho'', get f rho = Some (Vfun rho' fl f') /\ get_list ys rho = Some vs /\
                  find_def f' fl = Some (t, xs, eb) /\ set_lists xs vs (def_funs fl fl rho' rho') = Some rho'').
      { destruct (S' 0%nat) as [(c' & v & _ & H)|H]; inversion H; subst;
          repeat (eapply ex_intro); (split; [eassumption|split; [eassumption|split; eassumption]]). }
      destruct G as (rho' & fl & f' & vs & xs & eb & rho'' & G & GL & FD & SL).
      eapply body_app; [exact G|exact GL|exact FD|exact (set_lists_length _ _ _ SL)| |].
      { intros ->. apply (@Hwf _ _ _ _ FD). }
      intros -> ->.
      destruct k as [|k].
      { intros m a ws _ _ _ _. left. split; [exact I|]. cbn [krun].
        assert (Np : Pos.eqb f' isptrIdent = false).
        { apply Pos.eqb_neq. intros ->. apply Hip. eapply find_fname. exact FD. }
        rewrite Np. reflexivity. }
      eapply callee_ok_S; [exact FD|exact SL|].
      eapply body_ok_imp; [|apply IHk; [lia|]].
      + intros v (c & H). eapply returns_bstep. econstructor; eassumption.
      + intro c. destruct (S' c) as [(c' & v & L & H)|H]; inversion H; subst;
          match goal with A : get f rho = Some (Vfun ?a ?b ?c), B : get_list ys rho = Some ?d, C : find_def _ _ = Some (_, ?e, ?g), D : set_lists _ _ _ = Some ?h |- _ =>
            assert (a = []) by congruence; assert (b = B0) by congruence; assert (c = f') by congruence; assert (d = vs) by congruence; subst end.
        * left. exists c', v. split; [exact L|]. replace rho'' with rho''0 by congruence. replace eb with e by congruence. assumption.
        * right. replace rho'' with rho''0 by congruence. replace eb with e by congruence. assumption.
    - intros x p e _ rho S. destruct (safe_step S 0%nat) as [(c' & v & _ & H)|H]; inversion H.
    - intros x p ys e _ rho S. destruct (safe_step S 0%nat) as [(c' & v & _ & H)|H]; inversion H.
    - intros x rho S. destruct (safe_step S 0%nat) as [(c' & v & _ & H)|H]; inversion H; subst.
      eapply body_halt; [eassumption|]. eapply returns_bstep. constructor. assumption.
    - auto.
    - exact I.
  Qed.
End KSim.
