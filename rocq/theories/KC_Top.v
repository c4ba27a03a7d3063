(** * Whole programs in continuation-passing style: from the compiled program to the simulation *)
From Coq Require Import ZArith NArith List Lia Bool.
Import ListNotations.
From Verif Require Import ANF_Syntax ANF_Eval ANF_EvalProofs ANF_Spec ANF_FreeProofs CG_Clight CG_Model CG_Spec CG_Stack CG_Proofs CG_Top KC_Model KC_Spec KC_Proofs.
Set Implicit Arguments.
Local Open Scope Z_scope.
Ltac Zify.zify_post_hook ::= idtac.

(** ** Conditions on a program *)

Record kbody_wf (cenv : ctor_env) (B : fundefs) (xs : list positive) (e : exp) : Prop := {
  kb_names : forall x, In x (xs ++ get_locals e) -> ~ In x (fnames B) /\ ~ In x reserved;
  kb_closed : forall x, free x e -> In x xs \/ In x (fnames B);
  kb_exp : wf_exp cenv e;
  kb_cps : no_letapp e;
  kb_allocs : Z.of_nat (kmax_allocs e) < 2 ^ 63 }.

(** Closed first-order functions, distinct parameters, no more of them than fit
    in the args array, every call a tail call, no case analysis in the main
    expression, names distinct from the reserved ones. *)
Record kprog_ok (cenv : ctor_env) (B : fundefs) (e : exp) : Prop := {
  kp_cenv : cenv_ok cenv;
  kp_fnames : forall f, In f (fnames B) -> ~ In f reserved /\ f <> bodyIdent /\ f <> gcIdent /\ f <> isptrIdent;
  kp_funs : all_funs (fun t xs e' => NoDup xs /\ (length xs <= 1024)%nat /\ kbody_wf cenv B xs e') B;
  kp_main : kbody_wf cenv B [] e;
  kp_case : no_case e }.

(** ** The arrays *)

Lemma kinfo_get fenv : forall B n defs fmap n', kmake_fundef_info B fenv n = Some (defs, fmap, n') ->
  (forall i l, get i defs = Some l -> (i < n')%positive) /\
  (forall x, In x (fnames B) -> exists i t inf, get x fmap = Some (i, t) /\ get t fenv = Some inf) /\
  (forall x, ~ In x (fnames B) -> get x fmap = None) /\
  (forall f t xs e, find_def f B = Some (t, xs, e) -> exists i inf, get f fmap = Some (i, t) /\ get t fenv = Some inf /\
     get i defs = Some (Z.of_nat (kmax_allocs e) :: Z.of_nat (length (snd inf)) :: map Z.of_N (snd inf))).
Proof.
  induction B as [f t xs e B IH|]; intros n defs fmap n' H; cbn [kmake_fundef_info] in H.
  - destruct (get t fenv) as [inf|] eqn:G; [|discriminate].
    destruct (kmake_fundef_info B fenv n) as [[[ds fm] n1]|] eqn:E; [|discriminate].
    apply Some_inj in H.
    assert (Q : defs = (n1, Z.of_nat (kmax_allocs e) :: Z.of_nat (length (snd inf)) :: map Z.of_N (snd inf)) :: ds /\
                fmap = set f (n1, t) fm /\ n' = Pos.succ n1) by (repeat split; congruence).
    clear H. destruct Q as (-> & -> & ->). destruct (IH _ _ _ _ E) as (H1 & H2 & H3 & H4). split; [|split; [|split]].
    + intros i l Gi. cbn [get] in Gi. destruct (Pos.eq_dec i n1) as [->|N]; [lia|]. specialize (H1 _ _ Gi). lia.
    + intros x I. cbn [fnames] in I. rewrite get_set. destruct (Pos.eq_dec x f) as [->|N].
      * exists n1, t, inf. auto.
      * apply H2. destruct I as [->|I]; [contradiction|exact I].
    + intros x I. cbn [fnames] in I. rewrite get_set. destruct (Pos.eq_dec x f) as [->|N].
      * exfalso. apply I. left. reflexivity.
      * apply H3. intro J. apply I. right. exact J.
    + intros g t' xs' e' F. cbn [find_def] in F. rewrite get_set. destruct (Pos.eq_dec g f) as [->|N].
      * assert (Q : t = t' /\ e = e') by (split; congruence). destruct Q as [-> ->].
        exists n1, inf. split; [reflexivity|]. split; [exact G|]. cbn [get]. destruct (Pos.eq_dec n1 n1); [reflexivity|contradiction].
      * destruct (H4 _ _ _ _ F) as (i & inf' & A1 & A2 & A3). exists i, inf'. split; [exact A1|]. split; [exact A2|].
        cbn [get]. pose proof (H1 _ _ A3). destruct (Pos.eq_dec i n1); [lia|exact A3].
  - apply Some_inj in H. assert (Q : defs = [] /\ fmap = []) by (split; congruence). destruct Q as [-> ->].
    split; [|split; [|split]].
    + intros i l Q. discriminate.
    + intros x [].
    + reflexivity.
    + intros f t xs e Q. discriminate.
Qed.

Lemma exec_setti gc call decl id x f r t m : In x decl ->
  exec gc call decl gcIdent id (Sseq (Sset x (Xtinfo f)) r) t m = exec gc call decl gcIdent id r (set x (tinfo_get m f) t) m.
Proof. intro D. rewrite exec_seq. cbn [exec eval]. rewrite assign_temp_ok by exact D. reflexivity. Qed.

(** ** Programs *)

Section Prog.
  Variable kgc : list Z -> mem -> gres.
  Hypothesis GC : kgc_ok kgc.
  Hypothesis KL : keeps_limit kgc.
  Variable nParam : nat.
  Variable prims : tmap bool.
  Variable cenv : ctor_env.
  Variable B : fundefs.
  Variable e : exp.
  Hypothesis PO : kprog_ok cenv B e.
  Variable n0 : positive.
  Variable prog : kprog.
  Hypothesis CO : kcompile nParam prims cenv n0 (Efun B e) = Some prog.

  Let fenv := compute_fun_env (Efun B e).

  Local Notation ar := (ar_of (compute_fun_env (Efun B e))).

  Lemma kprog_fenv : forall t inf, get t fenv = Some inf -> inf = (N.of_nat (ar t), map N.of_nat (seq 0 (ar t))).
  Proof. exact (@compute_ok (Efun B e)). Qed.

  Definition main_info : list Z := [Z.of_nat (kmax_allocs e); 0].

  Lemma kcompile_inv : exists infos fmap funs s,
    kmake_funinfo (Efun B e) fenv n0 = Some (infos, fmap) /\
    ktranslate_fundefs nParam prims fenv cenv fmap infos B = Some funs /\
    ktranslate_body nParam prims fenv cenv fmap e = Some s /\
    prog = (bodyIdent, {| kf_params := [];
              kf_temps := get_locals e ++ [allocIdent; limitIdent; argsIdent];
              kf_info := main_info;
              kf_body := fold_right Sseq (Sreturn (Field (Xtinfo Targs) 1))
                [Sset allocIdent (Xtinfo Talloc); Sset limitIdent (Xtinfo Tlimit);
                 Sset argsIdent (Xtinfo Targs); kreserve_body main_info; s] |}) :: funs.
  Proof.
    pose proof CO as C. unfold kcompile in C. cbn [wrap_in_fun] in C. fold fenv in C.
    destruct (kmake_funinfo (Efun B e) fenv n0) as [[infos fmap]|] eqn:E1; [|discriminate].
    cbn [fst snd ktranslate_funs] in C.
    destruct (ktranslate_fundefs nParam prims fenv cenv fmap infos B) as [funs|] eqn:E2; [|discriminate].
    destruct (ktranslate_body nParam prims fenv cenv fmap e) as [s|] eqn:E3; [|discriminate].
    exists infos, fmap, funs, s. split; [reflexivity|]. split; [exact E2|]. split; [exact E3|].
    unfold kmake_funinfo in E1. destruct (kmake_fundef_info B fenv n0) as [[[ds fm] n1]|] eqn:E4; [|discriminate].
    apply Some_inj in E1.
    assert (Q : infos = (n1, main_info) :: ds /\ fmap = set mainIdent (n1, 1%positive) fm) by (unfold main_info; split; congruence).
    destruct Q as [-> ->]. rewrite get_set_same in C. cbn [fst] in C. cbn [get] in C.
    destruct (Pos.eq_dec n1 n1); [|contradiction]. apply Some_inj in C. symmetry. exact C.
  Qed.

  Lemma kmakeVar_fun infos fmap x : kmake_funinfo (Efun B e) fenv n0 = Some (infos, fmap) -> In x (fnames B) -> makeVar x fenv fmap = Xfun x.
  Proof.
    intros H I. unfold kmake_funinfo in H. destruct (kmake_fundef_info B fenv n0) as [[[ds fm] n']|] eqn:E; [|discriminate].
    apply Some_inj in H. assert (Q : fmap = set mainIdent (n', 1%positive) fm) by congruence. subst fmap.
    destruct (kinfo_get _ _ _ E) as (_ & H1 & _ & _).
    destruct (H1 x I) as (i & t & inf & G1 & G2). unfold makeVar. rewrite get_set_other, G1, G2; [reflexivity|].
    intros ->. destruct (kp_fnames PO _ I) as [R _]. apply R. cbn. tauto.
  Qed.

  Lemma kmakeVar_temp infos fmap x : kmake_funinfo (Efun B e) fenv n0 = Some (infos, fmap) -> ~ In x (fnames B) -> x <> mainIdent ->
    makeVar x fenv fmap = Xtemp x.
  Proof.
    intros H I N. unfold kmake_funinfo in H. destruct (kmake_fundef_info B fenv n0) as [[[ds fm] n']|] eqn:E; [|discriminate].
    apply Some_inj in H. assert (Q : fmap = set mainIdent (n', 1%positive) fm) by congruence. subst fmap.
    destruct (kinfo_get _ _ _ E) as (_ & _ & H2 & _).
    unfold makeVar. rewrite get_set_other, (H2 x I) by exact N. reflexivity.
  Qed.

  (** the array of each function *)
  Lemma kinfo_fun infos fmap f t xs eb : kmake_funinfo (Efun B e) fenv n0 = Some (infos, fmap) -> find_def f B = Some (t, xs, eb) ->
    exists i, get f fmap = Some (i, t) /\ get i infos = Some (info_of ar t eb).
  Proof.
    intros H F. unfold kmake_funinfo in H. destruct (kmake_fundef_info B fenv n0) as [[[ds fm] n']|] eqn:E; [|discriminate].
    apply Some_inj in H. assert (Q : infos = (n', main_info) :: ds /\ fmap = set mainIdent (n', 1%positive) fm) by (unfold main_info; split; congruence).
    destruct Q as [-> ->]. destruct (kinfo_get _ _ _ E) as (H1 & _ & _ & H4).
    destruct (H4 _ _ _ _ F) as (i & inf & A1 & A2 & A3). exists i. split.
    - rewrite get_set_other; [exact A1|]. intros ->. destruct (kp_fnames PO _ (KC_Proofs.find_fname _ _ F)) as [R _]. apply R. cbn. tauto.
    - pose proof (H1 _ _ A3) as Lt. cbn [get]. destruct (Pos.eq_dec i n'); [lia|]. rewrite A3.
      rewrite (@kprog_fenv _ _ A2). cbn [snd]. unfold info_of, locs_of. rewrite map_length, seq_length. reflexivity.
  Qed.

  Lemma ktranslate_find infos fmap : kmake_funinfo (Efun B e) fenv n0 = Some (infos, fmap) ->
    forall B1 funs, ktranslate_fundefs nParam prims fenv cenv fmap infos B1 = Some funs ->
    forall f t xs eb, find_def f B = Some (t, xs, eb) -> find_def f B1 = Some (t, xs, eb) ->
    exists res asgn s, asgnFunVars nParam xs (KC_Proofs.locs_of ar t) = Some asgn /\
      kreserve nParam fenv fmap (info_of ar t eb) xs (KC_Proofs.locs_of ar t) = Some res /\
      ktranslate_body nParam prims fenv cenv fmap eb = Some s /\
      get f funs = Some (kfun_of nParam ar t xs eb res asgn s).
  Proof.
    intros Hm. induction B1 as [g t' xs' e' B1 IH|]; intros funs H f t xs eb F0 F; [|discriminate].
    cbn [ktranslate_fundefs] in H.
    destruct (ktranslate_fundefs nParam prims fenv cenv fmap infos B1) as [rest|] eqn:E; [|discriminate].
    destruct (ktranslate_body nParam prims fenv cenv fmap e') as [s|] eqn:Eb; [|discriminate].
    destruct (get t' fenv) as [inf|] eqn:G; [|discriminate].
    destruct (asgnFunVars nParam xs' (snd inf)) as [asgn|] eqn:Ea; [|discriminate].
    destruct (get g fmap) as [gi|] eqn:Gg; [|discriminate].
    destruct (get (fst gi) infos) as [info|] eqn:Gi; [|discriminate].
    destruct (kreserve nParam fenv fmap info xs' (snd inf)) as [res|] eqn:Er; [|discriminate].
    apply Some_inj in H. subst funs. cbn [find_def] in F. cbn [get fst]. destruct (Pos.eq_dec f g) as [->|N].
    - assert (Q : t' = t /\ xs' = xs /\ e' = eb) by (repeat split; congruence). destruct Q as (-> & -> & ->).
      pose proof (@kprog_fenv _ _ G) as Q. subst inf. cbn [snd] in *.
      destruct (@kinfo_fun infos fmap g t xs eb Hm F0) as (i & A1 & A2).
      assert (Q : info = info_of ar t eb). { rewrite A1 in Gg. apply Some_inj in Gg. subst gi. cbn [fst] in Gi. congruence. }
      subst info. exists res, asgn, s. split; [exact Ea|]. split; [exact Er|]. split; [exact Eb|]. reflexivity.
    - eapply IH; [reflexivity|exact F0|exact F].
  Qed.

  Lemma kprog_Hprog infos fmap : kmake_funinfo (Efun B e) fenv n0 = Some (infos, fmap) ->
    forall f t xs eb, find_def f B = Some (t, xs, eb) ->
    exists res asgn s, asgnFunVars nParam xs (KC_Proofs.locs_of ar t) = Some asgn /\
      kreserve nParam fenv fmap (info_of ar t eb) xs (KC_Proofs.locs_of ar t) = Some res /\
      ktranslate_body nParam prims fenv cenv fmap eb = Some s /\
      get f prog = Some (kfun_of nParam ar t xs eb res asgn s).
  Proof.
    intros Hm f t xs eb F. destruct kcompile_inv as (infos' & fmap' & funs & s & Hm' & Ht & Hb & Ep).
    assert (Q : infos' = infos /\ fmap' = fmap) by (split; congruence). destruct Q as [-> ->].
    destruct (@ktranslate_find infos fmap Hm B funs Ht f t xs eb F F) as (res & asgn & s1 & A1 & A2 & A3 & A4).
    exists res, asgn, s1. split; [exact A1|]. split; [exact A2|]. split; [exact A3|].
    rewrite Ep. cbn [get]. destruct (Pos.eq_dec f bodyIdent) as [Q|Q]; [|exact A4].
    exfalso. destruct (kp_fnames PO f (KC_Proofs.find_fname _ _ F)) as (_ & N & _). contradiction.
  Qed.

  Lemma kprog_Hwf : forall f t xs eb, find_def f B = Some (t, xs, eb) ->
    NoDup xs /\ (forall x, In x (xs ++ get_locals eb) -> okname B x) /\
    (forall x, free x eb -> In x xs \/ In x (fnames B)) /\ wf_exp cenv eb /\ no_letapp eb /\
    Z.of_nat (kmax_allocs eb) < 2 ^ 63 /\ (length xs <= 1024)%nat.
  Proof.
    intros f t xs eb F. pose proof (all_funs_find _ _ _ (kp_funs PO) F) as (H2 & H3 & [H4 H5 H6 H7 H8]).
    split; [exact H2|]. split; [exact H4|]. split; [exact H5|]. split; [exact H6|]. split; [exact H7|]. split; assumption.
  Qed.

  (** running the main function: it returns the answer, which is also left in slot 1 *)
  Definition kruns_ok (T : Prop) (Q : val -> Prop) (r : rres) : Prop :=
    (T /\ r = CTime) \/ r = CAbort \/
    exists v w m' a', Q v /\ r = COk w m' /\ area m' a' /\ m_lo m' <= a' <= m_hi m' /\ m_args m' 1 = Some w /\
      okv cenv B m' a' v w.

  Lemma kmain_ok (T : Prop) (Q : val -> Prop) infos fmap k m a :
    kmake_funinfo (Efun B e) fenv n0 = Some (infos, fmap) ->
    body_ok kgc nParam prims cenv fenv fmap B prog T Q k (def_funs B B [] []) e ->
    m_lo m <= a <= m_hi m -> area m a ->
    kruns_ok T Q (krun kgc prog (S k) bodyIdent [] m).
  Proof.
    intros Hm IH Hba Ar.
    destruct kcompile_inv as (infos' & fmap' & funs & s & Hm' & Ht & Hb & Ep).
    assert (Q0 : infos' = infos /\ fmap' = fmap) by (split; congruence). destruct Q0 as [-> ->]. clear Hm'.
    pose proof (kp_main PO) as [Hn Hfree We NL Hmax].
    cbn [krun]. change (Pos.eqb bodyIdent isptrIdent) with false. cbv iota.
    rewrite Ep at 1. cbn [get]. destruct (Pos.eq_dec bodyIdent bodyIdent); [|contradiction].
    cbn [kf_params kf_temps kf_info kf_body set_lists app].
    set (decl := get_locals e ++ [allocIdent; limitIdent; argsIdent]).
    assert (Dres : forall x, In x [allocIdent; limitIdent; argsIdent] -> In x decl).
    { intros x I. unfold decl. apply in_or_app. right. exact I. }
    assert (Dloc : incl (get_locals e) decl).
    { intros x I. unfold decl. apply in_or_app. left. exact I. }
    assert (Dal : In allocIdent decl) by (apply Dres; cbn; tauto).
    assert (Dli : In limitIdent decl) by (apply Dres; cbn; tauto).
    assert (Dar : In argsIdent decl) by (apply Dres; cbn; tauto).
    cbn [fold_right]. set (gc := kgc main_info). set (call := krun kgc prog k).
    rewrite exec_setti by exact Dal.
    rewrite exec_setti by exact Dli.
    rewrite exec_setti by exact Dar.
    cbn [tinfo_get]. pose proof Ar as [Ar1 Ar2]. rewrite Ar1, Ar2.
    set (t3 := set argsIdent (VP BArgs 0) (set limitIdent (VP BHeap (m_hi m)) (set allocIdent (VP BHeap a) []))).
    assert (T3 : temps_ok t3 m a).
    { split; unfold t3.
      - rewrite !get_set_other by discriminate. apply get_set_same.
      - rewrite get_set_other by discriminate. apply get_set_same. }
    assert (Ga3 : get argsIdent t3 = Some (VP BArgs 0)) by (unfold t3; apply get_set_same).
    rewrite exec_seq.
    assert (Eg : exec gc call decl gcIdent 1%positive (kreserve_body main_info) t3 m = RAbort \/
      exists t4 m4 a4, exec gc call decl gcIdent 1%positive (kreserve_body main_info) t3 m = ROk Onormal t4 m4 /\
        m_lo m4 <= a4 /\ a4 + Z.of_nat (kmax_allocs e) <= m_hi m4 /\ temps_ok t4 m4 a4 /\ get argsIdent t4 = Some (VP BArgs 0)).
    { unfold kreserve_body. rewrite exec_if.
      assert (Ec : eval 1%positive t3 m (Xnot (Xbin Ole (Xconst (nth 0 main_info 0)) (Xbin Osub (Xtemp limitIdent) (Xtemp allocIdent))))
                   = Some (b2v (negb (Z.of_nat (kmax_allocs e) <=? m_hi m - a)))).
      { destruct T3 as [T1 T2]. cbn [main_info nth].
        assert (E1 : eval 1%positive t3 m (Xbin Ole (Xconst (Z.of_nat (kmax_allocs e))) (Xbin Osub (Xtemp limitIdent) (Xtemp allocIdent)))
                     = Some (b2v (Z.of_nat (kmax_allocs e) <=? m_hi m - a))).
        { cbn [eval]. rewrite T1, T2.
          change (if (- 2 ^ 63 <=? Z.of_nat (kmax_allocs e)) && (Z.of_nat (kmax_allocs e) <? 2 ^ 64) then Some (VZ (Z.of_nat (kmax_allocs e))) else None)
            with (eval 1%positive t3 m (Xconst (Z.of_nat (kmax_allocs e)))).
          rewrite eval_const by (change (2 ^ 63) with 9223372036854775808 in *; lia). reflexivity. }
        cbn [eval] in E1 |- *. rewrite E1. destruct (Z.of_nat (kmax_allocs e) <=? m_hi m - a); reflexivity. }
      rewrite Ec. destruct (Z.of_nat (kmax_allocs e) <=? m_hi m - a) eqn:Room; unfold b2v; cbn [negb].
      - change (0 =? 0) with true. cbv iota. cbn [exec]. right. exists t3, m, a. split; [reflexivity|].
        apply Z.leb_le in Room. split; [lia|]. split; [lia|]. split; assumption.
      - change (1 =? 0) with false. cbv iota. rewrite exec_seq. cbn [exec eval eval_list]. rewrite Pos.eqb_refl.
        unfold gc. destruct (@GC main_info m a Hba Ar) as [Eg|(m2 & a2 & Eg & Ar2' & B2 & C2 & _)].
        { cbn [main_info nth]. lia. }
        { intros i []. }
        { left. rewrite Eg. reflexivity. }
        right. rewrite Eg. cbn [andthen]. cbn [tinfo_get]. rewrite assign_temp_ok by exact Dal.
        destruct Ar2' as [Ar2a Ar2b]. rewrite Ar2a. exists (set allocIdent (VP BHeap a2) t3), m2, a2. split; [reflexivity|].
        split; [exact B2|]. split; [exact C2|]. split.
        + split; [apply get_set_same|]. rewrite get_set_other by discriminate. destruct T3 as [_ T2]. rewrite T2.
          pose proof (@KL _ _ _ Eg) as Q1. rewrite Ar2, Ar2b in Q1. congruence.
        + rewrite get_set_other by discriminate. exact Ga3. }
    destruct Eg as [Eg|(t4 & m4 & a4 & Eg & B4a & B4b & T4 & Ga4)]; rewrite Eg; cbn [andthen].
    { right. left. reflexivity. }
    rewrite exec_seq.
    assert (Body : good cenv B T Q (exec gc call decl gcIdent 1%positive s t4 m4)).
    { eapply IH with (L := get_locals e) (a := a4); [exact Hb| | | |exact Dal|exact Dli|exact Dar| |exact We|exact NL|].
      - intros x I. apply (Hn x). exact I.
      - intros x I. exact I.
      - exact Dloc.
      - right. exact (kp_case PO).
      - constructor; [lia|exact T4|exact Ga4|exact B4b|].
        intros x Fx. destruct (Hfree x Fx) as [[]|I].
        left. split; [exact I|]. apply def_funs_name. exact I. }
    destruct Body as [[HT Eb]|[Eb|(t6 & m6 & Eb & (v & w & a6 & HQ & A6 & B6 & W6 & O6))]]; rewrite Eb; cbn [andthen].
    { left. split; [exact HT|reflexivity]. }
    { right. left. reflexivity. }
    right. right. unfold Field. cbn [exec eval tinfo_get].
    change (if (- 2 ^ 63 <=? 1) && (1 <? 2 ^ 64) then Some (VZ 1) else None) with (Some (VZ 1)).
    cbn [binop_eval load]. change (0 + 1) with 1. rewrite W6.
    exists v, w, m6, a6. split; [exact HQ|]. split; [reflexivity|]. split; [exact A6|]. split; [exact B6|]. split; [exact W6|exact O6].
  Qed.

  Lemma kcompile_term c v m a : bstep_fuel cenv [] (Efun B e) c (Res v) -> m_lo m <= a <= m_hi m -> area m a ->
    forall k, (c <= k)%nat -> kruns_ok False (eq v) (krun kgc prog k bodyIdent [] m).
  Proof.
    intros H W Ar k Hk. inversion H as [|? ? ? c1 H1]; subst. inversion H1 as [| | | | | |? ? ? ? ? H2|]; subst.
    destruct kcompile_inv as (infos & fmap & _ & _ & Hm & _ & _ & _). destruct k as [|k]; [lia|].
    apply kmain_ok with (infos := infos) (fmap := fmap) (a := a); [exact Hm| |exact W|exact Ar].
    eapply (proj2 (@sim_term kgc GC KL nParam prims cenv (kp_cenv PO) fenv fmap B ar prog
      (fun x I => @kmakeVar_fun infos fmap x Hm I) (fun x I N => @kmakeVar_temp infos fmap x Hm I N) kprog_fenv
      (fun x R I => proj1 (kp_fnames PO x I) R) (fun I => proj1 (proj2 (proj2 (kp_fnames PO _ I))) eq_refl)
      (fun I => proj2 (proj2 (proj2 (kp_fnames PO _ I))) eq_refl)
      (@kprog_Hprog infos fmap Hm) kprog_Hwf) _ _ _ _ H2). lia.
  Qed.

  Lemma kcompile_safe m a : not_stuck cenv [] (Efun B e) -> m_lo m <= a <= m_hi m -> area m a ->
    forall k, kruns_ok True (fun v => exists c, bstep_fuel cenv [] (Efun B e) c (Res v)) (krun kgc prog k bodyIdent [] m).
  Proof.
    intros H W Ar k. destruct k as [|k]; [left; split; [exact I|reflexivity]|].
    destruct kcompile_inv as (infos & fmap & _ & _ & Hm & _ & _ & _).
    apply kmain_ok with (infos := infos) (fmap := fmap) (a := a); [exact Hm| |exact W|exact Ar].
    assert (S : safe cenv (def_funs B B [] []) e).
    { apply not_stuck_safe in H. intro c. specialize (H (S c)).
      destruct H as [(c' & v & L & H)|H]; inversion H as [? ? ? L0|? ? ? c1 H1]; subst.
      - inversion H1 as [| | | | | |? ? ? ? ? H2|]; subst. left. exists c1, v. split; [lia|exact H2].
      - lia.
      - inversion H1 as [| | | | | |? ? ? ? ? H2|]; subst. right. replace c with c1 by lia. exact H2. }
    eapply body_ok_imp; [|eapply (@sim_safe kgc GC KL nParam prims cenv (kp_cenv PO) fenv fmap B ar prog
      (fun x I => @kmakeVar_fun infos fmap x Hm I) (fun x I N => @kmakeVar_temp infos fmap x Hm I N) kprog_fenv
      (fun x R I => proj1 (kp_fnames PO x I) R) (fun I => proj1 (proj2 (proj2 (kp_fnames PO _ I))) eq_refl)
      (fun I => proj2 (proj2 (proj2 (kp_fnames PO _ I))) eq_refl)
      (@kprog_Hprog infos fmap Hm) kprog_Hwf); exact S].
    intros v (c & Hv). exists (c + 1)%nat. apply BStepf_run. apply BStept_fun. exact Hv.
  Qed.
End Prog.
