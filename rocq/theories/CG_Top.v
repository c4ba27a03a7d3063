(** * The simulation for whole programs *)
From Coq Require Import ZArith NArith List Lia Bool.
Import ListNotations.
From Verif Require Import ANF_Syntax ANF_Eval ANF_EvalProofs ANF_Spec ANF_FreeProofs CG_Clight CG_Model CG_Spec CG_Stack CG_Proofs.
Set Implicit Arguments.
Local Open Scope Z_scope.
Ltac Zify.zify_post_hook ::= idtac.

(** ** Conditions on a program *)

(** [P] holds of tag, parameters and body of every function *)
Fixpoint all_funs (P : positive -> list positive -> exp -> Prop) (B : fundefs) : Prop :=
  match B with
  | Fnil => True
  | Fcons f t xs e B' => P t xs e /\ all_funs P B'
  end.

Record body_wf (cenv : ctor_env) (B : fundefs) (xs : list positive) (e : exp) : Prop := {
  bw_names : forall x, In x (xs ++ get_locals e) -> ~ In x (fnames B) /\ ~ In x reserved;
  bw_closed : forall x, free x e -> In x xs \/ In x (fnames B);
  bw_exp : wf_exp cenv e;
  bw_allocs : Z.of_nat (max_allocs e) < 2 ^ 63;
  bw_size : Z.of_nat (length xs + length (get_locals e)) < 2 ^ 62 }.

(** A program the back end is meant for (the output of closure conversion and
    hoisting): closed first-order functions, distinct parameters, names distinct from the reserved ones; no
    function has more parameters than fit in C parameters or in the args array;
    the main expression does not end in a tail call. *)
Record prog_ok (nParam : nat) (cenv : ctor_env) (B : fundefs) (e : exp) : Prop := {
  po_cenv : cenv_ok cenv;
  po_fnames : forall f, In f (fnames B) -> ~ In f reserved /\ f <> bodyIdent /\ f <> gcIdent;
  po_funs : all_funs (fun t xs e' => NoDup xs /\ (length xs <= 1024 \/ length xs <= nParam)%nat /\ body_wf cenv B xs e') B;
  po_main : body_wf cenv B [] e;
  po_tail : no_tail e }.

Lemma all_funs_find P B f t xs e : all_funs P B -> find_def f B = Some (t, xs, e) -> P t xs e.
Proof.
  induction B as [g t' xs' e' B IH|]; cbn [all_funs find_def]; [|discriminate].
  intros [H1 H2] H. destruct (Pos.eq_dec f g); [|auto]. assert (t' = t /\ xs' = xs /\ e' = e) by (repeat split; congruence).
  destruct H0 as (-> & -> & ->). exact H1.
Qed.

Lemma all_funs_imp (P Q : positive -> list positive -> exp -> Prop) B : (forall t xs e, P t xs e -> Q t xs e) -> all_funs P B -> all_funs Q B.
Proof. intro H. induction B as [g t' xs' e' B IH|]; cbn [all_funs]; [|auto]. intros [H1 H2]. auto. Qed.

(** ** Tags *)

(** the number of arguments the table gives for a tag *)
Definition ar_of (fenv : tmap (N * list N)) (t : positive) : nat :=
  match get t fenv with Some inf => N.to_nat (fst inf) | None => 0%nat end.

(** every entry of the table lists the places 0, 1, ... of the arguments *)
Definition tags_ok (fenv : tmap (N * list N)) : Prop :=
  forall t inf, get t fenv = Some inf -> exists k, inf = (N.of_nat k, map N.of_nat (seq 0 k)).

Lemma tags_set fenv t vs : tags_ok fenv -> tags_ok (set t (N.of_nat (length vs), makeArgList vs) fenv).
Proof.
  intros H t' inf G. rewrite get_set in G. destruct (Pos.eq_dec t' t) as [->|]; [|eauto].
  apply Some_inj in G. subst inf. exists (length vs). rewrite makeArgList_seq. reflexivity.
Qed.

Lemma cfe_ok : forall n, (forall fenv e, tags_ok fenv -> tags_ok (compute_fun_env' n fenv e)) /\
  (forall fenv B, tags_ok fenv -> tags_ok (compute_fun_env_fundefs n B fenv)).
Proof.
  induction n as [|n [IH IHf]]; (split; [intros fenv e H|intros fenv B H]); try exact H.
  - destruct e as [x t ys e|x cs|x t k y e|x f t ys e|B e|f t ys|x p e|x p ys e|x]; cbn [compute_fun_env'].
    + apply IH. exact H.
    + revert fenv H. induction cs as [|p cs IHc]; intros fenv H; [exact H|].
      cbn [map fold_left]. apply IHc. apply IH. exact H.
    + apply IH. exact H.
    + apply IH. apply tags_set. exact H.
    + apply IH. apply IHf. exact H.
    + apply tags_set. exact H.
    + apply IH. exact H.
    + apply IH. exact H.
    + exact H.
  - destruct B as [f t xs e B|]; cbn [compute_fun_env_fundefs]; [|exact H].
    apply IHf. apply IH. apply tags_set. exact H.
Qed.

Lemma compute_ok e t inf : get t (compute_fun_env e) = Some inf ->
  inf = (N.of_nat (ar_of (compute_fun_env e) t), map N.of_nat (seq 0 (ar_of (compute_fun_env e) t))).
Proof.
  intro G. destruct (proj1 (cfe_ok (max_depth e)) [] e ltac:(intros ? ? Q; discriminate Q) t inf G) as (k & ->).
  unfold ar_of. rewrite G. cbn [fst]. rewrite Nat2N.id. reflexivity.
Qed.

(** ** Function names *)

Lemma fundef_info_get fenv : forall B n fmap n', make_fundef_info B fenv n = Some (fmap, n') ->
  (forall x, In x (fnames B) -> exists i t inf, get x fmap = Some (i, t) /\ get t fenv = Some inf) /\
  (forall x, ~ In x (fnames B) -> get x fmap = None).
Proof.
  induction B as [f t xs e B IH|]; intros n fmap n' H; cbn [make_fundef_info] in H.
  - destruct (get t fenv) as [inf|] eqn:G; [|discriminate].
    destruct (make_fundef_info B fenv n) as [[fm n1]|] eqn:E; [|discriminate]. cbn [fst snd] in H.
    assert (fmap = set f (n1, t) fm) by (apply Some_inj in H; congruence). subst fmap.
    destruct (IH _ _ _ E) as [H1 H2]. split; intros x I; cbn [fnames] in I; rewrite get_set; destruct (Pos.eq_dec x f) as [->|N].
    + exists n1, t, inf. auto.
    + apply H1. destruct I as [->|I]; [contradiction|exact I].
    + exfalso. apply I. left. reflexivity.
    + apply H2. intro J. apply I. right. exact J.
  - assert (fmap = []) by (apply Some_inj in H; congruence). subst fmap. split; intros x I; [destruct I|reflexivity].
Qed.

(** ** Number of slots *)

Lemma live_le L x e : (length (live_after L x e) <= length L)%nat.
Proof.
  assert (H : (length (live_after L x e) <= length (inter (exp_fv e) L))%nat).
  { unfold live_after, remove1. generalize (inter (exp_fv e) L). intro l. induction l as [|y l IH]; cbn [filter length]; [lia|].
    destruct (negb (Pos.eqb y x)); cbn [length]; lia. }
  etransitivity; [exact H|]. apply NoDup_incl_length.
  - unfold inter. apply NoDup_filter. apply exp_fv_aux_NoDup. constructor.
  - intros y I. apply inter_In in I. tauto.
Qed.

Lemma entry_le xs e : (length (live_at_entry xs e) <= length xs)%nat.
Proof.
  unfold live_at_entry. apply NoDup_incl_length.
  - unfold inter. apply NoDup_filter. apply exp_fv_aux_NoDup. constructor.
  - intros y I. apply inter_In in I. destruct I as [_ I]. apply union_list_In in I. destruct I as [[]|I]. exact I.
Qed.

Lemma gc_slots num xs off : (snd (make_GC_call num xs off) <= off + N.of_nat (length xs))%N.
Proof.
  destruct (Nat.eq_dec num 0) as [->|N].
  - unfold make_GC_call. destruct (push_live_vars_offset off xs). cbn [Nat.eqb snd]. lia.
  - rewrite snd_gc_call by exact N. lia.
Qed.

Section Slots.
  Variable nParam : nat.
  Variable prims : tmap bool.
  Variable fenv : tmap (N * list N).
  Variable cenv : ctor_env.
  Variable fmap : tmap (positive * positive).
  Notation tb := (translate_body nParam false prims fenv cenv fmap).
  Variable fv L : list positive.
  Variable locs : list N.
  Definition bound (slots : N) : N := N.max slots (N.of_nat (S (length L))).

  Lemma call_bound asgn c x e slots : (snd (call_with_stack L asgn c x e slots) <= bound slots)%N.
  Proof.
    destruct (call_with_stack_eq L asgn c x e slots Sskip) as [_ ->]. unfold bound.
    pose proof (gc_slots (max_allocs e) (live_result L x e) (N.of_nat (length (live_after L x e)))) as H.
    pose proof (live_le L x e) as H1.
    assert (H2 : (length (live_result L x e) <= 1)%nat) by (unfold live_result; destruct (ANF_Syntax.mem _ _); cbn; lia).
    lia.
  Qed.

  Lemma tb_bound : forall e slots s n, tb fv L locs e slots = Some (s, n) -> (n <= bound slots)%N.
  Proof.
    apply (@exp_ind2 (fun e => forall slots s n, tb fv L locs e slots = Some (s, n) -> (n <= bound slots)%N) (fun _ => True)).
    - intros x t ys e IH slots s n H. cbn [translate_body] in H.
      destruct (assignConstructorS cenv fenv fmap x t ys); [|discriminate].
      destruct (tb fv L locs e slots) as [[s1 n1]|] eqn:E; [|discriminate].
      apply Some_inj in H. assert (n = n1) by (cbn [fst snd] in H; congruence). subst n1. eauto.
    - intros x l F slots s n H. rewrite tb_case in H.
      destruct (mkc nParam prims cenv fenv fmap fv L locs slots l) as [[[ls ls'] n']|] eqn:E; [|discriminate].
      assert (n = n') by (apply Some_inj in H; congruence). subst n'. clear H.
      revert ls ls' n E. induction F as [|[t e] l Hp F IH]; intros ls ls' n E; cbn [mkc fst snd] in E.
      + apply Some_inj in E. assert (n = slots) by congruence. unfold bound. lia.
      + destruct (tb fv L locs e slots) as [[s1 n1]|] eqn:E1; [|discriminate].
        destruct (mkc nParam prims cenv fenv fmap fv L locs slots l) as [[[l1 l1'] n2]|] eqn:E2; [|discriminate].
        pose proof (add_case_max _ _ _ _ _ _ _ E) as Hm. cbn [snd fst] in Hm. specialize (IH _ _ _ eq_refl).
        specialize (Hp _ _ _ E1). lia.
    - intros x t k y e IH slots s n H. cbn [translate_body] in H.
      destruct (tb fv L locs e slots) as [[s1 n1]|] eqn:E; [|discriminate].
      apply Some_inj in H. assert (n = n1) by (cbn [fst snd] in H; congruence). subst n1. eauto.
    - intros x f t ys e IH slots s n H. cbn [translate_body] in H.
      destruct (get t fenv) as [inf|]; [|discriminate].
      destruct (asgnAppVars nParam ys (snd inf) fenv fmap) as [asgn|]; [|discriminate].
      destruct (mkCall nParam _ _ _ _ _ _) as [c|]; [|discriminate].
      pose proof (call_bound [asgn] c x e slots) as Hc.
      destruct (call_with_stack L [asgn] c x e slots) as [kk sl]. cbn [snd] in Hc.
      destruct (tb fv L locs e sl) as [[s1 n1]|] eqn:E; [|discriminate].
      apply Some_inj in H. assert (n = n1) by (cbn [fst snd] in H; congruence). subst n1. specialize (IH _ _ _ E).
      unfold bound in *. lia.
    - intros B e _ IH slots s n H. discriminate.
    - intros f t ys slots s n H. cbn [translate_body] in H.
      destruct (get t fenv) as [inf|]; [|discriminate].
      destruct (asgnAppVars nParam ys (snd inf) fenv fmap) as [asgn|]; [|discriminate].
      destruct (mkCall nParam _ _ _ _ _ _) as [c|]; [|discriminate].
      apply Some_inj in H. assert (n = slots) by congruence. unfold bound. lia.
    - intros x p e IH slots s n H. cbn [translate_body] in H.
      destruct (tb fv L locs e slots) as [[s1 n1]|] eqn:E; [|discriminate].
      apply Some_inj in H. assert (n = n1) by (cbn [fst snd] in H; congruence). subst n1. eauto.
    - intros x p ys e IH slots s n H. cbn [translate_body] in H.
      destruct (get p prims) as [tk|]; [|discriminate].
      destruct (mkPrimCall fenv fmap x p (length ys) ys) as [c|]; [|discriminate]. destruct tk.
      + pose proof (call_bound [] c x e slots) as Hc.
        destruct (call_with_stack L [] c x e slots) as [kk sl]. cbn [snd] in Hc.
        destruct (tb fv L locs e sl) as [[s1 n1]|] eqn:E; [|discriminate].
        apply Some_inj in H. assert (n = n1) by (cbn [fst snd] in H; congruence). subst n1. specialize (IH _ _ _ E).
        unfold bound in *. lia.
      + destruct (tb fv L locs e slots) as [[s1 n1]|] eqn:E; [|discriminate].
        apply Some_inj in H. assert (n = n1) by (cbn [fst snd] in H; congruence). subst n1. eauto.
    - intros x slots s n H. cbn [translate_body] in H. apply Some_inj in H. assert (n = slots) by congruence. unfold bound. lia.
    - auto.
    - exact I.
  Qed.
End Slots.

Lemma union_len : forall l s, (length (union_list s l) <= length s + length l)%nat.
Proof.
  induction l as [|x l IH]; intro s; cbn [union_list length]; [lia|].
  specialize (IH (ANF_Syntax.sadd x s)).
  assert (H : (length (ANF_Syntax.sadd x s) <= S (length s))%nat) by (unfold ANF_Syntax.sadd; destruct (ANF_Syntax.mem x s); cbn; lia).
  lia.
Qed.

(** ** Programs *)

Section Prog.
  Variable gc : mem -> gres.
  Hypothesis GC : gc_ok gc.
  Variable nParam : nat.
  Variable prims : tmap bool.
  Variable cenv : ctor_env.
  Variable B : fundefs.
  Variable e : exp.
  Hypothesis PO : prog_ok nParam cenv B e.
  Variable n0 : positive.
  Variable prog : cprog.
  Hypothesis CO : compile nParam false prims cenv n0 (Efun B e) = Some prog.

  Let fenv := compute_fun_env (Efun B e).

  Local Notation ar := (ar_of (compute_fun_env (Efun B e))).

  Lemma prog_fenv : forall t inf, get t fenv = Some inf -> inf = (N.of_nat (ar t), map N.of_nat (seq 0 (ar t))).
  Proof. exact (@compute_ok (Efun B e)). Qed.

  Lemma compile_inv : exists fmap funs s n,
    make_funinfo (Efun B e) fenv n0 = Some fmap /\
    translate_fundefs nParam false prims fenv cenv fmap B = Some funs /\
    translate_body nParam false prims fenv cenv fmap [] (union_list [] (get_locals e)) [] e 0 = Some (s, n) /\
    prog = (bodyIdent, {| cf_params := [];
              cf_temps := get_locals e ++ [allocIdent; limitIdent; argsIdent];
              cf_slots := Z.of_N n;
              cf_body := fold_right Sseq s
                [Sset allocIdent (Xtinfo Talloc); Sset limitIdent (Xtinfo Tlimit);
                 Sset argsIdent (Xtinfo Targs); init_stack; fst (make_GC_call (max_allocs e) [] 0)] |}) :: funs.
  Proof.
    pose proof CO as C. unfold compile in C. cbn [wrap_in_fun] in C. fold fenv in C.
    destruct (make_funinfo (Efun B e) fenv n0) as [fmap|] eqn:E1; [|discriminate].
    cbn [translate_program] in C.
    destruct (translate_fundefs nParam false prims fenv cenv fmap B) as [funs|] eqn:E2; [|discriminate].
    destruct (translate_body nParam false prims fenv cenv fmap [] (union_list [] (get_locals e)) [] e 0) as [[s n]|] eqn:E3; [|discriminate].
    exists fmap, funs, s, n. split; [reflexivity|]. split; [exact E2|]. split; [exact E3|]. apply Some_inj in C. symmetry. exact C.
  Qed.

  Lemma makeVar_fun fmap x : make_funinfo (Efun B e) fenv n0 = Some fmap -> In x (fnames B) -> makeVar x fenv fmap = Xfun x.
  Proof.
    intros H I. unfold make_funinfo in H. destruct (make_fundef_info B fenv n0) as [[fm n']|] eqn:E; [|discriminate].
    apply Some_inj in H. cbn [fst snd] in H. subst fmap. destruct (fundef_info_get _ _ _ E) as [H1 _].
    destruct (H1 x I) as (i & t & inf & G1 & G2). unfold makeVar. rewrite get_set_other, G1, G2; [reflexivity|].
    intros ->. destruct (po_fnames PO _ I) as [R _]. apply R. cbn. tauto.
  Qed.

  Lemma makeVar_temp fmap x : make_funinfo (Efun B e) fenv n0 = Some fmap -> ~ In x (fnames B) -> x <> mainIdent ->
    makeVar x fenv fmap = Xtemp x.
  Proof.
    intros H I N. unfold make_funinfo in H. destruct (make_fundef_info B fenv n0) as [[fm n']|] eqn:E; [|discriminate].
    apply Some_inj in H. cbn [fst snd] in H. subst fmap. destruct (fundef_info_get _ _ _ E) as [_ H2].
    unfold makeVar. rewrite get_set_other, (H2 x I) by exact N. reflexivity.
  Qed.

  Lemma translate_find fmap : forall B1 funs, translate_fundefs nParam false prims fenv cenv fmap B1 = Some funs ->
    forall f t xs eb, find_def f B1 = Some (t, xs, eb) ->
    exists asgn s n, asgnFunVars nParam xs (locs_of ar t) = Some asgn /\
      translate_body nParam false prims fenv cenv fmap xs (loc_ids xs eb) (locs_of ar t) eb 0 = Some (s, n) /\
      get f funs = Some (cfun_of nParam xs eb asgn s n).
  Proof.
    induction B1 as [g t' xs' e' B1 IH|]; intros funs H f t xs eb F; [|discriminate].
    cbn [translate_fundefs] in H.
    destruct (translate_fundefs nParam false prims fenv cenv fmap B1) as [rest|] eqn:E; [|discriminate].
    destruct (get t' fenv) as [inf|] eqn:G; [|discriminate].
    destruct (asgnFunVars nParam xs' (snd inf)) as [asgn|] eqn:Ea; [|discriminate].
    destruct (translate_body nParam false prims fenv cenv fmap xs' (union_list (union_list [] xs') (get_locals e')) (snd inf) e' 0) as [[s n]|] eqn:Eb; [|discriminate].
    apply Some_inj in H. subst funs. cbn [find_def] in F. cbn [get fst]. destruct (Pos.eq_dec f g) as [->|N].
    - assert (Q : t' = t /\ xs' = xs /\ e' = eb) by (repeat split; congruence). destruct Q as (-> & -> & ->).
      pose proof (@prog_fenv _ _ G) as Gi. subst inf. cbn [snd] in *.
      exists asgn, s, n. split; [exact Ea|]. split; [exact Eb|]. reflexivity.
    - eapply IH; [reflexivity|exact F].
  Qed.

  (** running the main function *)
  Definition runs_ok (T : Prop) (Q : val -> Prop) (m : mem) (a : Z) (ids : list positive) (r : rres) : Prop :=
    (T /\ r = CTime) \/ r = CAbort \/
    exists v w m' a', Q v /\ r = COk w m' /\ area m' a' /\ m_lo m' <= a' <= m_hi m' /\ m_fp m' = m_fp m /\
      keepf m a ids (m_next m) m' a' /\ okv cenv B m' a' v w.

  Lemma main_ok (T : Prop) (Q : val -> Prop) fmap k m a ids :
    make_funinfo (Efun B e) fenv n0 = Some fmap ->
    body_ok gc nParam prims cenv fenv fmap B prog T Q k (def_funs B B [] []) e ->
    wfm m a ids -> area m a ->
    runs_ok T Q m a ids (run gc gcIdent prog (S k) bodyIdent [] m).
  Proof.
    intros Hm IH W Ar.
    destruct compile_inv as (fmap' & funs & s & n & Hm' & Ht & Hb & Ep).
    assert (fmap' = fmap) by congruence. subst fmap'. clear Hm'.
    pose proof (po_main PO) as [Hn Hfree We Hmax Hsz0].
    assert (Hsz : Z.of_N n < 2 ^ 63).
    { pose proof (tb_bound _ _ _ _ _ _ _ _ _ _ Hb) as Hbd. unfold bound in Hbd.
      pose proof (union_len (get_locals e) []) as Hu. cbn [length] in Hu, Hsz0.
      change (2 ^ 62) with 4611686018427387904 in Hsz0. change (2 ^ 63) with 9223372036854775808. unfold var in *. lia. }
    cbn [run]. rewrite Ep at 1. cbn [get]. destruct (Pos.eq_dec bodyIdent bodyIdent); [|contradiction].
    cbn [cf_params cf_temps cf_slots cf_body set_lists app].
    set (decl := get_locals e ++ [allocIdent; limitIdent; argsIdent]).
    set (size := Z.of_N n) in *. set (id := m_next m). set (m0 := enter size m).
    assert (Dres : forall x, In x [allocIdent; limitIdent; argsIdent] -> In x decl).
    { intros x I. unfold decl. apply in_or_app. right. exact I. }
    assert (Dloc : incl (get_locals e) decl).
    { intros x I. unfold decl. apply in_or_app. left. exact I. }
    assert (Dal : In allocIdent decl) by (apply Dres; cbn; tauto).
    assert (Dli : In limitIdent decl) by (apply Dres; cbn; tauto).
    assert (Dar : In argsIdent decl) by (apply Dres; cbn; tauto).
    cbn [fold_right]. destruct Ar as [Ar1 Ar2].
    rewrite exec_reload by assumption.
    rewrite exec_seq. cbn [exec eval tinfo_get]. rewrite assign_temp_ok by exact Dar. cbn [andthen].
    replace (m_alloc m0) with (VP BHeap a) by (symmetry; exact Ar1).
    replace (m_limit m0) with (VP BHeap (m_hi m)) by (symmetry; exact Ar2).
    set (t3 := set argsIdent (VP BArgs 0) (set limitIdent (VP BHeap (m_hi m)) (set allocIdent (VP BHeap a) []))).
    assert (T4 : get allocIdent t3 = Some (VP BHeap a) /\ get limitIdent t3 = Some (VP BHeap (m_hi m))).
    { split; unfold t3.
      - rewrite !get_set_other by discriminate. apply get_set_same.
      - rewrite get_set_other by discriminate. apply get_set_same. }
    set (fr := {| f_next := Some (VP (BRoots id) 0); f_root := Some (VP (BRoots id) 0); f_prev := Some (m_fp m);
                  f_arr := fun _ => None; f_size := size |}).
    assert (G0 : get id (m_frames m0) = Some (no_frame size)) by (apply get_set_same).
    assert (Ei : exists m1, exec gc (run gc gcIdent prog k) decl gcIdent id init_stack t3 m0 = ROk Onormal t3 m1 /\
      frame_upd id m0 fr m1).
    { unfold init_stack. cbn [exec eval assign]. rewrite G0. cbn [andthen exec eval assign set_frames m_frames].
      rewrite get_set_same. cbn [andthen exec eval assign set_frames m_frames tinfo_get m_fp].
      rewrite get_set_same. eexists. split; [reflexivity|].
      exists (set id fr (set id (set_ffield (set_ffield (no_frame size) Fnext (VP (BRoots id) 0)) Froot (VP (BRoots id) 0))
              (set id (set_ffield (no_frame size) Fnext (VP (BRoots id) 0)) (m_frames m0)))).
      split; [reflexivity|]. split; [apply get_set_same|]. intros i Hi. rewrite !get_set_other by exact Hi. reflexivity. }
    destruct Ei as (m1 & Ei & Fu). rewrite Ei. cbn [andthen].
    pose proof (frame_upd_heap Fu) as (H1a & H1b & H1c).
    assert (HM1 : forall v w, hr m a v w -> hr m1 a v w).
    { intros v' w'. apply hr_same. split; [exact H1a|]. split; [exact H1b|exact H1c]. }
    assert (Fp1 : m_fp m1 = m_fp m). { destruct Fu as (fs & -> & _ & _). reflexivity. }
    assert (Fo : forall i, i <> id -> get i (m_frames m1) = get i (m_frames m)).
    { intros i Hi. destruct Fu as (fs & -> & _ & O). cbn [set_frames m_frames]. rewrite O by exact Hi.
      cbn [m0 enter m_frames]. apply get_set_other. exact Hi. }
    assert (Nx1 : m_next m1 = Pos.succ id). { destruct Fu as (fs & -> & _ & _). reflexivity. }
    assert (KF1 : keepf m a ids id m1 a).
    { apply keepf_same; [rewrite Nx1; unfold id; lia|exact HM1|]. intros i Hi. apply Fo. lia. }
    pose proof W as [W1 W2 W3 W4].
    assert (Cm1 : chain (m_frames m1) (m_fp m) ids).
    { eapply chain_agree; [exact W2|]. intros i fri I Gi. exists fri. rewrite Fo; [auto|]. intros ->. specialize (W3 _ I). unfold id in W3. lia. }
    assert (K1 : LK id (m_fp m) ids size 0 m1 a).
    { constructor.
      - cbn [N.eqb]. constructor.
        + rewrite H1b, H1c. exact W1.
        + rewrite Fp1. exact Cm1.
        + intros i I. rewrite Nx1. specialize (W3 i I). unfold id. lia.
        + intros i fri o I Gi U. rewrite Fo in Gi by (intros ->; specialize (W3 _ I); unfold id in W3; lia).
          destruct (W4 i fri o I Gi U) as (w & v' & A' & B'). exists w, v'. split; [exact A'|apply HM1; exact B'].
      - intros i I. exact (W3 i I).
      - rewrite Nx1. lia.
      - exists fr. split; [exact (frame_upd_get Fu)|]. repeat split. intro Z0. congruence.
      - cbn [N.eqb]. exact Fp1.
      - exact Cm1. }
    assert (Ar1' : area m1 a). { destruct Fu as (fs & -> & _ & _). split; [exact Ar1|exact Ar2]. }
    destruct (@exec_gc_call gc (run gc gcIdent prog k) decl id (m_fp m) ids size 0%N [] (max_allocs e) t3 m1 a)
      as [Eg|(t5 & m5 & a5 & Eg & K5 & A5 & T5 & B5 & KF5 & _ & V5 & O5)]; auto.
    { intros _. unfold size. cbn [length]. lia. }
    { intros x []. }
    { split; [apply T4|]. rewrite H1c. apply T4. }
    { intro Z0. congruence. }
    { intros x []. }
    { right. left. rewrite Eg. reflexivity. }
    rewrite Eg. cbn [andthen].
    assert (Body : good cenv B T Q id ids (m_fp m) m5 a5 (exec gc (run gc gcIdent prog k) decl gcIdent id s t5 m5)).
    { eapply IH; [exact Hb| |exact Hsz| | | |exact Dal|exact Dli|exact Dar| |exact We|].
      - unfold size. lia.
      - intros x I. rewrite union_list_In in I. destruct I as [[]|I]. apply (Hn x). exact I.
      - intros x I. apply union_list_In. right. exact I.
      - intros x I. rewrite union_list_In in I. destruct I as [[]|I]. apply Dloc. exact I.
      - right. exact (po_tail PO).
      - constructor; auto.
        intros x Fx. destruct (Hfree x Fx) as [[]|I].
        left. split; [exact I|]. apply def_funs_name. exact I. }
    destruct Body as [[HT Eb]|[Eb|(v & w & t6 & m6 & a6 & HQ & Eb & A6 & B6 & F6 & KF6 & O6)]].
    { left. split; [exact HT|]. rewrite Eb. reflexivity. }
    { right. left. rewrite Eb. reflexivity. }
    right. right. rewrite Eb.
    assert (HL : forall v w, hr m6 a6 v w -> hr (leave id m6) a6 v w).
    { intros v' w'. apply hr_same. repeat split. }
    exists v, w, (leave id m6), a6. split; [exact HQ|]. split; [reflexivity|]. split; [exact A6|]. split; [exact B6|]. split; [exact F6|]. split.
    - apply keepf_trans with (m1 := m1) (a1 := a); [exact KF1|].
      apply keepf_trans with (m1 := m5) (a1 := a5); [exact KF5|].
      apply keepf_trans with (m1 := m6) (a1 := a6); [exact KF6|].
      apply keepf_same; [cbn; lia|exact HL|]. intros i Hi. cbn [leave set_frames m_frames]. apply filter_other. lia.
    - destruct O6 as [O6a O6b]. split; [apply HL; exact O6a|exact O6b].
  Qed.

  Lemma find_fname f : forall B1 t xs eb, find_def f B1 = Some (t, xs, eb) -> In f (fnames B1).
  Proof.
    induction B1 as [g t' xs' e' B1 IH|]; intros t xs eb H; cbn [find_def] in H; [|discriminate].
    cbn [fnames]. destruct (Pos.eq_dec f g) as [->|N]; [left; reflexivity|right; eapply IH; exact H].
  Qed.

  Lemma prog_Hprog fmap : make_funinfo (Efun B e) fenv n0 = Some fmap ->
    forall f t xs eb, find_def f B = Some (t, xs, eb) ->
    exists asgn s n, asgnFunVars nParam xs (locs_of ar t) = Some asgn /\
      translate_body nParam false prims fenv cenv fmap xs (loc_ids xs eb) (locs_of ar t) eb 0 = Some (s, n) /\
      get f prog = Some (cfun_of nParam xs eb asgn s n) /\
      Z.of_N (N.max (N.of_nat (length (live_at_entry xs eb))) n) < 2 ^ 63.
  Proof.
    intros Hm f t xs eb F. destruct compile_inv as (fmap' & funs & s & n & Hm' & Ht & Hb & Ep).
    assert (fmap' = fmap) by congruence. subst fmap'.
    destruct (@translate_find fmap B funs Ht f t xs eb F) as (asgn & s1 & n1 & A1 & A2 & A3).
    exists asgn, s1, n1. split; [exact A1|]. split; [exact A2|]. split.
    - rewrite Ep. cbn [get]. destruct (Pos.eq_dec f bodyIdent) as [Q|Q]; [|exact A3].
      exfalso. destruct (po_fnames PO f (find_fname _ _ F)) as (_ & N & _). contradiction.
    - pose proof (all_funs_find _ _ _ (po_funs PO) F) as (_ & _ & Wb). pose proof (bw_size Wb) as Hs.
      pose proof (tb_bound _ _ _ _ _ _ _ _ _ _ A2) as Hbd. unfold bound in Hbd.
      pose proof (entry_le xs eb) as He.
      pose proof (union_len (get_locals eb) (union_list [] xs)) as Hu1. pose proof (union_len xs []) as Hu2.
      unfold loc_ids in Hbd. cbn [length] in Hu2. change (2 ^ 62) with 4611686018427387904 in Hs.
      change (2 ^ 63) with 9223372036854775808. unfold var in *. lia.
  Qed.

  Lemma prog_Hwf : forall f t xs eb, find_def f B = Some (t, xs, eb) ->
    NoDup xs /\ (forall x, In x (xs ++ get_locals eb) -> okname B x) /\
    (forall x, free x eb -> In x xs \/ In x (fnames B)) /\ wf_exp cenv eb /\
    Z.of_nat (max_allocs eb) < 2 ^ 63 /\ (length xs <= 1024 \/ length xs <= nParam)%nat.
  Proof.
    intros f t xs eb F. pose proof (all_funs_find _ _ _ (po_funs PO) F) as (H2 & H3 & [H4 H5 H6 H7 H8]).
    split; [exact H2|]. split; [exact H4|]. split; [exact H5|]. split; [exact H6|]. split; assumption.
  Qed.

  (** what the C program does, for a source program that returns [v] *)
  Lemma compile_term c v m a ids : bstep_fuel cenv [] (Efun B e) c (Res v) -> wfm m a ids -> area m a ->
    forall k, (c <= k)%nat -> runs_ok False (eq v) m a ids (run gc gcIdent prog k bodyIdent [] m).
  Proof.
    intros H W Ar k Hk. inversion H as [|? ? ? c1 H1]; subst. inversion H1 as [| | | | | |? ? ? ? ? H2|]; subst.
    destruct compile_inv as (fmap & _ & _ & _ & Hm & _ & _ & _). destruct k as [|k]; [lia|].
    apply main_ok with (fmap := fmap); [exact Hm| |exact W|exact Ar].
    eapply (proj2 (@sim_term gc GC nParam prims cenv (po_cenv PO) fenv fmap B ar prog
      (fun x I => @makeVar_fun fmap x Hm I) (fun x I N => @makeVar_temp fmap x Hm I N) prog_fenv
      (fun x R I => proj1 (po_fnames PO x I) R) (fun I => proj2 (proj2 (po_fnames PO _ I)) eq_refl)
      (@prog_Hprog fmap Hm) prog_Hwf) _ _ _ _ H2). lia.
  Qed.

  (** and for one that does not get stuck *)
  Lemma compile_safe m a ids : not_stuck cenv [] (Efun B e) -> wfm m a ids -> area m a ->
    forall k, runs_ok True (fun v => exists c, bstep_fuel cenv [] (Efun B e) c (Res v)) m a ids (run gc gcIdent prog k bodyIdent [] m).
  Proof.
    intros H W Ar k. destruct k as [|k]; [left; split; [exact I|reflexivity]|].
    destruct compile_inv as (fmap & _ & _ & _ & Hm & _ & _ & _).
    apply main_ok with (fmap := fmap); [exact Hm| |exact W|exact Ar].
    assert (S : safe cenv (def_funs B B [] []) e).
    { apply not_stuck_safe in H. intro c. specialize (H (S c)).
      destruct H as [(c' & v & L & H)|H]; inversion H as [? ? ? L0|? ? ? c1 H1]; subst.
      - inversion H1 as [| | | | | |? ? ? ? ? H2|]; subst. left. exists c1, v. split; [lia|exact H2].
      - lia.
      - inversion H1 as [| | | | | |? ? ? ? ? H2|]; subst. right. replace c with c1 by lia. exact H2. }
    eapply body_ok_imp; [|eapply (@sim_safe gc GC nParam prims cenv (po_cenv PO) fenv fmap B ar prog
      (fun x I => @makeVar_fun fmap x Hm I) (fun x I N => @makeVar_temp fmap x Hm I N) prog_fenv
      (fun x R I => proj1 (po_fnames PO x I) R) (fun I => proj2 (proj2 (po_fnames PO _ I)) eq_refl)
      (@prog_Hprog fmap Hm) prog_Hwf); exact S].
    intros v (c & Hv). exists (c + 1)%nat. apply BStepf_run. apply BStept_fun. exact Hv.
  Qed.
End Prog.
