(* Lambda lifting: the pass succeeds, results, the whole pass. *)
From Coq Require Import List Arith NArith PArith Bool Lia.
From Verif Require Import ANF_Syntax ANF_Eval ANF_Spec ANF_Scope ANF_EvalProofs ANF_FreeProofs Comp_Model CC_Model CC_Spec CC_Proofs UC_Model LL_Model LL_Spec LL_Proofs LL_Sim.
Import ListNotations.

Notation nv := lv_var.

Lemma add_functions_uniform fvs sfvs args : forall B m g s m' g' s', add_functions B fvs sfvs args m g s = (m', g', s') ->
  (length fvs = length args -> all_lift m' args B) /\ (length fvs <> length args -> all_nolift m' B).
Proof.
  induction B as [f t xs e B IH|]; intros m g s m' g' s' H; cbn [add_functions] in H.
  2: { split; intros _ x []. }
  destruct (add_functions B fvs sfvs args m g s) as [[m1 g1] s1] eqn:E1. destruct (IH _ _ _ _ _ _ E1) as [I1 I2].
  destruct (Nat.eqb_spec (length fvs) (length args)) as [EL|NL].
  - destruct (new_name s1) as [f' s2]. destruct (new_tag _ s2) as [ft' s3]. apply pair3 in H as (<- & _ & _). split; [|congruence].
    intros _ x I. rewrite get_set. destruct (Pos.eq_dec x f) as [->|D]; [exists f', ft', fvs, sfvs; reflexivity|].
    destruct I as [I|I]; [congruence|apply I1; auto].
  - apply pair3 in H as (<- & _ & _). split; [congruence|].
    intros _ x I. rewrite get_set. destruct (Pos.eq_dec x f) as [->|D]; [exists fvs, sfvs; reflexivity|].
    destruct I as [I|I]; [congruence|apply I2; auto].
Qed.
Lemma make_wrappers_total_lift fvm fm args : forall B s, all_lift fm args B -> exists Bw fvm' s', make_wrappers B fvm fm s = Some (Some Bw, fvm', s').
Proof.
  induction B as [f t xs e B IH|]; intros s AL; cbn [make_wrappers]; [|eauto].
  destruct (AL f ltac:(left; reflexivity)) as (f' & ft' & fvs & sfvs & ->). destruct (new_name s) as [g s1]. destruct (new_names xs s1) as [xs' s2].
  destruct (IH s2 (all_lift_cons _ _ _ _ _ _ _ AL)) as (Bw & fvm' & s' & ->). eauto.
Qed.
Lemma make_wrappers_total_nolift fvm fm B s : all_nolift fm B -> exists ob fvm' s', make_wrappers B fvm fm s = Some (ob, fvm', s').
Proof.
  destruct B as [f t xs e B|]; intro AL; cbn [make_wrappers]; [|eauto]. destruct (AL f ltac:(left; reflexivity)) as (a & b & ->). eauto.
Qed.

Section Total.
  Variables max_args max_push : nat.
  Variable lift_dec : list var -> list var -> bool.
  Notation ll := (exp_lambda_lift max_args max_push lift_dec).
  Notation llf := (fundefs_lambda_lift max_args max_push lift_dec).

  Lemma ll_total :
    (forall e sc fvm fm g s, exists e1 s1, ll e sc fvm fm g s = Some (e1, s1)) /\
    (forall B B0 nm fvm fm g s, (exists args, all_lift fm args B /\ all_lift fm args B0) \/ all_nolift fm B ->
       exists B1 s1, llf B B0 nm fvm fm g s = Some (B1, s1)).
  Proof.
    apply exp_fundefs_ind.
    - intros x t ys e IH sc fvm fm g s. cbn [exp_lambda_lift]. edestruct IH as (e1 & s1 & ->). eauto.
    - intros x l IH sc fvm fm g s. rewrite ll_case.
      assert (exists l' s', ll_pats max_args max_push lift_dec l sc fvm fm g s = Some (l', s')) as (l' & s' & ->); [|eauto].
      revert s. induction IH as [|[t a] l IH1 _ IH2]; intro s; cbn [ll_pats]; [eauto|].
      cbn [snd] in IH1. destruct (IH1 sc fvm fm g s) as (e1 & s1 & ->). destruct (IH2 s1) as (l' & s' & ->). eauto.
    - intros x t n y e IH sc fvm fm g s. cbn [exp_lambda_lift]. edestruct IH as (e1 & s1 & ->). eauto.
    - intros x f t ys e IH sc fvm fm g s. cbn [exp_lambda_lift]. edestruct IH as (e1 & s1 & ->).
      destruct (get f fm) as [[]|]; eauto. destruct (lift_dec _ _); eauto.
    - intros B e IHB IH sc fvm fm g s. rewrite ll_fun_eq. cbn zeta.
      destruct (add_functions _ _ _ _ _ _ _) as [[fm' g'] sa] eqn:AF. apply add_functions_uniform in AF as [U1 U2].
      destruct (Nat.eq_dec (length (elements (lift_fvs lift_dec fm g B))) (length (lifted_vars max_args max_push (elements (lift_fvs lift_dec fm g B)) B))) as [E|E].
      + specialize (U1 E). destruct (IHB B (fundefs_names B) fvm fm' g' sa) as (B1 & s1 & ->); [left; eauto|].
        destruct (make_wrappers_total_lift fvm fm' _ B s1 U1) as (Bw & fvm' & s' & ->). edestruct IH as (e1 & s2 & ->). eauto.
      + specialize (U2 E). destruct (IHB B (fundefs_names B) fvm fm' g' sa) as (B1 & s1 & ->); [right; auto|].
        destruct (make_wrappers_total_nolift fvm fm' B s1 U2) as (ob & fvm' & s' & ->). edestruct IH as (e1 & s2 & ->). destruct ob; eauto.
    - intros f t ys sc fvm fm g s. cbn [exp_lambda_lift]. destruct (get f fm) as [[]|]; eauto. destruct (lift_dec _ _); eauto.
    - intros x p e IH sc fvm fm g s. cbn [exp_lambda_lift]. edestruct IH as (e1 & s1 & ->). eauto.
    - intros x p ys e IH sc fvm fm g s. cbn [exp_lambda_lift]. edestruct IH as (e1 & s1 & ->). eauto.
    - intros x sc fvm fm g s. cbn [exp_lambda_lift]. eauto.
    - intros f t xs e B IH IHB B0 nm fvm fm g s H. rewrite llf_cons_eq. destruct H as [(args & A & A0)|A].
      + destruct (A f ltac:(left; reflexivity)) as (f' & ft' & fvs & sfvs & ->). destruct (add_free_vars args fvm s) as [[ys fvm1] s1].
        destruct (make_wrappers_total_lift fvm1 fm _ B0 s1 A0) as (Bw & fvm' & s' & ->). edestruct IH as (e1 & s2 & ->).
        destruct (IHB B0 nm fvm fm g s2) as (B1 & s3 & ->); [|eauto]. left. exists args. split; [eapply all_lift_cons; eauto|exact A0].
      + destruct (A f ltac:(left; reflexivity)) as (fvs & sfvs & ->). edestruct IH as (e1 & s2 & ->).
        destruct (IHB B0 nm fvm fm g s2) as (B1 & s3 & ->); [|eauto]. right. eapply all_nolift_cons; eauto.
    - intros. cbn [fundefs_lambda_lift]. eauto.
  Qed.
End Total.

Lemma In_find f B : In f (fnames B) -> exists t xs e, find_def f B = Some (t, xs, e).
Proof.
  induction B as [h u ys a B IH|]; [|intros []]. cbn [find_def fnames In]. destruct (Pos.eq_dec f h) as [->|D]; [eauto|].
  intros [E|I]; [congruence|auto].
Qed.

Section Results.
  Variables max_args max_push : nat.
  Variable lift_dec : list var -> list var -> bool.
  Variable N0 : positive.
  Lemma lval_same : forall v v', lval max_args max_push lift_dec N0 v v' -> same_kind v v'.
  Proof.
    fix self 3. intros v v' H.
    destruct H as [t vs vs' F| | |rf B f r' B' nm fvm fm g s s' OK M AL LF I _|rf B f rw Bw h f' ft' args args' t xs xs' e vl F1 F2 L N _ _ _ _].
    - constructor. revert vs vs' F. fix go 3. intros vs vs' F. destruct F as [|v v' vs vs' V F]; [constructor|]. constructor; [apply self; exact V|apply go; exact F].
    - constructor.
    - constructor.
    - destruct (In_find _ _ I) as (t & xs & e & FD). destruct (llf_nl_find _ _ _ _ _ _ _ _ _ _ _ _ _ _ _ _ LF AL FD) as (sc & sa & e' & sb & _ & _ & FD').
      econstructor; [exact FD|exact FD'|reflexivity].
    - econstructor; [exact F1|exact F2|]. symmetry. exact L.
  Qed.
  Lemma lval_data : forall v, data v -> lval max_args max_push lift_dec N0 v v.
  Proof.
    fix self 1. intros [t vs|rho B f|p|z] D; [|destruct D|constructor|constructor].
    constructor. cbn in D. revert vs D. fix go 1. intros [|v vs] D; constructor; [apply self; apply D|apply go; apply D].
  Qed.
End Results.
Lemma kind_data : forall v v', same_kind v v' -> data v -> v' = v.
Proof.
  fix self 3. intros v v' H. destruct H as [t vs vs' F| | |rho B f rho' B' f' t xs xs' e e' F1 F2 L]; [|reflexivity|reflexivity|intros []].
  intro D. f_equal. cbn in D. revert vs vs' F D. fix go 3. intros vs vs' F D. destruct F as [|v v' vs vs' V F]; [reflexivity|].
  f_equal; [apply self; [exact V|apply D]|apply go; [exact F|apply D]].
Qed.

(* ** The whole pass *)
Lemma top_ok (e : exp) (n : positive) : unique e -> separate e -> below n e -> okexp n [] [] e.
Proof.
  intros U S B. split; [exact U|]. split.
  - intros x I. split; [|split; [reflexivity|apply S; exact I]]. split; [apply B; auto|]. split; [reflexivity|]. discriminate.
  - intros x F. apply B. auto.
Qed.
Lemma top_maps (n : positive) : okmaps n n [] [] [].
Proof. split; [lia|]. split; [discriminate|]. split; discriminate. Qed.

Lemma top_sim a p i e s e' s' cenv (rho rho' : env) : lambda_lift a p i e s = Some (e', s') -> unique e -> separate e -> below (nv s) e ->
  (forall x, free x e -> exists v, get x rho = Some v /\ data v /\ get x rho' = Some v) ->
  forall c r, bstep_fuel cenv rho e c r ->
  exists c' r', bstep_fuel cenv rho' e' c' r' /\ c <= c' /\ match r, r' with OOT, OOT => True | Res v, Res v' => same_kind v v' | _, _ => False end.
Proof.
  intros H U S B EV c r E. unfold lambda_lift in H.
  destruct (sim _ _ _ (nv s) _ _ _ _ _ E _ _ _ _ _ _ _ rho' H (top_ok _ _ U S B) (top_maps _)) as (c' & r' & E' & L & R).
  - intros x F. destruct (EV x F) as (v & G & D & G'). exists v, v. split; [exact G|]. split; [exact G'|]. split; [apply lval_data; exact D|discriminate].
  - exists c', r'. split; [exact E'|]. split; [exact L|]. destruct r, r'; cbn in R |- *; auto. eapply lval_same; eauto.
Qed.
