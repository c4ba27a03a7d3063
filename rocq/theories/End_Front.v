(** * From LambdaBoxLocal programs to the LambdaANF pipeline *)
From Coq Require Import ZArith NArith PArith List Lia Bool Arith String.
From Verif Require Import ANF_Syntax ANF_Subst ANF_Eval ANF_Spec ANF_Scope ANF_EvalProofs Pipe_Spec Pipe_Shapes Pipe_ShapesCC
  WA_Spec WA_Eval End_Wasm LB_Model AN_Model AN_Spec AN_Proofs.
From Verif Require Layout_Model Layout_Proofs Properties_Layout AN_Sig.
Import ListNotations.
Local Open Scope nat_scope.

(** ** Programs without literals and primitives: the evaluator of WA_Spec.v and
    the relation with fuel agree *)
Definition no_prim (s : shape) : Prop := match s with SVal _ | SPrim _ _ => False | _ => True end.

(** values whose functions have no literals and primitives *)
Inductive simple : val -> Prop :=
| simple_constr t vs : Forall simple vs -> simple (Vconstr t vs)
| simple_fun rho B f : (forall x v, get x rho = Some v -> simple v) -> all_funs no_prim B -> simple (Vfun rho B f)
| simple_prim p : simple (Vprim p)
| simple_int z : simple (Vint z).
Definition simple_env (rho : env) : Prop := forall x v, get x rho = Some v -> simple v.

Lemma simple_set rho x v : simple_env rho -> simple v -> simple_env (set x v rho).
Proof. intros H V y w G. unfold set in G. cbn [get] in G. destruct (Pos.eq_dec y x); [injection G as <-; exact V|eauto]. Qed.
Lemma simple_def B0 rho0 : simple_env rho0 -> all_funs no_prim B0 -> forall B rho, simple_env rho -> simple_env (def_funs B0 B rho0 rho).
Proof.
  intros H A. induction B as [f t xs e B IH|]; intros rho R; cbn [def_funs]; [|exact R]. apply simple_set; [auto|]. constructor; auto.
Qed.
Lemma simple_list rho : simple_env rho -> forall ys vs, get_list ys rho = Some vs -> Forall simple vs.
Proof.
  intros H. induction ys as [|y ys IH]; intros vs G; cbn [get_list] in G; [injection G as <-; constructor|].
  destruct (get y rho) as [v|] eqn:E; [|discriminate]. destruct (get_list ys rho) as [l|]; [|discriminate]. injection G as <-. constructor; eauto.
Qed.
Lemma simple_sets : forall xs vs rho rho', set_lists xs vs rho = Some rho' -> simple_env rho -> Forall simple vs -> simple_env rho'.
Proof.
  induction xs as [|x xs IH]; intros [|v vs] rho rho' H R F; cbn [set_lists] in H; try discriminate; [injection H as <-; exact R|].
  destruct (set_lists xs vs rho) as [r|] eqn:E; [|discriminate]. injection H as <-. inversion F; subst. apply simple_set; eauto.
Qed.
Lemma simple_find B f t xs e : all_funs no_prim B -> find_def f B = Some (t, xs, e) -> all no_prim e.
Proof.
  induction B as [g t' xs' e' B IH|]; cbn [find_def]; [|discriminate]. rewrite all_Fcons. intros (_ & A & A') H.
  destruct (Pos.eq_dec f g); [injection H as <- <- <-; exact A|auto].
Qed.
Lemma simple_enter v t vs rho e : simple v -> Forall simple vs -> enter v t vs = Some (rho, e) -> simple_env rho /\ all no_prim e.
Proof.
  intros V F H. unfold enter in H. destruct v as [|rho0 B f| |]; try discriminate. destruct (find_def f B) as [[[t' xs] b]|] eqn:D; [|discriminate].
  destruct (Pos.eqb t t'); [|discriminate]. destruct (set_lists xs vs (def_funs B B rho0 rho0)) as [r|] eqn:S; [|discriminate].
  injection H as <- <-. inversion V; subst. split; [|eapply simple_find; eauto]. eapply simple_sets; [exact S| |exact F]. apply simple_def; auto.
Qed.

Section Agree.
  Variable cenv : ctor_env.
  Variable pr : tmap (list val -> option val).
  Notation peval := (peval cenv pr).

  Lemma callf_enter n v t vs rho e : enter v t vs = Some (rho, e) -> callf cenv pr (S n) v t vs = peval n rho e.
  Proof.
    intro H. unfold enter in H. destruct v as [|rho0 B f| |]; try discriminate. destruct (find_def f B) as [[[t' xs] b]|] eqn:D; [|discriminate].
    destruct (Pos.eqb_spec t t') as [<-|]; [|discriminate]. destruct (set_lists xs vs (def_funs B B rho0 rho0)) as [r|] eqn:S; [|discriminate].
    injection H as <- <-. eapply callf_S; eauto.
  Qed.
  Lemma callf_none n v t vs : enter v t vs = None -> callf cenv pr (S n) v t vs = PStuck.
  Proof.
    intro H. cbn [callf]. unfold enter in H. destruct v as [|rho0 B f| |]; try reflexivity. destruct (find_def f B) as [[[t' xs] b]|] eqn:D; [|reflexivity].
    destruct (Pos.eqb_spec t t') as [<-|N]; [|destruct (Pos.eq_dec t t'); [contradiction|reflexivity]]. destruct (Pos.eq_dec t t); [|contradiction].
    destruct (set_lists xs vs (def_funs B B rho0 rho0)) as [r|]; [discriminate|reflexivity].
  Qed.

  Lemma interp_peval : forall d rho e, simple_env rho -> all no_prim e ->
    match interp cenv d rho e with
    | Stuck => exists n, peval n rho e = PStuck
    | Done v _ => simple v
    | Deep => True
    end.
  Proof.
    induction d as [|d IH]; intros rho e R A; [exact I|]. cbn [interp]. destruct e as [x t ys e|y cl|x t n y e|x f t ys e|B e|f t ys|x p e|x p ys e|x].
    - cbn [all] in A. destruct (get_list ys rho) as [vs|] eqn:G; [|exists 0; unfold WA_Spec.peval; cbn [ev]; rewrite G; reflexivity].
      specialize (IH (set x (Vconstr t vs) rho) e ltac:(apply simple_set; [exact R|constructor; eapply simple_list; eauto]) (proj2 A)).
      destruct (interp cenv d (set x (Vconstr t vs) rho) e); cbn [bump]; auto. destruct IH as [k K]. exists k. unfold WA_Spec.peval in *. cbn [ev]. rewrite G. exact K.
    - rewrite all_Ecase in A.
      destruct (get y rho) as [[t vl| | |]|] eqn:G; try (exists 0; unfold WA_Spec.peval; rewrite ev_case, G; reflexivity).
      destruct (caseConsistent_f cenv cl t) eqn:CC; [|exists 0; unfold WA_Spec.peval; rewrite ev_case, G, CC; reflexivity].
      destruct (findtag cl t) as [e|] eqn:FT; [|exists 0; unfold WA_Spec.peval; rewrite ev_case, G, CC, FT; reflexivity].
      specialize (IH rho e R (all_findtag _ _ _ _ A FT)). destruct (interp cenv d rho e); cbn [bump]; auto.
      destruct IH as [k K]. exists k. unfold WA_Spec.peval in *. rewrite ev_case, G, CC, FT. exact K.
    - cbn [all] in A.
      destruct (get y rho) as [[t' vl| | |]|] eqn:G; try (exists 0; unfold WA_Spec.peval; cbn [ev]; rewrite G; reflexivity).
      destruct (Pos.eqb_spec t t') as [<-|N]; [|exists 0; unfold WA_Spec.peval; cbn [ev]; rewrite G; destruct (Pos.eq_dec t t'); [contradiction|reflexivity]].
      destruct (nthN vl n) as [v|] eqn:NV; [|exists 0; unfold WA_Spec.peval; cbn [ev]; rewrite G, NV; destruct (Pos.eq_dec t t); reflexivity].
      assert (V : simple v).
      { specialize (R _ _ G). inversion R; subst. rewrite Forall_forall in H0. apply H0.
        clear - NV. revert n NV. induction vl as [|w vl IH]; intros n H; [destruct n; discriminate|]. cbn [nthN] in H. destruct n as [|p]; [injection H as <-; left; reflexivity|right; exact (IH _ H)]. }
      specialize (IH (set x v rho) e ltac:(apply simple_set; auto) A). destruct (interp cenv d (set x v rho) e); cbn [bump]; auto.
      destruct IH as [k K]. exists k. unfold WA_Spec.peval in *. cbn [ev]. rewrite G, NV. destruct (Pos.eq_dec t t); [exact K|contradiction].
    - cbn [all] in A. destruct (get f rho) as [vf|] eqn:G; [|exists 0; unfold WA_Spec.peval; cbn [ev]; rewrite G; reflexivity].
      destruct (get_list ys rho) as [vs|] eqn:GL; [|exists 0; unfold WA_Spec.peval; cbn [ev]; rewrite G, GL; reflexivity].
      destruct (enter vf t vs) as [[rho' b]|] eqn:EN; [|exists 1; unfold WA_Spec.peval; cbn [ev]; rewrite G, GL, (callf_none 0 _ _ _ EN); reflexivity].
      destruct (simple_enter vf t vs rho' b (R _ _ G) (simple_list _ R _ _ GL) EN) as [R' A'].
      pose proof (IH rho' b R' A') as IB. destruct (interp cenv d rho' b) as [v m| |] eqn:EB; auto.
      + pose proof (IH (set x v rho) e ltac:(apply simple_set; auto) (proj2 A)) as IE. destruct (interp cenv d (set x v rho) e) as [w m'| |]; auto.
        destruct IE as [k K]. destruct (proj2 (bstep_bstep_e cenv pr) _ _ _ _ (interp_sound _ _ _ _ _ _ EB) v eq_refl) as [j J]. apply bstep_e_peval in J.
        exists (S (j + k)). unfold WA_Spec.peval at 1. cbn [ev]. rewrite G, GL, (callf_enter _ _ _ _ _ _ EN).
        rewrite (@peval_mono cenv pr j (j + k) rho' b _ ltac:(lia) J ltac:(discriminate)).
        exact (@peval_mono cenv pr k (S (j + k)) (set x v rho) e _ ltac:(lia) K ltac:(discriminate)).
      + destruct IB as [k K]. exists (S k). unfold WA_Spec.peval at 1. cbn [ev]. rewrite G, GL, (callf_enter _ _ _ _ _ _ EN), K. reflexivity.
    - rewrite all_Efun0 in A. specialize (IH (def_funs B B rho rho) e ltac:(apply simple_def; [exact R|apply A|exact R]) (proj2 A)).
      destruct (interp cenv d (def_funs B B rho rho) e); cbn [bump]; auto.
    - cbn [all] in A. destruct (get f rho) as [vf|] eqn:G; [|exists 0; unfold WA_Spec.peval; cbn [ev]; rewrite G; reflexivity].
      destruct (get_list ys rho) as [vs|] eqn:GL; [|exists 0; unfold WA_Spec.peval; cbn [ev]; rewrite G, GL; reflexivity].
      destruct (enter vf t vs) as [[rho' b]|] eqn:EN; [|exists 1; unfold WA_Spec.peval; cbn [ev]; rewrite G, GL, (callf_none 0 _ _ _ EN); reflexivity].
      destruct (simple_enter vf t vs rho' b (R _ _ G) (simple_list _ R _ _ GL) EN) as [R' A'].
      specialize (IH rho' b R' A'). destruct (interp cenv d rho' b); cbn [bump]; auto.
      destruct IH as [k K]. exists (S k). unfold WA_Spec.peval at 1. cbn [ev]. rewrite G, GL, (callf_enter _ _ _ _ _ _ EN). exact K.
    - destruct A as [[] _].
    - destruct A as [[] _].
    - destruct (get x rho) as [v|] eqn:G; [eauto|]. exists 0. unfold WA_Spec.peval. cbn [ev]. rewrite G. reflexivity.
  Qed.

  Lemma peval_one n m rho e : peval n rho e <> PTime -> peval m rho e <> PTime -> peval n rho e = peval m rho e.
  Proof.
    intros A B. destruct (Nat.le_ge_cases n m) as [L|L]; [symmetry|]; eapply (@peval_mono cenv pr); eauto.
  Qed.

  (** values *)
  Lemma peval_fuel n e v : all no_prim e -> peval n [] e = PVal v -> exists c, bstep_fuel cenv [] e c (Res v).
  Proof.
    intros A H. assert (R : simple_env []) by (intros x w G; discriminate).
    destruct (peval_bounded cenv pr n e [] ltac:(congruence)) as [k K].
    pose proof (interp_peval (S k) [] e R A) as P. destruct (interp cenv (S k) [] e) as [w m| |] eqn:E.
    - pose proof (interp_sound _ _ _ _ _ _ E) as B. exists m. pose proof (peval_res cenv pr n [] e _ _ B ltac:(congruence)) as Q. rewrite H in Q. injection Q as ->. exact B.
    - apply interp_deep_oot in E. apply K in E. lia.
    - destruct P as [j J]. pose proof (peval_one n j [] e ltac:(congruence) ltac:(congruence)). congruence.
  Qed.
  (** divergence *)
  Lemma peval_diverge e : all no_prim e -> (forall n, peval n [] e = PTime) -> diverge cenv [] e.
  Proof.
    intros A H. assert (R : simple_env []) by (intros x w G; discriminate). apply diverge_iff. intro d.
    pose proof (interp_peval d [] e R A) as P. destruct (interp cenv d [] e) as [w m| |] eqn:E; auto.
    - destruct (proj2 (bstep_bstep_e cenv pr) _ _ _ _ (interp_sound _ _ _ _ _ _ E) w eq_refl) as [j J]. apply bstep_e_peval in J. congruence.
    - destruct P as [j J]. congruence.
  Qed.
End Agree.

(** ** What A-normalisation makes *)
Scheme ctx_ind2 := Induction for exp_ctx Sort Prop with fctx_ind2 := Induction for fundefs_ctx Sort Prop.
Lemma app_comp : forall C C' e, app_ctx_f (comp_ctx_f C C') e = app_ctx_f C (app_ctx_f C' e).
Proof.
  apply (ctx_ind2 (fun C => forall C' e, app_ctx_f (comp_ctx_f C C') e = app_ctx_f C (app_ctx_f C' e))
    (fun F => forall C' e, app_f_ctx_f (comp_f_ctx_f F C') e = app_f_ctx_f F (app_ctx_f C' e)));
    intros; cbn [comp_ctx_f comp_f_ctx_f app_ctx_f app_f_ctx_f]; congruence.
Qed.
Section Shapes.
  Variable S : shape -> Prop.
  Variable prims : tmap nat.
  Variable tgm : conId_map.
  Variables func_tag default_tag : positive.
  (* the constructors declared, with their numbers of arguments *)
  Variable K : dcon -> N -> Prop.
  Hypothesis SK : forall d n, K d n -> S (SConstr (dcon_to_tag default_tag d tgm) (N.to_nat n)) /\ S (SBranch (dcon_to_tag default_tag d tgm)).
  Hypothesis S0 : S (SConstr default_tag 0).
  Hypothesis SF : S (SFun func_tag 1) /\ S (SCall func_tag 1) /\ S SLet.
  Notation conv := (convert_anf prims func_tag default_tag tgm).
  Notation convs := (convert_anf_exps prims func_tag default_tag tgm).
  Notation convfs := (convert_anf_efnlst prims func_tag default_tag tgm).
  Notation convbs := (convert_anf_branches prims func_tag default_tag tgm).

  (** Constructors and branches are declared; no literals and no primitives. *)
  Fixpoint conforms (e : lexp) : Prop :=
    match e with
    | Var_e _ | Prf_e => True
    | Lam_e _ e => conforms e
    | App_e e1 e2 | Let_e _ e1 e2 => conforms e1 /\ conforms e2
    | Con_e d es => K d (exps_length es) /\ conforms_es es
    | Match_e e _ bs => conforms e /\ (exists i, brs_of i bs) /\ conforms_bs bs
    | Fix_e fs i => (i < efnlst_length fs)%N /\ conforms_fs fs
    | Prim_val_e _ | Prim_e _ => False
    end
  with conforms_es (es : exps) : Prop := match es with enil => True | econs e es => conforms e /\ conforms_es es end
  with conforms_fs (es : efnlst) : Prop := match es with eflnil => True | eflcons _ e es => conforms e /\ conforms_fs es end
  with conforms_bs (bs : branches_e) : Prop :=
    match bs with brnil_e => True | brcons_e d n e bs => K d (nargs n) /\ conforms e /\ conforms_bs bs end.

  Lemma proj_all t r e : all S e -> forall vars n, all S (app_ctx_f (ctx_bind_proj t r vars n) e).
  Proof. intro A. induction vars as [|v vars IH]; intro n; cbn [ctx_bind_proj app_ctx_f all]; auto. Qed.

  Lemma conv_all :
    (forall e, conforms e -> forall vm s x C s', conv e vm s = Some (x, C, s') -> forall e', all S e' -> all S (app_ctx_f C e')) /\
    (forall es, conforms_es es -> forall vm s xs C s', convs es vm s = Some (xs, C, s') ->
       List.length xs = N.to_nat (exps_length es) /\ forall e', all S e' -> all S (app_ctx_f C e')) /\
    (forall fs, conforms_fs fs -> forall names i vm s x B s', convfs fs names i vm s = Some (x, B, s') -> all_funs S B) /\
    (forall bs, conforms_bs bs -> forall y vm s ps s', convbs bs y vm s = Some (ps, s') -> all_cases S ps).
  Proof.
    apply exp_ind_lam.
    - intros n _ vm s x C s' E e' A. cbn [convert_anf] in E. destruct (get_var_name vm n); [|discriminate]. injection E as <- <- <-. exact A.
    - intros na e IH U vm s x C s' E e' A. cbn [convert_anf fresh conforms] in *. dopt E [[[r C1] s1]|] F. injection E as <- <- <-.
      cbn [app_ctx_f]. rewrite all_Efun0, all_Fcons. repeat split; try apply SF; auto. eapply IH; [exact U|exact F|exact I].
    - intros e1 IH1 e2 IH2 [U1 U2] vm s x C s' E e' A. cbn [convert_anf fresh] in E. dopt E [[[x1 C1] s1]|] F1. dopt E [[[x2 C2] s2]|] F2. injection E as <- <- <-.
      rewrite !app_comp. eapply IH1; [exact U1|exact F1|]. eapply IH2; [exact U2|exact F2|]. cbn [app_ctx_f all]. split; [split; apply SF|exact A].
    - intros d l IH [U1 U2] vm s x C s' E e' A. cbn [convert_anf fresh] in E. dopt E [[[ys C1] s1]|] F. injection E as <- <- <-.
      destruct (IH U2 _ _ _ _ _ F) as [L Q]. rewrite app_comp. apply Q. cbn [app_ctx_f all]. split; [|exact A]. rewrite L. apply (SK _ _ U1).
    - intros e1 IH1 n bs IHb (U1 & _ & U2) vm s x C s' E e' A. cbn [convert_anf fresh] in E. dopt E [[[x1 C1] s1]|] F1. dopt E [[ps s2]|] F2. injection E as <- <- <-.
      cbn [app_ctx_f]. rewrite all_Efun0, all_Fcons, all_Ecase. repeat split; try apply SF; auto; [eapply IHb; eauto|].
      rewrite app_comp. eapply IH1; [exact U1|exact F1|]. cbn [app_ctx_f all]. split; [split; apply SF|exact A].
    - intros na e1 IH1 e2 IH2 [U1 U2] vm s x C s' E e' A. cbn [convert_anf fresh] in E. dopt E [[[x1 C1] s1]|] F1. dopt E [[[x2 C2] s2]|] F2. injection E as <- <- <-.
      rewrite !app_comp. eapply IH1; [exact U1|exact F1|]. eapply IH2; [exact U2|exact F2|exact A].
    - intros fs IH i [L U] vm s x C s' E e' A. cbn [convert_anf] in E. destruct (add_fix_names fs vm s) as [[names vm'] s1]. dopt E [[[x1 B] s2]|] F. injection E as <- <- <-.
      cbn [app_ctx_f]. rewrite all_Efun0. split; [eapply IH; eauto|exact A].
    - intros _ vm s x C s' E e' A. cbn [convert_anf fresh] in E. injection E as <- <- <-. cbn [app_ctx_f all]. split; [exact S0|exact A].
    - intros p [].
    - intros p [].
    - intros _ vm s xs C s' E. cbn in E. injection E as <- <- <-. split; [reflexivity|auto].
    - intros e IH1 l IH2 [U1 U2] vm s xs C s' E. cbn [convert_anf_exps] in E. dopt E [[[x1 C1] s1]|] F1. dopt E [[[x2 C2] s2]|] F2. injection E as <- <- <-.
      destruct (IH2 U2 _ _ _ _ _ F2) as [L Q]. split; [cbn [List.length exps_length]; lia|]. intros e' A. rewrite app_comp. eapply IH1; [exact U1|exact F1|]. auto.
    - intros _ names i vm s x B s' E. cbn [convert_anf_efnlst] in E. destruct names; [|discriminate]. injection E as <- <- <-. exact I.
    - intros na e _ IH1 fs IH2 [U1 U2] names i vm s x B s' E. cbn [convert_anf_efnlst fresh] in E. destruct names as [|f names]; [discriminate|].
      destruct e; try discriminate. dopt E [[[r C] s1]|] F1. dopt E [[[x2 B2] s2]|] F2. injection E as <- <- <-.
      rewrite all_Fcons. split; [apply SF|]. split; [|eapply IH2; eauto]. eapply (IH1 _ _ eq_refl U1); [exact F1|exact I].
    - intros _ y vm s ps s' E. cbn in E. injection E as <- <-. constructor.
    - intros d n e IH1 bs IH2 (U1 & U2 & U3) y vm s ps s' E. cbn [convert_anf_branches] in E. dopt E [[ps1 s1]|] F1.
      destruct (fresh_list (N.to_nat (nargs n)) s1) as [vars s2]. dopt E [[[r C] s3]|] F2. injection E as <- <-.
      rewrite all_cases_cons. split; [split; [apply (SK _ _ U1)|]|eapply IH2; eauto]. apply proj_all. eapply IH1; [exact U2|exact F2|exact I].
  Qed.

End Shapes.

  Lemma conv_uses tgm (K : dcon -> N -> Prop) : (forall d n, K d n -> known tgm d) ->
    (forall e, conforms K e -> uses tgm e) /\ (forall es, conforms_es K es -> uses_es tgm es) /\
    (forall fs, conforms_fs K fs -> uses_fs tgm fs) /\ (forall bs, conforms_bs K bs -> uses_bs tgm bs).
  Proof.
    intro KN. apply my_exp_ind; cbn [conforms conforms_es conforms_fs conforms_bs uses uses_es uses_fs uses_bs]; try tauto; intros; intuition eauto.
  Qed.

(** the main expression ends in [Ehalt] *)
Lemma prim_returns func_tag p : forall n args s x C s', convert_prim_anf func_tag n p args s = (x, C, s') -> forall e', returns e' -> returns (app_ctx_f C e').
Proof.
  induction n as [|n IH]; intros args s x C s' E e' A; cbn [convert_prim_anf fresh] in E; [injection E as <- <- <-; exact A|].
  destruct (convert_prim_anf func_tag n p _ _) as [[x1 C1] s1] in E. injection E as <- <- <-. exact A.
Qed.
Lemma conv_returns prims func_tag default_tag tgm :
  (forall e vm s x C s', convert_anf prims func_tag default_tag tgm e vm s = Some (x, C, s') -> forall e', returns e' -> returns (app_ctx_f C e')) /\
  (forall es vm s xs C s', convert_anf_exps prims func_tag default_tag tgm es vm s = Some (xs, C, s') -> forall e', returns e' -> returns (app_ctx_f C e')) /\
  (forall fs : efnlst, True) /\ (forall bs : branches_e, True).
Proof.
  apply exp_ind_lam; try (intros; exact I).
  - intros n vm s x C s' E e' A. cbn [convert_anf] in E. destruct (get_var_name vm n); [|discriminate]. injection E as <- <- <-. exact A.
  - intros na e IH vm s x C s' E e' A. cbn [convert_anf fresh] in *. dopt E [[[r C1] s1]|] F. injection E as <- <- <-. exact A.
  - intros e1 IH1 e2 IH2 vm s x C s' E e' A. cbn [convert_anf fresh] in E. dopt E [[[x1 C1] s1]|] F1. dopt E [[[x2 C2] s2]|] F2. injection E as <- <- <-.
    rewrite !app_comp. eapply IH1; [exact F1|]. eapply IH2; [exact F2|exact A].
  - intros d l IH vm s x C s' E e' A. cbn [convert_anf fresh] in E. dopt E [[[ys C1] s1]|] F. injection E as <- <- <-. rewrite app_comp. eapply IH; [exact F|exact A].
  - intros e1 IH1 n bs IHb vm s x C s' E e' A. cbn [convert_anf fresh] in E. dopt E [[[x1 C1] s1]|] F1. dopt E [[ps s2]|] F2. injection E as <- <- <-.
    cbn [app_ctx_f returns]. rewrite app_comp. eapply IH1; [exact F1|exact A].
  - intros na e1 IH1 e2 IH2 vm s x C s' E e' A. cbn [convert_anf fresh] in E. dopt E [[[x1 C1] s1]|] F1. dopt E [[[x2 C2] s2]|] F2. injection E as <- <- <-.
    rewrite !app_comp. eapply IH1; [exact F1|]. eapply IH2; [exact F2|exact A].
  - intros fs IH i vm s x C s' E e' A. cbn [convert_anf] in E. destruct (add_fix_names fs vm s) as [[names vm'] s1]. dopt E [[[x1 B] s2]|] F. injection E as <- <- <-. exact A.
  - intros vm s x C s' E e' A. cbn [convert_anf fresh] in E. injection E as <- <- <-. exact A.
  - intros p vm s x C s' E e' A. cbn [convert_anf fresh] in E. injection E as <- <- <-. exact A.
  - intros p vm s x C s' E e' A. cbn [convert_anf] in E. destruct (get p prims) as [n|]; [|discriminate]. injection E as E. eapply prim_returns; eauto.
  - intros vm s xs C s' E. cbn in E. injection E as <- <- <-. auto.
  - intros e IH1 l IH2 vm s xs C s' E e' A. cbn [convert_anf_exps] in E. dopt E [[[x1 C1] s1]|] F1. dopt E [[[x2 C2] s2]|] F2. injection E as <- <- <-.
    rewrite app_comp. eapply IH1; [exact F1|]. eapply IH2; [exact F2|exact A].
Qed.

(** ** The table made from the declarations *)
Section Table.
  Variables dt dit : positive.
  Import Layout_Model Layout_Proofs Properties_Layout.

  Definition outside (st : ice) : Prop :=
    (Pos.to_nat dt < Pos.to_nat (next_ctor st)) /\
    forall t, t <> dt -> (Pos.to_nat t < Pos.to_nat dt \/ Pos.to_nat (next_ctor st) <= Pos.to_nat t) -> get t (ctors_of st) = None.

  Lemma typack_outside kn : forall ty n st, outside st -> outside (convert_typack ty kn n st).
  Proof.
    induction ty as [|cs ty IH]; intros n [[[[ie ce] nc] ni] m] O; cbn [convert_typack]; [exact O|].
    destruct (fromN_ok (List.length cs) nc) as [F1 F2]. destruct (fromN nc (List.length cs)) as [cct nc'] eqn:EF. cbn [fst snd] in F1, F2. subst cct nc'.
    destruct (convert_cnstrs (map (padd nc) (seq 0 (List.length cs))) cs (kn, n) 0 0 0 ni ce m) as [ce' m'] eqn:EC.
    apply IH. destruct O as [O1 O2]. cbn [next_ctor ctors_of] in *. split; [cbn [next_ctor]; rewrite padd_nat; lia|].
    intros t N H. cbn [next_ctor ctors_of] in *. rewrite padd_nat in H.
    pose proof (cnstrs_ok (kn, n) ni cs nc 0 0 0 ce m) as C. cbn zeta in C. rewrite EC in C. destruct C as (_ & C & _). cbn [fst] in C.
    rewrite C by lia. apply O2; [exact N|lia].
  Qed.
  Lemma env_outside : forall g st, outside st -> outside (convert_env' g st).
  Proof. induction g as [|[kn ty] g IH]; intros st O; cbn [convert_env']; [exact O|]. apply IH, typack_outside, O. Qed.

  (** positions in the tag range *)
  Lemma locate : forall (l : list (positive * nat * list nat)) m, m < size l ->
    exists k ind cs j, nth_error l k = Some (ind, cs) /\ j < List.length cs /\ m = size (firstn k l) + j.
  Proof.
    induction l as [|[ind cs] l IH]; intros m H; [cbn in H; lia|]. rewrite size_cons in H. cbn [snd] in H.
    destruct (Nat.lt_ge_cases m (List.length cs)) as [L|L].
    - exists 0, ind, cs, m. cbn [nth_error firstn]. change (size []) with 0. auto.
    - destruct (IH (m - List.length cs) ltac:(lia)) as (k & ind' & cs' & j & A & B & C).
      exists (S k), ind', cs', j. cbn [nth_error firstn]. rewrite size_cons. cbn [snd]. split; [exact A|]. split; [exact B|lia].
  Qed.

  Lemma table_entries g : NoDup (map fst g) -> forall t i, get t (ctors_of (convert_env dt dit g)) = Some i ->
    (t = dt /\ i = {| ctor_ind_tag := dit; ctor_arity := 0; ctor_ordinal := 0 |}) \/
    exists k ind cs j a, nth_error (flat g) k = Some (ind, cs) /\ nth_error cs j = Some a /\
      t = ctag dt (flat g) k j /\ i = info (itag dit k) cs 0 0 j a.
  Proof.
    intros ND t i G. pose proof (env_ok dt dit g ND) as I.
    assert (O : outside (convert_env dt dit g)).
    { unfold convert_env. apply env_outside. split; cbn [next_ctor ctors_of]; [rewrite Pos2Nat.inj_succ; lia|].
      intros t' N _. unfold set. cbn [get]. destruct (Pos.eq_dec t' dt); [contradiction|reflexivity]. }
    destruct (convert_env dt dit g) as [[[[ie ce] nc] ni] m]. cbn [ctors_of next_ctor] in *. destruct I as (I1 & I2 & (I3 & I4) & I5).
    destruct (Pos.eq_dec t dt) as [->|N]; [left; split; [reflexivity|congruence]|right].
    destruct O as [O1 O2]. cbn [ctors_of next_ctor] in *.
    assert (R : Pos.to_nat dt < Pos.to_nat t < Pos.to_nat nc).
    { destruct (Nat.lt_ge_cases (Pos.to_nat t) (Pos.to_nat dt)) as [L|L]; [rewrite O2 in G by auto; discriminate|].
      destruct (Nat.lt_ge_cases (Pos.to_nat t) (Pos.to_nat nc)) as [L2|L2]; [|rewrite O2 in G by auto; discriminate].
      assert (Pos.to_nat t <> Pos.to_nat dt) by (intro Q; apply N; apply Pos2Nat.inj; exact Q). lia. }
    rewrite I1, padd_nat in R.
    destruct (locate (flat g) (Pos.to_nat t - Pos.to_nat dt - 1) ltac:(lia)) as (k & ind & cs & j & A & B & C).
    destruct (nth_error cs j) as [a|] eqn:NE; [|apply nth_error_None in NE; lia].
    destruct (I5 _ _ _ A) as [_ X]. destruct (X _ _ NE) as [X1 X2].
    assert (T : t = ctag dt (flat g) k j) by (apply Pos2Nat.inj; unfold ctag; rewrite padd_nat; lia).
    exists k, ind, cs, j, a. split; [exact A|]. split; [exact NE|]. split; [exact T|]. rewrite <- T in X1. congruence.
  Qed.

  Lemma table_ordinals g : NoDup (map fst g) -> ordinals_ok (ctors_of (convert_env dt dit g)).
  Proof.
    intros ND t1 t2 i1 i2 G1 G2 E1 E2 E3.
    destruct (table_entries g ND _ _ G1) as [[-> ->]|(k & ind & cs & j & a & A & B & -> & ->)];
    destruct (table_entries g ND _ _ G2) as [[-> ->]|(k' & ind' & cs' & j' & a' & A' & B' & -> & ->)]; [reflexivity| | |];
      cbn [info ctor_ind_tag ctor_arity ctor_ordinal] in *.
    - unfold itag in E1. apply (f_equal Pos.to_nat) in E1. rewrite padd_nat in E1. lia.
    - unfold itag in E1. apply (f_equal Pos.to_nat) in E1. rewrite padd_nat in E1. lia.
    - assert (k' = k) by (unfold itag in E1; apply padd_inj in E1; lia). subst k'.
      assert (cs' = cs) by congruence. subst cs'.
      assert (SK : same_kind a a' = true).
      { unfold same_kind. destruct (Nat.eqb_spec a 0), (Nat.eqb_spec a' 0); try reflexivity; exfalso; lia. }
      rewrite (rank_inj _ _ _ B B' SK); [reflexivity|]. destruct (Nat.eqb a 0), (Nat.eqb a' 0); lia.
  Qed.

  Lemma table_below g : NoDup (map fst g) ->
    let r := convert_env dt dit g in
    forall t i, get t (ctors_of r) = Some i ->
      (dt <= t < next_ctor r)%positive /\ (dit <= ctor_ind_tag i < next_ind r)%positive.
  Proof.
    intros ND r t i G. pose proof (env_ok dt dit g ND) as I.
    destruct (table_entries g ND _ _ G) as [[-> ->]|(k & ind & cs & j & a & A & B & -> & ->)];
      unfold r; destruct (convert_env dt dit g) as [[[[ie ce] nc] ni] m]; cbn [next_ctor next_ind]; destruct I as (-> & -> & _).
    - cbn [ctor_ind_tag]. rewrite !Pos2Nat.inj_le, !Pos2Nat.inj_lt, !padd_nat. lia.
    - cbn [info ctor_ind_tag]. unfold ctag, itag. rewrite !Pos2Nat.inj_le, !Pos2Nat.inj_lt, !padd_nat.
      pose proof (size_firstn_lt _ _ A). assert (j < List.length cs) by (apply nth_error_Some; congruence).
      assert (k < List.length (flat g)) by (apply nth_error_Some; congruence). lia.
  Qed.
  Lemma next_below g : NoDup (map fst g) ->
    let r := convert_env dt dit g in (dt < next_ctor r)%positive /\ (dit < next_ind r)%positive.
  Proof.
    intros ND r. pose proof (env_ok dt dit g ND) as I. unfold r. destruct (convert_env dt dit g) as [[[[ie ce] nc] ni] m]. cbn [next_ctor next_ind].
    destruct I as (-> & -> & _). rewrite !Pos2Nat.inj_lt, !padd_nat. lia.
  Qed.

  (** a declared constructor has its entry *)
  Lemma declared_entry g kn i j cs a : NoDup (map fst g) -> declared g kn i j cs a ->
    let r := convert_env dt dit g in
    exists inf, get (dcon_to_tag dt ((kn, i), N.of_nat j) (ids_of r)) (ctors_of r) = Some inf /\ ctor_arity inf = N.of_nat a /\
      In ((kn, i), N.of_nat j) (map fst (ids_of r)).
  Proof.
    intros ND (ty & H1 & H2 & H3) r. destruct (flat_pos _ _ _ i H1 H2) as [k Hk].
    pose proof (env_ok dt dit g ND) as I. fold r in I. destruct r as [[[[ie ce] nc] ni] m]. cbn [ids_of ctors_of]. destruct I as (_ & _ & _ & I).
    destruct (I _ _ _ Hk) as [_ B]. destruct (B _ _ H3) as [B1 B2]. exists (info (itag dit k) cs 0 0 j a). split; [rewrite B2; exact B1|]. split; [reflexivity|].
    assert (NE : Layout_Model.dcon_to_tag dt (kn, i, N.of_nat j) m <> dt).
    { rewrite B2. unfold ctag. intro Q. apply (f_equal Pos.to_nat) in Q. rewrite padd_nat in Q. lia. }
    clear - NE. induction m as [|[d t] m IH]; [destruct NE; reflexivity|]. rewrite dtt_cons in NE. cbn [map fst In].
    destruct (conId_dec (kn, i, N.of_nat j) d) as [<-|]; [left; reflexivity|right; auto].
  Qed.
End Table.
