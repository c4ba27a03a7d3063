(** * The other passes bring no new shapes, but for closure records *)
From Coq Require Import ZArith NArith PArith List Lia Bool Arith Relations.
From Verif Require Import ANF_Syntax ANF_Scope ANF_Spec ANF_Subst Pipe_Shapes UC_Spec Hoist_Spec.
From Verif Require LL_Model LL_Proofs Hoist_Model Hoist_Proofs CC_Spec CC_Model CC_Proofs CC_Top DPE_Model.
Import ListNotations.
Local Open Scope nat_scope.

(** ** Uncurrying *)
Scheme somewhere_mind := Minimality for somewhere Sort Prop
with somewheref_mind := Minimality for somewheref Sort Prop.
Combined Scheme somewhere_mutind from somewhere_mind, somewheref_mind.

Section Unc.
  Variable S : shape -> Prop.
  Hypothesis BL : blind S.

  Lemma rewrite_all used B B' : rewrite used B B' -> all_funs S B -> all_funs S B'.
  Proof.
    destruct BL as [B1 B2]. intro R. destruct R as [f ft pre fv g gt gv ge tl fds f1 ft1 fv1 gv1 TL _ _ _ _ _ _].
    rewrite !all_Fcons, !all_Efun0, !all_Fcons. intros (_ & ((_ & A1 & _) & A2) & A3).
    split; [auto|]. split; [split; [split; [auto|split; [apply B1|exact I]]|exact A2]|]. split; [auto|]. split; [exact A1|exact A3].
  Qed.
  Lemma somewhere_all (R : fundefs -> fundefs -> Prop) : (forall B B', R B B' -> all_funs S B -> all_funs S B') ->
    (forall e e', somewhere R e e' -> all S e -> all S e') /\ (forall B B', somewheref R B B' -> all_funs S B -> all_funs S B').
  Proof.
    intro HR. apply somewhere_mutind; try (intros; cbn [all] in *; tauto).
    - intros x l1 c e e' l2 _ IH. rewrite !all_Ecase. unfold all_cases. rewrite !Forall_app. intros [A1 A2]. split; [auto|].
      inversion A2 as [|? ? [A3 A4] A5]; subst. constructor; auto.
    - intros B B' H. apply HR. exact H.
    - intros f t xs e e' B _ IH. rewrite !all_Fcons. tauto.
    - intros f t xs e B B' _ IH. rewrite !all_Fcons. tauto.
  Qed.
  Lemma uncurry_all e e' : uncurry_steps e e' -> all S e -> all S e'.
  Proof.
    induction 1 as [e e' H|e|e e1 e2 _ IH1 _ IH2]; auto. exact (proj1 (somewhere_all _ (rewrite_all (fun x => name_in x e))) e e' H).
  Qed.
End Unc.

Lemma uncurry_returns e e' : uncurry_steps e e' -> returns e -> returns e'.
Proof.
  induction 1 as [e e' H|e|e e1 e2 _ IH1 _ IH2]; auto. revert H. unfold uncurry_step. generalize (rewrite (fun x => name_in x e)).
  intros R H. refine (somewhere_mind R (fun e e' => returns e -> returns e') (fun _ _ => True) _ _ _ _ _ _ _ _ _ _ _ e e' H);
    try (intros; exact I); try (intros; cbn [returns] in *; auto; fail).
  intros x l1 c e0 e1 l2 _ IH. rewrite !returns_Ecase, !Forall_app. intros [A1 A2]. split; [auto|]. inversion A2; subst. constructor; auto.
Qed.

(** ** Lambda lifting *)
Section Lift.
  Variables max_args max_push : nat.
  Variable lift_dec : list var -> list var -> bool.
  Notation ll := (LL_Model.exp_lambda_lift max_args max_push lift_dec).
  Notation llf := (LL_Model.fundefs_lambda_lift max_args max_push lift_dec).
  Variable S : shape -> Prop.
  Hypothesis BL : blind S.

  Lemma rename_lst_length fvm ys : length (LL_Model.rename_lst fvm ys) = length ys.
  Proof. unfold LL_Model.rename_lst. apply map_length. Qed.

  Lemma wrappers_all fvm fm : forall B s ob fvm' s', LL_Model.make_wrappers B fvm fm s = Some (ob, fvm', s') ->
    match ob with Some Bw => all_funs S Bw | None => True end.
  Proof.
    destruct BL as [B1 B2]. induction B as [f t xs e B IH|]; intros s ob fvm' s' H; cbn [LL_Model.make_wrappers] in H.
    - destruct (get f fm) as [[f' ft' fvs sfvs args|? ?]|]; [| |discriminate].
      + destruct (LL_Model.new_name s) as [g s1]. destruct (LL_Model.new_names xs s1) as [xs' s2].
        destruct (LL_Model.make_wrappers B fvm fm s2) as [[[mb fvm1] s3]|] eqn:E; [|discriminate].
        apply LL_Proofs.some3 in H as (<- & _ & _). specialize (IH _ _ _ _ E). apply all_Fcons. split; [auto|]. split; [apply B1|].
        destruct mb; [exact IH|exact I].
      + apply LL_Proofs.some3 in H as (<- & _ & _). exact I.
    - apply LL_Proofs.some3 in H as (<- & _ & _). exact I.
  Qed.

  Lemma ll_all :
    (forall e sc fvm fm g s e1 s1, ll e sc fvm fm g s = Some (e1, s1) -> all S e -> all S e1) /\
    (forall B B0 nm fvm fm g s B1 s1, llf B B0 nm fvm fm g s = Some (B1, s1) -> all_funs S B -> all_funs S B1).
  Proof.
    destruct BL as [BL1 BL2]. apply exp_fundefs_ind.
    - intros x t ys e IH sc fvm fm g s e1 s1 H A. apply LL_Proofs.ll_constr in H as (e' & H & ->). cbn [all] in *. rewrite rename_lst_length. intuition eauto.
    - intros x l IH sc fvm fm g s e1 s1 H A. apply LL_Proofs.ll_case_inv in H as (l' & H & ->). rewrite all_Ecase in *. revert s l' H A.
      induction IH as [|[y e] l IH1 _ IH2]; intros s l' H A.
      + cbn [LL_Proofs.ll_pats] in H. apply LL_Proofs.some2 in H as [<- <-]. constructor.
      + apply LL_Proofs.pats_cons in H as (e2 & s2 & l2 & P & Q & ->). rewrite all_cases_cons in *. cbn [snd] in *. intuition eauto.
    - intros x t n y e IH sc fvm fm g s e1 s1 H A. apply LL_Proofs.ll_proj in H as (e' & H & ->). cbn [all] in *. eauto.
    - intros x f t ys e IH sc fvm fm g s e1 s1 H A. apply LL_Proofs.ll_letapp in H as (e' & h & t' & zs & H & -> & _). cbn [all] in *. intuition eauto.
    - intros B e IHB IH sc fvm fm g s e1 s1 H A. rewrite all_Efun0 in A. destruct A as [A1 A2].
      apply LL_Proofs.ll_fun in H as (sfvs & fvs & lfvs & fm' & g' & sa & B' & sb & ob & fvm' & sd & e' & _ & _ & _ & H1 & H2 & H3 & H4 & ->).
      pose proof (wrappers_all _ _ _ _ _ _ _ H3) as W. destruct ob; rewrite !all_Efun0; eauto.
    - intros f t ys sc fvm fm g s e1 s1 H A. apply LL_Proofs.ll_app in H as (h & t' & zs & -> & -> & _). apply BL1.
    - intros x p e IH sc fvm fm g s e1 s1 H A. apply LL_Proofs.ll_prim_val in H as (e' & H & ->). cbn [all] in *. intuition eauto.
    - intros x p ys e IH sc fvm fm g s e1 s1 H A. apply LL_Proofs.ll_prim in H as (e' & H & ->). cbn [all] in *. rewrite rename_lst_length. intuition eauto.
    - intros x sc fvm fm g s e1 s1 H A. apply LL_Proofs.ll_halt in H as [-> ->]. exact I.
    - intros f t xs e B IH IHB B0 nm fvm fm g s B1 s1 H A. rewrite all_Fcons in A. destruct A as (A1 & A2 & A3).
      apply LL_Proofs.llf_cons in H as [(f' & ft' & fvs & sfvs & args & ys & fvm1 & sa & Bw & fvm2 & sb & e' & sc & B' & _ & H1 & H2 & H3 & H4 & ->)|
        (fvs & sfvs & e' & sa & B' & _ & H1 & H2 & ->)].
      + pose proof (wrappers_all _ _ _ _ _ _ _ H2) as W. rewrite all_Fcons, all_Efun0. eauto 6.
      + rewrite all_Fcons. eauto 6.
    - intros B0 nm fvm fm g s B1 s1 H A. apply LL_Proofs.llf_nil in H as [-> ->]. exact I.
  Qed.

  Lemma ll_returns : forall e sc fvm fm g s e1 s1, ll e sc fvm fm g s = Some (e1, s1) -> returns e -> returns e1.
  Proof.
    apply (exp_ind2 (fun e => forall sc fvm fm g s e1 s1, ll e sc fvm fm g s = Some (e1, s1) -> returns e -> returns e1) (fun _ => True));
      try exact I; try (intros; exact I).
    - intros x t ys e IH sc fvm fm g s e1 s1 H A. apply LL_Proofs.ll_constr in H as (e' & H & ->). cbn [returns] in *. eauto.
    - intros x l IH sc fvm fm g s e1 s1 H A. apply LL_Proofs.ll_case_inv in H as (l' & H & ->). rewrite returns_Ecase in *. revert s l' H A.
      induction IH as [|[y e] l IH1 _ IH2]; intros s l' H A.
      + cbn [LL_Proofs.ll_pats] in H. apply LL_Proofs.some2 in H as [<- <-]. constructor.
      + apply LL_Proofs.pats_cons in H as (e2 & s2 & l2 & P & Q & ->). inversion A; subst. constructor; cbn [snd] in *; eauto.
    - intros x t n y e IH sc fvm fm g s e1 s1 H A. apply LL_Proofs.ll_proj in H as (e' & H & ->). cbn [returns] in *. eauto.
    - intros x f t ys e IH sc fvm fm g s e1 s1 H A. apply LL_Proofs.ll_letapp in H as (e' & h & t' & zs & H & -> & _). cbn [returns] in *. eauto.
    - intros B e IHB IH sc fvm fm g s e1 s1 H A.
      apply LL_Proofs.ll_fun in H as (sfvs & fvs & lfvs & fm' & g' & sa & B' & sb & ob & fvm' & sd & e' & _ & _ & _ & H1 & H2 & H3 & H4 & ->).
      destruct ob; cbn [returns] in *; eauto.
    - intros f t ys sc fvm fm g s e1 s1 H [].
    - intros x p e IH sc fvm fm g s e1 s1 H A. apply LL_Proofs.ll_prim_val in H as (e' & H & ->). cbn [returns] in *. eauto.
    - intros x p ys e IH sc fvm fm g s e1 s1 H A. apply LL_Proofs.ll_prim in H as (e' & H & ->). cbn [returns] in *. eauto.
    - intros x sc fvm fm g s e1 s1 H A. apply LL_Proofs.ll_halt in H as [-> ->]. exact I.
  Qed.
End Lift.

(** ** Hoisting *)
Section Hoist.
  Variable S : shape -> Prop.

  Lemma strip_all : forall e, all S e -> all S (strip e).
  Proof.
    apply (exp_ind2 (fun e => all S e -> all S (strip e)) (fun _ => True)); try (intros; exact I); cbn [strip].
    - intros x t ys e IH A. cbn [all] in *. intuition.
    - intros x l F A. rewrite all_Ecase in *. induction F as [|[c e] l H F IH]; [constructor|].
      rewrite all_cases_cons in A. cbn [List.map fst snd]. rewrite all_cases_cons. cbn [snd] in H. intuition.
    - intros x t n y e IH A. cbn [all] in *. auto.
    - intros x f t ys e IH A. cbn [all] in *. intuition.
    - intros B e _ IH A. rewrite all_Efun0 in A. intuition.
    - intros f t ys A. exact A.
    - intros x p e IH A. cbn [all] in *. intuition.
    - intros x p ys e IH A. cbn [all] in *. intuition.
  Qed.
  Lemma strip_no_fun : forall e, all no_fun (strip e).
  Proof.
    apply (exp_ind2 (fun e => all no_fun (strip e)) (fun _ => True)); try (intros; exact I); cbn [strip]; try (intros; cbn [all no_fun]; auto; fail).
    intros x l F. rewrite all_Ecase. induction F as [|[c e] l H F IH]; [constructor|]. cbn [List.map fst snd]. rewrite all_cases_cons. cbn [snd] in H.
    split; [split; [exact I|auto]|auto].
  Qed.
  Lemma hf_all :
    (forall e acc, all S e -> all_funs S acc -> all_funs S (Hoist_Proofs.hf e acc)) /\
    (forall B acc, all_funs S B -> all_funs S acc -> all_funs S (Hoist_Proofs.hf_funs B acc)).
  Proof.
    apply exp_fundefs_ind; try (intros; cbn [Hoist_Proofs.hf Hoist_Proofs.hf_funs all] in *; intuition; fail).
    - intros x l F acc A C. cbn [Hoist_Proofs.hf]. rewrite all_Ecase in A. induction F as [|[c e] l H F IH]; [exact C|].
      rewrite all_cases_cons in A. cbn [fold_right snd] in *. apply H; intuition.
    - intros f t xs e B IH IHB acc A C. rewrite all_Fcons in A.
      change (all_funs S (Fcons f t xs (strip e) (Hoist_Proofs.hf e (Hoist_Proofs.hf_funs B acc)))). rewrite all_Fcons.
      split; [tauto|]. split; [apply strip_all; tauto|]. apply IH; [tauto|]. apply IHB; tauto.
  Qed.
  Lemma hoist_all e : all S e -> all S (fst (Hoist_Model.exp_hoist e)).
  Proof.
    intro A. rewrite Hoist_Proofs.exp_hoist_direct. cbn [fst]. pose proof (proj1 hf_all e Fnil A I) as H. pose proof (strip_all e A) as K.
    fold (Hoist_Proofs.hoisted e) in H. destruct (Hoist_Proofs.hoisted e); [|exact K]. apply all_Efun0. auto.
  Qed.
End Hoist.

Lemma hf_no_fun :
  (forall e acc, (forall f t xs b, In (f, t, xs, b) (flist acc) -> all no_fun b) -> forall f t xs b, In (f, t, xs, b) (flist (Hoist_Proofs.hf e acc)) -> all no_fun b) /\
  (forall B acc, (forall f t xs b, In (f, t, xs, b) (flist acc) -> all no_fun b) -> forall f t xs b, In (f, t, xs, b) (flist (Hoist_Proofs.hf_funs B acc)) -> all no_fun b).
Proof.
  apply exp_fundefs_ind.
  - intros x t ys e IH. exact IH.
  - intros x l F acc H. cbn [Hoist_Proofs.hf]. induction F as [|[c e] l1 H1 F IH]; [exact H|]. cbn [fold_right snd] in *. apply H1. exact IH.
  - intros x t n y e IH. exact IH.
  - intros x f t ys e IH. exact IH.
  - intros B e IHB IH acc H. exact (IHB _ (IH _ H)).
  - intros f t ys acc H. exact H.
  - intros x p e IH. exact IH.
  - intros x p ys e IH. exact IH.
  - intros x acc H. exact H.
  - intros g t xs e B IH IHB acc H f0 t0 xs0 b0.
    change (In (f0, t0, xs0, b0) (flist (Fcons g t xs (strip e) (Hoist_Proofs.hf e (Hoist_Proofs.hf_funs B acc)))) -> all no_fun b0).
    intros [E|K]; [injection E as <- <- <- <-; apply strip_no_fun|]. revert K. apply IH. apply IHB. exact H.
  - intros acc H. exact H.
Qed.
Lemma hoist_flat e : flat (fst (Hoist_Model.exp_hoist e)).
Proof.
  rewrite Hoist_Proofs.exp_hoist_direct. cbn [fst].
  assert (H : forall f t xs b, In (f, t, xs, b) (flist (Hoist_Proofs.hoisted e)) -> all no_fun b) by (apply hf_no_fun; intros ? ? ? ? []).
  destruct (Hoist_Proofs.hoisted e) as [f t xs b B|].
  - split; [exact H|apply strip_no_fun].
  - pose proof (strip_no_fun e) as K. unfold flat. destruct (strip e); auto. apply all_Efun in K. destruct K as [K1 K2].
    split; [|auto]. intros. eapply K1; eauto.
Qed.
Lemma hoist_returns e : returns e -> returns (fst (Hoist_Model.exp_hoist e)).
Proof.
  intro A. rewrite Hoist_Proofs.exp_hoist_direct. cbn [fst].
  assert (H : forall e, returns e -> returns (strip e)).
  { clear. apply (exp_ind2 (fun e => returns e -> returns (strip e)) (fun _ => True)); try (intros; exact I); cbn [strip]; try (intros; cbn [returns] in *; auto; fail).
    intros x l F. rewrite !returns_Ecase. induction F as [|[c e] l H F IH]; [constructor|]. intro A. inversion A; subst. cbn [List.map fst snd] in *. constructor; auto. }
  destruct (Hoist_Proofs.hoisted e); cbn [returns]; auto.
Qed.

(** ** Dead-parameter elimination *)
Section Elim.
  Variables (fmap : DPE_Model.ftagMap) (L : DPE_Model.live_fun).
  Lemma elim_all S : blind S -> forall e, all S e -> all S (DPE_Model.eliminate_expr fmap L e).
  Proof.
    intros [B1 B2]. apply (exp_ind2 (fun e => all S e -> all S (DPE_Model.eliminate_expr fmap L e)) (fun _ => True)); try (intros; exact I); cbn [DPE_Model.eliminate_expr].
    - intros x t ys e IH A. cbn [all] in *. intuition.
    - intros x l F A. rewrite all_Ecase in *. induction F as [|[c e] l H F IH]; [constructor|].
      rewrite all_cases_cons in A. cbn [List.map fst snd]. rewrite all_cases_cons. cbn [snd] in H. intuition.
    - intros x t n y e IH A. cbn [all] in *. auto.
    - intros x f t ys e IH A. destruct (DPE_Model.get_fun_vars L f); cbn [all] in *; intuition.
    - intros B e _ IH A. exact A.
    - intros f t ys A. destruct (DPE_Model.get_fun_vars L f); cbn [all] in *; auto.
    - intros x p e IH A. cbn [all] in *. intuition.
    - intros x p ys e IH A. cbn [all] in *. intuition.
  Qed.
  Lemma elim_no_fun : forall e, all no_fun e -> all no_fun (DPE_Model.eliminate_expr fmap L e).
  Proof.
    apply (exp_ind2 (fun e => all no_fun e -> all no_fun (DPE_Model.eliminate_expr fmap L e)) (fun _ => True)); try (intros; exact I); cbn [DPE_Model.eliminate_expr].
    - intros x t ys e IH A. cbn [all] in *. intuition.
    - intros x l F A. rewrite all_Ecase in *. induction F as [|[c e] l H F IH]; [constructor|].
      rewrite all_cases_cons in A. cbn [List.map fst snd]. rewrite all_cases_cons. cbn [snd] in H. intuition.
    - intros x t n y e IH A. cbn [all] in *. auto.
    - intros x f t ys e IH A. destruct (DPE_Model.get_fun_vars L f); cbn [all no_fun] in *; intuition.
    - intros B e _ IH A. exact A.
    - intros f t ys A. destruct (DPE_Model.get_fun_vars L f); exact I.
    - intros x p e IH A. cbn [all] in *. intuition.
    - intros x p ys e IH A. cbn [all] in *. intuition.
  Qed.
  Lemma elim_returns : forall e, returns e -> returns (DPE_Model.eliminate_expr fmap L e).
  Proof.
    apply (exp_ind2 (fun e => returns e -> returns (DPE_Model.eliminate_expr fmap L e)) (fun _ => True)); try (intros; exact I); cbn [DPE_Model.eliminate_expr];
      try (intros; cbn [returns] in *; auto; fail).
    - intros x l F A. rewrite returns_Ecase in *. induction F as [|[c e] l H F IH]; [constructor|]. inversion A; subst. cbn [List.map fst snd] in *. constructor; auto.
    - intros x f t ys e IH A. destruct (DPE_Model.get_fun_vars L f); cbn [returns] in *; auto.
    - intros f t ys [].
  Qed.
  Lemma elim_funs (P : exp -> Prop) : (forall e, P e -> P (DPE_Model.eliminate_expr fmap L e)) -> forall B, (forall f t xs b, In (f, t, xs, b) (flist B) -> P b) ->
    forall f t xs b, In (f, t, xs, b) (flist (DPE_Model.eliminate_fundefs fmap L B)) -> P b.
  Proof.
    intros HP. induction B as [g t0 ys e B IH|]; intros HB f t xs b K; cbn [DPE_Model.eliminate_fundefs] in K; [|destruct K].
    destruct (DPE_Model.get_fun_vars L g); (destruct K as [E|K]; [injection E as <- <- <- <-; apply HP; eapply HB; left; reflexivity|]);
      (eapply IH; [|exact K]; intros; eapply HB; right; eauto).
  Qed.
End Elim.

Lemma dpe_all S e s e' s' : blind S -> DPE_Model.DPE e s = (e', s') -> all S e -> all S e'.
Proof.
  intros BL H A. unfold DPE_Model.DPE in H. destruct (DPE_Model.is_hoisted e); [|injection H as <- _; exact A].
  destruct e; try (injection H as <- _; exact A). destruct (DPE_Model.create_fun_tag _ _ _ _ _) as [fmap c1]. injection H as <- _.
  apply all_Efun in A. destruct A as [A1 A2]. apply all_Efun. split; [|apply elim_all; auto]. intros f0 t xs b K. split; [apply BL|].
  eapply (elim_funs _ _ (all S)); [apply elim_all; auto| |exact K]. intros. eapply A1; eauto.
Qed.
Lemma dpe_flat e s e' s' : DPE_Model.DPE e s = (e', s') -> flat e -> flat e'.
Proof.
  intros H A. unfold DPE_Model.DPE in H. destruct (DPE_Model.is_hoisted e); [|injection H as <- _; exact A].
  destruct e; try (injection H as <- _; exact A). destruct (DPE_Model.create_fun_tag _ _ _ _ _) as [fmap c1]. injection H as <- _.
  destruct A as [A1 A2]. split; [|apply elim_no_fun; auto]. eapply (elim_funs _ _ (all no_fun)); [apply elim_no_fun|exact A1].
Qed.
Lemma dpe_returns e s e' s' : DPE_Model.DPE e s = (e', s') -> returns e -> returns e'.
Proof.
  intros H A. unfold DPE_Model.DPE in H. destruct (DPE_Model.is_hoisted e); [|injection H as <- _; exact A].
  destruct e; try (injection H as <- _; exact A). destruct (DPE_Model.create_fun_tag _ _ _ _ _) as [fmap c1]. injection H as <- _.
  cbn [returns] in *. apply elim_returns. exact A.
Qed.
