(** * Closure conversion: constructors, literals and tables *)
From Coq Require Import ZArith NArith PArith List Lia Bool Arith.
From Verif Require Import ANF_Syntax ANF_Scope ANF_Spec ANF_EvalProofs CC_Spec CC_Model CC_Proofs CC_Top Pipe_Shapes WA_Spec.
Import ListNotations.
Local Open Scope nat_scope.

Lemma some1 {A} (a b : A) : Some a = Some b -> a = b.
Proof. intro H. injection H. auto. Qed.

(** constructors as in the table; literals and primitives as in [V] and [P];
    calls that are not tail calls only if [L] *)
Definition shape_ok (T : ctor_env) (V : primitive_value -> Prop) (P : prim -> nat -> Prop) (L : Prop) (s : shape) : Prop :=
  match s with
  | SConstr t n => exists i, get t T = Some i /\ ctor_arity i = N.of_nat n
  | SBranch t => exists i, get t T = Some i
  | SVal p => V p
  | SPrim p n => P p n
  | SCall _ _ | SFun _ _ => True
  | SLet => L
  end.
Lemma shape_blind T V P L : blind (shape_ok T V P L).
Proof. split; intros; exact I. Qed.
Lemma shape_extends T T' V P L s : extends T T' -> shape_ok T V P L s -> shape_ok T' V P L s.
Proof. intros E. destruct s; cbn; auto. - intros (i & A & B). exists i. auto. - intros (i & A). exists i. auto. Qed.

Section Conv.
  Variable clo_tag : ctor_tag.
  Notation gvar := (get_var clo_tag).
  Notation gvars := (get_vars clo_tag).
  Notation conv := (exp_closure_conv clo_tag).
  Notation convf := (fundefs_closure_conv clo_tag).
  Variables (T : ctor_env) (V : primitive_value -> Prop) (PP : prim -> nat -> Prop) (LL : Prop).
  Hypothesis TC : exists i, get clo_tag T = Some i /\ ctor_arity i = 2%N.
  Notation S := (shape_ok T V PP LL).
  Notation gvar_tle := (CC_Top.gvar_tle clo_tag).
  Notation gvars_tle := (CC_Top.gvars_tle clo_tag).
  Notation gvars_length := (CC_Top.gvars_length clo_tag).
  Notation conv_tle := (CC_Top.conv_tle clo_tag).
  Notation pats_tle := (CC_Top.pats_tle clo_tag).

  Lemma gvar_all x map g c G s y f s' : gvar x map g c G s = (y, f, s') -> extends (tbl s') T -> forall e, all S e -> all S (f e).
  Proof.
    intros H E e A. unfold get_var in H. destruct (get x map) as [[k|env|]|]; [| | |destruct (get x g) as [[]|]].
    - destruct (new_var s) as [y0 s0] eqn:EN. apply pair3 in H as (-> & <- & ->). exact A.
    - destruct (new_var s) as [y0 s0] eqn:EN. apply pair3 in H as (-> & <- & ->). cbn [all shape_ok]. split; [exact TC|exact A].
    - apply pair3 in H as (-> & <- & ->). exact A.
    - destruct (new_record 0 s) as [ce sa] eqn:ER. destruct (new_var sa) as [y0 sb] eqn:EN1. destruct (new_var sb) as [ge sc] eqn:EN2.
      apply pair3 in H as (-> & <- & ->). apply new_record_tle in ER as [_ ER]. apply pair2 in EN1 as [<- <-]. apply pair2 in EN2 as [<- <-].
      cbn [tbl] in E. cbn [all shape_ok]. split; [|split; [exact TC|exact A]]. exists {| ctor_ind_tag := nit s; ctor_arity := 0; ctor_ordinal := 0 |}. split; [|reflexivity]. apply E. exact ER.
    - apply pair3 in H as (-> & <- & ->). exact A.
  Qed.
  Lemma gvars_all map g c G xs : forall s ys f s', gvars xs map g c G s = (ys, f, s') -> tags_below (nct s) (tbl s) -> extends (tbl s') T ->
    forall e, all S e -> all S (f e).
  Proof.
    induction xs as [|x xs IH]; intros s ys f s' H B E e A.
    - cbn [get_vars] in H. apply pair3 in H as (<- & <- & <-). exact A.
    - apply gvars_cons in H as (y & f1 & s1 & ys' & f2 & E1 & E2 & -> & ->).
      pose proof (gvar_tle _ _ _ _ _ _ _ _ _ E1) as [_ T1]. destruct (T1 B) as [B1 X1].
      pose proof (gvars_tle _ _ _ _ _ _ _ _ _ E2) as [_ T2]. destruct (T2 B1) as [B2 X2].
      eapply gvar_all; [exact E1|intros t i Q; auto|]. eapply IH; eauto.
  Qed.

  Lemma conv_all :
    (forall e map g c G s e1 f1 s1, conv e map g c G s = (e1, f1, s1) -> tags_below (nct s) (tbl s) -> extends (tbl s1) T ->
       all S e -> all S (f1 e1)) /\
    (forall B B0 map g c s B1 s1, convf B0 B map g c s = (B1, s1) -> tags_below (nct s) (tbl s) -> extends (tbl s1) T ->
       all_funs S B -> all_funs S B1).
  Proof.
    apply exp_fundefs_ind.
    - intros x t ys e IH map g c G s e1 f1 s1 H B E A. apply conv_constr in H as (ys' & s' & e2 & f2 & H1 & H2 & ->).
      destruct (proj2 (gvars_tle _ _ _ _ _ _ _ _ _ H1) B) as [B1 X1]. destruct (proj2 (proj1 conv_tle _ _ _ _ _ _ _ _ _ H2) B1) as [B2 X2].
      eapply gvars_all; [exact H1|exact B|eapply ext_trans; eauto|]. cbn [all shape_ok] in *.
      rewrite (gvars_length _ _ _ _ _ _ _ _ _ H1).
      destruct A as [A1 A2]. split; [exact A1|eauto].
    - intros x l IH map g c G s e1 f1 s1 H B E A. apply conv_case_inv in H as (l' & s' & x' & H1 & H2 & ->).
      destruct (proj2 (pats_tle _ _ _ _ _ _ _ _ H1) B) as [B1 X1]. destruct (proj2 (gvar_tle _ _ _ _ _ _ _ _ _ H2) B1) as [B2 X2].
      eapply gvar_all; [exact H2|exact E|]. assert (E1 : extends (tbl s') T) by (eapply ext_trans; eauto). clear H2 B2 X2 B1 X1 E.
      cbn [all shape_ok] in *. revert s l' H1 B A. induction IH as [|[t a] l IH1 _ IH2]; intros s l' H1 B A.
      + apply pair2 in H1 as [<- _]. exact I.
      + apply pats_cons in H1 as (e2 & f2 & s2 & l2 & P & Q & ->). cbn [fst snd] in *. destruct A as [[A1 A2] A3].
        destruct (proj2 (proj1 conv_tle _ _ _ _ _ _ _ _ _ P) B) as [B1 X1]. destruct (proj2 (pats_tle _ _ _ _ _ _ _ _ Q) B1) as [B2 X2].
        split; [split; [exact A1|]|eapply IH2; eauto]. eapply IH1; [exact P|exact B|eapply ext_trans; eauto|exact A2].
    - intros x t n y e IH map g c G s e1 f1 s1 H B E A. apply conv_proj in H as (y' & s' & e2 & f2 & H1 & H2 & ->).
      destruct (proj2 (gvar_tle _ _ _ _ _ _ _ _ _ H1) B) as [B1 X1]. destruct (proj2 (proj1 conv_tle _ _ _ _ _ _ _ _ _ H2) B1) as [B2 X2].
      eapply gvar_all; [exact H1|eapply ext_trans; eauto|]. cbn [all shape_ok] in *. eauto.
    - intros x f t ys e IH map g c G s e1 f1 s1 H B E A.
      apply conv_letapp in H as (f' & g1 & sa & ys' & g2 & sb & ptr & sc & G' & sd & e2 & f2 & H1 & H2 & H3 & H4 & H5 & -> & ->).
      destruct (proj2 (gvar_tle _ _ _ _ _ _ _ _ _ H1) B) as [B1 X1]. destruct (proj2 (gvars_tle _ _ _ _ _ _ _ _ _ H2) B1) as [B2 X2].
      destruct (proj2 (new_var_tle _ _ _ H3) B2) as [B3 X3]. destruct (proj2 (new_var_tle _ _ _ H4) B3) as [B4 X4].
      destruct (proj2 (proj1 conv_tle _ _ _ _ _ _ _ _ _ H5) B4) as [B5 X5].
      assert (E4 : extends (tbl sd) T) by (eapply ext_trans; eauto). assert (E3 : extends (tbl sc) T) by (eapply ext_trans; eauto).
      assert (E2 : extends (tbl sb) T) by (eapply ext_trans; eauto). assert (E1 : extends (tbl sa) T) by (eapply ext_trans; eauto).
      eapply gvar_all; [exact H1|exact E1|]. eapply gvars_all; [exact H2|exact B1|exact E2|]. cbn [all shape_ok] in *. destruct A as [[_ SL] A]. split; [split; [exact I|exact SL]|eauto].
    - intros B e IHB IH map g c G s e1 f1 s1 H Bl E A.
      apply conv_fun in H as (G' & sa & ys' & g' & sb & c' & sc & B' & sd & e2 & f2 & H1 & H2 & H3 & H4 & H5 & -> & ->).
      destruct (proj2 (new_var_tle _ _ _ H1) Bl) as [B1 X1]. destruct (proj2 (gvars_tle _ _ _ _ _ _ _ _ _ H2) B1) as [B2 X2].
      destruct (new_record_tle _ _ _ _ H3) as [T3 R3]. destruct (proj2 T3 B2) as [B3 X3].
      destruct (proj2 (proj2 conv_tle _ _ _ _ _ _ _ _ H4) B3) as [B4 X4]. destruct (proj2 (proj1 conv_tle _ _ _ _ _ _ _ _ _ H5) B4) as [B5 X5].
      assert (E4 : extends (tbl sd) T) by (eapply ext_trans; eauto). assert (E3 : extends (tbl sc) T) by (eapply ext_trans; eauto).
      assert (E2 : extends (tbl sb) T) by (eapply ext_trans; eauto).
      eapply gvars_all; [exact H2|exact B1|exact E2|]. rewrite all_Efun0 in A. destruct A as [A1 A2]. split; [|apply all_Efun0; split; eauto].
      eexists. split; [apply E3; exact R3|]. cbn [ctor_arity]. rewrite (gvars_length _ _ _ _ _ _ _ _ _ H2). reflexivity.
    - intros f t ys map g c G s e1 f1 s1 H B E A.
      apply conv_app in H as (f' & g1 & sa & ys' & g2 & sb & ptr & sc & G' & H1 & H2 & H3 & H4 & -> & ->).
      destruct (proj2 (gvar_tle _ _ _ _ _ _ _ _ _ H1) B) as [B1 X1]. destruct (proj2 (gvars_tle _ _ _ _ _ _ _ _ _ H2) B1) as [B2 X2].
      destruct (proj2 (new_var_tle _ _ _ H3) B2) as [B3 X3]. destruct (proj2 (new_var_tle _ _ _ H4) B3) as [B4 X4].
      assert (E3 : extends (tbl sc) T) by (eapply ext_trans; eauto).
      assert (E2 : extends (tbl sb) T) by (eapply ext_trans; eauto). assert (E1 : extends (tbl sa) T) by (eapply ext_trans; eauto).
      eapply gvar_all; [exact H1|exact E1|]. eapply gvars_all; [exact H2|exact B1|exact E2|]. exact I.
    - intros x p e IH map g c G s e1 f1 s1 H B E A. apply conv_prim_val in H as (e2 & f2 & H1 & -> & ->). cbn [all shape_ok] in *. destruct A as [A1 A2]. split; [exact A1|eauto].
    - intros x p ys e IH map g c G s e1 f1 s1 H B E A. apply conv_prim in H as (ys' & s' & e2 & f2 & H1 & H2 & ->).
      destruct (proj2 (gvars_tle _ _ _ _ _ _ _ _ _ H1) B) as [B1 X1]. destruct (proj2 (proj1 conv_tle _ _ _ _ _ _ _ _ _ H2) B1) as [B2 X2].
      eapply gvars_all; [exact H1|exact B|eapply ext_trans; eauto|]. cbn [all shape_ok] in *. rewrite (gvars_length _ _ _ _ _ _ _ _ _ H1).
      destruct A as [A1 A2]. split; [exact A1|eauto].
    - intros x map g c G s e1 f1 s1 H B E A. apply conv_halt in H as (x' & H1 & ->). eapply gvar_all; [exact H1|exact E|]. exact I.
    - intros f t ys e B IH IHB B0 map g c s B1 s1 H Bl E A.
      apply convf_cons in H as (G & sa & e1 & f1 & sb & B' & H1 & H2 & H3 & ->).
      destruct (proj2 (new_var_tle _ _ _ H1) Bl) as [Ba X1]. destruct (proj2 (proj1 conv_tle _ _ _ _ _ _ _ _ _ H2) Ba) as [Bb X2].
      destruct (proj2 (proj2 conv_tle _ _ _ _ _ _ _ _ H3) Bb) as [Bc X3]. rewrite all_Fcons in *. destruct A as (A0 & A1 & A2).
      split; [exact I|]. split; [|eauto]. eapply IH; [exact H2|exact Ba|eapply ext_trans; eauto|exact A1].
    - intros B0 map g c s B1 s1 H _ _ _. cbn [fundefs_closure_conv] in H. apply pair2 in H as [<- <-]. exact I.
  Qed.

  Lemma gvar_returns x map g c G s y f s' : gvar x map g c G s = (y, f, s') -> forall e, returns e -> returns (f e).
  Proof.
    intros H e A. unfold get_var in H. destruct (get x map) as [[k|env|]|]; [| | |destruct (get x g) as [[]|]].
    - destruct (new_var s) as [y0 s0] eqn:EN. apply pair3 in H as (-> & <- & ->). exact A.
    - destruct (new_var s) as [y0 s0] eqn:EN. apply pair3 in H as (-> & <- & ->). exact A.
    - apply pair3 in H as (-> & <- & ->). exact A.
    - destruct (new_record 0 s) as [ce sa] eqn:ER. destruct (new_var sa) as [y0 sb] eqn:EN1. destruct (new_var sb) as [ge sc] eqn:EN2.
      apply pair3 in H as (-> & <- & ->). exact A.
    - apply pair3 in H as (-> & <- & ->). exact A.
  Qed.
  Lemma gvars_returns map g c G xs : forall s ys f s', gvars xs map g c G s = (ys, f, s') -> forall e, returns e -> returns (f e).
  Proof.
    induction xs as [|x xs IH]; intros s ys f s' H e A.
    - cbn [get_vars] in H. apply pair3 in H as (<- & <- & <-). exact A.
    - apply gvars_cons in H as (y & f1 & s1 & ys' & f2 & E1 & E2 & -> & ->). eapply gvar_returns; eauto.
  Qed.
  Lemma conv_returns : forall e map g c G s e1 f1 s1, conv e map g c G s = (e1, f1, s1) -> returns e -> returns (f1 e1).
  Proof.
    apply (exp_ind2 (fun e => forall map g c G s e1 f1 s1, conv e map g c G s = (e1, f1, s1) -> returns e -> returns (f1 e1)) (fun _ => True));
      try exact I; try (intros; exact I).
    - intros x t ys e IH map g c G s e1 f1 s1 H A. apply conv_constr in H as (ys' & s' & e2 & f2 & H1 & H2 & ->).
      eapply gvars_returns; [exact H1|]. cbn [returns] in *. eauto.
    - intros x l IH map g c G s e1 f1 s1 H A. apply conv_case_inv in H as (l' & s' & x' & H1 & H2 & ->).
      eapply gvar_returns; [exact H2|]. clear H2. rewrite returns_Ecase in *. revert s l' H1 A. induction IH as [|[t a] l IH1 _ IH2]; intros s l' H1 A.
      + apply pair2 in H1 as [<- _]. constructor.
      + apply pats_cons in H1 as (e2 & f2 & s2 & l2 & P & Q & ->). inversion A; subst. cbn [snd] in *. constructor; cbn [snd]; eauto.
    - intros x t n y e IH map g c G s e1 f1 s1 H A. apply conv_proj in H as (y' & s' & e2 & f2 & H1 & H2 & ->).
      eapply gvar_returns; [exact H1|]. cbn [returns] in *. eauto.
    - intros x f t ys e IH map g c G s e1 f1 s1 H A.
      apply conv_letapp in H as (f' & g1 & sa & ys' & g2 & sb & ptr & sc & G' & sd & e2 & f2 & H1 & H2 & H3 & H4 & H5 & -> & ->).
      eapply gvar_returns; [exact H1|]. eapply gvars_returns; [exact H2|]. cbn [returns] in *. eauto.
    - intros B e IHB IH map g c G s e1 f1 s1 H A.
      apply conv_fun in H as (G' & sa & ys' & g' & sb & c' & sc & B' & sd & e2 & f2 & H1 & H2 & H3 & H4 & H5 & -> & ->).
      eapply gvars_returns; [exact H2|]. cbn [returns] in *. eauto.
    - intros f t ys map g c G s e1 f1 s1 H [].
    - intros x p e IH map g c G s e1 f1 s1 H A. apply conv_prim_val in H as (e2 & f2 & H1 & -> & ->). cbn [returns] in *. eauto.
    - intros x p ys e IH map g c G s e1 f1 s1 H A. apply conv_prim in H as (ys' & s' & e2 & f2 & H1 & H2 & ->).
      eapply gvars_returns; [exact H1|]. cbn [returns] in *. eauto.
    - intros x map g c G s e1 f1 s1 H A. apply conv_halt in H as (x' & H1 & ->). eapply gvar_returns; [exact H1|]. exact I.
  Qed.

  (** a property of states that new names and new records keep *)
  Variable Inv : cst -> Prop.
  Hypothesis IV : forall s x s', new_var s = (x, s') -> Inv s -> Inv s'.
  Hypothesis IR : forall n s x s', new_record n s = (x, s') -> Inv s -> Inv s'.

  Lemma gvar_inv x map g c G s y f s' : gvar x map g c G s = (y, f, s') -> Inv s -> Inv s'.
  Proof.
    intros H A. unfold get_var in H. destruct (get x map) as [[k|env|]|]; [| | |destruct (get x g) as [[]|]].
    - destruct (new_var s) as [y0 s0] eqn:EN. apply pair3 in H as (-> & <- & ->). eauto.
    - destruct (new_var s) as [y0 s0] eqn:EN. apply pair3 in H as (-> & <- & ->). eauto.
    - apply pair3 in H as (-> & <- & ->). exact A.
    - destruct (new_record 0 s) as [ce sa] eqn:ER. destruct (new_var sa) as [y0 sb] eqn:EN1. destruct (new_var sb) as [ge sc] eqn:EN2.
      apply pair3 in H as (-> & <- & ->). eauto.
    - apply pair3 in H as (-> & <- & ->). exact A.
  Qed.
  Lemma gvars_inv map g c G xs : forall s ys f s', gvars xs map g c G s = (ys, f, s') -> Inv s -> Inv s'.
  Proof.
    induction xs as [|x xs IH]; intros s ys f s' H A.
    - cbn [get_vars] in H. apply pair3 in H as (<- & <- & <-). exact A.
    - apply gvars_cons in H as (y & f1 & s1 & ys' & f2 & E1 & E2 & -> & ->). eapply IH; [exact E2|]. eapply gvar_inv; eauto.
  Qed.
  Lemma conv_inv :
    (forall e map g c G s e1 f1 s1, conv e map g c G s = (e1, f1, s1) -> Inv s -> Inv s1) /\
    (forall B B0 map g c s B1 s1, convf B0 B map g c s = (B1, s1) -> Inv s -> Inv s1).
  Proof.
    apply exp_fundefs_ind.
    - intros x t ys e IH map g c G s e1 f1 s1 H A. apply conv_constr in H as (ys' & s' & e2 & f2 & H1 & H2 & ->).
      eapply IH; [exact H2|]. eapply gvars_inv; eauto.
    - intros x l IH map g c G s e1 f1 s1 H A. apply conv_case_inv in H as (l' & s' & x' & H1 & H2 & ->).
      eapply gvar_inv; [exact H2|]. clear H2. revert s l' H1 A. induction IH as [|[t a] l IH1 _ IH2]; intros s l' H1 A.
      + apply pair2 in H1 as [_ <-]. exact A.
      + apply pats_cons in H1 as (e2 & f2 & s2 & l2 & P & Q & ->). cbn [snd] in *. eauto.
    - intros x t n y e IH map g c G s e1 f1 s1 H A. apply conv_proj in H as (y' & s' & e2 & f2 & H1 & H2 & ->).
      eapply IH; [exact H2|]. eapply gvar_inv; eauto.
    - intros x f t ys e IH map g c G s e1 f1 s1 H A.
      apply conv_letapp in H as (f' & g1 & sa & ys' & g2 & sb & ptr & sc & G' & sd & e2 & f2 & H1 & H2 & H3 & H4 & H5 & -> & ->).
      eapply IH; [exact H5|]. eapply IV; [exact H4|]. eapply IV; [exact H3|]. eapply gvars_inv; [exact H2|]. eapply gvar_inv; eauto.
    - intros B e IHB IH map g c G s e1 f1 s1 H A.
      apply conv_fun in H as (G' & sa & ys' & g' & sb & c' & sc & B' & sd & e2 & f2 & H1 & H2 & H3 & H4 & H5 & -> & ->).
      eapply IH; [exact H5|]. eapply IHB; [exact H4|]. eapply IR; [exact H3|]. eapply gvars_inv; [exact H2|]. eapply IV; eauto.
    - intros f t ys map g c G s e1 f1 s1 H A.
      apply conv_app in H as (f' & g1 & sa & ys' & g2 & sb & ptr & sc & G' & H1 & H2 & H3 & H4 & -> & ->).
      eapply IV; [exact H4|]. eapply IV; [exact H3|]. eapply gvars_inv; [exact H2|]. eapply gvar_inv; eauto.
    - intros x p e IH map g c G s e1 f1 s1 H A. apply conv_prim_val in H as (e2 & f2 & H1 & -> & ->). eauto.
    - intros x p ys e IH map g c G s e1 f1 s1 H A. apply conv_prim in H as (ys' & s' & e2 & f2 & H1 & H2 & ->).
      eapply IH; [exact H2|]. eapply gvars_inv; eauto.
    - intros x map g c G s e1 f1 s1 H A. apply conv_halt in H as (x' & H1 & ->). eapply gvar_inv; eauto.
    - intros f t ys e B IH IHB B0 map g c s B1 s1 H A.
      apply convf_cons in H as (G & sa & e1 & f1 & sb & B' & H1 & H2 & H3 & ->). eapply IHB; [exact H3|]. eapply IH; [exact H2|]. eapply IV; eauto.
    - intros B0 map g c s B1 s1 H A. cbn [fundefs_closure_conv] in H. apply pair2 in H as [<- <-]. exact A.
  Qed.
End Conv.

(** ** The table *)
Definition inds_below (n : positive) (cenv : ctor_env) : Prop := forall t i, get t cenv = Some i -> (ctor_ind_tag i < n)%positive.

Record fine_table (cloi : ind_tag) (ct it : positive) (cenv : ctor_env) : Prop := {
  ft_tags : tags_below ct cenv;
  ft_inds : inds_below it cenv;
  ft_ord : ordinals_ok cenv;
  ft_clo : (cloi < it)%positive /\ forall t i, get t cenv = Some i -> ctor_ind_tag i <> cloi }.

Lemma fine_record cloi n s x s' : new_record n s = (x, s') -> fine_table cloi (nct s) (nit s) (tbl s) -> fine_table cloi (nct s') (nit s') (tbl s').
Proof.
  intros H [A1 A2 A3 [A4 A5]]. apply pair2 in H as [<- <-]. cbn [nct nit tbl]. constructor.
  - intros t i. rewrite get_set. destruct (Pos.eq_dec t (nct s)) as [->|]; [lia|]. intro E. specialize (A1 t i E). lia.
  - intros t i. rewrite get_set. destruct (Pos.eq_dec t (nct s)) as [->|]; [intro E; apply some1 in E; subst i; cbn; lia|]. intro E. specialize (A2 t i E). lia.
  - intros t1 t2 i1 i2. rewrite !get_set. destruct (Pos.eq_dec t1 (nct s)) as [->|D1], (Pos.eq_dec t2 (nct s)) as [->|D2]; intros E1 E2 EI; auto.
    + apply some1 in E1. subst i1. cbn in EI. specialize (A2 _ _ E2). lia.
    + apply some1 in E2. subst i2. cbn in EI. specialize (A2 _ _ E1). lia.
    + apply (A3 t1 t2 i1 i2 E1 E2 EI).
  - split; [lia|]. intros t i. rewrite get_set. destruct (Pos.eq_dec t (nct s)) as [->|]; [intro E; apply some1 in E; subst i; cbn; lia|apply A5].
Qed.

Lemma cc_table clo cloi e s e' s' : closure_conversion_top clo cloi e s = (e', s') ->
  fine_table cloi (nct s) (nit s) (tbl s) -> ordinals_ok (tbl s').
Proof.
  intros H F. destruct (top_inv _ _ _ _ _ _ H) as (e1 & f1 & s1 & -> & -> & C).
  assert (F1 : fine_table cloi (nct s1) (nit s1) (tbl s1)).
  { refine (proj1 (conv_inv clo (fun s => fine_table cloi (nct s) (nit s) (tbl s)) _ _) _ _ _ _ _ _ _ _ _ C F).
    - intros s0 x s0' N A. apply pair2 in N as [_ <-]. exact A.
    - intros n s0 x s0' N A. eapply fine_record; eauto. }
  destruct F1 as [A1 A2 A3 [A4 A5]]. cbn [tbl]. unfold add_closure_tag. intros t1 t2 i1 i2. rewrite !get_set.
  destruct (Pos.eq_dec t1 clo) as [->|D1], (Pos.eq_dec t2 clo) as [->|D2]; intros E1 E2 EI; auto.
  - apply some1 in E1. subst i1. cbn in EI. destruct (A5 _ _ E2). auto.
  - apply some1 in E2. subst i2. cbn in EI. destruct (A5 _ _ E1). auto.
  - apply (A3 t1 t2 i1 i2 E1 E2 EI).
Qed.

Lemma cc_shapes clo cloi e s e' s' V P LL : closure_conversion_top clo cloi e s = (e', s') ->
  tags_below (nct s) (tbl s) -> (clo < nct s)%positive -> get clo (tbl s) = None ->
  all (shape_ok (tbl s) V P LL) e -> all (shape_ok (tbl s') V P LL) e'.
Proof.
  intros H TB L N A. destruct (top_tables _ _ _ _ _ _ H TB L N) as (X & _ & _ & G & _).
  destruct (top_inv _ _ _ _ _ _ H) as (e1 & f1 & s1 & E1 & E2 & C).
  destruct (proj1 (conv_tle clo) _ _ _ _ _ _ _ _ _ C) as [T1 T2]. cbn [nct tbl] in *.
  assert (A' : all (shape_ok (tbl s') V P LL) e) by (eapply (proj1 (all_imp _ _ (fun sh => shape_extends _ _ _ _ _ sh X))); exact A).
  rewrite E1. eapply (proj1 (conv_all clo (tbl s') V P LL ltac:(eexists; split; [exact G|reflexivity]))); [exact C|exact TB| |exact A'].
  rewrite E2. cbn [tbl]. intros x i E. unfold add_closure_tag. rewrite get_set. destruct (Pos.eq_dec x clo) as [->|]; [|exact E]. exfalso.
  rewrite (proj2 T1) in E by exact L. congruence.
Qed.
Lemma cc_returns clo cloi e s e' s' : closure_conversion_top clo cloi e s = (e', s') -> returns e -> returns e'.
Proof. intro H. destruct (top_inv _ _ _ _ _ _ H) as (e1 & f1 & s1 & -> & _ & C). eapply conv_returns; eauto. Qed.
