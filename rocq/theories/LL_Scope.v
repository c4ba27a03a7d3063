(* Lambda lifting: binders and tables. *)
From Coq Require Import List Arith NArith PArith Bool Lia.
From Verif Require Import ANF_Syntax ANF_Eval ANF_Spec ANF_Scope ANF_EvalProofs ANF_FreeProofs Comp_Model CC_Model CC_Spec CC_Proofs CC_Scope UC_Model LL_Model LL_Spec LL_Proofs LL_Sim LL_Top.
Import ListNotations.
Notation nv := lv_var.

(* 1 when [z] is one of the names taken between two states *)
Definition inr (z : positive) (a b : positive) : nat := if ((a <=? z) && (z <? b))%positive then 1 else 0.
Lemma inr_cases z a b : ((a <= z < b)%positive /\ inr z a b = 1) \/ (((z < a) \/ (b <= z))%positive /\ inr z a b = 0).
Proof. unfold inr. destruct (Pos.leb_spec a z); destruct (Pos.ltb_spec z b); cbn [andb]; [left|right|right|right]; split; auto; lia. Qed.
Lemma inr_split z a b c : (a <= b)%positive -> (b <= c)%positive -> inr z a c = inr z a b + inr z b c.
Proof. intros. destruct (inr_cases z a b), (inr_cases z b c), (inr_cases z a c); lia. Qed.
Lemma cnt_In z l : (0 < cnt z l) <-> In z l.
Proof. unfold cnt. symmetry. apply count_occ_In. Qed.
Lemma cnt_NoDup l : (forall z, cnt z l <= 1) <-> NoDup l.
Proof. symmetry. apply NoDup_count_occ. Qed.
Lemma cnt_new z l a b : NoDup l -> (forall y, In y l -> (a <= y < b)%positive) -> cnt z l <= inr z a b.
Proof.
  intros N R. pose proof (proj2 (cnt_NoDup l) N z) as C. destruct (inr_cases z a b) as [[_ ->]|[L ->]]; [exact C|].
  destruct (cnt z l) as [|k] eqn:E; [lia|]. exfalso. assert (I : In z l) by (apply cnt_In; lia). apply R in I. lia.
Qed.

(* the new names of the functions of a bundle *)
Fixpoint newnames (fm : FunInfoMap) (B : fundefs) : list var :=
  match B with
  | Fcons f _ _ _ B => match lifted fm f with Some (f', _, _) => f' :: newnames fm B | None => newnames fm B end
  | Fnil => []
  end.
Lemma newnames_ext fm fm' : forall B, (forall x, In x (fnames B) -> lifted fm' x = lifted fm x) -> newnames fm' B = newnames fm B.
Proof.
  induction B as [f t xs e B IH|]; intro H; [|reflexivity]. cbn [newnames]. rewrite (H f ltac:(left; reflexivity)).
  rewrite IH by (intros x I; apply H; right; exact I). reflexivity.
Qed.
Lemma add_functions_new fvs sfvs args z : forall B m g s m' g' s', add_functions B fvs sfvs args m g s = (m', g', s') -> NoDup (fnames B) ->
  (nv s <= nv s')%positive /\ cnt z (newnames m' B) <= inr z (nv s) (nv s').
Proof.
  induction B as [f t xs e B IH|]; intros m g s m' g' s' H N; cbn [add_functions] in H.
  2: { apply pair3 in H as (<- & <- & <-). cbn. lia. }
  destruct (add_functions B fvs sfvs args m g s) as [[m1 g1] s1] eqn:E1. cbn [fnames] in N. inversion N as [|? ? NI N']; subst.
  destruct (IH _ _ _ _ _ _ E1 N') as [I1 I2].
  assert (X : forall i, newnames (set f i m1) B = newnames m1 B).
  { intro i. apply newnames_ext. intros x I. unfold lifted. rewrite get_set_other; [reflexivity|]. intros ->. contradiction. }
  destruct (Nat.eqb (length fvs) (length args)).
  - destruct (new_name s1) as [f' s2] eqn:E2. destruct (new_tag _ s2) as [ft' s3] eqn:E3. apply pair3 in H as (<- & _ & <-).
    apply new_name_inv in E2 as (-> & E2 & _). apply new_tag_nv in E3. split; [lia|]. cbn [newnames]. unfold lifted at 1. rewrite get_set_same, X, cnt_cons.
    rewrite (inr_split z (nv s) (nv s1) (nv s3)) by lia. destruct (inr_cases z (nv s1) (nv s3)) as [[A ->]|[A ->]]; destruct (Pos.eq_dec (nv s1) z); lia.
  - apply pair3 in H as (<- & _ & <-). split; [exact I1|]. cbn [newnames]. unfold lifted at 1. rewrite get_set_same, X. exact I2.
Qed.
Lemma make_wrappers_new fvm fm z : forall B s ob fvm' s', make_wrappers B fvm fm s = Some (ob, fvm', s') ->
  (nv s <= nv s')%positive /\ match ob with Some Bw => cnt z (bv_funs Bw) <= inr z (nv s) (nv s') | None => True end.
Proof.
  induction B as [f t xs e B IH|]; intros s ob fvm' s' H; cbn [make_wrappers] in H.
  2: { apply some3 in H as (<- & _ & <-). cbn. lia. }
  destruct (get f fm) as [[f' ft' fvs sfvs args|? ?]|]; [|apply some3 in H as (<- & _ & <-); split; [lia|exact I]|discriminate].
  destruct (new_name s) as [g s1] eqn:E1. destruct (new_names xs s1) as [xs' s2] eqn:E2.
  destruct (make_wrappers B fvm fm s2) as [[[ob1 fvm1] s3]|] eqn:E3; [|discriminate]. apply some3 in H as (<- & _ & <-).
  apply new_name_inv in E1 as (-> & E1 & _). apply new_names_spec in E2 as (_ & N2 & R2 & L2). apply IH in E3 as [L3 C3].
  split; [lia|]. cbn [bv_funs bv]. rewrite !cnt_cons, !cnt_app.
  pose proof (cnt_new z xs' _ _ N2 R2) as C2.
  assert (C3' : cnt z (bv_funs (match ob1 with Some Bw => Bw | None => Fnil end)) <= inr z (nv s2) (nv s3)) by (destruct ob1; [exact C3|cbn; lia]).
  rewrite (inr_split z (nv s) (nv s1) (nv s3)), (inr_split z (nv s1) (nv s2) (nv s3)) by lia.
  assert (C1 : (if Pos.eq_dec (nv s) z then 1 else 0) <= inr z (nv s) (nv s1)) by (destruct (inr_cases z (nv s) (nv s1)) as [[A ->]|[A ->]]; destruct (Pos.eq_dec (nv s) z); lia).
  cbn [cnt count_occ] in *. change (cnt z []) with 0. lia.
Qed.

Section Binders.
  Variables max_args max_push : nat.
  Variable lift_dec : list var -> list var -> bool.
  Notation ll := (exp_lambda_lift max_args max_push lift_dec).
  Notation llf := (fundefs_lambda_lift max_args max_push lift_dec).

  Lemma ll_binders z :
    (forall e sc fvm fm g s e1 s1, ll e sc fvm fm g s = Some (e1, s1) -> NoDup (bv e) -> cnt z (bv e1) <= cnt z (bv e) + inr z (nv s) (nv s1)) /\
    (forall B B0 nm fvm fm g s B1 s1, llf B B0 nm fvm fm g s = Some (B1, s1) -> NoDup (bv_funs B) ->
       cnt z (bv_funs B1) <= cnt z (bv_funs B) + cnt z (newnames fm B) + inr z (nv s) (nv s1)).
  Proof.
    apply exp_fundefs_ind.
    - intros x t ys e IH sc fvm fm g s e1 s1 H N. apply ll_constr in H as (e' & H & ->). cbn [bv] in *. inversion N; subst. rewrite !cnt_cons.
      specialize (IH _ _ _ _ _ _ _ H ltac:(assumption)). lia.
    - intros x l IH sc fvm fm g s e1 s1 H N. apply ll_case_inv in H as (l' & H & ->). cbn [bv] in *. revert s l' H N.
      induction IH as [|[t a] l IH1 _ IH2]; intros s l' H N.
      + cbn [ll_pats] in H. apply some2 in H as [<- _]. cbn. lia.
      + apply pats_cons in H as (e2 & s2 & l2 & A & B & ->). cbn [flat_map snd] in *. rewrite !cnt_app.
        pose proof (IH1 _ _ _ _ _ _ _ A (NoDup_app_l _ _ _ N)). pose proof (IH2 _ _ B (NoDup_app_r _ _ _ N)).
        apply (proj1 (ll_le _ _ _)) in A. apply pats_le in B. rewrite (inr_split z (nv s) (nv s2) (nv s1)) by lia. lia.
    - intros x t n y e IH sc fvm fm g s e1 s1 H N. apply ll_proj in H as (e' & H & ->). cbn [bv] in *. inversion N; subst. rewrite !cnt_cons.
      specialize (IH _ _ _ _ _ _ _ H ltac:(assumption)). lia.
    - intros x f t ys e IH sc fvm fm g s e1 s1 H N. apply ll_letapp in H as (e' & h & t' & zs & H & -> & _). cbn [bv] in *. inversion N; subst. rewrite !cnt_cons.
      specialize (IH _ _ _ _ _ _ _ H ltac:(assumption)). lia.
    - intros B e IHB IH sc fvm fm g s e1 s1 H N.
      apply ll_fun in H as (sfvs & fvs & lfvs & fm' & g' & sa & B' & sb & ob & fvm' & sd & e' & ES & EF & EL & C1 & C2 & C3 & C4 & ->).
      cbn [bv] in N. pose proof (NoDup_app_l _ _ _ N) as NB. pose proof (NoDup_app_r _ _ _ N) as NE.
      destruct (add_functions_new _ _ _ z _ _ _ _ _ _ _ C1 (NoDup_fnames _ NB)) as [L1 K1].
      pose proof (IHB _ _ _ _ _ _ _ _ C2 NB) as K2. pose proof (proj2 (ll_le _ _ _) _ _ _ _ _ _ _ _ _ C2) as L2.
      destruct (make_wrappers_new _ _ z _ _ _ _ _ C3) as [L3 K3].
      pose proof (IH _ _ _ _ _ _ _ C4 NE) as K4. pose proof (proj1 (ll_le _ _ _) _ _ _ _ _ _ _ _ C4) as L4.
      rewrite (inr_split z (nv s) (nv sa) (nv s1)), (inr_split z (nv sa) (nv sb) (nv s1)), (inr_split z (nv sb) (nv sd) (nv s1)) by lia.
      destruct ob as [Bw|]; cbn [bv]; rewrite !cnt_app; lia.
    - intros f t ys sc fvm fm g s e1 s1 H N. apply ll_app in H as (h & t' & zs & -> & -> & _). cbn. lia.
    - intros x p e IH sc fvm fm g s e1 s1 H N. apply ll_prim_val in H as (e' & H & ->). cbn [bv] in *. inversion N; subst. rewrite !cnt_cons.
      specialize (IH _ _ _ _ _ _ _ H ltac:(assumption)). lia.
    - intros x p ys e IH sc fvm fm g s e1 s1 H N. apply ll_prim in H as (e' & H & ->). cbn [bv] in *. inversion N; subst. rewrite !cnt_cons.
      specialize (IH _ _ _ _ _ _ _ H ltac:(assumption)). lia.
    - intros x sc fvm fm g s e1 s1 H N. apply ll_halt in H as [-> ->]. cbn. lia.
    - intros f t xs e B IH IHB B0 nm fvm fm g s B1 s1 H N. cbn [bv_funs] in N.
      assert (NE : NoDup (bv e) /\ NoDup (bv_funs B)).
      { apply NoDup_cons_iff in N as [_ N]. apply NoDup_app_r in N. split; [exact (NoDup_app_l _ _ _ N)|exact (NoDup_app_r _ _ _ N)]. }
      destruct NE as [NE NB].
      apply llf_cons in H as [(f' & ft' & fvs & sfvs & args & ys & fvm1 & sa & Bw & fvm2 & sb & e' & sc & B' & G & H1 & H2 & H3 & H4 & ->)|
        (fvs & sfvs & e' & sa & B' & G & H1 & H2 & ->)].
      + apply add_free_vars_spec in H1 as (_ & Q1 & Q2 & Q3 & _). pose proof (cnt_new z ys _ _ Q1 Q2) as K1.
        destruct (make_wrappers_new _ _ z _ _ _ _ _ H2) as [L2 K2].
        pose proof (IH _ _ _ _ _ _ _ H3 NE) as K3. pose proof (proj1 (ll_le _ _ _) _ _ _ _ _ _ _ _ H3) as L3.
        pose proof (IHB _ _ _ _ _ _ _ _ H4 NB) as K4. pose proof (proj2 (ll_le _ _ _) _ _ _ _ _ _ _ _ _ H4) as L4.
        rewrite (inr_split z (nv s) (nv sa) (nv s1)), (inr_split z (nv sa) (nv sb) (nv s1)), (inr_split z (nv sb) (nv sc) (nv s1)) by lia.
        cbn [bv_funs bv newnames]. rewrite (lifted_get _ _ _ _ _ _ _ G). rewrite !cnt_cons, !cnt_app. lia.
      + pose proof (IH _ _ _ _ _ _ _ H1 NE) as K3. pose proof (proj1 (ll_le _ _ _) _ _ _ _ _ _ _ _ H1) as L3.
        pose proof (IHB _ _ _ _ _ _ _ _ H2 NB) as K4. pose proof (proj2 (ll_le _ _ _) _ _ _ _ _ _ _ _ _ H2) as L4.
        rewrite (inr_split z (nv s) (nv sa) (nv s1)) by lia. cbn [bv_funs newnames]. unfold lifted. rewrite G. rewrite !cnt_cons, !cnt_app. lia.
    - intros B0 nm fvm fm g s B1 s1 H N. apply llf_nil in H as [-> ->]. cbn. lia.
  Qed.
End Binders.
