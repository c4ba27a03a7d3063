(* The shrink reducer does the same from states that differ only on names the
   program does not mention. *)
From Coq Require Import List Arith NArith PArith Bool Lia.
From Verif Require Import ANF_Syntax ANF_Subst ANF_Spec ANF_Scope Inline_Syn Shrink_Census Shrink_CensusProofs Shrink_Model Shrink_Total.
Import ListNotations.

Section Agree.
  Variable F : var -> Prop.
  Notation nF := (fun z => ~ F z).

  (* A term without [Eletapp] that mentions no name of [F]. *)
  Fixpoint off (e : exp) : Prop :=
    match e with
    | Econstr x _ ys e => ~ F x /\ Forall nF ys /\ off e
    | Ecase x cl => ~ F x /\ (fix go (cl : list (ctor_tag * exp)) : Prop := match cl with [] => True | p :: cl' => off (snd p) /\ go cl' end) cl
    | Eproj x _ _ y e => ~ F x /\ ~ F y /\ off e
    | Eletapp _ _ _ _ _ => False
    | Efun B e => off_funs B /\ off e
    | Eapp f _ ys => ~ F f /\ Forall nF ys
    | Eprim_val x _ e => ~ F x /\ off e
    | Eprim x _ ys e => ~ F x /\ Forall nF ys /\ off e
    | Ehalt x => ~ F x
    end
  with off_funs (B : fundefs) : Prop :=
    match B with
    | Fcons f _ xs e B => ~ F f /\ Forall nF xs /\ off e /\ off_funs B
    | Fnil => True
    end.

  Lemma off_case x cl : off (Ecase x cl) <-> ~ F x /\ Forall (fun p => off (snd p)) cl.
  Proof.
    cbn [off]. split; intros [A B]; split; auto.
    - induction cl as [|p cl IH]; [constructor |]. destruct B. constructor; auto.
    - induction B; cbn; auto.
  Qed.

  (* ---- agreement ---- *)
  Definition ceq (c1 c2 : c_map) : Prop := forall z, get_c z c1 = get_c z c2 /\ (F z -> get_c z c1 = 0).
  Definition seq (s1 s2 : subst) : Prop := forall z, ~ F z -> apply_r s1 z = apply_r s2 z /\ ~ F (apply_r s1 z).
  Definition ieq (i1 i2 : b_map) : Prop := forall z, ~ F z -> get_b z i1 = get_b z i2.
  Definition voff (v : option svalue) : Prop :=
    match v with Some (SVconstr _ ys) => Forall nF ys | Some (SVfun _ xs e) => Forall nF xs /\ off e | None => True end.
  Definition veq (v1 v2 : ctx_map) : Prop := forall z, ~ F z -> get z v1 = get z v2 /\ voff (get z v1).

  Lemma ceq_set x n m c1 c2 : ceq c1 c2 -> n = m -> ~ F x -> ceq (set x n c1) (set x m c2).
  Proof. intros H -> N z. rewrite !get_c_set. destruct (Pos.eq_dec z x) as [-> |]; [split; [auto | contradiction] | apply H]. Qed.
  Lemma ceq_set0 x c1 c2 : ceq c1 c2 -> ceq (set x 0 c1) (set x 0 c2).
  Proof. intros H z. rewrite !get_c_set. destruct (Pos.eq_dec z x) as [-> |]; [auto | apply H]. Qed.

  Lemma seq_list s1 s2 ys : seq s1 s2 -> Forall nF ys -> apply_r_list s1 ys = apply_r_list s2 ys /\ Forall nF (apply_r_list s1 ys).
  Proof.
    intros H. induction 1 as [|y ys N _ [IH1 IH2]]; [split; [reflexivity | constructor] |]. cbn. destruct (H y N) as [A B].
    unfold apply_r_list in IH1. rewrite A, IH1. split; [reflexivity |]. rewrite <- A. rewrite <- IH1. constructor; auto.
  Qed.

  Lemma dec_list_ceq s1 s2 ys : seq s1 s2 -> Forall nF ys -> forall c1 c2, ceq c1 c2 ->
    ceq (dec_census_list s1 ys c1) (dec_census_list s2 ys c2).
  Proof.
    intros H. unfold dec_census_list. induction 1 as [|y ys N _ IH]; intros c1 c2 C; cbn; [exact C |].
    destruct (H y N) as [A A']. rewrite A in *. apply IH. apply ceq_set; auto. rewrite (proj1 (C _)). reflexivity.
  Qed.

  Lemma dec_ceq s1 s2 : seq s1 s2 ->
    (forall e, off e -> forall c1 c2, ceq c1 c2 -> ceq (dec_census s1 e c1) (dec_census s2 e c2)) /\
    (forall B, off_funs B -> forall c1 c2, ceq c1 c2 ->
       ceq (update_census_f s1 B (fun v c => get_c v c - 1) c1) (update_census_f s2 B (fun v c => get_c v c - 1) c2)).
  Proof.
    intros H. assert (L := fun ys => dec_list_ceq s1 s2 ys H). unfold dec_census_list in L. unfold dec_census.
    apply exp_fundefs_ind; cbn [update_census update_census_f].
    - intros x t ys e IH (A & B & C) c1 c2 Q. apply IH; auto.
    - intros x cl FA O c1 c2 Q. apply off_case in O. destruct O as [A O]. revert c1 c2 Q.
      induction FA as [|[t e] cl Hp FA IH]; intros c1 c2 Q; cbn [fold_right].
      + apply (L [x]); auto.
      + inversion O; subst. apply Hp; auto.
    - intros x t n y e IH (A & B & C) c1 c2 Q. apply IH; auto; apply (L [y]); auto.
    - intros x f t ys e IH [].
    - intros B e IHB IH [A C] c1 c2 Q. apply IH; auto.
    - intros f t ys [A C] c1 c2 Q. apply (L (f :: ys)); auto.
    - intros x p e IH [A C] c1 c2 Q. apply IH; auto.
    - intros x p ys e IH (A & B & C) c1 c2 Q. apply IH; auto.
    - intros x A c1 c2 Q. apply (L [x]); auto.
    - intros f t xs e B IH IHB (A & C & D & G) c1 c2 Q. apply IHB; auto.
    - intros _ c1 c2 Q. exact Q.
  Qed.

  Lemma dec_all_ceq s1 s2 cl : seq s1 s2 -> Forall (fun p => off (snd p)) cl -> forall c1 c2, ceq c1 c2 ->
    ceq (dec_census_all_case s1 cl c1) (dec_census_all_case s2 cl c2).
  Proof.
    intros H. induction 1 as [|[t e] cl O _ IH]; intros c1 c2 Q; cbn; [exact Q |]. apply (proj1 (dec_ceq s1 s2 H)); auto.
  Qed.
  Lemma dec_case_ceq s1 s2 t cl : seq s1 s2 -> Forall (fun p => off (snd p)) cl -> forall c1 c2, ceq c1 c2 ->
    ceq (dec_census_case s1 cl t c1) (dec_census_case s2 cl t c2).
  Proof.
    intros H. induction 1 as [|[t' e] cl O FA IH]; intros c1 c2 Q; cbn; [exact Q |].
    destruct (Pos.eq_dec t' t); [apply dec_all_ceq; auto |]. apply (proj1 (dec_ceq s1 s2 H)); auto.
  Qed.

  Lemma inl_ceq : forall ys xs c1 c2, Forall nF ys -> ceq c1 c2 -> ceq (update_count_inlined ys xs c1) (update_count_inlined ys xs c2).
  Proof.
    induction ys as [|y ys IH]; intros [|x xs] c1 c2 N Q; cbn; auto. inversion N; subst. apply IH; auto. apply ceq_set; [apply ceq_set0; auto | | auto].
    rewrite (proj1 (Q y)), (proj1 (Q x)). reflexivity.
  Qed.
  Lemma proj_ceq v y n c1 c2 : ~ F y -> ~ F n -> ceq c1 c2 -> ceq (update_count_proj v y n c1) (update_count_proj v y n c2).
  Proof.
    intros Ny Nn Q. unfold update_count_proj. cbv zeta. apply ceq_set0. rewrite (proj1 (Q y)), (proj1 (Q v)), (proj1 (Q n)).
    apply ceq_set; auto. apply ceq_set; auto.
  Qed.

  Lemma seq_set s1 s2 v y : seq s1 s2 -> ~ F y -> seq (set v y s1) (set v y s2).
  Proof. intros H N z Z. rewrite !apply_r_set. destruct (Pos.eq_dec z v); auto. Qed.
  Lemma seq_sets s1 s2 : forall xs ys, seq s1 s2 -> Forall nF ys -> seq (set_list (combine xs ys) s1) (set_list (combine xs ys) s2).
  Proof.
    intros xs ys H FY. revert xs. induction FY as [|y ys N _ IH]; intros [|x xs]; cbn; auto. apply seq_set; auto. apply IH.
  Qed.

  Lemma veq_set v1 v2 x w : veq v1 v2 -> voff (Some w) -> veq (set x w v1) (set x w v2).
  Proof. intros H W z Z. rewrite !get_set. destruct (Pos.eq_dec z x); auto. Qed.

  Lemma pre_agree s1 s2 : seq s1 s2 -> forall B, off_funs B -> forall c1 c2 v1 v2, ceq c1 c2 -> veq v1 v2 ->
    forall B1 d1 w1 B2 d2 w2, precontract s1 c1 v1 B = (B1, d1, w1) -> precontract s2 c2 v2 B = (B2, d2, w2) ->
    B1 = B2 /\ off_funs B1 /\ ceq d1 d2 /\ veq w1 w2.
  Proof.
    intros H. induction B as [f t xs e B IH|]; intros O c1 c2 v1 v2 Q V B1 d1 w1 B2 d2 w2 E1 E2; cbn [precontract] in *.
    - destruct O as (O1 & O2 & O3 & O4). rewrite (proj1 (Q f)) in E1. destruct (get_c f c2).
      + eapply (IH O4); [| exact V | exact E1 | exact E2]. apply (proj1 (dec_ceq s1 s2 H)); auto.
      + destruct (precontract s1 c1 v1 B) as [[B1' d1'] w1'] eqn:P1. destruct (precontract s2 c2 v2 B) as [[B2' d2'] w2'] eqn:P2.
        injection E1 as <- <- <-. injection E2 as <- <- <-. destruct (IH O4 _ _ _ _ Q V _ _ _ _ _ _ P1 P2) as (<- & A & B' & C).
        split; [reflexivity |]. split; [cbn; auto |]. split; [exact B' |]. apply veq_set; cbn; auto.
    - injection E1 as <- <- <-. injection E2 as <- <- <-. auto.
  Qed.

  (* what a call of the reducer must satisfy *)
  Definition agrees (f1 f2 : c_map -> exp -> b_map -> option (shrunk exp)) : Prop :=
    forall e c1 c2 i1 i2 r1 n1 d1 j1 r2 n2 d2 j2, off e -> ceq c1 c2 -> ieq i1 i2 ->
      f1 c1 e i1 = Some (r1, n1, d1, j1) -> f2 c2 e i2 = Some (r2, n2, d2, j2) ->
      r1 = r2 /\ n1 = n2 /\ ceq d1 d2 /\ ieq j1 j2.

  Lemma cases_agree f1 f2 : agrees f1 f2 -> forall cl, Forall (fun p => off (snd p)) cl -> forall c1 c2 i1 i2 r1 n1 d1 j1 r2 n2 d2 j2,
    ceq c1 c2 -> ieq i1 i2 ->
    contractcases f1 c1 i1 cl = Some (r1, n1, d1, j1) -> contractcases f2 c2 i2 cl = Some (r2, n2, d2, j2) ->
    r1 = r2 /\ n1 = n2 /\ ceq d1 d2 /\ ieq j1 j2.
  Proof.
    intros A. induction 1 as [|[t e] cl O _ IH]; intros c1 c2 i1 i2 r1 n1 d1 j1 r2 n2 d2 j2 C I E1 E2; cbn in *.
    - injection E1 as <- <- <- <-. injection E2 as <- <- <- <-. auto.
    - destruct (f1 c1 e i1) as [[[[a1 a2] a3] a4]|] eqn:G1; [| discriminate].
      destruct (f2 c2 e i2) as [[[[b1 b2] b3] b4]|] eqn:G2; [| discriminate].
      destruct (A _ _ _ _ _ _ _ _ _ _ _ _ _ O C I G1 G2) as (<- & <- & C' & I').
      destruct (contractcases f1 a3 a4 cl) as [[[[a1' a2'] a3'] a4']|] eqn:K1; [| discriminate].
      destruct (contractcases f2 b3 b4 cl) as [[[[b1' b2'] b3'] b4']|] eqn:K2; [| discriminate].
      destruct (IH _ _ _ _ _ _ _ _ _ _ _ _ C' I' K1 K2) as (<- & <- & C2 & I2).
      injection E1 as <- <- <- <-. injection E2 as <- <- <- <-. auto.
  Qed.

  Lemma post_agree f1 f2 s1 s2 : seq s1 s2 -> agrees f1 f2 -> forall B, off_funs B -> forall s0 c1 c2 i1 i2 r1 n1 d1 j1 r2 n2 d2 j2,
    ceq c1 c2 -> ieq i1 i2 ->
    postcontractfun f1 s1 c1 i1 B s0 = Some (r1, n1, d1, j1) -> postcontractfun f2 s2 c2 i2 B s0 = Some (r2, n2, d2, j2) ->
    r1 = r2 /\ n1 = n2 /\ ceq d1 d2 /\ ieq j1 j2.
  Proof.
    intros H A. induction B as [f t xs e B IH|]; intros O s0 c1 c2 i1 i2 r1 n1 d1 j1 r2 n2 d2 j2 C I E1 E2; cbn [postcontractfun] in *.
    - destruct O as (O1 & O2 & O3 & O4). rewrite (I f O1) in E1. destruct (get_b f i2).
      + eapply IH; eauto.
      + rewrite (proj1 (C f)) in E1. destruct (get_c f c2).
        * eapply (IH O4); [| exact I | exact E1 | exact E2]. apply (proj1 (dec_ceq s1 s2 H)); auto.
        * destruct (f1 c1 e i1) as [[[[a1 a2] a3] a4]|] eqn:G1; [| discriminate].
          destruct (f2 c2 e i2) as [[[[b1 b2] b3] b4]|] eqn:G2; [| discriminate].
          destruct (A _ _ _ _ _ _ _ _ _ _ _ _ _ O3 C I G1 G2) as (<- & <- & C' & I').
          destruct (postcontractfun f1 s1 a3 a4 B s0) as [[[[a1' a2'] a3'] a4']|] eqn:K1; [| discriminate].
          destruct (postcontractfun f2 s2 b3 b4 B s0) as [[[[b1' b2'] b3'] b4']|] eqn:K2; [| discriminate].
          destruct (IH O4 _ _ _ _ _ _ _ _ _ _ _ _ _ C' I' K1 K2) as (<- & <- & C2 & I2).
          injection E1 as <- <- <- <-. injection E2 as <- <- <- <-. auto.
    - injection E1 as <- <- <- <-. injection E2 as <- <- <- <-. auto.
  Qed.

  Lemma incr2 A (x y : option (shrunk A)) r1 n1 d1 j1 r2 n2 d2 j2 :
    incr_steps x = Some (r1, n1, d1, j1) -> incr_steps y = Some (r2, n2, d2, j2) ->
    (forall m1 m2, x = Some (r1, m1, d1, j1) -> y = Some (r2, m2, d2, j2) -> r1 = r2 /\ m1 = m2 /\ ceq d1 d2 /\ ieq j1 j2) ->
    r1 = r2 /\ n1 = n2 /\ ceq d1 d2 /\ ieq j1 j2.
  Proof.
    intros E1 E2 K. apply incr_inv in E1 as (m1 & E1 & ->). apply incr_inv in E2 as (m2 & E2 & ->).
    destruct (K _ _ E1 E2) as (? & -> & ? & ?). auto.
  Qed.

  Lemma nth_off ys n y : Forall nF ys -> nthN ys n = Some y -> ~ F y.
  Proof.
    intros H. revert n. induction H as [|z ys N _ IH]; intros n E; cbn in E; [discriminate |].
    destruct n; [injection E as <-; exact N | exact (IH _ E)].
  Qed.

  Lemma findtag_off cl t e : Forall (fun p => off (snd p)) cl -> findtag cl t = Some e -> off e.
  Proof.
    induction 1 as [|[t' e'] cl O _ IH]; cbn; [discriminate |]. destruct (Pos.eq_dec t' t); auto. intro Q. injection Q as <-. exact O.
  Qed.

  Lemma contract_agree : forall n1 n2 s1 s2 v1 v2, seq s1 s2 -> veq v1 v2 ->
    agrees (fun c e i => contract n1 s1 c e v1 i) (fun c e i => contract n2 s2 c e v2 i).
  Proof.
    induction n1 as [|n1 IH]; intros n2 s1 s2 v1 v2 S V e c1 c2 i1 i2 r1 m1 d1 j1 r2 m2 d2 j2 O C I E1 E2; [discriminate |].
    destruct n2 as [|n2]; [discriminate |].
    assert (IHs := IH n2 s1 s2 v1 v2 S V).
    destruct e as [x t ys e|v cl|v t i y e|x f t ys e|B e|f t ys|x p e|x p ys e|v]; cbn [contract] in E1, E2; cbv zeta in E1, E2.
    - destruct O as (O1 & O2 & O3). rewrite (proj1 (C x)) in E1. destruct (get_c x c2).
      + eapply incr2; [exact E1 | exact E2 |]. intros a b A B. eapply IHs; [| | | exact A | exact B]; auto. apply dec_list_ceq; auto.
      + destruct (contract n1 s1 c1 e _ i1) as [[[[a1 a2] a3] a4]|] eqn:G1; [| discriminate].
        destruct (contract n2 s2 c2 e _ i2) as [[[[b1 b2] b3] b4]|] eqn:G2; [| discriminate].
        destruct (IH n2 s1 s2 _ _ S (veq_set _ _ x (SVconstr t ys) V O2) _ _ _ _ _ _ _ _ _ _ _ _ _ O3 C I G1 G2) as (<- & <- & C' & I').
        destruct (seq_list _ _ _ S O2) as [QL _].
        rewrite (proj1 (C' x)) in E1. destruct (get_c x b3).
        * injection E1 as <- <- <- <-. injection E2 as <- <- <- <-. split; [reflexivity |]. split; [reflexivity |]. split; auto. apply dec_list_ceq; auto.
        * injection E1 as <- <- <- <-. injection E2 as <- <- <- <-. rewrite QL. auto.
    - apply off_case in O. destruct O as [O1 O2]. destruct (S v O1) as [QV NV]. rewrite <- QV in E2. destruct (V _ NV) as [QG VO].
      rewrite <- QG in E2.
      destruct (match get (apply_r s1 v) v1 with Some (SVconstr t _) => _ | _ => None end) as [[t k]|] eqn:K.
      + assert (FT : findtag cl t = Some k).
        { destruct (get (apply_r s1 v) v1) as [[t' ys|]|]; try discriminate. destruct (findtag cl t') eqn:FT; [| discriminate]. injection K as -> ->. exact FT. }
        eapply incr2; [exact E1 | exact E2 |]. intros a b A B. eapply IHs; [| | | exact A | exact B]; auto.
        * eapply findtag_off; eauto.
        * apply dec_case_ceq; auto. apply dec_list_ceq; auto.
      + destruct (contractcases (fun count e im => contract n1 s1 count e v1 im) c1 i1 cl) as [[[[a1 a2] a3] a4]|] eqn:G1; [| discriminate].
        destruct (contractcases (fun count e im => contract n2 s2 count e v2 im) c2 i2 cl) as [[[[b1 b2] b3] b4]|] eqn:G2; [| discriminate].
        destruct (cases_agree _ _ IHs cl O2 _ _ _ _ _ _ _ _ _ _ _ _ C I G1 G2) as (<- & <- & C' & I').
        injection E1 as <- <- <- <-. injection E2 as <- <- <- <-. auto.
    - destruct O as (O1 & O2 & O3). rewrite (proj1 (C v)) in E1. destruct (get_c v c2).
      + eapply incr2; [exact E1 | exact E2 |]. intros a b A B. eapply IHs; [| | | exact A | exact B]; auto. apply dec_list_ceq; auto.
      + destruct (S y O2) as [QY NY]. rewrite <- QY in E2. destruct (V _ NY) as [QG VO]. rewrite <- QG in E2.
        destruct (match get (apply_r s1 y) v1 with Some (SVconstr t' ys) => nthN ys i | _ => None end) as [yn|] eqn:K.
        * assert (NN : ~ F yn).
          { destruct (get (apply_r s1 y) v1) as [[t' ys|]|]; try discriminate. eapply nth_off; eauto. }
          destruct (S yn NN) as [QN NN']. rewrite <- QN in E2.
          eapply incr2; [exact E1 | exact E2 |]. intros a b A B.
          eapply (IH n2 _ _ v1 v2 (seq_set _ _ v _ S NN') V); [| | | exact A | exact B]; auto. apply proj_ceq; auto.
        * destruct (contract n1 s1 c1 e v1 i1) as [[[[a1 a2] a3] a4]|] eqn:G1; [| discriminate].
          destruct (contract n2 s2 c2 e v2 i2) as [[[[b1 b2] b3] b4]|] eqn:G2; [| discriminate].
          destruct (IHs _ _ _ _ _ _ _ _ _ _ _ _ _ O3 C I G1 G2) as (<- & <- & C' & I').
          rewrite (proj1 (C' v)) in E1. destruct (get_c v b3).
          -- injection E1 as <- <- <- <-. injection E2 as <- <- <- <-. split; [reflexivity |]. split; [reflexivity |]. split; auto. apply dec_list_ceq; auto.
          -- injection E1 as <- <- <- <-. injection E2 as <- <- <- <-. auto.
    - destruct O.
    - destruct O as [O1 O2].
      destruct (precontract s1 c1 v1 B) as [[B1 e1] w1] eqn:P1. destruct (precontract s2 c2 v2 B) as [[B2 e2] w2] eqn:P2.
      destruct (pre_agree _ _ S B O1 _ _ _ _ C V _ _ _ _ _ _ P1 P2) as (<- & OB & CP & VP).
      destruct (contract n1 s1 e1 e w1 i1) as [[[[a1 a2] a3] a4]|] eqn:G1; [| discriminate].
      destruct (contract n2 s2 e2 e w2 i2) as [[[[b1 b2] b3] b4]|] eqn:G2; [| discriminate].
      destruct (IH n2 s1 s2 _ _ S VP _ _ _ _ _ _ _ _ _ _ _ _ _ O2 CP I G1 G2) as (<- & <- & C' & I').
      destruct (postcontractfun _ s1 a3 a4 B1 0) as [[[[a1' a2'] a3'] a4']|] eqn:K1; [| discriminate].
      destruct (postcontractfun _ s2 b3 b4 B1 0) as [[[[b1' b2'] b3'] b4']|] eqn:K2; [| discriminate].
      destruct (post_agree _ _ _ _ S IHs B1 OB _ _ _ _ _ _ _ _ _ _ _ _ _ C' I' K1 K2) as (<- & <- & C2 & I2).
      destruct a1'; injection E1 as <- <- <- <-; injection E2 as <- <- <- <-; auto.
    - destruct O as [O1 O2]. destruct (S f O1) as [QF NF]. rewrite <- QF in E2. destruct (V _ NF) as [QG VO]. rewrite <- QG in E2.
      destruct (seq_list _ _ _ S O2) as [QL NL]. rewrite <- QL in E2. rewrite (proj1 (C (apply_r s1 f))) in E1. rewrite (I _ NF) in E1.
      assert (K : Some (Eapp (apply_r s1 f) t (apply_r_list s1 ys), 0, c1, i1) = Some (r1, m1, d1, j1) ->
        Some (Eapp (apply_r s1 f) t (apply_r_list s1 ys), 0, c2, i2) = Some (r2, m2, d2, j2) ->
        r1 = r2 /\ m1 = m2 /\ ceq d1 d2 /\ ieq j1 j2).
      { intros A B. injection A as <- <- <- <-. injection B as <- <- <- <-. auto. }
      destruct (get_c (apply_r s1 f) c2) as [|[|]]; [auto | | auto].
      destruct (get (apply_r s1 f) v1) as [[|t' xs m]|] eqn:G; [auto | | auto].
      destruct (_ && _); [| auto]. cbn [voff] in VO. destruct VO as [VO1 VO2].
      eapply incr2; [exact E1 | exact E2 |]. intros a b A B.
      eapply (IH n2 _ _ v1 v2 (seq_sets _ _ xs _ S NL) V); [| | | exact A | exact B]; auto.
      + apply inl_ceq; auto. apply ceq_set0; auto.
      + intros z Z. rewrite !get_b_set. destruct (Pos.eq_dec z (apply_r s1 f)); auto.
    - destruct O as [O1 O2].
      destruct (contract n1 s1 c1 e v1 i1) as [[[[a1 a2] a3] a4]|] eqn:G1; [| discriminate].
      destruct (contract n2 s2 c2 e v2 i2) as [[[[b1 b2] b3] b4]|] eqn:G2; [| discriminate].
      destruct (IHs _ _ _ _ _ _ _ _ _ _ _ _ _ O2 C I G1 G2) as (<- & <- & C' & I').
      injection E1 as <- <- <- <-. injection E2 as <- <- <- <-. auto.
    - destruct O as (O1 & O2 & O3). destruct (seq_list _ _ _ S O2) as [QL _]. rewrite <- QL in E2.
      destruct (contract n1 s1 c1 e v1 i1) as [[[[a1 a2] a3] a4]|] eqn:G1; [| discriminate].
      destruct (contract n2 s2 c2 e v2 i2) as [[[[b1 b2] b3] b4]|] eqn:G2; [| discriminate].
      destruct (IHs _ _ _ _ _ _ _ _ _ _ _ _ _ O3 C I G1 G2) as (<- & <- & C' & I').
      injection E1 as <- <- <- <-. injection E2 as <- <- <- <-. auto.
    - cbn [off] in O. destruct (S v O) as [QV _]. rewrite <- QV in E2.
      injection E1 as <- <- <- <-. injection E2 as <- <- <- <-. auto.
  Qed.
End Agree.
