(* The program in continuation-passing style binds the name of its outermost
   continuation twice.  The first pass of the pipeline is the shrink reducer,
   and what it makes of the program is what it makes of another one, the twin,
   that binds every name once. *)
From Coq Require Import List Arith NArith PArith Bool Lia.
From Verif Require Import ANF_Syntax ANF_Subst ANF_Spec ANF_Scope Comp_Model Inline_Syn Shrink_Census Shrink_CensusProofs Shrink_Model Shrink_Total
  CC_Scope Shrink_Inv Shrink_Top CP_Agree.
Import ListNotations.

Lemma shrink_top_exact e e' s : shrink_top e = Some (e', s) ->
  exists c c' im', (forall z, get_c z c = cnt z (uses e) + cnt z [(max_var e 1 + 1)%positive]) /\
    contract (term_size e + 4) [] c e [] [] = Some (e', s, c', im').
Proof.
  unfold shrink_top. cbv zeta. set (f := (max_var e 1 + 1)%positive). clearbody f.
  set (e0 := Efun (Fcons f 1%positive (exp_fv e) e Fnil) (Ehalt f)).
  assert (CE : forall z, get_c z (init_census e0) = cnt z (uses e0)).
  { intro z. unfold init_census. rewrite inc_exp, (proj1 rename_nil). reflexivity. }
  assert (U0 : uses e0 = uses e ++ [f]) by (cbn; rewrite app_nil_r; reflexivity).
  assert (CF : exists m, get_c f (init_census e0) = S m).
  { rewrite CE, U0, cnt_app. change [f] with (f :: []). rewrite cnt_cons. destruct (Pos.eq_dec f f); [|congruence].
    rewrite Nat.add_comm. cbn [Nat.add]. eexists. reflexivity. }
  destruct CF as (m & CF).
  assert (DE : depth e0 = S (term_size e + 4)).
  { unfold depth, term_sub_inl_size, e0. cbn. lia. }
  rewrite DE. clear DE. set (c0 := init_census e0) in *. clearbody c0. unfold e0. intro H.
  cbn [contract precontract] in H. rewrite CF in H.
  replace (term_size e + 4) with (S (term_size e + 3)) in H by lia. cbn [postcontractfun] in H.
  change (contract (S (term_size e + 3)) [] c0 (Ehalt f) (set f (SVfun 1%positive (exp_fv e) e) []) [])
    with (Some (Ehalt f, 0, c0, @nil (var * bool))) in H.
  cbv iota beta in H. rewrite CF in H. change (get_b f []) with false in H. cbv iota in H.
  replace (S (term_size e + 3)) with (term_size e + 4) in H by lia.
  match type of H with context [contract ?a ?b ?c e ?d ?i] => destruct (contract a b c e d i) as [[[[e1 s1] c1] im1]|] eqn:HC; [|discriminate] end.
  cbn in H. injection H as <- <-. exists c0, c1, im1. split.
  - intro z. rewrite CE, U0, cnt_app. reflexivity.
  - etransitivity; [exact HC|]. rewrite !Nat.add_0_r. reflexivity.
Qed.

Lemma contract_halt n sig c v sub im : contract (S n) sig c (Ehalt v) sub im = Some (Ehalt (apply_r sig v), 0, c, im).
Proof. reflexivity. Qed.

(* a call that is inlined *)
Lemma contract_inl n sig c f t ys sub im xs m : get_c (apply_r sig f) c = 1 -> get (apply_r sig f) sub = Some (SVfun t xs m) ->
  length ys = length xs -> get_b (apply_r sig f) im = false ->
  contract (S n) sig c (Eapp f t ys) sub im =
  incr_steps (contract n (set_list (combine xs (apply_r_list sig ys)) sig)
    (update_count_inlined (apply_r_list sig ys) xs (set (apply_r sig f) 0 c)) m sub (set (apply_r sig f) true im)).
Proof.
  intros C G L I. cbn [contract]. cbv zeta. rewrite C, G, Pos.eqb_refl, L, Nat.eqb_refl, I. reflexivity.
Qed.

(* a bundle all of whose functions are used, with a call as its body *)
Lemma contract_bundle n c B b sub r s d j : (forall f, In f (fnames B) -> get_c f c <> 0) ->
  contract (S n) [] c (Efun B b) sub [] = Some (r, s, d, j) ->
  exists a1 a2 a3 a4 b1 b2,
    contract n [] c b (set_list (map (fun p => let '(f, t, xs, e) := p in (f, SVfun t xs e)) (flist B)) sub) [] = Some (a1, a2, a3, a4) /\
    postcontractfun (fun c e i => contract n [] c e sub i) [] a3 a4 B 0 = Some (b1, b2, d, j) /\
    r = match b1 with Fnil => a1 | _ => Efun b1 a1 end.
Proof.
  intros U. cbn [contract].
  assert (P : precontract [] c sub B = (B, c, set_list (map (fun p => let '(f, t, xs, e) := p in (f, SVfun t xs e)) (flist B)) sub)).
  { revert U. induction B as [f t xs e B IH|]; intro U; cbn [precontract flist map set_list fold_right]; [|reflexivity].
    pose proof (U f (or_introl eq_refl)) as UF. destruct (get_c f c); [congruence |].
    rewrite IH; [reflexivity |]. intros g G. apply U. right. exact G. }
  rewrite P. destruct (contract n [] c b _ []) as [[[[a1 a2] a3] a4]|] eqn:E1; [| discriminate].
  destruct (postcontractfun _ [] a3 a4 B 0) as [[[[b1 b2] b3] b4]|] eqn:E2; [| discriminate].
  intro H. exists a1, a2, a3, a4, b1, b2. split; [reflexivity |].
  destruct b1; injection H as <- <- <- <-; auto.
Qed.

Section Twin.
  Variable kt : fun_tag.
  Variables f k x y g : var.
  Variable e : exp.

  (* theories/LambdaANF/LambdaBoxLocal_to_LambdaANF.v:380-388, the program *)
  Definition original : exp :=
    Efun (Fcons f kt [k] e (Fcons k kt [x] (Ehalt x) Fnil)) (Eapp f kt [k]).

  (* the twin: the extra function, not called, makes up for the count of [k] *)
  Definition twin : exp :=
    Efun (Fcons f kt [y] e (Fcons k kt [x] (Ehalt x) (Fcons g kt [] (Eapp k kt (repeat k (cnt k (uses e)))) Fnil))) (Eapp f kt [g]).

  Let F (z : var) : Prop := z = f \/ z = y \/ z = g.
  Hypothesis OFF : off F e.
  Hypothesis Nk : ~ F k.
  Hypothesis Nx : ~ F x.
  Hypothesis Nfy : f <> y.
  Hypothesis Nfg : f <> g.
  Hypothesis Nyg : y <> g.
  Hypothesis Nxk : x <> k.

  Lemma off_uses : (forall b, off F b -> forall z, F z -> cnt z (uses b) = 0) /\ (forall B, off_funs F B -> forall z, F z -> cnt z (uses_funs B) = 0).
  Proof.
    assert (L : forall ys, Forall (fun z => ~ F z) ys -> forall z, F z -> cnt z ys = 0).
    { intros ys H z Z. apply cnt_notIn. intro I. rewrite Forall_forall in H. exact (H z I Z). }
    assert (C : forall a l z, ~ F a -> F z -> cnt z (a :: l) = cnt z l).
    { intros a l z A Z. rewrite cnt_cons. destruct (Pos.eq_dec a z); [subst; contradiction | reflexivity]. }
    apply exp_fundefs_ind; cbn [uses uses_funs].
    - intros a t ys b IH (A1 & A2 & A3) z Z. rewrite cnt_app, L, IH; auto.
    - intros a cl FA O z Z. apply off_case in O. destruct O as [A O]. rewrite C by auto.
      induction FA as [|[t b] cl Hp FA IH]; [reflexivity |]. inversion O; subst. cbn [flat_map snd]. rewrite cnt_app, Hp, IH; auto.
    - intros a t n b c IH (A1 & A2 & A3) z Z. rewrite C, IH; auto.
    - intros a b t ys c IH [].
    - intros B b IHB IH [A1 A2] z Z. rewrite cnt_app, IHB, IH; auto.
    - intros a t ys [A1 A2] z Z. rewrite C, L; auto.
    - intros a p b IH [A1 A2] z Z. auto.
    - intros a p ys b IH (A1 & A2 & A3) z Z. rewrite cnt_app, L, IH; auto.
    - intros a A z Z. rewrite C; auto.
    - intros a t xs b B IH IHB (A1 & A2 & A3 & A4) z Z. rewrite cnt_app, IH, IHB; auto.
    - reflexivity.
  Qed.

  Lemma cnt_repeat z n : cnt z (repeat k n) = if Pos.eq_dec k z then n else 0.
  Proof.
    induction n as [|n IH]; cbn [repeat]; [destruct (Pos.eq_dec k z); reflexivity |]. rewrite cnt_cons, IH.
    destruct (Pos.eq_dec k z); reflexivity.
  Qed.

  Lemma count_original z : cnt z (uses original) = cnt z (uses e) + cnt z [x] + cnt z [f] + cnt z [k].
  Proof.
    unfold original. cbn [uses uses_funs]. rewrite !cnt_app, !cnt_cons. unfold cnt. cbn [count_occ]. lia.
  Qed.
  Lemma count_twin z : cnt z (uses twin) =
    cnt z (uses e) + cnt z [x] + cnt z [k] + (if Pos.eq_dec k z then cnt k (uses e) else 0) + cnt z [f] + cnt z [g].
  Proof.
    unfold twin. cbn [uses uses_funs]. rewrite !cnt_app, !cnt_cons, !cnt_repeat. unfold cnt. cbn [count_occ]. lia.
  Qed.

  Lemma one z a : cnt z [a] = if Pos.eq_dec a z then 1 else 0.
  Proof. rewrite cnt_cons. unfold cnt. cbn. lia. Qed.

  Lemma twin_ceq m c1 c2 :
    m <> f -> m <> k -> m <> y -> m <> g ->
    (forall z, get_c z c1 = cnt z (uses original) + cnt z [m]) ->
    (forall z, get_c z c2 = cnt z (uses twin) + cnt z [m]) ->
    ceq F (update_count_inlined (apply_r_list [] [k]) [k] (set (apply_r [] f) 0 c1))
                        (update_count_inlined (apply_r_list [] [g]) [y] (set (apply_r [] f) 0 c2)).
  Proof.
    intros Mf Mk My Mg C1 C2.
    assert (Fk : f <> k) by (intros ->; apply Nk; left; reflexivity).
    assert (Fx : f <> x) by (intros ->; apply Nx; left; reflexivity).
    assert (Yk : y <> k) by (intros ->; apply Nk; right; left; reflexivity).
    assert (Yx : y <> x) by (intros ->; apply Nx; right; left; reflexivity).
    assert (Gk : g <> k) by (intros ->; apply Nk; right; right; reflexivity).
    assert (Gx : g <> x) by (intros ->; apply Nx; right; right; reflexivity).
    assert (OU := proj1 off_uses e OFF).
    change (apply_r_list [] [k]) with [k]. change (apply_r_list [] [g]) with [g]. change (apply_r [] f) with f.
      intros z. cbn [update_count_inlined]. rewrite !get_c_set.
      assert (Z1 : get_c y c2 = 0).
      { rewrite C2, count_twin, !one, (OU y (or_intror (or_introl eq_refl))).
        destruct (Pos.eq_dec x y); [congruence |]. destruct (Pos.eq_dec k y); [congruence |]. destruct (Pos.eq_dec f y); [congruence |].
        destruct (Pos.eq_dec g y); [congruence |]. destruct (Pos.eq_dec m y); [congruence | reflexivity]. }
      assert (Z2 : get_c g c2 = 1).
      { rewrite C2, count_twin, !one, (OU g (or_intror (or_intror eq_refl))).
        destruct (Pos.eq_dec x g); [congruence |]. destruct (Pos.eq_dec k g); [congruence |]. destruct (Pos.eq_dec f g); [congruence |].
        destruct (Pos.eq_dec g g); [| congruence]. destruct (Pos.eq_dec m g); [congruence | reflexivity]. }
      assert (Z3 : F z -> z <> k) by (intros Fz ->; contradiction).
      destruct (Pos.eq_dec g f); [congruence |]. destruct (Pos.eq_dec y f); [congruence |]. destruct (Pos.eq_dec k f); [congruence |].
      destruct (Pos.eq_dec z g) as [-> |].
      { destruct (Pos.eq_dec g k); [congruence |]. destruct (Pos.eq_dec g f); [congruence |].
        rewrite C1, count_original, !one, (OU g (or_intror (or_intror eq_refl))).
        destruct (Pos.eq_dec x g); [congruence |]. destruct (Pos.eq_dec k g); [congruence |]. destruct (Pos.eq_dec f g); [congruence |].
        destruct (Pos.eq_dec m g); [congruence |]. rewrite Z1, Z2. auto. }
      destruct (Pos.eq_dec z y) as [-> |].
      { destruct (Pos.eq_dec y k); [congruence |]. destruct (Pos.eq_dec y f); [congruence |].
        rewrite C1, count_original, !one, (OU y (or_intror (or_introl eq_refl))).
        destruct (Pos.eq_dec x y); [congruence |]. destruct (Pos.eq_dec k y); [congruence |]. destruct (Pos.eq_dec f y); [congruence |].
        destruct (Pos.eq_dec m y); [congruence |]. auto. }
      destruct (Pos.eq_dec z k) as [-> |].
      { destruct (Pos.eq_dec k f); [congruence |]. split; [| intros Fk'; contradiction].
        rewrite C1, C2, count_original, count_twin, !one.
        destruct (Pos.eq_dec x k); [congruence |]. destruct (Pos.eq_dec k k); [| congruence]. destruct (Pos.eq_dec f k); [congruence |].
        destruct (Pos.eq_dec g k); [congruence |]. destruct (Pos.eq_dec m k); [congruence |].
        generalize (cnt k (uses e)). clear. intro q. lia. }
      destruct (Pos.eq_dec z f) as [-> |]; [auto |].
      split; [| intros [? | [? | ?]]; congruence].
      rewrite C1, C2, count_original, count_twin, !one. destruct (Pos.eq_dec k z); [congruence |]. destruct (Pos.eq_dec g z); [congruence |].
      generalize (cnt z (uses e)). clear. intro q. destruct (Pos.eq_dec x z), (Pos.eq_dec f z), (Pos.eq_dec m z); lia. 
  Qed.

  Lemma twin_contract n1 n2 m c1 c2 r1 s1 d1 j1 r2 s2 d2 j2 :
    m <> f -> m <> k -> m <> y -> m <> g ->
    (forall z, get_c z c1 = cnt z (uses original) + cnt z [m]) ->
    (forall z, get_c z c2 = cnt z (uses twin) + cnt z [m]) ->
    contract n1 [] c1 original [] [] = Some (r1, s1, d1, j1) ->
    contract n2 [] c2 twin [] [] = Some (r2, s2, d2, j2) -> r1 = r2.
  Proof.
    intros Mf Mk My Mg C1 C2 E1 E2.
    destruct n1 as [|[|n1]]; [discriminate | |]; [exfalso|].
    { apply contract_bundle in E1 as (? & ? & ? & ? & ? & ? & E & _); [discriminate |].
      intros z [<- | [<- | []]]; rewrite C1, count_original, !one;
        match goal with |- context [Pos.eq_dec ?a ?a] => destruct (Pos.eq_dec a a); [lia | congruence] end. }
    destruct n2 as [|[|n2]]; [discriminate | |]; [exfalso|].
    { apply contract_bundle in E2 as (? & ? & ? & ? & ? & ? & E & _); [discriminate |].
      intros z [<- | [<- | [<- | []]]]; rewrite C2, count_twin, !one;
        match goal with |- context [cnt ?a _] => destruct (Pos.eq_dec a a); [lia | congruence] end. }
    apply contract_bundle in E1 as (a1 & a2 & a3 & a4 & b1 & b2 & A1 & P1 & R1).
    2:{ intros z [<- | [<- | []]]; rewrite C1, count_original, !one;
        match goal with |- context [Pos.eq_dec ?a ?a] => destruct (Pos.eq_dec a a); [lia | congruence] end. }
    apply contract_bundle in E2 as (a1' & a2' & a3' & a4' & b1' & b2' & A2 & P2 & R2).
    2:{ intros z [<- | [<- | [<- | []]]]; rewrite C2, count_twin, !one;
        match goal with |- context [cnt ?a _] => destruct (Pos.eq_dec a a); [lia | congruence] end. }
    assert (Fk : f <> k) by (intros ->; apply Nk; left; reflexivity).
    assert (Fx : f <> x) by (intros ->; apply Nx; left; reflexivity).
    assert (Yk : y <> k) by (intros ->; apply Nk; right; left; reflexivity).
    assert (Yx : y <> x) by (intros ->; apply Nx; right; left; reflexivity).
    assert (Gk : g <> k) by (intros ->; apply Nk; right; right; reflexivity).
    assert (Gx : g <> x) by (intros ->; apply Nx; right; right; reflexivity).
    assert (OU := proj1 off_uses e OFF).
    assert (U1 : get_c f c1 = 1).
    { rewrite C1, count_original, !one, (OU f (or_introl eq_refl)). destruct (Pos.eq_dec x f); [congruence |]. destruct (Pos.eq_dec f f); [| congruence].
      destruct (Pos.eq_dec k f); [congruence |]. destruct (Pos.eq_dec m f); [congruence |]. reflexivity. }
    assert (U2 : get_c f c2 = 1).
    { rewrite C2, count_twin, !one, (OU f (or_introl eq_refl)). destruct (Pos.eq_dec x f); [congruence |]. destruct (Pos.eq_dec f f); [| congruence].
      destruct (Pos.eq_dec k f); [congruence |]. destruct (Pos.eq_dec g f); [congruence |]. destruct (Pos.eq_dec m f); [congruence |]. reflexivity. }
    rewrite (contract_inl _ _ _ _ _ _ _ _ [k] e) in A1; [| exact U1 | cbn [flist map set_list fold_right fst snd]; apply get_set_same | reflexivity | reflexivity].
    rewrite (contract_inl _ _ _ _ _ _ _ _ [y] e) in A2; [| exact U2 | cbn [flist map set_list fold_right fst snd]; apply get_set_same | reflexivity | reflexivity].
    apply incr_inv in A1 as (t1 & A1 & _). apply incr_inv in A2 as (t2 & A2 & _).
    assert (I1 : get_b f a4 = true).
    { apply (contract_im _ _ _ _ _ _ _ _ _ _ A1). rewrite get_b_set. change (apply_r [] f) with f. destruct (Pos.eq_dec f f); congruence. }
    assert (I2 : get_b f a4' = true).
    { apply (contract_im _ _ _ _ _ _ _ _ _ _ A2). rewrite get_b_set. change (apply_r [] f) with f. destruct (Pos.eq_dec f f); congruence. }
    assert (SEQ : seq F (set_list (combine [k] (apply_r_list [] [k])) []) (set_list (combine [y] (apply_r_list [] [g])) [])).
    { intros z Z. cbn [apply_r_list map combine set_list fold_right fst snd]. rewrite !apply_r_set. change (apply_r [] k) with k. change (apply_r [] z) with z.
      destruct (Pos.eq_dec z y) as [-> |]; [destruct Z; right; left; reflexivity |]. destruct (Pos.eq_dec z k) as [-> |]; auto. }
    assert (CEQ := twin_ceq m c1 c2 Mf Mk My Mg C1 C2).
    assert (VEQ : veq F (set_list (map (fun p => let '(f, t, xs, e) := p in (f, SVfun t xs e)) (flist (Fcons f kt [k] e (Fcons k kt [x] (Ehalt x) Fnil)))) [])
                        (set_list (map (fun p => let '(f, t, xs, e) := p in (f, SVfun t xs e)) (flist (Fcons f kt [y] e (Fcons k kt [x] (Ehalt x) (Fcons g kt [] (Eapp k kt (repeat k (cnt k (uses e)))) Fnil))))) [])).
    { intros z Z. cbn [flist map set_list fold_right fst snd]. rewrite !get_set.
      destruct (Pos.eq_dec z f) as [-> |]; [destruct Z; left; reflexivity |].
      destruct (Pos.eq_dec z k) as [-> |].
      { split; [reflexivity |]. cbn [voff off]. auto. }
      destruct (Pos.eq_dec z g) as [-> |]; [destruct Z; right; right; reflexivity |]. cbn. auto. }
    assert (IEQ : ieq F (set (apply_r [] f) true []) (set (apply_r [] f) true [])) by (intros z _; reflexivity).
    destruct (contract_agree F _ _ _ _ _ _ SEQ VEQ _ _ _ _ _ _ _ _ _ _ _ _ _ OFF CEQ IEQ A1 A2) as (<- & _ & CE & IE).
    subst r1 r2. cbn [postcontractfun] in P1, P2. rewrite I1 in P1. rewrite I2 in P2. rewrite (IE k Nk) in P1.
    (* the extra function goes *)
    assert (G0 : forall c b2 j b, get_c g c = 0 ->
      postcontractfun (fun c e i => contract (S n2) [] c e [] i) [] c a4' (Fcons g kt [] (Eapp k kt (repeat k (cnt k (uses e)))) Fnil) 0 = Some (b, b2, d2, j) -> b = Fnil).
    { intros c b3 j b Z. cbn [postcontractfun]. rewrite Z. destruct (get_b g a4'); intro H; injection H as <- _ _ _; reflexivity. }
    cbn [postcontractfun] in G0.
    assert (FG : F g) by (right; right; reflexivity).
    destruct (get_b k a4').
    - rewrite (G0 _ _ _ _ ltac:(rewrite <- (proj1 (CE g)); apply (CE g); exact FG) P2). injection P1 as <- _ _ _. reflexivity.
    - rewrite (proj1 (CE k)) in P1. destruct (get_c k a3').
      + assert (SN : seq F [] []) by (intros z Z; auto).
        assert (CD := proj1 (dec_ceq F _ _ SN) (Ehalt x) Nx _ _ CE).
        rewrite (G0 _ _ _ _ ltac:(rewrite <- (proj1 (CD g)); apply (CD g); exact FG) P2). injection P1 as <- _ _ _. reflexivity.
      + rewrite contract_halt in P1, P2.
        rewrite <- (proj1 (CE g)), (proj2 (CE g) FG) in P2.
        destruct (get_b g a4'); injection P1 as <- _ _ _; injection P2 as <- _ _ _; reflexivity.
  Qed.
End Twin.
