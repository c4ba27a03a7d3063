(** * Dead-parameter elimination: proofs *)
From Coq Require Import ZArith NArith List Lia Bool.
From Verif Require Import ANF_Syntax ANF_Eval ANF_Spec ANF_Scope ANF_EvalProofs
  ANF_FreeProofs DPE_Model DPE_Spec Hoist_Proofs.
Import ListNotations.

Definition msk (L : live_fun) : masks := fun f => get f L.

Lemma get_remove A x y (m : tmap A) :
  get x (remove y m) = if Pos.eq_dec x y then None else get x m.
Proof.
  induction m as [|[z v] m IH]; cbn [remove filter get fst].
  - destruct (Pos.eq_dec x y); reflexivity.
  - destruct (Pos.eq_dec y z) as [->|N].
    + fold (remove z m). rewrite IH. destruct (Pos.eq_dec x z); reflexivity.
    + cbn [get]. fold (remove y m). rewrite IH.
      destruct (Pos.eq_dec x z) as [->|]; [|reflexivity].
      destruct (Pos.eq_dec z y); congruence.
Qed.

Lemma live_args_pick A (ys : list A) : forall bs, live_args ys bs = pick ys bs.
Proof.
  induction ys as [|y ys IH]; intros [|b bs]; cbn; try reflexivity.
  rewrite IH. reflexivity.
Qed.

Lemma pick_kept x ys : forall bs, In x (pick ys bs) <-> kept x ys bs.
Proof.
  unfold kept. induction ys as [|y ys IH]; intros bs.
  - destruct bs; cbn; split; try tauto; intros (i & H & _); destruct i; discriminate.
  - destruct bs as [|b bs].
    + cbn [pick]. split.
      * intro I. apply In_nth_error in I as (i & I). exists i. split; auto.
        destruct i; discriminate.
      * intros (i & H & _). eapply nth_error_In; eauto.
    + assert (X : In x (pick (y :: ys) (b :: bs)) <-> (b = true /\ y = x) \/ In x (pick ys bs)).
      { cbn. destruct b; cbn; intuition congruence. }
      rewrite X, IH. split.
      * intros [[-> ->]|(i & H1 & H2)].
        -- exists 0. cbn. split; congruence.
        -- exists (S i). auto.
      * intros (i & H1 & H2). destruct i as [|i]; cbn in *.
        -- left. destruct b; split; congruence.
        -- right. eauto.
Qed.

(** ** Escaping functions *)
Lemma remove_escaping_get L y f bs :
  get f (remove_escaping L y) = Some bs <-> get f L = Some bs /\ f <> y.
Proof.
  unfold remove_escaping, get_fun_vars. destruct (get y L) eqn:E.
  - rewrite get_remove. destruct (Pos.eq_dec f y) as [->|N].
    + split; [discriminate|]. intros [_ H]. congruence.
    + tauto.
  - split; [|tauto]. intro H. split; auto. congruence.
Qed.

Lemma remove_escapings_get ys : forall L f bs,
  get f (remove_escapings L ys) = Some bs <-> get f L = Some bs /\ ~ In f ys.
Proof.
  unfold remove_escapings. induction ys as [|y ys IH]; intros L f bs; cbn [fold_left In].
  - tauto.
  - rewrite IH, remove_escaping_get. intuition.
Qed.

Lemma escaping_spec :
  (forall e L f bs, get f (escaping_fun_exp e L) = Some bs <->
                    get f L = Some bs /\ ~ escapes f e) /\
  (forall B L f bs, get f (escaping_fun_fundefs B L) = Some bs <->
                    get f L = Some bs /\ ~ escapes_funs f B).
Proof.
  apply exp_fundefs_ind; cbn [escaping_fun_exp escaping_fun_fundefs escapes escapes_funs].
  - intros x t ys e IH L f bs. rewrite IH, remove_escapings_get. tauto.
  - intros x l F. induction F as [|p l Hp F IH]; intros L f bs; cbn [fold_left].
    + tauto.
    + rewrite IH, Hp. tauto.
  - intros x t n y e IH L f bs. rewrite IH, remove_escaping_get. tauto.
  - intros x g t ys e IH L f bs. rewrite IH, remove_escapings_get. tauto.
  - intros B e IHB IHe L f bs. rewrite IHe, IHB. tauto.
  - intros g t ys L f bs. apply remove_escapings_get.
  - intros x p e IH L f bs. apply IH.
  - intros x p ys e IH L f bs. rewrite IH, remove_escapings_get. tauto.
  - intros x L f bs. apply remove_escaping_get.
  - intros g t xs e B IHe IHB L f bs. rewrite IHB, IHe. tauto.
  - intros. tauto.
Qed.

(** ** Live variables *)
Fixpoint needed_case (K : masks) (x : var) (cl : list (ctor_tag * exp)) : Prop :=
  match cl with [] => False | p :: cl' => needed K x (snd p) \/ needed_case K x cl' end.

Lemma needed_Ecase K x y cl : needed K x (Ecase y cl) <-> x = y \/ needed_case K x cl.
Proof.
  cbn [needed]. apply or_iff_compat_l. induction cl as [|p cl IH]; cbn [needed_case]; [tauto|].
  rewrite IH. tauto.
Qed.

Lemma needed_case_In K x cl t e : In (t, e) cl -> needed K x e -> needed_case K x cl.
Proof.
  induction cl as [|p cl IH]; cbn [needed_case In]; [tauto|]. intros [->|I] H; auto.
Qed.

Lemma add_fun_vars_In L f x ys S :
  In x (add_fun_vars L f ys S) <-> In x S \/ needed_args (msk L) x f ys.
Proof.
  unfold add_fun_vars, needed_args, msk, get_fun_vars. destruct (get f L) as [bs|].
  - rewrite union_list_In, live_args_pick, pick_kept. tauto.
  - apply union_list_In.
Qed.

Lemma live_expr_In L x : forall e S, In x (live_expr L e S) <-> In x S \/ needed (msk L) x e.
Proof.
  apply (exp_ind2 (fun e => forall S, In x (live_expr L e S) <-> In x S \/ needed (msk L) x e)
                  (fun _ => True)); auto.
  - intros y t ys e IH S. cbn [live_expr needed]. rewrite IH, union_list_In. tauto.
  - intros y l F S. rewrite needed_Ecase. cbn [live_expr]. rewrite sadd_In.
    assert (A : forall S, In x (fold_left (fun S p => live_expr L (snd p) S) l S) <->
                          In x S \/ needed_case (msk L) x l).
    { induction F as [|p l Hp F IH]; intro S0; cbn [fold_left needed_case]; [tauto|].
      rewrite IH, Hp. tauto. }
    rewrite A. tauto.
  - intros y t n z e IH S. cbn [live_expr needed]. rewrite IH, sadd_In. tauto.
  - intros y f t ys e IH S. cbn [live_expr needed]. rewrite IH, add_fun_vars_In, sadd_In. tauto.
  - intros B e _ _ S. cbn. tauto.
  - intros f t ys S. cbn [live_expr needed]. rewrite add_fun_vars_In, sadd_In. tauto.
  - intros y p ys e IH S. cbn [live_expr needed]. rewrite IH, union_list_In. tauto.
  - intros y S. cbn [live_expr needed]. rewrite sadd_In. tauto.
Qed.

(** ** Growing masks *)
(** same functions, same lengths, bits only switched on *)
Definition lle (K1 K2 : masks) : Prop :=
  forall f, match K1 f, K2 f with
  | Some b1, Some b2 => length b1 = length b2 /\
      forall i, nth_error b1 i = Some true -> nth_error b2 i = Some true
  | None, None => True
  | _, _ => False
  end.

Lemma lle_refl K : lle K K.
Proof. intro f. destruct (K f); auto. Qed.

Lemma lle_trans K1 K2 K3 : lle K1 K2 -> lle K2 K3 -> lle K1 K3.
Proof.
  intros H1 H2 f. specialize (H1 f). specialize (H2 f).
  destruct (K1 f), (K2 f), (K3 f); try tauto.
  destruct H1, H2. split; [congruence|auto].
Qed.

Lemma nth_error_len A B (l1 : list A) (l2 : list B) i :
  length l1 = length l2 -> nth_error l1 i = None <-> nth_error l2 i = None.
Proof. intro E. rewrite !nth_error_None. lia. Qed.

Lemma kept_mono x ys b1 b2 : length b1 = length b2 ->
  (forall i, nth_error b1 i = Some true -> nth_error b2 i = Some true) ->
  kept x ys b1 -> kept x ys b2.
Proof.
  intros E H (i & H1 & H2). exists i. split; auto.
  destruct (nth_error b1 i) as [[|]|] eqn:N; try congruence.
  - rewrite (H i N). discriminate.
  - apply (nth_error_len _ _ _ _ i E) in N. rewrite N. discriminate.
Qed.

Lemma needed_mono K1 K2 x : lle K1 K2 -> forall e, needed K1 x e -> needed K2 x e.
Proof.
  intro H.
  assert (A : forall f ys, needed_args K1 x f ys -> needed_args K2 x f ys).
  { intros f ys. unfold needed_args. specialize (H f).
    destruct (K1 f), (K2 f); try tauto. destruct H. apply kept_mono; auto. }
  apply (exp_ind2 (fun e => needed K1 x e -> needed K2 x e) (fun _ => True)); auto;
    try (intros; cbn [needed] in *; intuition; fail).
  intros y l F. rewrite !needed_Ecase. intros [|N]; auto. right.
  induction F as [|p l Hp F IH]; cbn [needed_case] in *; intuition.
Qed.

(** ** One update *)
Fixpoint trues (bs : list bool) : nat :=
  match bs with [] => 0 | true :: bs => S (trues bs) | false :: bs => trues bs end.

Lemma trues_le bs : trues bs <= length bs.
Proof. induction bs as [|[|] bs IH]; cbn; lia. Qed.

Lemma update_bs_spec S xs : forall bs bs' d, update_bs S xs bs = (bs', d) ->
  length bs' = length bs /\
  (forall i, nth_error bs' i = Some true <->
     nth_error bs i = Some true \/
     (nth_error bs i = Some false /\ exists x, nth_error xs i = Some x /\ In x S)) /\
  (d = false -> bs' = bs) /\ (d = true -> trues bs < trues bs').
Proof.
  induction xs as [|x xs IH]; intros [|b bs] bs' d; cbn [update_bs]; intro E.
  1,2,3: injection E as <- <-; repeat split; auto; try discriminate;
    intros [|[H0 (y & H & _)]]; auto; try (destruct i; discriminate).
  destruct (update_bs S xs bs) as [bs1 d1] eqn:U.
  destruct (IH _ _ _ U) as (A1 & A2 & A3 & A4).
  destruct b.
  - injection E as <- <-. split; [cbn; lia|]. split; [|split].
    + intros [|i]; cbn; [intuition discriminate|apply A2].
    + intro D. rewrite (A3 D). reflexivity.
    + intro D. cbn. specialize (A4 D). lia.
  - injection E as <- <-. split; [cbn; lia|]. split; [|split].
    + intros [|i]; cbn [nth_error]; [|apply A2].
      split.
      * intro H. injection H as H. right. split; [reflexivity|]. exists x.
        split; [reflexivity|]. apply mem_In. exact H.
      * intros [H|[_ (y & H & I)]]; [discriminate|]. injection H as ->.
        apply mem_In in I. rewrite I. reflexivity.
    + intro D. apply orb_false_iff in D as [D1 D2]. rewrite (A3 D2).
      destruct (mem x S); [discriminate|]. reflexivity.
    + intro D. cbn. destruct (mem x S) eqn:M; cbn in D.
      * destruct d1; [specialize (A4 eq_refl); lia|]. rewrite (A3 eq_refl). lia.
      * subst d1. apply A4. reflexivity.
Qed.

Section LIVE.
  Variables (Ball : fundefs).
  Hypothesis ND : NoDup (fnames Ball).

  Definition linv (L : live_fun) : Prop :=
    forall f bs, get f L = Some bs ->
      exists t xs e, In (f, t, xs, e) (flist Ball) /\ length bs = length xs.

  (** number of kept parameters in the bundle *)
  Fixpoint total (L : live_fun) (l : list fdef) : nat :=
    match l with
    | [] => 0
    | d :: l => match get (fname d) L with Some bs => trues bs | None => 0 end + total L l
    end.

  Lemma flist_unique f t xs e t' xs' e' :
    In (f, t, xs, e) (flist Ball) -> In (f, t', xs', e') (flist Ball) ->
    t = t' /\ xs = xs' /\ e = e'.
  Proof.
    intros H1 H2. apply (In_find_def _ _ _ _ _ ND) in H1, H2. rewrite H1 in H2.
    injection H2 as -> -> ->. auto.
  Qed.

  Lemma total_lle L L' l : lle (msk L) (msk L') -> 
    (forall f b1 b2, get f L = Some b1 -> get f L' = Some b2 -> trues b1 <= trues b2) ->
    total L l <= total L' l.
  Proof.
    intros H T. induction l as [|d l IH]; cbn [total]; [lia|].
    specialize (H (fname d)). unfold msk in H. specialize (T (fname d)).
    destruct (get (fname d) L), (get (fname d) L'); try tauto; try lia.
    specialize (T _ _ eq_refl eq_refl). lia.
  Qed.

  Lemma total_lt L L' l f b1 b2 : lle (msk L) (msk L') ->
    (forall f b1 b2, get f L = Some b1 -> get f L' = Some b2 -> trues b1 <= trues b2) ->
    In f (List.map fname l) -> get f L = Some b1 -> get f L' = Some b2 -> trues b1 < trues b2 ->
    total L l < total L' l.
  Proof.
    intros H T I G1 G2 LT. induction l as [|d l IH]; cbn [total List.map In] in *; [tauto|].
    destruct I as [<-|I].
    - rewrite G1, G2. pose proof (total_lle L L' l H T). lia.
    - specialize (IH I). specialize (H (fname d)). unfold msk in H. specialize (T (fname d)).
      destruct (get (fname d) L), (get (fname d) L'); try tauto; try lia.
      specialize (T _ _ eq_refl eq_refl). lia.
  Qed.

  (** what holds between the masks before and after a step *)
  Record step (L L' : live_fun) (d : bool) : Prop := {
    st_lle : lle (msk L) (msk L');
    st_trues : forall f b1 b2, get f L = Some b1 -> get f L' = Some b2 -> trues b1 <= trues b2;
    st_same : d = false -> L' = L;
    st_lt : d = true -> total L (flist Ball) < total L' (flist Ball);
    (* bits switched on are needed *)
    st_new : forall f bs bs' i, get f L = Some bs -> get f L' = Some bs' ->
      nth_error bs' i = Some true ->
      nth_error bs i = Some true \/
      exists t xs e x, In (f, t, xs, e) (flist Ball) /\ nth_error xs i = Some x /\
        needed (msk L') x e;
    (* and needed already by any larger assignment that is closed *)
    st_least : forall K, lle (msk L) K ->
      (forall f t xs e bs i x, In (f, t, xs, e) (flist Ball) -> K f = Some bs ->
         nth_error xs i = Some x -> needed K x e -> nth_error bs i = Some true) ->
      lle (msk L') K }.

  Lemma linv_lle L L' : linv L -> lle (msk L) (msk L') -> linv L'.
  Proof.
    intros I H f bs G. specialize (H f). unfold msk in H. rewrite G in H.
    destruct (get f L) as [b|] eqn:E; [|tauto]. destruct (I f b E) as (t & xs & e & J & LN).
    exists t, xs, e. split; auto. destruct H. congruence.
  Qed.

  Lemma step_refl L : step L L false.
  Proof.
    constructor.
    - apply lle_refl.
    - intros f b1 b2 H1 H2. rewrite H1 in H2. injection H2 as ->. lia.
    - auto.
    - discriminate.
    - intros f bs bs' i H1 H2 H3. left. rewrite H1 in H2. injection H2 as ->. exact H3.
    - auto.
  Qed.

  Lemma step_trans L1 L2 L3 d1 d2 : step L1 L2 d1 -> step L2 L3 d2 -> step L1 L3 (d1 || d2).
  Proof.
    intros A B. constructor.
    - eapply lle_trans; [apply A|apply B].
    - intros f b1 b3 H1 H3. pose proof (st_lle _ _ _ A f) as X. unfold msk in X.
      rewrite H1 in X. destruct (get f L2) as [b2|] eqn:H2; [|tauto].
      pose proof (st_trues _ _ _ A _ _ _ H1 H2). pose proof (st_trues _ _ _ B _ _ _ H2 H3). lia.
    - intro D. apply orb_false_iff in D as [D1 D2].
      rewrite (st_same _ _ _ B D2). apply (st_same _ _ _ A D1).
    - intro D.
      assert (T1 : total L1 (flist Ball) <= total L2 (flist Ball)) by
        (apply total_lle; [apply A|apply (st_trues _ _ _ A)]).
      assert (T2 : total L2 (flist Ball) <= total L3 (flist Ball)) by
        (apply total_lle; [apply B|apply (st_trues _ _ _ B)]).
      apply orb_true_iff in D as [D|D].
      + pose proof (st_lt _ _ _ A D). lia.
      + pose proof (st_lt _ _ _ B D). lia.
    - intros f bs bs' i H1 H3 H. pose proof (st_lle _ _ _ A f) as X. unfold msk in X.
      rewrite H1 in X. destruct (get f L2) as [b2|] eqn:H2; [|tauto].
      destruct (st_new _ _ _ B _ _ _ i H2 H3 H) as [H'|H']; [|auto].
      destruct (st_new _ _ _ A _ _ _ i H1 H2 H') as [|(t & xs & e & x & J1 & J2 & J3)]; [auto|].
      right. exists t, xs, e, x. split; auto. split; auto.
      eapply needed_mono; [|exact J3]. apply B.
    - intros K LK CK. apply (st_least _ _ _ B); auto. apply (st_least _ _ _ A); auto.
  Qed.

  (** one function *)
  Lemma update_step L f t xs e L' d :
    linv L -> In (f, t, xs, e) (flist Ball) ->
    update_live_fun L f xs (live_expr L e []) = (L', d) ->
    step L L' d /\
    (d = false -> forall bs i x, get f L = Some bs -> nth_error xs i = Some x ->
       needed (msk L) x e -> nth_error bs i = Some true).
  Proof.
    intros LI IB U. unfold update_live_fun, get_fun_vars in U.
    destruct (get f L) as [bs|] eqn:G.
    2:{ injection U as <- <-. split; [apply step_refl|discriminate]. }
    destruct (update_bs (live_expr L e []) xs bs) as [bs' d'] eqn:UB.
    destruct (update_bs_spec _ _ _ _ _ UB) as (A1 & A2 & A3 & A4).
    assert (LEN : length bs = length xs).
    { destruct (LI _ _ G) as (t1 & xs1 & e1 & J & E).
      destruct (flist_unique _ _ _ _ _ _ _ IB J) as (_ & -> & _). exact E. }
    assert (LV : forall x, In x (live_expr L e []) <-> needed (msk L) x e).
    { intro x. rewrite live_expr_In. cbn. tauto. }
    assert (CL : d' = false -> forall i x, nth_error xs i = Some x ->
       needed (msk L) x e -> nth_error bs i = Some true).
    { intros D i x N1 N2. specialize (A3 D). subst bs'.
      destruct (nth_error bs i) as [[|]|] eqn:NB; [reflexivity| |].
      - rewrite <- NB. apply A2. right. split; auto. exists x. split; auto. apply LV. exact N2.
      - apply (nth_error_len _ _ _ _ i LEN) in NB. congruence. }
    destruct d'; injection U as <- <-.
    2:{ split; [apply step_refl|]. intros D bs2 i x E. injection E as <-. intros N1 N2. exact (CL eq_refl i x N1 N2). }
    split; [|discriminate].
    assert (UP : forall i, nth_error bs i = Some true -> nth_error bs' i = Some true).
    { intros i H. apply A2. auto. }
    assert (LL : lle (msk L) (msk (set f bs' L))).
    { intro g. unfold msk. rewrite get_set. destruct (Pos.eq_dec g f) as [->|N].
      - rewrite G. split; auto.
      - destruct (get g L); auto. }
    assert (TT : forall g b1 b2, get g L = Some b1 -> get g (set f bs' L) = Some b2 ->
                 trues b1 <= trues b2).
    { intros g b1 b2 H1 H2. rewrite get_set in H2. destruct (Pos.eq_dec g f) as [->|N].
      - rewrite G in H1. injection H1 as <-. injection H2 as <-. specialize (A4 eq_refl). lia.
      - rewrite H1 in H2. injection H2 as ->. lia. }
    constructor.
    - exact LL.
    - exact TT.
    - discriminate.
    - intros _. eapply total_lt; [exact LL|exact TT| |exact G|unfold set_fun_vars; apply get_set_same|].
      + apply in_map_iff. exists (f, t, xs, e). auto.
      + auto.
    - intros g b1 b2 i H1 H2 H3. unfold set_fun_vars in H2. rewrite get_set in H2.
      destruct (Pos.eq_dec g f) as [->|N].
      + rewrite G in H1. injection H1 as <-. injection H2 as <-.
        apply A2 in H3 as [H3|[_ (x & X1 & X2)]]; [auto|]. right.
        exists t, xs, e, x. split; auto. split; auto.
        eapply needed_mono; [exact LL|]. apply LV. exact X2.
      + left. rewrite H1 in H2. injection H2 as ->. exact H3.
    - intros K LK CK g. unfold msk, set_fun_vars. rewrite get_set.
      destruct (Pos.eq_dec g f) as [->|N]; [|apply LK].
      specialize (LK f) as LF. unfold msk in LF. rewrite G in LF.
      destruct (K f) as [bk|] eqn:EK; [|tauto]. destruct LF as [E1 E2].
      split; [congruence|]. intros i H. apply A2 in H as [H|[_ (x & X1 & X2)]]; [auto|].
      eapply CK; eauto. eapply needed_mono; [exact LK|]. apply LV. exact X2.
  Qed.

  Lemma live_step B : forall L diff L' d,
    linv L -> incl (flist B) (flist Ball) -> live B L diff = (L', d) ->
    exists d', d = d' || diff /\ step L L' d' /\
    (d' = false -> forall f t xs e bs i x, In (f, t, xs, e) (flist B) ->
       get f L = Some bs -> nth_error xs i = Some x ->
       needed (msk L) x e -> nth_error bs i = Some true).
  Proof.
    induction B as [f t xs e B IH|]; intros L diff L' d LI IN; cbn [live]; intro E.
    - destruct (update_live_fun L f xs (live_expr L e [])) as [L1 d1] eqn:U.
      assert (I0 : In (f, t, xs, e) (flist Ball)) by (apply IN; left; reflexivity).
      destruct (update_step L f t xs e L1 d1 LI I0 U) as [S1 C1].
      destruct (IH _ _ _ _ (linv_lle _ _ LI (st_lle _ _ _ S1))
                  (fun d I => IN d (or_intror I)) E) as (d2 & ED & S2 & C2).
      exists (d1 || d2). split; [rewrite ED; destruct d1, d2, diff; reflexivity|].
      split; [eapply step_trans; eauto|].
      intro D. apply orb_false_iff in D as [D1 D2].
      pose proof (st_same _ _ _ S1 D1) as EL. subst L1.
      intros g t' ys b bs i x [I|I] G N1 N2.
      + injection I as <- <- <- <-. eapply C1; eauto.
      + eapply C2; eauto.
    - injection E as <- <-. exists false. split; [reflexivity|]. split; [apply step_refl|].
      intros _ f t xs e bs i x [].
  Qed.

  Lemma num_vars_acc B : forall n, num_vars B n = n + num_vars B 0.
  Proof.
    induction B as [f t xs e B IH|]; intro n; cbn [num_vars]; [|lia].
    rewrite IH, (IH (0 + length xs)). lia.
  Qed.

  Lemma total_bound L : linv L -> forall B, incl (flist B) (flist Ball) ->
    total L (flist B) <= num_vars B 0.
  Proof.
    intro LI. induction B as [f t xs e B IH|]; intro IN; cbn [flist total num_vars]; [|lia].
    rewrite num_vars_acc. cbn [fname].
    specialize (IH (fun d I => IN d (or_intror I))).
    destruct (get f L) as [bs|] eqn:G; [|lia].
    destruct (LI _ _ G) as (t1 & xs1 & e1 & J & E).
    assert (I0 : In (f, t, xs, e) (flist Ball)) by (apply IN; left; reflexivity).
    destruct (flist_unique f t xs e t1 xs1 e1 I0 J) as (_ & -> & _).
    pose proof (trues_le bs). lia.
  Qed.

  (** the iteration reaches a closed assignment *)
  Lemma find_live_helper_spec n : forall L,
    linv L -> num_vars Ball 0 - total L (flist Ball) < n ->
    exists d, step L (find_live_helper Ball L n) d /\
    (forall f t xs e bs i x, In (f, t, xs, e) (flist Ball) ->
       get f (find_live_helper Ball L n) = Some bs -> nth_error xs i = Some x ->
       needed (msk (find_live_helper Ball L n)) x e -> nth_error bs i = Some true).
  Proof.
    induction n as [|n IH]; intros L LI LT; [lia|]. cbn [find_live_helper].
    destruct (live Ball L false) as [L1 d] eqn:E.
    destruct (live_step Ball L false L1 d LI (incl_refl _) E) as (d' & ED & S & C).
    rewrite orb_false_r in ED. subst d'. destruct d.
    - pose proof (linv_lle _ _ LI (st_lle _ _ _ S)) as LI1.
      pose proof (st_lt _ _ _ S eq_refl). pose proof (total_bound L1 LI1 Ball (incl_refl _)).
      destruct (IH L1 LI1) as (d2 & S2 & C2); [lia|].
      exists (true || d2). split; [eapply step_trans; eauto|exact C2].
    - pose proof (st_same _ _ _ S eq_refl) as EL. subst L1.
      exists false. split; [exact S|]. apply C. reflexivity.
  Qed.
End LIVE.

Lemma get_bool_false_spec A (xs : list A) :
  length (get_bool_false xs) = length xs /\
  forall i, nth_error (get_bool_false xs) i <> Some true.
Proof.
  induction xs as [|x xs [IH1 IH2]]; cbn; [split; [auto|]; destruct i; discriminate|].
  split; [congruence|]. intros [|i]; cbn; [discriminate|apply IH2].
Qed.

Lemma init_spec B : forall m f bs, NoDup (fnames B) ->
  get f (init_live_fun_aux m B) = Some bs ->
  (get f m = Some bs /\ ~ In f (fnames B)) \/
  exists t xs e, In (f, t, xs, e) (flist B) /\ bs = get_bool_false xs.
Proof.
  induction B as [g t xs e B IH|]; intros m f bs ND; cbn [init_live_fun_aux fnames flist].
  - inversion ND as [|? ? NI ND']; subst. intro H. apply (IH _ _ _ ND') in H as [[H NI2]|H].
    + unfold set_fun_vars in H. rewrite get_set in H. destruct (Pos.eq_dec f g) as [->|N].
      * right. injection H as <-. exists t, xs, e. split; [left|]; auto.
      * left. split; auto. intros [|]; auto.
    + right. destruct H as (t1 & xs1 & e1 & I & E). exists t1, xs1, e1. split; [right|]; auto.
  - auto.
Qed.

Lemma init_dom B : forall m f, In f (fnames B) \/ get f m <> None ->
  get f (init_live_fun_aux m B) <> None.
Proof.
  induction B as [g t xs e B IH|]; intros m f; cbn [init_live_fun_aux fnames].
  - intros [[->|I]|H]; apply IH; auto; right; unfold set_fun_vars; rewrite get_set.
    + destruct (Pos.eq_dec f f); congruence.
    + destruct (Pos.eq_dec f g); congruence.
  - intros [[]|H]; auto.
Qed.

Lemma trues_false A (xs : list A) : trues (get_bool_false xs) = 0.
Proof. induction xs; cbn; auto. Qed.

Section ANALYSIS.
  Variables (B : fundefs) (e : exp).
  Hypothesis ND : NoDup (fnames B).
  Let L := find_live (Efun B e).
  Let L0 := escaping_fun_exp e (escaping_fun_fundefs B (init_live_fun B)).

  Let L0_spec f bs : get f L0 = Some bs <->
    get f (init_live_fun B) = Some bs /\ ~ escapes_funs f B /\ ~ escapes f e.
  Proof.
    unfold L0. rewrite (proj1 escaping_spec), (proj2 escaping_spec). tauto.
  Qed.

  Let L0_init f bs : get f L0 = Some bs ->
    exists t xs b, In (f, t, xs, b) (flist B) /\ bs = get_bool_false xs.
  Proof.
    intro H. apply L0_spec in H as [H _].
    apply (init_spec B [] f bs ND) in H as [[H _]|H]; [discriminate|exact H].
  Qed.

  Let L0_linv : linv B L0.
  Proof.
    intros f bs H. destruct (L0_init f bs H) as (t & xs & b & I & ->).
    exists t, xs, b. split; auto. apply get_bool_false_spec.
  Qed.

  Let main : exists d, step B L0 L d /\
    (forall f t xs b bs i x, In (f, t, xs, b) (flist B) ->
       get f L = Some bs -> nth_error xs i = Some x ->
       needed (msk L) x b -> nth_error bs i = Some true).
  Proof.
    unfold L, find_live. fold L0.
    apply (find_live_helper_spec B ND (num_vars B 0 + 1) L0 L0_linv). lia.
  Qed.

  Lemma analysis_dom f : msk L f <> None <->
    In f (fnames B) /\ ~ escapes_funs f B /\ ~ escapes f e.
  Proof.
    destruct main as (d & S & _). pose proof (st_lle _ _ _ _ S f) as X. unfold msk in *.
    split.
    - intro H. destruct (get f L) as [bs|] eqn:G; [|congruence].
      destruct (get f L0) as [b0|] eqn:G0; [|tauto].
      destruct (L0_init f b0 G0) as (t & xs & b & I & _).
      apply L0_spec in G0 as [_ H0]. split; [|exact H0].
      rewrite fnames_flist. apply in_map_iff. exists (f, t, xs, b). auto.
    - intros [I H]. pose proof (init_dom B [] f (or_introl I)) as D. fold (init_live_fun B) in D.
      destruct (get f (init_live_fun B)) as [b0|] eqn:G; [|congruence].
      assert (G0 : get f L0 = Some b0) by (apply L0_spec; auto).
      rewrite G0 in X. destruct (get f L); [discriminate|tauto].
  Qed.

  Lemma analysis_good : good_masks B e (msk L).
  Proof.
    split.
    - intros f bs H. assert (X : msk L f <> None) by congruence.
      apply analysis_dom in X. tauto.
    - intros f t xs b bs I H.
      destruct main as (d & S & C). split; [|intros; eapply C; eauto].
      destruct (linv_lle B L0 L L0_linv (st_lle _ _ _ _ S) f bs H) as (t1 & xs1 & e1 & J & E).
      destruct (flist_unique B ND _ _ _ _ _ _ _ I J) as (_ & -> & _). exact E.
  Qed.

  (** every kept bit is needed *)
  Lemma analysis_exact f t xs b bs i :
    In (f, t, xs, b) (flist B) -> msk L f = Some bs -> nth_error bs i = Some true ->
    exists x, nth_error xs i = Some x /\ needed (msk L) x b.
  Proof.
    intros I H N. destruct main as (d & S & _).
    pose proof (st_lle _ _ _ _ S f) as X. unfold msk in X, H. rewrite H in X.
    destruct (get f L0) as [b0|] eqn:G0; [|tauto].
    destruct (st_new _ _ _ _ S f b0 bs i G0 H N) as [N0|(t1 & xs1 & e1 & x & J1 & J2 & J3)].
    - destruct (L0_init _ _ G0) as (t1 & xs1 & e1 & _ & ->).
      exfalso. exact (proj2 (get_bool_false_spec _ xs1) i N0).
    - destruct (flist_unique B ND _ _ _ _ _ _ _ I J1) as (_ & -> & ->). eauto.
  Qed.

  (** no correct answer drops more *)
  Lemma analysis_least K : good_masks B e K -> drops_more (msk L) K.
  Proof.
    intros [K1 K2] f bs2 i HK N.
    (* complete [K] to the domain of the analysis *)
    set (K' := fun g => match msk L g, K g with
                        | Some bs, None => Some (List.map (fun _ => true) bs)
                        | Some _, Some bk => Some bk
                        | None, _ => None
                        end).
    destruct main as (d & S & _).
    assert (NK : forall x b, needed K' x b -> needed K' x b) by auto.
    assert (DOM : forall g, K g <> None -> msk L g <> None).
    { intros g H. destruct (K g) as [bk|] eqn:E; [|congruence].
      apply analysis_dom. destruct (K1 g bk E) as (A1 & A2 & A3). auto. }
    assert (NE : forall x b, needed K' x b -> needed K x b).
    { intro x.
      assert (A : forall g ys, needed_args K' x g ys -> needed_args K x g ys).
      { intros g ys. unfold needed_args, K'. destruct (msk L g) as [bl|] eqn:EL.
        - destruct (K g) as [bk|] eqn:EK; [auto|]. intros (j & J1 & J2). 
          eapply nth_error_In; eauto.
        - destruct (K g) as [bk|] eqn:EK; [|auto].
          exfalso. apply (DOM g); congruence. }
      apply (exp_ind2 (fun b => needed K' x b -> needed K x b) (fun _ => True)); auto;
        try (intros; cbn [needed] in *; intuition; fail).
      intros y l F. rewrite !needed_Ecase. intros [|N']; auto. right.
      induction F as [|p l Hp F IH]; cbn [needed_case] in *; intuition. }
    assert (X : lle (msk L) K').
    { apply (st_least _ _ _ _ S).
      - intro g. pose proof (st_lle _ _ _ _ S g) as Y. unfold K', msk in *.
        destruct (get g L0) as [b0|] eqn:G0.
        + destruct (get g L) as [bl|] eqn:GL; [|tauto]. destruct Y as [Y1 Y2].
          destruct (L0_init _ _ G0) as (t1 & xs1 & e1 & J & ->).
          destruct (get_bool_false_spec _ xs1) as [Z1 Z2].
          destruct (K g) as [bk|] eqn:EK.
          * split; [|intros j Hj; exfalso; exact (Z2 j Hj)].
            destruct (K2 g t1 xs1 e1 bk J EK) as [E _]. congruence.
          * rewrite map_length. split; [congruence|]. intros j Hj; exfalso; exact (Z2 j Hj).
        + destruct (get g L); [tauto|]. auto.
      - intros g t xs b bs j x I EK' NX ND'. unfold K' in EK'.
        destruct (msk L g) as [bl|] eqn:EL; [|discriminate].
        destruct (K g) as [bk|] eqn:EK; injection EK' as <-.
        + destruct (K2 g t xs b bk I EK) as [_ C]. eapply C; eauto.
        + destruct (analysis_good) as [_ G2]. destruct (G2 g t xs b bl I EL) as [LEN _].
          destruct (nth_error bl j) as [bb|] eqn:NB.
          * rewrite nth_error_map, NB. reflexivity.
          * apply (nth_error_len _ _ _ _ j LEN) in NB. congruence. }
    specialize (X f). unfold K' in X.
    assert (DF : msk L f <> None) by (apply DOM; congruence).
    destruct (msk L f) as [bl|] eqn:EL; [|congruence]. rewrite HK in X. destruct X as [X1 X2].
    exists bl. split; [reflexivity|]. destruct (nth_error bl i) as [[|]|] eqn:NB.
    - rewrite (X2 i NB) in N. discriminate.
    - reflexivity.
    - apply (nth_error_len _ _ _ _ i X1) in NB. congruence.
  Qed.
End ANALYSIS.
