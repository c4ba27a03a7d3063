(* Closure conversion preserves evaluation: simulation. *)
From Coq Require Import List Arith NArith PArith Bool Lia.
From Verif Require Import ANF_Syntax ANF_Eval ANF_Spec ANF_Scope ANF_EvalProofs ANF_FreeProofs CC_Model CC_Spec.
Import ListNotations.

(* ** Lists *)
Lemma insert_In x y l : In x (insert y l) <-> x = y \/ In x l.
Proof.
  induction l as [|z l IH]; cbn [insert In]; [intuition|].
  destruct (Pos.leb y z); cbn [In]; [intuition|]. rewrite IH. intuition.
Qed.
Lemma elements_In x l : In x (elements l) <-> In x l.
Proof.
  induction l as [|z l IH]; [reflexivity|]. change (elements (z :: l)) with (insert z (elements l)).
  rewrite insert_In, IH. cbn [In]. intuition.
Qed.
Lemma insert_NoDup y l : NoDup l -> ~ In y l -> NoDup (insert y l).
Proof.
  induction l as [|z l IH]; cbn [insert]; intros N I; [constructor; auto|].
  destruct (Pos.leb y z); [constructor; auto|]. inversion N; subst.
  constructor; [|apply IH; auto; cbn in I; tauto].
  rewrite insert_In. intros [->|J]; [cbn in I; tauto|auto].
Qed.
Lemma elements_NoDup l : NoDup l -> NoDup (elements l).
Proof.
  induction 1 as [|z l I N IH]; [constructor|]. change (elements (z :: l)) with (insert z (elements l)).
  apply insert_NoDup; [auto|]. rewrite elements_In. exact I.
Qed.

Lemma nthN_In A (l : list A) : forall n x, nthN l n = Some x -> In x l.
Proof.
  induction l as [|a l IH]; cbn; intros n x H; [discriminate|].
  destruct (N.eqb n 0); [left; congruence|right; eauto].
Qed.

(* the keys of the maps *)
Lemma add_fvs_get l : forall n m x,
  (In x l -> exists k, get x (fst (add_fvs l n m)) = Some (FVar (n + k)) /\ nthN l k = Some x) /\
  (~ In x l -> get x (fst (add_fvs l n m)) = get x m).
Proof.
  induction l as [|a l IH]; intros n m x; cbn [add_fvs].
  - split; [intros []|reflexivity].
  - destruct (IH (n + 1)%N (set a (FVar n) m) x) as [H1 H2]. split.
    + intro I. destruct (in_dec Pos.eq_dec x l) as [J|J].
      * destruct (H1 J) as (k & G & E). exists (k + 1)%N. rewrite G. split; [f_equal; f_equal; lia|].
        cbn [nthN]. replace (N.eqb (k + 1) 0) with false by (symmetry; apply N.eqb_neq; lia).
        replace (k + 1 - 1)%N with k by lia. exact E.
      * destruct I as [->|I]; [|contradiction]. rewrite (H2 J), get_set_same. exists 0%N.
        split; [f_equal; f_equal; lia|reflexivity].
    + intro I. cbn [In] in I. rewrite H2 by tauto. apply get_set_other. intros ->. tauto.
Qed.
Lemma add_fvs_snd l : forall n m, snd (add_fvs l n m) = (n + N.of_nat (length l))%N.
Proof. induction l as [|a l IH]; intros n m; cbn [add_fvs length]; [cbn; lia|]. rewrite IH. lia. Qed.
Lemma add_params_get l m x :
  get x (add_params l m) = if in_dec Pos.eq_dec x l then Some BoundVar else get x m.
Proof.
  induction l as [|a l IH]; cbn [add_params].
  - destruct (in_dec Pos.eq_dec x []) as [[]|]. reflexivity.
  - rewrite get_set, IH. destruct (Pos.eq_dec x a) as [->|N];
      destruct (in_dec Pos.eq_dec _ (a :: l)) as [I|I]; cbn [In] in I;
      try (exfalso; tauto); try reflexivity.
    + destruct (in_dec Pos.eq_dec x l) as [J|J]; [reflexivity|]. exfalso. destruct I; [congruence|contradiction].
    + destruct (in_dec Pos.eq_dec x l) as [J|J]; [exfalso; tauto|reflexivity].
Qed.
Lemma add_closures_get B m G x :
  get x (add_closures B m G) = if in_dec Pos.eq_dec x (fnames B) then Some (MRFun G) else get x m.
Proof.
  induction B as [f t xs e B IH|]; cbn [add_closures fnames].
  - rewrite get_set, IH. destruct (Pos.eq_dec x f) as [->|N];
      destruct (in_dec Pos.eq_dec _ (f :: fnames B)) as [I|I]; cbn [In] in I;
      try (exfalso; tauto); try reflexivity.
    + destruct (in_dec Pos.eq_dec x (fnames B)) as [J|J]; [reflexivity|]. exfalso. destruct I; [congruence|contradiction].
    + destruct (in_dec Pos.eq_dec x (fnames B)) as [J|J]; [exfalso; tauto|reflexivity].
  - destruct (in_dec Pos.eq_dec x []) as [[]|]. reflexivity.
Qed.
Lemma add_gfuns_get B g b x :
  get x (add_closures_gfuns B g b) = if b then (if in_dec Pos.eq_dec x (fnames B) then Some GFun else get x g) else get x g.
Proof.
  destruct b.
  - induction B as [f t xs e B IH|]; cbn [add_closures_gfuns fnames].
    + rewrite get_set, IH. destruct (Pos.eq_dec x f) as [->|N];
        destruct (in_dec Pos.eq_dec _ (f :: fnames B)) as [I|I]; cbn [In] in I;
        try (exfalso; tauto); try reflexivity.
      * destruct (in_dec Pos.eq_dec x (fnames B)) as [J|J]; [reflexivity|]. exfalso. destruct I; [congruence|contradiction].
      * destruct (in_dec Pos.eq_dec x (fnames B)) as [J|J]; [exfalso; tauto|reflexivity].
    + destruct (in_dec Pos.eq_dec x []) as [[]|]. reflexivity.
  - destruct B; reflexivity.
Qed.

Lemma env_vars_In B g x : In x (env_vars B g) <-> free_funs x B /\ get x g = None.
Proof.
  unfold env_vars. rewrite filter_In, elements_In, fundefs_fv_spec.
  destruct (get x g); intuition discriminate.
Qed.
Lemma no_vars_true l : no_vars l = true <-> l = [].
Proof. destruct l; cbn; intuition discriminate. Qed.

Lemma fnames_bv B x : In x (fnames B) -> In x (bv_funs B).
Proof.
  induction B as [f t xs e B IH|]; cbn [fnames bv_funs]; [|intros []].
  intros [->|I]; [left; reflexivity|right]. apply in_or_app. right. apply in_or_app. right. auto.
Qed.

Lemma NoDup_app_l A (l1 l2 : list A) : NoDup (l1 ++ l2) -> NoDup l1.
Proof. induction l1 as [|a l1 IH]; cbn; [constructor|]. inversion 1; subst. constructor; [|auto]. intro I. apply H2. apply in_or_app. auto. Qed.
Lemma NoDup_app_r A (l1 l2 : list A) : NoDup (l1 ++ l2) -> NoDup l2.
Proof. induction l1 as [|a l1 IH]; cbn; [auto|]. inversion 1; subst. auto. Qed.
Lemma NoDup_app_disj A (l1 l2 : list A) x : NoDup (l1 ++ l2) -> In x l1 -> ~ In x l2.
Proof.
  induction l1 as [|a l1 IH]; cbn; [intros _ []|]. inversion 1; subst. intros [->|I]; [|auto].
  intro J. apply H2. apply in_or_app. auto.
Qed.

(* a body of a bundle *)
Lemma find_def_bv f B t xs e : find_def f B = Some (t, xs, e) -> NoDup (bv_funs B) ->
  NoDup (xs ++ bv e) /\ (forall x, In x (xs ++ bv e) -> In x (bv_funs B) /\ ~ In x (fnames B)) /\ In f (fnames B).
Proof.
  induction B as [g t' ys b B IH|]; cbn [find_def bv_funs fnames]; [|discriminate].
  intros H N. inversion N as [|? ? NI N']; subst. destruct (Pos.eq_dec f g) as [->|D].
  - assert (t' = t /\ ys = xs /\ b = e) by (repeat split; congruence). destruct H0 as (-> & -> & ->).
    split; [rewrite app_assoc in N'; exact (NoDup_app_l _ _ _ N')|]. split; [|left; reflexivity].
    intros x I. assert (J : In x (xs ++ bv e ++ bv_funs B)) by (rewrite app_assoc; apply in_or_app; auto).
    split; [right; exact J|]. intros [->|F]; [contradiction|]. apply fnames_bv in F.
    rewrite app_assoc in N'. exact (NoDup_app_disj _ _ _ _ N' I F).
  - destruct (IH H) as (H1 & H2 & H3); [exact (NoDup_app_r _ _ _ (NoDup_app_r _ _ _ N'))|].
    split; [exact H1|]. split; [|right; exact H3]. intros x I. destruct (H2 x I) as [J K].
    split; [right; apply in_or_app; right; apply in_or_app; right; exact J|].
    intros [->|F]; [|auto]. apply NI. apply in_or_app; right; apply in_or_app; right; exact J.
Qed.

(* ** The state only grows *)
Section Sim.
  Variable clo_tag : ctor_tag.
  Notation conv := (exp_closure_conv clo_tag).
  Notation convf := (fundefs_closure_conv clo_tag).
  Notation gvar := (get_var clo_tag).
  Notation gvars := (get_vars clo_tag).

  Fixpoint conv_pats (l : list (ctor_tag * exp)) map g c G (s : cst) : list (ctor_tag * exp) * cst :=
    match l with
    | [] => ([], s)
    | (y, e) :: xs =>
      let '(e1, f1, s) := conv e map g c G s in
      let '(xs', s) := conv_pats xs map g c G s in
      ((y, f1 e1) :: xs', s)
    end.
  Lemma conv_case x l map g c G s :
    conv (Ecase x l) map g c G s =
    let '(l', s1) := conv_pats l map g c G s in
    let '(x', f1, s2) := gvar x map g c G s1 in (Ecase x' l', f1, s2).
  Proof.
    cbn [exp_closure_conv].
    match goal with |- (let '(_, _) := ?F l s in _) = _ => assert (E : forall l s, F l s = conv_pats l map g c G s) end.
    { clear. induction l as [|[y e] l IH]; intro s; cbn [conv_pats]; [reflexivity|].
      destruct (conv e map g c G s) as [[e1 f1] s1]. rewrite IH. reflexivity. }
    rewrite E. reflexivity.
  Qed.

  (* decompose a run of the pass *)
  Ltac dlet H :=
    repeat match type of H with
    | (let '(_, _) := ?A in _) = _ => let E := fresh "E" in destruct A as [? ?] eqn:E
    | (let (_, _) := ?A in _) = _ => let E := fresh "E" in destruct A as [? ?] eqn:E
    | (match ?A with (_, _) => _ end) = _ => let E := fresh "E" in destruct A as [? ?] eqn:E
    end.

  Lemma pair3 A B C (a a' : A) (b b' : B) (c c' : C) : (a, b, c) = (a', b', c') -> a = a' /\ b = b' /\ c = c'.
  Proof. intro H. injection H. auto. Qed.
  Lemma pair2 A B (a a' : A) (b b' : B) : (a, b) = (a', b') -> a = a' /\ b = b'.
  Proof. intro H. injection H. auto. Qed.
  Ltac ex_all := repeat match goal with
    | |- ex _ => eexists
    | |- ?A /\ _ => split; [first [eassumption|reflexivity]|]
    end; first [eassumption|reflexivity].
  Ltac inv3 H := dlet H; apply pair3 in H; destruct H as (? & ? & ?); subst; ex_all.

  Lemma gvars_cons x xs map g c G s ys f s' : gvars (x :: xs) map g c G s = (ys, f, s') ->
    exists y f1 s1 ys' f2, gvar x map g c G s = (y, f1, s1) /\ gvars xs map g c G s1 = (ys', f2, s') /\
      ys = y :: ys' /\ f = (fun e => f1 (f2 e)).
  Proof. cbn [get_vars]. intro H. inv3 H. Qed.
  Lemma conv_constr x t ys e map g c G s e1 f1 s1 : conv (Econstr x t ys e) map g c G s = (e1, f1, s1) ->
    exists ys' s' e2 f2, gvars ys map g c G s = (ys', f1, s') /\
      conv e (set x BoundVar map) g c G s' = (e2, f2, s1) /\ e1 = Econstr x t ys' (f2 e2).
  Proof. cbn [exp_closure_conv]. intro H. inv3 H. Qed.
  Lemma conv_case_inv x l map g c G s e1 f1 s1 : conv (Ecase x l) map g c G s = (e1, f1, s1) ->
    exists l' s' x', conv_pats l map g c G s = (l', s') /\ gvar x map g c G s' = (x', f1, s1) /\ e1 = Ecase x' l'.
  Proof. rewrite conv_case. intro H. inv3 H. Qed.
  Lemma conv_proj x t n y e map g c G s e1 f1 s1 : conv (Eproj x t n y e) map g c G s = (e1, f1, s1) ->
    exists y' s' e2 f2, gvar y map g c G s = (y', f1, s') /\
      conv e (set x BoundVar map) g c G s' = (e2, f2, s1) /\ e1 = Eproj x t n y' (f2 e2).
  Proof. cbn [exp_closure_conv]. intro H. inv3 H. Qed.
  Lemma conv_letapp x f ft ys e map g c G s e1 f1 s1 : conv (Eletapp x f ft ys e) map g c G s = (e1, f1, s1) ->
    exists f' g1 sa ys' g2 sb ptr sc G' sd e2 f2,
      gvar f map g c G s = (f', g1, sa) /\ gvars ys map g c G sa = (ys', g2, sb) /\
      new_var sb = (ptr, sc) /\ new_var sc = (G', sd) /\
      conv e (set x BoundVar map) g c G sd = (e2, f2, s1) /\
      e1 = Eproj ptr clo_tag 0 f' (Eproj G' clo_tag 1 f' (Eletapp x ptr ft (G' :: ys') (f2 e2))) /\
      f1 = (fun e => g1 (g2 e)).
  Proof. cbn [exp_closure_conv]. intro H. inv3 H. Qed.
  Lemma conv_app f ft ys map g c G s e1 f1 s1 : conv (Eapp f ft ys) map g c G s = (e1, f1, s1) ->
    exists f' g1 sa ys' g2 sb ptr sc G',
      gvar f map g c G s = (f', g1, sa) /\ gvars ys map g c G sa = (ys', g2, sb) /\
      new_var sb = (ptr, sc) /\ new_var sc = (G', s1) /\
      e1 = Eproj ptr clo_tag 0 f' (Eproj G' clo_tag 1 f' (Eapp ptr ft (G' :: ys'))) /\
      f1 = (fun e => g1 (g2 e)).
  Proof. cbn [exp_closure_conv]. intro H. inv3 H. Qed.
  Lemma conv_fun B e map g c G s e1 f1 s1 : conv (Efun B e) map g c G s = (e1, f1, s1) ->
    exists G' sa ys' g' sb c' sc B' sd e2 f2,
      new_var s = (G', sa) /\ gvars (env_vars B g) map g c G sa = (ys', g', sb) /\
      new_record (N.of_nat (length (env_vars B g))) sb = (c', sc) /\
      convf B B (fst (add_fvs (env_vars B g) 0 [])) (add_closures_gfuns B g (no_vars (env_vars B g))) c' sc = (B', sd) /\
      conv e (add_closures B map G') (add_closures_gfuns B g (no_vars (env_vars B g))) c G sd = (e2, f2, s1) /\
      e1 = Efun B' (f2 e2) /\ f1 = (fun e => g' (Econstr G' c' ys' e)).
  Proof.
    cbn [exp_closure_conv]. unfold make_env. intro H. pose proof (add_fvs_snd (env_vars B g) 0 []) as S.
    destruct (add_fvs (env_vars B g) 0 []) as [mp n]. cbn [fst snd] in *. rewrite N.add_0_l in S. subst n.
    destruct (new_var s) as [G' sa] eqn:EN. destruct (gvars (env_vars B g) map g c G sa) as [[ys' g'] sb] eqn:EG.
    destruct (new_record (N.of_nat (length (env_vars B g))) sb) as [c' sc] eqn:ER.
    inv3 H.
  Qed.
  Lemma conv_prim_val x p e map g c G s e1 f1 s1 : conv (Eprim_val x p e) map g c G s = (e1, f1, s1) ->
    exists e2 f2, conv e (set x BoundVar map) g c G s = (e2, f2, s1) /\ e1 = Eprim_val x p (f2 e2) /\ f1 = (fun e => e).
  Proof. cbn [exp_closure_conv]. intro H. inv3 H. Qed.
  Lemma conv_prim x p ys e map g c G s e1 f1 s1 : conv (Eprim x p ys e) map g c G s = (e1, f1, s1) ->
    exists ys' s' e2 f2, gvars ys map g c G s = (ys', f1, s') /\
      conv e (set x BoundVar map) g c G s' = (e2, f2, s1) /\ e1 = Eprim x p ys' (f2 e2).
  Proof. cbn [exp_closure_conv]. intro H. inv3 H. Qed.
  Lemma conv_halt x map g c G s e1 f1 s1 : conv (Ehalt x) map g c G s = (e1, f1, s1) ->
    exists x', gvar x map g c G s = (x', f1, s1) /\ e1 = Ehalt x'.
  Proof. cbn [exp_closure_conv]. intro H. inv3 H. Qed.
  Lemma pats_cons y e l map g c G s l' s' : conv_pats ((y, e) :: l) map g c G s = (l', s') ->
    exists e1 f1 s1 l1, conv e map g c G s = (e1, f1, s1) /\ conv_pats l map g c G s1 = (l1, s') /\ l' = (y, f1 e1) :: l1.
  Proof. cbn [conv_pats]. intro H. dlet H. apply pair2 in H. destruct H as [<- <-]. ex_all. Qed.
  Lemma convf_cons f t ys e B0 B map g c s B1 s1 : convf B0 (Fcons f t ys e B) map g c s = (B1, s1) ->
    exists G sa e1 f1 sb B', new_var s = (G, sa) /\
      conv e (add_params ys (add_closures B0 map G)) g c G sa = (e1, f1, sb) /\
      convf B0 B map g c sb = (B', s1) /\ B1 = Fcons f t (G :: ys) (f1 e1) B'.
  Proof. cbn [fundefs_closure_conv]. intro H. dlet H. apply pair2 in H. destruct H as [<- <-]. ex_all. Qed.
  
  Definition le (s s' : cst) : Prop := (nv s <= nv s')%positive.
  Lemma gvar_le x map g c G s y f s' : gvar x map g c G s = (y, f, s') -> le s s'.
  Proof.
    unfold get_var, le. destruct (get x map) as [[k|env|]|]; [| | |destruct (get x g) as [[]|]];
      unfold new_var, new_record; cbn [nv]; intro H; assert (s' = snd (y, f, s')) as -> by reflexivity; rewrite <- H; cbn [snd nv]; lia.
  Qed.
  Lemma gvars_le xs map g c G : forall s ys f s', gvars xs map g c G s = (ys, f, s') -> le s s'.
  Proof.
    induction xs as [|x xs IH]; intros s ys f s' H; cbn [get_vars] in H.
    - assert (s' = s) by congruence. subst. unfold le. lia.
    - apply gvars_cons in H as (y & f1 & s1 & ys' & f2 & E1 & E2 & -> & ->). apply IH in E2. apply gvar_le in E1. unfold le in *. lia.
  Qed.

  Lemma new_var_le s x s' : new_var s = (x, s') -> x = nv s /\ nv s' = (nv s + 1)%positive.
  Proof. unfold new_var. intro H. apply pair2 in H as [<- <-]. auto. Qed.
  Lemma new_record_nv n s c s' : new_record n s = (c, s') -> nv s' = nv s.
  Proof. unfold new_record. intro H. apply pair2 in H as [<- <-]. reflexivity. Qed.

  Lemma conv_le :
    (forall e map g c G s e1 f1 s1, conv e map g c G s = (e1, f1, s1) -> le s s1) /\
    (forall B B0 map g c s B1 s1, convf B0 B map g c s = (B1, s1) -> le s s1).
  Proof.
    apply exp_fundefs_ind; unfold le in *.
    - intros x t ys e IH map g c G s e1 f1 s1 H. apply conv_constr in H as (ys' & s' & e2 & f2 & H1 & H2 & _).
      apply gvars_le in H1. apply IH in H2. unfold le in *. lia.
    - intros x l IH map g c G s e1 f1 s1 H. apply conv_case_inv in H as (l' & s' & x' & H1 & H2 & _).
      apply gvar_le in H2. assert (nv s <= nv s')%positive; [|unfold le in *; lia]. clear H2. revert s l' H1.
      induction IH as [|[y e] l IH1 _ IH2]; intros s l' H1.
      + apply pair2 in H1 as [_ <-]. lia.
      + apply pats_cons in H1 as (e2 & f2 & s2 & l2 & A & B & _). apply IH1 in A. apply IH2 in B. lia.
    - intros x t n y e IH map g c G s e1 f1 s1 H. apply conv_proj in H as (ys' & s' & e2 & f2 & H1 & H2 & _).
      apply gvar_le in H1. apply IH in H2. unfold le in *. lia.
    - intros x f t ys e IH map g c G s e1 f1 s1 H.
      apply conv_letapp in H as (f' & g1 & sa & ys' & g2 & sb & ptr & sc & G' & sd & e2 & f2 & H1 & H2 & H3 & H4 & H5 & _).
      apply gvar_le in H1. apply gvars_le in H2. apply new_var_le in H3 as [_ H3]. apply new_var_le in H4 as [_ H4]. apply IH in H5. unfold le in *. lia.
    - intros B e IHB IH map g c G s e1 f1 s1 H.
      apply conv_fun in H as (G' & sa & ys' & g' & sb & c' & sc & B' & sd & e2 & f2 & H1 & H2 & H3 & H4 & H5 & _).
      apply new_var_le in H1 as [_ H1]. apply gvars_le in H2. apply new_record_nv in H3. apply IHB in H4. apply IH in H5. unfold le in *. lia.
    - intros f t ys map g c G s e1 f1 s1 H.
      apply conv_app in H as (f' & g1 & sa & ys' & g2 & sb & ptr & sc & G' & H1 & H2 & H3 & H4 & _).
      apply gvar_le in H1. apply gvars_le in H2. apply new_var_le in H3 as [_ H3]. apply new_var_le in H4 as [_ H4]. unfold le in *. lia.
    - intros x p e IH map g c G s e1 f1 s1 H. apply conv_prim_val in H as (e2 & f2 & H1 & _). apply IH in H1. exact H1.
    - intros x p ys e IH map g c G s e1 f1 s1 H. apply conv_prim in H as (ys' & s' & e2 & f2 & H1 & H2 & _).
      apply gvars_le in H1. apply IH in H2. unfold le in *. lia.
    - intros x map g c G s e1 f1 s1 H. apply conv_halt in H as (x' & H1 & _). apply gvar_le in H1. exact H1.
    - intros f t ys e B IH IHB B0 map g c s B1 s1 H.
      apply convf_cons in H as (G & sa & e1 & f1 & sb & B' & H1 & H2 & H3 & _).
      apply new_var_le in H1 as [_ H1]. apply IH in H2. apply IHB in H3. lia.
    - intros B0 map g c s B1 s1 H. cbn [fundefs_closure_conv] in H. apply pair2 in H as [_ <-]. lia.
  Qed.
  Lemma pats_le l map g c G : forall s l' s', conv_pats l map g c G s = (l', s') -> le s s'.
  Proof.
    unfold le. induction l as [|[y e] l IH]; intros s l' s' H.
    - apply pair2 in H as [_ <-]. lia.
    - apply pats_cons in H as (e2 & f2 & s2 & l2 & A & B & _). apply (proj1 conv_le) in A. apply IH in B. unfold le in *. lia.
  Qed.

  (* a branch, a function after conversion *)
  Lemma pats_find map g c G t : forall l s l' s' e, conv_pats l map g c G s = (l', s') -> findtag l t = Some e ->
    exists sa e1 f1 sb, conv e map g c G sa = (e1, f1, sb) /\ le s sa /\ le sb s' /\ findtag l' t = Some (f1 e1).
  Proof.
    unfold le. induction l as [|[y a] l IH]; intros s l' s' e H F; cbn [findtag] in F; [discriminate|].
    apply pats_cons in H as (e2 & f2 & s2 & l2 & A & B & ->). cbn [findtag].
    destruct (Pos.eq_dec y t).
    - assert (a = e) by congruence. subst a. exists s, e2, f2, s2. split; [exact A|]. apply pats_le in B. unfold le in B. repeat split; [lia|lia].
    - destruct (IH _ _ _ _ B F) as (sa & e1 & f1 & sb & C1 & C2 & C3 & C4). exists sa, e1, f1, sb.
      apply (proj1 conv_le) in A. unfold le in A. repeat split; auto. lia.
  Qed.
  Lemma pats_tags map g c G cenv t : forall l s l' s', conv_pats l map g c G s = (l', s') ->
    caseConsistent_f cenv l' t = caseConsistent_f cenv l t.
  Proof.
    induction l as [|[y a] l IH]; intros s l' s' H.
    - apply pair2 in H as [<- _]. reflexivity.
    - apply pats_cons in H as (e2 & f2 & s2 & l2 & A & B & ->). cbn [caseConsistent_f]. rewrite (IH _ _ _ B). reflexivity.
  Qed.
  Lemma convf_find map g c B0 f t xs e : forall B s B1 s1, convf B0 B map g c s = (B1, s1) -> find_def f B = Some (t, xs, e) ->
    exists sa G sb e1 f1 sc, le s sa /\ new_var sa = (G, sb) /\
      conv e (add_params xs (add_closures B0 map G)) g c G sb = (e1, f1, sc) /\ le sc s1 /\
      find_def f B1 = Some (t, G :: xs, f1 e1).
  Proof.
    unfold le. induction B as [f' t' xs' e' B IH|]; intros s B1 s1 H F; cbn [find_def] in F; [|discriminate].
    apply convf_cons in H as (G & sa & e1 & f1 & sb & B' & H1 & H2 & H3 & ->). cbn [find_def].
    destruct (Pos.eq_dec f f').
    - assert (t' = t /\ xs' = xs /\ e' = e) by (repeat split; congruence). destruct H as (-> & -> & ->).
      exists s, G, sa, e1, f1, sb. apply (proj2 conv_le) in H3. unfold le in H3. repeat split; auto; lia.
    - destruct (IH _ _ _ H3 F) as (sa' & G' & sb' & e1' & f1' & sc' & A1 & A2 & A3 & A4 & A5).
      exists sa', G', sb', e1', f1', sc'. apply new_var_le in H1 as [_ H1]. apply (proj1 conv_le) in H2. unfold le in H2. repeat split; auto. lia.
  Qed.
  Lemma convf_fnames map g c B0 : forall B s B1 s1, convf B0 B map g c s = (B1, s1) -> fnames B1 = fnames B.
  Proof.
    induction B as [f' t' xs' e' B IH|]; intros s B1 s1 H.
    - apply convf_cons in H as (G & sa & e1 & f1 & sb & B' & H1 & H2 & H3 & ->). cbn [fnames]. rewrite (IH _ _ _ H3). reflexivity.
    - apply pair2 in H as [<- _]. reflexivity.
  Qed.

  (* ** Scopes of the source *)
  Variable N0 : positive.

  Definition okexp (g : GFunMap) (e : exp) : Prop :=
    NoDup (bv e) /\ (forall x, In x (bv e) -> (x < N0)%positive /\ get x g = None) /\ (forall x, free x e -> (x < N0)%positive).
  Definition okfuns (g : GFunMap) (B : fundefs) : Prop :=
    NoDup (bv_funs B) /\ (forall x, In x (bv_funs B) -> (x < N0)%positive /\ get x g = None) /\ (forall x, free_funs x B -> (x < N0)%positive).

  Lemma okexp_bind x e g (e0 : exp) : bv e0 = x :: bv e -> (forall y, y <> x -> free y e -> free y e0) -> okexp g e0 ->
    okexp g e /\ (x < N0)%positive /\ get x g = None.
  Proof.
    intros E F (N & B & C). rewrite E in N, B. inversion N; subst. destruct (B x ltac:(left; reflexivity)) as [X1 X2].
    split; [|auto]. split; [auto|]. split; [intros y I; apply B; right; exact I|].
    intros y Fy. destruct (Pos.eq_dec y x) as [->|D]; [exact X1|]. apply C. auto.
  Qed.
  Lemma okexp_case x l g t e : okexp g (Ecase x l) -> findtag l t = Some e -> okexp g e /\ (forall y, free y e -> free y (Ecase x l)).
  Proof.
    intros (N & B & C) F. apply findtag_In in F. assert (K : forall y, free y e -> free y (Ecase x l)).
    { intros y Fy. apply free_Ecase. right. eapply free_case_In; eauto. }
    split; [|exact K]. assert (J : exists l1 l2, bv (Ecase x l) = l1 ++ bv e ++ l2).
    { cbn [bv]. clear -F. induction l as [|p l IH]; [destruct F|]. destruct F as [->|F].
      - exists [], (flat_map (fun p => bv (snd p)) l). reflexivity.
      - destruct (IH F) as (l1 & l2 & E). exists (bv (snd p) ++ l1), l2. cbn [flat_map]. rewrite E, app_assoc. reflexivity. }
    destruct J as (l1 & l2 & E). rewrite E in N, B. split; [|split].
    - exact (NoDup_app_l _ _ _ (NoDup_app_r _ _ _ N)).
    - intros y I. apply B. apply in_or_app. right. apply in_or_app. left. exact I.
    - intros y Fy. apply C. auto.
  Qed.
  Lemma free_funs_Efun B e x : free_funs x B -> free x (Efun B e).
  Proof. intros [H1 H2]. cbn [free]. auto. Qed.
  Lemma okexp_fun B e g b : okexp g (Efun B e) -> okfuns g B /\ okexp (add_closures_gfuns B g b) e.
  Proof.
    intros (N & Bd & C). cbn [bv] in N, Bd. split.
    - split; [exact (NoDup_app_l _ _ _ N)|]. split; [intros x I; apply Bd; apply in_or_app; auto|].
      intros x F. apply C. apply free_funs_Efun. exact F.
    - split; [exact (NoDup_app_r _ _ _ N)|]. split.
      + intros x I. destruct (Bd x) as [X1 X2]; [apply in_or_app; auto|]. split; [exact X1|]. rewrite add_gfuns_get.
        destruct b; [|exact X2]. destruct (in_dec Pos.eq_dec x (fnames B)) as [J|J]; [|exact X2].
        exfalso. apply fnames_bv in J. exact (NoDup_app_disj _ _ _ _ N J I).
      + intros x F. destruct (in_dec Pos.eq_dec x (fnames B)) as [J|J].
        * apply Bd. apply in_or_app. left. apply fnames_bv. exact J.
        * apply C. cbn [free]. auto.
  Qed.
  Lemma okfuns_body f B t xs e g b : okfuns g B -> find_def f B = Some (t, xs, e) ->
    okexp (add_closures_gfuns B g b) e /\ (forall x, In x xs -> (x < N0)%positive /\ get x (add_closures_gfuns B g b) = None).
  Proof.
    intros (N & Bd & C) F. destruct (find_def_bv _ _ _ _ _ F N) as (N1 & N2 & _).
    assert (K : forall x, In x (xs ++ bv e) -> (x < N0)%positive /\ get x (add_closures_gfuns B g b) = None).
    { intros x I. destruct (N2 x I) as [I1 I2]. destruct (Bd x I1) as [X1 X2]. split; [exact X1|]. rewrite add_gfuns_get.
      destruct b; [|exact X2]. destruct (in_dec Pos.eq_dec x (fnames B)); [contradiction|exact X2]. }
    split; [|intros x I; apply K; apply in_or_app; auto].
    split; [exact (NoDup_app_r _ _ _ N1)|]. split; [intros x I; apply K; apply in_or_app; auto|].
    intros x Fx. destruct (in_dec Pos.eq_dec x xs) as [I|I]; [apply K; apply in_or_app; auto|].
    destruct (in_dec Pos.eq_dec x (fnames B)) as [J|J]; [apply Bd; apply fnames_bv; exact J|].
    apply C. split; [exact J|]. eapply find_def_free; eauto.
  Qed.

  (* ** Values *)
  Notation clo vf ve := (Vconstr clo_tag [vf; ve]).
  Inductive cv : val -> val -> Prop :=
  | cv_constr : forall t vs vs', Forall2 cv vs vs' -> cv (Vconstr t vs) (Vconstr t vs')
  | cv_prim : forall p, cv (Vprim p) (Vprim p)
  | cv_int : forall z, cv (Vint z) (Vint z)
  | cv_fun : forall rho B f rho' B' g c s s' t vs,
      okfuns g B ->
      convf B B (fst (add_fvs (env_vars B g) 0 [])) (add_closures_gfuns B g (no_vars (env_vars B g))) c s = (B', s') ->
      (N0 <= nv s)%positive ->
      In f (fnames B) ->
      (t = c \/ env_vars B g = []) ->
      (forall n x, nthN (env_vars B g) n = Some x ->
         exists v v', get x rho = Some v /\ nthN vs n = Some v' /\ cv v v') ->
      (forall x, free_funs x B -> get x g <> None ->
         exists v vf, get x rho = Some v /\ get x rho' = Some vf /\ forall t, cv v (clo vf (Vconstr t []))) ->
      cv (Vfun rho B f) (clo (Vfun rho' B' f) (Vconstr t vs)).

  Definition vok (map : VarInfoMap) (g : GFunMap) (c : ctor_tag) (G : var) (rho rho' : env) (x : var) : Prop :=
    exists v, get x rho = Some v /\
    match get x map with
    | Some BoundVar => exists v', get x rho' = Some v' /\ cv v v'
    | Some (FVar n) => exists vs v', get G rho' = Some (Vconstr c vs) /\ nthN vs n = Some v' /\ cv v v'
    | Some (MRFun env) => exists vf ve, get x rho' = Some vf /\ get env rho' = Some ve /\ cv v (clo vf ve)
    | None => get x g <> None
    end /\
    (get x g <> None -> exists vf, get x rho' = Some vf /\ forall t, cv v (clo vf (Vconstr t []))).

  Definition mapok (b : positive) (map : VarInfoMap) (G : var) : Prop :=
    (N0 <= G < b)%positive /\ forall x env, get x map = Some (MRFun env) -> (N0 <= env < b)%positive.
  Definition agree (b : positive) (rho1 rho2 : env) : Prop := forall z, (z < b)%positive -> get z rho2 = get z rho1.

  Lemma mapok_le b b' map G : (b <= b')%positive -> mapok b map G -> mapok b' map G.
  Proof. intros L [H1 H2]. split; [lia|]. intros x env E. specialize (H2 x env E). lia. Qed.
  Lemma vok_agree b map g c G rho rho1 rho2 x : mapok b map G -> (x < N0)%positive -> agree b rho1 rho2 ->
    vok map g c G rho rho1 x -> vok map g c G rho rho2 x.
  Proof.
    intros [M1 M2] L A (v & E & H1 & H2). exists v. split; [exact E|]. assert (X : get x rho2 = get x rho1) by (apply A; lia).
    split; [|rewrite X; exact H2]. destruct (get x map) as [[n|env|]|] eqn:EM; [| | |exact H1].
    - rewrite (A G) by lia. exact H1.
    - specialize (M2 x env EM). rewrite X, (A env) by lia. exact H1.
    - rewrite X. exact H1.
  Qed.
  Lemma vok_set b map g c G rho rho' x v v' y : mapok b map G -> (x < N0)%positive -> get x g = None -> cv v v' ->
    (y <> x -> vok map g c G rho rho' y) -> vok (set x BoundVar map) g c G (set x v rho) (set x v' rho') y.
  Proof.
    intros [M1 M2] L Gx V H. destruct (Pos.eq_dec y x) as [->|D].
    - exists v. split; [apply get_set_same|]. rewrite !get_set_same. split; [eauto|]. rewrite Gx. congruence.
    - destruct (H D) as (w & E & H1 & H2). exists w.
      assert (Q1 : get y (set x v rho) = get y rho) by (apply get_set_other; exact D).
      assert (Q2 : get y (set x v' rho') = get y rho') by (apply get_set_other; exact D).
      assert (Q3 : get y (set x BoundVar map) = get y map) by (apply get_set_other; exact D).
      rewrite Q1, Q2, Q3. split; [exact E|]. split; [|exact H2]. destruct (get y map) as [[n|env|]|] eqn:EM; auto.
      + assert (Q4 : get G (set x v' rho') = get G rho') by (apply get_set_other; lia). rewrite Q4. exact H1.
      + specialize (M2 y env EM). assert (Q4 : get env (set x v' rho') = get env rho') by (apply get_set_other; lia). rewrite Q4. exact H1.
  Qed.
  Lemma mapok_set b map G x : mapok b map G -> mapok b (set x BoundVar map) G.
  Proof.
    intros [H1 H2]. split; [exact H1|]. intros y env E. rewrite get_set in E. destruct (Pos.eq_dec y x); [discriminate|]. eauto.
  Qed.

  (* ** Running the new bindings *)
  Variables cenv cenv' : ctor_env.
  Hypothesis CE : forall t i, get t cenv = Some i -> get t cenv' = Some i.

  Definition runs (rho1 : env) (f : exp -> exp) (rho2 : env) : Prop :=
    exists n, forall e k r, bstep_fuel cenv' rho2 e k r -> bstep_fuel cenv' rho1 (f e) (k + n) r.
  Lemma runs_id rho : runs rho (fun e => e) rho.
  Proof. exists 0. intros e k r H. rewrite Nat.add_0_r. exact H. Qed.
  Lemma runs_comp rho1 f rho2 g rho3 : runs rho1 f rho2 -> runs rho2 g rho3 -> runs rho1 (fun e => f (g e)) rho3.
  Proof. intros [n H1] [m H2]. exists (m + n). intros e k r H. rewrite Nat.add_assoc. auto. Qed.
  Lemma runs_constr rho x t ys vs : get_list ys rho = Some vs -> runs rho (Econstr x t ys) (set x (Vconstr t vs) rho).
  Proof. intros H. exists 1. intros e k r B. apply BStepf_run. econstructor; eauto. Qed.
  Lemma runs_proj rho x t n y vs v : get y rho = Some (Vconstr t vs) -> nthN vs n = Some v -> runs rho (Eproj x t n y) (set x v rho).
  Proof. intros H1 H2. exists 1. intros e k r B. apply BStepf_run. econstructor; eauto. Qed.
  Lemma agree_refl b rho : agree b rho rho.
  Proof. intros z L. reflexivity. Qed.
  Lemma agree_trans b rho1 rho2 rho3 : agree b rho1 rho2 -> agree b rho2 rho3 -> agree b rho1 rho3.
  Proof. intros H1 H2 z L. rewrite H2, H1; auto. Qed.
  Lemma agree_le b b' rho1 rho2 : (b <= b')%positive -> agree b' rho1 rho2 -> agree b rho1 rho2.
  Proof. intros L H z Lz. apply H. lia. Qed.
  Lemma agree_set b rho1 rho2 x v : agree b rho1 rho2 -> (b <= x)%positive -> agree b rho1 (set x v rho2).
  Proof. intros H L z Lz. rewrite get_set_other by lia. auto. Qed.

  Lemma gvar_run x map g c G s y f s' rho rho' : gvar x map g c G s = (y, f, s') ->
    mapok (nv s) map G -> (x < N0)%positive -> vok map g c G rho rho' x ->
    exists rho2 v v', runs rho' f rho2 /\ agree (nv s) rho' rho2 /\ (y < nv s')%positive /\
      get x rho = Some v /\ get y rho2 = Some v' /\ cv v v'.
  Proof.
    intros H M L (v & E & H1 & H2). pose proof M as [M1 M2]. unfold get_var in H.
    destruct (get x map) as [[n|env|]|] eqn:EM.
    - destruct (new_var s) as [y0 s0] eqn:EN. apply pair3 in H as (-> & <- & ->). apply new_var_le in EN as [-> EN].
      destruct H1 as (vs & v' & A1 & A2 & A3). exists (set (nv s) v' rho'), v, v'.
      split; [eapply runs_proj; eauto|]. split; [apply agree_set; [apply agree_refl|lia]|]. split; [lia|]. split; [exact E|].
      split; [apply get_set_same|exact A3].
    - destruct (new_var s) as [y0 s0] eqn:EN. apply pair3 in H as (-> & <- & ->). apply new_var_le in EN as [-> EN].
      destruct H1 as (vf & ve & A1 & A2 & A3). exists (set (nv s) (clo vf ve) rho'), v, (clo vf ve).
      split; [apply runs_constr; cbn [get_list]; rewrite A1, A2; reflexivity|].
      split; [apply agree_set; [apply agree_refl|lia]|]. split; [lia|]. split; [exact E|].
      split; [apply get_set_same|exact A3].
    - apply pair3 in H as (-> & <- & ->). destruct H1 as (v' & A1 & A2). exists rho', v, v'.
      split; [apply runs_id|]. split; [apply agree_refl|]. split; [lia|]. auto.
    - destruct (H2 H1) as (vf & A1 & A2). destruct (get x g) as [[]|]; [|contradiction].
      destruct (new_record 0 s) as [ce sa] eqn:ER. destruct (new_var sa) as [y0 sb] eqn:EN1. destruct (new_var sb) as [ge sc] eqn:EN2.
      apply pair3 in H as (-> & <- & ->). apply new_record_nv in ER. apply new_var_le in EN1 as [-> EN1]. apply new_var_le in EN2 as [-> EN2].
      exists (set (nv sa) (clo vf (Vconstr ce [])) (set (nv sb) (Vconstr ce []) rho')), v, (clo vf (Vconstr ce [])).
      split; [|split; [|split; [lia|split; [exact E|split; [apply get_set_same|apply A2]]]]].
      + apply (runs_comp rho' (Econstr (nv sb) ce []) (set (nv sb) (Vconstr ce []) rho')).
        * apply runs_constr. reflexivity.
        * apply runs_constr. cbn [get_list]. rewrite get_set_other by lia. rewrite A1, get_set_same. reflexivity.
      + apply agree_set; [|lia]. apply agree_set; [|lia]. apply agree_refl.
  Qed.

  Lemma gvars_run map g c G rho xs : forall s ys f s' rho', gvars xs map g c G s = (ys, f, s') ->
    mapok (nv s) map G -> (forall x, In x xs -> (x < N0)%positive /\ vok map g c G rho rho' x) ->
    exists rho2 vs vs', runs rho' f rho2 /\ agree (nv s) rho' rho2 /\ (forall y, In y ys -> (y < nv s')%positive) /\
      get_list xs rho = Some vs /\ get_list ys rho2 = Some vs' /\ Forall2 cv vs vs'.
  Proof.
    induction xs as [|x xs IH]; intros s ys f s' rho' H M K.
    - cbn [get_vars] in H. apply pair3 in H as (<- & <- & <-). exists rho', [], [].
      split; [apply runs_id|]. split; [apply agree_refl|]. split; [intros y []|]. repeat split. constructor.
    - apply gvars_cons in H as (y & f1 & s1 & ys' & f2 & E1 & E2 & -> & ->).
      destruct (K x ltac:(left; reflexivity)) as [L V].
      destruct (gvar_run _ _ _ _ _ _ _ _ _ _ _ E1 M L V) as (rho1 & v & v' & A1 & A2 & A3 & A4 & A5 & A6).
      pose proof E1 as L1. apply gvar_le in L1. unfold le in L1.
      destruct (IH _ _ _ _ rho1 E2) as (rho2 & vs & vs' & B1 & B2 & B3 & B4 & B5 & B6).
      { eapply mapok_le; eauto. }
      { intros z I. destruct (K z ltac:(right; exact I)) as [Lz Vz]. split; [exact Lz|]. eapply vok_agree; eauto. }
      exists rho2, (v :: vs), (v' :: vs'). split; [eapply runs_comp; eauto|].
      split; [eapply agree_trans; [exact A2|eapply agree_le; eauto]|].
      apply gvars_le in E2. unfold le in E2.
      split; [intros z [<-|I]; [lia|auto]|]. cbn [get_list]. rewrite A4, B4, B5, (B2 y) by exact A3. rewrite A5.
      repeat split. constructor; auto.
  Qed.

  Lemma set_lists_rel (R : val -> val -> Prop) xs : forall vs vs' rho rho' r, Forall2 R vs vs' -> set_lists xs vs rho = Some r ->
    exists r', set_lists xs vs' rho' = Some r' /\ forall x,
      (In x xs -> exists v v', get x r = Some v /\ get x r' = Some v' /\ R v v') /\
      (~ In x xs -> get x r = get x rho /\ get x r' = get x rho').
  Proof.
    induction xs as [|a xs IH]; intros vs vs' rho rho' r F E; cbn [set_lists] in E; destruct F as [|v v' vs vs' V F]; try discriminate.
    - exists rho'. split; [reflexivity|]. intro x. split; [intros []|]. intros _. split; congruence.
    - destruct (set_lists xs vs rho) as [r0|] eqn:E0; [|discriminate].
      destruct (IH _ _ _ rho' _ F E0) as (r' & E' & K). cbn [set_lists]. rewrite E'.
      assert (r = set a v r0) by congruence. subst r. exists (set a v' r'). split; [reflexivity|].
      intro x. destruct (K x) as [K1 K2]. rewrite !get_set. destruct (Pos.eq_dec x a) as [->|D].
      + split; [intros _; eauto|]. cbn [In]. tauto.
      + cbn [In]. split; [intros [->|I]; [congruence|auto]|]. intro I. apply K2. tauto.
  Qed.

  Lemma enter_rel vf v' t vs vs' rhob eb : cv vf v' -> Forall2 cv vs vs' -> enter vf t vs = Some (rhob, eb) ->
    exists vc ve rhob' map g c G sb e1 f1 sc, v' = clo vc ve /\ enter vc t (ve :: vs') = Some (rhob', f1 e1) /\
      conv eb map g c G sb = (e1, f1, sc) /\ okexp g eb /\ mapok (nv sb) map G /\
      forall x, free x eb -> vok map g c G rhob rhob' x.
  Proof.
    intros V F H. apply enter_spec in H as (rho & B & f & xs & -> & FD & SL).
    inversion V as [| | |rho0 B0 f0 rho' B' g c s s' t0 vs0 OK CF NL FN TC HV HG]; subst rho0 B0 f0.
    destruct (convf_find _ _ _ _ _ _ _ _ _ _ _ _ CF FD) as (sa & G & sb & e1 & f1 & sc & L1 & NV & CV & L2 & FD').
    destruct (set_lists_rel cv xs vs vs' _ (def_funs B' B' rho' rho') rhob F SL) as (r' & SL' & K).
    assert (KF : forall z t1 vs1, In z (fnames B) -> (t1 = c \/ env_vars B g = []) ->
      (forall n x, nthN (env_vars B g) n = Some x -> exists v v', get x rho = Some v /\ nthN vs1 n = Some v' /\ cv v v') ->
      cv (Vfun rho B z) (clo (Vfun rho' B' z) (Vconstr t1 vs1))) by (intros; eapply cv_fun; eauto).
    set (ve := Vconstr t0 vs0) in *. set (b := no_vars (env_vars B g)) in *.
    destruct (okfuns_body _ _ _ _ _ _ b OK FD) as [OKB OKP]. apply new_var_le in NV as [-> NV]. unfold le in L1.
    exists (Vfun rho' B' f), ve, (set (nv sa) ve r'), (add_params xs (add_closures B (fst (add_fvs (env_vars B g) 0 [])) (nv sa))),
      (add_closures_gfuns B g b), c, (nv sa), sb, e1, f1, sc.
    split; [reflexivity|]. split.
    { apply enter_spec. exists rho', B', f, (nv sa :: xs). split; [reflexivity|]. split; [exact FD'|]. cbn [set_lists]. rewrite SL'. reflexivity. }
    split; [exact CV|]. split; [exact OKB|]. split.
    { split; [lia|]. intros x env. rewrite add_params_get, add_closures_get.
      destruct (in_dec Pos.eq_dec x xs); [discriminate|]. destruct (in_dec Pos.eq_dec x (fnames B)).
      - intro E. assert (nv sa = env) by congruence. lia.
      - destruct (add_fvs_get (env_vars B g) 0 [] x) as [A1 A2]. destruct (in_dec Pos.eq_dec x (env_vars B g)) as [I|I].
        + destruct (A1 I) as (k & E & _). rewrite E. discriminate.
        + rewrite (A2 I). discriminate. }
    intros x Fx. destruct OKB as (_ & _ & OKF). pose proof (OKF x Fx) as Lx.
    assert (Q : get x (set (nv sa) ve r') = get x r') by (apply get_set_other; lia).
    destruct (K x) as [K1 K2]. unfold vok. rewrite add_params_get.
    destruct (in_dec Pos.eq_dec x xs) as [I|I].
    { destruct (K1 I) as (v & v1 & E1 & E2 & V12). exists v. split; [exact E1|]. rewrite Q. split; [eauto|].
      destruct (OKP x I) as [_ G0]. rewrite G0. congruence. }
    destruct (K2 I) as [E1 E2]. clear K1 K2. rewrite Q, E1, E2, add_closures_get, !def_funs_get, (convf_fnames _ _ _ _ _ _ _ _ CF).
    destruct (in_dec Pos.eq_dec x (fnames B)) as [J|J].
    { exists (Vfun rho B x). split; [reflexivity|]. split.
      - exists (Vfun rho' B' x), ve. split; [reflexivity|]. split; [apply get_set_same|]. apply KF; auto.
      - rewrite add_gfuns_get. pose proof OK as (OK1 & OK2 & OK3). destruct (OK2 x (fnames_bv _ _ J)) as [_ G0]. rewrite G0.
        destruct b eqn:Eb; [|congruence]. intros _. exists (Vfun rho' B' x). split; [reflexivity|]. intro t1.
        apply no_vars_true in Eb. apply KF; [exact J|right; exact Eb|]. intros n z. rewrite Eb. discriminate. }
    assert (FF : free_funs x B) by (split; [exact J|]; eapply find_def_free; eauto).
    assert (GG : get x (add_closures_gfuns B g b) = get x g).
    { rewrite add_gfuns_get. destruct b; [|reflexivity]. destruct (in_dec Pos.eq_dec x (fnames B)); [contradiction|reflexivity]. }
    rewrite GG. destruct (get x g) as [gi|] eqn:EG.
    - destruct (HG x FF) as (v & vf & A1 & A2 & A3); [congruence|]. exists v. split; [exact A1|]. split; [|intros _; eauto].
      destruct (add_fvs_get (env_vars B g) 0 [] x) as [_ B2]. rewrite B2; [discriminate|].
      rewrite env_vars_In. intros [_ X]. congruence.
    - destruct (add_fvs_get (env_vars B g) 0 [] x) as [B1 _]. destruct B1 as (k & B1 & B2).
      { apply env_vars_In. split; auto. }
      destruct (HV _ _ B2) as (v & v1 & A1 & A2 & A3). exists v. split; [exact A1|]. split; [|congruence].
      rewrite B1, N.add_0_l. exists vs0, v1. rewrite get_set_same. split; [|auto]. unfold ve.
      destruct TC as [->|TC]; [reflexivity|]. rewrite TC in B2. discriminate.
  Qed.

  Definition rrel (r r' : res val) : Prop :=
    match r, r' with OOT, OOT => True | Res v, Res v' => cv v v' | _, _ => False end.

  Lemma consistent l t : caseConsistent_f cenv l t = true -> caseConsistent_f cenv' l t = true.
  Proof.
    induction l as [|[t' e] l IH]; cbn [caseConsistent_f]; [reflexivity|]. intro H. apply andb_prop in H as [H1 H2].
    rewrite (IH H1). destruct (get t cenv) as [i|] eqn:E1; [|discriminate]. destruct (get t' cenv) as [i'|] eqn:E2; [|discriminate].
    rewrite (CE _ _ E1), (CE _ _ E2). exact H2.
  Qed.

  (* after the bindings, take a step *)
  Lemma after rho1 f rho2 e c0 r k (P : res val -> Prop) : runs rho1 f rho2 -> bstep cenv' rho2 e k r -> c0 <= k -> P r ->
    exists c2 r2, bstep_fuel cenv' rho1 (f e) c2 r2 /\ c0 + 1 <= c2 /\ P r2.
  Proof.
    intros [n H] B L R. exists (k + 1 + n), r. split; [apply H; apply BStepf_run; exact B|]. split; [lia|exact R].
  Qed.

  Lemma sim : forall c rho e r, bstep_fuel cenv rho e c r ->
    forall map g ct G s e1 f1 s1 rho', conv e map g ct G s = (e1, f1, s1) ->
      okexp g e -> mapok (nv s) map G -> (forall x, free x e -> vok map g ct G rho rho' x) ->
      exists c2 r2, bstep_fuel cenv' rho' (f1 e1) c2 r2 /\ c <= c2 /\ rrel r r2.
  Proof.
    induction c as [c IH] using lt_wf_ind. intros rho e r HB map g ct G s e1 f1 s1 rho' HC OK M HV.
    apply bstep_fuel_inv in HB as [[-> ->]|(c' & -> & HB)].
    { exists 0, OOT. split; [apply bstep_fuel_zero|]. split; [lia|exact I]. }
    replace (S c') with (c' + 1) in * by lia.
    assert (LT : forall x, free x e -> (x < N0)%positive) by apply OK.
    assert (GV : forall xs, (forall x, In x xs -> free x e) -> forall x, In x xs -> (x < N0)%positive /\ vok map g ct G rho rho' x) by (intros; auto).
    destruct e as [x t ys e|x l|x t n y e|x f t ys e|B e|f t ys|x p e|x p ys e|x].
    - apply conv_constr in HC as (ys' & s' & e2 & f2 & C1 & C2 & ->).
      inversion HB; subst.
      destruct (okexp_bind x e g (Econstr x t ys e) eq_refl ltac:(cbn [free]; auto) OK) as (OK' & Lx & Gx).
      destruct (gvars_run _ _ _ _ rho _ _ _ _ _ _ C1 M (GV ys ltac:(cbn [free]; auto))) as (rho2 & vs1 & vs' & A1 & A2 & A3 & A4 & A5 & A6).
      assert (vs1 = vs) by congruence. subst vs1. apply gvars_le in C1. unfold le in C1.
      edestruct (IH c') as (c2 & r2 & D1 & D2 & D3); [lia|eassumption|exact C2|exact OK'|apply mapok_set; eapply mapok_le; eauto| |].
      { intros z Fz. eapply vok_set with (v' := Vconstr t vs') (rho' := rho2); [exact M|exact Lx|exact Gx|constructor; exact A6|].
        intro D. eapply vok_agree; [exact M| |exact A2|]; [apply LT|apply HV]; cbn [free]; auto. }
      eapply after; [exact A1| |exact D2|exact D3]. econstructor; eauto.
    - apply conv_case_inv in HC as (l' & s' & x' & C1 & C2 & ->).
      inversion HB as [| |? ? e0 t ? vl ? ? GX CC FT B| | | | |]; subst.
      destruct (okexp_case _ _ _ _ _ OK FT) as [OK' FR].
      destruct (pats_find _ _ _ _ _ _ _ _ _ _ C1 FT) as (sa & e1 & f2 & sb & P1 & P2 & P3 & P4).
      pose proof C1 as L1. apply pats_le in L1. unfold le in L1, P2, P3. pose proof P1 as L2. apply (proj1 conv_le) in L2. unfold le in L2.
      edestruct (gvar_run _ _ _ _ _ _ _ _ _ rho rho' C2) as (rho2 & v & v' & A1 & A2 & A3 & A4 & A5 & A6);
        [eapply mapok_le; eauto|apply LT; left; reflexivity|apply HV; left; reflexivity|].
      assert (v = Vconstr t vl) by congruence. subst v. inversion A6 as [? ? vl' F|  | |]; subst.
      edestruct (IH c') as (c2 & r2 & D1 & D2 & D3); [lia|eassumption|exact P1|exact OK'|eapply mapok_le; [|exact M]; lia| |].
      { intros z Fz. eapply vok_agree with (b := nv s); [exact M|auto|eapply agree_le; [|exact A2]; lia|auto]. }
      eapply after; [exact A1| |exact D2|exact D3]. econstructor; [exact A5| |exact P4|exact D1].
      rewrite (pats_tags _ _ _ _ _ _ _ _ _ _ C1). apply consistent. exact CC.
    - apply conv_proj in HC as (y' & s' & e2 & f2 & C1 & C2 & ->).
      inversion HB as [|? vs ? ? ? ? ? v ? ? GX NT B| | | | | |]; subst.
      destruct (okexp_bind x e g (Eproj x t n y e) eq_refl ltac:(cbn [free]; auto) OK) as (OK' & Lx & Gx).
      edestruct (gvar_run _ _ _ _ _ _ _ _ _ rho rho' C1) as (rho2 & w & w' & A1 & A2 & A3 & A4 & A5 & A6);
        [exact M|apply LT; left; reflexivity|apply HV; left; reflexivity|].
      apply gvar_le in C1. unfold le in C1.
      assert (w = Vconstr t vs) by congruence. subst w. inversion A6 as [? ? vs' F|  | |]; subst.
      destruct (Forall2_nthN _ _ _ _ _ F _ _ NT) as (v' & NT' & V).
      edestruct (IH c') as (c2 & r2 & D1 & D2 & D3); [lia|eassumption|exact C2|exact OK'|apply mapok_set; eapply mapok_le; eauto| |].
      { intros z Fz. eapply vok_set with (v' := v') (rho' := rho2); [exact M|exact Lx|exact Gx|exact V|].
        intro D. eapply vok_agree; [exact M| |exact A2|]; [apply LT|apply HV]; cbn [free]; auto. }
      eapply after; [exact A1| |exact D2|exact D3]. econstructor; eauto.
    - apply conv_letapp in HC as (f' & g1 & sa & ys' & g2 & sb & ptr & sc & G' & sd & e2 & f2 & C1 & C2 & C3 & C4 & C5 & -> & ->).
      apply bstep_letapp_inv in HB as (vf & vs & rhob & eb & GF & GL & EN & HB).
      destruct (okexp_bind x e g (Eletapp x f t ys e) eq_refl ltac:(cbn [free]; auto) OK) as (OK' & Lx & Gx).
      edestruct (gvar_run _ _ _ _ _ _ _ _ _ rho rho' C1) as (rho1 & w & w' & A1 & A2 & A3 & A4 & A5 & A6);
        [exact M|apply LT; left; reflexivity|apply HV; left; reflexivity|].
      assert (w = vf) by congruence. subst w. pose proof C1 as L1. apply gvar_le in L1. unfold le in L1.
      edestruct (gvars_run _ _ _ _ rho _ _ _ _ _ rho1 C2) as (rho2 & vs1 & vs' & B1 & B2 & B3 & B4 & B5 & B6); [eapply mapok_le; eauto| |].
      { intros z I. assert (free z (Eletapp x f t ys e)) by (cbn [free]; auto). split; [auto|]. eapply vok_agree; [exact M| |exact A2|]; auto. }
      assert (vs1 = vs) by congruence. subst vs1. apply gvars_le in C2. unfold le in C2.
      destruct (enter_rel _ _ _ _ _ _ _ A6 B6 EN) as (vc & ve & rhob' & mapb & gb & cb & Gb & sb0 & eb1 & fb & sb1 & -> & EN' & CVb & OKb & Mb & HVb).
      apply new_var_le in C3 as [-> C3]. apply new_var_le in C4 as [-> C4].
      assert (R : runs rho' (fun e => g1 (g2 (Eproj (nv sb) clo_tag 0 f' (Eproj (nv sc) clo_tag 1 f' e)))) (set (nv sc) ve (set (nv sb) vc rho2))).
      { apply (runs_comp rho' (fun e => g1 (g2 e)) rho2 (fun e => Eproj (nv sb) clo_tag 0 f' (Eproj (nv sc) clo_tag 1 f' e))); [eapply runs_comp; eauto|].
        apply (runs_comp rho2 (Eproj (nv sb) clo_tag 0 f') (set (nv sb) vc rho2)).
        - eapply runs_proj; [rewrite B2 by exact A3; exact A5|reflexivity].
        - eapply runs_proj; [rewrite get_set_other by lia; rewrite B2 by exact A3; exact A5|reflexivity]. }
      assert (GL' : get_list (nv sc :: ys') (set (nv sc) ve (set (nv sb) vc rho2)) = Some (ve :: vs')).
      { cbn [get_list]. rewrite get_set_same.
        assert (GLx : get_list ys' (set (nv sc) ve (set (nv sb) vc rho2)) = get_list ys' rho2).
        { clear -B3 C3. induction ys' as [|y ys' IHy]; [reflexivity|]. cbn [get_list].
          assert (y < nv sb)%positive by (apply B3; left; reflexivity). rewrite !get_set_other by lia. rewrite IHy; [reflexivity|].
          intros z I. apply B3. right. exact I. }
        rewrite GLx, B5. reflexivity. }
      assert (GP : get (nv sb) (set (nv sc) ve (set (nv sb) vc rho2)) = Some vc) by (rewrite get_set_other by lia; apply get_set_same).
      destruct HB as [[-> HB]|(v & c1 & c2 & -> & HB1 & HB2)].
      + edestruct (IH c') as (k & r2 & D1 & D2 & D3); [lia|exact HB|exact CVb|exact OKb|exact Mb|exact HVb|].
        destruct r2 as [|]; [|destruct D3].
        eapply (after _ (fun e => g1 (g2 (Eproj (nv sb) clo_tag 0 f' (Eproj (nv sc) clo_tag 1 f' e))))); [exact R| |exact D2|exact D3].
        eapply bstep_letapp_oot_intro; eauto.
      + edestruct (IH c1) as (k & r2 & D1 & D2 & D3); [lia|exact HB1|exact CVb|exact OKb|exact Mb|exact HVb|].
        destruct r2 as [|v']; [destruct D3|]. cbn in D3.
        edestruct (IH c2) as (k2 & r2 & E1 & E2 & E3); [lia|exact HB2|exact C5|exact OK'|apply mapok_set; eapply mapok_le; [|exact M]; lia| |].
        { intros z Fz. eapply vok_set with (v' := v') (rho' := set (nv sc) ve (set (nv sb) vc rho2)); [exact M|exact Lx|exact Gx|exact D3|].
          intro D. assert (free z (Eletapp x f t ys e)) by (cbn [free]; auto).
          eapply vok_agree with (rho1 := rho'); [exact M|auto| |auto].
          apply agree_set; [|lia]. apply agree_set; [|lia]. eapply agree_trans; [exact A2|]. eapply agree_le; [exact L1|exact B2]. }
        eapply (after _ (fun e => g1 (g2 (Eproj (nv sb) clo_tag 0 f' (Eproj (nv sc) clo_tag 1 f' e))))) with (k := k + k2); [exact R| |lia|exact E3].
        eapply bstep_letapp_intro; eauto.
    - apply conv_fun in HC as (G' & sa & ys' & g' & sb & c0 & sc & B' & sd & e2 & f2 & C1 & C2 & C3 & C4 & C5 & -> & ->).
      inversion HB; subst. apply new_var_le in C1 as [-> C1].
      destruct (okexp_fun _ _ _ (no_vars (env_vars B g)) OK) as [OKB OKE].
      edestruct (gvars_run _ _ _ _ rho _ _ _ _ _ rho' C2) as (rho2 & vs & vs' & A1 & A2 & A3 & A4 & A5 & A6); [eapply mapok_le; [|exact M]; lia| |].
      { intros z I. apply env_vars_In in I as [I _]. assert (free z (Efun B e)) by (apply free_funs_Efun; exact I). auto. }
      pose proof C2 as L2. apply gvars_le in L2. unfold le in L2. apply new_record_nv in C3.
      pose proof C4 as L4. apply (proj2 conv_le) in L4. unfold le in L4.
      set (rho3 := set (nv s) (Vconstr c0 vs') rho2) in *.
      assert (AG : agree (nv s) rho' rho3) by (apply agree_set; [eapply agree_le; [|exact A2]; lia|lia]).
      assert (R : runs rho' (fun e => g' (Econstr (nv s) c0 ys' e)) rho3) by (eapply runs_comp; [exact A1|apply runs_constr; exact A5]).
      assert (HN : forall n x, nthN (env_vars B g) n = Some x -> exists v v', get x rho = Some v /\ nthN vs' n = Some v' /\ cv v v').
      { intros n x E. clear -A4 A6 E. revert vs vs' A4 A6 n E. induction (env_vars B g) as [|y l IH]; intros vs vs' A4 A6 n E; cbn [nthN] in E; [discriminate|].
        cbn [get_list] in A4. destruct (get y rho) as [v|] eqn:Ey; [|discriminate]. destruct (get_list l rho) as [vl|] eqn:El; [|discriminate].
        assert (vs = v :: vl) by congruence. subst vs. inversion A6 as [|? v' ? vl' V F]; subst. cbn [nthN]. destruct (N.eqb n 0).
        - assert (y = x) by congruence. subst y. eauto.
        - eauto. }
      assert (HG : forall x, free_funs x B -> get x g <> None -> exists v vf, get x rho = Some v /\ get x rho3 = Some vf /\ forall t, cv v (clo vf (Vconstr t []))).
      { intros x Fx Gx. assert (F' : free x (Efun B e)) by (apply free_funs_Efun; exact Fx). destruct (HV x F') as (v & E & _ & H2).
        destruct (H2 Gx) as (vf & E2 & H3). exists v, vf. split; [exact E|]. split; [|exact H3]. rewrite AG; [exact E2|]. pose proof (LT x F'). destruct M; lia. }
      assert (KF : forall x t, In x (fnames B) -> (t = c0 \/ env_vars B g = []) -> cv (Vfun rho B x) (clo (Vfun rho3 B' x) (Vconstr t vs'))).
      { intros x t I TC. eapply cv_fun; eauto. destruct M; lia. }
      edestruct (IH c') as (c2 & r2 & D1 & D2 & D3); [lia|eassumption|exact C5|exact OKE| | |].
      { destruct M as [M1 M2]. split; [lia|]. intros x env. rewrite add_closures_get. destruct (in_dec Pos.eq_dec x (fnames B)).
        - intro E. assert (nv s = env) by congruence. lia.
        - intro E. specialize (M2 x env E). lia. }
      { intros x Fx. instantiate (1 := def_funs B' B' rho3 rho3). unfold vok. rewrite (def_funs_get B rho B rho x), (def_funs_get B' rho3 B' rho3 x), (convf_fnames _ _ _ _ _ _ _ _ C4), add_closures_get.
        assert (Lx : (x < N0)%positive) by (apply OKE; exact Fx).
        destruct (in_dec Pos.eq_dec x (fnames B)) as [J|J].
        - exists (Vfun rho B x). split; [reflexivity|]. split.
          + exists (Vfun rho3 B' x), (Vconstr c0 vs'). split; [reflexivity|]. split; [|apply KF; auto].
            rewrite def_funs_get, (convf_fnames _ _ _ _ _ _ _ _ C4). destruct (in_dec Pos.eq_dec (nv s) (fnames B)) as [K|K].
            * exfalso. destruct OKB as (_ & OKB & _). apply fnames_bv in K. apply OKB in K. destruct M; lia.
            * apply get_set_same.
          + rewrite add_gfuns_get. pose proof OKB as (OK1 & OK2 & OK3). destruct (OK2 x (fnames_bv _ _ J)) as [_ G0]. rewrite G0.
            destruct (no_vars (env_vars B g)) eqn:Eb; [|congruence]. intros _. exists (Vfun rho3 B' x). split; [reflexivity|]. intro t1.
            apply no_vars_true in Eb. assert (Z : vs' = []).
            { rewrite Eb in A4. cbn in A4. assert (vs = []) by congruence. subst vs. inversion A6. reflexivity. }
            pose proof (KF x t1 J (or_intror Eb)) as KK. rewrite Z in KK. exact KK.
        - assert (F' : free x (Efun B e)) by (cbn [free]; auto). assert (GG : get x (add_closures_gfuns B g (no_vars (env_vars B g))) = get x g).
          { rewrite add_gfuns_get. destruct (no_vars (env_vars B g)); [|reflexivity]. destruct (in_dec Pos.eq_dec x (fnames B)); [contradiction|reflexivity]. }
          rewrite GG. pose proof (vok_agree _ _ _ _ _ _ _ _ _ M Lx AG (HV x F')) as (v & E & H1 & H2). exists v. split; [exact E|]. split; [|exact H2].
          assert (NF : forall z, (N0 <= z)%positive -> get z (def_funs B' B' rho3 rho3) = get z rho3).
          { intros z Lz. rewrite def_funs_get, (convf_fnames _ _ _ _ _ _ _ _ C4). destruct (in_dec Pos.eq_dec z (fnames B)) as [K|K]; [|reflexivity].
            exfalso. destruct OKB as (_ & OKB & _). apply fnames_bv in K. apply OKB in K. lia. }
          destruct M as [M1 M2]. destruct (get x map) as [[n|env|]|] eqn:EM; [| | |exact H1].
          + rewrite NF by lia. exact H1.
          + specialize (M2 x env EM). rewrite NF by lia. exact H1.
          + exact H1. }
      eapply (after _ (fun e => g' (Econstr (nv s) c0 ys' e))); [exact R| |exact D2|exact D3]. constructor. exact D1.
    - apply conv_app in HC as (f' & g1 & sa & ys' & g2 & sb & ptr & sc & G' & C1 & C2 & C3 & C4 & -> & ->).
      apply bstep_app_inv in HB as (vf & vs & rhob & eb & GF & GL & EN & HB).
      edestruct (gvar_run _ _ _ _ _ _ _ _ _ rho rho' C1) as (rho1 & w & w' & A1 & A2 & A3 & A4 & A5 & A6);
        [exact M|apply LT; left; reflexivity|apply HV; left; reflexivity|].
      assert (w = vf) by congruence. subst w. pose proof C1 as L1. apply gvar_le in L1. unfold le in L1.
      edestruct (gvars_run _ _ _ _ rho _ _ _ _ _ rho1 C2) as (rho2 & vs1 & vs' & B1 & B2 & B3 & B4 & B5 & B6); [eapply mapok_le; eauto| |].
      { intros z I. assert (free z (Eapp f t ys)) by (cbn [free]; auto). split; [auto|]. eapply vok_agree; [exact M| |exact A2|]; auto. }
      assert (vs1 = vs) by congruence. subst vs1. apply gvars_le in C2. unfold le in C2.
      destruct (enter_rel _ _ _ _ _ _ _ A6 B6 EN) as (vc & ve & rhob' & mapb & gb & cb & Gb & sb0 & eb1 & fb & sb1 & -> & EN' & CVb & OKb & Mb & HVb).
      apply new_var_le in C3 as [-> C3]. apply new_var_le in C4 as [-> C4].
      assert (R : runs rho' (fun e => g1 (g2 (Eproj (nv sb) clo_tag 0 f' (Eproj (nv sc) clo_tag 1 f' e)))) (set (nv sc) ve (set (nv sb) vc rho2))).
      { apply (runs_comp rho' (fun e => g1 (g2 e)) rho2 (fun e => Eproj (nv sb) clo_tag 0 f' (Eproj (nv sc) clo_tag 1 f' e))); [eapply runs_comp; eauto|].
        apply (runs_comp rho2 (Eproj (nv sb) clo_tag 0 f') (set (nv sb) vc rho2)).
        - eapply runs_proj; [rewrite B2 by exact A3; exact A5|reflexivity].
        - eapply runs_proj; [rewrite get_set_other by lia; rewrite B2 by exact A3; exact A5|reflexivity]. }
      assert (GL' : get_list (nv sc :: ys') (set (nv sc) ve (set (nv sb) vc rho2)) = Some (ve :: vs')).
      { cbn [get_list]. rewrite get_set_same.
        assert (GLx : get_list ys' (set (nv sc) ve (set (nv sb) vc rho2)) = get_list ys' rho2).
        { clear -B3 C3. induction ys' as [|y ys' IHy]; [reflexivity|]. cbn [get_list].
          assert (y < nv sb)%positive by (apply B3; left; reflexivity). rewrite !get_set_other by lia. rewrite IHy; [reflexivity|].
          intros z I. apply B3. right. exact I. }
        rewrite GLx, B5. reflexivity. }
      assert (GP : get (nv sb) (set (nv sc) ve (set (nv sb) vc rho2)) = Some vc) by (rewrite get_set_other by lia; apply get_set_same).
      edestruct (IH c') as (k & r2 & D1 & D2 & D3); [lia|exact HB|exact CVb|exact OKb|exact Mb|exact HVb|].
      eapply (after _ (fun e => g1 (g2 (Eproj (nv sb) clo_tag 0 f' (Eproj (nv sc) clo_tag 1 f' e))))); [exact R| |exact D2|exact D3].
      eapply bstep_app_intro; eauto.
    - inversion HB.
    - inversion HB.
    - apply conv_halt in HC as (x' & C1 & ->). inversion HB; subst.
      edestruct (gvar_run _ _ _ _ _ _ _ _ _ rho rho' C1) as (rho2 & w & w' & A1 & A2 & A3 & A4 & A5 & A6);
        [exact M|apply LT; reflexivity|apply HV; reflexivity|].
      assert (w = v) by congruence. subst w.
      eapply after with (k := 0) (r := Res w'); [exact A1|constructor; exact A5|lia|exact A6].
  Qed.
End Sim.
