(* What closure conversion produces: binders, free variables, tables. *)
From Coq Require Import List Arith NArith PArith Bool Lia.
From Verif Require Import ANF_Syntax ANF_Eval ANF_Spec ANF_Scope ANF_EvalProofs ANF_FreeProofs CC_Model CC_Spec CC_Proofs.
Import ListNotations.

Definition cnt (z : positive) (l : list var) : nat := count_occ Pos.eq_dec l z.
Lemma cnt_app z l1 l2 : cnt z (l1 ++ l2) = cnt z l1 + cnt z l2.
Proof. apply count_occ_app. Qed.
Lemma cnt_cons z x l : cnt z (x :: l) = (if Pos.eq_dec x z then 1 else 0) + cnt z l.
Proof. unfold cnt. cbn. destruct (Pos.eq_dec x z); reflexivity. Qed.

(* [l'] is [l] and new variables, each once *)
Definition adds (s s' : cst) (l l' : list var) : Prop :=
  forall z, ((z < nv s \/ nv s' <= z)%positive -> cnt z l' = cnt z l) /\ ((nv s <= z < nv s')%positive -> cnt z l' <= 1 + cnt z l).

Section Scope.
  Variable clo_tag : ctor_tag.
  Notation conv := (exp_closure_conv clo_tag).
  Notation convf := (fundefs_closure_conv clo_tag).
  Notation gvar := (get_var clo_tag).
  Notation gvars := (get_vars clo_tag).

  Ltac fin z := cbn [bv bv_funs flat_map snd] in *; repeat progress (rewrite ?cnt_app, ?cnt_cons in * );
    repeat match goal with |- context [Pos.eq_dec ?a z] => destruct (Pos.eq_dec a z) | H : context [Pos.eq_dec ?a z] |- _ => destruct (Pos.eq_dec a z) end; subst; split; intros; lia.

  Lemma gvar_adds x map g c G s y f s' : gvar x map g c G s = (y, f, s') -> forall e, adds s s' (bv e) (bv (f e)).
  Proof.
    intros H e z. unfold get_var in H. destruct (get x map) as [[k|env|]|]; [| | |destruct (get x g) as [[]|]].
    - destruct (new_var s) as [y0 s0] eqn:EN. apply pair3 in H as (-> & <- & ->). apply new_var_le in EN as [-> EN]. fin z.
    - destruct (new_var s) as [y0 s0] eqn:EN. apply pair3 in H as (-> & <- & ->). apply new_var_le in EN as [-> EN]. fin z.
    - apply pair3 in H as (-> & <- & ->). fin z.
    - destruct (new_record 0 s) as [ce sa] eqn:ER. destruct (new_var sa) as [y0 sb] eqn:EN1. destruct (new_var sb) as [ge sc] eqn:EN2.
      apply pair3 in H as (-> & <- & ->). apply new_record_nv in ER. apply new_var_le in EN1 as [-> EN1]. apply new_var_le in EN2 as [-> EN2]. fin z.
    - apply pair3 in H as (-> & <- & ->). fin z.
  Qed.
  Lemma gvars_adds map g c G xs : forall s ys f s', gvars xs map g c G s = (ys, f, s') -> forall e, adds s s' (bv e) (bv (f e)).
  Proof.
    induction xs as [|x xs IH]; intros s ys f s' H e.
    - cbn [get_vars] in H. apply pair3 in H as (<- & <- & <-). intro z. fin z.
    - apply gvars_cons in H as (y & f1 & s1 & ys' & f2 & E1 & E2 & -> & ->). intro z.
      pose proof (gvar_le _ _ _ _ _ _ _ _ _ _ E1) as L1. pose proof (gvars_le _ _ _ _ _ _ _ _ _ _ E2) as L2. unfold le in *.
      destruct (gvar_adds _ _ _ _ _ _ _ _ _ E1 (f2 e) z) as [A1 A2]. destruct (IH _ _ _ _ E2 e z) as [B1 B2]. split; intros; lia.
  Qed.

  Lemma conv_adds :
    (forall e map g c G s e1 f1 s1, conv e map g c G s = (e1, f1, s1) -> adds s s1 (bv e) (bv (f1 e1))) /\
    (forall B B0 map g c s B1 s1, convf B0 B map g c s = (B1, s1) -> adds s s1 (bv_funs B) (bv_funs B1)).
  Proof.
    apply exp_fundefs_ind.
    - intros x t ys e IH map g c G s e1 f1 s1 H z. apply conv_constr in H as (ys' & s' & e2 & f2 & H1 & H2 & ->).
      pose proof (gvars_le _ _ _ _ _ _ _ _ _ _ H1) as L1. pose proof (proj1 (conv_le _) _ _ _ _ _ _ _ _ _ H2) as L2. unfold le in *.
      destruct (gvars_adds _ _ _ _ _ _ _ _ _ H1 (Econstr x t ys' (f2 e2)) z). destruct (IH _ _ _ _ _ _ _ _ H2 z). fin z.
    - intros x l IH map g c G s e1 f1 s1 H z. apply conv_case_inv in H as (l' & s' & x' & H1 & H2 & ->).
      pose proof (pats_le _ _ _ _ _ _ _ _ _ H1) as L1. pose proof (gvar_le _ _ _ _ _ _ _ _ _ _ H2) as L2. unfold le in *.
      destruct (gvar_adds _ _ _ _ _ _ _ _ _ H2 (Ecase x' l') z) as [A1 A2].
      assert (K : ((z < nv s \/ nv s' <= z)%positive -> cnt z (bv (Ecase x' l')) = cnt z (bv (Ecase x l))) /\
                  ((nv s <= z < nv s')%positive -> cnt z (bv (Ecase x' l')) <= 1 + cnt z (bv (Ecase x l)))).
      { clear A1 A2 H2 L2. cbn [bv]. revert s l' H1 L1. induction IH as [|[t a] l IH1 _ IH2]; intros s l' H1 L1.
        - apply pair2 in H1 as [<- _]. split; intros; reflexivity || (cbn; lia).
        - apply pats_cons in H1 as (e2 & f2 & s2 & l2 & A & B & ->).
          pose proof (proj1 (conv_le _) _ _ _ _ _ _ _ _ _ A) as L2. pose proof (pats_le _ _ _ _ _ _ _ _ _ B) as L3. unfold le in *.
          destruct (IH1 _ _ _ _ _ _ _ _ A z). destruct (IH2 _ _ B L3). fin z. }
      destruct K. split; intros; lia.
    - intros x t n y e IH map g c G s e1 f1 s1 H z. apply conv_proj in H as (y' & s' & e2 & f2 & H1 & H2 & ->).
      pose proof (gvar_le _ _ _ _ _ _ _ _ _ _ H1) as L1. pose proof (proj1 (conv_le _) _ _ _ _ _ _ _ _ _ H2) as L2. unfold le in *.
      destruct (gvar_adds _ _ _ _ _ _ _ _ _ H1 (Eproj x t n y' (f2 e2)) z). destruct (IH _ _ _ _ _ _ _ _ H2 z). fin z.
    - intros x f t ys e IH map g c G s e1 f1 s1 H z.
      apply conv_letapp in H as (f' & g1 & sa & ys' & g2 & sb & ptr & sc & G' & sd & e2 & f2 & H1 & H2 & H3 & H4 & H5 & -> & ->).
      pose proof (gvar_le _ _ _ _ _ _ _ _ _ _ H1) as L1. pose proof (gvars_le _ _ _ _ _ _ _ _ _ _ H2) as L2.
      pose proof (proj1 (conv_le _) _ _ _ _ _ _ _ _ _ H5) as L3. unfold le in *.
      apply new_var_le in H3 as [-> H3]. apply new_var_le in H4 as [-> H4].
      destruct (IH _ _ _ _ _ _ _ _ H5 z). clear IH.
      match goal with |- context [g2 ?E] => destruct (gvar_adds _ _ _ _ _ _ _ _ _ H1 (g2 E) z); destruct (gvars_adds _ _ _ _ _ _ _ _ _ H2 E z) end. fin z.
    - intros B e IHB IH map g c G s e1 f1 s1 H z.
      apply conv_fun in H as (G' & sa & ys' & g' & sb & c' & sc & B' & sd & e2 & f2 & H1 & H2 & H3 & H4 & H5 & -> & ->).
      apply new_var_le in H1 as [-> H1]. pose proof (gvars_le _ _ _ _ _ _ _ _ _ _ H2) as L1. apply new_record_nv in H3.
      pose proof (proj2 (conv_le _) _ _ _ _ _ _ _ _ H4) as L2. pose proof (proj1 (conv_le _) _ _ _ _ _ _ _ _ _ H5) as L3. unfold le in *.
      destruct (IHB _ _ _ _ _ _ _ H4 z). destruct (IH _ _ _ _ _ _ _ _ H5 z). clear IHB IH.
      match goal with |- context [g' ?E] => destruct (gvars_adds _ _ _ _ _ _ _ _ _ H2 E z) end. fin z.
    - intros f t ys map g c G s e1 f1 s1 H z.
      apply conv_app in H as (f' & g1 & sa & ys' & g2 & sb & ptr & sc & G' & H1 & H2 & H3 & H4 & -> & ->).
      pose proof (gvar_le _ _ _ _ _ _ _ _ _ _ H1) as L1. pose proof (gvars_le _ _ _ _ _ _ _ _ _ _ H2) as L2. unfold le in *.
      apply new_var_le in H3 as [-> H3]. apply new_var_le in H4 as [-> H4].
      match goal with |- context [g2 ?E] => destruct (gvar_adds _ _ _ _ _ _ _ _ _ H1 (g2 E) z); destruct (gvars_adds _ _ _ _ _ _ _ _ _ H2 E z) end. fin z.
    - intros x p e IH map g c G s e1 f1 s1 H z. apply conv_prim_val in H as (e2 & f2 & H1 & -> & ->).
      destruct (IH _ _ _ _ _ _ _ _ H1 z). fin z.
    - intros x p ys e IH map g c G s e1 f1 s1 H z. apply conv_prim in H as (ys' & s' & e2 & f2 & H1 & H2 & ->).
      pose proof (gvars_le _ _ _ _ _ _ _ _ _ _ H1) as L1. pose proof (proj1 (conv_le _) _ _ _ _ _ _ _ _ _ H2) as L2. unfold le in *.
      destruct (gvars_adds _ _ _ _ _ _ _ _ _ H1 (Eprim x p ys' (f2 e2)) z). destruct (IH _ _ _ _ _ _ _ _ H2 z). fin z.
    - intros x map g c G s e1 f1 s1 H z. apply conv_halt in H as (x' & H1 & ->). destruct (gvar_adds _ _ _ _ _ _ _ _ _ H1 (Ehalt x') z). fin z.
    - intros f t ys e B IH IHB B0 map g c s B1 s1 H z.
      apply convf_cons in H as (G & sa & e1 & f1 & sb & B' & H1 & H2 & H3 & ->).
      apply new_var_le in H1 as [-> H1]. pose proof (proj1 (conv_le _) _ _ _ _ _ _ _ _ _ H2) as L2.
      pose proof (proj2 (conv_le _) _ _ _ _ _ _ _ _ H3) as L3. unfold le in *.
      destruct (IH _ _ _ _ _ _ _ _ H2 z). destruct (IHB _ _ _ _ _ _ _ H3 z). clear IH IHB. fin z.
    - intros B0 map g c s B1 s1 H z. cbn [fundefs_closure_conv] in H. apply pair2 in H as [<- <-]. fin z.
  Qed.

  (* ** Free variables *)
  Definition allowed (map : VarInfoMap) (g : GFunMap) (G z : var) : Prop :=
    get z map = Some BoundVar \/ (exists env, get z map = Some (MRFun env)) \/ (exists x, get x map = Some (MRFun z)) \/
    (z = G /\ exists x n, get x map = Some (FVar n)) \/ get z g <> None.
  Definition indom (map : VarInfoMap) (g : GFunMap) (x : var) : Prop := get x map <> None \/ get x g <> None.

  Lemma gvar_free x map g c G s y f s' : gvar x map g c G s = (y, f, s') -> indom map g x ->
    forall e z, free z (f e) -> allowed map g G z \/ (free z e /\ z <> y).
  Proof.
    intros H D e z. unfold get_var in H. destruct (get x map) as [[k|env|]|] eqn:EM; [| | |destruct (get x g) as [[]|] eqn:EG].
    - destruct (new_var s) as [y0 s0] eqn:EN. apply pair3 in H as (-> & <- & ->). cbn [free]. intros [->|[A B]]; [|auto].
      left. right. right. right. left. eauto.
    - destruct (new_var s) as [y0 s0] eqn:EN. apply pair3 in H as (-> & <- & ->). cbn [free In]. unfold allowed.
      intros [[<-|[<-|[]]]|[A B]]; [left; eauto 6|left; eauto 6|auto].
    - apply pair3 in H as (-> & <- & ->). intro F. destruct (Pos.eq_dec z y) as [->|N]; [left; left; exact EM|auto].
    - destruct (new_record 0 s) as [ce sa] eqn:ER. destruct (new_var sa) as [y0 sb] eqn:EN1. destruct (new_var sb) as [ge sc] eqn:EN2.
      apply pair3 in H as (-> & <- & ->). cbn [free In]. intros [[]|[N [[<-|[<-|[]]]|[A B]]]]; [left|congruence|auto].
      do 4 right. congruence.
    - exfalso. destruct D; congruence.
  Qed.
  Lemma gvars_free map g c G xs : forall s ys f s', gvars xs map g c G s = (ys, f, s') -> (forall x, In x xs -> indom map g x) ->
    forall e z, free z (f e) -> allowed map g G z \/ (free z e /\ ~ In z ys).
  Proof.
    induction xs as [|x xs IH]; intros s ys f s' H D e z F.
    - cbn [get_vars] in H. apply pair3 in H as (<- & <- & <-). right. split; [exact F|intros []].
    - apply gvars_cons in H as (y & f1 & s1 & ys' & f2 & E1 & E2 & -> & ->).
      destruct (gvar_free _ _ _ _ _ _ _ _ _ E1 (D x ltac:(left; reflexivity)) _ _ F) as [A|[A N]]; [auto|].
      destruct (IH _ _ _ _ E2 ltac:(intros; apply D; right; auto) _ _ A) as [B|[B N']]; [auto|].
      right. split; [exact B|]. intros [->|I]; auto.
  Qed.
  Lemma allowed_set x map g G z : allowed (set x BoundVar map) g G z -> z = x \/ allowed map g G z.
  Proof.
    intro A. destruct (Pos.eq_dec z x) as [->|N]; [auto|]. right. unfold allowed in *. rewrite get_set_other in A by exact N.
    destruct A as [A|[A|[(w & A)|[(-> & w & n & A)|A]]]]; auto; rewrite get_set in A; destruct (Pos.eq_dec w x); try discriminate; eauto 8.
  Qed.
  Lemma indom_set x map g y : y = x \/ indom map g y -> indom (set x BoundVar map) g y.
  Proof.
    intro H. unfold indom. rewrite get_set. destruct (Pos.eq_dec y x); [left; discriminate|]. destruct H; [contradiction|]. exact H.
  Qed.
  Lemma indom_body B g f t xs e map c x : find_def f B = Some (t, xs, e) -> free x e ->
    indom (add_params xs (add_closures B (fst (add_fvs (env_vars B g) 0 map)) c)) (add_closures_gfuns B g (no_vars (env_vars B g))) x.
  Proof.
    intros FD F. unfold indom. rewrite add_params_get, add_closures_get.
    destruct (in_dec Pos.eq_dec x xs) as [I|I]; [left; discriminate|].
    destruct (in_dec Pos.eq_dec x (fnames B)) as [J|J]; [left; discriminate|].
    assert (FF : free_funs x B) by (split; [exact J|]; eapply find_def_free; eauto).
    destruct (get x g) eqn:EG.
    - right. rewrite add_gfuns_get. destruct (no_vars _); [|congruence]. destruct (in_dec Pos.eq_dec x (fnames B)); [discriminate|congruence].
    - left. destruct (add_fvs_get (env_vars B g) 0 map x) as [A _]. destruct A as (k & A & _); [apply env_vars_In; auto|]. rewrite A. discriminate.
  Qed.

  (* the body of a function of bundle [B0] *)
  Lemma allowed_body B0 g xs G z l b : allowed (add_params xs (add_closures B0 (fst (add_fvs l 0 [])) G)) (add_closures_gfuns B0 g b) G z ->
    z = G \/ In z xs \/ In z (fnames B0) \/ get z (add_closures_gfuns B0 g b) <> None.
  Proof.
    assert (FV : forall w i, get w (fst (add_fvs l 0 [])) = Some i -> exists n, i = FVar n).
    { intros w i. destruct (add_fvs_get l 0 [] w) as [A1 A2]. destruct (in_dec Pos.eq_dec w l) as [I|I].
      - destruct (A1 I) as (k & E & _). rewrite E. intro Q. eexists. assert (Q2 : FVar (0 + k) = i) by congruence. symmetry. exact Q2.
      - rewrite (A2 I). discriminate. }
    assert (K : forall w i, get w (add_params xs (add_closures B0 (fst (add_fvs l 0 [])) G)) = Some i ->
      (In w xs /\ i = BoundVar) \/ (In w (fnames B0) /\ i = MRFun G) \/ exists n, i = FVar n).
    { intros w i. rewrite add_params_get, add_closures_get. destruct (in_dec Pos.eq_dec w xs); [left; split; [auto|congruence]|].
      destruct (in_dec Pos.eq_dec w (fnames B0)); [right; left; split; [auto|congruence]|]. intro E. right. right. eauto. }
    intros [A|[(env & A)|[(w & A)|[(-> & w & n & A)|A]]]]; auto; apply K in A as [[A1 A2]|[[A1 A2]|(k & A2)]]; try discriminate; auto.
    left. congruence.
  Qed.

  Lemma free_body_find x B : free_body x B -> NoDup (fnames B) -> exists f t xs e, find_def f B = Some (t, xs, e) /\ ~ In x xs /\ free x e.
  Proof.
    induction B as [f t xs e B IH|]; cbn [free_body fnames]; [|intros []].
    intros [[H1 H2]|H] N.
    - exists f, t, xs, e. cbn [find_def]. destruct (Pos.eq_dec f f); [auto|congruence].
    - inversion N; subst. destruct (IH H) as (f' & t' & xs' & e' & F & R); [assumption|]. exists f', t', xs', e'. cbn [find_def].
      destruct (Pos.eq_dec f' f) as [->|]; [|auto]. exfalso. apply H2. clear -F. induction B as [g t xs e B IH|]; cbn [find_def fnames] in *; [|discriminate].
      destruct (Pos.eq_dec f g) as [->|]; [left; reflexivity|right; auto].
  Qed.

  Fixpoint sub_defs (B B0 : fundefs) : Prop :=
    match B with
    | Fcons f t xs e B => (forall x, free x e -> In x xs \/ free_body x B0) /\ sub_defs B B0
    | Fnil => True
    end.
  Lemma sub_defs_ext B : forall B0 B1, (forall x, free_body x B0 -> free_body x B1) -> sub_defs B B0 -> sub_defs B B1.
  Proof. induction B as [f t xs e B IH|]; cbn [sub_defs]; [|auto]. intros B0 B1 K [H1 H2]. split; [|eauto]. intros x F. destruct (H1 x F); auto. Qed.
  Lemma sub_defs_refl B : sub_defs B B.
  Proof.
    induction B as [f t xs e B IH|]; cbn [sub_defs]; [|auto]. split.
    - intros x F. destruct (in_dec Pos.eq_dec x xs); [auto|]. right. left. auto.
    - eapply sub_defs_ext; [|exact IH]. intros x F. right. exact F.
  Qed.

  Lemma conv_free :
    (forall e map g c G s e1 f1 s1, conv e map g c G s = (e1, f1, s1) -> (forall x, free x e -> indom map g x) ->
       forall z, free z (f1 e1) -> allowed map g G z) /\
    (forall B B0 g c s B1 s1, convf B0 B (fst (add_fvs (env_vars B0 g) 0 [])) (add_closures_gfuns B0 g (no_vars (env_vars B0 g))) c s = (B1, s1) ->
       sub_defs B B0 ->
       forall z, free_body z B1 -> In z (fnames B0) \/ get z g <> None).
  Proof.
    apply exp_fundefs_ind.
    - intros x t ys e IH map g c G s e1 f1 s1 H D z F. apply conv_constr in H as (ys' & s' & e2 & f2 & H1 & H2 & ->).
      edestruct (gvars_free _ _ _ _ _ _ _ _ _ H1) as [A|[A N]]; [|exact F|exact A|]. { intros; apply D; cbn [free]; auto. }
      cbn [free] in A. destruct A as [A|[A B]]; [contradiction|].
      destruct (allowed_set x map g G z) as [->|Q]; [|congruence|exact Q]. eapply IH; [exact H2| |exact B].
      intros w Fw. apply indom_set. destruct (Pos.eq_dec w x); [auto|]. right. apply D. cbn [free]. auto.
    - intros x l IH map g c G s e1 f1 s1 H D z F. apply conv_case_inv in H as (l' & s' & x' & H1 & H2 & ->).
      edestruct (gvar_free _ _ _ _ _ _ _ _ _ H2) as [A|[A N]]; [|exact F|exact A|]. { apply D. left. reflexivity. }
      apply free_Ecase in A as [A|A]; [contradiction|]. assert (D' : forall w, free_case w l -> indom map g w) by (intros w Fw; apply D; apply free_Ecase; auto).
      clear D F N H2. revert s l' H1 A. induction IH as [|[t a] l IH1 _ IH2]; intros s l' H1 A.
      + apply pair2 in H1 as [<- _]. destruct A.
      + apply pats_cons in H1 as (e2 & f2 & s2 & l2 & P1 & P2 & ->). cbn [free_case snd] in A, D'. destruct A as [A|A].
        * eapply IH1; [exact P1| |exact A]. intros w Fw. apply D'. left. exact Fw.
        * eapply IH2; [|exact P2|exact A]. auto.
    - intros x t n y e IH map g c G s e1 f1 s1 H D z F. apply conv_proj in H as (y' & s' & e2 & f2 & H1 & H2 & ->).
      edestruct (gvar_free _ _ _ _ _ _ _ _ _ H1) as [A|[A N]]; [|exact F|exact A|]. { apply D. left. reflexivity. }
      cbn [free] in A. destruct A as [A|[A B]]; [contradiction|].
      destruct (allowed_set x map g G z) as [->|Q]; [|congruence|exact Q]. eapply IH; [exact H2| |exact B].
      intros w Fw. apply indom_set. destruct (Pos.eq_dec w x); [auto|]. right. apply D. cbn [free]. auto.
    - intros x f t ys e IH map g c G s e1 f1 s1 H D z F.
      apply conv_letapp in H as (f' & g1 & sa & ys' & g2 & sb & ptr & sc & G' & sd & e2 & f2 & H1 & H2 & H3 & H4 & H5 & -> & ->).
      edestruct (gvar_free _ _ _ _ _ _ _ _ _ H1) as [A|[A N]]; [|exact F|exact A|]. { apply D. left. reflexivity. }
      edestruct (gvars_free _ _ _ _ _ _ _ _ _ H2) as [B|[B N']]; [|exact A|exact B|]. { intros; apply D; cbn [free]; auto. }
      cbn [free In] in B. destruct B as [B|[B1 [B|[B2 [B|[[B|B]|[B3 B]]]]]]]; try contradiction; try congruence.
      destruct (allowed_set x map g G z) as [->|Q]; [|congruence|exact Q]. eapply IH; [exact H5| |exact B].
      intros w Fw. apply indom_set. destruct (Pos.eq_dec w x); [auto|]. right. apply D. cbn [free]. auto.
    - intros B e IHB IH map g c G s e1 f1 s1 H D z F.
      apply conv_fun in H as (G' & sa & ys' & g' & sb & c' & sc & B' & sd & e2 & f2 & H1 & H2 & H3 & H4 & H5 & -> & ->).
      edestruct (gvars_free _ _ _ _ _ _ _ _ _ H2) as [A|[A N]]; [|exact F|exact A|].
      { intros w I. apply env_vars_In in I as [I _]. apply D. apply free_funs_Efun. exact I. }
      cbn [free] in A. rewrite (convf_fnames _ _ _ _ _ _ _ _ _ H4) in A. destruct A as [A|[NG [NF [A|A]]]]; [contradiction| |].
      + assert (Q : allowed (add_closures B map G') (add_closures_gfuns B g (no_vars (env_vars B g))) G z).
        { eapply IH; [exact H5| |exact A]. intros w Fw. unfold indom. rewrite add_closures_get, add_gfuns_get.
          destruct (in_dec Pos.eq_dec w (fnames B)) as [I|I]; [left; discriminate|].
          destruct (D w) as [Q|Q]; [cbn [free]; auto|auto|]. right. destruct (no_vars _); auto. }
        unfold allowed in Q. rewrite add_closures_get, add_gfuns_get in Q. destruct (in_dec Pos.eq_dec z (fnames B)) as [I|I]; [contradiction|].
        unfold allowed. destruct Q as [Q|[Q|[(w & Q)|[(-> & w & n & Q)|Q]]]]; [auto|auto| | |].
        * rewrite add_closures_get in Q. destruct (in_dec Pos.eq_dec w (fnames B)); [congruence|eauto 6].
        * rewrite add_closures_get in Q. destruct (in_dec Pos.eq_dec w (fnames B)); [discriminate|eauto 10].
        * destruct (no_vars _); auto 6.
      + destruct (IHB _ _ _ _ _ _ H4 (sub_defs_refl B) z A) as [Q|Q]; [contradiction|]. do 4 right. exact Q.
    - intros f t ys map g c G s e1 f1 s1 H D z F.
      apply conv_app in H as (f' & g1 & sa & ys' & g2 & sb & ptr & sc & G' & H1 & H2 & H3 & H4 & -> & ->).
      edestruct (gvar_free _ _ _ _ _ _ _ _ _ H1) as [A|[A N]]; [|exact F|exact A|]. { apply D. left. reflexivity. }
      edestruct (gvars_free _ _ _ _ _ _ _ _ _ H2) as [B|[B N']]; [|exact A|exact B|]. { intros; apply D; cbn [free]; auto. }
      cbn [free In] in B. destruct B as [B|[B1 [B|[B2 [B|[B|B]]]]]]; try contradiction; congruence.
    - intros x p e IH map g c G s e1 f1 s1 H D z F. apply conv_prim_val in H as (e2 & f2 & H1 & -> & ->).
      cbn [free] in F. destruct F as [A B].
      destruct (allowed_set x map g G z) as [->|Q]; [|congruence|exact Q]. eapply IH; [exact H1| |exact B].
      intros w Fw. apply indom_set. destruct (Pos.eq_dec w x); [auto|]. right. apply D. cbn [free]. auto.
    - intros x p ys e IH map g c G s e1 f1 s1 H D z F. apply conv_prim in H as (ys' & s' & e2 & f2 & H1 & H2 & ->).
      edestruct (gvars_free _ _ _ _ _ _ _ _ _ H1) as [A|[A N]]; [|exact F|exact A|]. { intros; apply D; cbn [free]; auto. }
      cbn [free] in A. destruct A as [A|[A B]]; [contradiction|].
      destruct (allowed_set x map g G z) as [->|Q]; [|congruence|exact Q]. eapply IH; [exact H2| |exact B].
      intros w Fw. apply indom_set. destruct (Pos.eq_dec w x); [auto|]. right. apply D. cbn [free]. auto.
    - intros x map g c G s e1 f1 s1 H D z F. apply conv_halt in H as (x' & H1 & ->).
      edestruct (gvar_free _ _ _ _ _ _ _ _ _ H1) as [A|[A N]]; [|exact F|exact A|]. { apply D. reflexivity. }
      cbn [free] in A. congruence.
    - intros f t ys e B IH IHB B0 g c s B1 s1 H SD z F.
      apply convf_cons in H as (G & sa & e1 & f1 & sb & B' & H1 & H2 & H3 & ->). cbn [free_body sub_defs] in F, SD. destruct SD as [SD1 SD2].
      destruct F as [[N F]|F]; [|eapply IHB; eauto]. cbn [In] in N.
      destruct (allowed_body B0 g ys G z (env_vars B0 g) (no_vars (env_vars B0 g))) as [->|[I|[I|I]]]; try tauto.
      + eapply IH; [exact H2| |exact F]. intros w Fw. unfold indom. rewrite add_params_get, add_closures_get.
        destruct (in_dec Pos.eq_dec w ys) as [I|I]; [left; discriminate|].
        destruct (in_dec Pos.eq_dec w (fnames B0)) as [J|J]; [left; discriminate|].
        destruct (SD1 w Fw) as [K|K]; [contradiction|]. assert (FF : free_funs w B0) by (split; auto).
        destruct (get w g) eqn:EG.
        * right. rewrite add_gfuns_get. destruct (no_vars _); [|congruence]. destruct (in_dec Pos.eq_dec w (fnames B0)); [discriminate|congruence].
        * left. destruct (add_fvs_get (env_vars B0 g) 0 [] w) as [A _]. destruct A as (k & A & _); [apply env_vars_In; auto|]. rewrite A. discriminate.
      + rewrite add_gfuns_get in I. destruct (no_vars _); [|auto]. destruct (in_dec Pos.eq_dec z (fnames B0)); auto.
    - intros B0 g c s B1 s1 H SD z F. cbn [fundefs_closure_conv] in H. apply pair2 in H as [<- <-]. destruct F.
  Qed.
End Scope.
