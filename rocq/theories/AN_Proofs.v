(* A-normalisation preserves evaluation: one call of the A-normal program for
   each function body or branch of the source. *)
From Coq Require Import List Arith NArith PArith String Bool Lia.
From Verif Require Import ANF_Syntax ANF_Subst ANF_Spec WA_Spec WA_Eval LB_Model LB_Env AN_Model AN_Spec.
Import ListNotations.

(* ---- maps ---- *)

Lemma get_set_same : forall A x (v : A) m, get x (set x v m) = Some v.
Proof. intros. unfold set. cbn [get]. destruct (Pos.eq_dec x x); congruence. Qed.
Lemma get_set_other : forall A x y (v : A) m, x <> y -> get x (set y v m) = get x m.
Proof. intros. unfold set. cbn [get]. destruct (Pos.eq_dec x y); congruence. Qed.

Lemma get_def_funs_in : forall x B B0 rho0 rho, In x (fnames B) ->
  get x (def_funs B0 B rho0 rho) = Some (Vfun rho0 B0 x).
Proof.
  intros x; induction B; intros B0 rho0 rho H; [| destruct H]. cbn [def_funs fnames] in *.
  destruct (Pos.eq_dec x v).
  - subst. apply get_set_same.
  - rewrite get_set_other by auto. apply IHB. destruct H; congruence || auto.
Qed.
Lemma get_def_funs_out : forall x B B0 rho0 rho, ~ In x (fnames B) ->
  get x (def_funs B0 B rho0 rho) = get x rho.
Proof.
  intros x; induction B; intros B0 rho0 rho H; [| reflexivity]. cbn [def_funs fnames] in *.
  rewrite get_set_other by (intro; subst; apply H; left; reflexivity).
  apply IHB. intro; apply H; right; auto.
Qed.

(* ---- variable maps are lists of names ---- *)

Definition vm_is (vm : var_map) (ns : list var) : Prop :=
  forall x, get_var_name vm x = nth_error ns (N.to_nat x).

Lemma vm_new : vm_is new_var_map [].
Proof. intros x. unfold get_var_name, new_var_map. destruct (N.to_nat x); reflexivity. Qed.

Lemma vm_add : forall vm ns x, vm_is vm ns -> vm_is (add_var_name vm x) (x :: ns).
Proof.
  intros [vm p] ns x H i. unfold add_var_name, get_var_name.
  destruct (N.eq_dec i 0) as [-> | Hi].
  - cbn. unfold set. cbn. destruct (Pos.eq_dec (N.succ_pos p) (N.succ_pos p)); congruence.
  - specialize (H (i - 1)%N). unfold get_var_name in H.
    replace (N.to_nat i) with (S (N.to_nat (i - 1))) by lia. cbn [nth_error]. rewrite <- H.
    replace (N.pos (N.succ_pos p) - i)%N with (p - (i - 1))%N by (rewrite N.succ_pos_spec; lia).
    destruct (p - (i - 1))%N eqn:E; auto.
    rewrite get_set_other; auto.
    intro X. assert (N.pos p0 = N.pos (N.succ_pos p)) by congruence.
    rewrite N.succ_pos_spec in H0. lia.
Qed.

Lemma vm_adds : forall vars vm ns, vm_is vm ns ->
  vm_is (fold_right (fun v vm' => add_var_name vm' v) vm vars) (vars ++ ns).
Proof. induction vars; intros; cbn; auto. apply vm_add; auto. Qed.

(* ---- contexts ---- *)

Fixpoint bc (C : exp_ctx) : list var :=
  match C with
  | Hole_c => []
  | Econstr_c x _ _ c | Eproj_c x _ _ _ c | Eprim_val_c x _ c | Eprim_c x _ _ c
  | Eletapp_c x _ _ _ c => x :: bc c
  | Efun1_c B c => fnames B ++ bc c
  | Ecase_c _ _ _ _ _ => []
  | Efun2_c _ _ => []
  end.

Lemma bc_comp : forall C1 C2, (forall x, In x (bc (comp_ctx_f C1 C2)) -> In x (bc C1) \/ In x (bc C2)).
Proof.
  fix IH 1. intros C1 C2 y H. destruct C1; cbn [comp_ctx_f bc] in *; auto;
    try (destruct H as [H | H]; [left; left; auto | apply IH in H; destruct H; auto; left; right; auto]; fail).
  apply in_app_or in H. destruct H as [H | H]; [left; apply in_or_app; auto |].
  apply IH in H. destruct H; auto. left. apply in_or_app; auto.
Qed.

Inductive cres := CEnv (rho : env) | CTime | CStuck.

Section Ctx.
  Variable call : val -> fun_tag -> list val -> pres.
  Fixpoint evc (rho : env) (C : exp_ctx) : cres :=
    match C with
    | Hole_c => CEnv rho
    | Econstr_c x t ys c =>
      match get_list ys rho with Some vs => evc (set x (Vconstr t vs) rho) c | None => CStuck end
    | Eproj_c x t n y c =>
      match get y rho with
      | Some (Vconstr t' vs) =>
        if Pos.eq_dec t t' then
          match nthN vs n with Some v => evc (set x v rho) c | None => CStuck end
        else CStuck
      | _ => CStuck
      end
    | Eprim_val_c x p c => evc (set x (Vprim p) rho) c
    | Eletapp_c x f t ys c =>
      match get f rho, get_list ys rho with
      | Some vf, Some vs =>
        match call vf t vs with
        | PVal v => evc (set x v rho) c | PTime => CTime | PStuck => CStuck
        end
      | _, _ => CStuck
      end
    | Efun1_c B c => evc (def_funs B B rho rho) c
    | _ => CStuck
    end.

  Variable cenv : ctor_env.
  Variable pr : tmap (list val -> option val).

  Lemma evc_ev : forall C rho e,
    match evc rho C with
    | CEnv r => ev cenv pr call rho (app_ctx_f C e) = ev cenv pr call r e
    | CTime => ev cenv pr call rho (app_ctx_f C e) = PTime
    | CStuck => True
    end.
  Proof.
    fix IH 1. intros [] rho e0; cbn [evc app_ctx_f]; auto.
    - cbn [WA_Spec.ev]. destruct (get_list l rho); auto. apply IH.
    - cbn [WA_Spec.ev]. destruct (get v0 rho) as [[] |]; auto.
      match goal with |- context [Pos.eq_dec ?a ?b] => destruct (Pos.eq_dec a b) end; auto.
      match goal with |- context [nthN ?a ?b] => destruct (nthN a b) end; auto. apply IH.
    - cbn [WA_Spec.ev]. apply IH.
    - cbn [WA_Spec.ev]. destruct (get v0 rho); auto. destruct (get_list l rho); auto.
      destruct (call v1 f l0); auto. apply IH.
    - cbn [WA_Spec.ev]. apply IH.
  Qed.

  Lemma evc_comp : forall C1 C2 rho,
    evc rho (comp_ctx_f C1 C2) = match evc rho C1 with CEnv r => evc r C2 | r => r end.
  Proof.
    fix IH 1. intros [] C2 rho; cbn [evc comp_ctx_f]; auto.
    - destruct (get_list l rho); auto.
    - destruct (get v0 rho) as [[] |]; auto.
      match goal with |- context [Pos.eq_dec ?a ?b] => destruct (Pos.eq_dec a b) end; auto.
      match goal with |- context [nthN ?a ?b] => destruct (nthN a b) end; auto.
    - destruct (get v0 rho); auto. destruct (get_list l rho); auto. destruct (call v1 f l0); auto.
  Qed.

  Lemma evc_get : forall C rho r x, evc rho C = CEnv r -> ~ In x (bc C) -> get x r = get x rho.
  Proof.
    fix IH 1. intros [] rho r x E H; cbn [evc bc] in *; try discriminate; try congruence;
      try assert (x <> v) by (intro; subst; apply H; left; reflexivity).
    - destruct (get_list l rho); [| discriminate].
      rewrite (IH _ _ _ _ E) by (intro; apply H; right; auto). apply get_set_other; auto.
    - destruct (get v0 rho) as [[] |]; try discriminate.
      match type of E with context [Pos.eq_dec ?a ?b] => destruct (Pos.eq_dec a b) end; [| discriminate].
      match type of E with context [nthN ?a ?b] => destruct (nthN a b) end; [| discriminate].
      rewrite (IH _ _ _ _ E) by (intro; apply H; right; auto). apply get_set_other; auto.
    - rewrite (IH _ _ _ _ E) by (intro; apply H; right; auto). apply get_set_other; auto.
    - destruct (get v0 rho); [| discriminate]. destruct (get_list l rho); [| discriminate].
      destruct (call v1 f l0); try discriminate.
      rewrite (IH _ _ _ _ E) by (intro; apply H; right; auto). apply get_set_other; auto.
    - rewrite (IH _ _ _ _ E) by (intro; apply H; apply in_or_app; auto).
      apply get_def_funs_out. intro; apply H; apply in_or_app; auto.
  Qed.
End Ctx.

(* ---- what the conversion allocates ---- *)

Definition btw (s s' x : positive) : Prop := (s <= x < s')%positive.

Lemma fresh_list_spec : forall n s, let (xs, s') := fresh_list n s in
  List.length xs = n /\ (s <= s')%positive /\ (forall x, In x xs -> btw s s' x) /\ NoDup xs.
Proof.
  induction n; intros s; cbn [fresh_list fresh].
  - repeat split; try lia; try constructor; destruct H.
  - specialize (IHn (s + 1)%positive). destruct (fresh_list n (s + 1)) as [xs s']. unfold btw in *.
    destruct IHn as [A [B [D E]]]. cbn [List.length]. repeat split; try lia.
    + destruct H; [lia |]. specialize (D x H). lia.
    + destruct H; [lia |]. specialize (D x H). lia.
    + constructor; auto. intro X. specialize (D s X). lia.
Qed.

Lemma fix_names_spec : forall B vm ns s names vm' s', add_fix_names B vm s = (names, vm', s') ->
  vm_is vm ns ->
  vm_is vm' (rev names ++ ns) /\ List.length names = efnlength B /\ (s <= s')%positive /\
  (forall x, In x names -> btw s s' x) /\ NoDup names.
Proof.
  induction B; intros vm ns s names vm' s' E H; cbn [add_fix_names fresh] in E.
  - injection E as <- <- <-. repeat split; auto; try lia; try constructor; destruct H0.
  - destruct (add_fix_names B (add_var_name vm s) (s + 1)) as [[fs vm1] s1] eqn:F.
    injection E as <- <- <-.
    destruct (IHB _ _ _ _ _ _ F (vm_add _ _ s H)) as [A [D [L [I ND]]]].
    unfold btw in *. repeat split.
    + cbn [rev]. rewrite <- app_assoc. exact A.
    + cbn; lia.
    + lia.
    + destruct H0; [lia |]. specialize (I x H0). lia.
    + destruct H0; [lia |]. specialize (I x H0). lia.
    + constructor; auto. intro X. specialize (I s X). lia.
Qed.

Tactic Notation "dopt" hyp(E) simple_intropattern(p) ident(F) :=
  match type of E with
  | (match ?m with Some _ => _ | None => None end) = _ => destruct m as p eqn:F; [| discriminate E]
  end.

(* Induction in which a function of a fixpoint also gives the hypothesis for its
   body. *)
Lemma exp_ind_lam : forall (P : lexp -> Prop) (P0 : exps -> Prop) (P1 : efnlst -> Prop) (P2 : branches_e -> Prop),
  (forall n, P (Var_e n)) ->
  (forall n e, P e -> P (Lam_e n e)) ->
  (forall e1, P e1 -> forall e2, P e2 -> P (App_e e1 e2)) ->
  (forall d l, P0 l -> P (Con_e d l)) ->
  (forall e, P e -> forall n b, P2 b -> P (Match_e e n b)) ->
  (forall n e1, P e1 -> forall e2, P e2 -> P (Let_e n e1 e2)) ->
  (forall l, P1 l -> forall n, P (Fix_e l n)) ->
  P Prf_e -> (forall p, P (Prim_val_e p)) -> (forall p, P (Prim_e p)) ->
  P0 enil -> (forall e, P e -> forall l, P0 l -> P0 (econs e l)) ->
  P1 eflnil ->
  (forall n e, P e -> (forall na b, e = Lam_e na b -> P b) -> forall l, P1 l -> P1 (eflcons n e l)) ->
  P2 brnil_e -> (forall d n e, P e -> forall b, P2 b -> P2 (brcons_e d n e b)) ->
  (forall e, P e) /\ (forall l, P0 l) /\ (forall l, P1 l) /\ (forall b, P2 b).
Proof.
  intros P P0 P1 P2 H1 H2 H3 H4 H5 H6 H7 H8 H9 H10 H11 H12 H13 H14 H15 H16.
  assert (A : (forall e, P e /\ (forall na b, e = Lam_e na b -> P b)) /\
              (forall l, P0 l) /\ (forall l, P1 l) /\ (forall b, P2 b)).
  { apply my_exp_ind; intros;
      repeat match goal with X : _ /\ _ |- _ => destruct X end;
      try (split; [auto | intros ? ? X; try discriminate; injection X as <- <-; auto]); auto. }
  destruct A as [A B]. split; [apply A | exact B].
Qed.

Section Conv.
  Variable prims : tmap nat.
  Variables func_tag default_tag : positive.
  Variable tgm : conId_map.
  Notation conv := (convert_anf prims func_tag default_tag tgm).
  Notation convs := (convert_anf_exps prims func_tag default_tag tgm).
  Notation convfs := (convert_anf_efnlst prims func_tag default_tag tgm).
  Notation convbs := (convert_anf_branches prims func_tag default_tag tgm).
  Notation tag := (fun d => dcon_to_tag default_tag d tgm).

  Lemma conv_prim_bounds : forall n p args s x C s',
    convert_prim_anf func_tag n p args s = (x, C, s') ->
    (s < s')%positive /\ btw s s' x /\ (forall y, In y (bc C) -> btw s s' y).
  Proof.
    induction n; intros p args s x C s' E; cbn [convert_prim_anf fresh] in E.
    - injection E as <- <- <-. unfold btw. cbn. repeat split; try lia; destruct H as [<- | []]; lia.
    - match type of E with context [convert_prim_anf ?a ?b ?c ?d ?e] =>
        destruct (convert_prim_anf a b c d e) as [[x1 C1] s1] eqn:F end.
      injection E as <- <- <-. destruct (IHn _ _ _ _ _ _ F) as [A _]. unfold btw. cbn.
      repeat split; try lia; destruct H as [<- | []]; lia.
  Qed.

  Ltac ub := unfold btw in *.

  Lemma add_fix_bounds : forall fs vm s names vm' s1, add_fix_names fs vm s = (names, vm', s1) ->
    (s <= s1)%positive /\ (forall x, In x names -> btw s s1 x) /\ List.length names = efnlength fs.
  Proof.
    induction fs; intros vm s names vm' s1 AF; cbn [add_fix_names fresh] in AF.
    - injection AF as <- <- <-. split; [lia |]. split; [intros x [] | reflexivity].
    - destruct (add_fix_names fs (add_var_name vm s) (s + 1)) as [[f1 v1] t1] eqn:G.
      injection AF as <- <- <-. destruct (IHfs _ _ _ _ _ G) as [A [B D]]. unfold btw in *.
      split; [lia |]. split; [| cbn; lia]. intros x [<- | H]; [lia |]. specialize (B x H); lia.
  Qed.

  Lemma conv_bounds :
    (forall e, uses tgm e -> forall vm s x C s', conv e vm s = Some (x, C, s') ->
       (s <= s')%positive /\ (forall y, In y (bc C) -> btw s s' y) /\
       (forall ns, vm_is vm ns -> In x ns \/ btw s s' x)) /\
    (forall e, uses_es tgm e -> forall vm s x C s', convs e vm s = Some (x, C, s') ->
       (s <= s')%positive /\ (forall y, In y (bc C) -> btw s s' y) /\
       (forall ns, vm_is vm ns -> forall y, In y x -> In y ns \/ btw s s' y)) /\
    (forall e, uses_fs tgm e -> forall names i vm s x B s', convfs e names i vm s = Some (x, B, s') ->
       (s <= s')%positive /\ fnames B = names /\ List.length names = efnlength e /\
       (forall f, nth_error names (N.to_nat i) = Some f -> x = f)) /\
    (forall e, uses_bs tgm e -> forall y vm s ps s', convbs e y vm s = Some (ps, s') -> (s <= s')%positive).
  Proof.
    apply exp_ind_lam.
    - (* Var *) intros n _ vm s x C s' E. cbn [convert_anf] in E.
      destruct (get_var_name vm n) eqn:G; [| discriminate]. injection E as <- <- <-.
      split; [lia |]. split; [intros y [] |]. intros ns V. left. rewrite V in G. eapply nth_error_In; eauto.
    - (* Lam *) intros na e IH U vm s x C s' E. cbn [convert_anf fresh uses] in *.
      dopt E [[[r C1] s1] |] F.
      injection E as <- <- <-. destruct (IH U _ _ _ _ _ F) as [A _]. ub. cbn.
      split; [lia |]. split; [intros y [<- | []]; lia | intros; right; lia].
    - (* App *) intros e1 IH1 e2 IH2 [U1 U2] vm s x C s' E. cbn [convert_anf fresh] in E.
      dopt E [[[x1 C1] s1] |] F1.
      dopt E [[[x2 C2] s2] |] F2.
      injection E as <- <- <-.
      destruct (IH1 U1 _ _ _ _ _ F1) as [A1 [B1 _]]. destruct (IH2 U2 _ _ _ _ _ F2) as [A2 [B2 _]].
      ub. split; [lia |]. split; [| intros; right; lia].
      intros y H. apply bc_comp in H. destruct H as [H | H]; [specialize (B1 y H); lia |].
      apply bc_comp in H. destruct H as [H | H]; [specialize (B2 y H); lia |].
      cbn in H. destruct H as [<- | []]. lia.
    - (* Con *) intros d l IH [_ U] vm s x C s' E. cbn [convert_anf fresh] in E.
      dopt E [[[ys C1] s1] |] F.
      injection E as <- <- <-. destruct (IH U _ _ _ _ _ F) as [A [B _]]. ub.
      split; [lia |]. split; [| intros; right; lia].
      intros y H. apply bc_comp in H. destruct H as [H | H]; [specialize (B y H); lia |].
      cbn in H. destruct H as [<- | []]. lia.
    - (* Match *) intros e1 IH1 n bs IHb [U1 [_ U2]] vm s x C s' E. cbn [convert_anf fresh] in E.
      dopt E [[[x1 C1] s1] |] F1.
      dopt E [[ps s2] |] F2.
      injection E as <- <- <-.
      destruct (IH1 U1 _ _ _ _ _ F1) as [A1 [B1 _]]. apply (IHb U2) in F2.
      ub. split; [lia |]. split; [| intros; right; lia].
      intros y H. cbn [bc fnames] in H. apply in_app_or in H. destruct H as [[<- | []] | H]; [lia |].
      apply bc_comp in H. destruct H as [H | H]; [specialize (B1 y H); lia |].
      cbn in H. destruct H as [<- | []]. lia.
    - (* Let *) intros na e1 IH1 e2 IH2 [U1 U2] vm s x C s' E. cbn [convert_anf fresh] in E.
      dopt E [[[x1 C1] s1] |] F1.
      dopt E [[[x2 C2] s2] |] F2.
      injection E as <- <- <-.
      destruct (IH1 U1 _ _ _ _ _ F1) as [A1 [B1 D1]]. destruct (IH2 U2 _ _ _ _ _ F2) as [A2 [B2 D2]].
      ub. split; [lia |]. split.
      + intros y H. apply bc_comp in H. destruct H as [H | H]; [specialize (B1 y H) | specialize (B2 y H)]; lia.
      + intros ns V. destruct (D2 _ (vm_add _ _ x1 V)) as [[<- | I] | I]; auto.
        * destruct (D1 _ V); auto. right; lia.
        * right; lia.
    - (* Fix *) intros fs IH i [L U] vm s x C s' E. cbn [convert_anf] in E.
      destruct (add_fix_names fs vm s) as [[names vm'] s1] eqn:AF.
      dopt E [[[x1 B] s2] |] F.
      injection E as <- <- <-. destruct (IH U _ _ _ _ _ _ _ F) as [A [FB [LN NI]]].
      destruct (add_fix_bounds _ _ _ _ _ _ AF) as [Q1 [Q2 Q3]]. ub. split; [lia |]. split.
      + intros y H. cbn [bc] in H. rewrite app_nil_r, FB in H. specialize (Q2 y H). lia.
      + intros ns V.
        destruct (nth_error names (N.to_nat i)) as [f |] eqn:NE.
        * rewrite (NI f eq_refl). right. apply nth_error_In in NE. specialize (Q2 f NE). lia.
        * apply nth_error_None in NE. exfalso. clear -NE L Q3.
          assert (Z : forall g, efnlst_length g = N.of_nat (efnlength g)) by (induction g; cbn [efnlst_length efnlength]; lia).
          rewrite Z in L. lia.
    - (* Prf *) intros _ vm s x C s' E. cbn in E. injection E as <- <- <-. ub. cbn.
      split; [lia |]. split; [intros y [<- | []]; lia | intros; right; lia].
    - intros p _ vm s x C s' E. cbn in E. injection E as <- <- <-. ub. cbn.
      split; [lia |]. split; [intros y [<- | []]; lia | intros; right; lia].
    - intros p _ vm s x C s' E. cbn [convert_anf] in E. destruct (get p prims); [| discriminate].
      destruct (convert_prim_anf func_tag n p [] s) as [[x1 C1] s1] eqn:F. injection E as <- <- <-.
      destruct (conv_prim_bounds _ _ _ _ _ _ _ F) as [A [B D]]. ub. split; [lia |]. split; auto.
    - intros _ vm s x C s' E. cbn in E. injection E as <- <- <-. split; [lia |].
      split; [intros y [] | intros ns _ y []].
    - intros e IH1 l IH2 [U1 U2] vm s x C s' E. cbn [convert_anf_exps] in E.
      dopt E [[[x1 C1] s1] |] F1.
      dopt E [[[x2 C2] s2] |] F2.
      injection E as <- <- <-.
      destruct (IH1 U1 _ _ _ _ _ F1) as [A1 [B1 D1]]. destruct (IH2 U2 _ _ _ _ _ F2) as [A2 [B2 D2]].
      ub. split; [lia |]. split.
      + intros y H. apply bc_comp in H. destruct H as [H | H]; [specialize (B1 y H) | specialize (B2 y H)]; lia.
      + intros ns V y [<- | H].
        * destruct (D1 _ V); auto. right; lia.
        * destruct (D2 _ V y H); auto. right; lia.
    - intros _ names i vm s x B s' E. cbn [convert_anf_efnlst] in E. destruct names; [| discriminate].
      injection E as <- <- <-. repeat split; try lia. intros f X. destruct (N.to_nat i); discriminate.
    - intros na e _ IH1 fs IH2 [U1 U2] names i vm s x B s' E. cbn [convert_anf_efnlst fresh] in E.
      destruct names as [|f names]; [discriminate |]. destruct e; try discriminate.
      dopt E [[[r C] s1] |] F1.
      dopt E [[[x2 B2] s2] |] F2.
      injection E as <- <- <-.
      destruct (IH2 U2 _ _ _ _ _ _ _ F2) as [A2 [FB [L2 N2]]].
      assert (A1 : (s <= s1)%positive).
      { destruct (IH1 _ _ eq_refl U1 _ _ _ _ _ F1) as [A _]. lia. }
      repeat split; try lia.
      + cbn. f_equal; auto.
      + cbn. lia.
      + intros g X. destruct i; cbn in X.
        * congruence.
        * apply N2. replace (N.to_nat (N.pos p - 1)) with (pred (Pos.to_nat p)) by lia.
          destruct (Pos2Nat.is_succ p) as [k Hk]. rewrite Hk in *. exact X.
    - intros _ y vm s ps s' E. cbn in E. injection E as <- <-. lia.
    - intros d [n na] e IH1 bs IH2 [_ [U1 U2]] y vm s ps s' E. cbn [convert_anf_branches nargs fst] in E.
      dopt E [[ps1 s1] |] F1.
      pose proof (fresh_list_spec (N.to_nat n) s1) as FL. destruct (fresh_list (N.to_nat n) s1) as [vars s2].
      dopt E [[[r C] s3] |] F2.
      injection E as <- <-. apply (IH2 U2) in F1. destruct (IH1 U1 _ _ _ _ _ F2) as [A _].
      destruct FL as [_ [FL _]]. lia.
  Qed.

  (* ---- related values ---- *)

  Inductive vrel : value -> val -> Prop :=
  | vr_con : forall d vs vs', known tgm d -> Forall2 vrel vs vs' ->
      vrel (Con_v d vs) (Vconstr (dcon_to_tag default_tag d tgm) vs')
  | vr_prf : vrel Prf_v (Vconstr default_tag [])
  | vr_prim : forall p, vrel (Prim_v p) (Vprim p)
  | vr_clos : forall rho na b rho' f x r C ns vm s s',
      vm_is vm ns -> (forall y, In y ns -> (y < s)%positive) ->
      ~ In f ns -> ~ In x ns -> f <> x -> (x < s)%positive ->
      conv b (add_var_name vm x) s = Some (r, C, s') -> uses tgm b ->
      Forall2 (fun v y => exists v', get y rho' = Some v' /\ vrel v v') rho ns ->
      vrel (Clos_v rho na b) (Vfun rho' (Fcons f func_tag [x] (app_ctx_f C (Ehalt r)) Fnil) f)
  | vr_fix : forall rho fnl n rho' B f ns vm vm' s s1 s2 names i xi,
      vm_is vm ns -> (forall y, In y ns -> (y < s)%positive) ->
      add_fix_names fnl vm s = (names, vm', s1) ->
      convfs fnl names i vm' s1 = Some (xi, B, s2) -> uses_fs tgm fnl ->
      nth_error names (N.to_nat n) = Some f ->
      Forall2 (fun v y => exists v', get y rho' = Some v' /\ vrel v v') rho ns ->
      vrel (ClosFix_v rho fnl n) (Vfun rho' B f).

  Definition erel (rho : venv) (ns : list var) (rho' : env) : Prop :=
    Forall2 (fun v y => exists v', get y rho' = Some v' /\ vrel v v') rho ns.

  Lemma erel_ext : forall rho ns r1 r2, erel rho ns r1 ->
    (forall y, In y ns -> get y r2 = get y r1) -> erel rho ns r2.
  Proof.
    unfold erel. induction 1; intros G; constructor.
    - destruct H as [v' [A B]]. exists v'. rewrite G by (left; auto). auto.
    - apply IHForall2. intros z Hz. apply G. right; auto.
  Qed.

  Lemma erel_app : forall a b xs ys rho', erel a xs rho' -> erel b ys rho' -> erel (a ++ b) (xs ++ ys) rho'.
  Proof. intros. apply Forall2_app; auto. Qed.

  Lemma erel_nth : forall rho ns rho' k v, erel rho ns rho' -> nth_error rho k = Some v ->
    exists y v', nth_error ns k = Some y /\ get y rho' = Some v' /\ vrel v v'.
  Proof.
    intros rho ns rho' k v H. revert k. induction H; intros k E; destruct k; try discriminate.
    - injection E as <-. destruct H as [v' [A B]]. exists y, v'. auto.
    - apply IHForall2; auto.
  Qed.

  (* A body in related environments. *)
  Definition body_ok (bs : venv -> lexp -> eres value) (bt : env -> exp -> pres) : Prop :=
    forall b, uses tgm b -> forall vm ns s r C s' rho rho',
      vm_is vm ns -> (forall y, In y ns -> (y < s)%positive) ->
      conv b vm s = Some (r, C, s') -> erel rho ns rho' ->
      match bs rho b with
      | EVal v => exists v', bt rho' (app_ctx_f C (Ehalt r)) = PVal v' /\ vrel v v'
      | ETime => bt rho' (app_ctx_f C (Ehalt r)) = PTime
      | EStuck => True
      end.

  (* The functions of a converted fixpoint. *)
  Lemma fix_find : forall fs names i vm s x B s' ns, uses_fs tgm fs ->
    convfs fs names i vm s = Some (x, B, s') ->
    vm_is vm ns -> (forall y, In y ns -> (y < s)%positive) -> NoDup names ->
    forall k f na b, nth_error names k = Some f -> enthopt k fs = Some (Lam_e na b) ->
    exists y s1 r C s2, find_def f B = Some (func_tag, [y], app_ctx_f C (Ehalt r)) /\
      conv b (add_var_name vm y) s1 = Some (r, C, s2) /\ uses tgm b /\
      (s <= y)%positive /\ (y < s1)%positive.
  Proof.
    induction fs as [|na0 e fs IH]; intros names i vm s x B s' ns U E V L ND k f na b N H;
      [destruct k; discriminate |].
    destruct U as [U1 U2]. cbn [convert_anf_efnlst fresh] in E.
    destruct names as [|g names]; [discriminate |]. destruct e; try discriminate.
    dopt E [[[r C] s1] |] F1. dopt E [[[x2 B2] s2] |] F2. injection E as <- <- <-.
    inversion ND; subst. cbn [uses] in U1. destruct (proj1 conv_bounds _ U1 _ _ _ _ _ F1) as [A1 _].
    destruct k; cbn [nth_error enthopt] in *.
    - injection N as <-. injection H as <- <-. exists s, (s + 1)%positive, r, C, s1.
      cbn [find_def]. destruct (Pos.eq_dec g g); [| congruence].
      repeat split; auto; lia.
    - destruct (IH _ _ _ _ _ _ _ ns U2 F2 V) with (k := k) (f := f) (na := na) (b := b)
        as [y [t1 [r0 [C0 [t2 [Q1 [Q2 [Q3 [Q4 Q5]]]]]]]]]; auto.
      { intros z Hz. specialize (L z Hz). lia. }
      exists y, t1, r0, C0, t2. cbn [find_def]. destruct (Pos.eq_dec f g) as [-> |].
      + exfalso. apply H2. eapply nth_error_In; eauto.
      + repeat split; auto; lia.
  Qed.

  Lemma efn_len : forall g, efnlst_length g = N.of_nat (efnlength g).
  Proof. induction g; cbn [efnlst_length efnlength]; lia. Qed.

  Lemma enthopt_Some : forall fs k e, enthopt k fs = Some e -> k < efnlength fs.
  Proof. induction fs; intros k e E; destruct k; try discriminate; cbn [efnlength]; [lia |]. apply IHfs in E. lia. Qed.

  (* The environment of a fixpoint's functions. *)
  Lemma rec_env_rel : forall fnl rho rho' ns vm vm' s s1 s2 names i xi B,
    vm_is vm ns -> (forall y, In y ns -> (y < s)%positive) ->
    add_fix_names fnl vm s = (names, vm', s1) ->
    convfs fnl names i vm' s1 = Some (xi, B, s2) -> uses_fs tgm fnl ->
    erel rho ns rho' ->
    erel (make_rec_env fnl rho) (rev names ++ ns) (def_funs B B rho' rho').
  Proof.
    intros fnl rho rho' ns vm vm' s s1 s2 names i xi B V L AF CF U R.
    destruct (proj1 (proj2 (proj2 conv_bounds)) _ U _ _ _ _ _ _ _ CF) as [_ [FB [LN _]]].
    destruct (fix_names_spec _ _ _ _ _ _ _ AF V) as [_ [_ [_ [I ND]]]].
    apply erel_app.
    - unfold erel.
      assert (X : forall k, k <= efnlength fnl ->
         Forall2 (fun v y => exists v', get y (def_funs B B rho' rho') = Some v' /\ vrel v v')
           (map (fun n => ClosFix_v rho fnl (N.of_nat n)) (list_to_zero k)) (rev (firstn k names))).
      { induction k; intros Lk; [constructor |].
        destruct (nth_error names k) as [f |] eqn:NE; [| apply nth_error_None in NE; lia].
        assert (FN : firstn (S k) names = firstn k names ++ [f]).
        { clear -NE. revert names NE. induction k; intros [|a l] NE; try discriminate.
          - cbn in *. congruence.
          - cbn in NE. cbn [firstn app]. rewrite <- IHk; auto. }
        rewrite FN, rev_app_distr. cbn [rev app list_to_zero map]. constructor; [| apply IHk; lia].
        exists (Vfun rho' B f). split.
        - apply get_def_funs_in. rewrite FB. eapply nth_error_In; eauto.
        - eapply vr_fix; eauto. rewrite Nnat.Nat2N.id. exact NE. }
      specialize (X (efnlength fnl) (le_n _)). rewrite <- LN, firstn_all in X.
      rewrite <- LN. exact X.
    - eapply erel_ext; [exact R |]. intros y Hy. apply get_def_funs_out. rewrite FB.
      intro Hn. apply I in Hn. unfold btw in Hn. specialize (L y Hy). lia.
  Qed.

  Variable cenv : ctor_env.
  Variable pr : tmap (list val -> option val).
  Hypothesis SIG : good_sig default_tag tgm cenv.
  Notation ev := (WA_Spec.ev cenv pr).
  Notation callf := (WA_Spec.callf cenv pr).
  Notation peval := (WA_Spec.peval cenv pr).

  (* One level of calls. *)
  Definition lower (n : nat) : venv -> lexp -> eres value :=
    match n with 0 => fun _ _ => ETime | S m => eeval false m end.
  Definition lower_ok (n : nat) : Prop :=
    match n with 0 => True | S m => body_ok (eeval false m) (peval m) end.

  Lemma apply_ok : forall n, lower_ok n -> forall f vf v v', vrel f vf -> vrel v v' ->
    match apply_fun false (lower n) f v with
    | EVal w => exists w', callf n vf func_tag [v'] = PVal w' /\ vrel w w'
    | ETime => callf n vf func_tag [v'] = PTime
    | EStuck => True
    end.
  Proof.
    intros n LO f vf v v' R1 R2. inversion R1; subst; cbn [apply_fun]; auto.
    - destruct n as [|n]; cbn [lower lower_ok] in *; [reflexivity |].
      erewrite callf_S;
        [| cbn [find_def]; destruct (Pos.eq_dec f0 f0); [reflexivity | congruence]
         | cbn [set_lists def_funs]; reflexivity].
      apply (LO b H6 _ (x :: ns) _ _ _ _ (v :: rho) _ (vm_add _ _ x H)) with (2 := H5).
      + intros y [<- | Hy]; auto.
      + constructor.
        * exists v'. split; auto. apply get_set_same.
        * eapply erel_ext; [exact H7 |]. intros y Hy.
          rewrite !get_set_other by (intro; subst; contradiction). reflexivity.
    - destruct (enthopt (N.to_nat n0) fnl) as [[] |] eqn:EN; auto.
      destruct n as [|n]; cbn [lower lower_ok] in *; [reflexivity |].
      match goal with HA : add_fix_names _ _ _ = _, HC : convfs _ _ _ _ _ = _, HU : uses_fs tgm fnl |- _ =>
        destruct (fix_names_spec _ _ _ _ _ _ _ HA H) as [V' [LN [L1 [I ND]]]];
        destruct (fix_find _ _ _ _ _ _ _ _ _ HU HC V') with (k := N.to_nat n0) (f := f0) (na := n1) (b := l)
          as [y [t1 [r0 [C0 [t2 [Q1 [Q2 [Q3 [Q4 Q5]]]]]]]]]; auto;
        pose proof (rec_env_rel _ _ _ _ _ _ _ _ _ _ _ _ _ H H0 HA HC HU H5) as RE
      end.
      { intros y Hy. apply in_app_or in Hy. destruct Hy as [Hy | Hy].
        - apply in_rev in Hy. apply I in Hy. unfold btw in Hy. lia.
        - specialize (H0 y Hy). lia. }
      assert (BD : forall z, In z (rev names ++ ns) -> (z < s1)%positive).
      { intros z Hy. apply in_app_or in Hy. destruct Hy as [Hy | Hy].
        - apply in_rev in Hy. apply I in Hy. unfold btw in Hy. lia.
        - specialize (H0 z Hy). lia. }
      erewrite callf_S; [| exact Q1 | cbn [set_lists]; reflexivity].
      apply (LO l Q3 _ (y :: rev names ++ ns) _ _ _ _ _ _ (vm_add _ _ y V')) with (2 := Q2).
      + intros z [<- | Hz]; [lia |]. specialize (BD z Hz). lia.
      + constructor.
        * exists v'. split; auto. apply get_set_same.
        * eapply erel_ext; [exact RE |]. intros z Hz. apply get_set_other.
          specialize (BD z Hz). intro; subst; lia.
  Qed.

  (* Binding the arguments of a constructor. *)
  Lemma nthN_nth : forall A (l : list A) k, nthN l (N.of_nat k) = nth_error l k.
  Proof.
    induction l; intros k; [destruct k; reflexivity |]. cbn [nthN]. destruct k; [reflexivity |].
    destruct (N.eqb_spec (N.of_nat (S k)) 0); [lia |]. cbn [nth_error]. rewrite <- IHl. f_equal. lia.
  Qed.

  Lemma proj_ok : forall call tg y (vars : list var) vs rho,
    get y rho = Some (Vconstr tg vs) -> List.length vars <= List.length vs ->
    NoDup vars -> ~ In y vars ->
    exists rho2, evc call rho (ctx_bind_proj tg y vars (List.length vars)) = CEnv rho2 /\
      (forall x, ~ In x vars -> get x rho2 = get x rho) /\
      Forall2 (fun v x => get x rho2 = Some v) (rev (firstn (List.length vars) vs)) vars.
  Proof.
    intros call tg y. induction vars as [|x vars IH]; intros vs rho G L ND NI.
    - exists rho. cbn. repeat split; auto.
    - inversion ND; subst. cbn [ctx_bind_proj evc List.length].
      replace (S (List.length vars) - 1) with (List.length vars) by lia.
      rewrite G. destruct (Pos.eq_dec tg tg); [| congruence]. rewrite nthN_nth.
      destruct (nth_error vs (List.length vars)) as [v |] eqn:NE;
        [| apply nth_error_None in NE; cbn in L; lia].
      destruct (IH vs (set x v rho)) as [rho2 [E [A B]]]; auto.
      { rewrite get_set_other; auto. intro; subst; apply NI; left; auto. }
      { cbn in L; lia. }
      { intro; apply NI; right; auto. }
      exists rho2. split; [exact E |]. split.
      + intros z Hz. rewrite A by (intro; apply Hz; right; auto).
        apply get_set_other. intro; subst; apply Hz; left; auto.
      + assert (FN : firstn (S (List.length vars)) vs = firstn (List.length vars) vs ++ [v]).
        { clear -NE. revert vs NE. induction (List.length vars); intros [|a l] NE; try discriminate.
          - cbn in *. congruence.
          - cbn in NE. cbn [firstn app]. rewrite <- IHn; auto. }
        rewrite FN, rev_app_distr. cbn [rev app]. constructor; auto.
        rewrite A; auto. apply get_set_same.
  Qed.

  (* The branch that is selected. *)
  Lemma branch_ok : forall bs y vm s ps s' ns, uses_bs tgm bs ->
    convbs bs y vm s = Some (ps, s') ->
    vm_is vm ns -> (forall x, In x ns -> (x < s)%positive) -> (y < s)%positive -> ~ In y ns ->
    forall d k b, find_branch d k bs = Some b -> known tgm d ->
    exists vars r C t1 t2,
      findtag ps (dcon_to_tag default_tag d tgm) =
        Some (app_ctx_f (ctx_bind_proj (dcon_to_tag default_tag d tgm) y vars (List.length vars))
               (app_ctx_f C (Ehalt r))) /\
      List.length vars = N.to_nat k /\ NoDup vars /\ ~ In y vars /\
      vm_is (fold_right (fun v vm' => add_var_name vm' v) vm vars) (vars ++ ns) /\
      (forall x, In x (vars ++ ns) -> (x < t1)%positive) /\ (forall x, In x ns -> ~ In x vars) /\
      conv b (fold_right (fun v vm' => add_var_name vm' v) vm vars) t1 = Some (r, C, t2) /\ uses tgm b.
  Proof.
    induction bs as [|d0 [n na] e bs IH]; intros y vm s ps s' ns U E V L Ly NI d k b FB KD; [discriminate |].
    destruct U as [KD0 [U1 U2]]. cbn [convert_anf_branches nargs fst] in E.
    dopt E [[ps1 s1] |] F1.
    pose proof (fresh_list_spec (N.to_nat n) s1) as FL. destruct (fresh_list (N.to_nat n) s1) as [vars s2] eqn:FR.
    dopt E [[[r C] s3] |] F2. injection E as <- <-.
    assert (M1 := proj2 (proj2 (proj2 conv_bounds)) _ U2 _ _ _ _ _ F1).
    destruct FL as [FL1 [FL2 [FL3 FL4]]]. unfold btw in FL3.
    cbn [find_branch nargs fst] in FB. cbn [findtag].
    destruct (dcon_eqb d d0) eqn:DE.
    - assert (d = d0).
      { clear -DE. destruct d as [[a b] c], d0 as [[a' b'] c']. unfold dcon_eqb, ind_eqb in DE. cbn in DE.
        apply andb_true_iff in DE. destruct DE as [DE D3]. apply andb_true_iff in DE. destruct DE as [D1 D2].
        apply String.eqb_eq in D1. apply Nat.eqb_eq in D2. apply N.eqb_eq in D3. congruence. }
      subst d0. destruct (Pos.eq_dec (dcon_to_tag default_tag d tgm) (dcon_to_tag default_tag d tgm)); [| congruence].
      destruct (N.eqb_spec n k); [| discriminate]. injection FB as <-. subst k.
      exists vars, r, C, s2, s3. split; [reflexivity |]. split; [exact FL1 |]. split; [exact FL4 |].
      split; [intro X; specialize (FL3 y X); lia |]. split; [apply vm_adds; exact V |].
      split; [| split].
      + intros x Hx. apply in_app_or in Hx. destruct Hx as [Hx | Hx]; [apply FL3 in Hx; lia |].
        specialize (L x Hx). lia.
      + intros x Hx X. apply FL3 in X. specialize (L x Hx). lia.
      + split; [exact F2 | exact U1].
    - destruct (Pos.eq_dec (dcon_to_tag default_tag d0 tgm) (dcon_to_tag default_tag d tgm)) as [X |].
      + exfalso. apply (proj1 SIG) in X; auto. subst.
        assert (dcon_eqb d d = true); [| congruence].
        clear. destruct d as [[a b] c]. unfold dcon_eqb, ind_eqb. cbn.
        rewrite String.eqb_refl, Nat.eqb_refl, N.eqb_refl. reflexivity.
      + eapply IH; eauto.
  Qed.

  Lemma find_known : forall bs i d k b, uses_bs tgm bs -> brs_of i bs ->
    find_branch d k bs = Some b -> known tgm d /\ fst d = i.
  Proof.
    induction bs as [|d0 [n na] e bs IH]; intros i d k b U I F; [discriminate |].
    destruct U as [K [U1 U2]]. destruct I as [I1 I2]. cbn [find_branch] in F.
    destruct (dcon_eqb d d0) eqn:DE; [| eapply IH; eauto].
    assert (d = d0); [| subst; auto].
    clear -DE. destruct d as [[a b] c], d0 as [[a' b'] c']. unfold dcon_eqb, ind_eqb in DE. cbn in DE.
    apply andb_true_iff in DE. destruct DE as [DE D3]. apply andb_true_iff in DE. destruct DE as [D1 D2].
    apply String.eqb_eq in D1. apply Nat.eqb_eq in D2. apply N.eqb_eq in D3. congruence.
  Qed.

  Lemma consistent_ok : forall bs i d y vm s ps s', uses_bs tgm bs -> brs_of i bs ->
    convbs bs y vm s = Some (ps, s') -> known tgm d -> fst d = i ->
    caseConsistent_f cenv ps (dcon_to_tag default_tag d tgm) = true.
  Proof.
    induction bs as [|d0 [n na] e bs IH]; intros i d y vm s ps s' U I E K F; cbn [convert_anf_branches nargs fst] in E.
    - injection E as <- <-. reflexivity.
    - destruct U as [K0 [U1 U2]]. destruct I as [I1 I2].
      dopt E [[ps1 s1] |] F1. destruct (fresh_list (N.to_nat n) s1) as [vars s2].
      dopt E [[[r C] s3] |] F2. injection E as <- <-. cbn [caseConsistent_f].
      rewrite (IH i d y vm s ps1 s1 U2 I2 F1 K F). cbn [andb].
      destruct (proj2 SIG d d0 K K0) as [j [j' [G1 [G2 G3]]]]; [congruence |].
      rewrite G1, G2, G3. apply Pos.eqb_refl.
  Qed.

  Lemma get_list_rel : forall rho2 ys vs, Forall2 (fun v y => exists v', get y rho2 = Some v' /\ vrel v v') vs ys ->
    exists vs', get_list ys rho2 = Some vs' /\ Forall2 vrel vs vs'.
  Proof.
    induction 1 as [|v y vs ys [v' [A B]] H IH]; [exists []; auto |].
    destruct IH as [vs' [E F]]. exists (v' :: vs'). cbn. rewrite A, E. auto.
  Qed.

  Notation tes n := (es false (lower n)).
  Notation tess n := (ess false (lower n)).

  Lemma es_con : forall p body rho d l, es p body rho (Con_e d l) =
    match ess p body rho l with EVal vs => EVal (Con_v d vs) | ETime => ETime | EStuck => EStuck end.
  Proof. reflexivity. Qed.
  Lemma ess_cons : forall p body rho e l, ess p body rho (econs e l) =
    match es p body rho e with
    | EVal v => match ess p body rho l with EVal vs => EVal (v :: vs) | r => r end
    | ETime => ETime | EStuck => EStuck end.
  Proof. reflexivity. Qed.

  Lemma conv_sim : forall n, lower_ok n ->
    (forall e, uses tgm e -> forall vm ns s x C s' rho rho',
       vm_is vm ns -> (forall y, In y ns -> (y < s)%positive) ->
       conv e vm s = Some (x, C, s') -> erel rho ns rho' ->
       match tes n rho e with
       | EVal v => exists rho2 v', evc (callf n) rho' C = CEnv rho2 /\ get x rho2 = Some v' /\ vrel v v'
       | ETime => evc (callf n) rho' C = CTime
       | EStuck => True
       end) /\
    (forall l, uses_es tgm l -> forall vm ns s xs C s' rho rho',
       vm_is vm ns -> (forall y, In y ns -> (y < s)%positive) ->
       convs l vm s = Some (xs, C, s') -> erel rho ns rho' ->
       match tess n rho l with
       | EVal vs => exists rho2, evc (callf n) rho' C = CEnv rho2 /\ erel vs xs rho2
       | ETime => evc (callf n) rho' C = CTime
       | EStuck => True
       end) /\
    (forall l : efnlst, True) /\ (forall l : branches_e, True).
  Proof.
    intros n LO. apply my_exp_ind; auto.
    - (* Var *) intros i _ vm ns s x C s' rho rho' V L E R. cbn [convert_anf convert_anf_exps convert_anf_efnlst convert_anf_branches es ess] in *.
      rewrite V in E. destruct (nth_error rho (N.to_nat i)) as [v |] eqn:NE; auto.
      destruct (erel_nth _ _ _ _ _ R NE) as [y [v' [A [B D]]]]. rewrite A in E. injection E as <- <- <-.
      exists rho', v'. auto.
    - (* Lam *) intros na b _ U vm ns s x C s' rho rho' V L E R. cbn [convert_anf convert_anf_exps convert_anf_efnlst convert_anf_branches es ess fresh uses] in *.
      dopt E [[[r C1] s1] |] F. injection E as <- <- <-. cbn [evc def_funs].
      eexists _, _. split; [reflexivity |]. split; [apply get_set_same |].
      eapply vr_clos with (ns := ns) (vm := vm); try exact F; try eassumption; try lia.
      + intros y Hy. specialize (L y Hy). lia.
      + intro Hy. specialize (L _ Hy). lia.
      + intro Hy. specialize (L _ Hy). lia.
    - (* App *) intros e1 IH1 e2 IH2 [U1 U2] vm ns s x C s' rho rho' V L E R. cbn [convert_anf convert_anf_exps convert_anf_efnlst convert_anf_branches es ess fresh] in *.
      dopt E [[[x1 C1] s1] |] F1. dopt E [[[x2 C2] s2] |] F2. injection E as <- <- <-.
      destruct (proj1 conv_bounds _ U1 _ _ _ _ _ F1) as [A1 [B1 D1]].
      destruct (proj1 conv_bounds _ U2 _ _ _ _ _ F2) as [A2 [B2 D2]].
      specialize (IH1 U1 _ _ _ _ _ _ _ _ V L F1 R). rewrite evc_comp.
      destruct (tes n rho e1) as [f | |]; auto.
      + destruct IH1 as [rho2 [vf [E1 [G1 R1]]]]. rewrite E1, evc_comp.
        assert (K1 : forall y, In y ns -> get y rho2 = get y rho').
        { intros y Hy. eapply evc_get; eauto. intro X. apply B1 in X. specialize (L y Hy). unfold btw in X. lia. }
        assert (L1 : forall y, In y ns -> (y < s1)%positive) by (intros y Hy; specialize (L y Hy); lia).
        specialize (IH2 U2 _ _ _ _ _ _ _ _ V L1 F2 (erel_ext _ _ _ _ R K1)).
        destruct (tes n rho e2) as [v2 | |]; auto.
        * destruct IH2 as [rho3 [v2' [E2 [G2 R2]]]]. rewrite E2. cbn [evc].
          assert (G3 : get x1 rho3 = Some vf).
          { rewrite <- G1. eapply evc_get; eauto. intro X. apply B2 in X. unfold btw in X.
            destruct (D1 _ V) as [Y | Y]; [specialize (L _ Y); lia | unfold btw in Y; lia]. }
          cbn [get_list]. rewrite G3, G2.
          pose proof (apply_ok n LO _ _ _ _ R1 R2) as AO.
          destruct (apply_fun false (lower n) f v2) as [w | |]; auto.
          -- destruct AO as [w' [AO AR]]. rewrite AO. eexists _, _. split; [reflexivity |].
             split; [apply get_set_same | exact AR].
          -- rewrite AO. reflexivity.
        * rewrite IH2. reflexivity.
      + rewrite IH1. reflexivity.
    - (* Con *) intros d l IH [K U] vm ns s x C s' rho rho' V L E R. rewrite es_con. cbn [convert_anf fresh] in E.
      dopt E [[[ys C1] s1] |] F. injection E as <- <- <-.
      assert (L1 : forall y, In y ns -> (y < s + 1)%positive) by (intros y Hy; specialize (L y Hy); lia).
      specialize (IH U _ _ _ _ _ _ _ _ V L1 F R). rewrite evc_comp.
      destruct (tess n rho l) as [vs | |]; auto.
      + destruct IH as [rho2 [E1 R1]]. rewrite E1. cbn [evc].
        destruct (get_list_rel _ _ _ R1) as [vs' [G1 G2]]. rewrite G1.
        eexists _, _. split; [reflexivity |]. split; [apply get_set_same |]. constructor; auto.
      + rewrite IH. reflexivity.
    - (* Match *) intros e1 IH1 m bs _ [U1 [[i BI] U2]] vm ns s x C s' rho rho' V L E R. cbn [convert_anf convert_anf_exps convert_anf_efnlst convert_anf_branches es ess fresh] in *.
      dopt E [[[x1 C1] s1] |] F1. dopt E [[ps s2] |] F2. injection E as <- <- <-.
      destruct (proj1 conv_bounds _ U1 _ _ _ _ _ F1) as [A1 [B1 D1]]. cbn [evc def_funs].
      match goal with |- context [Fcons s func_tag ?l ?b Fnil] => set (D := Fcons s func_tag l b Fnil) in * end.
      assert (L1 : forall y, In y ns -> (y < s + 1 + 1)%positive) by (intros y Hy; specialize (L y Hy); lia).
      assert (R' : erel rho ns (set s (Vfun rho' D s) rho')).
      { eapply erel_ext; [exact R |]. intros y Hy. apply get_set_other. specialize (L y Hy). intro; subst; lia. }
      specialize (IH1 U1 _ _ _ _ _ _ _ _ V L1 F1 R'). rewrite evc_comp.
      destruct (tes n rho e1) as [v1 | |]; auto; [| rewrite IH1; reflexivity].
      destruct IH1 as [rho2 [v1' [E1 [G1 R1]]]]. rewrite E1.
      destruct v1 as [d vs | | | |]; auto.
      destruct (find_branch d (N.of_nat (List.length vs)) bs) as [b |] eqn:FB; auto.
      assert (GF : get s rho2 = Some (Vfun rho' D s)).
      { rewrite (evc_get _ _ _ _ _ E1); [apply get_set_same |]. intro X. apply B1 in X. unfold btw in X. lia. }
      cbn [evc get_list]. rewrite GF, G1.
      inversion R1; subst.
      destruct (find_known _ _ _ _ _ U2 BI FB) as [KD FD].
      destruct n as [|n]; cbn [lower lower_ok] in *; [reflexivity |].
      erewrite callf_S; [| unfold D; cbn [find_def]; destruct (Pos.eq_dec s s); [reflexivity | congruence]
                         | cbn [set_lists]; reflexivity].
      unfold WA_Spec.peval. rewrite ev_case, get_set_same.
      rewrite (consistent_ok _ _ _ _ _ _ _ _ U2 BI F2 KD FD).
      assert (NY : ~ In (s + 1)%positive ns) by (intro Hy; specialize (L _ Hy); lia).
      destruct (branch_ok _ _ _ _ _ _ ns U2 F2 V) with (d := d) (k := N.of_nat (List.length vs)) (b := b)
        as [vars [r [Cb [t1 [t2 [Q1 [Q2 [Q3 [Q4 [Q5 [Q6 [Q7 [Q8 Q9]]]]]]]]]]]]]; auto; try lia.
      { intros y Hy. specialize (L y Hy). lia. }
      rewrite Q1. rewrite Nnat.Nat2N.id in Q2.
      match goal with X : Forall2 vrel vs vs' |- _ => rename X into FV end.
      assert (LV : List.length vs = List.length vs') by (clear -FV; induction FV; cbn; congruence).
      set (rb := set (s + 1)%positive (Vconstr (dcon_to_tag default_tag d tgm) vs')
                   (def_funs D D rho' rho')).
      destruct (proj_ok (callf n) (dcon_to_tag default_tag d tgm) (s + 1)%positive vars vs' rb)
        as [rho3 [E3 [O3 P3]]]; auto; try lia.
      { unfold rb. apply get_set_same. }
      rewrite Q2, LV, firstn_all in P3.
      pose proof (evc_ev (callf n) cenv pr (ctx_bind_proj (dcon_to_tag default_tag d tgm) (s + 1)%positive vars (List.length vars)) rb
                    (app_ctx_f Cb (Ehalt r))) as EE.
      rewrite E3 in EE. change (WA_Spec.callf cenv pr n) with (callf n). fold rb. rewrite EE.
      assert (RB : erel (rev vs ++ rho) (vars ++ ns) rho3).
      { apply erel_app.
        - clear -P3 FV.
          assert (RV : Forall2 vrel (rev vs) (rev vs')).
          { clear P3. induction FV; cbn [rev]; [constructor |]. apply Forall2_app; auto. }
          unfold erel. revert vars P3. induction RV; intros vars P3; inversion P3; subst; constructor; eauto.
        - eapply erel_ext; [exact R |]. intros z Hz. rewrite O3 by (apply Q7; auto).
          unfold rb, D. cbn [def_funs]. rewrite !get_set_other; auto.
          + specialize (L z Hz). intro; subst; lia.
          + specialize (L z Hz). intro; subst; lia. }
      pose proof (LO b Q9 _ _ _ _ _ _ _ _ Q5 Q6 Q8 RB) as PB. unfold WA_Spec.peval in PB.
      destruct (eeval false n (rev vs ++ rho) b) as [w | |]; auto.
      + destruct PB as [w' [PB1 PB2]]. rewrite PB1. eexists _, _. split; [reflexivity |].
        split; [apply get_set_same | exact PB2].
      + rewrite PB. reflexivity.
    - (* Let *) intros na e1 IH1 e2 IH2 [U1 U2] vm ns s x C s' rho rho' V L E R. cbn [convert_anf convert_anf_exps convert_anf_efnlst convert_anf_branches es ess fresh] in *.
      dopt E [[[x1 C1] s1] |] F1. dopt E [[[x2 C2] s2] |] F2. injection E as <- <- <-.
      destruct (proj1 conv_bounds _ U1 _ _ _ _ _ F1) as [A1 [B1 D1]].
      specialize (IH1 U1 _ _ _ _ _ _ _ _ V L F1 R). rewrite evc_comp.
      destruct (tes n rho e1) as [f | |]; auto.
      + destruct IH1 as [rho2 [vf [E1 [G1 R1]]]]. rewrite E1.
        assert (K1 : forall y, In y ns -> get y rho2 = get y rho').
        { intros y Hy. eapply evc_get; eauto. intro X. apply B1 in X. specialize (L y Hy). unfold btw in X. lia. }
        apply (IH2 U2 _ _ _ _ _ _ _ _ (vm_add _ _ x1 V)) with (2 := F2).
        * intros y [<- | Hy]; [| specialize (L y Hy); lia].
          destruct (D1 _ V) as [Y | Y]; [specialize (L _ Y); lia | unfold btw in Y; lia].
        * constructor; [exists vf; auto |]. exact (erel_ext _ _ _ _ R K1).
      + rewrite IH1. reflexivity.
    - (* Fix *) intros fs _ i [LI U] vm ns s x C s' rho rho' V L E R. cbn [convert_anf convert_anf_exps convert_anf_efnlst convert_anf_branches es ess] in *.
      destruct (add_fix_names fs vm s) as [[names vm'] s1] eqn:AF.
      dopt E [[[x1 B] s2] |] F. injection E as <- <- <-. cbn [evc].
      destruct (proj1 (proj2 (proj2 conv_bounds)) _ U _ _ _ _ _ _ _ F) as [A [FB [LN NI]]].
      destruct (nth_error names (N.to_nat i)) as [f |] eqn:NE;
        [| apply nth_error_None in NE; rewrite efn_len in LI; lia].
      rewrite (NI f eq_refl). eexists _, _. split; [reflexivity |]. split.
      + apply get_def_funs_in. rewrite FB. eapply nth_error_In; eauto.
      + eapply vr_fix; eauto.
    - (* Prf *) intros _ vm ns s x C s' rho rho' V L E R. cbn in E. injection E as <- <- <-. cbn [es evc get_list].
      eexists _, _. split; [reflexivity |]. split; [apply get_set_same | constructor].
    - (* Prim *) intros p _ vm ns s x C s' rho rho' V L E R. cbn in E. injection E as <- <- <-. cbn [es evc].
      eexists _, _. split; [reflexivity |]. split; [apply get_set_same | constructor].
    - (* nil *) intros _ vm ns s xs C s' rho rho' V L E R. cbn in E. injection E as <- <- <-. cbn [ess evc].
      exists rho'. split; [reflexivity | constructor].
    - (* cons *) intros e1 IH1 l IH2 [U1 U2] vm ns s x C s' rho rho' V L E R. rewrite ess_cons. cbn [convert_anf_exps] in E.
      dopt E [[[x1 C1] s1] |] F1. dopt E [[[x2 C2] s2] |] F2. injection E as <- <- <-.
      destruct (proj1 conv_bounds _ U1 _ _ _ _ _ F1) as [A1 [B1 D1]].
      destruct (proj1 (proj2 conv_bounds) _ U2 _ _ _ _ _ F2) as [A2 [B2 D2]].
      specialize (IH1 U1 _ _ _ _ _ _ _ _ V L F1 R). rewrite evc_comp.
      destruct (tes n rho e1) as [f | |]; auto.
      + destruct IH1 as [rho2 [vf [E1 [G1 R1]]]]. rewrite E1.
        assert (K1 : forall y, In y ns -> get y rho2 = get y rho').
        { intros y Hy. eapply evc_get; eauto. intro X. apply B1 in X. specialize (L y Hy). unfold btw in X. lia. }
        assert (L1 : forall y, In y ns -> (y < s1)%positive) by (intros y Hy; specialize (L y Hy); lia).
        specialize (IH2 U2 _ _ _ _ _ _ _ _ V L1 F2 (erel_ext _ _ _ _ R K1)).
        destruct (tess n rho l) as [vs | |]; auto.
        destruct IH2 as [rho3 [E2 R2]]. exists rho3. split; auto. constructor; auto.
        exists vf. split; auto. rewrite <- G1. eapply evc_get; eauto. intro X. apply B2 in X. unfold btw in X.
        destruct (D1 _ V) as [Y | Y]; [specialize (L _ Y); lia | unfold btw in Y; lia].
      + rewrite IH1. reflexivity.
  Qed.

  Lemma body_sim : forall n, body_ok (eeval false n) (peval n).
  Proof.
    assert (STEP : forall n, lower_ok n -> body_ok (eeval false n) (peval n)).
    { intros n LO b U vm ns s r C s' rho rho' V L E R.
      pose proof (proj1 (conv_sim n LO) b U _ _ _ _ _ _ _ _ V L E R) as X.
      assert (EQ : eeval false n rho b = es false (lower n) rho b) by (destruct n; reflexivity).
      rewrite EQ. pose proof (evc_ev (callf n) cenv pr C rho' (Ehalt r)) as EE.
      destruct (es false (lower n) rho b) as [v | |]; auto.
      - destruct X as [rho2 [v' [X1 [X2 X3]]]]. rewrite X1 in EE. exists v'. split; auto.
        unfold WA_Spec.peval. rewrite EE. cbn [WA_Spec.ev]. rewrite X2. reflexivity.
      - rewrite X in EE. exact EE. }
    induction n; apply STEP; cbn [lower_ok]; auto.
  Qed.

  Lemma vrel_tree : forall v v', vrel v v' -> same_tree default_tag tgm (readback v) v'.
  Proof.
    fix IH 1. intros [d vs | rho na b | rho fs n | | p] v' R; inversion R; subst; cbn [readback]; constructor.
    match goal with X : Forall2 vrel vs _ |- _ => rename X into F end.
    clear R. revert vs' F. induction vs as [|v vs IHvs]; intros vs' F; inversion F; subst; cbn [map exps_of]; constructor.
    - apply IH. assumption.
    - apply IHvs. assumption.
  Qed.
End Conv.
