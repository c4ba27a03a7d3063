(* A-normalisation: it succeeds on well-scoped terms, and what it gives is
   closed and binds every variable once. *)
From Coq Require Import List Arith NArith PArith String Bool Lia Permutation.
From Verif Require Import ANF_Syntax ANF_Subst ANF_Spec ANF_Scope LB_Model CG_Proofs AN_Model AN_Spec AN_Proofs.
Import ListNotations.

(* Contexts whose hole is at the end of the spine. *)
Fixpoint straight (C : exp_ctx) : Prop :=
  match C with
  | Hole_c => True
  | Econstr_c _ _ _ c | Eproj_c _ _ _ _ c | Eprim_val_c _ _ c | Eprim_c _ _ _ c
  | Eletapp_c _ _ _ _ c | Efun1_c _ c => straight c
  | Ecase_c _ _ _ _ _ => False
  | Efun2_c _ _ => False
  end.

Fixpoint bvc (C : exp_ctx) : list var :=
  match C with
  | Econstr_c x _ _ c | Eproj_c x _ _ _ c | Eprim_val_c x _ c | Eprim_c x _ _ c
  | Eletapp_c x _ _ _ c => x :: bvc c
  | Efun1_c B c => bv_funs B ++ bvc c
  | _ => []
  end.

Lemma bvc_app : forall C e, straight C -> bv (app_ctx_f C e) = bvc C ++ bv e.
Proof.
  fix IH 1. intros [] e0 H; cbn [straight app_ctx_f bv bvc app] in *; auto; try contradiction;
    try (rewrite IH by auto; reflexivity).
  rewrite IH by auto. rewrite app_assoc. reflexivity.
Qed.

Lemma bvc_comp : forall C1 C2, straight C1 -> bvc (comp_ctx_f C1 C2) = bvc C1 ++ bvc C2.
Proof.
  fix IH 1. intros [] C2 H; cbn [straight comp_ctx_f bvc app] in *; auto; try contradiction;
    try (rewrite IH by auto; reflexivity).
  rewrite IH by auto. rewrite app_assoc. reflexivity.
Qed.

Lemma bc_comp_eq : forall C1 C2, straight C1 -> bc (comp_ctx_f C1 C2) = bc C1 ++ bc C2.
Proof.
  fix IH 1. intros [] C2 H; cbn [straight comp_ctx_f bc app] in *; auto; try contradiction;
    try (rewrite IH by auto; reflexivity).
  rewrite IH by auto. rewrite app_assoc. reflexivity.
Qed.

Lemma straight_comp : forall C1 C2, straight C1 -> straight C2 -> straight (comp_ctx_f C1 C2).
Proof.
  fix IH 1. intros [] C2 H1 H2; cbn [straight comp_ctx_f] in *; auto.
Qed.

Lemma app_comp : forall C1 C2 e, straight C1 -> app_ctx_f (comp_ctx_f C1 C2) e = app_ctx_f C1 (app_ctx_f C2 e).
Proof.
  fix IH 1. intros [] C2 e0 H; cbn [straight comp_ctx_f app_ctx_f] in *; auto; try contradiction;
    rewrite IH by auto; reflexivity.
Qed.

(* Lists of distinct variables from an interval. *)
Definition rng (s s' : positive) (l : list var) : Prop := NoDup l /\ forall y, In y l -> btw s s' y.

Lemma rng_nil : forall s s', rng s s' [].
Proof. intros; split; [constructor | intros y []]. Qed.
Lemma rng_one : forall s s' x, btw s s' x -> rng s s' [x].
Proof. intros; split; [constructor; [intros [] | constructor] | intros y [<- | []]; auto]. Qed.
Lemma rng_app : forall a b c d lo hi l1 l2, rng a b l1 -> rng c d l2 ->
  (b <= c \/ d <= a)%positive -> (lo <= a)%positive -> (lo <= c)%positive -> (b <= hi)%positive -> (d <= hi)%positive ->
  rng lo hi (l1 ++ l2).
Proof.
  unfold rng, btw. intros a b c d lo hi l1 l2 [N1 B1] [N2 B2] D. intros. split.
  - clear - N1 N2 B1 B2 D. induction N1; cbn [app]; auto. constructor.
    + intro X. apply in_app_or in X. destruct X as [X | X]; [contradiction |].
      specialize (B1 x (or_introl eq_refl)). specialize (B2 x X). lia.
    + apply IHN1. intros y Hy. apply B1. right; auto.
  - intros y Hy. apply in_app_or in Hy. destruct Hy as [Hy | Hy]; [apply B1 in Hy | apply B2 in Hy]; lia.
Qed.
Lemma rng_cons : forall c d lo hi x l, rng c d l -> (x < c \/ d <= x)%positive ->
  (lo <= x)%positive -> (x < hi)%positive -> (lo <= c)%positive -> (d <= hi)%positive -> rng lo hi (x :: l).
Proof.
  intros. change (x :: l) with ([x] ++ l).
  eapply rng_app with (a := x) (b := (x + 1)%positive); eauto; try lia.
  apply rng_one. unfold btw. lia.
Qed.
Lemma rng_cons2 : forall c lo hi x y l, rng c hi l -> x <> y -> (x < c)%positive -> (y < c)%positive ->
  (lo <= x)%positive -> (lo <= y)%positive -> (c <= hi)%positive -> rng lo hi (x :: y :: l).
Proof.
  unfold rng, btw. intros c lo hi x y l [N B] XY X Y. intros. split.
  - constructor; [| constructor; auto].
    + intros [Z | Z]; [congruence |]. apply B in Z. lia.
    + intro Z. apply B in Z. lia.
  - intros z [<- | [<- | Z]]; try lia. apply B in Z. lia.
Qed.
Lemma NoDup_rng_perm : forall a b l l', Permutation l l' -> rng a b l' -> rng a b l.
Proof.
  intros a b l l' P [N B]. split.
  - eapply Permutation_NoDup; [symmetry; exact P | exact N].
  - intros y Hy. apply B. eapply Permutation_in; eauto.
Qed.
Lemma rng_mono : forall a b a' b' l, rng a b l -> (a' <= a)%positive -> (b <= b')%positive -> rng a' b' l.
Proof. unfold rng, btw. intros a b a' b' l [A B]; split; auto. intros y Hy. apply B in Hy. lia. Qed.

Lemma rng_fix : forall B vm s names vm' s', add_fix_names B vm s = (names, vm', s') -> rng s s' names /\ (s <= s')%positive.
Proof.
  induction B; intros vm s names vm' s' E; cbn [add_fix_names fresh] in E.
  - injection E as <- <- <-. split; [apply rng_nil | lia].
  - destruct (add_fix_names B (add_var_name vm s) (s + 1)) as [[fs vm1] s1] eqn:F.
    injection E as <- <- <-. apply IHB in F. destruct F as [F L]. split; [| lia].
    eapply rng_cons; eauto; lia.
Qed.

Lemma rng_fresh : forall n s xs s', fresh_list n s = (xs, s') -> rng s s' xs /\ (s <= s')%positive.
Proof. intros. pose proof (fresh_list_spec n s) as F. rewrite H in F. unfold rng. tauto. Qed.

Lemma straight_proj : forall tg y vars n, straight (ctx_bind_proj tg y vars n).
Proof. induction vars; intros; cbn; auto. Qed.
Lemma bvc_proj : forall tg y vars n, bvc (ctx_bind_proj tg y vars n) = vars.
Proof. induction vars; intros; cbn; auto. f_equal. apply IHvars. Qed.
Lemma bc_proj : forall tg y vars n, bc (ctx_bind_proj tg y vars n) = vars.
Proof. induction vars; intros; cbn; auto. f_equal. apply IHvars. Qed.
Lemma free_proj : forall tg y vars n e x, free x (app_ctx_f (ctx_bind_proj tg y vars n) e) ->
  x = y \/ (free x e /\ ~ In x vars).
Proof.
  induction vars as [|v vars IH]; intros n e x H; cbn [ctx_bind_proj app_ctx_f free In] in *; [right; auto |].
  destruct H as [H | [H1 H2]]; auto. apply IH in H2. destruct H2 as [H2 | [H2 H3]]; auto.
  right. split; auto. intros [X | X]; [congruence | contradiction].
Qed.

Section Conv.
  Variable prims : tmap nat.
  Variables func_tag default_tag : positive.
  Variable tgm : conId_map.
  Notation conv := (convert_anf prims func_tag default_tag tgm).
  Notation convs := (convert_anf_exps prims func_tag default_tag tgm).
  Notation convfs := (convert_anf_efnlst prims func_tag default_tag tgm).
  Notation convbs := (convert_anf_branches prims func_tag default_tag tgm).

  (* ---- binders ---- *)

  Lemma prim_bind : forall n p args s x C s', convert_prim_anf func_tag n p args s = (x, C, s') ->
    straight C /\ (s <= s')%positive /\ rng s s' (bvc C) /\ In x (bc C) /\
    (forall e y, free y (app_ctx_f C e) -> In y args \/ (free y e /\ ~ In y (bc C))).
  Proof.
    induction n; intros p args s x C s' E; cbn [convert_prim_anf fresh] in E.
    - injection E as <- <- <-. cbn. split; auto. split; [lia |]. split; [apply rng_one; unfold btw; lia |].
      split; auto. intros e y [H | [H1 H2]]; [left; apply in_rev; auto | right; split; auto; intros [X | []]; congruence].
    - match type of E with context [convert_prim_anf ?a ?b ?c ?d ?e] =>
        destruct (convert_prim_anf a b c d e) as [[x1 C1] s1] eqn:F end.
      injection E as <- <- <-. destruct (IHn _ _ _ _ _ _ F) as [S1 [L1 [R1 [I1 F1]]]]. cbn [straight bvc bc bv_funs fnames].
      split; auto. split; [lia |]. split; [| split].
      + rewrite !app_nil_r. rewrite bvc_app by auto. cbn [bv]. rewrite app_nil_r.
        eapply rng_cons2; eauto; lia.
      + left; auto.
      + intros e y H. cbn [app_ctx_f free fnames free_body In app] in *. destruct H as [H1 [H2 | [[H2 H3] | []]]]; auto.
        apply F1 in H3. cbn [free In] in H3. destruct H3 as [[H3 | H3] | [H3 H4]]; auto.
        * exfalso; apply H2; auto.
        * subst y. contradiction.
  Qed.

  Lemma conv_bind :
    (forall e, uses tgm e -> forall vm s x C s', conv e vm s = Some (x, C, s') ->
       straight C /\ rng s s' (bvc C)) /\
    (forall e, uses_es tgm e -> forall vm s x C s', convs e vm s = Some (x, C, s') ->
       straight C /\ rng s s' (bvc C)) /\
    (forall e, uses_fs tgm e -> forall names i vm s x B s', convfs e names i vm s = Some (x, B, s') ->
       exists rest, Permutation (bv_funs B) (names ++ rest) /\ rng s s' rest) /\
    (forall e, uses_bs tgm e -> forall y vm s ps s', convbs e y vm s = Some (ps, s') ->
       rng s s' (flat_map (fun p => bv (snd p)) ps)).
  Proof.
    assert (CB := conv_bounds prims func_tag default_tag tgm).
    apply exp_ind_lam.
    - intros n _ vm s x C s' E. cbn [convert_anf] in E.
      destruct (get_var_name vm n); [| discriminate]. injection E as <- <- <-. split; [exact I | apply rng_nil].
    - intros na e IH U vm s x C s' E. cbn [convert_anf fresh uses] in *.
      dopt E [[[r C1] s1] |] F. injection E as <- <- <-. destruct (IH U _ _ _ _ _ F) as [S1 R1].
      destruct (proj1 CB _ U _ _ _ _ _ F) as [L1 _].
      split; [exact I |]. cbn [bvc bv_funs]. rewrite !app_nil_r, bvc_app by auto. cbn [bv]. rewrite app_nil_r.
      eapply rng_cons2; eauto; lia.
    - intros e1 IH1 e2 IH2 [U1 U2] vm s x C s' E. cbn [convert_anf fresh] in E.
      dopt E [[[x1 C1] s1] |] F1. dopt E [[[x2 C2] s2] |] F2. injection E as <- <- <-.
      destruct (IH1 U1 _ _ _ _ _ F1) as [S1 R1]. destruct (IH2 U2 _ _ _ _ _ F2) as [S2 R2].
      destruct (proj1 CB _ U1 _ _ _ _ _ F1) as [L1 _]. destruct (proj1 CB _ U2 _ _ _ _ _ F2) as [L2 _].
      split; [apply straight_comp; auto; apply straight_comp; auto; exact I |].
      rewrite !bvc_comp by auto. cbn [bvc].
      eapply rng_app with (a := s) (b := s1) (c := s1) (d := (s2 + 1)%positive); auto; try lia.
      eapply rng_app with (a := s1) (b := s2) (c := s2) (d := (s2 + 1)%positive); auto; try lia.
      apply rng_one. unfold btw; lia.
    - intros d l IH [_ U] vm s x C s' E. cbn [convert_anf fresh] in E.
      dopt E [[[ys C1] s1] |] F. injection E as <- <- <-. destruct (IH U _ _ _ _ _ F) as [S1 R1].
      destruct (proj1 (proj2 CB) _ U _ _ _ _ _ F) as [L1 _].
      split; [apply straight_comp; auto; exact I |]. rewrite bvc_comp by auto. cbn [bvc].
      eapply rng_app with (a := (s + 1)%positive) (b := s1) (c := s) (d := (s + 1)%positive); auto; try lia.
      apply rng_one. unfold btw; lia.
    - intros e1 IH1 n bs IH2 [U1 [_ U2]] vm s x C s' E. cbn [convert_anf fresh] in E.
      dopt E [[[x1 C1] s1] |] F1. dopt E [[ps s2] |] F2. injection E as <- <- <-.
      destruct (IH1 U1 _ _ _ _ _ F1) as [S1 R1]. assert (R2 := IH2 U2 _ _ _ _ _ F2).
      destruct (proj1 CB _ U1 _ _ _ _ _ F1) as [L1 _]. assert (L2 := proj2 (proj2 (proj2 CB)) _ U2 _ _ _ _ _ F2).
      split; [cbn [straight]; apply straight_comp; auto; exact I |]. cbn [bvc bv_funs bv app].
      rewrite bvc_comp by auto. cbn [bvc]. rewrite app_nil_r.
      assert (X : rng (s + 1 + 1) (s2 + 1) (flat_map (fun p => bv (snd p)) ps ++ bvc C1 ++ [s2])).
      { eapply NoDup_rng_perm; [apply Permutation_app_swap_app |].
        eapply rng_app with (a := (s + 1 + 1)%positive) (b := s1) (c := s1) (d := (s2 + 1)%positive); auto; try lia.
        eapply rng_app with (a := s1) (b := s2) (c := s2) (d := (s2 + 1)%positive); auto; try lia.
        apply rng_one. unfold btw; lia. }
      eapply rng_cons2; try exact X; lia.
    - intros n e1 IH1 e2 IH2 [U1 U2] vm s x C s' E. cbn [convert_anf] in E.
      dopt E [[[x1 C1] s1] |] F1. dopt E [[[x2 C2] s2] |] F2. injection E as <- <- <-.
      destruct (IH1 U1 _ _ _ _ _ F1) as [S1 R1]. destruct (IH2 U2 _ _ _ _ _ F2) as [S2 R2].
      destruct (proj1 CB _ U1 _ _ _ _ _ F1) as [L1 _]. destruct (proj1 CB _ U2 _ _ _ _ _ F2) as [L2 _].
      split; [apply straight_comp; auto |]. rewrite bvc_comp by auto.
      eapply rng_app with (a := s) (b := s1) (c := s1) (d := s2); auto; lia.
    - intros l IH i [_ U] vm s x C s' E. cbn [convert_anf] in E.
      destruct (add_fix_names l vm s) as [[names vm'] s1] eqn:AF.
      dopt E [[[x1 B] s2] |] F. injection E as <- <- <-. destruct (rng_fix _ _ _ _ _ _ AF) as [RN LN].
      destruct (IH U _ _ _ _ _ _ _ F) as [rest [P R]].
      destruct (proj1 (proj2 (proj2 CB)) _ U _ _ _ _ _ _ _ F) as [L1 _].
      split; [exact I |]. cbn [bvc]. rewrite app_nil_r.
      eapply NoDup_rng_perm; [exact P |].
      eapply rng_app with (a := s) (b := s1) (c := s1) (d := s2); auto; lia.
    - intros _ vm s x C s' E. cbn in E. injection E as <- <- <-. split; [exact I |]. apply rng_one. unfold btw; lia.
    - intros p _ vm s x C s' E. cbn in E. injection E as <- <- <-. split; [exact I |]. apply rng_one. unfold btw; lia.
    - intros p _ vm s x C s' E. cbn [convert_anf] in E. destruct (get p prims); [| discriminate].
      apply Some_inj in E. destruct (prim_bind _ _ _ _ _ _ _ E) as [A [_ [B _]]]. auto.
    - intros _ vm s x C s' E. cbn in E. injection E as <- <- <-. split; [exact I | apply rng_nil].
    - intros e1 IH1 e2 IH2 [U1 U2] vm s x C s' E. cbn [convert_anf_exps] in E.
      dopt E [[[x1 C1] s1] |] F1. dopt E [[[x2 C2] s2] |] F2. injection E as <- <- <-.
      destruct (IH1 U1 _ _ _ _ _ F1) as [S1 R1]. destruct (IH2 U2 _ _ _ _ _ F2) as [S2 R2].
      destruct (proj1 CB _ U1 _ _ _ _ _ F1) as [L1 _]. destruct (proj1 (proj2 CB) _ U2 _ _ _ _ _ F2) as [L2 _].
      split; [apply straight_comp; auto |]. rewrite bvc_comp by auto.
      eapply rng_app with (a := s) (b := s1) (c := s1) (d := s2); auto; lia.
    - intros _ names i vm s x B s' E. destruct names; [| discriminate]. injection E as <- <- <-.
      exists []. split; [constructor | apply rng_nil].
    - intros na e _ IHb l IH [U1 U2] names i vm s x B s' E. cbn [convert_anf_efnlst fresh] in E.
      destruct names as [|f names]; [discriminate |]. destruct e; try discriminate.
      dopt E [[[r C] s1] |] F1. dopt E [[[x2 B2] s2] |] F2. injection E as <- <- <-. cbn [uses] in U1.
      destruct (IHb _ _ eq_refl U1 _ _ _ _ _ F1) as [S1 R1].
      destruct (IH U2 _ _ _ _ _ _ _ F2) as [rest [P R]].
      destruct (proj1 CB _ U1 _ _ _ _ _ F1) as [L1 _].
      destruct (proj1 (proj2 (proj2 CB)) _ U2 _ _ _ _ _ _ _ F2) as [L2 _].
      exists (s :: bvc C ++ rest). split.
      + cbn [bv_funs app]. constructor. rewrite bvc_app by auto. cbn [bv]. rewrite app_nil_r.
        rewrite P.
        transitivity ((s :: bvc C) ++ names ++ rest); [reflexivity |].
        rewrite Permutation_app_swap_app. reflexivity.
      + eapply rng_cons with (c := (s + 1)%positive) (d := s2); try lia.
        eapply rng_app with (a := (s + 1)%positive) (b := s1) (c := s1) (d := s2); auto; lia.
    - intros _ y vm s ps s' E. cbn in E. injection E as <- <-. apply rng_nil.
    - intros d [n na] e IH1 bs IH2 [_ [U1 U2]] y vm s ps s' E. cbn [convert_anf_branches nargs fst] in E.
      dopt E [[ps1 s1] |] F1. destruct (fresh_list (N.to_nat n) s1) as [vars s2] eqn:FR.
      dopt E [[[r C] s3] |] F2. injection E as <- <-.
      destruct (rng_fresh _ _ _ _ FR) as [RV LV]. assert (R1 := IH2 U2 _ _ _ _ _ F1).
      destruct (IH1 U1 _ _ _ _ _ F2) as [S2 R2].
      destruct (proj1 CB _ U1 _ _ _ _ _ F2) as [L2 _]. assert (L1 := proj2 (proj2 (proj2 CB)) _ U2 _ _ _ _ _ F1).
      cbn [flat_map snd]. rewrite bvc_app by apply straight_proj. rewrite bvc_proj, bvc_app by auto.
      cbn [bv]. rewrite app_nil_r.
      eapply rng_app with (a := s1) (b := s3) (c := s) (d := s1); auto; try lia.
      eapply rng_app with (a := s1) (b := s2) (c := s2) (d := s3); auto; lia.
  Qed.

  (* ---- free variables ---- *)

  Lemma conv_free :
    (forall e, uses tgm e -> forall vm ns s x C s', conv e vm s = Some (x, C, s') -> vm_is vm ns ->
       (In x ns \/ In x (bc C)) /\
       (forall e0 y, free y (app_ctx_f C e0) -> In y ns \/ (free y e0 /\ ~ In y (bc C)))) /\
    (forall e, uses_es tgm e -> forall vm ns s xs C s', convs e vm s = Some (xs, C, s') -> vm_is vm ns ->
       (forall x, In x xs -> In x ns \/ In x (bc C)) /\
       (forall e0 y, free y (app_ctx_f C e0) -> In y ns \/ (free y e0 /\ ~ In y (bc C)))) /\
    (forall e, uses_fs tgm e -> forall names i vm ns s x B s', convfs e names i vm s = Some (x, B, s') -> vm_is vm ns ->
       forall y, free_body y B -> In y ns) /\
    (forall e, uses_bs tgm e -> forall z vm ns s ps s', convbs e z vm s = Some (ps, s') -> vm_is vm ns ->
       forall y p, In p ps -> free y (snd p) -> y = z \/ In y ns).
  Proof.
    assert (CB := conv_bind). assert (CB' := conv_bounds prims func_tag default_tag tgm).
    assert (BODY : forall C r ns, (In r ns \/ In r (bc C)) ->
       (forall e0 y, free y (app_ctx_f C e0) -> In y ns \/ (free y e0 /\ ~ In y (bc C))) ->
       forall y, free y (app_ctx_f C (Ehalt r)) -> In y ns).
    { intros C r ns A B y H. apply B in H. destruct H as [H | [H1 H2]]; auto. cbn in H1. subst. tauto. }
    apply exp_ind_lam.
    - intros n _ vm ns s x C s' E V. cbn [convert_anf] in E.
      destruct (get_var_name vm n) eqn:G; [| discriminate]. injection E as <- <- <-. cbn. split.
      + left. rewrite V in G. eapply nth_error_In; eauto.
      + intros. right; auto.
    - intros na e IH U vm ns s x C s' E V. cbn [convert_anf fresh uses] in *.
      dopt E [[[r C1] s1] |] F. injection E as <- <- <-.
      destruct (IH U _ _ _ _ _ _ F (vm_add _ _ s V)) as [A B].
      split; [right; left; auto |]. intros e0 y H. cbn [app_ctx_f free fnames free_body bc In app] in *.
      destruct H as [H1 [H2 | [[H2 H3] | []]]]; auto.
      apply (BODY _ _ (s :: ns) A B) in H3. destruct H3; auto. exfalso; auto.
    - intros e1 IH1 e2 IH2 [U1 U2] vm ns s x C s' E V. cbn [convert_anf fresh] in E.
      dopt E [[[x1 C1] s1] |] F1. dopt E [[[x2 C2] s2] |] F2. injection E as <- <- <-.
      destruct (IH1 U1 _ _ _ _ _ _ F1 V) as [A1 B1]. destruct (IH2 U2 _ _ _ _ _ _ F2 V) as [A2 B2].
      destruct (proj1 CB _ U1 _ _ _ _ _ F1) as [S1 _]. destruct (proj1 CB _ U2 _ _ _ _ _ F2) as [S2 _].
      rewrite !bc_comp_eq by auto. cbn [bc]. split.
      { right. apply in_or_app. right. apply in_or_app. right. left; auto. }
      intros e0 y H. rewrite !app_comp in H by auto. apply B1 in H. destruct H as [H | [H N1]]; auto.
      apply B2 in H. destruct H as [H | [H N2]]; auto. cbn [app_ctx_f free In] in H.
      destruct H as [-> | [[-> | []] | [H1 H2]]]; [tauto | tauto |].
      right. split; auto. intro X. apply in_app_or in X. destruct X as [X | X]; auto.
      apply in_app_or in X. destruct X as [X | [X | []]]; auto.
    - intros d l IH [_ U] vm ns s x C s' E V. cbn [convert_anf fresh] in E.
      dopt E [[[ys C1] s1] |] F. injection E as <- <- <-. destruct (IH U _ _ _ _ _ _ F V) as [A B].
      destruct (proj1 (proj2 CB) _ U _ _ _ _ _ F) as [S1 _].
      rewrite bc_comp_eq by auto. cbn [bc]. split.
      { right. apply in_or_app. right. left; auto. }
      intros e0 y H. rewrite app_comp in H by auto. apply B in H. destruct H as [H | [H N1]]; auto.
      cbn [app_ctx_f free] in H. destruct H as [H | [H1 H2]].
      + apply A in H. destruct H; auto. contradiction.
      + right. split; auto. intro X. apply in_app_or in X. destruct X as [X | [X | []]]; auto.
    - intros e1 IH1 n bs IH2 [U1 [_ U2]] vm ns s x C s' E V. cbn [convert_anf fresh] in E.
      dopt E [[[x1 C1] s1] |] F1. dopt E [[ps s2] |] F2. injection E as <- <- <-.
      destruct (IH1 U1 _ _ _ _ _ _ F1 V) as [A1 B1]. assert (B2 := IH2 U2 _ _ _ _ _ _ F2 V).
      destruct (proj1 CB _ U1 _ _ _ _ _ F1) as [S1 _].
      cbn [bc fnames app]. rewrite bc_comp_eq by auto. cbn [bc]. split.
      { right. right. apply in_or_app. right. left; auto. }
      intros e0 y H. cbn [app_ctx_f free fnames free_body] in H. rewrite app_comp in H by auto.
      destruct H as [N [H | [[N1 H] | []]]].
      + apply B1 in H. destruct H as [H | [H N1]]; auto. cbn [app_ctx_f free In] in *.
        destruct H as [-> | [[-> | []] | [H1 H2]]]; [exfalso; auto | tauto |].
        right. split; auto. intros [X | X]; [auto |].
        apply in_app_or in X. destruct X as [X | [X | []]]; auto.
      + cbn [In] in N1. destruct H as [-> | H]; [exfalso; auto |].
        left. clear - B2 H N1. induction ps as [|p ps IH]; [contradiction |].
        destruct H as [H | H].
        * destruct (B2 y p (or_introl eq_refl) H); auto. subst. exfalso; auto.
        * apply IH; auto. intros. eapply B2; eauto. right; auto.
    - intros n e1 IH1 e2 IH2 [U1 U2] vm ns s x C s' E V. cbn [convert_anf] in E.
      dopt E [[[x1 C1] s1] |] F1. dopt E [[[x2 C2] s2] |] F2. injection E as <- <- <-.
      destruct (IH1 U1 _ _ _ _ _ _ F1 V) as [A1 B1].
      destruct (IH2 U2 _ _ _ _ _ _ F2 (vm_add _ _ x1 V)) as [A2 B2].
      destruct (proj1 CB _ U1 _ _ _ _ _ F1) as [S1 _].
      rewrite bc_comp_eq by auto. cbn [In] in *. split.
      + destruct A2 as [[<- | A2] | A2]; auto; [destruct A1; auto |]; right; apply in_or_app; auto.
      + intros e0 y H. rewrite app_comp in H by auto. apply B1 in H. destruct H as [H | [H N1]]; auto.
        apply B2 in H. destruct H as [[-> | H] | [H N2]]; auto; [tauto |].
        right. split; auto. intro X. apply in_app_or in X. tauto.
    - intros l IH i [LI U] vm ns s x C s' E V. cbn [convert_anf] in E.
      destruct (add_fix_names l vm s) as [[names vm'] s1] eqn:AF.
      dopt E [[[x1 B] s2] |] F. injection E as <- <- <-.
      destruct (fix_names_spec _ _ _ _ _ _ _ AF V) as [V' [LN _]].
      destruct (proj1 (proj2 (proj2 CB')) _ U _ _ _ _ _ _ _ F) as [_ [FB [_ NI]]].
      cbn [bc app_ctx_f free]. rewrite app_nil_r, FB. split.
      + right. destruct (nth_error names (N.to_nat i)) as [f |] eqn:NE.
        * rewrite (NI f eq_refl). eapply nth_error_In; eauto.
        * apply nth_error_None in NE. rewrite efn_len in LI. lia.
      + intros e0 y [N [H | H]]; auto.
        apply (IH U _ _ _ _ _ _ _ _ F V') in H. apply in_app_or in H. destruct H as [H | H]; auto.
        apply in_rev in H. contradiction.
    - intros _ vm ns s x C s' E V. cbn in E. injection E as <- <- <-. cbn. split; [auto |].
      intros e0 y [[] | [H1 H2]]. right. split; auto. intros [X | []]; auto.
    - intros p _ vm ns s x C s' E V. cbn in E. injection E as <- <- <-. cbn. split; [auto |].
      intros e0 y [H1 H2]. right. split; auto. intros [X | []]; auto.
    - intros p _ vm ns s x C s' E V. cbn [convert_anf] in E. destruct (get p prims); [| discriminate].
      apply Some_inj in E. destruct (prim_bind _ _ _ _ _ _ _ E) as [_ [_ [_ [A B]]]]. split; auto.
      intros e0 y H. apply B in H. destruct H as [[] | H]; auto.
    - intros _ vm ns s x C s' E V. cbn in E. injection E as <- <- <-. cbn. split; [tauto |]. intros; right; auto.
    - intros e1 IH1 e2 IH2 [U1 U2] vm ns s x C s' E V. cbn [convert_anf_exps] in E.
      dopt E [[[x1 C1] s1] |] F1. dopt E [[[x2 C2] s2] |] F2. injection E as <- <- <-.
      destruct (IH1 U1 _ _ _ _ _ _ F1 V) as [A1 B1]. destruct (IH2 U2 _ _ _ _ _ _ F2 V) as [A2 B2].
      destruct (proj1 CB _ U1 _ _ _ _ _ F1) as [S1 _].
      rewrite bc_comp_eq by auto. split.
      + intros z [<- | Hz]; [destruct A1; auto | destruct (A2 z Hz); auto]; right; apply in_or_app; auto.
      + intros e0 y H. rewrite app_comp in H by auto. apply B1 in H. destruct H as [H | [H N1]]; auto.
        apply B2 in H. destruct H as [H | [H N2]]; auto.
        right. split; auto. intro X. apply in_app_or in X. tauto.
    - intros _ names i vm ns s x B s' E V. destruct names; [| discriminate]. injection E as <- <- <-.
      intros y [].
    - intros na e _ IHb l IH [U1 U2] names i vm ns s x B s' E V. cbn [convert_anf_efnlst fresh] in E.
      destruct names as [|f names]; [discriminate |]. destruct e; try discriminate.
      dopt E [[[r C] s1] |] F1. dopt E [[[x2 B2] s2] |] F2. injection E as <- <- <-. cbn [uses] in U1.
      destruct (IHb _ _ eq_refl U1 _ _ _ _ _ _ F1 (vm_add _ _ s V)) as [A1 B1].
      intros y [[N H] | H].
      + apply (BODY _ _ _ A1 B1) in H. destruct H as [H | H]; auto. exfalso; apply N; left; auto.
      + eapply IH; eauto.
    - intros _ z vm ns s ps s' E V. cbn in E. injection E as <- <-. intros y p [].
    - intros d [n na] e IH1 bs IH2 [_ [U1 U2]] z vm ns s ps s' E V. cbn [convert_anf_branches nargs fst] in E.
      dopt E [[ps1 s1] |] F1. destruct (fresh_list (N.to_nat n) s1) as [vars s2] eqn:FR.
      dopt E [[[r C] s3] |] F2. injection E as <- <-.
      intros y p [<- | Hp] H; [| eapply IH2; eauto]. cbn [snd] in H.
      apply free_proj in H. destruct H as [H | [H N]]; auto.
      destruct (IH1 U1 _ _ _ _ _ _ F2 (vm_adds _ _ _ V)) as [A B].
      apply (BODY _ _ _ A B) in H. apply in_app_or in H. tauto.
  Qed.

  (* ---- totality ---- *)

  Local Ltac ropt E :=
    match type of E with _ = ?r =>
      match goal with |- context [match ?m with Some _ => _ | None => None end] =>
        replace m with r by (symmetry; exact E)
      end
    end.

  Local Ltac wfs e n :=
    match goal with
    | X : exp_wf _ e |- _ => rename X into n
    | X : exps_wf _ e |- _ => rename X into n
    | X : efnlst_wf _ e |- _ => rename X into n
    | X : branches_wf _ e |- _ => rename X into n
    end.

  Lemma conv_total :
    (forall e n, exp_wf n e -> forall vm ns s, vm_is vm ns -> N.of_nat (List.length ns) = n ->
       exists r, conv e vm s = Some r) /\
    (forall e n, exps_wf n e -> forall vm ns s, vm_is vm ns -> N.of_nat (List.length ns) = n ->
       exists r, convs e vm s = Some r) /\
    (forall e n, efnlst_wf n e -> forall vm ns s names i, vm_is vm ns -> N.of_nat (List.length ns) = n ->
       List.length names = efnlength e ->
       exists r, convfs e names i vm s = Some r) /\
    (forall e n, branches_wf n e -> forall y vm ns s, vm_is vm ns -> N.of_nat (List.length ns) = n ->
       exists r, convbs e y vm s = Some r).
  Proof.
    apply exp_ind_lam.
    - intros i n W vm ns s V L. inversion W; subst. cbn [convert_anf]. rewrite V.
      destruct (nth_error ns (N.to_nat i)) eqn:NE; [eauto |]. apply nth_error_None in NE. lia.
    - intros na e IH n W vm ns s V L. inversion W; subst. wfs e We. cbn [convert_anf fresh].
      destruct (IH _ We _ (s :: ns) (s + 1 + 1)%positive (vm_add _ _ s V)) as [[[r C] s1] E].
      { cbn [List.length]. lia. }
      rewrite E. eauto.
    - intros e1 IH1 e2 IH2 n W vm ns s V L. inversion W; subst. wfs e1 W1. wfs e2 W2. cbn [convert_anf fresh].
      destruct (IH1 _ W1 _ _ s V eq_refl) as [[[x1 C1] s1] E1]. rewrite E1.
      destruct (IH2 _ W2 _ _ s1 V eq_refl) as [[[x2 C2] s2] E2]. rewrite E2. eauto.
    - intros d l IH n W vm ns s V L. inversion W; subst. wfs l W1. cbn [convert_anf fresh].
      destruct (IH _ W1 _ _ (s + 1)%positive V eq_refl) as [[[x1 C1] s1] E1].
      ropt E1. eauto.
    - intros e1 IH1 m bs IH2 n W vm ns s V L. inversion W; subst. wfs e1 W1. wfs bs W2. cbn [convert_anf fresh].
      destruct (IH1 _ W1 _ _ (s + 1 + 1)%positive V eq_refl) as [[[x1 C1] s1] E1]. rewrite E1.
      destruct (IH2 _ W2 (s + 1)%positive _ _ s1 V eq_refl) as [[ps s2] E2].
      ropt E2. eauto.
    - intros na e1 IH1 e2 IH2 n W vm ns s V L. inversion W; subst. wfs e1 W1. wfs e2 W2. cbn [convert_anf fresh].
      destruct (IH1 _ W1 _ _ s V eq_refl) as [[[x1 C1] s1] E1]. rewrite E1.
      destruct (IH2 _ W2 _ (x1 :: ns) s1 (vm_add _ _ x1 V)) as [[[x2 C2] s2] E2].
      { cbn [List.length]. lia. }
      rewrite E2. eauto.
    - intros l IH i n W vm ns s V L. inversion W; subst. wfs l W1. cbn [convert_anf].
      destruct (add_fix_names l vm s) as [[names vm'] s1] eqn:AF.
      destruct (fix_names_spec _ _ _ _ _ _ _ AF V) as [V' [LN _]].
      destruct (IH _ W1 _ _ s1 names i V') as [[[x B] s2] E]; auto.
      { rewrite app_length, rev_length, efn_len. lia. }
      ropt E. eauto.
    - intros n W vm ns s V L. cbn. eauto.
    - intros p n W vm ns s V L. cbn. eauto.
    - intros p n W. inversion W.
    - intros n W vm ns s V L. cbn. eauto.
    - intros e1 IH1 l IH2 n W vm ns s V L. inversion W; subst. wfs e1 W1. wfs l W2. cbn [convert_anf_exps].
      destruct (IH1 _ W1 _ _ s V eq_refl) as [[[x1 C1] s1] E1]. ropt E1.
      destruct (IH2 _ W2 _ _ s1 V eq_refl) as [[[x2 C2] s2] E2]. rewrite E2. eauto.
    - intros n W vm ns s names i V L LN. destruct names; [| discriminate]. cbn. eauto.
    - intros na e _ IHb l IH n W vm ns s names i V L LN. inversion W; subst.
      destruct e; try contradiction. destruct names as [|f names]; [discriminate |].
      match goal with X : exp_wf _ (Lam_e _ _) |- _ => inversion X; subst; clear X end.
      match goal with X : exp_wf (1 + _) _ |- _ =>
        destruct (IHb _ _ eq_refl _ X _ (s :: ns) (s + 1)%positive (vm_add _ _ s V)) as [[[r C] s1] E] end.
      { cbn [List.length]. lia. }
      cbn [convert_anf_efnlst fresh]. ropt E.
      match goal with X : efnlst_wf _ l |- _ =>
        destruct (IH _ X _ _ s1 names (i - 1)%N V eq_refl) as [[[x2 B2] s2] E2] end.
      { cbn in LN. injection LN. auto. }
      rewrite E2. eauto.
    - intros n W y vm ns s V L. cbn. eauto.
    - intros d [k na] e IH1 bs IH2 n W y vm ns s V L. inversion W; subst. cbn [convert_anf_branches nargs fst].
      match goal with X : branches_wf _ bs |- _ =>
        destruct (IH2 _ X y _ _ s V eq_refl) as [[ps s1] E1] end.
      rewrite E1. destruct (fresh_list (N.to_nat k) s1) as [vars s2] eqn:FR.
      pose proof (fresh_list_spec (N.to_nat k) s1) as FS. rewrite FR in FS. destruct FS as [FL _].
      match goal with X : exp_wf _ e |- _ =>
        destruct (IH1 _ X _ _ s2 (vm_adds vars _ _ V)) as [[[r C] s3] E2] end.
      { rewrite app_length, FL. cbn [nargs fst]. lia. }
      ropt E2. eauto.
  Qed.
End Conv.
