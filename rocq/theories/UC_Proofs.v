(* Uncurrying preserves evaluation: simulation for any number of rewrites with
   fresh names. *)
From Coq Require Import List Arith NArith PArith Bool Lia Relations.
From Verif Require Import ANF_Syntax ANF_Eval ANF_Spec ANF_Scope ANF_EvalProofs ANF_FreeProofs Comp_Proofs CC_Proofs UC_Spec.
Import ListNotations.

(* ** Lists of variables *)
Lemma Some_inj A (x y : A) : Some x = Some y -> x = y.
Proof. congruence. Qed.
Lemma set_lists_len A xs : forall (vs : list A) rho r, set_lists xs vs rho = Some r -> length xs = length vs.
Proof.
  induction xs as [|x xs IH]; intros [|v vs] rho r H; cbn [set_lists] in H; try discriminate; [reflexivity|].
  destruct (set_lists xs vs rho) eqn:E; [|discriminate]. cbn. f_equal. eapply IH. exact E.
Qed.
Lemma set_lists_ok A xs : forall (vs : list A) rho, length xs = length vs -> exists r, set_lists xs vs rho = Some r.
Proof.
  induction xs as [|x xs IH]; intros [|v vs] rho H; try discriminate; cbn [set_lists]; [eauto|].
  destruct (IH vs rho) as [r ->]; [cbn in H; lia|eauto].
Qed.
Lemma set_lists_app A xs : forall ys (vs ws : list A) rho r, length xs = length vs ->
  set_lists ys ws rho = Some r -> set_lists (xs ++ ys) (vs ++ ws) rho = set_lists xs vs r.
Proof.
  induction xs as [|x xs IH]; intros ys [|v vs] ws rho r L H; try discriminate; cbn [set_lists app]; [exact H|].
  cbn in L. rewrite (IH ys vs ws rho r) by (auto; lia). reflexivity.
Qed.
Lemma set_lists_other A xs : forall (vs : list A) rho r x, set_lists xs vs rho = Some r -> ~ In x xs -> get x r = get x rho.
Proof.
  induction xs as [|a xs IH]; intros [|v vs] rho r x H N; cbn [set_lists] in H; try discriminate; [congruence|].
  destruct (set_lists xs vs rho) as [r0|] eqn:E; [|discriminate]. assert (r = set a v r0) by congruence. subst r.
  rewrite get_set_other by (intros ->; apply N; left; reflexivity). eapply IH; [exact E|]. intro. apply N. right. assumption.
Qed.
Lemma set_lists_get A xs : forall (vs : list A) rho r, NoDup xs -> set_lists xs vs rho = Some r -> get_list xs r = Some vs.
Proof.
  induction xs as [|a xs IH]; intros [|v vs] rho r ND H; cbn [set_lists] in H; try discriminate; [reflexivity|].
  destruct (set_lists xs vs rho) as [r0|] eqn:E; [|discriminate]. assert (r = set a v r0) by congruence. subst r.
  cbn [get_list]. rewrite get_set_same. inversion ND as [|? ? N ND']; subst.
  assert (G : get_list xs (set a v r0) = get_list xs r0).
  { clear -N. induction xs as [|x xs IHx]; [reflexivity|]. cbn [get_list]. rewrite get_set_other by (intros ->; apply N; left; reflexivity).
    rewrite IHx; [reflexivity|]. intro. apply N. right. assumption. }
  rewrite G, (IH _ _ _ ND' E). reflexivity.
Qed.
Lemma get_list_ext A xs (r r' : tmap A) : (forall x, In x xs -> get x r' = get x r) -> get_list xs r' = get_list xs r.
Proof.
  induction xs as [|x xs IH]; intro H; [reflexivity|]. cbn [get_list]. rewrite (H x (or_introl eq_refl)), IH; [reflexivity|].
  intros y I. apply H. right. exact I.
Qed.
Lemma get_list_app A xs : forall ys (r : tmap A) vs ws, get_list xs r = Some vs -> get_list ys r = Some ws -> get_list (xs ++ ys) r = Some (vs ++ ws).
Proof.
  induction xs as [|x xs IH]; intros ys r vs ws H1 H2; cbn [get_list app] in *; [assert (vs = []) by congruence; subst; exact H2|].
  destruct (get x r) as [v|]; [|discriminate]. destruct (get_list xs r) as [vs'|] eqn:E; [|discriminate].
  assert (vs = v :: vs') by congruence. subst. rewrite (IH _ _ _ _ E H2). reflexivity.
Qed.
Lemma Forall2_app_split A B (R : A -> B -> Prop) l1 : forall l2 l', Forall2 R (l1 ++ l2) l' -> exists l1' l2', l' = l1' ++ l2' /\ Forall2 R l1 l1' /\ Forall2 R l2 l2'.
Proof.
  induction l1 as [|a l1 IH]; intros l2 l' H; [exists [], l'; auto|]. inversion H as [|? b ? l0 R1 F]; subst.
  destruct (IH _ _ F) as (l1' & l2' & -> & F1 & F2). exists (b :: l1'), l2'. auto.
Qed.
Lemma Forall2_len A B (R : A -> B -> Prop) l l' : Forall2 R l l' -> length l = length l'.
Proof. induction 1; cbn; congruence. Qed.

Section Sim.
  (* the names that may be chosen *)
  Variable P : var -> Prop.

  Definition okn (e : exp) : Prop := forall x, In x (allv e) -> ~ P x.
  Definition okf (B : fundefs) : Prop := forall x, In x (allv_funs B) -> ~ P x.

  Definition wrapc (pre fv : list var) (g : var) (gv : list var) (ge tl : exp) (f1 : var) (fv1 gv1 : list var) : Prop :=
    ((exists k kt, pre = [k] /\ tl = Eapp k kt [g]) \/ (pre = [] /\ tl = Ehalt g)) /\
    ~ In g (allv ge) /\ (forall k, In k pre -> ~ In k (allv ge)) /\
    length gv1 = length gv /\ length fv1 = length fv /\
    NoDup (f1 :: gv1 ++ fv1) /\ (forall x, In x (f1 :: gv1 ++ fv1) -> P x).

  Inductive ue : exp -> exp -> Prop :=
  | ue_constr x t ys e e' : ue e e' -> ue (Econstr x t ys e) (Econstr x t ys e')
  | ue_case x l l' : Forall2 (fun p p' => fst p = fst p' /\ ue (snd p) (snd p')) l l' -> ue (Ecase x l) (Ecase x l')
  | ue_proj x t n y e e' : ue e e' -> ue (Eproj x t n y e) (Eproj x t n y e')
  | ue_letapp x f t ys e e' : ue e e' -> ue (Eletapp x f t ys e) (Eletapp x f t ys e')
  | ue_fun B B' e e' : uf B B' -> ue e e' -> ue (Efun B e) (Efun B' e')
  | ue_app f t ys : ue (Eapp f t ys) (Eapp f t ys)
  | ue_prim_val x p e e' : ue e e' -> ue (Eprim_val x p e) (Eprim_val x p e')
  | ue_prim x p ys e e' : ue e e' -> ue (Eprim x p ys e) (Eprim x p ys e')
  | ue_halt x : ue (Ehalt x) (Ehalt x)
  with uf : fundefs -> fundefs -> Prop :=
  | uf_nil : uf Fnil Fnil
  | uf_cons f t xs e e' B B' : ue e e' -> uf B B' -> uf (Fcons f t xs e B) (Fcons f t xs e' B')
  | uf_unc f ft pre fv g gt gv ge tl fds f1 ft1 fv1 gv1 ge' fds' :
      wrapc pre fv g gv ge tl f1 fv1 gv1 -> ue ge ge' -> uf fds fds' -> ~ In f1 (fnames fds') ->
      uf (Fcons f ft (pre ++ fv) (Efun (Fcons g gt gv ge Fnil) tl) fds)
         (Fcons f ft (pre ++ fv1) (Efun (Fcons g gt gv1 (Eapp f1 ft1 (gv1 ++ fv1)) Fnil) tl)
           (Fcons f1 ft1 (gv ++ fv) ge' fds')).

  Lemma ue_refl : (forall e, ue e e) /\ (forall B, uf B B).
  Proof.
    apply exp_fundefs_ind; try (constructor; auto; fail).
    intros x l IH. constructor. induction IH; constructor; auto.
  Qed.

  Lemma uf_fnames : forall B B', uf B B' -> forall x, (In x (fnames B) -> In x (fnames B')) /\ (In x (fnames B') -> In x (fnames B) \/ P x).
  Proof.
    induction B as [f t xs e B IH|]; intros B' H x;
      inversion H as [|? ? ? ? e' ? B1 U1 U2|? ? pre fv g gt gv ge tl ? f1 ft1 fv1 gv1 ge' fds' W U1 U2 NI]; subst; cbn [fnames].
    - destruct (IH _ U2 x). cbn [In]. tauto.
    - destruct (IH _ U2 x). destruct W as (_ & _ & _ & _ & _ & _ & W).
      cbn [In] in *. split; [tauto|]. intros [<-|[<-|I]]; [auto|right; apply W; auto|tauto].
    - auto.
  Qed.

  Lemma uf_find : forall B B', uf B B' -> okf B -> forall f t xs e, find_def f B = Some (t, xs, e) ->
    (exists e', find_def f B' = Some (t, xs, e') /\ ue e e') \/
    (exists pre fv g gt gv ge tl f1 ft1 fv1 gv1 ge',
       xs = pre ++ fv /\ e = Efun (Fcons g gt gv ge Fnil) tl /\ wrapc pre fv g gv ge tl f1 fv1 gv1 /\ ue ge ge' /\
       find_def f B' = Some (t, pre ++ fv1, Efun (Fcons g gt gv1 (Eapp f1 ft1 (gv1 ++ fv1)) Fnil) tl) /\
       find_def f1 B' = Some (ft1, gv ++ fv, ge') /\ In f1 (fnames B')).
  Proof.
    induction B as [h u ys a B IH|]; intros B' H OK f t xs e F; [|discriminate].
    assert (OKB : okf B) by (intros x I; apply OK; cbn [allv_funs]; right; rewrite !in_app_iff; auto).
    assert (OKh : ~ P h) by (apply OK; left; reflexivity).
    cbn [find_def] in F.
    inversion H as [|? ? ? ? e' ? B1 U1 U2|? ? pre fv g gt gv ge tl ? f1 ft1 fv1 gv1 ge' fds' W U1 U2 NI]; subst.
    - destruct (Pos.eq_dec f h) as [->|D].
      + left. exists e'. assert (E : (u, ys, a) = (t, xs, e)) by congruence. apply pair3 in E as (-> & -> & ->).
        cbn [find_def]. destruct (Pos.eq_dec h h); [auto|congruence].
      + destruct (IH _ U2 OKB _ _ _ _ F) as [(e1 & F1 & F2)|(pre & fv & g & gt & gv & ge & tl & f1 & ft1 & fv1 & gv1 & ge' & A1 & A2 & A3 & A4 & A5 & A6 & A7)].
        * left. exists e1. cbn [find_def]. destruct (Pos.eq_dec f h); [congruence|auto].
        * right. exists pre, fv, g, gt, gv, ge, tl, f1, ft1, fv1, gv1, ge'. cbn [find_def fnames].
          destruct (Pos.eq_dec f h); [congruence|]. destruct (Pos.eq_dec f1 h) as [->|]; [|repeat (split; [first [reflexivity|assumption]|]); right; auto].
          exfalso. apply OKh. apply A3. left. reflexivity.
    - destruct W as (W1 & W2 & W3 & W4 & W5 & W6 & W7). assert (P1 : P f1) by (apply W7; left; reflexivity).
      assert (W : wrapc pre fv g gv ge tl f1 fv1 gv1) by (repeat split; auto).
      destruct (Pos.eq_dec f h) as [->|D].
      + right. exists pre, fv, g, gt, gv, ge, tl, f1, ft1, fv1, gv1, ge'. apply Some_inj, pair3 in F as (-> & <- & <-). cbn [find_def fnames].
        destruct (Pos.eq_dec h h); [|congruence]. destruct (Pos.eq_dec f1 h) as [->|]; [contradiction|]. destruct (Pos.eq_dec f1 f1); [|congruence].
        repeat (split; [first [reflexivity|assumption]|]). cbn [In]. auto.
      + assert (D1 : f <> f1).
        { intros ->. apply (OKB f1); [|exact P1]. clear -F. induction B as [h' u' ys' a' B IHB|]; [|discriminate]. cbn [find_def] in F. cbn [allv_funs].
          destruct (Pos.eq_dec f1 h') as [->|]; [left; reflexivity|]. right. rewrite !in_app_iff. auto. }
        destruct (IH _ U2 OKB _ _ _ _ F) as [(e1 & F1 & F2)|(pre' & fv' & g' & gt' & gv' & ge1 & tl' & f1' & ft1' & fv1' & gv1' & ge1' & A1 & A2 & A3 & A4 & A5 & A6 & A7)].
        * left. exists e1. cbn [find_def]. destruct (Pos.eq_dec f h); [congruence|]. destruct (Pos.eq_dec f f1); [congruence|auto].
        * right. exists pre', fv', g', gt', gv', ge1, tl', f1', ft1', fv1', gv1', ge1'. cbn [find_def fnames].
          destruct (Pos.eq_dec f h); [congruence|]. destruct (Pos.eq_dec f f1); [congruence|].
          destruct (Pos.eq_dec f1' h) as [->|]; [exfalso; apply OKh; apply A3; left; reflexivity|].
          destruct (Pos.eq_dec f1' f1) as [->|]; [contradiction|].
          repeat (split; [first [reflexivity|assumption]|]). right; right; auto.
  Qed.

  Inductive uv : val -> val -> Prop :=
  | uv_constr t vs vs' : Forall2 uv vs vs' -> uv (Vconstr t vs) (Vconstr t vs')
  | uv_prim p : uv (Vprim p) (Vprim p)
  | uv_int z : uv (Vint z) (Vint z)
  | uv_fun rho B f rho' B' : uf B B' -> okf B -> In f (fnames B) ->
      (forall x, free_funs x B -> forall v, get x rho = Some v -> exists v', get x rho' = Some v' /\ uv v v') ->
      uv (Vfun rho B f) (Vfun rho' B' f)
  | uv_wrap rho rho' pre fv g gt gv ge tl f1 ft1 fv1 gv1 ge' rb B' vs r2 :
      wrapc pre fv g gv ge tl f1 fv1 gv1 -> ue ge ge' -> okn ge -> ~ P g ->
      get f1 rho' = Some (Vfun rb B' f1) -> find_def f1 B' = Some (ft1, gv ++ fv, ge') ->
      get_list fv1 rho' = Some vs -> set_lists fv vs (def_funs B' B' rb rb) = Some r2 ->
      (forall x, free x ge /\ ~ In x gv -> forall v, get x rho = Some v -> exists v', get x r2 = Some v' /\ uv v v') ->
      uv (Vfun rho (Fcons g gt gv ge Fnil) g) (Vfun rho' (Fcons g gt gv1 (Eapp f1 ft1 (gv1 ++ fv1)) Fnil) g).

  Definition envr (D : var -> Prop) (rho rho' : env) : Prop :=
    forall x, D x -> forall v, get x rho = Some v -> exists v', get x rho' = Some v' /\ uv v v'.

  Inductive brel : env -> exp -> env -> exp -> Prop :=
  | b_same r e r' e' : ue e e' -> okn e -> envr (fun x => free x e) r r' -> brel r e r' e'
  | b_wrap r r' pre fv g gt gv ge tl f1 ft1 fv1 gv1 ge' rb B' vs r2 :
      wrapc pre fv g gv ge tl f1 fv1 gv1 -> ue ge ge' -> okn ge -> okn tl -> ~ P g ->
      get f1 r' = Some (Vfun rb B' f1) -> find_def f1 B' = Some (ft1, gv ++ fv, ge') ->
      get_list fv1 r' = Some vs -> set_lists fv vs (def_funs B' B' rb rb) = Some r2 ->
      envr (fun x => free x ge /\ ~ In x gv) r r2 ->
      envr (fun x => free x tl /\ x <> g) r r' ->
      brel r (Efun (Fcons g gt gv ge Fnil) tl) r' (Efun (Fcons g gt gv1 (Eapp f1 ft1 (gv1 ++ fv1)) Fnil) tl).

  (* the body of an uncurried function, or a call to it *)
  Definition brel' (r : env) (e : exp) (r' : env) (e' : exp) : Prop :=
    brel r e r' e' \/
    exists f1 ft1 ys vf ws r2 e2, e' = Eapp f1 ft1 ys /\ get f1 r' = Some vf /\ get_list ys r' = Some ws /\
      enter vf ft1 ws = Some (r2, e2) /\ brel r e r2 e2.

  Lemma allv_free e x : free x e -> In x (allv e).
  Proof. intro H. apply (proj1 allv_spec). auto. Qed.
  Lemma okn_free e x : okn e -> free x e -> ~ P x.
  Proof. intros H F. apply H. apply allv_free. exact F. Qed.
  Lemma find_names f B t xs e : find_def f B = Some (t, xs, e) -> In f (fnames B) /\ (forall x, In x xs \/ In x (allv e) -> In x (allv_funs B)).
  Proof.
    induction B as [h u ys a B IH|]; cbn [find_def]; [|discriminate]. destruct (Pos.eq_dec f h) as [->|]; intro F; cbn [fnames allv_funs].
    - apply Some_inj, pair3 in F as (-> & -> & ->). split; [left; reflexivity|]. intros x [I|I]; right; rewrite !in_app_iff; auto.
    - destruct (IH F) as [I1 I2]. split; [right; exact I1|]. intros x I. right. rewrite !in_app_iff. auto.
  Qed.
  Lemma fnames_allv B x : In x (fnames B) -> In x (allv_funs B).
  Proof. intro H. apply (proj2 allv_spec). left. apply Comp_Proofs.fnames_bv. exact H. Qed.

  Lemma defs_rel B B' rho rho' rho0 rho0' (D : var -> Prop) : uf B B' -> okf B -> envr (fun x => free_funs x B) rho rho' ->
    envr (fun x => ~ In x (fnames B) /\ D x) rho0 rho0' ->
    envr (fun x => ~ P x /\ D x) (def_funs B B rho rho0) (def_funs B' B' rho' rho0').
  Proof.
    intros U OK E E0 x [N Dx] v. rewrite !def_funs_get. destruct (uf_fnames _ _ U x) as [I1 I2].
    destruct (in_dec Pos.eq_dec x (fnames B)) as [I|I].
    - intro G. assert (v = Vfun rho B x) by congruence. subst v. destruct (in_dec Pos.eq_dec x (fnames B')) as [_|J]; [|tauto].
      exists (Vfun rho' B' x). split; [reflexivity|]. constructor; auto.
    - destruct (in_dec Pos.eq_dec x (fnames B')) as [J|_]; [tauto|]. apply E0. auto.
  Qed.

  Lemma enter_rel v v' t vs vs' r e : uv v v' -> Forall2 uv vs vs' -> enter v t vs = Some (r, e) ->
    exists r' e', enter v' t vs' = Some (r', e') /\ brel' r e r' e'.
  Proof.
    intros V F EN. apply enter_spec in EN as (rho & B & f & xs & -> & FD & SL).
    inversion V as [| | |? ? ? rho' B' U OK I E|? rho' pre fv g gt gv ge tl f1 ft1 fv1 gv1 ge' rb B' vs0 r2 W UE OKG NG G1 FD1 GL SL2 E]; subst.
    - (* a function of a related bundle *)
      assert (OKD : okn e).
      { intros x J. apply OK. apply (find_names _ _ _ _ _ FD). auto. }
      assert (DR : envr (fun x => ~ P x /\ (In x (fnames B) \/ free_funs x B)) (def_funs B B rho rho) (def_funs B' B' rho' rho')).
      { apply defs_rel; auto. intros x [N1 [J|J]]; [contradiction|auto]. }
      destruct (uf_find _ _ U OK _ _ _ _ FD) as [(e' & FD' & UE)|(pre & fv & g & gt & gv & ge & tl & f1 & ft1 & fv1 & gv1 & ge' & -> & -> & W & UE & FD' & FD1 & IN1)].
      + destruct (set_lists_rel uv _ _ _ _ (def_funs B' B' rho' rho') _ F SL) as (r' & SL' & K).
        exists r', e'. split; [apply enter_spec; eauto 10|]. left. constructor; auto.
        intros x Fx w G. destruct (K x) as [K1 K2]. destruct (in_dec Pos.eq_dec x xs) as [J|J].
        * destruct (K1 J) as (w1 & w' & G1 & G2 & R). assert (w = w1) by congruence. subst. eauto.
        * destruct (K2 J) as [E1 E2]. rewrite E1 in G. rewrite E2. apply (DR x); [|exact G]. split; [eapply okn_free; eauto|].
          destruct (in_dec Pos.eq_dec x (fnames B)) as [Q|Q]; [auto|]. right. split; [exact Q|]. eapply find_def_free; eauto.
      + pose proof W as (W1 & W2 & W3 & W4 & W5 & W6 & W7).
        assert (OKX : forall x, In x (pre ++ fv) -> ~ P x) by (intros x J; apply OK; apply (find_names _ _ _ _ _ FD); auto).
        assert (OKG : okn ge) by (intros x J; apply OKD; cbn [allv allv_funs app In]; rewrite !in_app_iff; tauto).
        assert (OKT : okn tl) by (intros x J; apply OKD; cbn [allv allv_funs app In]; rewrite !in_app_iff; tauto).
        assert (NG : ~ P g) by (apply OKD; left; reflexivity).
        assert (exists vp vf, vs = vp ++ vf /\ length vp = length pre /\ length vf = length fv) as (vp & vf & -> & Lp & Lf).
        { apply set_lists_len in SL. rewrite app_length in SL. exists (firstn (length pre) vs), (skipn (length pre) vs).
          rewrite firstn_skipn, firstn_length, skipn_length. split; [reflexivity|]. unfold var in *. lia. }
        apply Forall2_app_split in F as (vp' & vf' & -> & Fp & Ff).
        pose proof (Forall2_len _ _ _ _ _ Fp) as Lp'. pose proof (Forall2_len _ _ _ _ _ Ff) as Lf'.
        destruct (set_lists_ok _ fv vf (def_funs B B rho rho)) as [r0 SL0]; [unfold var in *; lia|].
        assert (SLb : set_lists pre vp r0 = Some r) by (rewrite <- (set_lists_app _ _ _ _ _ _ _ (eq_sym Lp) SL0); exact SL).
        clear SL. rename SLb into SL.
        destruct (set_lists_ok _ fv1 vf' (def_funs B' B' rho' rho')) as [r1 SL1]; [unfold var in *; lia|].
        destruct (set_lists_rel uv _ _ _ _ r1 _ Fp SL) as (r' & SL' & K).
        destruct (set_lists_rel uv _ _ _ _ (def_funs B' B' rho' rho') _ Ff SL0) as (r2 & SL2 & K2).
        inversion W6 as [|? ? N1 ND]; subst.
        assert (FP : forall x, In x (gv1 ++ fv1) -> ~ In x pre).
        { intros x J Q. apply (OKX x); [apply in_or_app; auto|]. apply W7. right. exact J. }
        assert (F1 : ~ In f1 pre /\ ~ In f1 fv1).
        { split; [|intro; apply N1; apply in_or_app; auto]. intro Q. apply (OKX f1); [apply in_or_app; auto|]. apply W7. left. reflexivity. }
        exists r', (Efun (Fcons g gt gv1 (Eapp f1 ft1 (gv1 ++ fv1)) Fnil) tl). split.
        { apply enter_spec. exists rho', B', f, (pre ++ fv1). split; [reflexivity|]. split; [exact FD'|].
          rewrite (set_lists_app _ _ _ _ _ _ r1); [exact SL'|unfold var in *; lia|exact SL1]. }
        left. eapply b_wrap with (rb := rho') (B' := B') (vs := vf') (r2 := r2); eauto.
        * rewrite (set_lists_other _ _ _ _ _ _ SL') by apply F1. rewrite (set_lists_other _ _ _ _ _ _ SL1) by apply F1.
          rewrite def_funs_get. destruct (in_dec Pos.eq_dec f1 (fnames B')); [reflexivity|contradiction].
        * rewrite (get_list_ext _ fv1 r1); [eapply set_lists_get; [|exact SL1]; eapply NoDup_app_r; exact ND|].
          intros x J. apply (set_lists_other _ _ _ _ _ _ SL'). apply FP. apply in_or_app. auto.
        * intros x [Fx Nx] w G. destruct (K2 x) as [A1 A2].
          assert (Q : ~ In x pre) by (intro Q; apply (W3 x Q); apply allv_free; exact Fx).
          rewrite (set_lists_other _ _ _ _ _ _ SL Q) in G. destruct (in_dec Pos.eq_dec x fv) as [J|J].
          -- destruct (A1 J) as (w1 & w' & G1 & G2 & R). assert (w = w1) by congruence. subst. eauto.
          -- destruct (A2 J) as [E1 E2]. rewrite E1 in G. rewrite E2. apply (DR x); [|exact G]. split; [apply (okn_free ge); assumption|].
             destruct (in_dec Pos.eq_dec x (fnames B)) as [Q1|Q1]; [auto|]. right. split; [exact Q1|]. eapply find_def_free; [exact FD| |].
             ++ cbn [free fnames free_body In]. split; [|tauto]. intros [<-|[]]. apply W2. apply allv_free. exact Fx.
             ++ rewrite in_app_iff. tauto.
        * intros x [Fx Nx] w G. destruct W1 as [(k & kt & -> & ->)|[-> ->]].
          -- cbn [free In] in Fx. assert (x = k) by (destruct Fx as [->|[->|[]]]; [reflexivity|congruence]). subst x.
             destruct (K k) as [A1 _]. destruct (A1 (or_introl eq_refl)) as (w1 & w' & G1 & G2 & R). assert (w = w1) by congruence. subst. eauto.
          -- cbn [free] in Fx. congruence.
    - (* an inner function *)
      cbn [find_def] in FD. destruct (Pos.eq_dec f f) as [_|]; [|congruence]. apply Some_inj, pair3 in FD as (-> & -> & ->).
      pose proof W as (W1 & W2 & W3 & W4 & W5 & W6 & W7). inversion W6 as [|? ? N1 ND]; subst.
      pose proof (set_lists_len _ _ _ _ _ SL) as L1. pose proof (Forall2_len _ _ _ _ _ F) as L2.
      destruct (set_lists_ok _ gv1 vs' (def_funs (Fcons f t gv1 (Eapp f1 ft1 (gv1 ++ fv1)) Fnil) (Fcons f t gv1 (Eapp f1 ft1 (gv1 ++ fv1)) Fnil) rho' rho')) as [r' SL']; [unfold var in *; lia|].
      exists r', (Eapp f1 ft1 (gv1 ++ fv1)). split.
      { apply enter_spec. exists rho', (Fcons f t gv1 (Eapp f1 ft1 (gv1 ++ fv1)) Fnil), f, gv1. split; [reflexivity|]. split; [|exact SL'].
        cbn [find_def]. destruct (Pos.eq_dec f f); [reflexivity|congruence]. }
      right.
      assert (OTH : forall x, In x (f1 :: fv1) -> get x r' = get x rho').
      { intros x J. rewrite (set_lists_other _ _ _ _ _ _ SL').
        - cbn [def_funs]. rewrite get_set_other; [reflexivity|]. intros ->. apply NG. apply W7. destruct J as [->|J]; [left; reflexivity|right; apply in_or_app; auto].
        - destruct J as [<-|J]; [intro; apply N1; apply in_or_app; auto|]. intro Q. exact (NoDup_app_disj _ _ _ _ ND Q J). }
      destruct (set_lists_rel uv _ _ _ _ r2 _ F SL) as (r3 & SL3 & K).
      exists f1, ft1, (gv1 ++ fv1), (Vfun rb B' f1), (vs' ++ vs0), r3, ge'. split; [reflexivity|].
      split; [rewrite OTH by (left; reflexivity); exact G1|]. split.
      { apply get_list_app; [eapply set_lists_get; [|exact SL']; eapply NoDup_app_l; exact ND|].
        rewrite (get_list_ext _ fv1 rho'); [exact GL|]. intros x J. apply OTH. right. exact J. }
      split.
      { apply enter_spec. exists rb, B', f1, (xs ++ fv). split; [reflexivity|]. split; [exact FD1|].
        refine (eq_trans (set_lists_app _ _ _ _ _ _ _ (eq_trans L1 L2) SL2) _). exact SL3. }
      constructor; auto. intros x Fx w G. destruct (K x) as [A1 A2]. destruct (in_dec Pos.eq_dec x xs) as [J|J].
      + destruct (A1 J) as (w1 & w' & B1 & B2 & R). assert (w = w1) by congruence. subst. eauto.
      + destruct (A2 J) as [E1 E2]. rewrite E1 in G. rewrite E2. apply (E x); [auto|]. cbn [def_funs] in G.
        rewrite get_set_other in G; [exact G|]. intros ->. apply W2. apply allv_free. exact Fx.
  Qed.

  Definition rrel (r r' : res val) : Prop :=
    match r, r' with OOT, OOT => True | Res v, Res v' => uv v v' | _, _ => False end.

  Lemma arms_find l l' : Forall2 (fun p p' => fst p = fst p' /\ ue (snd p) (snd p')) l l' -> forall t e, findtag l t = Some e ->
    exists e', findtag l' t = Some e' /\ ue e e'.
  Proof.
    induction 1 as [|[c a] [c' a'] l l' [E U] F IH]; intros t e H; [discriminate|]. cbn [fst snd findtag] in *. subst c'.
    destruct (Pos.eq_dec c t); [|eauto]. assert (a = e) by congruence. subst. eauto.
  Qed.
  Lemma arms_consistent cenv t l l' : Forall2 (fun p p' => fst p = fst p' /\ ue (snd p) (snd p')) l l' ->
    caseConsistent_f cenv l' t = caseConsistent_f cenv l t.
  Proof.
    induction 1 as [|[c a] [c' a'] l l' [E U] F IH]; [reflexivity|]. cbn [fst snd caseConsistent_f] in *. subst c'. rewrite IH. reflexivity.
  Qed.
  Lemma envr_get_list (D : var -> Prop) rho rho' ys : envr D rho rho' -> (forall y, In y ys -> D y) -> forall vs, get_list ys rho = Some vs ->
    exists vs', get_list ys rho' = Some vs' /\ Forall2 uv vs vs'.
  Proof.
    intro E. induction ys as [|y ys IH]; intros HD vs G; cbn [get_list] in *.
    - assert (vs = []) by congruence. subst. eauto.
    - destruct (get y rho) as [v|] eqn:Ey; [|discriminate]. destruct (get_list ys rho) as [vl|] eqn:El; [|discriminate].
      assert (vs = v :: vl) by congruence. subst. destruct (E y (HD y (or_introl eq_refl)) v Ey) as (v' & G1 & V).
      destruct (IH (fun z I => HD z (or_intror I)) vl eq_refl) as (vl' & G2 & F). rewrite G1, G2. eauto.
  Qed.
  Lemma envr_set (D D' : var -> Prop) rho rho' x v v' : envr D rho rho' -> uv v v' -> (forall y, D' y -> y <> x -> D y) ->
    envr D' (set x v rho) (set x v' rho').
  Proof.
    intros E V H y Dy w. rewrite !get_set. destruct (Pos.eq_dec y x); [|apply E; auto].
    intro G. assert (w = v) by congruence. subst. eauto.
  Qed.
  Lemma okn_sub e e0 : okn e -> (forall x, In x (allv e0) -> In x (allv e)) -> okn e0.
  Proof. intros H S x I. apply H. auto. Qed.

  Variable cenv : ctor_env.

  Lemma sim : forall c r e res0, bstep_fuel cenv r e c res0 -> forall r' e', brel' r e r' e' ->
    exists c2 res2, bstep_fuel cenv r' e' c2 res2 /\ c <= c2 /\ rrel res0 res2.
  Proof.
    induction c as [c IH] using lt_wf_ind. intros rho e r HB.
    assert (MAIN : forall r' e', brel rho e r' e' -> exists c2 res2, bstep_fuel cenv r' e' c2 res2 /\ c <= c2 /\ rrel r res2).
    { intros rho' e' BR. apply bstep_fuel_inv in HB as [[-> ->]|(c' & -> & HB)].
      { exists 0, OOT. split; [apply bstep_fuel_zero|]. split; [lia|exact I]. }
      destruct BR as [rho e rho' e' U OK EV|rho rho' pre fv g gt gv ge tl f1 ft1 fv1 gv1 ge' rb B' vs r2 W UE OKG OKT NG G1 FD1 GL SL2 E1 E2].
      - destruct U as [x t ys e e' U|x l l' F|x t n y e e' U|x f t ys e e' U|B B' e e' U1 U|f t ys|x p e e' U|x p ys e e' U|x].
        + inversion HB as [? ? ? ? ? vs ? ? GL B1| | | | | | |]; subst.
          destruct (envr_get_list _ _ _ ys EV ltac:(cbn [free]; auto) _ GL) as (vs' & GL' & F).
          edestruct (IH c') as (c2 & res2 & D1 & D2 & D3); [lia|exact B1|left; constructor; [exact U|eapply okn_sub; [exact OK|]|eapply envr_set; [exact EV|constructor; exact F|]]|].
          { intros z I. cbn [allv In]. rewrite in_app_iff. auto. }
          { cbn [free]. auto. }
          exists (S c2), res2. split; [apply bstep_fuel_S; econstructor; eauto|]. split; [lia|exact D3].
        + inversion HB as [| |? ? e0 t ? vl ? ? GX CC FT B1| | | | |]; subst.
          destruct (EV x ltac:(cbn [free]; auto) _ GX) as (v' & GX' & V). inversion V as [? ? vl' F'| | | |]; subst.
          destruct (arms_find _ _ F _ _ FT) as (e1 & FT' & U).
          edestruct (IH c') as (c2 & res2 & D1 & D2 & D3); [lia|exact B1|left; constructor; [exact U|eapply okn_sub; [exact OK|]|]|].
          { intros z I. cbn [allv In]. right. apply in_flat_map. exists (t, e0). split; [eapply findtag_In; exact FT|exact I]. }
          { intros z Fz. apply EV. rewrite free_Ecase. right. eapply free_case_In; [eapply findtag_In; exact FT|exact Fz]. }
          exists (S c2), res2. split; [apply bstep_fuel_S; econstructor; eauto; rewrite (arms_consistent _ _ _ _ F); exact CC|]. split; [lia|exact D3].
        + inversion HB as [|? vs ? ? ? ? ? v ? ? GX NT B1| | | | | |]; subst.
          destruct (EV y ltac:(cbn [free]; auto) _ GX) as (v' & GX' & V). inversion V as [? ? vl' F'| | | |]; subst.
          destruct (Forall2_nthN _ _ _ _ _ F' _ _ NT) as (w' & NT' & V').
          edestruct (IH c') as (c2 & res2 & D1 & D2 & D3); [lia|exact B1|left; constructor; [exact U|eapply okn_sub; [exact OK|]|eapply envr_set; [exact EV|exact V'|]]|].
          { intros z I. cbn [allv In]. auto. }
          { cbn [free]. auto. }
          exists (S c2), res2. split; [apply bstep_fuel_S; econstructor; eauto|]. split; [lia|exact D3].
        + apply bstep_letapp_inv in HB as (vf & vs & rhob & eb & GF & GL & EN & HB).
          destruct (EV f ltac:(cbn [free]; auto) _ GF) as (vf' & GF' & V).
          destruct (envr_get_list _ _ _ ys EV ltac:(cbn [free]; auto) _ GL) as (vs' & GL' & F).
          destruct (enter_rel _ _ _ _ _ _ _ V F EN) as (rb' & eb' & EN' & BR').
          destruct HB as [[-> HB]|(v & c1 & c2 & -> & HB1 & HB2)].
          * edestruct (IH c') as (k & res2 & D1 & D2 & D3); [lia|exact HB|exact BR'|]. destruct res2; [|destruct D3].
            exists (S k), OOT. split; [apply bstep_fuel_S; eapply bstep_letapp_oot_intro; eauto|]. split; [lia|exact I].
          * edestruct (IH c1) as (k & res2 & D1 & D2 & D3); [lia|exact HB1|exact BR'|]. destruct res2 as [|v']; [destruct D3|]. cbn in D3.
            edestruct (IH c2) as (k2 & res2 & A1 & A2 & A3); [lia|exact HB2|left; constructor; [exact U|eapply okn_sub; [exact OK|]|eapply envr_set; [exact EV|exact D3|]]|].
            { intros z I. cbn [allv In]. rewrite in_app_iff. auto. }
            { cbn [free]. auto. }
            exists (S (k + k2)), res2. split; [apply bstep_fuel_S; eapply bstep_letapp_intro; eauto|]. split; [lia|exact A3].
        + inversion HB; subst. assert (OKB : okf B) by (intros z I; apply OK; cbn [allv]; apply in_or_app; auto).
          edestruct (IH c') as (c2 & res2 & D1 & D2 & D3); [lia|eassumption|left; constructor; [exact U|eapply okn_sub; [exact OK|]|]|].
          { intros z I. cbn [allv]. apply in_or_app. auto. }
          { assert (OKe : okn e) by (intros z I; apply OK; cbn [allv]; apply in_or_app; auto).
            pose proof (defs_rel B B' rho rho' rho rho' (fun x => free x e) U1 OKB) as DR.
            intros x Fx. apply DR; [| |split; [eapply okn_free; eauto|exact Fx]].
            - intros y Fy. apply EV. destruct Fy as [Fy1 Fy2]. split; [exact Fy1|right; exact Fy2].
            - intros y [Ny Fy]. apply EV. split; [exact Ny|left; exact Fy]. }
          exists (S c2), res2. split; [apply bstep_fuel_S; constructor; exact D1|]. split; [lia|exact D3].
        + apply bstep_app_inv in HB as (vf & vs & rhob & eb & GF & GL & EN & HB).
          destruct (EV f ltac:(cbn [free]; auto) _ GF) as (vf' & GF' & V).
          destruct (envr_get_list _ _ _ ys EV ltac:(cbn [free]; auto) _ GL) as (vs' & GL' & F).
          destruct (enter_rel _ _ _ _ _ _ _ V F EN) as (rb' & eb' & EN' & BR').
          edestruct (IH c') as (k & res2 & D1 & D2 & D3); [lia|exact HB|exact BR'|].
          exists (S k), res2. split; [apply bstep_fuel_S; eapply bstep_app_intro; eauto|]. split; [lia|exact D3].
        + inversion HB.
        + inversion HB.
        + inversion HB; subst. destruct (EV x eq_refl _ ltac:(eassumption)) as (v' & GX' & V).
          exists 1, (Res v'). split; [apply bstep_fuel_S; constructor; exact GX'|]. split; [lia|exact V].
      - inversion HB; subst.
        edestruct (IH c') as (c2 & res2 & D1 & D2 & D3); [lia|eassumption|left; constructor; [apply ue_refl|exact OKT|]|].
        { instantiate (1 := def_funs (Fcons g gt gv1 (Eapp f1 ft1 (gv1 ++ fv1)) Fnil) (Fcons g gt gv1 (Eapp f1 ft1 (gv1 ++ fv1)) Fnil) rho' rho').
          cbn [def_funs]. eapply envr_set; [exact E2|eapply uv_wrap; eauto|cbn; auto]. }
        exists (S c2), res2. split; [apply bstep_fuel_S; constructor; exact D1|]. split; [lia|exact D3]. }
    intros r' e' [BR|(f1 & ft1 & ys & vf & ws & r2 & e2 & -> & GF & GL & EN & BR)]; [auto|].
    destruct (MAIN _ _ BR) as (c2 & res2 & D1 & D2 & D3). exists (S c2), res2.
    split; [apply bstep_fuel_S; eapply bstep_app_intro; eauto|]. split; [lia|exact D3].
  Qed.

  (* related results look the same *)
  Lemma uv_same : forall v v', uv v v' -> same_shape v v'.
  Proof.
    fix self 3. intros v v' H. destruct H as [t vs vs' F| | |rho B f rho' B' U OK I E|rho rho' pre fv g gt gv ge tl f1 ft1 fv1 gv1 ge' rb B' vs r2 W UE OKG NG G1 FD1 GL SL2 E].
    - constructor. revert vs vs' F. fix go 3. intros vs vs' F. destruct F as [|v v' vs vs' V F]; [constructor|]. constructor; [apply self; exact V|apply go; exact F].
    - constructor.
    - constructor.
    - assert (exists t xs e, find_def f B = Some (t, xs, e)) as (t & xs & e & FD).
      { clear -I. induction B as [h u ys a B IH|]; [|destruct I]. cbn [find_def]. destruct (Pos.eq_dec f h); [eauto|]. destruct I; [congruence|auto]. }
      destruct (uf_find _ _ U OK _ _ _ _ FD) as [(e' & FD' & _)|(pre & fv & g & gt & gv & ge & tl & f1 & ft1 & fv1 & gv1 & ge' & -> & _ & W & _ & FD' & _)].
      + econstructor; [exact FD|exact FD'|reflexivity].
      + econstructor; [exact FD|exact FD'|]. rewrite !app_length. destruct W as (_ & _ & _ & _ & W & _). unfold var in *. lia.
    - econstructor; cbn [find_def]; [destruct (Pos.eq_dec g g); [reflexivity|congruence]|destruct (Pos.eq_dec g g); [reflexivity|congruence]|].
      destruct W as (_ & _ & _ & W & _). symmetry. exact W.
  Qed.

  Lemma data_uv : forall v, data v -> uv v v.
  Proof.
    fix self 1. intros [t vs|rho B f|p|z] D; [|destruct D|constructor|constructor].
    constructor. cbn in D. revert vs D. fix go 1. intros [|v vs] D; constructor; [apply self; apply D|apply go; apply D].
  Qed.
End Sim.

Lemma same_data : forall v v', same_shape v v' -> data v -> v' = v.
Proof.
  fix self 3. intros v v' H. destruct H as [t vs vs' F| | |rho B f rho' B' t xs xs' e e' F1 F2 L]; [|reflexivity|reflexivity|intros []].
  intro D. f_equal. cbn in D. revert vs vs' F D. fix go 3. intros vs vs' F D. destruct F as [|v v' vs vs' V F]; [reflexivity|].
  f_equal; [apply self; [exact V|apply D]|apply go; [exact F|apply D]].
Qed.

Lemma same_trans : forall v1 v2, same_shape v1 v2 -> forall v3, same_shape v2 v3 -> same_shape v1 v3.
Proof.
  fix self 3. intros v1 v2 H. destruct H as [t vs vs' F| | |rho B f rho' B' t xs xs' e e' F1 F2 L]; intros v3 H2.
  - inversion H2 as [? ? vs2 F2| | |]; subst. constructor. clear H2. revert vs vs' F vs2 F2. fix go 3. intros vs vs' F vs2 F2.
    destruct F as [|v v' vs vs' V F]; inversion F2 as [|? v2 ? vs3 V2 F3]; subst; constructor; [eapply self; eauto|eapply go; eauto].
  - exact H2.
  - exact H2.
  - inversion H2 as [| | |? ? ? rho2 B2 t' ys ys' a a' A1 A2 L2]; subst. rewrite F2 in A1. apply Some_inj, pair3 in A1 as (-> & -> & ->).
    econstructor; [exact F1|exact A2|congruence].
Qed.
Lemma same_refl_data v : data v -> same_shape v v.
Proof. intro D. eapply uv_same. apply (data_uv (fun _ => False)). exact D. Qed.
