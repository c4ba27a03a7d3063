(** * Hoisting: result shape and preservation of evaluation *)
From Coq Require Import ZArith NArith List Lia Bool Permutation.
From Verif Require Import ANF_Syntax ANF_Eval ANF_Spec ANF_Scope ANF_EvalProofs
  ANF_FreeProofs Hoist_Model Hoist_Spec.
Import ListNotations.

(** ** The continuation-passing pass in direct style *)
Fixpoint hf (e : exp) (acc : fundefs) : fundefs :=
  match e with
  | Econstr _ _ _ e => hf e acc
  | Ecase _ cl => fold_right (fun p a => hf (snd p) a) acc cl
  | Eproj _ _ _ _ e => hf e acc
  | Eletapp _ _ _ _ e => hf e acc
  | Efun B e => hf_funs B (hf e acc)
  | Eapp _ _ _ => acc
  | Eprim_val _ _ e => hf e acc
  | Eprim _ _ _ e => hf e acc
  | Ehalt _ => acc
  end
with hf_funs (B : fundefs) (acc : fundefs) : fundefs :=
  match B with
  | Fcons g t xs e B' => Fcons g t xs (strip e) (hf e (hf_funs B' acc))
  | Fnil => acc
  end.

Lemma erase_direct :
  (forall e defs f, erase_fundefs e defs f = f (strip e, hf e defs, depth e)) /\
  (forall B e hdefs f,
     erase_nested_fundefs B e hdefs f = f (e, hf_funs B hdefs, depth_funs B)).
Proof.
  apply exp_fundefs_ind.
  - intros x t ys e IH defs f. cbn. rewrite IH. reflexivity.
  - intros x l F defs f. cbn [erase_fundefs strip hf depth].
    match goal with |- context [fold_left ?g l f] => set (G := g) end.
    assert (A : forall l f tes acc n,
      Forall (fun p => forall defs f, erase_fundefs (snd p) defs f =
                  f (strip (snd p), hf (snd p) defs, depth (snd p))) l ->
      fold_left G l f (Ecase x tes, acc, n) =
      f (Ecase x (List.map (fun p => (fst p, strip (snd p))) l ++ tes),
         fold_right (fun p a => hf (snd p) a) acc l,
         max n (lmax (List.map (fun p => depth (snd p)) l)))).
    { clear F l f defs. induction l as [|[c e] l IH]; intros f tes acc n F.
      - cbn. rewrite Nat.max_0_r. reflexivity.
      - inversion F as [|? ? Fa Fl]; subst. cbn [fold_left].
        rewrite IH by exact Fl. unfold G at 1. cbn [snd] in Fa. rewrite Fa.
        cbn [List.map app fst snd fold_right lmax]. 
        replace (max (max n (lmax (List.map (fun p => depth (snd p)) l))) (depth e))
          with (max n (max (depth e) (lmax (List.map (fun p => depth (snd p)) l)))) by lia.
        reflexivity. }
    rewrite A by exact F. rewrite app_nil_r. reflexivity.
  - intros x t n y e IH defs f. cbn. rewrite IH. reflexivity.
  - intros x g t ys e IH defs f. cbn. rewrite IH. reflexivity.
  - intros B e IHB IHe defs f. cbn. rewrite IHe, IHB. reflexivity.
  - reflexivity.
  - intros x p e IH defs f. cbn. rewrite IH. reflexivity.
  - intros x p ys e IH defs f. cbn. rewrite IH. reflexivity.
  - reflexivity.
  - intros g t xs e B IHe IHB e0 hdefs f. cbn. rewrite IHB, IHe.
    rewrite Nat.max_comm. reflexivity.
  - reflexivity.
Qed.

Definition hoisted (e : exp) : fundefs := hf e Fnil.

Lemma exp_hoist_direct e :
  exp_hoist e =
  (match hoisted e with Fnil => strip e | _ => Efun (hoisted e) (strip e) end, depth e).
Proof.
  unfold exp_hoist, hoisted. rewrite (proj1 erase_direct).
  destruct (hf e Fnil); reflexivity.
Qed.

(** ** Shape *)
Lemma strip_nofun : forall e, nofun (strip e).
Proof.
  apply (exp_ind2 (fun e => nofun (strip e)) (fun _ => True)); cbn; auto.
  intros x l F. induction F; cbn; auto.
Qed.

Lemma flist_hf :
  (forall e acc, Permutation (flist (hf e acc))
                   (List.map strip_def (defs_of e) ++ flist acc)) /\
  (forall B acc, Permutation (flist (hf_funs B acc))
                   (List.map strip_def (defs_of_funs B) ++ flist acc)).
Proof.
  apply exp_fundefs_ind; cbn; auto.
  - intros x l F acc. induction F as [|p l Hp F IH]; cbn; auto.
    rewrite Hp, map_app, <- app_assoc. apply Permutation_app_head. exact IH.
  - intros B e IHB IHe acc. rewrite IHB, IHe, map_app, <- app_assoc. auto.
  - intros f t xs e B IHe IHB acc. apply perm_skip.
    rewrite IHe, IHB, map_app, <- app_assoc. auto.
Qed.

Lemma bv_split :
  (forall e, Permutation (bv e) (List.map fname (defs_of e) ++ bvl e)) /\
  (forall B, Permutation (bv_funs B) (List.map fname (defs_of_funs B) ++ bvl_funs B)).
Proof.
  assert (C : forall (x : var) l a b, Permutation l (a ++ b) -> Permutation (x :: l) (a ++ x :: b)).
  { intros x l a b H. rewrite H. apply Permutation_middle. }
  assert (D : forall (l1 l2 a1 a2 b1 b2 : list var),
    Permutation l1 (a1 ++ b1) -> Permutation l2 (a2 ++ b2) ->
    Permutation (l1 ++ l2) ((a1 ++ a2) ++ b1 ++ b2)).
  { intros. rewrite H, H0. rewrite <- !app_assoc. apply Permutation_app_head.
    rewrite !app_assoc. apply Permutation_app_tail. apply Permutation_app_comm. }
  apply exp_fundefs_ind; cbn; auto.
  - intros x l F. induction F as [|p l Hp F IH]; cbn; auto.
    rewrite map_app. apply D; auto.
  - intros B e IHB IHe. rewrite map_app. apply D; auto.
  - intros f t xs e B IHe IHB. apply perm_skip. rewrite map_app.
    rewrite (D _ _ _ _ _ _ IHe IHB).
    apply Permutation_app_swap_app.
Qed.

Lemma map_fname_strip l : List.map fname (List.map strip_def l) = List.map fname l.
Proof.
  rewrite map_map. apply map_ext. intros [[[f t] xs] e]. reflexivity.
Qed.

Lemma fnames_flist B : fnames B = List.map fname (flist B).
Proof. induction B; cbn; congruence. Qed.

Lemma fnames_hoisted e : Permutation (fnames (hoisted e)) (List.map fname (defs_of e)).
Proof.
  rewrite fnames_flist. unfold hoisted. rewrite (proj1 flist_hf e Fnil).
  cbn. rewrite app_nil_r, map_fname_strip. auto.
Qed.

Lemma find_def_In f B t xs e : find_def f B = Some (t, xs, e) -> In (f, t, xs, e) (flist B).
Proof.
  induction B as [g t' ys b B IH|]; cbn; [|discriminate].
  destruct (Pos.eq_dec f g) as [->|]; intro H; [injection H as <- <- <-; auto|auto].
Qed.

Lemma In_find_def f B t xs e :
  NoDup (fnames B) -> In (f, t, xs, e) (flist B) -> find_def f B = Some (t, xs, e).
Proof.
  induction B as [g t' ys b B IH|]; cbn; [|tauto].
  intros ND [H|H].
  - injection H as -> -> -> ->. destruct (Pos.eq_dec f f); congruence.
  - inversion ND as [|? ? NI ND']; subst.
    destruct (Pos.eq_dec f g) as [->|]; [|auto].
    exfalso. apply NI. rewrite fnames_flist.
    apply (in_map fname) in H. exact H.
Qed.

Lemma flist_defs B d : In d (flist B) -> In d (defs_of_funs B).
Proof.
  induction B as [g t' ys b B IH|]; cbn; [|tauto].
  intros [H|H]; [auto|]. right. apply in_or_app. auto.
Qed.

Lemma In_lmax n l : In n l -> n <= lmax l.
Proof.
  unfold lmax. induction l as [|a l IH]; cbn [In fold_right]; [tauto|].
  intros [->|H]; [lia|]. apply IH in H. lia.
Qed.

(** a bundle of a program sees only the program *)
Definition covers (e0 : exp) (B : fundefs) : Prop :=
  incl (defs_of_funs B) (defs_of e0) /\ incl (bundles_funs B) (bundles e0) /\
  incl (bvl_funs B) (bvl e0) /\ depth_funs B <= depth e0.

Lemma bundles_covers :
  (forall e B, In B (bundles e) -> covers e B) /\
  (forall D B, In B (bundles_funs D) ->
     incl (defs_of_funs B) (defs_of_funs D) /\ incl (bundles_funs B) (bundles_funs D) /\
     incl (bvl_funs B) (bvl_funs D) /\ depth_funs B <= depth_funs D).
Proof.
  unfold covers.
  apply exp_fundefs_ind; cbn; try tauto.
  - intros x t ys e IH B I. destruct (IH B I) as (A1 & A2 & A3 & A4).
    repeat split; auto. apply incl_tl. auto.
  - intros x l F B I. apply in_flat_map in I as (p & Ip & I).
    rewrite Forall_forall in F. destruct (F p Ip B I) as (A1 & A2 & A3 & A4).
    repeat split.
    + intros d Id. apply in_flat_map. eauto.
    + intros d Id. apply in_flat_map. eauto.
    + intros d Id. apply in_flat_map. eauto.
    + etransitivity; [apply A4|]. apply In_lmax. apply in_map_iff. eauto.
  - intros x t n y e IH B I. destruct (IH B I) as (A1 & A2 & A3 & A4).
    repeat split; auto. apply incl_tl. auto.
  - intros x g t ys e IH B I. destruct (IH B I) as (A1 & A2 & A3 & A4).
    repeat split; auto. apply incl_tl. auto.
  - intros D e IHD IHe B [->|I].
    + repeat split; try (apply incl_appl, incl_refl).
      * apply incl_tl, incl_appl, incl_refl.
      * lia.
    + apply in_app_or in I as [I|I].
      * destruct (IHD B I) as (A1 & A2 & A3 & A4). repeat split.
        -- apply incl_appl. auto.
        -- apply incl_tl, incl_appl. auto.
        -- apply incl_appl. auto.
        -- lia.
      * destruct (IHe B I) as (A1 & A2 & A3 & A4). repeat split.
        -- apply incl_appr. auto.
        -- apply incl_tl, incl_appr. auto.
        -- apply incl_appr. auto.
        -- lia.
  - intros x p e IH B I. destruct (IH B I) as (A1 & A2 & A3 & A4).
    repeat split; auto. apply incl_tl. auto.
  - intros x p ys e IH B I. destruct (IH B I) as (A1 & A2 & A3 & A4).
    repeat split; auto. apply incl_tl. auto.
  - intros f t xs e D IHe IHD B I. apply in_app_or in I as [I|I].
    + destruct (IHe B I) as (A1 & A2 & A3 & A4). repeat split.
      * apply incl_tl, incl_appl. auto.
      * apply incl_appl. auto.
      * apply incl_appr, incl_appl. auto.
      * lia.
    + destruct (IHD B I) as (A1 & A2 & A3 & A4). repeat split.
      * apply incl_tl, incl_appr. auto.
      * apply incl_appr. auto.
      * apply incl_appr, incl_appr. auto.
      * lia.
Qed.

Lemma flist_parts D f t xs e : In (f, t, xs, e) (flist D) ->
  incl (bundles e) (bundles_funs D) /\ incl xs (bvl_funs D) /\
  incl (bvl e) (bvl_funs D) /\ depth e <= depth_funs D.
Proof.
  induction D as [g t' ys b D IH|]; cbn; [|tauto].
  intros [H|H].
  - injection H as -> -> -> ->. repeat split.
    + apply incl_appl, incl_refl.
    + apply incl_appl, incl_refl.
    + apply incl_appr, incl_appl, incl_refl.
    + lia.
  - destruct (IH H) as (A1 & A2 & A3 & A4). repeat split.
    + apply incl_appr. auto.
    + apply incl_appr, incl_appr. auto.
    + apply incl_appr, incl_appr. auto.
    + lia.
Qed.

(** ** Simulation *)
Fixpoint efdh (e : exp) : nat := match e with Efun _ e => S (efdh e) | _ => 0 end.

Lemma efdh_depth e : efdh e <= depth e.
Proof. induction e; cbn; lia. Qed.

Section SIM.
  Variables (cenv : ctor_env) (e0 : exp) (rho0 : env).
  Hypothesis Hh : hoistable e0.

  Let Ball := hoisted e0.
  Let N := List.map fname (defs_of e0).
  Let G := depth e0.
  Let hv := hval e0 Ball rho0.

  Let names_N f : In f (fnames Ball) <-> In f N.
  Proof.
    unfold Ball, N. split; apply Permutation_in; [|symmetry]; apply fnames_hoisted.
  Qed.

  Let nodup_Ball : NoDup (fnames Ball).
  Proof.
    apply (Permutation_NoDup (Permutation_sym (fnames_hoisted e0))).
    destruct Hh as [ND _]. apply (Permutation_NoDup (proj1 bv_split e0)) in ND.
    clear -ND. induction (List.map fname (defs_of e0)) as [|a l IH]; [constructor|].
    cbn in ND. inversion ND; subst. constructor; auto. intro. apply H1. apply in_or_app. auto.
  Qed.

  Let disj x : In x (bvl e0) -> ~ In x N.
  Proof.
    destruct Hh as [ND _]. apply (Permutation_NoDup (proj1 bv_split e0)) in ND.
    unfold N. clear -ND. intros I1 I2.
    induction (List.map fname (defs_of e0)) as [|a l IH]; [destruct I2|].
    cbn in ND. inversion ND; subst. destruct I2 as [->|I2]; [|auto].
    apply H1. apply in_or_app. auto.
  Qed.

  Definition wfIn (e : exp) : Prop :=
    incl (bundles e) (bundles e0) /\ (forall x, In x (bvl e) -> ~ In x N) /\ depth e <= G.

  Definition fbound (rho' : env) : Prop :=
    forall f, In f N -> get f rho' = Some (Vfun rho0 Ball f).

  Definition ok (e e' : exp) (rho' : env) (p : nat) : Prop :=
    (e' = strip e /\ wfIn e /\ fbound rho' /\ p = efdh e) \/ (e = e' /\ p = 0).

  Definition erel (e : exp) (rho rho' : env) : Prop :=
    forall x v, free x e -> get x rho = Some v ->
      exists v', get x rho' = Some v' /\ hv v v'.

  Definition hres (r r' : res val) : Prop :=
    match r, r' with
    | OOT, OOT => True
    | Res v, Res v' => hv v v'
    | _, _ => False
    end.

  Definition bound (c c' p : nat) (r : res val) : Prop :=
    match r with
    | OOT => c <= (1 + G) * c' + p
    | Res _ => c + G <= (1 + G) * c' + p
    end.

  Lemma ok_le e e' rho' p : ok e e' rho' p -> p <= G.
  Proof.
    intros [(_ & (_ & _ & D) & _ & ->)|[_ ->]]; [|lia].
    pose proof (efdh_depth e). lia.
  Qed.

  Lemma fbound_set rho' x v : fbound rho' -> ~ In x N -> fbound (set x v rho').
  Proof.
    intros F NI f I. rewrite get_set_other; [auto|]. intro; subst. auto.
  Qed.

  Lemma fbound_set_lists xs vs rho' rho'' :
    fbound rho' -> (forall x, In x xs -> ~ In x N) ->
    set_lists xs vs rho' = Some rho'' -> fbound rho''.
  Proof.
    intros F NI E f I. erewrite set_lists_not_In; [apply F; exact I|exact E|].
    intro X. exact (NI _ X I).
  Qed.

  (** binders *)
  Ltac okbind :=
    intros [(-> & (W1 & W2 & W3) & F & ->)|[<- ->]];
    [ eexists; split; [reflexivity|]; split; [reflexivity|];
      intros v; eexists; left;
      split; [reflexivity|]; split;
      [ split; [exact W1|]; split; [intros z I; apply W2; right; exact I|exact W3]
      | split; [apply fbound_set; [exact F|apply W2; left; reflexivity]|reflexivity] ]
    | eexists; split; [reflexivity|]; split; [reflexivity|]; intro v; exists 0; right; auto ].

  Lemma ok_constr x t ys e e' rho' p : ok (Econstr x t ys e) e' rho' p ->
    exists e1, e' = Econstr x t ys e1 /\ p = 0 /\
      forall v, exists p1, ok e e1 (set x v rho') p1.
  Proof. okbind. Qed.

  Lemma ok_proj x t n y e e' rho' p : ok (Eproj x t n y e) e' rho' p ->
    exists e1, e' = Eproj x t n y e1 /\ p = 0 /\
      forall v, exists p1, ok e e1 (set x v rho') p1.
  Proof. okbind. Qed.

  Lemma ok_letapp x f t ys e e' rho' p : ok (Eletapp x f t ys e) e' rho' p ->
    exists e1, e' = Eletapp x f t ys e1 /\ p = 0 /\
      forall v, exists p1, ok e e1 (set x v rho') p1.
  Proof. okbind. Qed.

  Lemma caseConsistent_strip cl t :
    caseConsistent_f cenv (List.map (fun p => (fst p, strip (snd p))) cl) t =
    caseConsistent_f cenv cl t.
  Proof.
    induction cl as [|[c e] cl IH]; cbn; [reflexivity|]. rewrite IH. reflexivity.
  Qed.

  Lemma findtag_strip cl t e : findtag cl t = Some e ->
    findtag (List.map (fun p => (fst p, strip (snd p))) cl) t = Some (strip e).
  Proof.
    induction cl as [|[c b] cl IH]; cbn [findtag List.map fst snd]; [discriminate|].
    destruct (Pos.eq_dec c t); intro H; [injection H as ->; reflexivity|auto].
  Qed.

  Lemma ok_case y cl e' rho' p t e : ok (Ecase y cl) e' rho' p ->
    findtag cl t = Some e ->
    exists cl1 e1 p1, e' = Ecase y cl1 /\ p = 0 /\
      caseConsistent_f cenv cl1 t = caseConsistent_f cenv cl t /\
      findtag cl1 t = Some e1 /\ ok e e1 rho' p1.
  Proof.
    intros [(-> & (W1 & W2 & W3) & F & ->)|[<- ->]] FT.
    - eexists _, _, _. split; [reflexivity|]. split; [reflexivity|].
      split; [apply caseConsistent_strip|]. split; [apply findtag_strip; eauto|].
      pose proof (findtag_In _ _ _ _ FT) as I.
      left. split; [reflexivity|]. split; [|auto]. split; [|split].
      + intros B IB. apply W1. cbn. apply in_flat_map. exists (t, e). auto.
      + intros x Ix. apply W2. cbn. apply in_flat_map. exists (t, e). auto.
      + etransitivity; [|exact W3]. cbn. apply In_lmax. apply in_map_iff. exists (t, e). auto.
    - exists cl, e, 0. repeat split; auto. right. auto.
  Qed.

  (** environments *)
  Lemma erel_get_list e rho rho' ys : forall vs, erel e rho rho' ->
    (forall y, In y ys -> free y e) -> get_list ys rho = Some vs ->
    exists vs', get_list ys rho' = Some vs' /\ Forall2 hv vs vs'.
  Proof.
    induction ys as [|y ys IH]; cbn; intros vs E I GL.
    - injection GL as <-. eauto.
    - destruct (get y rho) as [v|] eqn:E1; [|discriminate].
      destruct (get_list ys rho) as [vs0|] eqn:E2; [|discriminate].
      injection GL as <-. destruct (E y v) as (v' & -> & V); auto.
      destruct (IH vs0) as (vs' & -> & VS); auto. eauto.
  Qed.

  Lemma erel_set e e1 rho rho' x v v' : erel e rho rho' ->
    (forall y, y <> x -> free y e1 -> free y e) -> hv v v' ->
    erel e1 (set x v rho) (set x v' rho').
  Proof.
    intros E I V y w F Gy. rewrite get_set in *. destruct (Pos.eq_dec y x) as [->|NE].
    - injection Gy as <-. eauto.
    - apply E; auto.
  Qed.

  Lemma set_lists_rel (P : var -> Prop) xs : forall vs vs' rho rho' rho1,
    Forall2 hv vs vs' -> set_lists xs vs rho = Some rho1 ->
    (forall x v, ~ In x xs -> P x -> get x rho = Some v ->
       exists v', get x rho' = Some v' /\ hv v v') ->
    exists rho1', set_lists xs vs' rho' = Some rho1' /\
      (forall x v, P x -> get x rho1 = Some v ->
         exists v', get x rho1' = Some v' /\ hv v v').
  Proof.
    revert P. induction xs as [|x xs IH]; intros P vs vs' rho rho' rho1 V S E.
    - destruct vs; [|discriminate]. inversion V; subst. cbn in *. injection S as <-.
      exists rho'. split; auto.
    - destruct vs as [|v vs]; [discriminate|].
      inversion V as [|? v2 ? l2 V1 V2]; subst. cbn in *.
      destruct (set_lists xs vs rho) as [r|] eqn:S1; [|discriminate]. injection S as <-.
      destruct (IH (fun y => y <> x /\ P y) vs l2 rho rho' r) as (r2 & S2 & E2); auto.
      { intros y w NI [NE Py]. apply E; auto. intros [->|]; auto. }
      rewrite S2. eexists. split; [reflexivity|]. intros y w Py Gy.
      rewrite get_set in *. destruct (Pos.eq_dec y x) as [->|NE].
      + injection Gy as <-. eauto.
      + apply E2; auto.
  Qed.

  (** entering a function *)
  Lemma enter_rel v v' t vs vs' rho1 e :
    hv v v' -> Forall2 hv vs vs' -> enter v t vs = Some (rho1, e) ->
    exists rho1' e' p, enter v' t vs' = Some (rho1', e') /\
      ok e e' rho1' p /\ erel e rho1 rho1'.
  Proof.
    intros V VS E. apply enter_spec in E as (r1 & B & f & xs & -> & FD & SL).
    inversion V as [ | | | ? ? ? IB IF HX | ? r2 ? ? HX]; subst; clear V.
    - (* a function of the program *)
      pose proof (find_def_In _ _ _ _ _ FD) as IFD.
      destruct (proj1 bundles_covers _ _ IB) as (C1 & C2 & C3 & C4).
      destruct (flist_parts _ _ _ _ _ IFD) as (P1 & P2 & P3 & P4).
      pose proof (flist_defs _ _ IFD) as ID. apply C1 in ID.
      assert (FD' : find_def f Ball = Some (t, xs, strip e)).
      { apply In_find_def; [exact nodup_Ball|].
        apply (Permutation_in _ (Permutation_sym (proj1 flist_hf e0 Fnil))).
        cbn. rewrite app_nil_r. apply in_map_iff. eexists. split; [|exact ID]. reflexivity. }
      assert (XN : forall x, In x xs -> ~ In x N).
      { intros x I. apply disj. apply C3, P2. exact I. }
      destruct (set_lists_rel (fun x => free x e) xs vs vs' (def_funs B B r1 r1)
                  (def_funs Ball Ball rho0 rho0) rho1 VS SL) as (rho1' & SL' & ER).
      { intros x w NI F Gx. rewrite def_funs_get in Gx.
        destruct (in_dec Pos.eq_dec x (fnames B)) as [I|I].
        - injection Gx as <-. exists (Vfun rho0 Ball x). split.
          + rewrite def_funs_get.
            destruct (in_dec Pos.eq_dec x (fnames Ball)) as [|NI']; [reflexivity|].
            exfalso. apply NI', names_N. rewrite fnames_flist in I.
            apply in_map_iff in I as (d & <- & Id). apply in_map. apply C1, flist_defs, Id.
          + apply hval_in; auto.
        - assert (FF : free_funs x B).
          { split; [exact I|]. eapply find_def_free; eauto. }
          exists (Vfun rho0 Ball x). split.
          + rewrite def_funs_get.
            destruct (in_dec Pos.eq_dec x (fnames Ball)) as [|NI']; [reflexivity|].
            exfalso. apply NI', names_N. destruct Hh as (_ & _ & H3). eapply H3; eauto.
          + apply HX; auto. }
      exists rho1', (strip e), (efdh e). split; [apply enter_spec; eauto 10|].
      split; [|exact ER]. left. split; [reflexivity|]. split; [|split; [|reflexivity]].
      + split; [|split].
        * intros B' I. apply C2, P1, I.
        * intros x I. apply disj, C3, P3, I.
        * unfold G. lia.
      + eapply fbound_set_lists; [|exact XN|exact SL'].
        intros g I. rewrite def_funs_get.
        destruct (in_dec Pos.eq_dec g (fnames Ball)) as [|NI']; [reflexivity|].
        exfalso. apply NI', names_N. exact I.
    - (* a function from outside *)
      destruct (set_lists_rel (fun x => free x e) xs vs vs' (def_funs B B r1 r1)
                  (def_funs B B r2 r2) rho1 VS SL) as (rho1' & SL' & ER).
      { intros x w NI F Gx. rewrite def_funs_get in Gx |- *.
        destruct (in_dec Pos.eq_dec x (fnames B)) as [I|I].
        - injection Gx as <-. eexists. split; [reflexivity|]. apply hval_out. exact HX.
        - apply HX; auto. split; [exact I|]. eapply find_def_free; eauto. }
      exists rho1', e, 0. split; [apply enter_spec; eauto 10|].
      split; [|exact ER]. right. auto.
  Qed.

  Lemma hoist_sim :
    (forall rho e c r, bstep cenv rho e c r ->
       forall e' rho' p, ok e e' rho' p -> erel e rho rho' ->
       exists c' r', bstep_fuel cenv rho' e' c' r' /\ hres r r' /\
                     c' <= c + 1 /\ bound (c + 1) c' p r) /\
    (forall rho e c r, bstep_fuel cenv rho e c r ->
       forall e' rho' p, ok e e' rho' p -> erel e rho rho' ->
       exists c' r', bstep_fuel cenv rho' e' c' r' /\ hres r r' /\
                     c' <= c /\ bound c c' p r).
  Proof.
    assert (STEP : forall c c' p1 r, p1 <= G -> bound c c' p1 r -> bound (c + 1) (S c') 0 r).
    { intros c c' p1 r L. unfold bound. destruct r; rewrite Nat.mul_succ_r; lia. }
    apply bstep_mutind.
    - intros x t ys e rho vs r c GL _ IH e' rho' p O E.
      apply ok_constr in O as (e1 & -> & -> & O).
      destruct (erel_get_list _ _ _ ys vs E) as (vs' & GL' & VS); auto.
      { intros y I. left. exact I. }
      destruct (O (Vconstr t vs')) as (p1 & O1).
      destruct (IH _ _ _ O1) as (c' & r' & B & R & L & BD).
      { eapply erel_set; eauto; [|constructor; auto]. intros y NE F. right. auto. }
      exists (S c'), r'. split; [apply bstep_fuel_S; econstructor; eauto|].
      split; [exact R|]. split; [lia|]. eapply STEP; [eapply ok_le; exact O1|eassumption].
    - intros t vs rho x n y e v r c GY NT _ IH e' rho' p O E.
      apply ok_proj in O as (e1 & -> & -> & O).
      destruct (E y _ (or_introl eq_refl) GY) as (v' & GY' & V).
      inversion V as [? ? vs2 HV| | | |]; subst; clear V.
      destruct (Forall2_nthN _ _ _ _ _ HV _ _ NT) as (w & NT' & W).
      destruct (O w) as (p1 & O1).
      destruct (IH _ _ _ O1) as (c' & r' & B & R & L & BD).
      { eapply erel_set; eauto. intros z NE F. right. auto. }
      exists (S c'), r'. split; [apply bstep_fuel_S; econstructor; eauto|].
      split; [exact R|]. split; [lia|]. eapply STEP; [eapply ok_le; exact O1|eassumption].
    - intros y r e t cl vl rho c GY CC FT _ IH e' rho' p O E.
      destruct (E y _ (or_introl eq_refl) GY) as (v' & GY' & V).
      inversion V as [? ? vs2 HV| | | |]; subst; clear V.
      destruct (ok_case _ _ _ _ _ _ _ O FT) as (cl1 & e1 & p1 & -> & -> & CC' & FT' & O1).
      destruct (IH _ _ _ O1) as (c' & r' & B & R & L & BD).
      { intros z v F Gz. apply E; auto. apply free_Ecase. right.
        eapply free_case_In; eauto. apply findtag_In. eauto. }
      exists (S c'), r'. split.
      { apply bstep_fuel_S. eapply BStept_case; [exact GY'|congruence|exact FT'|exact B]. }
      split; [exact R|]. split; [lia|]. eapply STEP; [eapply ok_le; exact O1|eassumption].
    - intros rc fl f' vs xs e rho'' rho f t ys r c GF GL FD SL _ IH e' rho' p O E.
      assert (X : e' = Eapp f t ys /\ p = 0).
      { destruct O as [(-> & _ & _ & ->)|[<- ->]]; auto. }
      destruct X as [-> ->].
      destruct (E f _ (or_introl eq_refl) GF) as (v' & GF' & V).
      destruct (erel_get_list _ _ _ ys vs E) as (vs' & GL' & VS); auto.
      { intros y I. right. exact I. }
      destruct (enter_rel _ _ t _ _ rho'' e V VS) as (rho1' & e1 & p1 & EN & O1 & E1).
      { apply enter_spec. eauto 10. }
      destruct (IH _ _ _ O1 E1) as (c' & r' & B & R & L & BD).
      exists (S c'), r'. split; [apply bstep_fuel_S; eapply bstep_app_intro; eauto|].
      split; [exact R|]. split; [lia|]. eapply STEP; [eapply ok_le; exact O1|eassumption].
    - intros rc fl f' vs xs eb e rho'' rho x f t ys v r c1 c2 GF GL FD SL _ IH1 _ IH2
        e' rho' p O E.
      apply ok_letapp in O as (e1 & -> & -> & O).
      destruct (E f _ (or_introl eq_refl) GF) as (v' & GF' & V).
      destruct (erel_get_list _ _ _ ys vs E) as (vs' & GL' & VS); auto.
      { intros y I. right. left. exact I. }
      destruct (enter_rel _ _ t _ _ rho'' eb V VS) as (rho1' & eb1 & p1 & EN & O1 & E1).
      { apply enter_spec. eauto 10. }
      destruct (IH1 _ _ _ O1 E1) as (c1' & r1' & B1 & R1 & L1 & BD1).
      destruct r1' as [|w]; [contradiction|].
      destruct (O w) as (p2 & O2).
      destruct (IH2 _ _ _ O2) as (c2' & r' & B2 & R2 & L2 & BD2).
      { eapply erel_set; eauto. intros y NE F. right. right. auto. }
      exists (S (c1' + c2')), r'.
      split; [apply bstep_fuel_S; eapply bstep_letapp_intro; eauto|].
      split; [exact R2|]. split; [lia|].
      apply ok_le in O1, O2. unfold bound in *. 
      rewrite Nat.mul_succ_r, Nat.mul_add_distr_l. destruct r; lia.
    - intros rc fl f' vs xs eb e rho'' rho x f t ys c GF GL FD SL _ IH1 e' rho' p O E.
      apply ok_letapp in O as (e1 & -> & -> & O).
      destruct (E f _ (or_introl eq_refl) GF) as (v' & GF' & V).
      destruct (erel_get_list _ _ _ ys vs E) as (vs' & GL' & VS); auto.
      { intros y I. right. left. exact I. }
      destruct (enter_rel _ _ t _ _ rho'' eb V VS) as (rho1' & eb1 & p1 & EN & O1 & E1).
      { apply enter_spec. eauto 10. }
      destruct (IH1 _ _ _ O1 E1) as (c' & r1' & B1 & R1 & L1 & BD1).
      destruct r1' as [|w]; [|contradiction].
      exists (S c'), OOT.
      split; [apply bstep_fuel_S; eapply bstep_letapp_oot_intro; eauto|].
      split; [exact I|]. split; [lia|]. eapply STEP; [eapply ok_le; exact O1|eassumption].
    - intros rho B e r c _ IH e' rho' p O E.
      destruct O as [(-> & (W1 & W2 & W3) & F & ->)|[<- ->]].
      + destruct (IH (strip e) rho' (efdh e)) as (c' & r' & BS & R & L & BD).
        { left. split; [reflexivity|]. split; [|auto]. split; [|split].
          - intros B' I. apply W1. cbn. right. apply in_or_app. auto.
          - intros x I. apply W2. cbn. apply in_or_app. auto.
          - cbn in W3. lia. }
        { intros x v FX Gx. rewrite def_funs_get in Gx.
          destruct (in_dec Pos.eq_dec x (fnames B)) as [I|I].
          - injection Gx as <-. exists (Vfun rho0 Ball x). split.
            + apply F. rewrite fnames_flist in I.
              apply in_map_iff in I as (d & <- & Id). apply in_map.
              assert (IB : In B (bundles e0)) by (apply W1; left; reflexivity).
              apply (proj1 bundles_covers) in IB as (C1 & _). apply C1, flist_defs, Id.
            + apply hval_in; auto.
              { apply W1. left. reflexivity. }
              intros y w FF Gy.
              destruct (E y w) as (w' & Gw & HW); auto.
              { cbn. destruct FF. split; auto. }
              rewrite F in Gw; [injection Gw as <-; exact HW|].
              destruct Hh as (_ & _ & H3). apply (H3 B y); auto. apply W1. left. reflexivity.
          - apply E; auto. cbn. split; auto. }
        cbn [strip efdh].
        exists c', r'. split; [exact BS|]. split; [exact R|]. split; [lia|].
        unfold bound in *. destruct r; lia.
      + destruct (IH e (def_funs B B rho' rho') 0) as (c' & r' & BS & R & L & BD).
        { right. auto. }
        { intros x v FX Gx. rewrite def_funs_get in Gx |- *.
          destruct (in_dec Pos.eq_dec x (fnames B)) as [I|I].
          - injection Gx as <-. eexists. split; [reflexivity|]. apply hval_out.
            intros y w [FF1 FF2] Gy. apply E; auto. cbn. split; auto.
          - apply E; auto. cbn. split; auto. }
        exists (S c'), r'. split; [apply bstep_fuel_S; constructor; exact BS|].
        split; [exact R|]. split; [lia|]. eapply STEP; [|eauto]. lia.
    - intros x v rho Gx e' rho' p O E.
      assert (X : e' = Ehalt x /\ p = 0).
      { destruct O as [(-> & _ & _ & ->)|[<- ->]]; auto. }
      destruct X as [-> ->].
      destruct (E x v (eq_refl : free x (Ehalt x)) Gx) as (v' & Gx' & V).
      exists 1, (Res v'). split; [apply (bstep_fuel_S _ _ _ 0); constructor; auto|].
      split; [exact V|]. split; [lia|]. cbn. lia.
    - intros rho e c L e' rho' p O E. exists 0, OOT.
      split; [constructor; lia|]. split; [exact I|]. split; [lia|]. cbn. lia.
    - intros rho e r c _ IH e' rho' p O E. eapply IH; eauto.
  Qed.

  Lemma hv_refl : forall v, hv v v.
  Proof.
    apply val_ind2.
    - intros t vs F. constructor. induction F; constructor; auto.
    - intros rho B f F. apply hval_out. intros x v _ Gx. exists v. split; auto.
      exact (get_Forall _ (fun v => hv v v) _ _ _ F Gx).
    - constructor.
    - constructor.
  Qed.

  (** the whole program *)
  Lemma hoist_top c r :
    bstep_fuel cenv rho0 e0 c r ->
    exists c' r', bstep_fuel cenv rho0 (Efun Ball (strip e0)) (S c') r' /\ hres r r' /\
                  c' <= c /\ bound c c' (efdh e0) r.
  Proof.
    intro B.
    assert (FB : fbound (def_funs Ball Ball rho0 rho0)).
    { intros f I. rewrite def_funs_get.
      destruct (in_dec Pos.eq_dec f (fnames Ball)) as [|NI]; [reflexivity|].
      exfalso. apply NI, names_N, I. }
    destruct (proj2 hoist_sim _ _ _ _ B (strip e0) (def_funs Ball Ball rho0 rho0) (efdh e0))
      as (c' & r' & B' & R & L & BD).
    - left. split; [reflexivity|]. split; [|auto]. split; [apply incl_refl|]. split; [exact disj|].
      unfold G. lia.
    - intros x v F Gx. rewrite def_funs_get.
      destruct (in_dec Pos.eq_dec x (fnames Ball)) as [I|I].
      + exfalso. destruct Hh as (_ & H2 & _). apply (H2 x F).
        apply (Permutation_in _ (Permutation_sym (proj1 bv_split e0))).
        apply in_or_app. left. apply names_N. exact I.
      + exists v. split; auto. apply hv_refl.
    - exists c', r'. split; [apply bstep_fuel_S; constructor; exact B'|]. auto.
  Qed.

  Lemma hoist_top_nil c r :
    Ball = Fnil ->
    bstep_fuel cenv rho0 e0 c r ->
    exists c' r', bstep_fuel cenv rho0 (strip e0) c' r' /\ hres r r' /\
                  c' <= c /\ bound c c' (efdh e0) r.
  Proof.
    intros EB B.
    destruct (hoist_top c r B) as (c' & r' & B' & R & L & BD).
    exists c', r'. split; [|auto]. rewrite EB in B'. apply bstep_fuel_inv in B'.
    destruct B' as [[? _]|(k & EK & B')]; [discriminate|]. injection EK as <-.
    inversion B'; subst. assumption.
  Qed.

  Lemma hval_data : forall v v', hv v v' -> data v -> v = v'.
  Proof.
    apply (val_ind2 (fun v1 => forall v2, hv v1 v2 -> data v1 -> v1 = v2)).
    - intros t vs F v2 V D. inversion V as [? ? vs2 HV| | | |]; subst. f_equal. cbn in D.
      clear V. revert vs2 HV D.
      induction F as [|a l Ha F IH]; intros l2 V D; inversion V; subst; auto.
      destruct D as [D1 D2]. f_equal; auto.
    - intros rho B f F v2 V D. destruct D.
    - intros p v2 V D. inversion V. auto.
    - intros z v2 V D. inversion V. auto.
  Qed.
End SIM.
