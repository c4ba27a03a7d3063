(** * Freshening gives the same program up to names, with every name bound once *)
From Coq Require Import ZArith NArith List Lia Bool.
From Verif Require Import ANF_Syntax ANF_Eval ANF_Spec ANF_EvalProofs ANF_FreeProofs ANF_Scope
  ANF_LR ANF_LRProofs ANF_Subst ANF_Alpha Inline_LetProofs FR_Model.
Import ListNotations.
Local Open Scope positive_scope.

(** ** New names *)
Lemma names_facts xs : forall n ys m, get_names_lst xs n = (ys, m) ->
  n <= m /\ length xs = length ys /\ NoDup ys /\ (forall y, In y ys -> n <= y < m).
Proof.
  induction xs as [|x xs IH]; intros n ys m E; cbn in E.
  - injection E as <- <-. split; [lia|split; [auto|split; [constructor|intros y []]]].
  - destruct (get_names_lst xs (n + 1)) as [ys1 m1] eqn:E1. injection E as <- <-.
    destruct (IH _ _ _ E1) as (L & LL & ND & B). split; [lia|split; [cbn; auto|split]].
    + constructor; auto. intro I. apply B in I. lia.
    + intros y [<-|I]; [lia|]. apply B in I. lia.
Qed.

Lemma map_apply_set xs : forall ys sg sg', NoDup xs -> set_lists xs ys sg = Some sg' -> map (apply_r sg') xs = ys.
Proof.
  induction xs as [|x xs IH]; intros [|y ys] sg sg' ND E; cbn in E; try discriminate; [reflexivity|].
  destruct (set_lists xs ys sg) as [s|] eqn:E1; [|discriminate]. injection E as <-. inversion ND; subst.
  cbn [map]. f_equal.
  - unfold apply_r. cbn. destruct (Pos.eq_dec x x); congruence.
  - rewrite <- (IH ys sg s) by auto. apply map_ext_in. intros a I. unfold apply_r. cbn.
    destruct (Pos.eq_dec a x); [subst; contradiction|reflexivity].
Qed.

(** what the relation and the renaming have to do with each other *)
Definition fits (F : var -> Prop) (R : vmap) (sg : subst) (n : var) : Prop :=
  forall a, F a -> R a (apply_r sg a) /\ apply_r sg a < n.

Lemma fits_later F R sg n m : fits F R sg n -> n <= m -> fits F R sg m.
Proof. intros H L a I. destruct (H a I). split; [auto|lia]. Qed.

Lemma fits_less (F G : var -> Prop) R sg n : fits F R sg n -> (forall a, G a -> F a) -> fits G R sg n.
Proof. intros H L a I. auto. Qed.

Lemma fits_set F (G : var -> Prop) R sg n x : fits F R sg n -> (forall a, G a -> a <> x -> F a) ->
  fits G (ext x n R) (set x n sg) (n + 1).
Proof.
  intros H L a Ga. unfold apply_r. cbn. destruct (Pos.eq_dec a x) as [->|N].
  - split; [left; auto|lia].
  - destruct (H a (L a Ga N)) as [H1 H2]. unfold apply_r in *. split; [|lia]. right. repeat split; auto.
    destruct (get a sg); lia.
Qed.

Lemma fits_sets F R sg n xs : fits F R sg n -> forall ys sg' m (G : var -> Prop),
  set_lists xs ys sg = Some sg' -> NoDup ys -> (forall y, In y ys -> n <= y < m) -> n <= m ->
  (forall a, G a -> ~ In a xs -> F a) ->
  fits G (exts xs ys R) sg' m /\ (forall a, In a xs -> In (apply_r sg' a) ys).
Proof.
  intros H. induction xs as [|x xs IH]; intros [|y ys] sg' m G E ND B L HG; cbn in E; try discriminate.
  - injection E as <-. split; [|intros a []]. eapply fits_later; [|exact L]. eapply fits_less; [exact H|]. auto.
  - destruct (set_lists xs ys sg) as [s|] eqn:E1; [|discriminate]. injection E as <-. inversion ND; subst.
    destruct (IH ys s m (fun a => G a /\ a <> x) E1) as [K1 K2]; auto.
    { intros z I. apply B. right. auto. }
    { intros a [Ga N] NI. apply HG; auto. intros [I|I]; [congruence|contradiction]. }
    assert (AP : forall a, apply_r (set x y s) a = if Pos.eq_dec a x then y else apply_r s a).
    { intro a. unfold apply_r. cbn. destruct (Pos.eq_dec a x); reflexivity. }
    split.
    + intros a Ga. rewrite AP. cbn [exts]. destruct (Pos.eq_dec a x) as [->|N].
      * split; [left; auto|]. apply B. left. auto.
      * destruct (K1 a (conj Ga N)) as [K3 K4]. split; [|auto]. right. split; [auto|split; [|auto]].
        destruct (in_dec Pos.eq_dec a xs) as [I|I]; [intro E; apply K2 in I; congruence|].
        assert (Fa : F a) by (apply HG; auto; intros [J|J]; [congruence|contradiction]).
        unfold apply_r. rewrite (set_lists_not_In _ _ _ _ E1 I). fold (apply_r sg a).
        destruct (H a Fa) as [_ Lt]. destruct (B y (or_introl eq_refl)). lia.
    + intros a I. rewrite AP. destruct (Pos.eq_dec a x) as [->|N]; [left; auto|].
      right. apply K2. destruct I; [congruence|auto].
Qed.

Lemma Forall2_apply F R sg n ys : fits F R sg n -> (forall y, In y ys -> F y) -> Forall2 R ys (apply_r_list sg ys).
Proof.
  intros H I. unfold apply_r_list. induction ys as [|y ys IH]; cbn; constructor.
  - apply H. apply I. left. auto.
  - apply IH. intros z J. apply I. right. auto.
Qed.

Lemma freshen_fnames B : forall sg n, fnames (fst (freshen_fun B sg n)) = map (apply_r sg) (fnames B).
Proof.
  induction B as [f t xs e B IH|]; intros sg n; cbn; [|reflexivity].
  destruct (get_names_lst xs n) as [xs' n1] eqn:E.
  destruct (names_facts _ _ _ _ E) as (_ & LL & _ & _).
  destruct (set_lists_total xs xs' sg LL) as [sg' ES]. rewrite ES.
  destruct (freshen_term e sg' n1) as [e' n2]. specialize (IH sg n2).
  destruct (freshen_fun B sg n2) as [B' n3]. cbn in *. congruence.
Qed.

(** binding occurrences in a bundle besides the names of its own functions *)
Fixpoint bv_bodies (B : fundefs) : list var :=
  match B with
  | Fcons _ _ xs e B' => xs ++ bv e ++ bv_bodies B'
  | Fnil => []
  end.

Lemma bv_funs_split B : forall x, In x (bv_funs B) <-> In x (fnames B) \/ In x (bv_bodies B).
Proof.
  induction B as [f t xs e B IH|]; intro x; cbn; [|tauto]. rewrite !in_app_iff, IH. tauto.
Qed.

Lemma bv_funs_nodup B : NoDup (fnames B) -> NoDup (bv_bodies B) ->
  (forall x, In x (fnames B) -> ~ In x (bv_bodies B)) -> NoDup (bv_funs B).
Proof.
  induction B as [f t xs e B IH|]; cbn; intros N1 N2 D; [|constructor].
  inversion N1; subst. constructor.
  - rewrite !in_app_iff, bv_funs_split. specialize (D f (or_introl eq_refl)). rewrite !in_app_iff in D. tauto.
  - apply NoDup_app_iff in N2 as (A1 & A2 & A3). apply NoDup_app_iff in A2 as (A4 & A5 & A6).
    apply NoDup_app_iff. split; [auto|split].
    + apply NoDup_app_iff. split; [auto|split].
      * apply IH; auto. intros x I J. apply (D x); [auto|]. rewrite !in_app_iff. auto.
      * intros x I J. apply bv_funs_split in J as [J|J]; [|apply (A6 x); auto].
        apply (D x); [auto|]. rewrite !in_app_iff. auto.
    + intros x I J. rewrite in_app_iff in J. destruct J as [J|J]; [apply (A3 x); auto; rewrite in_app_iff; auto|].
      apply bv_funs_split in J as [J|J]; [|apply (A3 x); auto; rewrite in_app_iff; auto].
      apply (D x); [auto|]. rewrite !in_app_iff. auto.
Qed.

Definition distinct_funs (l : list fundefs) : Prop := forall B, In B l -> NoDup (fnames B).

Lemma distinct_app l1 l2 : distinct_funs (l1 ++ l2) -> distinct_funs l1 /\ distinct_funs l2.
Proof. intros H. split; intros B I; apply H; rewrite in_app_iff; auto. Qed.

Definition good_exp (e : exp) : Prop := forall sg n R e' m,
  distinct_funs (bundles e) -> fits (fun a => free a e) R sg n -> freshen_term e sg n = (e', m) ->
  n <= m /\ aeq R e e' /\ NoDup (bv e') /\ (forall x, In x (bv e') -> n <= x < m).

Definition good_funs (B : fundefs) : Prop := forall sg n R B' m,
  distinct_funs (bundles_funs B) -> fits (fun a => free_body a B) R sg n -> freshen_fun B sg n = (B', m) ->
  n <= m /\ aeq_funs R B B' /\ NoDup (bv_bodies B') /\ (forall x, In x (bv_bodies B') -> n <= x < m).

(** one binder *)
Lemma under_one e x n sg R (F : var -> Prop) e' m : good_exp e -> distinct_funs (bundles e) ->
  fits F R sg n -> (forall a, free a e -> a <> x -> F a) ->
  freshen_term e (set x n sg) (n + 1) = (e', m) ->
  n <= m /\ aeq (ext x n R) e e' /\ NoDup (n :: bv e') /\ (forall y, n = y \/ In y (bv e') -> n <= y < m).
Proof.
  intros G D H HF E. destruct (G (set x n sg) (n + 1) (ext x n R) e' m D) as (L & A & N & B); auto.
  { eapply fits_set; eauto. }
  split; [lia|split; [auto|split]].
  - constructor; auto. intro I. apply B in I. lia.
  - intros y [<-|I]; [lia|]. apply B in I. lia.
Qed.

Lemma freshen_ok : (forall e, good_exp e) /\ (forall B, good_funs B).
Proof.
  apply exp_fundefs_ind.
  - intros x t ys e IH sg n R e' m D H E. cbn in E.
    destruct (freshen_term e (set x n sg) (n + 1)) as [e1 m1] eqn:E1. injection E as <- <-.
    destruct (under_one e x n sg R _ e1 m1 IH D H) as (L & A & N & B); [cbn; tauto|exact E1|].
    split; [auto|split; [|split; auto]]. cbn. split; [auto|split; [|auto]].
    eapply Forall2_apply; [exact H|]. cbn. auto.
  - intros v cl F sg n R e' m D H E. cbn [freshen_term] in E.
    match type of E with context[let '(_, _) := ?f cl n in _] => set (al := f) in E end.
    destruct (al cl n) as [cl' m1] eqn:E1. injection E as <- <-.
    rewrite aeq_Ecase. cbn [bv].
    assert (K : n <= m1 /\ aeq_cl R cl cl' /\ NoDup (flat_map (fun p => bv (snd p)) cl')
                /\ (forall x, In x (flat_map (fun p => bv (snd p)) cl') -> n <= x < m1)).
    { assert (HC : forall p a, In p cl -> free a (snd p) -> free a (Ecase v cl)).
      { intros p a I Fa. cbn. right. clear - I Fa. induction cl as [|q cl IHc]; [destruct I|].
        destruct I as [<-|I]; [left; exact Fa|right; exact (IHc I)]. }
      assert (HD : forall p, In p cl -> distinct_funs (bundles (snd p))).
      { intros p I B J. apply D. cbn. apply in_flat_map. eauto. }
      assert (H' : fits (fun a => exists p, In p cl /\ free a (snd p)) R sg n).
      { eapply fits_less; [exact H|]. intros a (p & I & Fa). eauto. }
      clear H HC D. revert n cl' m1 H' E1. induction F as [|[t e] cl Hp F IHl]; intros n cl' m1 H' E1.
      - cbn in E1. injection E1 as <- <-. split; [lia|split; [constructor|split; [constructor|intros x []]]].
      - cbn in E1. destruct (freshen_term e sg n) as [e1 n1] eqn:Ee. fold al in E1.
        destruct (al cl n1) as [cl1 n2] eqn:El. injection E1 as <- <-.
        destruct (Hp sg n R e1 n1) as (L1 & A1 & N1 & B1); auto.
        { apply (HD (t, e)). left. auto. }
        { eapply fits_less; [exact H'|]. intros a Fa. exists (t, e). split; [left|]; auto. }
        destruct (IHl ltac:(intros p I; apply HD; right; auto) n1 cl1 n2) as (L2 & A2 & N2 & B2); auto.
        { eapply fits_later; [|exact L1]. eapply fits_less; [exact H'|]. intros a (p & I & Fa). exists p. split; [right|]; auto. }
        split; [lia|split; [constructor; auto|]]. cbn [flat_map snd]. split.
        + apply NoDup_app_iff. split; [auto|split; [auto|]]. intros x I J. apply B1 in I. apply B2 in J. lia.
        + intros x I. apply in_app_iff in I as [I|I]; [apply B1 in I|apply B2 in I]; lia. }
    destruct K as (L & A & N & B). split; [auto|split; [|auto]]. split; [|auto]. apply H. cbn. auto.
  - intros x t k y e IH sg n R e' m D H E. cbn in E.
    destruct (freshen_term e (set x n sg) (n + 1)) as [e1 m1] eqn:E1. injection E as <- <-.
    destruct (under_one e x n sg R _ e1 m1 IH D H) as (L & A & N & B); [cbn; tauto|exact E1|].
    split; [auto|split; [|split; auto]]. cbn. split; [auto|split; [auto|split; [|auto]]]. apply H. cbn. auto.
  - intros x f t ys e IH sg n R e' m D H E. cbn in E.
    destruct (freshen_term e (set x n sg) (n + 1)) as [e1 m1] eqn:E1. injection E as <- <-.
    destruct (under_one e x n sg R _ e1 m1 IH D H) as (L & A & N & B); [cbn; tauto|exact E1|].
    split; [auto|split; [|split; auto]]. cbn. split; [auto|split; [apply H; cbn; auto|split; [|auto]]].
    eapply Forall2_apply; [exact H|]. cbn. auto.
  - intros B e IHB IHe sg n R e' m D H E. cbn [freshen_term] in E. rewrite all_fun_name_fnames in E.
    destruct (get_names_lst (fnames B) n) as [fs n1] eqn:EN.
    destruct (names_facts _ _ _ _ EN) as (L1 & LL & ND & BN).
    destruct (set_lists_total (fnames B) fs sg LL) as [sg' ES]. rewrite ES in E.
    pose proof (freshen_fnames B sg' n1) as FN.
    destruct (freshen_fun B sg' n1) as [B1 n2] eqn:EB.
    destruct (freshen_term e sg' n2) as [e1 n3] eqn:Ee. injection E as <- <-. cbn [fst] in FN.
    cbn [bundles] in D.
    assert (DB : NoDup (fnames B)) by (apply D; left; auto).
    assert (D' : distinct_funs (bundles_funs B ++ bundles e)) by (intros X I; apply D; right; auto).
    apply distinct_app in D' as [D1 D2].
    rewrite (map_apply_set _ _ _ _ DB ES) in FN.
    destruct (fits_sets _ R sg n (fnames B) H fs sg' n1 (fun a => free a e \/ free_body a B) ES ND BN L1) as [HS _].
    { intros a Fa NI. cbn. tauto. }
    destruct (IHB sg' n1 (exts (fnames B) fs R) B1 n2 D1) as (L2 & A2 & N2 & BB2); [|exact EB|].
    { eapply fits_less; [exact HS|]. cbn. tauto. }
    destruct (IHe sg' n2 (exts (fnames B) fs R) e1 n3 D2) as (L3 & A3 & N3 & BB3); [|exact Ee|].
    { eapply fits_later; [|exact L2]. eapply fits_less; [exact HS|]. cbn. tauto. }
    split; [lia|split; [|split]].
    + cbn [aeq]. rewrite FN. auto.
    + cbn [bv]. apply NoDup_app_iff. split; [|split; [auto|]].
      * apply bv_funs_nodup; [rewrite FN; auto|auto|]. intros x I J. rewrite FN in I. apply BN in I. apply BB2 in J. lia.
      * intros x I J. apply BB3 in J. apply bv_funs_split in I as [I|I]; [rewrite FN in I; apply BN in I|apply BB2 in I]; lia.
    + cbn [bv]. intros x I. apply in_app_iff in I as [I|I]; [|apply BB3 in I; lia].
      apply bv_funs_split in I as [I|I]; [rewrite FN in I; apply BN in I|apply BB2 in I]; lia.
  - intros f t ys sg n R e' m D H E. cbn in E. injection E as <- <-.
    split; [lia|split; [|split; [constructor|intros x []]]]. cbn. split; [auto|split; [apply H; cbn; auto|]].
    eapply Forall2_apply; [exact H|]. cbn. auto.
  - intros x p e IH sg n R e' m D H E. cbn in E.
    destruct (freshen_term e (set x n sg) (n + 1)) as [e1 m1] eqn:E1. injection E as <- <-.
    destruct (under_one e x n sg R _ e1 m1 IH D H) as (L & A & N & B); [cbn; tauto|exact E1|].
    split; [auto|split; [|split; auto]]. cbn. auto.
  - intros x t ys e IH sg n R e' m D H E. cbn in E.
    destruct (freshen_term e (set x n sg) (n + 1)) as [e1 m1] eqn:E1. injection E as <- <-.
    destruct (under_one e x n sg R _ e1 m1 IH D H) as (L & A & N & B); [cbn; tauto|exact E1|].
    split; [auto|split; [|split; auto]]. cbn. split; [auto|split; [|auto]].
    eapply Forall2_apply; [exact H|]. cbn. auto.
  - intros x sg n R e' m D H E. cbn in E. injection E as <- <-.
    split; [lia|split; [|split; [constructor|intros y []]]]. cbn. apply H. reflexivity.
  - intros f t xs e B IHe IHB sg n R B' m D H E. cbn [freshen_fun] in E.
    destruct (get_names_lst xs n) as [xs' n1] eqn:EN.
    destruct (names_facts _ _ _ _ EN) as (L1 & LL & ND & BN).
    destruct (set_lists_total xs xs' sg LL) as [sg' ES]. rewrite ES in E.
    destruct (freshen_term e sg' n1) as [e1 n2] eqn:Ee.
    destruct (freshen_fun B sg n2) as [B1 n3] eqn:EB. injection E as <- <-.
    cbn [bundles_funs] in D. apply distinct_app in D as [D1 D2].
    destruct (fits_sets _ R sg n xs H xs' sg' n1 (fun a => free a e) ES ND BN L1) as [HS _].
    { intros a Fa NI. cbn. tauto. }
    destruct (IHe sg' n1 (exts xs xs' R) e1 n2 D1) as (L2 & A2 & N2 & BB2); [exact HS|exact Ee|].
    destruct (IHB sg n2 R B1 n3 D2) as (L3 & A3 & N3 & BB3); [|exact EB|].
    { eapply fits_later with (n := n); [|lia]. eapply fits_less; [exact H|]. cbn. tauto. }
    split; [lia|split; [|split]].
    + cbn. auto.
    + cbn. apply NoDup_app_iff. split; [auto|split].
      * apply NoDup_app_iff. split; [auto|split; [auto|]]. intros x I J. apply BB2 in I. apply BB3 in J. lia.
      * intros x I J. apply BN in I. apply in_app_iff in J as [J|J]; [apply BB2 in J|apply BB3 in J]; lia.
    + cbn. intros x I. rewrite !in_app_iff in I. destruct I as [I|[I|I]]; [apply BN in I|apply BB2 in I|apply BB3 in I]; lia.
  - intros sg n R B' m D H E. cbn in E. injection E as <- <-.
    split; [lia|split; [exact I|split; [constructor|intros x []]]].
Qed.

(** ** The free variables stay *)
Lemma exts_out xs1 : forall xs2 R a b, length xs1 = length xs2 -> ~ In b xs2 -> exts xs1 xs2 R a b ->
  ~ In a xs1 /\ R a b.
Proof.
  induction xs1 as [|x1 xs1 IH]; intros [|x2 xs2] R a b L N H; cbn in *; try discriminate; [auto|].
  destruct H as [[_ ->]|(N1 & _ & H)]; [tauto|].
  destruct (IH xs2 R a b) as [K1 K2]; [congruence|tauto|exact H|]. split; [|auto].
  intros [->|I]; tauto.
Qed.

Lemma Forall2_In_r A B (R : A -> B -> Prop) l1 l2 b : Forall2 R l1 l2 -> In b l2 -> exists a, R a b /\ In a l1.
Proof.
  induction 1 as [|x y l1 l2 Hxy F IH]; intros []; subst; [exists x; cbn; auto|].
  destruct IH as (a & K1 & K2); [auto|]. exists a. cbn. auto.
Qed.

Lemma aeq_free :
  (forall e1 (R : vmap) e2 b, aeq R e1 e2 -> free b e2 -> exists a, R a b /\ free a e1) /\
  (forall B1 (R : vmap) B2 b, aeq_funs R B1 B2 -> free_body b B2 -> exists a, R a b /\ free_body a B1).
Proof.
  assert (X : forall e x1 x2 (R : vmap) e2 b,
    (forall (R : vmap) e2 b, aeq R e e2 -> free b e2 -> exists a, R a b /\ free a e) ->
    aeq (ext x1 x2 R) e e2 -> b <> x2 -> free b e2 -> exists a, R a b /\ a <> x1 /\ free a e).
  { intros e x1 x2 R e2 b IH A N Fb. destruct (IH _ _ _ A Fb) as (a & [[_ ->]|(N1 & _ & K)] & Fa); [tauto|eauto]. }
  apply exp_fundefs_ind.
  - intros x t ys e IH R [] b H Fb; cbn in *; try tauto. destruct H as (_ & H2 & H3).
    destruct Fb as [I|[N Fb]]; [destruct (Forall2_In_r _ _ _ _ _ _ H2 I) as (a & ? & ?)|destruct (X _ _ _ _ _ _ IH H3 N Fb) as (a & ? & ? & ?)];
      exists a; auto.
  - intros x l F R [] b H Fb; try (cbn in H; tauto). apply aeq_Ecase in H as [H1 H2].
    cbn in Fb |- *. destruct Fb as [->|Fb]; [eauto|]. clear H1.
    cut (exists a, R a b /\ (fix go (cl : list (ctor_tag * exp)) : Prop :=
           match cl with [] => False | p :: cl' => free a (snd p) \/ go cl' end) l).
    { intros (a & ? & ?). exists a. auto. }
    revert l0 H2 Fb.
    induction F as [|p l Hp F IHl]; intros l0 H2 Fb; inversion H2 as [|? ? ? ? [K1 K2] K3]; subst; [destruct Fb|].
    destruct Fb as [Fb|Fb]; [destruct (Hp _ _ _ K2 Fb) as (a & ? & ?)|destruct (IHl _ K3 Fb) as (a & ? & ?)]; exists a; auto.
  - intros x t n y e IH R [] b H Fb; cbn in *; try tauto. destruct H as (_ & _ & H3 & H4).
    destruct Fb as [->|[N Fb]]; [eauto|]. destruct (X _ _ _ _ _ _ IH H4 N Fb) as (a & ? & ? & ?). exists a; auto.
  - intros x f t ys e IH R [] b H Fb; cbn in *; try tauto. destruct H as (_ & H2 & H3 & H4).
    destruct Fb as [->|[I|[N Fb]]]; [eauto|destruct (Forall2_In_r _ _ _ _ _ _ H3 I) as (a & ? & ?)
      |destruct (X _ _ _ _ _ _ IH H4 N Fb) as (a & ? & ? & ?)]; exists a; auto.
  - intros B e IHB IHe R [] b H Fb; cbn in *; try tauto. destruct H as (H1 & H2 & H3). destruct Fb as [N [Fb|Fb]].
    + destruct (IHe _ _ _ H3 Fb) as (a & K & Fa). destruct (exts_out _ _ _ _ _ H1 N K). exists a. auto.
    + destruct (IHB _ _ _ H2 Fb) as (a & K & Fa). destruct (exts_out _ _ _ _ _ H1 N K). exists a. auto.
  - intros f t ys R [] b H Fb; cbn in *; try tauto. destruct H as (_ & H2 & H3).
    destruct Fb as [->|I]; [eauto|]. destruct (Forall2_In_r _ _ _ _ _ _ H3 I) as (a & ? & ?). exists a; auto.
  - intros x p e IH R [] b H Fb; cbn in *; try tauto. destruct H as (_ & H2). destruct Fb as [N Fb].
    destruct (X _ _ _ _ _ _ IH H2 N Fb) as (a & ? & ? & ?). exists a; auto.
  - intros x p ys e IH R [] b H Fb; cbn in *; try tauto. destruct H as (_ & H2 & H3).
    destruct Fb as [I|[N Fb]]; [destruct (Forall2_In_r _ _ _ _ _ _ H2 I) as (a & ? & ?)|destruct (X _ _ _ _ _ _ IH H3 N Fb) as (a & ? & ? & ?)];
      exists a; auto.
  - intros x R [] b H Fb; cbn in *; try tauto. subst. eauto.
  - intros f t xs e B IHe IHB R [] b H Fb; cbn in *; try tauto. destruct H as (_ & H2 & H3 & H4).
    destruct Fb as [[N Fb]|Fb]; [|destruct (IHB _ _ _ H4 Fb) as (a & ? & ?); exists a; auto].
    destruct (IHe _ _ _ H3 Fb) as (a & K & Fa). destruct (exts_out _ _ _ _ _ H2 N K). exists a. auto.
  - intros R [] b H Fb; cbn in *; tauto.
Qed.

Definition same_names (e : exp) : vmap := fun a b => free a e /\ b = a.

Lemma freshen_top_ok e n e' m : (forall x, free x e -> x < n) -> (forall B, In B (bundles e) -> NoDup (fnames B)) ->
  freshen_top e n = (e', m) ->
  n <= m /\ aeq (same_names e) e e' /\ NoDup (bv e') /\ (forall x, In x (bv e') -> n <= x < m) /\
  (forall x, free x e' <-> free x e).
Proof.
  intros HF HD E. destruct (proj1 freshen_ok e [] n (same_names e) e' m HD) as (L & A & N & B); [|exact E|].
  { intros a Fa. unfold apply_r. cbn. split; [split; auto|auto]. }
  split; [auto|split; [auto|split; [auto|split; [auto|]]]].
  intro x. split; intro Fx.
  - destruct (proj1 aeq_free _ _ _ _ A Fx) as (a & [Fa ->] & _). exact Fa.
  - apply (proj1 aeq_sym) in A.
    destruct (proj1 aeq_free _ _ _ _ A Fx) as (a & [_ ->] & Fa). exact Fa.
Qed.

Lemma freshen_sem cenv rho e e' : aeq (same_names e) e e' ->
  (forall c r, bstep_fuel cenv rho e c r -> exists r', bstep_fuel cenv rho e' c r' /\ same_res cenv r r') /\
  (forall c r', bstep_fuel cenv rho e' c r' -> exists r, bstep_fuel cenv rho e c r /\ same_res cenv r' r).
Proof.
  intros A. split; apply erel_eqc_all; intro k.
  - eapply (proj1 (aeq_sem cenv eqc eqc_step eqc_let eq_refl)); [exact A|].
    intros a b [Fa ->] v G. exists v. split; auto. apply vrel_refl_eqc.
  - eapply (proj1 (aeq_sem cenv eqc eqc_step eqc_let eq_refl)); [apply (proj1 aeq_sym); exact A|].
    intros a b [Fa ->] v G. exists v. split; auto. apply vrel_refl_eqc.
Qed.
