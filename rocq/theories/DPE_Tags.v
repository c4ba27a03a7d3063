(** * Dead-parameter elimination keeps function tags consistent with arities *)
From Coq Require Import ZArith NArith List Lia Bool.
From Verif Require Import ANF_Syntax ANF_Spec ANF_Scope ANF_FreeProofs DPE_Model DPE_Spec
  Hoist_Proofs DPE_Proofs.
Import ListNotations.

(** Specification: the table says that functions with tag [t] take [n] arguments. *)
Definition tagged (T : fun_env) (t : fun_tag) (n : nat) : Prop :=
  exists l, get t T = Some (N.of_nat n, l).

(** every definition and every call carries a tag with the right arity *)
Fixpoint tags_ok (T : fun_env) (e : exp) : Prop :=
  match e with
  | Econstr _ _ _ e => tags_ok T e
  | Ecase _ cl =>
      (fix go (cl : list (ctor_tag * exp)) : Prop :=
         match cl with [] => True | p :: cl' => tags_ok T (snd p) /\ go cl' end) cl
  | Eproj _ _ _ _ e => tags_ok T e
  | Eletapp _ _ t ys e => tagged T t (length ys) /\ tags_ok T e
  | Efun B e => tags_ok_funs T B /\ tags_ok T e
  | Eapp _ t ys => tagged T t (length ys)
  | Eprim_val _ _ e => tags_ok T e
  | Eprim _ _ _ e => tags_ok T e
  | Ehalt _ => True
  end
with tags_ok_funs (T : fun_env) (B : fundefs) : Prop :=
  match B with
  | Fcons _ t xs e B => tagged T t (length xs) /\ tags_ok T e /\ tags_ok_funs T B
  | Fnil => True
  end.

(** direct calls to functions of the bundle [B0] pass the right number of arguments *)
Definition call_ok (B0 : fundefs) (f : var) (ys : list var) : Prop :=
  forall t xs b, find_def f B0 = Some (t, xs, b) -> length ys = length xs.
Fixpoint calls_ok (B0 : fundefs) (e : exp) : Prop :=
  match e with
  | Econstr _ _ _ e => calls_ok B0 e
  | Ecase _ cl =>
      (fix go (cl : list (ctor_tag * exp)) : Prop :=
         match cl with [] => True | p :: cl' => calls_ok B0 (snd p) /\ go cl' end) cl
  | Eproj _ _ _ _ e => calls_ok B0 e
  | Eletapp _ f _ ys e => call_ok B0 f ys /\ calls_ok B0 e
  | Efun B e => calls_ok_funs B0 B /\ calls_ok B0 e
  | Eapp f _ ys => call_ok B0 f ys
  | Eprim_val _ _ e => calls_ok B0 e
  | Eprim _ _ _ e => calls_ok B0 e
  | Ehalt _ => True
  end
with calls_ok_funs (B0 : fundefs) (B : fundefs) : Prop :=
  match B with
  | Fcons _ _ _ e B => calls_ok B0 e /\ calls_ok_funs B0 B
  | Fnil => True
  end.

Definition fresh_state (c : tag_state) : Prop :=
  forall t, get t (fenv c) <> None -> (t < next_fun_tag c)%positive.

(** ** Proofs *)
Definition amap_ok (T : fun_env) (m : arityMap) : Prop :=
  forall n t, get (Pos.of_succ_nat n) m = Some t -> tagged T t n.

Lemma amap_set T m n t : amap_ok T m -> tagged T t n ->
  amap_ok T (set (Pos.of_succ_nat n) t m).
Proof.
  intros A H k u G. rewrite get_set in G.
  destruct (Pos.eq_dec (Pos.of_succ_nat k) (Pos.of_succ_nat n)) as [E|_]; [|auto].
  apply SuccNat2Pos.inj in E. injection G as <-. subst. exact H.
Qed.

Lemma arityMap_ok T :
  (forall e m, tags_ok T e -> amap_ok T m -> amap_ok T (make_arityMap e m)) /\
  (forall B m, tags_ok_funs T B -> amap_ok T m -> amap_ok T (make_arityMap_fundefs B m)).
Proof.
  apply exp_fundefs_ind; cbn [tags_ok tags_ok_funs make_arityMap make_arityMap_fundefs]; auto.
  - intros x l F. induction F as [|p l Hp F IH]; cbn [fold_left]; auto.
    intros m [H1 H2] A. apply IH; auto.
  - intros x f t ys e IH m [H1 H2] A. apply IH; auto. apply amap_set; auto.
  - intros B e IHB IHe m [H1 H2] A. auto.
  - intros f t ys m H A. apply amap_set; auto.
  - intros f t xs e B IHe IHB m (H1 & H2 & H3) A. apply IHB; auto. apply IHe; auto.
    apply amap_set; auto.
Qed.

Definition extends (T T' : fun_env) : Prop := forall t, get t T <> None -> get t T' = get t T.

Lemma tagged_ext T T' t n : extends T T' -> tagged T t n -> tagged T' t n.
Proof. intros E [l G]. exists l. rewrite E; congruence. Qed.

Lemma tags_ok_ext T T' : extends T T' ->
  (forall e, tags_ok T e -> tags_ok T' e) /\ (forall B, tags_ok_funs T B -> tags_ok_funs T' B).
Proof.
  intro E. pose proof (fun t n => tagged_ext T T' t n E) as X.
  apply exp_fundefs_ind; cbn [tags_ok tags_ok_funs]; auto; try (intuition; fail).
  intros x l F. induction F; intuition.
Qed.

Lemma create_ok L m : forall B c fm fm' c',
  create_fun_tag L m B c fm = (fm', c') -> fresh_state c -> amap_ok (fenv c) m ->
  NoDup (fnames B) ->
  extends (fenv c) (fenv c') /\ fresh_state c' /\
  (forall f, ~ In f (fnames B) -> get f fm' = get f fm) /\
  (forall f t xs b bs, In (f, t, xs, b) (flist B) -> get f L = Some bs ->
     exists u, get f fm' = Some u /\ tagged (fenv c') u (length (pick xs bs))).
Proof.
  induction B as [g t ys e B IH|]; intros c fm fm' c' H FR AM ND.
  2:{ cbn in H. injection H as <- <-. split; [intros t _; reflexivity|]. split; auto.
      split; auto. intros f t xs b bs []. }
  cbn [create_fun_tag fnames flist] in *. inversion ND as [|? ? NI ND']; subst.
  unfold get_fun_vars in H. destruct (get g L) as [bs|] eqn:G.
  - destruct (get (Pos.of_succ_nat (length (live_args ys bs))) m) as [u|] eqn:GM.
    + destruct (IH _ _ _ _ H FR AM ND') as (A1 & A2 & A3 & A4).
      split; auto. split; auto. split.
      * intros f NF. rewrite A3 by (intro; apply NF; right; auto).
        apply get_set_other. intro; subst. apply NF. left. reflexivity.
      * intros f t' xs b bs' [E|I] GL; [|eauto].
        injection E as <- <- <- <-. rewrite G in GL. injection GL as <-.
        exists u. split; [rewrite A3 by exact NI; apply get_set_same|].
        rewrite <- live_args_pick. eapply tagged_ext; eauto.
    + unfold make_ftag in H.
      set (c1 := {| next_fun_tag := (next_fun_tag c + 1)%positive; fenv := _ |}) in H.
      assert (NF : get (next_fun_tag c) (fenv c) = None).
      { destruct (get (next_fun_tag c) (fenv c)) eqn:E; [|reflexivity].
        assert (X : get (next_fun_tag c) (fenv c) <> None) by congruence.
        apply FR in X. lia. }
      assert (EX : extends (fenv c) (fenv c1)).
      { intros u Hu. cbn. destruct (Pos.eq_dec u (next_fun_tag c)); congruence. }
      destruct (IH _ _ _ _ H) as (A1 & A2 & A3 & A4); auto.
      * intros u Hu. cbn in Hu |- *. destruct (Pos.eq_dec u (next_fun_tag c)) as [->|].
        -- lia.
        -- apply FR in Hu. lia.
      * intros n u Hu. eapply tagged_ext; eauto.
      * split.
        { intros u Hu. rewrite A1; [apply EX; auto|]. rewrite (EX u Hu). exact Hu. }
        split; auto. split.
        -- intros f NF'. rewrite A3 by (intro; apply NF'; right; auto).
           apply get_set_other. intro; subst. apply NF'. left. reflexivity.
        -- intros f t' xs b bs' [E|I] GL; [|eauto].
           injection E as <- <- <- <-. rewrite G in GL. injection GL as <-.
           exists (next_fun_tag c). split; [rewrite A3 by exact NI; apply get_set_same|].
           eapply tagged_ext; [exact A1|]. eexists. cbn.
           destruct (Pos.eq_dec (next_fun_tag c) (next_fun_tag c)); [|congruence].
           rewrite live_args_pick. reflexivity.
  - destruct (IH _ _ _ _ H FR AM ND') as (A1 & A2 & A3 & A4).
    split; auto. split; auto. split.
    + intros f NF. apply A3. intro; apply NF; right; auto.
    + intros f t' xs b bs' [E|I] GL; [|eauto]. injection E as <- <- <- <-. congruence.
Qed.

Lemma pick_length A C (l1 : list A) (l2 : list C) : forall bs,
  length l1 = length l2 -> length (pick l1 bs) = length (pick l2 bs).
Proof.
  revert l2. induction l1 as [|a l1 IH]; intros [|b l2] bs E; try discriminate.
  - destruct bs; reflexivity.
  - injection E as E. destruct bs as [|[|] bs]; cbn; auto.
Qed.

Section ELIM.
  Variables (T : fun_env) (B0 : fundefs) (L : live_fun) (fm : ftagMap).
  Hypothesis ND : NoDup (fnames B0).
  Hypothesis dom : forall f bs, get f L = Some bs -> In f (fnames B0).
  Hypothesis fm_ok : forall f t xs b bs, In (f, t, xs, b) (flist B0) -> get f L = Some bs ->
     exists u, get f fm = Some u /\ tagged T u (length (pick xs bs)).

  Lemma call_tag f ys bs : call_ok B0 f ys -> get f L = Some bs ->
    tagged T (get_fun_tag fm f) (length (live_args ys bs)).
  Proof.
    intros C G. pose proof (dom _ _ G) as I. rewrite fnames_flist in I.
    apply in_map_iff in I as ([[[g t] xs] b] & E & I). cbn in E. subst g.
    destruct (fm_ok _ _ _ _ _ I G) as (u & GU & TU).
    unfold get_fun_tag. rewrite GU, live_args_pick.
    rewrite (pick_length _ _ ys xs bs); [exact TU|].
    eapply C. apply In_find_def; eauto.
  Qed.

  Lemma elim_tags : forall e, tags_ok T e -> calls_ok B0 e ->
    tags_ok T (eliminate_expr fm L e).
  Proof.
    apply (exp_ind2 (fun e => tags_ok T e -> calls_ok B0 e -> tags_ok T (eliminate_expr fm L e))
             (fun _ => True)); auto.
    - intros x l F. cbn [eliminate_expr tags_ok calls_ok].
      induction F as [|p l Hp F IH]; cbn [List.map snd]; auto.
      intros [H1 H2] [C1 C2]. split; [apply Hp; auto|apply IH; auto].
    - intros x f t ys e IH [H1 H2] [C1 C2]. cbn [eliminate_expr]. unfold get_fun_vars.
      destruct (get f L) as [bs|] eqn:G; cbn [tags_ok]; auto.
      split; auto. apply call_tag; auto.
    - intros f t ys H C. cbn [eliminate_expr]. unfold get_fun_vars.
      destruct (get f L) as [bs|] eqn:G; cbn [tags_ok]; auto. apply call_tag; auto.
  Qed.

  Lemma elim_tags_funs B : incl (flist B) (flist B0) ->
    tags_ok_funs T B -> calls_ok_funs B0 B -> tags_ok_funs T (eliminate_fundefs fm L B).
  Proof.
    induction B as [f t ys e B IH|]; cbn [eliminate_fundefs tags_ok_funs calls_ok_funs]; auto.
    intros IN (H1 & H2 & H3) [C1 C2].
    assert (IN' : incl (flist B) (flist B0)) by (intros d I; apply IN; right; exact I).
    unfold get_fun_vars. destruct (get f L) as [bs|] eqn:G; cbn [tags_ok_funs].
    - split; [|split; [apply elim_tags|]; auto].
      destruct (fm_ok f t ys e bs) as (u & GU & TU); auto.
      { apply IN. left. reflexivity. }
      unfold get_fun_tag. rewrite GU, live_args_pick. exact TU.
    - split; [auto|]. split; [apply elim_tags; auto|auto].
  Qed.
End ELIM.

Lemma DPE_tags e c e' c' :
  DPE e c = (e', c') ->
  (match e with Efun B _ => NoDup (fnames B) | _ => True end) ->
  tags_ok (fenv c) e -> fresh_state c ->
  (match e with Efun B _ => calls_ok B e | _ => True end) ->
  tags_ok (fenv c') e' /\ extends (fenv c) (fenv c') /\ fresh_state c'.
Proof.
  intros H ND TO FR CO. unfold DPE in H.
  assert (TR : forall T : fun_env, extends T T) by (intros T t _; reflexivity).
  destruct (is_hoisted e); [|injection H as <- <-; auto].
  destruct e; try (injection H as <- <-; auto).
  destruct (create_fun_tag (find_live (Efun f e)) (make_arityMap (Efun f e) []) f c [])
    as [fm c1] eqn:C. injection H as <- <-.
  assert (AM : amap_ok (fenv c) (make_arityMap (Efun f e) [])).
  { apply (proj1 (arityMap_ok (fenv c))); auto. intros n t G. discriminate. }
  destruct (create_ok _ _ _ _ _ _ _ C FR AM ND) as (A1 & A2 & A3 & A4).
  split; [|auto].
  apply (proj1 (tags_ok_ext _ _ A1)) in TO. cbn [tags_ok] in TO. destruct TO as [T1 T2].
  cbn [calls_ok] in CO. destruct CO as [C1 C2].
  assert (DOM : forall g bs, get g (find_live (Efun f e)) = Some bs -> In g (fnames f)).
  { intros g bs G. destruct (analysis_good f e ND) as [X _]. eapply X; eauto. }
  cbn [tags_ok]. split.
  - eapply elim_tags_funs; eauto. apply incl_refl.
  - eapply elim_tags; eauto.
Qed.
