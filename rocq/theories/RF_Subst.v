(** * Substitution in terms and contexts *)
From Coq Require Import ZArith NArith List Lia Bool Arith Ascii String.
From Verif Require Import ANF_Syntax CG_Clight CG_Spec RF_Model RF_Spec.
Import ListNotations.
Local Open Scope nat_scope.

Section Ind.
  Variable P : cterm -> Prop.
  Hypothesis Hrel : forall n, P (cRel n).
  Hypothesis Hind : forall i, P (cInd i).
  Hypothesis Hcon : forall i k, P (cConstruct i k).
  Hypothesis Hprim : forall p, P (cPrim p).
  Hypothesis Hlit : forall p w, P (cLit p w).
  Hypothesis Hconst : forall c, P (cConst c).
  Hypothesis Hlam : forall a b, P a -> P b -> P (cLambda a b).
  Hypothesis Hprod : forall a b, P a -> P b -> P (cProd a b).
  Hypothesis Happ : forall f l, P f -> Forall P l -> P (cApp f l).
  Fixpoint cterm_ind2 (t : cterm) : P t :=
    match t with
    | cRel n => Hrel n | cInd i => Hind i | cConstruct i k => Hcon i k | cPrim p => Hprim p
    | cLit p w => Hlit p w | cConst c => Hconst c
    | cLambda a b => Hlam a b (cterm_ind2 a) (cterm_ind2 b)
    | cProd a b => Hprod a b (cterm_ind2 a) (cterm_ind2 b)
    | cApp f l => Happ f l (cterm_ind2 f)
        ((fix go (l : list cterm) : Forall P l :=
            match l with [] => Forall_nil _ | t :: l' => Forall_cons _ (cterm_ind2 t) (go l') end) l)
    end.
End Ind.

Lemma go_forall (P : cterm -> Prop) l :
  (fix go (l : list cterm) : Prop := match l with [] => True | t :: l' => P t /\ go l' end) l <-> Forall P l.
Proof. induction l as [|t l IH]; [split; auto|]. rewrite IH. split; [intros [A B]; auto|intro H; inversion H; auto]. Qed.

Lemma vars_in_app lo hi k f l : vars_in lo hi k (cApp f l) <-> vars_in lo hi k f /\ Forall (vars_in lo hi k) l.
Proof. cbn [vars_in]. rewrite (go_forall (vars_in lo hi k)). reflexivity. Qed.

Lemma map_same {A} (f g : A -> A) l : Forall (fun x => f x = g x) l -> map f l = map g l.
Proof. induction 1; cbn [map]; congruence. Qed.

Ltac cases := repeat match goal with
  | |- context [?a <? ?b] => destruct (Nat.ltb_spec a b)
  end.


(** lifting twice *)
Lemma lift_lift : forall u j i k b, b <= i <= b + k -> lift j i (lift k b u) = lift (k + j) b u.
Proof.
  intros u. induction u as [n|q1|q2 q3|q4|q5 q6|q7|a c IHa IHc|a c IHa IHc|f l IHf IHl] using cterm_ind2; intros j i k b L; cbn [lift]; auto.
  - cases; cbn [lift]; cases; try lia; try reflexivity. f_equal; lia.
  - rewrite IHa by lia. rewrite IHc by lia. reflexivity.
  - rewrite IHa by lia. rewrite IHc by lia. reflexivity.
  - rewrite IHf by lia. rewrite map_map. f_equal. apply map_ext_Forall. eapply Forall_impl; [|exact IHl]. intros x H. apply H. lia.
Qed.

Lemma lift_substl : forall b l j i k, i <= k -> lift j i (substl l k b) = substl l (k + j) (lift j i b).
Proof.
  intros b. induction b as [n|q1|q2 q3|q4|q5 q6|q7|a c IHa IHc|a c IHa IHc|f us IHf IHl] using cterm_ind2; intros l j i k L; cbn [lift substl]; auto.
  - destruct (Nat.ltb_spec n k) as [A|A].
    + cbn [lift]. destruct (Nat.ltb_spec n i); cbn [substl]; cases; try lia; reflexivity.
    + destruct (Nat.ltb_spec n i); [lia|]. cbn [substl]. destruct (Nat.ltb_spec (n + j) (k + j)); [lia|].
      replace (n + j - (k + j)) with (n - k) by lia. destruct (nth_error l (n - k)) as [u|] eqn:N.
      * rewrite lift_lift by lia. reflexivity.
      * apply nth_error_None in N. cbn [lift]. cases; [lia|]. f_equal; lia.
  - rewrite IHa, IHc by lia. reflexivity.
  - rewrite IHa, IHc by lia. reflexivity.
  - rewrite IHf by lia. rewrite !map_map. f_equal. apply map_ext_Forall. eapply Forall_impl; [|exact IHl]. intros x H. apply H. lia.
Qed.

Lemma substl_lift : forall u x n i j, i <= j <= i + n -> substl [x] j (lift (S n) i u) = lift n i u.
Proof.
  intros u. induction u as [m|q1|q2 q3|q4|q5 q6|q7|a c IHa IHc|a c IHa IHc|f us IHf IHl] using cterm_ind2; intros x n i j L; cbn [lift substl]; auto.
  - destruct (Nat.ltb_spec m i); cbn [substl]; cases; try lia; [reflexivity|].
    destruct (m + S n - j) as [|q] eqn:Q; [lia|]. cbn [nth_error]. destruct q; cbn [nth_error List.length]; f_equal; lia.
  - rewrite IHa, IHc by lia. reflexivity.
  - rewrite IHa, IHc by lia. reflexivity.
  - rewrite IHf by lia. rewrite !map_map. f_equal. apply map_ext_Forall. eapply Forall_impl; [|exact IHl]. intros y H. apply H. lia.
Qed.

(** substitutions commute *)
Lemma substl_substl : forall t l b k j, substl [substl l k b] j (substl l (k + 1 + j) t) = substl l (k + j) (substl [b] j t).
Proof.
  intros t. induction t as [m|q1|q2 q3|q4|q5 q6|q7|a c IHa IHc|a c IHa IHc|f us IHf IHl] using cterm_ind2; intros l b k j; auto.
  - cbn [substl]. destruct (Nat.ltb_spec m j) as [A|A].
    + destruct (Nat.ltb_spec m (k + 1 + j)); [|lia]. cbn [substl]. cases; try lia. reflexivity.
    + destruct (m - j) as [|q] eqn:Q.
      * cbn [nth_error]. replace m with j in * by lia. destruct (Nat.ltb_spec j (k + 1 + j)); [|lia]. cbn [substl].
        cases; try lia. rewrite Nat.sub_diag. cbn [nth_error]. apply lift_substl. lia.
      * assert (N0 : @nth_error cterm [b] (S q) = None) by (destruct q; reflexivity). rewrite N0. cbn [substl List.length].
        destruct (Nat.ltb_spec m (k + 1 + j)) as [B|B].
        -- cbn [substl]. destruct (Nat.ltb_spec m j); [lia|]. rewrite Q. assert (N1 : @nth_error cterm [substl l k b] (S q) = None) by (destruct q; reflexivity).
           rewrite N1. cbn [List.length]. destruct (Nat.ltb_spec (m - 1) (k + j)); [reflexivity|lia].
        -- destruct (Nat.ltb_spec (m - 1) (k + j)); [lia|]. replace (m - 1 - (k + j)) with (m - (k + 1 + j)) by lia.
           destruct (nth_error l (m - (k + 1 + j))) as [u|] eqn:N.
           ++ replace (k + 1 + j) with (S (k + j)) by lia. apply substl_lift. lia.
           ++ apply nth_error_None in N. cbn [substl]. destruct (Nat.ltb_spec (m - List.length l) j); [lia|].
              destruct (m - List.length l - j) as [|r] eqn:R; [lia|]. assert (N1 : @nth_error cterm [substl l k b] (S r) = None) by (destruct r; reflexivity).
              rewrite N1. cbn [List.length]. f_equal; lia.
  - cbn [substl]. rewrite IHa. f_equal. replace (S (k + 1 + j)) with (k + 1 + S j) by lia. replace (S (k + j)) with (k + S j) by lia. apply IHc.
  - cbn [substl]. rewrite IHa. f_equal. replace (S (k + 1 + j)) with (k + 1 + S j) by lia. replace (S (k + j)) with (k + S j) by lia. apply IHc.
  - cbn [substl]. rewrite IHf, !map_map. f_equal. apply map_ext_Forall. eapply Forall_impl; [|exact IHl]. intros x H. apply H.
Qed.

Lemma subst_tys_subst_tys ts : forall l b k j, subst_tys [substl l k b] j (subst_tys l (k + 1 + j) ts) = subst_tys l (k + j) (subst_tys [b] j ts).
Proof.
  induction ts as [|t ts IH]; intros l b k j; cbn [subst_tys]; [reflexivity|]. rewrite substl_substl. f_equal.
  replace (S (k + 1 + j)) with (k + 1 + S j) by lia. replace (S (k + j)) with (k + S j) by lia. apply IH.
Qed.

Lemma smash_subst ds : forall l k, smash (subst_ctx l k ds) = subst_tys l k (smash ds).
Proof.
  induction ds as [|[t|b t] r IH]; intros l k; cbn [subst_ctx smash subst_tys]; [reflexivity| |].
  - rewrite IH. reflexivity.
  - rewrite IH. pose proof (subst_tys_subst_tys (smash r) l b k 0) as H.
    replace (k + 1 + 0) with (S k) in H by lia. rewrite Nat.add_0_r in H. exact H.
Qed.

Lemma subst_tys_length ts : forall l k, List.length (subst_tys l k ts) = List.length ts.
Proof. induction ts; intros; cbn [subst_tys List.length]; auto. Qed.
Lemma subst_tys_nth ts : forall l k j, nth_error (subst_tys l k ts) j = option_map (substl l (k + j)) (nth_error ts j).
Proof.
  induction ts as [|t ts IH]; intros l k [|j]; cbn [subst_tys nth_error option_map]; auto; [rewrite Nat.add_0_r; reflexivity|].
  rewrite IH. replace (S k + j) with (k + S j) by lia. reflexivity.
Qed.

Lemma smash_length ds : List.length (smash ds) = arity ds.
Proof. induction ds as [|[t|b t] r IH]; cbn [smash arity List.length]; auto. rewrite subst_tys_length. exact IH. Qed.
Lemma arity_subst ds : forall l k, arity (subst_ctx l k ds) = arity ds.
Proof. induction ds as [|[t|b t] r IH]; intros; cbn [subst_ctx arity]; auto. Qed.

(** ** Closed terms *)
Lemma vars_in_weaken : forall t k, vars_in 0 0 k t -> forall k', k <= k' -> vars_in 0 0 k' t.
Proof.
  intros t. induction t as [m|q1|q2 q3|q4|q5 q6|q7|a c IHa IHc|a c IHa IHc|f us IHf IHl] using cterm_ind2; intros k V k' L; try exact I.
  - cbn [vars_in] in *. lia.
  - cbn [vars_in] in *. destruct V as [V1 V2]. split; [eapply IHa; eauto|eapply IHc; [exact V2|lia]].
  - cbn [vars_in] in *. destruct V as [V1 V2]. split; [eapply IHa; eauto|eapply IHc; [exact V2|lia]].
  - rewrite vars_in_app in *. destruct V as [V1 V2]. split; [eapply IHf; eauto|].
    apply Forall_forall. intros x I. rewrite Forall_forall in IHl, V2. eapply IHl; eauto.
Qed.
Lemma substl_closed : forall t l k, vars_in 0 0 k t -> substl l k t = t.
Proof.
  intros t. induction t as [m|q1|q2 q3|q4|q5 q6|q7|a c IHa IHc|a c IHa IHc|f us IHf IHl] using cterm_ind2; intros l k V; cbn [substl]; auto.
  - cbn [vars_in] in V. cases; [reflexivity|lia].
  - cbn [vars_in] in V. destruct V. rewrite IHa, IHc; auto.
  - cbn [vars_in] in V. destruct V. rewrite IHa, IHc; auto.
  - rewrite vars_in_app in V. destruct V as [V1 V2]. rewrite IHf by exact V1. f_equal.
    rewrite <- (map_id us) at 2. apply map_ext_Forall. rewrite Forall_forall in *. intros x I. apply IHl; auto.
Qed.
Lemma lift_closed : forall t n k, vars_in 0 0 k t -> lift n k t = t.
Proof.
  intros t. induction t as [m|q1|q2 q3|q4|q5 q6|q7|a c IHa IHc|a c IHa IHc|f us IHf IHl] using cterm_ind2; intros n k V; cbn [lift]; auto.
  - cbn [vars_in] in V. cases; [reflexivity|lia].
  - cbn [vars_in] in V. destruct V. rewrite IHa, IHc; auto.
  - cbn [vars_in] in V. destruct V. rewrite IHa, IHc; auto.
  - rewrite vars_in_app in V. destruct V as [V1 V2]. rewrite IHf by exact V1. f_equal.
    rewrite <- (map_id us) at 2. apply map_ext_Forall. rewrite Forall_forall in *. intros x I. apply IHl; auto.
Qed.

(** closed parameters for the variables of the parameters *)
Lemma vars_in_subst : forall t ps j k, Forall closed ps -> vars_in j (j + List.length ps) k t -> vars_in 0 0 k (substl ps (j + k) t).
Proof.
  intros t. induction t as [m|q1|q2 q3|q4|q5 q6|q7|a c IHa IHc|a c IHa IHc|f us IHf IHl] using cterm_ind2; intros ps j k C V; try exact I.
  - cbn [vars_in] in V. cbn [substl]. destruct (Nat.ltb_spec m (j + k)).
    + cbn [vars_in]. lia.
    + destruct (nth_error ps (m - (j + k))) as [u|] eqn:N.
      * rewrite Forall_forall in C. pose proof (C _ (nth_error_In _ _ N)) as Cu. rewrite lift_closed by exact Cu. eapply vars_in_weaken; [exact Cu|lia].
      * apply nth_error_None in N. lia.
  - cbn [vars_in substl] in *. destruct V. split; [auto|]. replace (S (j + k)) with (j + S k) by lia. auto.
  - cbn [vars_in substl] in *. destruct V. split; [auto|]. replace (S (j + k)) with (j + S k) by lia. auto.
  - cbn [substl]. rewrite vars_in_app in *. destruct V as [V1 V2]. split; [auto|]. rewrite Forall_map.
    rewrite Forall_forall in *. intros x I. apply IHl; auto. rewrite Forall_forall. exact C.
Qed.
