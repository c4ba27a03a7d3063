(* Lambda lifting: free variables of the result. *)
From Coq Require Import List Arith NArith PArith Bool Lia.
From Verif Require Import ANF_Syntax ANF_Eval ANF_Spec ANF_Scope ANF_EvalProofs ANF_FreeProofs Comp_Model CC_Model CC_Spec CC_Proofs CC_Scope UC_Model LL_Model LL_Spec LL_Proofs LL_Sim LL_Top.
Import ListNotations.
Notation nv := lv_var.

(* [x] occurs free: as the head of a call (when [Q]) or elsewhere (when [P]) *)
Fixpoint occ (P Q : Prop) (x : var) (e : exp) : Prop :=
  match e with
  | Econstr y _ ys e => (P /\ In x ys) \/ (x <> y /\ occ P Q x e)
  | Ecase y cl =>
      (P /\ x = y) \/
      (fix go (cl : list (ctor_tag * exp)) : Prop :=
         match cl with [] => False | p :: cl' => occ P Q x (snd p) \/ go cl' end) cl
  | Eproj y _ _ z e => (P /\ x = z) \/ (x <> y /\ occ P Q x e)
  | Eletapp y f _ ys e => (Q /\ x = f) \/ (P /\ In x ys) \/ (x <> y /\ occ P Q x e)
  | Efun B e => ~ In x (fnames B) /\ (occ P Q x e \/ occ_body P Q x B)
  | Eapp f _ ys => (Q /\ x = f) \/ (P /\ In x ys)
  | Eprim_val y _ e => x <> y /\ occ P Q x e
  | Eprim y _ ys e => (P /\ In x ys) \/ (x <> y /\ occ P Q x e)
  | Ehalt y => P /\ x = y
  end
with occ_body (P Q : Prop) (x : var) (B : fundefs) : Prop :=
  match B with
  | Fcons _ _ ys e B' => (~ In x ys /\ occ P Q x e) \/ occ_body P Q x B'
  | Fnil => False
  end.
Fixpoint occ_case (P Q : Prop) (x : var) (cl : list (ctor_tag * exp)) : Prop :=
  match cl with [] => False | p :: cl' => occ P Q x (snd p) \/ occ_case P Q x cl' end.
Lemma occ_Ecase P Q x y l : occ P Q x (Ecase y l) <-> (P /\ x = y) \/ occ_case P Q x l.
Proof.
  cbn [occ]. match goal with |- _ \/ ?G l <-> _ => assert (E : G l <-> occ_case P Q x l) end.
  { induction l as [|p l IH]; cbn [occ_case]; [tauto|]. rewrite IH. tauto. }
  rewrite E. tauto.
Qed.

Lemma occ_mono (P Q P' Q' : Prop) x : (P -> P') -> (Q -> Q') ->
  (forall e, occ P Q x e -> occ P' Q' x e) /\ (forall B, occ_body P Q x B -> occ_body P' Q' x B).
Proof.
  intros HP HQ. apply exp_fundefs_ind; try (intros; cbn [occ occ_body] in *; tauto).
  intros y l F. rewrite !occ_Ecase. intros [[p E]|K]; [left; auto|right]. revert K. induction F as [|p l Hp _ IH]; cbn [occ_case]; tauto.
Qed.
Lemma occ_free P Q x : (forall e, occ P Q x e -> free x e) /\ (forall B, occ_body P Q x B -> free_body x B).
Proof.
  apply exp_fundefs_ind; try (intros; cbn [occ occ_body free free_body] in *; tauto).
  intros y l F. rewrite occ_Ecase, free_Ecase. intros [[p E]|K]; [left; auto|right]. revert K. induction F as [|p l Hp _ IH]; cbn [occ_case free_case]; tauto.
Qed.

Section Free.
  Variables max_args max_push : nat.
  Variable lift_dec : list var -> list var -> bool.
  Notation ll := (exp_lambda_lift max_args max_push lift_dec).
  Notation llf := (fundefs_lambda_lift max_args max_push lift_dec).

  (* every call of a lifted function is replaced *)
  Definition ALL : Prop := forall a s, lift_dec a s = true.
  Notation stays fm x := (ALL -> lifted fm x = None).
  Notation use fm x e := (occ True (stays fm x) x e).
  Notation use_body fm x B := (occ_body True (stays fm x) x B).
  Notation called h e := (occ False True h e).
  Notation called_body h B := (occ_body False True h B).

  (* ** The variables computed for a bundle *)
  Lemma call_fv_sound2 fm f sc fvset x : In x (call_fv lift_dec fm f sc fvset) ->
    In x fvset \/ (~ In x sc /\ x = f /\ stays fm x) \/ reaches fm (fun h => h = f) x.
  Proof.
    unfold call_fv. intro I.
    assert (ADD : In x (if mem f sc then fvset else sadd f fvset) -> In x fvset \/ ~ In x sc /\ x = f).
    { destruct (mem f sc) eqn:E; [auto|]. rewrite sadd_In. apply mem_not_In in E. intros [->|]; auto. }
    destruct (get f fm) as [[f' ft' fvs sfvs lfvs|? ?]|] eqn:E; [destruct (lift_dec lfvs fvset) eqn:LD| |].
    - apply union_list_In in I. destruct I as [I|I]; [auto|]. right. right. exists f, f', ft', lfvs. split; [reflexivity|].
      split; [eapply lifted_get; eauto|]. destruct I as [<-|I]; auto.
    - apply ADD in I as [I|[I ->]]; [auto|]. right. left. split; [exact I|]. split; [reflexivity|]. intro A. rewrite A in LD. discriminate.
    - apply ADD in I as [I|[I ->]]; [auto|]. right. left. split; [exact I|]. split; [reflexivity|]. intros _. unfold lifted. rewrite E. reflexivity.
    - apply ADD in I as [I|[I ->]]; [auto|]. right. left. split; [exact I|]. split; [reflexivity|]. intros _. unfold lifted. rewrite E. reflexivity.
  Qed.
  Lemma ADD : forall y scope s x, In x (if mem y scope then s else sadd y s) <-> In x s \/ (~ In x scope /\ x = y).
  Proof.
    intros y scope s x. destruct (mem y scope) eqn:E.
    - apply mem_In in E. split; [auto|]. intros [|[N ->]]; tauto.
    - apply mem_not_In in E. rewrite sadd_In. split; [intros [->|]; auto|]. intros [|[N ->]]; auto.
  Qed.
  Lemma true_fv_sound2 fm :
    (forall e sc fvset x, (forall y, In y (bv e) -> get y fm = None) -> In x (exp_true_fv_aux lift_dec fm e sc fvset) ->
       In x fvset \/ (~ In x sc /\ use fm x e) \/ reaches fm (fun h => called h e) x) /\
    (forall B sc fvset, (forall y, In y (bv_funs B) -> get y fm = None) ->
       (forall x, In x (fst (fundefs_true_fv_aux lift_dec fm B sc fvset)) <-> In x sc \/ In x (fnames B)) /\
       (forall x, In x (snd (fundefs_true_fv_aux lift_dec fm B sc fvset)) ->
          In x fvset \/ (~ In x sc /\ ~ In x (fnames B) /\ use_body fm x B) \/ reaches fm (fun h => called_body h B) x)).
  Proof.
    apply exp_fundefs_ind.
    - intros y t ys e IH sc fvset x D I. cbn [exp_true_fv_aux] in I. cbn [bv] in D. apply IH in I; [|intros z J; apply D; right; exact J].
      rewrite add_list_In, sadd_In in I. destruct I as [[I|I]|[I|I]]; [tauto|cbn [occ]; tauto|cbn [occ]; intuition congruence|].
      right. right. eapply reaches_mono; [|exact I]. intros h N F. cbn [occ]. right. split; [|exact F]. intros ->. apply N, D. left. reflexivity.
    - intros y l F sc fvset x D I. cbn [exp_true_fv_aux] in I. rewrite ADD in I.
      assert (G : forall s, In x (fold_left (fun fvs p => exp_true_fv_aux lift_dec fm (snd p) sc fvs) l s) ->
                In x s \/ (~ In x sc /\ occ_case True (stays fm x) x l) \/ reaches fm (fun h => occ_case False True h l) x).
      { cbn [bv] in D. clear -F D. induction F as [|p l Hp F IH]; intros s I; cbn [fold_left occ_case] in *; [auto|].
        apply IH in I; [|intros y J; apply D; cbn [flat_map]; apply in_or_app; auto].
        destruct I as [I|[I|I]]; [|tauto|right; right; eapply reaches_mono; [|exact I]; cbn; auto].
        apply Hp in I; [|intros y J; apply D; cbn [flat_map]; apply in_or_app; auto].
        destruct I as [I|[I|I]]; [tauto|tauto|right; right; eapply reaches_mono; [|exact I]; cbn; auto]. }
      destruct I as [I|[I ->]]; [|right; left; split; [exact I|left; auto]].
      apply G in I. destruct I as [I|[[I J]|I]]; [auto|right; left; split; [exact I|apply occ_Ecase; auto]|].
      right. right. eapply reaches_mono; [|exact I]. intros h N H. apply occ_Ecase. auto.
    - intros y t n z e IH sc fvset x D I. cbn [exp_true_fv_aux] in I. cbn [bv] in D. apply IH in I; [|intros w J; apply D; right; exact J].
      rewrite ADD, sadd_In in I. destruct I as [[I|I]|[I|I]]; [tauto|cbn [occ]; tauto|cbn [occ]; intuition congruence|].
      right. right. eapply reaches_mono; [|exact I]. intros h N F. cbn [occ]. right. split; [|exact F]. intros ->. apply N, D. left. reflexivity.
    - intros y f t ys e IH sc fvset x D I. cbn [exp_true_fv_aux] in I. cbn [bv] in D. apply IH in I; [|intros w J; apply D; right; exact J].
      rewrite add_list_In, sadd_In in I. destruct I as [[I|I]|[I|I]].
      + apply call_fv_sound2 in I. destruct I as [I|[(I & -> & ST)|I]]; [auto|right; left; split; [exact I|cbn [occ]; auto]|].
        right. right. eapply reaches_mono; [|exact I]. intros h N ->. cbn [occ]. auto.
      + right. left. split; [tauto|]. cbn [occ]. tauto.
      + right. left. split; [tauto|]. cbn [occ]. right. right. split; [|tauto]. intros ->. tauto.
      + right. right. eapply reaches_mono; [|exact I]. intros h N F. cbn [occ]. right. right. split; [|exact F]. intros ->. apply N, D. left. reflexivity.
    - intros B e IHB IH sc fvset x D I. rewrite true_fv_fun_eq in I. cbn [bv] in D.
      destruct (IHB sc fvset ltac:(intros z J; apply D; apply in_or_app; auto)) as [B1 B2].
      destruct (fundefs_true_fv_aux lift_dec fm B sc fvset) as [sc' fvset']. cbn [fst snd] in *.
      apply IH in I; [|intros z J; apply D; apply in_or_app; auto].
      assert (FN : forall h, get h fm <> None -> ~ In h (fnames B)).
      { intros h N J. apply N, D. apply in_or_app. left. apply fnames_bv. exact J. }
      destruct I as [I|[[I J]|I]].
      + apply B2 in I. destruct I as [I|[I|I]]; [auto|right; left; split; [tauto|]; cbn [occ]; tauto|].
        right. right. eapply reaches_mono; [|exact I]. intros h N F. cbn [occ]. split; auto.
      + rewrite B1 in I. right. left. split; [tauto|]. cbn [occ]. tauto.
      + right. right. eapply reaches_mono; [|exact I]. intros h N F. cbn [occ]. split; auto.
    - intros f t ys sc fvset x D I. cbn [exp_true_fv_aux] in I. rewrite add_list_In in I. destruct I as [I|I].
      + apply call_fv_sound2 in I. destruct I as [I|[(I & -> & ST)|I]]; [auto|right; left; split; [exact I|cbn [occ]; auto]|].
        right. right. eapply reaches_mono; [|exact I]. intros h N ->. cbn [occ]. auto.
      + right. left. cbn [occ]. tauto.
    - intros y p e IH sc fvset x D I. cbn [exp_true_fv_aux] in I. cbn [bv] in D. apply IH in I; [|intros w J; apply D; right; exact J].
      rewrite sadd_In in I. destruct I as [I|[I|I]]; [tauto|cbn [occ]; intuition congruence|].
      right. right. eapply reaches_mono; [|exact I]. intros h N F. cbn [occ]. split; [|exact F]. intros ->. apply N, D. left. reflexivity.
    - intros y p ys e IH sc fvset x D I. cbn [exp_true_fv_aux] in I. cbn [bv] in D. apply IH in I; [|intros w J; apply D; right; exact J].
      rewrite add_list_In, sadd_In in I. destruct I as [[I|I]|[I|I]]; [tauto|cbn [occ]; tauto|cbn [occ]; intuition congruence|].
      right. right. eapply reaches_mono; [|exact I]. intros h N F. cbn [occ]. right. split; [|exact F]. intros ->. apply N, D. left. reflexivity.
    - intros y sc fvset x D I. cbn [exp_true_fv_aux] in I. rewrite ADD in I. cbn [occ]. tauto.
    - intros f t xs e B IH IHB sc fvset D. cbn [bv_funs] in D.
      destruct (IHB (sadd f sc) fvset) as [B1 B2].
      { intros y J. apply D. right. apply in_or_app. right. apply in_or_app. auto. }
      rewrite true_fv_cons_eq. destruct (fundefs_true_fv_aux lift_dec fm B (sadd f sc) fvset) as [sc' fvset']. cbn [fst snd] in *. split.
      + intro x. rewrite B1, sadd_In. cbn [fnames In]. intuition congruence.
      + intros x I. apply IH in I; [|intros y J; apply D; right; apply in_or_app; right; apply in_or_app; auto].
        rewrite union_list_In, B1, sadd_In in I. cbn [fnames occ_body In]. destruct I as [I|[I|I]].
        * apply B2 in I. rewrite sadd_In in I. destruct I as [I|[I|I]]; [auto|right; left; intuition congruence|].
          right. right. eapply reaches_mono; [|exact I]. cbn. auto.
        * right. left. intuition congruence.
        * right. right. eapply reaches_mono; [|exact I]. intros h N F. cbn. left. split; [|exact F].
          intros J. apply N, D. right. apply in_or_app. auto.
    - intros sc fvset D. cbn. split; intro x; tauto.
  Qed.
  Lemma lift_fvs_sound2 fm g B x : (forall y, In y (bv_funs B) -> get y fm = None) -> In x (lift_fvs lift_dec fm g B) ->
    get x g = None /\ ((~ In x (fnames B) /\ use_body fm x B) \/ reaches fm (fun h => ~ In h (fnames B) /\ called_body h B) x).
  Proof.
    intros D I. unfold lift_fvs in I. apply filter_In in I as [I G]. split; [destruct (get x g); [discriminate|reflexivity]|].
    unfold fundefs_true_fv in I. destruct (proj2 (true_fv_sound2 fm) B [] [] D) as [_ S]. apply S in I.
    destruct I as [[]|[I|I]]; [tauto|]. right. eapply reaches_mono; [|exact I]. intros h N F. split; [|exact F].
    intro J. apply N, D. apply fnames_bv. exact J.
  Qed.

  (* nothing is missing, when every call is replaced *)
  Definition gets (fm : FunInfoMap) (sc : list var) (U C : var -> Prop) (l : list var) : Prop :=
    (forall x, U x -> ~ In x sc -> In x l) /\
    (forall h f' ft' args, C h -> lifted fm h = Some (f', ft', args) -> forall a, In a args -> In a l).
  Lemma call_fv_gets fm f sc fvset : ALL -> (forall x, In x fvset -> In x (call_fv lift_dec fm f sc fvset)) /\
    gets fm sc (fun x => x = f /\ stays fm x) (fun h => h = f) (call_fv lift_dec fm f sc fvset).
  Proof.
    intro A. unfold call_fv.
    assert (K : (forall x, In x fvset -> In x (if mem f sc then fvset else sadd f fvset)) /\ (~ In f sc -> In f (if mem f sc then fvset else sadd f fvset))).
    { split; intros; apply ADD; auto. }
    destruct K as [K1 K2].
    destruct (get f fm) as [[f' ft' fvs sfvs lfvs|? ?]|] eqn:E; [rewrite A| |].
    - split; [intros x I; apply union_list_In; auto|]. split.
      + intros x [-> S]. specialize (S A). rewrite (lifted_get _ _ _ _ _ _ _ E) in S. discriminate.
      + intros h f1 ft1 args -> L a I. rewrite (lifted_get _ _ _ _ _ _ _ E) in L. assert (args = lfvs) by congruence. subst.
        apply union_list_In. right. right. exact I.
    - split; [exact K1|]. split; [intros x [-> _]; exact K2|]. intros h f1 ft1 args -> L. unfold lifted in L. rewrite E in L. discriminate.
    - split; [exact K1|]. split; [intros x [-> _]; exact K2|]. intros h f1 ft1 args -> L. unfold lifted in L. rewrite E in L. discriminate.
  Qed.
  Lemma true_fv_gets fm : ALL ->
    (forall e sc fvset, (forall x, In x fvset -> In x (exp_true_fv_aux lift_dec fm e sc fvset)) /\
       gets fm sc (fun x => use fm x e) (fun h => called h e) (exp_true_fv_aux lift_dec fm e sc fvset)) /\
    (forall B sc fvset,
       (forall x, In x (fst (fundefs_true_fv_aux lift_dec fm B sc fvset)) <-> In x sc \/ In x (fnames B)) /\
       (forall x, In x fvset -> In x (snd (fundefs_true_fv_aux lift_dec fm B sc fvset))) /\
       gets fm sc (fun x => ~ In x (fnames B) /\ use_body fm x B) (fun h => called_body h B) (snd (fundefs_true_fv_aux lift_dec fm B sc fvset))).
  Proof.
    intro A. apply exp_fundefs_ind.
    - intros y t ys e IH sc fvset. cbn [exp_true_fv_aux]. destruct (IH (sadd y sc) (add_list sc fvset ys)) as (I1 & I2 & I3). split; [|split].
      + intros x I. apply I1. apply add_list_In. auto.
      + intros x U N. cbn [occ] in U. destruct U as [[_ U]|[U1 U2]]; [apply I1; apply add_list_In; auto|]. apply I2; [exact U2|].
        rewrite sadd_In. tauto.
      + intros h f' ft' args C. cbn [occ] in C. apply I3. tauto.
    - intros y l F sc fvset. cbn [exp_true_fv_aux].
      assert (K : forall s, (forall x, In x s -> In x (fold_left (fun fvs p => exp_true_fv_aux lift_dec fm (snd p) sc fvs) l s)) /\
                 gets fm sc (fun x => occ_case True (stays fm x) x l) (fun h => occ_case False True h l) (fold_left (fun fvs p => exp_true_fv_aux lift_dec fm (snd p) sc fvs) l s)).
      { induction F as [|p l Hp F IH]; intros s; cbn [fold_left occ_case].
        - split; [auto|]. split; [intros x []|intros h f' ft' args []].
        - destruct (Hp sc s) as (P1 & P2 & P3). destruct (IH (exp_true_fv_aux lift_dec fm (snd p) sc s)) as (I1 & I2 & I3). split; [auto|]. split.
          + intros x [U|U] N; auto.
          + intros h f' ft' args [C|C] L a I; [apply I1; eapply P3; eauto|eapply I3; eauto]. }
      destruct (K fvset) as (K1 & K2 & K3). split; [intros x I; apply ADD; auto|]. split.
      + intros x U N. apply occ_Ecase in U. apply ADD. destruct U as [[_ ->]|U]; auto.
      + intros h f' ft' args C L a I. apply occ_Ecase in C. apply ADD. left. destruct C as [[[] _]|C]. eapply K3; eauto.
    - intros y t n z e IH sc fvset. cbn [exp_true_fv_aux]. destruct (IH (sadd y sc) (if mem z sc then fvset else sadd z fvset)) as (I1 & I2 & I3). split; [|split].
      + intros x I. apply I1. apply ADD. auto.
      + intros x U N. cbn [occ] in U. destruct U as [[_ ->]|[U1 U2]]; [apply I1; apply ADD; auto|]. apply I2; [exact U2|].
        rewrite sadd_In. tauto.
      + intros h f' ft' args C. cbn [occ] in C. apply I3. tauto.
    - intros y f t ys e IH sc fvset. cbn [exp_true_fv_aux]. destruct (call_fv_gets fm f sc fvset A) as (F1 & F2 & F3).
      destruct (IH (sadd y sc) (add_list sc (call_fv lift_dec fm f sc fvset) ys)) as (I1 & I2 & I3). split; [|split].
      + intros x I. apply I1. apply add_list_In. auto.
      + intros x U N. cbn [occ] in U. destruct U as [[U ->]|[[_ U]|[U1 U2]]]; [apply I1; apply add_list_In; auto|apply I1; apply add_list_In; auto|].
        apply I2; [exact U2|]. rewrite sadd_In. tauto.
      + intros h f' ft' args C L a I. cbn [occ] in C. destruct C as [[_ ->]|[[[] _]|[C1 C2]]]; [apply I1; apply add_list_In; left; eapply F3; eauto|eapply I3; eauto].
    - intros B e IHB IH sc fvset. rewrite true_fv_fun_eq.
      destruct (IHB sc fvset) as (B0 & B1 & B2 & B3). destruct (fundefs_true_fv_aux lift_dec fm B sc fvset) as [sc' fvset']. cbn [fst snd] in *.
      destruct (IH sc' fvset') as (I1 & I2 & I3). split; [auto|]. split.
      + intros x U N. cbn [occ] in U. destruct U as [U1 [U2|U2]]; [apply I2; [exact U2|rewrite B0; tauto]|apply I1; apply B2; auto].
      + intros h f' ft' args C L a I. cbn [occ] in C. destruct C as [C1 [C2|C2]]; [eapply I3; eauto|apply I1; eapply B3; eauto].
    - intros f t ys sc fvset. cbn [exp_true_fv_aux]. destruct (call_fv_gets fm f sc fvset A) as (F1 & F2 & F3). split; [|split].
      + intros x I. apply add_list_In. auto.
      + intros x U N. cbn [occ] in U. apply add_list_In. destruct U as [[U ->]|[_ U]]; auto.
      + intros h f' ft' args C L a I. cbn [occ] in C. destruct C as [[_ ->]|[[] _]]. apply add_list_In. left. eapply F3; eauto.
    - intros y p e IH sc fvset. cbn [exp_true_fv_aux]. destruct (IH (sadd y sc) fvset) as (I1 & I2 & I3). split; [auto|]. split.
      + intros x U N. cbn [occ] in U. apply I2; [tauto|]. rewrite sadd_In. tauto.
      + intros h f' ft' args C. cbn [occ] in C. apply I3. tauto.
    - intros y p ys e IH sc fvset. cbn [exp_true_fv_aux]. destruct (IH (sadd y sc) (add_list sc fvset ys)) as (I1 & I2 & I3). split; [|split].
      + intros x I. apply I1. apply add_list_In. auto.
      + intros x U N. cbn [occ] in U. destruct U as [[_ U]|[U1 U2]]; [apply I1; apply add_list_In; auto|]. apply I2; [exact U2|].
        rewrite sadd_In. tauto.
      + intros h f' ft' args C. cbn [occ] in C. apply I3. tauto.
    - intros y sc fvset. cbn [exp_true_fv_aux]. split; [intros x I; apply ADD; auto|]. split.
      + intros x U N. cbn [occ] in U. apply ADD. tauto.
      + intros h f' ft' args C. cbn [occ] in C. tauto.
    - intros f t xs e B IH IHB sc fvset. rewrite true_fv_cons_eq.
      destruct (IHB (sadd f sc) fvset) as (B0 & B1 & B2 & B3). destruct (fundefs_true_fv_aux lift_dec fm B (sadd f sc) fvset) as [sc' fvset']. cbn [fst snd] in *.
      destruct (IH (union_list sc' xs) fvset') as (I1 & I2 & I3). split; [|split; [auto|split]].
      + intro x. rewrite B0, sadd_In. cbn [fnames In]. intuition congruence.
      + intros x [U1 U2] N. cbn [fnames occ_body In] in *. destruct U2 as [[U2 U3]|U2].
        * apply I2; [exact U3|]. rewrite union_list_In, B0, sadd_In. intuition congruence.
        * apply I1, B2; [tauto|]. rewrite sadd_In. intuition congruence.
      + intros h f' ft' args C L a I. cbn [occ_body] in C. destruct C as [[_ C]|C]; [eapply I3; eauto|apply I1; eapply B3; eauto].
    - intros sc fvset. cbn. split; [intro; tauto|]. split; [auto|]. split; [intros x [_ []]|intros h f' ft' args []].
  Qed.
  Lemma lift_fvs_gets fm g B : ALL ->
    (forall x, ~ In x (fnames B) -> use_body fm x B -> get x g = None -> In x (lift_fvs lift_dec fm g B)) /\
    (forall h f' ft' args, called_body h B -> lifted fm h = Some (f', ft', args) -> forall a, In a args -> get a g = None -> In a (lift_fvs lift_dec fm g B)).
  Proof.
    intro A. destruct (proj2 (true_fv_gets fm A) B [] []) as (_ & _ & G1 & G2). unfold lift_fvs. split.
    - intros x N U G. apply filter_In. split; [apply G1; auto|]. rewrite G. reflexivity.
    - intros h f' ft' args C L a I G. apply filter_In. split; [eapply G2; eauto|]. rewrite G. reflexivity.
  Qed.
End Free.
