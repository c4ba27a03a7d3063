(** * Property C91: giving all bound variables new names

    Independent specification: [bv], [free], [bundles] (ANF_Scope.v, ANF_Spec.v), evaluation
    (ANF_Eval.v) and [same_outcome] (Inline_Spec.v). *)
From Coq Require Import ZArith NArith Arith List Lia Bool.
From Verif Require Import ANF_Syntax ANF_Eval ANF_Spec ANF_EvalProofs ANF_FreeProofs ANF_Scope
  ANF_LR ANF_LRProofs ANF_Subst ANF_Alpha Inline_LetProofs Inline_Spec Properties_Inline FR_Model FR_Proofs.
Import ListNotations.
Local Open Scope positive_scope.

Theorem C91_freshen : forall e n,
  (* the next variable is new to the program *)
  (forall x, free x e -> x < n) ->
  (* functions defined together have different names; names may otherwise be bound many times *)
  (forall B, In B (bundles e) -> NoDup (fnames B)) ->
  let '(e', m) := freshen_top e n in
  (* every name is bound once, is new, and the next variable is again beyond all *)
  n <= m /\ NoDup (bv e') /\ (forall x, In x (bv e') -> n <= x < m) /\
  (* the free variables are the same *)
  (forall x, free x e' <-> free x e) /\
  (* same runs, step by step, in every environment *)
  (forall cenv rho,
     (forall c r, bstep_fuel cenv rho e c r -> exists r', bstep_fuel cenv rho e' c r' /\ same_outcome cenv r r') /\
     (forall c r', bstep_fuel cenv rho e' c r' -> exists r, bstep_fuel cenv rho e c r /\ same_outcome cenv r r')).
Proof.
  intros e n HF HD. destruct (freshen_top e n) as [e' m] eqn:E.
  destruct (freshen_top_ok e n e' m HF HD E) as (L & A & N & B & FV).
  split; [auto|split; [auto|split; [auto|split; [auto|]]]]. intros cenv rho.
  destruct (freshen_sem cenv rho e e' A) as [R1 R2]. split.
  - apply same_res_outcome; auto.
  - intros c r' X. destruct (same_res_outcome _ _ _ _ _ R2 R1 c r' X) as (r & X' & S).
    exists r. split; [auto|]. apply same_outcome_sym. exact S.
Qed.
Print Assumptions C91_freshen.

(** mutually recursive functions, names bound again inside and in both branches, a free
    variable *)
Definition fr_sample : exp :=
  Efun (Fcons 1 2 [3; 4] (Econstr 3 5 [3; 4; 9] (Eletapp 1 2 2 [3; 1] (Ehalt 1)))
       (Fcons 2 2 [4; 3] (Ecase 4 [(1, Eproj 4 1 0 4 (Eapp 1 2 [4; 3])); (2, Eproj 4 2 1 4 (Ehalt 4))]) Fnil))
    (Eprim_val 3 (PVint 7) (Eapp 2 2 [3; 9])).

Example C91_freshen_example :
  freshen_top fr_sample 20 =
  (Efun (Fcons 20 2 [22; 23] (Econstr 24 5 [22; 23; 9] (Eletapp 25 21 2 [24; 20] (Ehalt 25)))
        (Fcons 21 2 [26; 27] (Ecase 26 [(1, Eproj 28 1 0 26 (Eapp 20 2 [28; 27])); (2, Eproj 29 2 1 26 (Ehalt 29))]) Fnil))
     (Eprim_val 30 (PVint 7) (Eapp 21 2 [30; 9])), 31)
  /\ (forall x, free x fr_sample -> x < 20)
  /\ (forall B, In B (bundles fr_sample) -> NoDup (fnames B)).
Proof.
  split; [vm_compute; reflexivity|split].
  - intros x H. cbn in H.
    repeat match goal with
    | H : _ /\ _ |- _ => destruct H
    | H : _ \/ _ |- _ => destruct H
    | H : False |- _ => destruct H
    end; subst; try lia.
  - intros B [<-|[]]. cbn. repeat constructor; cbn; intuition discriminate.
Qed.

(** without the second assumption the names of functions stay bound twice
    (freshen.v:96 looks the name up again, both get the first new name) *)
Theorem C91_same_names_refuted : exists e n, (forall x, free x e -> x < n) /\ ~ NoDup (bv (fst (freshen_top e n))).
Proof.
  exists (Efun (Fcons 1 2 [] (Ehalt 1) (Fcons 1 2 [] (Ehalt 1) Fnil)) (Eapp 1 2 [])), 5. split.
  - intros x H. cbn in H. exfalso. intuition.
  - vm_compute. intro H. inversion H as [|? ? K _]. apply K. left. reflexivity.
Qed.
Print Assumptions C91_same_names_refuted.

(** without the first assumption a free variable is captured: nothing checks it
    (freshen.v:110-112) *)
Theorem C91_capture_refuted : exists e n x,
  (forall B, In B (bundles e) -> NoDup (fnames B)) /\ free x e /\ ~ free x (fst (freshen_top e n)).
Proof.
  exists (Econstr 1 7 [] (Econstr 2 8 [] (Ehalt 5))), 4, 5. split; [intros B []|split].
  - cbn. right. split; [discriminate|]. right. split; [discriminate|reflexivity].
  - vm_compute. intros [[]|[_ [[]|[H _]]]]. apply H. reflexivity.
Qed.
Print Assumptions C91_capture_refuted.
