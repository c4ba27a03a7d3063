(** * What the passes leave in a program: constructors, literals, calls *)
From Coq Require Import ZArith NArith PArith List Lia Bool Arith.
From Verif Require Import ANF_Syntax ANF_Scope ANF_Subst.
Import ListNotations.

(** the parts of a program, without the names *)
Inductive shape :=
| SConstr (t : ctor_tag) (n : nat)          (* constructor with n arguments *)
| SBranch (t : ctor_tag)                    (* branch *)
| SVal (p : primitive_value)                (* literal *)
| SPrim (p : prim) (n : nat)                (* primitive operation *)
| SCall (t : fun_tag) (n : nat)             (* call *)
| SLet                                      (* call that is not a tail call *)
| SFun (t : fun_tag) (n : nat).             (* function *)

Section All.
  Variable S : shape -> Prop.

  Fixpoint all (e : exp) : Prop :=
    match e with
    | Econstr _ t ys e => S (SConstr t (length ys)) /\ all e
    | Ecase _ cl =>
        (fix go (cl : list (ctor_tag * exp)) : Prop :=
           match cl with [] => True | p :: cl' => (S (SBranch (fst p)) /\ all (snd p)) /\ go cl' end) cl
    | Eproj _ _ _ _ e => all e
    | Eletapp _ _ t ys e => (S (SCall t (length ys)) /\ S SLet) /\ all e
    | Efun B e => all_funs B /\ all e
    | Eapp _ t ys => S (SCall t (length ys))
    | Eprim_val _ p e => S (SVal p) /\ all e
    | Eprim _ p ys e => S (SPrim p (length ys)) /\ all e
    | Ehalt _ => True
    end
  with all_funs (B : fundefs) : Prop :=
    match B with
    | Fcons _ t xs e B => S (SFun t (length xs)) /\ all e /\ all_funs B
    | Fnil => True
    end.

  Definition all_cases (cl : list (ctor_tag * exp)) : Prop := Forall (fun p => S (SBranch (fst p)) /\ all (snd p)) cl.
  Lemma all_Ecase x cl : all (Ecase x cl) <-> all_cases cl.
  Proof.
    cbn [all]. unfold all_cases. induction cl as [|p cl IH]; [split; auto|]. rewrite IH. split; [intros [A B]; constructor; auto|].
    intro H. inversion H; subst. auto.
  Qed.

  Lemma all_funs_list B : all_funs B <-> forall f t xs b, In (f, t, xs, b) (flist B) -> S (SFun t (length xs)) /\ all b.
  Proof.
    induction B as [f t xs e B IH|]; cbn [all_funs flist]; [|split; [intros _ ? ? ? ? []|auto]]. rewrite IH. split.
    - intros (A & B1 & C) f1 t1 xs1 b1 [E|I]; [injection E as <- <- <- <-; auto|eauto].
    - intro H. destruct (H f t xs e (or_introl eq_refl)). split; [auto|]. split; [auto|]. intros. eapply H. right. eauto.
  Qed.

  Lemma all_rename sg : (forall e, all e -> all (rename_all_ns sg e)) /\ (forall B, all_funs B -> all_funs (rename_all_fun_ns sg B)).
  Proof.
    unfold apply_r_list.
    apply exp_fundefs_ind; cbn [rename_all_ns rename_all_fun_ns]; try (intros; cbn [all all_funs] in *; unfold apply_r_list; rewrite ?map_length; intuition auto; fail).
    intros x l F. rewrite !all_Ecase. unfold all_cases. intro H. revert H. induction F as [|[c e] l Hp F IH]; cbn; [constructor|].
    intro H. inversion H as [|? ? [H1 H2] H3]; subst. constructor; [cbn in *; auto|auto].
  Qed.

  (** a function body in the place of a call *)
  Lemma all_letapp : S SLet -> forall e z C x ec, inline_letapp e z = Some (C, x) -> all e -> all ec -> all (app_ctx_f C ec).
  Proof.
    intro SL.
    apply (exp_ind2 (fun e => forall z C x ec, inline_letapp e z = Some (C, x) -> all e -> all ec -> all (app_ctx_f C ec)) (fun _ => True));
      try exact I; try (intros; exact I); cbn [inline_letapp].
    - intros x t ys e IH z C x' ec H [A1 A2] HB. destruct (inline_letapp e z) as [[C1 v1]|] eqn:E; [|discriminate]. injection H as <- <-. cbn. eauto.
    - discriminate.
    - intros x t n y e IH z C x' ec H A HB. destruct (inline_letapp e z) as [[C1 v1]|] eqn:E; [|discriminate]. injection H as <- <-. cbn. eauto.
    - intros x f t ys e IH z C x' ec H [A1 A2] HB. destruct (inline_letapp e z) as [[C1 v1]|] eqn:E; [|discriminate]. injection H as <- <-. cbn. eauto.
    - intros B e _ IH z C x' ec H [A1 A2] HB. destruct (inline_letapp e z) as [[C1 v1]|] eqn:E; [|discriminate]. injection H as <- <-. cbn. eauto.
    - intros f t ys z C x' ec H A HB. injection H as <- <-. cbn in *. auto.
    - intros x p e IH z C x' ec H [A1 A2] HB. destruct (inline_letapp e z) as [[C1 v1]|] eqn:E; [|discriminate]. injection H as <- <-. cbn. eauto.
    - intros x p ys e IH z C x' ec H [A1 A2] HB. destruct (inline_letapp e z) as [[C1 v1]|] eqn:E; [|discriminate]. injection H as <- <-. cbn. eauto.
    - intros x z C x' ec H A HB. injection H as <- <-. exact HB.
  Qed.

  Lemma all_findtag cl t e : all_cases cl -> findtag cl t = Some e -> all e.
  Proof.
    induction 1 as [|p cl [H1 H2] F IH]; cbn; [discriminate|]. destruct p as [c b]. cbn in *. destruct (Pos.eq_dec c t) as [->|].
    - intro K. injection K as ->. auto.
    - auto.
  Qed.
End All.

Lemma all_imp (S S' : shape -> Prop) : (forall s, S s -> S' s) -> (forall e, all S e -> all S' e) /\ (forall B, all_funs S B -> all_funs S' B).
Proof.
  intro I. apply exp_fundefs_ind; try (intros; cbn [all all_funs] in *; intuition auto; fail).
  intros x l F. rewrite !all_Ecase. unfold all_cases. intro H. induction F as [|p l Hp F IH]; [constructor|].
  inversion H as [|? ? [H1 H2] H3]; subst. constructor; [auto|auto].
Qed.

Lemma all_and (S S' : shape -> Prop) : (forall e, all S e -> all S' e -> all (fun s => S s /\ S' s) e) /\
  (forall B, all_funs S B -> all_funs S' B -> all_funs (fun s => S s /\ S' s) B).
Proof.
  apply exp_fundefs_ind; try (intros; cbn [all all_funs] in *; intuition auto; fail).
  intros x l F. rewrite !all_Ecase. unfold all_cases. intros H K. induction F as [|p l Hp F IH]; [constructor|].
  inversion H as [|? ? [H1 H2] H3]; subst. inversion K as [|? ? [K1 K2] K3]; subst. constructor; [auto|auto].
Qed.

(** No function definitions inside; functions at the top only. *)
Definition no_fun (s : shape) : Prop := match s with SFun _ _ => False | _ => True end.
Definition flat (e : exp) : Prop :=
  match e with
  | Efun B m => (forall f t xs b, In (f, t, xs, b) (flist B) -> all no_fun b) /\ all no_fun m
  | _ => all no_fun e
  end.

(** The main expression does not end in a call. *)
Fixpoint returns (e : exp) : Prop :=
  match e with
  | Econstr _ _ _ e | Eproj _ _ _ _ e | Eletapp _ _ _ _ e | Eprim_val _ _ e | Eprim _ _ _ e | Efun _ e => returns e
  | Ecase _ cl => (fix go (cl : list (ctor_tag * exp)) : Prop := match cl with [] => True | p :: cl' => returns (snd p) /\ go cl' end) cl
  | Eapp _ _ _ => False
  | Ehalt _ => True
  end.
Lemma returns_Ecase x cl : returns (Ecase x cl) <-> Forall (fun p => returns (snd p)) cl.
Proof.
  cbn [returns]. induction cl as [|p cl IH]; [split; auto|]. rewrite IH. split; [intros [A B]; constructor; auto|].
  intro H. inversion H; subst. auto.
Qed.

Lemma returns_letapp : forall e z C x ec, inline_letapp e z = Some (C, x) -> returns (app_ctx_f C ec) <-> returns ec.
Proof.
  apply (exp_ind2 (fun e => forall z C x ec, inline_letapp e z = Some (C, x) -> returns (app_ctx_f C ec) <-> returns ec) (fun _ => True));
    try exact I; try (intros; exact I); cbn [inline_letapp]; try discriminate; intros;
    match goal with
    | H : match inline_letapp ?e ?z with _ => _ end = _ |- _ => destruct (inline_letapp e z) as [[C1 v1]|] eqn:E; [|discriminate]; injection H as <- <-; cbn; eauto
    | H : Some _ = Some _ |- _ => injection H as <- <-; cbn; tauto
    end.
Qed.

Lemma returns_rename sg : forall e, returns (rename_all_ns sg e) <-> returns e.
Proof.
  apply (exp_ind2 (fun e => returns (rename_all_ns sg e) <-> returns e) (fun _ => True)); cbn [rename_all_ns returns]; try tauto; auto.
  intros x l F. induction F as [|[c e] l Hp F IH]; cbn in *; tauto.
Qed.

Lemma returns_findtag cl t e : Forall (fun p => returns (snd p)) cl -> findtag cl t = Some e -> returns e.
Proof.
  induction 1 as [|p cl H1 F IH]; cbn; [discriminate|]. destruct p as [c b]. cbn in *. destruct (Pos.eq_dec c t) as [->|].
  - intro K. injection K as ->. auto.
  - auto.
Qed.

Lemma all_Efun S B e : all S (Efun B e) <-> (forall f t xs b, In (f, t, xs, b) (flist B) -> S (SFun t (length xs)) /\ all S b) /\ all S e.
Proof. rewrite <- all_funs_list. reflexivity. Qed.
Lemma all_Efun0 S B e : all S (Efun B e) <-> all_funs S B /\ all S e.
Proof. reflexivity. Qed.
Lemma all_Fcons S f t xs e B : all_funs S (Fcons f t xs e B) <-> S (SFun t (length xs)) /\ all S e /\ all_funs S B.
Proof. reflexivity. Qed.
Lemma all_cases_cons S c e l : all_cases S ((c, e) :: l) <-> (S (SBranch c) /\ all S e) /\ all_cases S l.
Proof. unfold all_cases. split; [intro H; inversion H; auto|intros [A B]; constructor; auto]. Qed.

(** shapes in which function tags do not matter *)
Definition blind (S : shape -> Prop) : Prop := (forall t n, S (SCall t n)) /\ forall t n, S (SFun t n).
