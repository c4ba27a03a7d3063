(** C97: evaluation keeps functions closed, and the environments of closed functions are not looked
    at; the axioms on primitive operations. *)
From Coq Require Import ZArith NArith List Bool Lia.
From Verif Require Import ANF_Syntax ANF_Spec ANF_LR SV_Model SZ_Model SZ_Proofs Properties_Sizes
  CF_Model CF_Spec CF_Proofs.
Import ListNotations.

(** The blocks of functions of a program or a block are those written in it, at any depth. *)
Theorem C97_blocks :
  (forall e B, funs_in_exp B e <-> In B (blocks_of e)) /\
  (forall B' B, funs_in_fundef B B' <-> In B (blocks_in B')).
Proof. exact blocks_of_iff. Qed.

(** a block in the body of a function of a block in a branch *)
Example C97_blocks_example :
  let B1 := (Fcons 5 1 [6] (Ehalt 6) Fnil)%positive in
  let B2 := (Fcons 2 1 [3] (Efun B1 (Ehalt 5)) Fnil)%positive in
  blocks_of (Ecase 1 [(1, Ehalt 1); (2, Efun B2 (Ehalt 2))])%positive = [B2; B1].
Proof. reflexivity. Qed.

(** The lemma [bstep_e_preserves_closed_fundefs] (logical_relations_cc.v:1812-1884, left open), with what
    the source takes as an axiom on primitive operations as a hypothesis: a program with closed functions
    only, run where its free variables hold closed functions only, gives a value with closed functions
    only. What a function of the value mentions is one of its parameters or a function of its block. *)
Theorem C97_closed : forall pr cenv rho e v c,
  prims_closed_fundefs pr ->
  bstep_e pr cenv rho e v c ->
  closed_fundefs_in_env (fun x => free x e) rho -> closed_fundefs_in_exp e ->
  closed_fundefs_in_val v /\
  forall rho' B f, v = Vfun rho' B f -> forall g t xs b x,
    find_def g B = Some (t, xs, b) -> free x b -> In x xs \/ In x (fnames B).
Proof.
  intros pr cenv rho e v c PR H E C. pose proof (run_closed pr cenv PR rho e v c H E C) as K.
  split; [exact K|]. intros rho' B f -> g t xs b x FD F. inversion K; subst.
  eapply closed_body; eassumption.
Qed.

(** [fun f (x) = x with g (x) = f (x)], with [f] returned through a call whose result is bound: the case that is missing in the
    source *)
Definition idB : fundefs := (Fcons 2 1 [3] (Ehalt 3) (Fcons 6 1 [3] (Eapp 2 1 [3]) Fnil))%positive.
Definition prog : exp := (Efun idB (Eletapp 4 2 1 [2] (Eprim 5 7 [4] (Ehalt 5))))%positive.
Definition first : prims := [(7%positive, fun vs => hd_error vs)].

Lemma idB_closed : closed_fundefs idB /\ closed_fundefs_in_fundefs idB.
Proof.
  split.
  - intros x [N F]. cbn in N, F. intuition.
  - intros B H. apply blocks_of_iff in H. destruct H.
Qed.

Lemma prog_closed : closed_fundefs_in_exp prog.
Proof. intros B H. apply blocks_of_iff in H. destruct H as [<-|[]]. exact (proj1 idB_closed). Qed.

Lemma prog_runs rho : bstep_e first [] rho prog (Vfun rho idB 2%positive) 1.
Proof.
  apply BStep_fun. apply (BStep_letapp _ _ rho idB 2%positive [Vfun rho idB 2%positive] [3%positive] (Ehalt 3%positive)
    (Eprim 5 7 [4] (Ehalt 5))%positive (set 3%positive (Vfun rho idB 2%positive) (def_funs idB idB rho rho))
    _ 4%positive 2%positive 1%positive [2%positive] (Vfun rho idB 2%positive) (Vfun rho idB 2%positive) 0 0);
    try reflexivity.
  - constructor. reflexivity.
  - eapply BStep_prim; [reflexivity|reflexivity|reflexivity|]. constructor. reflexivity.
Qed.

Lemma first_closed : prims_closed_fundefs first.
Proof.
  intros f g vs v G F A. unfold first in G. cbn in G. destruct (Pos.eq_dec f 7); [|discriminate].
  injection G as <-. destruct vs as [|w vs]; [discriminate|]. injection A as <-. inversion F; assumption.
Qed.

Lemma first_same : Prim_axiom same first.
Proof.
  intros f g v1 G vs1 vs2 F A. unfold first in G. cbn in G. destruct (Pos.eq_dec f 7); [|discriminate].
  injection G as <-. destruct F as [|a b l l' Hab _]; [discriminate|]. injection A as <-. exists b. auto.
Qed.

Example C97_closed_example : forall rho,
  prims_closed_fundefs first /\ bstep_e first [] rho prog (Vfun rho idB 2%positive) 1 /\
  closed_fundefs_in_env (fun x => free x prog) rho /\ closed_fundefs_in_exp prog.
Proof.
  intro rho. split; [exact first_closed|]. split; [apply prog_runs|]. split; [|exact prog_closed].
  intros x v F. cbn in F. intuition congruence.
Qed.

(** A program with closed functions only does not look at the environments of its functions: run where
    its free variables hold the same up to such environments, it gives the same value up to them, with
    the same cost; the very same value if it has no functions. *)
Theorem C97_environment : forall pr cenv rho1 rho2 e v1 c,
  Prim_axiom same pr ->
  bstep_e pr cenv rho1 e v1 c -> closed_fundefs_in_exp e -> same_on (fun x => free x e) rho1 rho2 ->
  (exists v2, bstep_e pr cenv rho2 e v2 c /\ same v1 v2) /\
  (data v1 -> bstep_e pr cenv rho2 e v1 c).
Proof.
  intros pr cenv rho1 rho2 e v1 c PR H C S.
  destruct (run_same pr cenv PR rho1 e v1 c H rho2 S C) as (v2 & R & K).
  split; [eauto|]. intro D. rewrite (same_data v1 v2 D K). exact R.
Qed.

(** the same call in two environments, where the function is bound with different environments *)
Definition callid : exp := (Eapp 8 1 [9])%positive.
Definition envA : env := [(8%positive, Vfun [] idB 2%positive); (9%positive, Vint 5)].
Definition envB : env := [(8%positive, Vfun [(3%positive, Vint 1); (2%positive, Vint 0)] idB 2%positive); (9%positive, Vint 5)].
Example C97_environment_example :
  bstep_e first [] envA callid (Vint 5) 1 /\ same_on (fun x => free x callid) envA envB /\
  closed_fundefs_in_exp callid /\ Prim_axiom same first /\ data (Vint 5) /\ envA <> envB.
Proof.
  split; [|split; [|split; [|split; [exact first_same|split; [constructor|discriminate]]]]].
  - apply (BStep_app _ _ [] idB 2%positive [Vint 5] [3%positive] (Ehalt 3%positive)
      (set 3%positive (Vint 5) (def_funs idB idB [] [])) _ _ _ _ _ 0); try reflexivity.
    constructor. reflexivity.
  - intros x v F G. cbn in F. destruct F as [F|[F|[]]]; subst x; cbn in G; injection G as <-; cbn; eexists;
      (split; [reflexivity|]); constructor; first [exact (proj1 idB_closed)|exact (proj2 idB_closed)].
  - intros B H. inversion H.
Qed.

(** With the axiom of closure_conversion_correct.v:618-622 as a hypothesis, running a program makes no
    function larger than those written in it or already in its environment. *)
Theorem C97_size : forall pr cenv n rho e v c,
  primAxiom pr -> (forall k, max_exp_env k e rho <= n) -> bstep_e pr cenv rho e v c ->
  forall k, sizeOf_val k v <= n.
Proof.
  intros pr cenv n rho e v c PR M H. refine (C95_run pr cenv n rho e v c _ M H).
  intros f g vs w G A _ k. rewrite (PR f g vs w k G A). lia.
Qed.

(** a primitive operation that adds two to a number *)
Definition add2 : prims :=
  [(7%positive, fun vs => match vs with [Vint z] => Some (Vint (z + 2)) | _ => None end)].
Example C97_size_example :
  primAxiom add2 /\ bstep_e add2 [] [(1%positive, Vint 3)] (Eprim 5 7 [1] (Ehalt 5))%positive (Vint 5) 0 /\
  forall k, max_exp_env k (Eprim 5 7 [1] (Ehalt 5))%positive [(1%positive, Vint 3)] <= 3.
Proof.
  split; [|split].
  - intros f g vs v k G A. unfold add2 in G. cbn in G. destruct (Pos.eq_dec f 7); [|discriminate].
    injection G as <-. destruct vs as [|[| |z|] [|? ?]]; try discriminate. injection A as <-.
    destruct k; reflexivity.
  - eapply BStep_prim; [reflexivity|reflexivity|reflexivity|]. constructor. reflexivity.
  - intros [|k]; cbn; lia.
Qed.

(** The axioms of the source are stated for all tables of primitive operations, and so they are false. *)
Definition openB : fundefs := (Fcons 2 1 [3] (Ehalt 9) Fnil)%positive.
Definition leak : prims := [(7%positive, fun _ => Some (Vfun [] openB 2%positive))].

Theorem C97_closed_axiom_refuted : exists pr, ~ prims_closed_fundefs pr.
Proof.
  exists leak. intro H. specialize (H 7%positive _ [] (Vfun [] openB 2%positive) eq_refl (Forall_nil _) eq_refl).
  inversion H as [|? ? ? C _| |]; subst. apply (C 9%positive). cbn. split; [intros [E|[]]; discriminate|].
  left. split; [intros [E|[]]; discriminate|reflexivity].
Qed.

Theorem C97_size_axiom_refuted : exists pr, ~ primAxiom pr.
Proof.
  exists leak. intro H. specialize (H 7%positive _ [] (Vfun [] openB 2%positive) 1 eq_refl eq_refl). discriminate.
Qed.

(** For a relation on values, the axiom for all primitive operations says that related values cannot be
    told apart by any function of values. *)
Theorem C97_related_axiom : forall R : val -> val -> Prop,
  (forall pr, Prim_axiom R pr) -> forall v1 v2, R v1 v2 -> forall p : val -> bool, p v1 = p v2.
Proof.
  intros R H.
  assert (K : forall v1 v2, R v1 v2 -> forall p : val -> bool, p v1 = true -> p v2 = true).
  { intros v1 v2 r p T.
    set (g := fun vs => match vs with [v] => if p v then Some v else None | _ => None end).
    destruct (H [(1%positive, g)] 1%positive g v1 eq_refl [v1] [v2]) as (w & A & _).
    - constructor; [exact r|constructor].
    - cbn. rewrite T. reflexivity.
    - cbn in A. destruct (p v2); [reflexivity|discriminate]. }
  intros v1 v2 r p. destruct (p v1) eqn:E1, (p v2) eqn:E2; try reflexivity.
  - rewrite (K v1 v2 r p E1) in E2. discriminate.
  - assert (N : negb (p v1) = true) by (rewrite E1; reflexivity).
    apply (K v1 v2 r (fun v => negb (p v))) in N. rewrite E2 in N. discriminate.
Qed.

(** equality meets it *)
Example C97_related_axiom_example : forall pr, Prim_axiom eq pr.
Proof.
  intros pr f g v1 G vs1 vs2 F A. assert (E : vs1 = vs2) by (clear A; induction F; congruence).
  subst. eauto.
Qed.

(** The relation of the correctness proofs relates functions of different names, at every level, so the
    axiom [Prim_axiom] is false for it; so it is for every relation that relates a function to a
    constructor, as closure conversion does. *)
Theorem C97_related_axiom_refuted :
  (forall cenv PG k, exists pr, ~ Prim_axiom (vrel cenv PG k) pr) /\
  (forall (R : val -> val -> Prop) rho B f t vs, R (Vfun rho B f) (Vconstr t vs) -> exists pr, ~ Prim_axiom R pr).
Proof.
  split.
  - intros cenv PG k.
    exists [(1%positive, fun vs => match vs with [Vfun _ _ f] => if Pos.eqb f 1 then Some (Vint 0) else None | _ => None end)].
    intro H. destruct (H 1%positive _ (Vint 0) eq_refl [Vfun [] Fnil 1%positive] [Vfun [] Fnil 2%positive]) as (w & A & _).
    + constructor; [|constructor]. apply vrel_fun. intros ? ? ? ? ? ? FD. discriminate.
    + reflexivity.
    + discriminate.
  - intros R rho B f t vs r.
    exists [(1%positive, fun vs => match vs with [Vfun _ _ _] => Some (Vint 0) | _ => None end)].
    intro H. destruct (H 1%positive _ (Vint 0) eq_refl [Vfun rho B f] [Vconstr t vs]) as (w & A & _).
    + constructor; [exact r|constructor].
    + reflexivity.
    + discriminate.
Qed.

Print Assumptions C97_blocks.
Print Assumptions C97_closed.
Print Assumptions C97_environment.
Print Assumptions C97_size.
Print Assumptions C97_closed_axiom_refuted.
Print Assumptions C97_size_axiom_refuted.
Print Assumptions C97_related_axiom.
Print Assumptions C97_related_axiom_refuted.
