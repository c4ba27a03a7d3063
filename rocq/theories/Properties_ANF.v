(** * Properties of the A-normal-form language (C22, C23, C24) *)
From Coq Require Import ZArith NArith List Lia Bool.
From Verif Require Import ANF_Syntax ANF_Eval ANF_Spec ANF_EvalProofs ANF_FreeProofs.
Import ListNotations.
Local Open Scope positive_scope.

(** ** C22: evaluation is deterministic, and fuel only decides when to give up *)
Theorem C22_deterministic : forall cenv rho e,
  (* at most one result, at one cost *)
  (forall c v c' v', bstep_fuel cenv rho e c (Res v) -> bstep_fuel cenv rho e c' (Res v') ->
     v = v' /\ c = c') /\
  (* a finished evaluation times out with less fuel, and only with less fuel *)
  (forall c v, bstep_fuel cenv rho e c (Res v) ->
     forall c', bstep_fuel cenv rho e c' OOT <-> (c' < c)%nat).
Proof.
  intros. split.
  - intros. eapply bstep_fuel_det; eauto.
  - intros c v B c'. split; intro H.
    + eapply bstep_fuel_oot_lt; eauto.
    + eapply bstep_fuel_less; eauto.
Qed.
Print Assumptions C22_deterministic.

(** The relation and the textbook interpreter agree: same value and number of
    steps, divergence is exhaustion of every depth bound, and what the
    interpreter calls stuck has neither a result nor endless time-outs; more
    depth never changes an answer. *)
Theorem C22_interpreter : forall cenv rho e,
  (forall c v, bstep_fuel cenv rho e c (Res v) <->
               exists d, interp cenv d rho e = Done v c) /\
  (diverge cenv rho e <-> forall d, interp cenv d rho e = Deep) /\
  (~ not_stuck cenv rho e <-> ~ (~ (exists d, interp cenv d rho e = Stuck))) /\
  (forall d d', (d <= d')%nat -> interp cenv d rho e <> Deep ->
     interp cenv d' rho e = interp cenv d rho e).
Proof.
  intros. split; [|split; [|split]].
  - intros. apply interp_iff.
  - apply diverge_iff.
  - split.
    + intros N S. apply N. right. apply diverge_iff. intro d.
      destruct (interp cenv d rho e) as [v n| |] eqn:E; auto.
      * exfalso. apply N. left. exists n, v. apply interp_iff. eauto.
      * exfalso. apply S. eauto.
    + intros NN [(c & v & B)|D]; apply NN; intros [d E].
      * eapply interp_stuck_no_res; eauto.
      * rewrite (proj1 (diverge_iff cenv rho e) D d) in E. discriminate.
  - intros. apply interp_mono; auto.
Qed.
Print Assumptions C22_interpreter.

(** A program that builds a list cell, calls a function on it in the middle of
    the program and returns the projection: tags 1 (pair), calling
    convention 7; function 10 swaps a pair. *)
Definition ex_cenv : ctor_env :=
  [(1, {| ctor_ind_tag := 1; ctor_arity := 2; ctor_ordinal := 0 |});
   (2, {| ctor_ind_tag := 2; ctor_arity := 0; ctor_ordinal := 0 |});
   (3, {| ctor_ind_tag := 2; ctor_arity := 0; ctor_ordinal := 1 |})].

Definition ex_swap : fundefs :=
  Fcons 10 7 [11] (Eproj 12 1 0 11 (Eproj 13 1 1 11 (Econstr 14 1 [13; 12] (Ehalt 14)))) Fnil.

Definition ex_prog : exp :=
  Efun ex_swap
    (Econstr 20 2 [] (Econstr 21 3 [] (Econstr 22 1 [20; 21]
      (Eletapp 23 10 7 [22] (Eproj 24 1 0 23
         (Ecase 24 [(2, Ehalt 20); (3, Ehalt 23)])))))).

Example C22_example :
  bstep_fuel ex_cenv [] ex_prog 12 (Res (Vconstr 1 [Vconstr 3 []; Vconstr 2 []])) /\
  bstep_fuel ex_cenv [] ex_prog 11 OOT.
Proof.
  assert (B : bstep_fuel ex_cenv [] ex_prog 12
                (Res (Vconstr 1 [Vconstr 3 []; Vconstr 2 []]))).
  { apply interp_iff. exists 20%nat. vm_compute. reflexivity. }
  split; [exact B|]. eapply C22_deterministic; [exact B|]. lia.
Qed.

(** a diverging program: [let rec f x = f x in f] applied to anything *)
Example C22_example_diverge :
  diverge ex_cenv [] (Efun (Fcons 10 7 [11] (Eapp 10 7 [11]) Fnil)
                        (Econstr 20 2 [] (Eapp 10 7 [20]))).
Proof.
  set (B := Fcons 10 7 [11] (Eapp 10 7 [11]) Fnil).
  assert (L : forall c rho w, get 10 rho = Some (Vfun [] B 10) -> get 11 rho = Some w ->
     bstep_fuel ex_cenv rho (Eapp 10 7 [11]) c OOT).
  { induction c as [|c IH]; intros rho w G1 G2; [apply bstep_fuel_zero|].
    apply bstep_fuel_S. eapply BStept_app with (rho'' := (11, w) :: def_funs B B [] []);
      [exact G1 | cbn; rewrite G2; reflexivity | reflexivity | reflexivity |].
    eapply IH; reflexivity. }
  intros [|[|[|c]]]; try apply bstep_fuel_zero.
  - apply bstep_fuel_S. constructor. apply bstep_fuel_zero.
  - apply bstep_fuel_S. constructor. apply bstep_fuel_S. econstructor; [reflexivity|].
    apply bstep_fuel_zero.
  - apply bstep_fuel_S. constructor. apply bstep_fuel_S. econstructor; [reflexivity|].
    apply bstep_fuel_S.
    eapply BStept_app with (rho'' := (11, Vconstr 2 []) :: def_funs B B [] []);
      [reflexivity | reflexivity | reflexivity | reflexivity |].
    eapply L; reflexivity.
Qed.

(** ** C23: evaluation depends only on free variables *)
Theorem C23_free_variables : forall cenv e rho1 rho2,
  (forall x, free x e -> get x rho1 = get x rho2) ->
  (forall c, bstep_fuel cenv rho1 e c OOT -> bstep_fuel cenv rho2 e c OOT) /\
  (forall c v, bstep_fuel cenv rho1 e c (Res v) ->
     exists v', bstep_fuel cenv rho2 e c (Res v') /\ veq v v' /\ (data v -> v = v')).
Proof.
  intros cenv e rho1 rho2 A.
  assert (A' : env_agree (fun x => free x e) rho1 rho2).
  { intros x F. rewrite <- (A x F). destruct (get x rho1) as [v|] eqn:G; [|auto].
    right. exists v, v. auto using veq_refl. }
  split.
  - intros c B. destruct (proj2 (bstep_agree_aux cenv) _ _ _ _ B _ A') as (r & B' & O).
    destruct r; [exact B'|contradiction].
  - intros c v B. destruct (proj2 (bstep_agree_aux cenv) _ _ _ _ B _ A') as (r & B' & O).
    destruct r as [|w]; [contradiction|]. exists w. split; [auto|]. split; [auto|].
    apply veq_data. exact O.
Qed.
Print Assumptions C23_free_variables.

(** the same for environments whose closures themselves agree only on what
    they use *)
Theorem C23_up_to_observation : forall cenv e rho1 rho2,
  env_agree (fun x => free x e) rho1 rho2 ->
  forall c v, bstep_fuel cenv rho1 e c (Res v) ->
    exists v', bstep_fuel cenv rho2 e c (Res v') /\ veq v v'.
Proof.
  intros cenv e rho1 rho2 A c v B.
  destruct (proj2 (bstep_agree_aux cenv) _ _ _ _ B _ A) as (r & B' & O).
  destruct r as [|w]; [contradiction|]. eauto.
Qed.
Print Assumptions C23_up_to_observation.

(** The environments differ on variable 99, which a captured closure also has
    in its environment; the program uses 5 and 6. *)
Definition ex_rho1 : env := [(99, Vint 1); (5, Vfun [(99, Vint 1)] ex_swap 10);
                             (6, Vconstr 1 [Vint 4; Vint 5])].
Definition ex_rho2 : env := [(5, Vfun [(98, Vint 2)] ex_swap 10);
                             (6, Vconstr 1 [Vint 4; Vint 5]); (99, Vint 7)].
Example C23_example :
  env_agree (fun x => free x (Eapp 5 7 [6])) ex_rho1 ex_rho2 /\
  bstep_fuel ex_cenv ex_rho2 (Eapp 5 7 [6]) 5 (Res (Vconstr 1 [Vint 5; Vint 4])).
Proof.
  assert (A : env_agree (fun x => free x (Eapp 5 7 [6])) ex_rho1 ex_rho2).
  { intros x [->|[<-|[]]].
    - right. eexists _, _. split; [reflexivity|]. split; [reflexivity|].
      constructor. intros y F. exfalso. apply fundefs_fv_spec in F.
      vm_compute in F. exact F.
    - right. eexists _, _. split; [reflexivity|]. split; [reflexivity|]. apply veq_refl. }
  split; [exact A|].
  destruct (C23_up_to_observation ex_cenv _ _ _ A 5 (Vconstr 1 [Vint 5; Vint 4]))
    as (v & B & V).
  - apply interp_iff. exists 20%nat. vm_compute. reflexivity.
  - apply veq_data in V; [subst; exact B|]. cbn. auto.
Qed.

(** ** C24: the free-variable computation is exact *)
Theorem C24_exact :
  (forall e x, In x (exp_fv e) <-> free x e) /\
  (forall B x, In x (fundefs_fv B) <-> free_funs x B) /\
  (forall e, NoDup (exp_fv e)) /\ (forall B, NoDup (fundefs_fv B)).
Proof.
  split; [|split; [|split]].
  - intros. apply exp_fv_spec.
  - intros. apply fundefs_fv_spec.
  - intro e. apply exp_fv_aux_NoDup. constructor.
  - intro B. apply exp_fv_aux_NoDup. constructor.
Qed.
Print Assumptions C24_exact.

(** [f x = g x y] and [g y z = f y]: [y] is free in the bundle although [g]
    binds it; the branch variable and the scrutinee are free, rebound ones
    are not. *)
Example C24_example :
  exp_fv (Efun (Fcons 1 7 [3] (Eapp 2 7 [3; 4]) (Fcons 2 7 [4; 5] (Eapp 1 7 [4]) Fnil))
            (Ecase 6 [(2, Eproj 3 1 0 3 (Ehalt 3)); (3, Econstr 8 1 [9; 1] (Ehalt 8))]))
  = [6; 9; 3; 4].
Proof. vm_compute. reflexivity. Qed.
