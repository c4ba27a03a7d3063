(** * C71-C73: the shrink reducer *)
From Coq Require Import ZArith NArith PArith List Lia Bool Arith.
From Verif Require Import ANF_Syntax ANF_Eval ANF_Spec ANF_EvalProofs ANF_FreeProofs ANF_Scope ANF_LR ANF_LRProofs ANF_Subst
  CC_Scope Shrink_Census Shrink_CensusProofs Shrink_Model Shrink_Total Inline_Spec Shrink_Inv Shrink_Sem Shrink_Main Shrink_Top.
Import ListNotations.

(** ** Specification *)

(** The program [e'] may replace [e]: it finishes whenever [e] does, after at
    most as many steps, with a value that no program can tell from the one of
    [e] (the same one if it is data); it runs forever when [e] does; and when
    [e] does not get stuck, [e'] does nothing else. *)
Definition improves (e e' : exp) : Prop := forall cenv rho,
  (forall c v, bstep_fuel cenv rho e c (Res v) -> exists c' v',
     bstep_fuel cenv rho e' c' (Res v') /\ refines cenv v v' /\ (data v -> v' = v) /\ c' <= c) /\
  (diverge cenv rho e -> diverge cenv rho e') /\
  (not_stuck cenv rho e ->
     (forall c' v', bstep_fuel cenv rho e' c' (Res v') -> exists c v,
        bstep_fuel cenv rho e c (Res v) /\ refines cenv v v' /\ (data v -> v' = v) /\ c' <= c) /\
     (diverge cenv rho e' -> diverge cenv rho e)).

(** every name is bound at most once, and no name is both bound and free *)
Definition named_once (e : exp) : Prop := NoDup (bv e) /\ (forall x, In x (bv e) -> ~ free x e).

(** ** Proof devices *)
Lemma improves_back e e' cenv rho :
  (forall c v, bstep_fuel cenv rho e c (Res v) -> exists c' v',
     bstep_fuel cenv rho e' c' (Res v') /\ refines cenv v v' /\ (data v -> v' = v) /\ c' <= c) ->
  (diverge cenv rho e -> diverge cenv rho e') ->
  not_stuck cenv rho e ->
     (forall c' v', bstep_fuel cenv rho e' c' (Res v') -> exists c v,
        bstep_fuel cenv rho e c (Res v) /\ refines cenv v v' /\ (data v -> v' = v) /\ c' <= c) /\
     (diverge cenv rho e' -> diverge cenv rho e).
Proof.
  intros H1 H2 [(c & v & BS)|D].
  - destruct (H1 c v BS) as (c2 & v2 & B2 & V & DV & L). split.
    + intros c' v' B'. destruct (bstep_fuel_det _ _ _ _ _ _ _ B' B2) as [-> ->]. eauto 6.
    + intros D. exfalso. specialize (D c2). pose proof (bstep_fuel_oot_lt _ _ _ _ _ _ D B2). lia.
  - split; [|auto]. intros c' v' B'. exfalso. pose proof (H2 D c') as D'.
    pose proof (bstep_fuel_oot_lt _ _ _ _ _ _ D' B'). lia.
Qed.

Lemma refines_refl cenv v : refines cenv v v.
Proof. intros x rho e. split; [eauto|auto]. Qed.

Lemma refines_trans cenv v1 v2 v3 : refines cenv v1 v2 -> refines cenv v2 v3 -> refines cenv v1 v3.
Proof.
  intros H1 H2 x rho e. destruct (H1 x rho e) as [A1 A2]. destruct (H2 x rho e) as [B1 B2]. split; [|auto].
  intros c u B. destruct (A1 c u B) as (c' & u' & B' & D). destruct (B1 c' u' B') as (c2 & u2 & B2' & D2).
  exists c2, u2. split; [auto|]. intro DU. rewrite (D DU) in D2. auto.
Qed.

Lemma improves_refl e : improves e e.
Proof.
  intros cenv rho. assert (K : forall c v, bstep_fuel cenv rho e c (Res v) -> exists c' v',
     bstep_fuel cenv rho e c' (Res v') /\ refines cenv v v' /\ (data v -> v' = v) /\ c' <= c).
  { intros c v B. exists c, v. split; [auto|]. split; [apply refines_refl|auto]. }
  split; [exact K|]. split; [auto|]. apply improves_back; auto.
Qed.

Lemma improves_trans e1 e2 e3 : improves e1 e2 -> improves e2 e3 -> improves e1 e3.
Proof.
  intros H1 H2 cenv rho. destruct (H1 cenv rho) as (A1 & A2 & _). destruct (H2 cenv rho) as (B1 & B2 & _).
  assert (K : forall c v, bstep_fuel cenv rho e1 c (Res v) -> exists c' v',
     bstep_fuel cenv rho e3 c' (Res v') /\ refines cenv v v' /\ (data v -> v' = v) /\ c' <= c).
  { intros c v B. destruct (A1 c v B) as (c' & v' & B' & R & D & L). destruct (B1 c' v' B') as (c2 & v2 & B2' & R2 & D2 & L2).
    exists c2, v2. split; [auto|]. split; [eapply refines_trans; eauto|]. split; [|lia].
    intro DU. rewrite (D DU) in D2. auto. }
  split; [exact K|]. split; [auto|]. apply improves_back; auto.
Qed.

(** one pass, with an explicit factor for the steps of the source *)
Lemma pass_improves n c e e' s c' im' : named_once e -> (forall z, occ (uses e) z <= get_c z c) ->
  contract n [] c e [] [] = Some (e', s, c', im') ->
  improves e e' /\
  (forall cenv rho c v c' v', bstep_fuel cenv rho e c (Res v) -> bstep_fuel cenv rho e' c' (Res v') -> c <= S (2 * n) * c') /\
  named_once e' /\ (forall x, In x (bv e') -> In x (bv e)) /\ (forall x, free x e' -> free x e) /\
  (forall z, occ (uses e') z <= get_c z c').
Proof.
  intros [ND FR] HC H.
  destruct (pass_names n c e e' s c' im' ND FR HC H) as (N1 & N2 & N3 & N4).
  split; [|split; [|split; [|split; [exact N2|split; [exact N3|exact N4]]]]].
  - intros cenv rho. pose proof (pass_sem n c e e' s c' im' ND FR HC H cenv rho) as SM.
    assert (SL : forall k, erel cenv (vrel cenv (slin (S (2 * n)) (2 * n))) (lin (S (2 * n)) (2 * n)) k rho e rho e').
    { intro k. apply erel_slin_lin. apply SM. }
    assert (K : forall c v, bstep_fuel cenv rho e c (Res v) -> exists c' v',
       bstep_fuel cenv rho e' c' (Res v') /\ refines cenv v v' /\ (data v -> v' = v) /\ c' <= c).
    { intros c0 v B. destruct (adequacy_res cenv _ _ _ _ _ _ _ SL c0 v B) as (c1 & v1 & B1 & V & D).
      exists c1, v1. split; [auto|]. split; [eapply refines_slin; [| |exact V]; lia|]. split; [auto|].
      destruct (SM c0 c0 (Res v) ltac:(lia) B) as (c3 & [|v3] & B3 & [_ L3] & R3); [destruct R3|].
      destruct (bstep_fuel_det _ _ _ _ _ _ _ B1 B3) as [-> ->]. exact L3. }
    pose proof (adequacy_div cenv _ _ _ _ _ _ _ SL) as DV.
    split; [exact K|]. split; [exact DV|]. apply improves_back; auto.
  - intros cenv rho c0 v c1 v1 B0 B1.
    assert (SL : forall k, erel cenv (vrel cenv (slin (S (2 * n)) (2 * n))) (lin (S (2 * n)) (2 * n)) k rho e rho e').
    { intro k. apply erel_slin_lin. apply (pass_sem n c e e' s c' im' ND FR HC H). }
    pose proof (adequacy_cost cenv _ _ _ _ _ _ _ SL c0 v c1 v1 B0 B1) as L.
    pose proof (bstep_fuel_pos _ _ _ _ _ B1). nia.
  - split; [exact N1|]. intros x I F. apply (FR x); auto.
Qed.

(** ** C71: reducing a program keeps its meaning and never makes it slower *)
Theorem C71_shrink : forall e, named_once e ->
  exists e' steps, shrink_top e = Some (e', steps) /\ improves e e' /\
  (* and the source is slower by a factor that only depends on its size *)
  (forall cenv rho c v c' v', bstep_fuel cenv rho e c (Res v) -> bstep_fuel cenv rho e' c' (Res v') ->
     c <= (2 * term_size e + 9) * c').
Proof.
  intros e NO. destruct (shrink_top e) as [[e' s]|] eqn:H; [|destruct (shrink_total e H)].
  exists e', s. split; [auto|].
  destruct (shrink_top_contract e e' s H) as (c & c' & im' & HC & HK).
  destruct (pass_improves _ _ _ _ _ _ _ NO HC HK) as (A1 & A2 & _). split; [exact A1|].
  intros cenv rho c0 v c1 v1 B0 B1. specialize (A2 cenv rho c0 v c1 v1 B0 B1).
  replace (2 * term_size e + 9) with (S (2 * (term_size e + 4))) by lia. exact A2.
Qed.
Print Assumptions C71_shrink.

(** the pass always answers, also for programs that bind names twice *)
Theorem C71_total : forall e, exists e' steps, shrink_top e = Some (e', steps).
Proof. intro e. destruct (shrink_top e) as [[e' s]|] eqn:H; [eauto|destruct (shrink_total e H)]. Qed.
Print Assumptions C71_total.

(** ** C72: names *)
Theorem C72_shrink_names : forall e e' steps, named_once e -> shrink_top e = Some (e', steps) ->
  named_once e' /\
  (* nothing new is bound, nothing new is free *)
  (forall x, In x (bv e') -> In x (bv e)) /\ (forall x, free x e' -> free x e).
Proof.
  intros e e' s NO H.
  destruct (shrink_top_contract e e' s H) as (c & c' & im' & HC & HK).
  destruct (pass_improves _ _ _ _ _ _ _ NO HC HK) as (_ & _ & A1 & A2 & A3 & _). auto.
Qed.
Print Assumptions C72_shrink_names.

(** ** C73: passes one after the other, the census being handed on *)
Theorem C73_shrink_n_times : forall n e c, named_once e -> (forall z, occ (uses e) z <= get_c z c) ->
  exists e' c', shrink_n_times' e c n = Some (e', c') /\ improves e e' /\ named_once e' /\
    (forall x, In x (bv e') -> In x (bv e)) /\ (forall x, free x e' -> free x e) /\
    (* the census never says less than there is *)
    (forall z, occ (uses e') z <= get_c z c').
Proof.
  induction n as [|n IH]; intros e c NO HC; cbn [shrink_n_times'].
  - exists e, c. split; [auto|]. split; [apply improves_refl|]. auto.
  - destruct (contract (depth e) [] c e [] []) as [[[[e1 s1] c1] im1]|] eqn:H.
    + destruct (pass_improves _ _ _ _ _ _ _ NO HC H) as (A1 & _ & A2 & A3 & A4 & A5).
      destruct (IH e1 c1 A2 A5) as (e' & c' & H' & B1 & B2 & B3 & B4 & B5). exists e', c'.
      split; [auto|]. split; [eapply improves_trans; eauto|]. auto 10.
    + exfalso. eapply contract_total; [|exact H]. unfold depth. lia.
Qed.
Print Assumptions C73_shrink_n_times.

Theorem C73_shrink_n_times_top : forall n e, named_once e -> exists e', shrink_n_times e n = Some e' /\ improves e e' /\ named_once e'.
Proof.
  intros n e NO. unfold shrink_n_times.
  destruct (C73_shrink_n_times n e (init_census e) NO) as (e' & c' & H & A1 & A2 & _).
  { intro z. unfold init_census. rewrite inc_exp, (proj1 rename_nil). apply Nat.le_refl. }
  rewrite H. eauto.
Qed.
Print Assumptions C73_shrink_n_times_top.

(** ** A program on which every rewrite fires

    [fun 10(20) = let 21 = C3(20, 5) in halt 21
     with 11(22) = let 23 = 10 22 in let 24 = proj0 23 in let 27 = C4(24) in 12 24 27
     with 12(25, 28) = case 25 of C2 -> halt 25 | C3 -> let 29 = proj1 25 in halt 28
     with 13(26) = 14 26 with 14(6) = halt 6
     in let 30 = C2() in let 31 = C3(30, 5) in let 32 = proj0 31 in
        let 33 = 11 32 in case 31 of C2 -> halt 5 | C3 -> halt 33]

    [10], [11] are inlined into their only call, [13] and [14] are dead,
    [24], [32] and the last case are known, [29] is unused; [12] stays because
    its body branches and the call is not the last thing to do. *)
Local Open Scope positive_scope.
Definition ex_shrink : exp :=
  Efun (Fcons 10 1 [20] (Econstr 21 3 [20; 5] (Ehalt 21))
       (Fcons 11 1 [22] (Eletapp 23 10 1 [22] (Eproj 24 3 0 23 (Econstr 27 4 [24] (Eapp 12 1 [24; 27]))))
       (Fcons 12 1 [25; 28] (Ecase 25 [(2, Ehalt 25); (3, Eproj 29 3 1 25 (Ehalt 28))])
       (Fcons 13 1 [26] (Eapp 14 1 [26])
       (Fcons 14 1 [6] (Ehalt 6) Fnil)))))
    (Econstr 30 2 [] (Econstr 31 3 [30; 5] (Eproj 32 3 0 31 (Eletapp 33 11 1 [32]
       (Ecase 31 [(2, Ehalt 5); (3, Ehalt 33)]))))).

Definition ex_shrunk : exp :=
  Efun (Fcons 12 1 [25; 28] (Ecase 25 [(2, Ehalt 25); (3, Ehalt 28)]) Fnil)
    (Econstr 30 2 [] (Econstr 27 4 [30] (Eletapp 33 12 1 [30; 27] (Ehalt 33)))).

(** tags 2 and 3 are the constructors of one type, 4 is the one of another *)
Definition ex_shrink_env : ctor_env :=
  [(2, {| ctor_ind_tag := 1; ctor_arity := 0; ctor_ordinal := 0 |});
   (3, {| ctor_ind_tag := 1; ctor_arity := 2; ctor_ordinal := 1 |});
   (4, {| ctor_ind_tag := 2; ctor_arity := 1; ctor_ordinal := 0 |})].

Example C71_example :
  named_once ex_shrink /\
  (* the second pass has nothing left to do *)
  shrink_top ex_shrink = Some (ex_shrunk, 8%nat) /\ shrink_top ex_shrunk = Some (ex_shrunk, 0%nat) /\
  shrink_n_times ex_shrink 2 = Some ex_shrunk /\
  bstep_fuel ex_shrink_env [(5, Vint 3)] ex_shrink 15 (Res (Vconstr 2 [])) /\
  bstep_fuel ex_shrink_env [(5, Vint 3)] ex_shrunk 7 (Res (Vconstr 2 [])).
Proof.
  split; [split|split; [|split; [|split; [|split]]]].
  - vm_compute. repeat constructor; cbn; intuition discriminate.
  - intros x I F. apply exp_fv_spec in F. vm_compute in F. destruct F as [<-|[]].
    vm_compute in I. intuition discriminate.
  - vm_compute. reflexivity.
  - vm_compute. reflexivity.
  - vm_compute. reflexivity.
  - apply interp_iff. exists 20%nat. vm_compute. reflexivity.
  - apply interp_iff. exists 20%nat. vm_compute. reflexivity.
Qed.
