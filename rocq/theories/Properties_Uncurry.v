(** * Properties of uncurrying (C55) *)
From Coq Require Import List Arith NArith PArith Bool Lia Relations String.
From Verif Require Import ANF_Syntax ANF_Eval ANF_Spec ANF_Scope ANF_EvalProofs ANF_FreeProofs Comp_Model Comp_Proofs CC_Spec CC_Scope
  UC_Model UC_Spec UC_Proofs UC_Top.
Import ListNotations.
Local Open Scope list_scope.

(** ** C55: any number of rewrites, anywhere, with any names that are new for
    the program, in direct or in continuation-passing style: results look the
    same, data is equal, divergence is preserved; and back when the program does
    not go wrong.  Free variables may hold data. *)
Theorem C55_rewrites_preserve : forall e e', uncurry_steps e e' ->
  forall cenv rho rho', (forall x, free x e -> exists v, get x rho = Some v /\ data v /\ get x rho' = Some v) ->
  (forall c v, bstep_fuel cenv rho e c (Res v) ->
     exists c' v', bstep_fuel cenv rho' e' c' (Res v') /\ c <= c' /\ same_shape v v' /\ (data v -> v' = v)) /\
  (diverge cenv rho e -> diverge cenv rho' e') /\
  (not_stuck cenv rho e ->
     not_stuck cenv rho' e' /\
     (forall c' v', bstep_fuel cenv rho' e' c' (Res v') -> exists c v, bstep_fuel cenv rho e c (Res v) /\ same_shape v v' /\ (data v -> v' = v)) /\
     (diverge cenv rho' e' -> diverge cenv rho e)).
Proof.
  intros e e' H cenv rho rho' EV. pose proof (proj2 (uncurry_steps_preserved _ _ H) cenv rho rho' EV) as SIM.
  assert (R1 : forall c v, bstep_fuel cenv rho e c (Res v) ->
     exists c' v', bstep_fuel cenv rho' e' c' (Res v') /\ c <= c' /\ same_shape v v' /\ (data v -> v' = v)).
  { intros c v E. destruct (SIM _ _ E) as (c' & [|v'] & E' & L & R); [destruct R|]. exists c', v'. split; [exact E'|]. split; [exact L|]. split; [exact R|].
    intro D. eapply same_data; eauto. }
  assert (R2 : diverge cenv rho e -> diverge cenv rho' e').
  { intros D c. destruct (SIM _ _ (D c)) as (c' & [|v'] & E' & L' & R); [|destruct R].
    eapply bstep_fuel_oot_less; [exact E'|exact L']. }
  split; [exact R1|]. split; [exact R2|]. intros [(c & v & E)|D].
  - destruct (R1 c v E) as (c2 & v2 & E2 & _ & V & DD). split; [left; eauto|]. split.
    + intros c' v' E'. destruct (bstep_fuel_det _ _ _ _ _ _ _ E' E2) as [-> ->]. eauto.
    + intros D. exfalso. specialize (D c2). pose proof (bstep_fuel_oot_lt _ _ _ _ _ _ D E2). lia.
  - split; [right; exact (R2 D)|]. split; [|auto]. intros c' v' E'. exfalso. specialize (R2 D c').
    pose proof (bstep_fuel_oot_lt _ _ _ _ _ _ R2 E'). lia.
Qed.
Print Assumptions C55_rewrites_preserve.

Lemma pass_run cps e c e' c' : uncurry_proto_top cps e c = (Ret e', c') -> bele (next_var c) e /\
  exists s, run cps e (init c) e' s /\ next_var c' = nextx s /\ nect_ctor_tag c' = nect_ctor_tag (cdata s) /\ next_ind_tag c' = next_ind_tag (cdata s) /\
    next_fun_tag c' = next_fun_tag (cdata s) /\ cenv c' = cenv (cdata s) /\ fenv c' = fenv (cdata s) /\ nenv c' = nenv (cdata s) /\ log c' = log (cdata s).
Proof.
  unfold uncurry_proto_top. destruct (Pos.ltb_spec (max_var e 1) (next_var c)) as [L|L]; [|congruence].
  destruct (uncurry_exp cps (esize e) e (init c)) as [[e1 s]|] eqn:E; [|congruence]. intro H. split.
  - intros y I. destruct (proj1 max_var_max e 1%positive) as (_ & _ & M). apply M in I. lia.
  - exists s. apply (run_sound cps) in E. assert (e1 = e') by congruence. subst e1. apply (f_equal snd) in H. cbn [snd] in H. subst c'. repeat split. exact E.
Qed.

(** ** The pass is a sequence of such rewrites. *)
Theorem C55_pass_is_rewrites : forall cps e c e' c', uncurry_proto_top cps e c = (Ret e', c') -> uncurry_steps e e'.
Proof.
  intros cps e c e' c' H. apply pass_run in H as (B & s & R & _). eapply chain_steps; [|exact B].
  apply (proj1 (run_chain cps) _ _ _ _ R). exact B.
Qed.
Print Assumptions C55_pass_is_rewrites.

(** ** It succeeds when the counter is above every name, and only then. *)
Theorem C55_total : forall cps e c,
  (exists e' c', uncurry_proto_top cps e c = (Ret e', c')) <-> ((1 < next_var c)%positive /\ forall x, name_in x e -> (x < next_var c)%positive).
Proof.
  intros cps e c. unfold uncurry_proto_top. destruct (proj1 max_var_max e 1%positive) as (M1 & M2 & M3). split.
  - intros (e' & c' & H). destruct (Pos.ltb_spec (max_var e 1) (next_var c)) as [L|L]; [|congruence]. split; [lia|].
    intros x I. apply name_allv, M3 in I. lia.
  - intros [L1 L]. destruct (Pos.ltb_spec (max_var e 1) (next_var c)) as [K|K].
    + destruct (proj1 (run_total cps (esize e)) e (init c) (le_n _)) as (e' & s & ->). eauto.
    + exfalso. destruct M1 as [M1|M1]; [unfold var in *; lia|]. apply name_allv, L in M1. lia.
Qed.
Print Assumptions C55_total.

(** ** So the pass preserves evaluation. *)
Theorem C55_preserves : forall cps e c e' c', uncurry_proto_top cps e c = (Ret e', c') ->
  forall cenv rho rho', (forall x, free x e -> exists v, get x rho = Some v /\ data v /\ get x rho' = Some v) ->
  (forall k v, bstep_fuel cenv rho e k (Res v) ->
     exists k' v', bstep_fuel cenv rho' e' k' (Res v') /\ k <= k' /\ same_shape v v' /\ (data v -> v' = v)) /\
  (diverge cenv rho e -> diverge cenv rho' e') /\
  (not_stuck cenv rho e ->
     not_stuck cenv rho' e' /\
     (forall k' v', bstep_fuel cenv rho' e' k' (Res v') -> exists k v, bstep_fuel cenv rho e k (Res v) /\ same_shape v v' /\ (data v -> v' = v)) /\
     (diverge cenv rho' e' -> diverge cenv rho e)).
Proof. intros cps e c e' c' H. apply C55_rewrites_preserve. eapply C55_pass_is_rewrites. exact H. Qed.
Print Assumptions C55_preserves.

(** ** Names: no variable becomes free; the binders of the program remain, new
    ones come from the counter and are bound once; the counter stays ahead. *)
Theorem C55_names : forall cps e c e' c', uncurry_proto_top cps e c = (Ret e', c') ->
  (forall x, free x e' -> free x e) /\
  (next_var c <= next_var c')%positive /\ below (next_var c') e' /\
  (forall x, (x < next_var c)%positive -> (In x (bv e') <-> In x (bv e))) /\
  (unique e -> unique e').
Proof.
  intros cps e c e' c' H. pose proof (proj1 (uncurry_steps_preserved _ _ (C55_pass_is_rewrites _ _ _ _ _ H))) as FR.
  apply pass_run in H as (B & s & R & N & _). pose proof (proj1 (run_adds cps) _ _ _ _ R) as A. pose proof (g_next _ _ (proj1 (run_grows cps) _ _ _ _ R)) as L.
  cbn [init nextx] in A, L. rewrite N. split; [exact FR|]. split; [exact L|].
  assert (Z : forall z, (next_var c <= z)%positive -> cnt z (bv e) = 0).
  { intros z Lz. apply count_occ_not_In. intro I. assert (J : In z (allv e)) by (apply name_allv; left; exact I). apply B in J. lia. }
  split; [|split].
  - intros x [I|F].
    + destruct (Pos.ltb_spec x (nextx s)) as [L2|L2]; [exact L2|]. exfalso. destruct (A x) as [A1 _].
      apply (count_occ_In Pos.eq_dec) in I. change (cnt x (bv e') > 0) in I. rewrite A1, Z in I by lia. lia.
    + apply FR in F. assert (J : In x (allv e)) by (apply name_allv; right; exact F). apply B in J. lia.
  - intros x Lx. destruct (A x) as [A1 _]. specialize (A1 (or_introl Lx)).
    rewrite !(count_occ_In Pos.eq_dec). change (cnt x (bv e') > 0 <-> cnt x (bv e) > 0). rewrite A1. reflexivity.
  - intro U. assert (U' : forall z, cnt z (bv e) <= 1) by (apply NoDup_count_occ; exact U).
    apply (NoDup_count_occ Pos.eq_dec). intro z. change (cnt z (bv e') <= 1). destruct (A z) as [A1 A2].
    destruct (Pos.ltb_spec z (next_var c)) as [L1|L1]; [rewrite A1 by lia; apply U'|].
    destruct (Pos.ltb_spec z (nextx s)) as [L2|L2]; [|rewrite A1 by lia; apply U'].
    specialize (A2 (conj L1 L2)). rewrite (Z z L1) in A2. exact A2.
Qed.
Print Assumptions C55_names.

(** ** Tables: constructors untouched, calling conventions only added, functions
    and calls agree with the table if they did; every new variable has a name
    to print and the names of old ones are kept. *)
Theorem C55_tables : forall cps e c e' c', uncurry_proto_top cps e c = (Ret e', c') ->
  cenv c' = cenv c /\ nect_ctor_tag c' = nect_ctor_tag c /\ next_ind_tag c' = next_ind_tag c /\ log c' = log c /\
  (next_fun_tag c <= next_fun_tag c')%positive /\
  (forall x, (x < next_var c)%positive -> get x (nenv c') = get x (nenv c)) /\
  (forall x, (next_var c <= x < next_var c')%positive -> get x (nenv c') <> None) /\
  ((forall t i, get t (fenv c) = Some i -> (t < next_fun_tag c)%positive) ->
   (forall t i, get t (fenv c) = Some i -> get t (fenv c') = Some i) /\
   (forall t i, get t (fenv c') = Some i -> (t < next_fun_tag c')%positive) /\
   (conv_ok (fenv c) e -> conv_ok (fenv c') e')).
Proof.
  intros cps e c e' c' H. apply pass_run in H as (B & s & R & E1 & E2 & E3 & E4 & E5 & E6 & E7 & E8). rewrite E1, E2, E3, E4, E5, E6, E7, E8.
  pose proof (proj1 (run_grows cps) _ _ _ _ R) as [G1 G2 G3 G4 G5 G6 G7 G8]. cbn [init nextx cdata] in *.
  split; [exact G4|]. split; [exact G5|]. split; [exact G6|]. split; [exact G7|]. split; [exact G3|].
  split; [intros x L; apply G8; left; exact L|]. split; [intros x L; apply G8; exact L|]. intro T.
  assert (TO : tags_ok (init c)) by (split; [intros k ft Q; discriminate|exact T]). destruct (G2 TO) as [X T']. split; [exact X|]. split; [apply T'|].
  apply (proj1 (run_conv cps) _ _ _ _ R TO).
Qed.
Print Assumptions C55_tables.

(** ** Examples *)

(* f x = (g y = (h z = C x y z)); f a b c, in direct style *)
Definition curried3 : exp :=
  (Econstr 20 1 []
  (Efun (Fcons 1 1 [2]
     (Efun (Fcons 3 1 [4]
        (Efun (Fcons 5 1 [6] (Econstr 7 2 [2; 4; 6] (Ehalt 7)) Fnil) (Ehalt 5)) Fnil) (Ehalt 3)) Fnil)
  (Eletapp 21 1 1 [20] (Eletapp 22 21 1 [20] (Eletapp 23 22 1 [20] (Ehalt 23))))))%positive.
Definition cdata0 : comp_data :=
  mkCompData 24%positive 3%positive 3%positive 2%positive
    [(1, {| ctor_ind_tag := 1; ctor_arity := 0; ctor_ordinal := 0 |}); (2, {| ctor_ind_tag := 2; ctor_arity := 3; ctor_ordinal := 0 |})]%positive
    [(1%positive, (1%N, [0%N]))] [(1%positive, nNamed "f")] [] [].

(* two rewrites: the function made by the first is uncurried again *)
Example C55_example : exists c', uncurry_proto_top false curried3 cdata0 = (Ret
  (Econstr 20 1 []
  (Efun (Fcons 1 1 [25] (Efun (Fcons 3 1 [24] (Eapp 26 2 [24; 25]) Fnil) (Ehalt 3))
        (Fcons 26 2 [28; 29] (Efun (Fcons 5 1 [27] (Eapp 30 3 [27; 28; 29]) Fnil) (Ehalt 5))
        (Fcons 30 3 [6; 4; 2] (Econstr 7 2 [2; 4; 6] (Ehalt 7)) Fnil)))
  (Eletapp 21 1 1 [20] (Eletapp 22 21 1 [20] (Eletapp 23 22 1 [20] (Ehalt 23))))))%positive, c') /\
  next_var c' = 31%positive /\ get 26%positive (nenv c') = Some (nNamed "f_uncurried") /\
  get 3%positive (fenv c') = Some (3%N, [0; 1; 2]%N) /\ get 1%positive (inline_map c') = Some 1.
Proof. eexists. split; [vm_compute; reflexivity|]. repeat split. Qed.

Example C55_example_runs :
  let v := (Vconstr 2 [Vconstr 1 []; Vconstr 1 []; Vconstr 1 []])%positive in
  bstep_fuel (cenv cdata0) [] curried3 12 (Res v) /\
  forall e' c', uncurry_proto_top false curried3 cdata0 = (Ret e', c') -> exists k, bstep_fuel (cenv cdata0) [] e' k (Res v) /\ 12 <= k.
Proof.
  cbn zeta.
  assert (B : bstep_fuel (cenv cdata0) [] curried3 12 (Res (Vconstr 2%positive [Vconstr 1%positive []; Vconstr 1%positive []; Vconstr 1%positive []]))).
  { apply interp_iff. exists 20. vm_compute. reflexivity. }
  split; [exact B|]. intros e' c' H.
  assert (F : forall x, ~ free x curried3) by (intros x F; apply (proj2 (exp_fv_spec curried3 x)) in F; vm_compute in F; exact F).
  destruct (C55_preserves _ _ _ _ _ H (cenv cdata0) [] []) as (P1 & _); [intros x Fx; destruct (F x Fx)|].
  destruct (P1 _ _ B) as (k & v' & E & L & _ & D). rewrite D in E by (cbn; tauto). eauto.
Qed.

(* it meets the hypotheses of the other theorems *)
Example C55_example_hyps : unique curried3 /\ conv_ok (fenv cdata0) curried3 /\
  (forall t i, get t (fenv cdata0) = Some i -> (t < next_fun_tag cdata0)%positive) /\ (1 < next_var cdata0)%positive.
Proof.
  split; [vm_compute; repeat constructor; cbn; intuition discriminate|]. split.
  - repeat split; eexists; (split; [vm_compute; reflexivity|reflexivity]).
  - split; [|vm_compute; reflexivity]. intros t i. cbn. destruct (Pos.eq_dec t 1) as [->|]; [lia|discriminate].
Qed.

(* continuation-passing style: f k x = (g k2 y = k2 (C x y)); k g *)
Definition curried_cps : exp :=
  (Econstr 20 1 []
  (Efun (Fcons 1 1 [30; 2]
     (Efun (Fcons 3 1 [31; 4] (Econstr 7 2 [2; 4] (Eapp 31 2 [7])) Fnil) (Eapp 30 2 [3])) Fnil)
  (Efun (Fcons 8 2 [9] (Ehalt 9) Fnil)
  (Efun (Fcons 10 2 [11] (Eapp 11 1 [8; 20]) Fnil)
  (Eapp 1 1 [10; 20])))))%positive.
Definition cdata1 : comp_data :=
  mkCompData 40%positive 3%positive 3%positive 3%positive [] [(1%positive, (2, [0; 1])%N); (2%positive, (1, [0])%N)] [] [] [].
Example C55_example_cps :
  fst (uncurry_proto_top true curried_cps cdata1) = Ret
  (Econstr 20 1 []
  (Efun (Fcons 1 1 [30; 42]
     (Efun (Fcons 3 1 [40; 41] (Eapp 43 3 [40; 41; 42]) Fnil) (Eapp 30 2 [3]))
     (Fcons 43 3 [31; 4; 2] (Econstr 7 2 [2; 4] (Eapp 31 2 [7])) Fnil))
  (Efun (Fcons 8 2 [9] (Ehalt 9) Fnil)
  (Efun (Fcons 10 2 [11] (Eapp 11 1 [8; 20]) Fnil)
  (Eapp 1 1 [10; 20])))))%positive /\
  fst (uncurry_proto_top false curried_cps cdata1) = Ret curried_cps /\
  (exists k, bstep_fuel [] [] curried_cps k (Res (Vconstr 2%positive [Vconstr 1%positive []; Vconstr 1%positive []]))).
Proof. split; [vm_compute; reflexivity|]. split; [vm_compute; reflexivity|]. eexists. apply interp_iff. exists 20. vm_compute. reflexivity. Qed.

(* the counter must be ahead *)
Example C55_error : exists m, uncurry_proto_top false curried3 (mkCompData 23%positive 3%positive 3%positive 2%positive [] [] [] [] []) = (Err m, mkCompData 23%positive 3%positive 3%positive 2%positive [] [] [] [] []).
Proof. eexists. vm_compute. reflexivity. Qed.

(* the guard is needed: were [g] called in its own body, moving the body out of
   its scope would leave a call to nothing (here [g] calls itself once, on the
   value it is given after the first call) *)
Definition selfcall : exp :=
  (Econstr 20 1 [] (Econstr 19 2 []
  (Efun (Fcons 1 1 [2]
     (Efun (Fcons 3 1 [4] (Ecase 4 [(1, Eapp 3 1 [2]); (2, Ehalt 4)]) Fnil) (Ehalt 3)) Fnil)
  (Eletapp 21 1 1 [19] (Eletapp 22 21 1 [20] (Ehalt 22))))))%positive.
Definition selfcall_wrong : exp :=
  (Econstr 20 1 [] (Econstr 19 2 []
  (Efun (Fcons 1 1 [31]
     (Efun (Fcons 3 1 [30] (Eapp 32 2 [30; 31]) Fnil) (Ehalt 3))
     (Fcons 32 2 [4; 2] (Ecase 4 [(1, Eapp 3 1 [2]); (2, Ehalt 4)]) Fnil))
  (Eletapp 21 1 1 [19] (Eletapp 22 21 1 [20] (Ehalt 22))))))%positive.
Example C55_guard_needed :
  let ce := [(1, {| ctor_ind_tag := 1; ctor_arity := 0; ctor_ordinal := 0 |}); (2, {| ctor_ind_tag := 1; ctor_arity := 0; ctor_ordinal := 1 |})]%positive in
  (exists k, bstep_fuel ce [] selfcall k (Res (Vconstr 2%positive []))) /\
  interp ce 30 [] selfcall_wrong = Stuck /\
  fst (uncurry_proto_top false selfcall (mkCompData 30%positive 3%positive 3%positive 2%positive [] [] [] [] [])) = Ret selfcall.
Proof.
  cbn zeta. split; [eexists; apply interp_iff; exists 30; vm_compute; reflexivity|]. split; vm_compute; reflexivity.
Qed.
