(** * Properties of closure conversion (C28) *)
From Coq Require Import List Arith NArith PArith Bool Lia.
From Verif Require Import ANF_Syntax ANF_Eval ANF_Spec ANF_Scope ANF_EvalProofs ANF_FreeProofs Hoist_Model Hoist_Spec Properties_Hoist
  CC_Model CC_Spec CC_Proofs CC_Scope CC_Top.
Import ListNotations.

(** ** C28: every function is closed, but for functions of its own bundle and
    known closed functions; for every program, also an ill-scoped one *)
Theorem C28_functions_closed : forall clo_tag clo_itag e s e' s',
  closure_conversion_top clo_tag clo_itag e s = (e', s') ->
  forall B z, In B (bundles e') -> free_funs z B -> closed_fun (bundles e') z.
Proof. intros clo_tag clo_itag e s e' s' H B z. eapply top_closed. exact H. Qed.
Print Assumptions C28_functions_closed.

(** The conversion keeps the functions, in order, and their names. *)
Theorem C28_functions_kept : forall clo_tag clo_itag e s e' s',
  closure_conversion_top clo_tag clo_itag e s = (e', s') ->
  List.map fname (defs_of e') = List.map fname (defs_of e).
Proof. intros clo_tag clo_itag e s e' s' H. eapply top_names. exact H. Qed.
Print Assumptions C28_functions_kept.

(** No variable becomes free. *)
Theorem C28_no_new_free : forall clo_tag clo_itag e s e' s',
  closure_conversion_top clo_tag clo_itag e s = (e', s') -> forall z, free z e' -> free z e.
Proof. intros clo_tag clo_itag e s e' s' H z. eapply top_free. exact H. Qed.
Print Assumptions C28_no_new_free.

(** Names stay unique: the binders of the program remain, those that are added
    are new and each is bound once. *)
Theorem C28_unique : forall clo_tag clo_itag e s e' s',
  closure_conversion_top clo_tag clo_itag e s = (e', s') -> unique e -> below (nv s) e ->
  unique e' /\ below (nv s') e' /\
  (forall x, (x < nv s)%positive -> (In x (bv e') <-> In x (bv e))).
Proof.
  intros clo_tag clo_itag e s e' s' H U B. pose proof (top_adds _ _ _ _ _ _ H) as A. pose proof (top_nv _ _ _ _ _ _ H) as L.
  assert (Z : forall z, (nv s <= z)%positive -> cnt z (bv e) = 0).
  { intros z Lz. apply count_occ_not_In. intro I. specialize (B z (or_introl I)). lia. }
  assert (U' : forall z, cnt z (bv e) <= 1) by (apply NoDup_count_occ; exact U).
  split; [|split].
  - unfold unique. apply (NoDup_count_occ Pos.eq_dec). intro z. change (cnt z (bv e') <= 1). destruct (A z) as [A1 A2].
    destruct (Pos.ltb_spec z (nv s)) as [L1|L1]; [rewrite A1 by lia; apply U'|].
    destruct (Pos.ltb_spec z (nv s')) as [L2|L2]; [|rewrite A1 by lia; apply U'].
    specialize (A2 (conj L1 L2)). rewrite (Z z L1) in A2. exact A2.
  - intros x [I|F].
    + destruct (Pos.ltb_spec x (nv s')) as [L2|L2]; [exact L2|]. exfalso. destruct (A x) as [A1 _].
      apply (count_occ_In Pos.eq_dec) in I. change (cnt x (bv e') > 0) in I. rewrite A1, Z in I by lia. lia.
    + apply (top_free _ _ _ _ _ _ H) in F. specialize (B x (or_intror F)). lia.
  - intros x Lx. destruct (A x) as [A1 _]. specialize (A1 (or_introl Lx)).
    rewrite !(count_occ_In Pos.eq_dec). change (cnt x (bv e') > 0 <-> cnt x (bv e) > 0). rewrite A1. reflexivity.
Qed.
Print Assumptions C28_unique.

(** So hoisting is legal. *)
Lemma bundle_names :
  (forall e B z, In B (bundles e) -> In z (fnames B) -> In z (List.map fname (defs_of e))) /\
  (forall D, (forall z, In z (fnames D) -> In z (List.map fname (defs_of_funs D))) /\
     forall B z, In B (bundles_funs D) -> In z (fnames B) -> In z (List.map fname (defs_of_funs D))).
Proof.
  apply exp_fundefs_ind; cbn [bundles bundles_funs defs_of defs_of_funs fnames]; try (intros; contradiction); auto.
  - intros x l IH B z. induction IH as [|p l H _ IHl]; cbn [flat_map]; [intros []|]. rewrite map_app. intros I J. apply in_or_app.
    apply in_app_or in I as [I|I]; [left; eauto|right; auto].
  - intros B e [H1 H2] IH D z [<-|I] J; rewrite map_app; apply in_or_app; [left; auto|].
    apply in_app_or in I as [I|I]; [left; eauto|right; eauto].
  - intros f t xs e B IH [H1 H2]. cbn [List.map]. rewrite map_app. split.
    + intros z [<-|I]; [left; reflexivity|right; apply in_or_app; right; auto].
    + intros D z I J. right. apply in_or_app. apply in_app_or in I as [I|I]; [left; eauto|right; eauto].
Qed.
Theorem C28_hoistable : forall clo_tag clo_itag e s e' s',
  closure_conversion_top clo_tag clo_itag e s = (e', s') -> unique e -> below (nv s) e -> (forall x, free x e -> ~ In x (bv e)) ->
  hoistable e'.
Proof.
  intros clo_tag clo_itag e s e' s' H U B F. destruct (C28_unique _ _ _ _ _ _ H U B) as (U' & _ & K). split; [exact U'|]. split.
  - intros x Fx I. apply (top_free _ _ _ _ _ _ H) in Fx. apply (F x Fx). apply K; [apply B; auto|exact I].
  - intros D x I Fx. destruct (C28_functions_closed _ _ _ _ _ _ H D x I Fx) as [D' I' J _]. eapply (proj1 bundle_names); eauto.
Qed.
Print Assumptions C28_hoistable.

(** ** Evaluation: results are the same up to functions becoming closures, data
    is unchanged; divergence is preserved; and back when the source does not go
    wrong.  Free variables may hold data. *)
Theorem C28_preserves : forall clo_tag clo_itag e s e' s',
  closure_conversion_top clo_tag clo_itag e s = (e', s') -> unique e -> below (nv s) e ->
  tags_below (nct s) (tbl s) -> (clo_tag < nct s)%positive -> get clo_tag (tbl s) = None ->
  forall rho rho', (forall x, free x e -> exists v, get x rho = Some v /\ data v /\ get x rho' = Some v) ->
  (forall c v, bstep_fuel (tbl s) rho e c (Res v) ->
     exists c' v', bstep_fuel (tbl s') rho' e' c' (Res v') /\ same_val clo_tag v v' /\ (data v -> v' = v)) /\
  (diverge (tbl s) rho e -> diverge (tbl s') rho' e') /\
  (not_stuck (tbl s) rho e ->
     not_stuck (tbl s') rho' e' /\
     (forall c' v', bstep_fuel (tbl s') rho' e' c' (Res v') -> exists c v, bstep_fuel (tbl s) rho e c (Res v) /\ same_val clo_tag v v') /\
     (diverge (tbl s') rho' e' -> diverge (tbl s) rho e)).
Proof.
  intros clo_tag clo_itag e s e' s' H U B TB L N rho rho' RV. pose proof (top_sim _ _ _ _ _ _ H U B N TB L rho rho' RV) as SIM.
  assert (R1 : forall c v, bstep_fuel (tbl s) rho e c (Res v) ->
     exists c' v', bstep_fuel (tbl s') rho' e' c' (Res v') /\ same_val clo_tag v v' /\ (data v -> v' = v)).
  { intros c v E. destruct (SIM _ _ E) as (c' & [|v'] & E' & _ & R); [destruct R|]. exists c', v'. split; [exact E'|]. split; [exact R|].
    intro D. eapply same_data; eauto. }
  assert (R2 : diverge (tbl s) rho e -> diverge (tbl s') rho' e').
  { intros D c. destruct (SIM _ _ (D c)) as (c' & [|v'] & E' & L' & R); [|destruct R].
    destruct (Nat.eq_dec c c') as [->|]; [exact E'|]. eapply bstep_fuel_oot_less; [exact E'|lia]. }
  split; [exact R1|]. split; [exact R2|]. intros [(c & v & E)|D].
  - destruct (R1 c v E) as (c2 & v2 & E2 & V & _). split; [left; eauto|]. split.
    + intros c' v' E'. destruct (bstep_fuel_det _ _ _ _ _ _ _ E' E2) as [-> ->]. eauto.
    + intros D. exfalso. specialize (D c2). pose proof (bstep_fuel_oot_lt _ _ _ _ _ _ D E2). lia.
  - split; [right; exact (R2 D)|]. split; [|auto]. intros c' v' E'. exfalso. specialize (R2 D c').
    pose proof (bstep_fuel_oot_lt _ _ _ _ _ _ R2 E'). lia.
Qed.
Print Assumptions C28_preserves.

(** ** The constructor table: old entries stay, the closure tag is a record of
    two fields, and every record the pass builds has the fields its tag says. *)
Theorem C28_tables : forall clo_tag clo_itag e s e' s',
  closure_conversion_top clo_tag clo_itag e s = (e', s') ->
  tags_below (nct s) (tbl s) -> (clo_tag < nct s)%positive -> get clo_tag (tbl s) = None ->
  (forall t i, get t (tbl s) = Some i -> get t (tbl s') = Some i) /\ tags_below (nct s') (tbl s') /\
  (exists i, get clo_tag (tbl s') = Some i /\ ctor_arity i = 2%N) /\
  (arities (tbl s) e -> arities (tbl s') e').
Proof.
  intros clo_tag clo_itag e s e' s' H TB L N. destruct (top_tables _ _ _ _ _ _ H TB L N) as (X & TB' & _ & G & A).  unfold extends in X.
  split; [exact X|]. split; [exact TB'|]. split; [eexists; split; [exact G|reflexivity]|]. intro A0. apply A.
  assert (M : (forall e, arities (tbl s) e -> arities (tbl s') e) /\ (forall B, arities_funs (tbl s) B -> arities_funs (tbl s') B)); [|apply M; exact A0].
  clear A A0 H. apply exp_fundefs_ind; cbn [arities arities_funs]; auto.
  - intros x t ys e0 IH [(i & E1 & E2) A]. split; [exists i; auto|auto].
  - intros x l IH. induction IH as [|p l H _ IHl]; [auto|]. intros [[(i & E1) A1] A2]. split; [split; [exists i; auto|apply H; exact A1]|exact (IHl A2)].
  - intros D e0 IHB IH [A1 A2]. auto.
  - intros f t xs e0 D IH IHB [A1 A2]. auto.
Qed.
Print Assumptions C28_tables.

(** ** With hoisting (theories/LambdaANF/hoisting.v:97-102
    closure_conversion_hoist): the two passes together preserve evaluation. *)
Theorem C28_then_hoist : forall clo_tag clo_itag e s e' s',
  closure_conversion_top clo_tag clo_itag e s = (e', s') -> unique e -> below (nv s) e -> (forall x, ~ free x e) ->
  tags_below (nct s) (tbl s) -> (clo_tag < nct s)%positive -> get clo_tag (tbl s) = None ->
  let e'' := fst (exp_hoist e') in
  (forall c v, bstep_fuel (tbl s) [] e c (Res v) ->
     exists c' v', bstep_fuel (tbl s') [] e'' c' (Res v') /\
       (exists w, same_val clo_tag v w /\ hval e' (bundle_of e'') [] w v') /\ (data v -> v' = v)) /\
  (diverge (tbl s) [] e -> diverge (tbl s') [] e'') /\
  (not_stuck (tbl s) [] e ->
     (forall c' v', bstep_fuel (tbl s') [] e'' c' (Res v') -> exists c v, bstep_fuel (tbl s) [] e c (Res v) /\ (data v -> v' = v)) /\
     (diverge (tbl s') [] e'' -> diverge (tbl s) [] e)).
Proof.
  intros clo_tag clo_itag e s e' s' H U B F TB L N e''.
  destruct (C28_preserves _ _ _ _ _ _ H U B TB L N [] [] ltac:(intros x Fx; destruct (F x Fx))) as (P1 & P2 & P3).
  assert (HH : hoistable e') by (eapply C28_hoistable; [exact H|exact U|exact B|intros x Fx; destruct (F x Fx)]).
  destruct (exp_hoist e') as [e2 n] eqn:EH. cbn [fst] in e''. subst e''. destruct (C27_hoist_preserves (tbl s') [] e' e2 n HH EH) as (Q1 & Q2 & Q3).
  assert (R1 : forall c v, bstep_fuel (tbl s) [] e c (Res v) ->
     exists c' v', bstep_fuel (tbl s') [] e2 c' (Res v') /\ (exists w, same_val clo_tag v w /\ hval e' (bundle_of e2) [] w v') /\ (data v -> v' = v)).
  { intros c v E. destruct (P1 c v E) as (c1 & v1 & E1 & V1 & D1). destruct (Q1 c1 v1 E1) as (c2 & v2 & E2 & _ & _ & V2 & D2).
    exists c2, v2. split; [exact E2|]. split; [eauto|]. intro D. specialize (D1 D). subst v1. auto. }
  split; [exact R1|]. split; [auto|]. intros NS. destruct (P3 NS) as (NS' & P4 & P5). destruct (Q3 NS') as (Q4 & Q5). split; [|auto].
  intros c' v' E'. destruct (Q4 c' v' E') as (c1 & v1 & E1 & _). destruct (P4 c1 v1 E1) as (c & v & E & _).
  exists c, v. split; [exact E|]. intro D. destruct (R1 c v E) as (c2 & v2 & E2 & _ & D2).
  destruct (bstep_fuel_det _ _ _ _ _ _ _ E' E2) as [Qa Qb]. assert (v' = v2) by congruence. subst v'. auto.
Qed.
Print Assumptions C28_then_hoist.

(** ** Examples *)
Local Open Scope positive_scope.
(** A function that returns a closure over its argument, a mutually recursive
    closed bundle, and a function used as a value from inside another. *)
Definition cc_cenv : ctor_env :=
  [(2, {| ctor_ind_tag := 2; ctor_arity := 0; ctor_ordinal := 0 |});
   (3, {| ctor_ind_tag := 3; ctor_arity := 2; ctor_ordinal := 0 |})].
Definition cc_state : cst := mkst 100 20 20 cc_cenv.
Definition cc_ex : exp :=
  Efun (Fcons 10 7 [11] (Efun (Fcons 12 7 [13] (Econstr 14 3 [11; 13] (Ehalt 14)) Fnil) (Ehalt 12)) Fnil)
    (Econstr 20 2 []
       (Eletapp 21 10 7 [20]
          (Efun (Fcons 30 7 [31] (Eletapp 32 21 7 [31] (Eletapp 33 10 7 [32] (Eapp 33 7 [20]))) Fnil)
             (Eletapp 22 30 7 [20] (Ehalt 22))))).
Definition cc_out : exp * cst := closure_conversion_top 15 16 cc_ex cc_state.

(** the inner closures really have environments, and the function used inside
    another is rebuilt as a closure *)
Example C28_example : exists B1 B2 B3,
  bundles (fst cc_out) = [B1; B2; B3] /\
  fnames B1 = [10] /\ fnames B2 = [12] /\ fnames B3 = [30] /\
  exp_fv (fst cc_out) = [] /\ fundefs_fv B1 = [] /\ fundefs_fv B2 = [] /\ fundefs_fv B3 = [10].
Proof. do 3 eexists. split; [vm_compute; reflexivity|]. repeat split; vm_compute; reflexivity. Qed.

Example C28_example_hypotheses :
  unique cc_ex /\ below 100 cc_ex /\ (forall x, ~ free x cc_ex) /\ tags_below 20 cc_cenv /\ 15 < 20 /\ get 15 cc_cenv = None /\ arities cc_cenv cc_ex.
Proof.
  assert (F : forall x, ~ free x cc_ex) by (intros x H; apply exp_fv_spec in H; vm_compute in H; exact H).
  split; [|split; [|split; [exact F|split; [|split; [reflexivity|split; [reflexivity|]]]]]].
  - unfold unique, cc_ex. cbn [bv bv_funs app].
    repeat constructor; cbn; intuition discriminate.
  - intros x [I|H]; [|destruct (F x H)]. cbn in I. decompose [or] I; subst; reflexivity || contradiction.
  - intros t i E. cbn in E. repeat (destruct (Pos.eq_dec t _); [subst; reflexivity|]). discriminate.
  - cbn. repeat split; eauto.
Qed.

Example C28_example_runs :
  let v := Vconstr 3 [Vconstr 3 [Vconstr 2 []; Vconstr 2 []]; Vconstr 2 []] in
  (exists c, bstep_fuel cc_cenv [] cc_ex c (Res v)) /\
  (exists c, bstep_fuel (tbl (snd cc_out)) [] (fst cc_out) c (Res v)) /\
  (exists c, bstep_fuel (tbl (snd cc_out)) [] (fst (exp_hoist (fst cc_out))) c (Res v)).
Proof. repeat split; eexists; apply interp_iff; exists 60%nat; vm_compute; reflexivity. Qed.

(** Unique names are needed: where the name of a closed function is bound
    again, a function that uses the new binding gets the old function. *)
Definition cc_clash : exp :=
  Efun (Fcons 10 7 [11] (Ehalt 11) Fnil)
    (Econstr 10 2 [] (Efun (Fcons 12 7 [13] (Ehalt 10) Fnil) (Eapp 12 7 [10]))).
Example C28_unique_needed : exists c c' w,
  bstep_fuel cc_cenv [] cc_clash c (Res (Vconstr 2 [])) /\
  bstep_fuel (tbl (snd (closure_conversion_top 15 16 cc_clash cc_state))) [] (fst (closure_conversion_top 15 16 cc_clash cc_state)) c' (Res (Vconstr 15 w)).
Proof. do 3 eexists. split; apply interp_iff; exists 60%nat; vm_compute; reflexivity. Qed.
