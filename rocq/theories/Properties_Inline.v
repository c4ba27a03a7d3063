(** * Properties of renaming and inlining (C25, C31, C32, C60) *)
From Coq Require Import ZArith NArith Arith List Lia Bool.
From Verif Require Import ANF_Syntax ANF_Eval ANF_Spec ANF_EvalProofs ANF_FreeProofs ANF_Scope
  ANF_LR ANF_LRProofs ANF_Subst ANF_Alpha Inline_Model Inline_LetProofs Inline_Syn Inline_Sem
  Inline_Spec Inline_Obs Properties_ANF.
Import ListNotations.

(** ** C32: renaming commutes with evaluation *)
Lemma same_res_outcome cenv rho e rho' e' :
  (forall c r, bstep_fuel cenv rho e c r -> exists r', bstep_fuel cenv rho' e' c r' /\ same_res cenv r r') ->
  (forall c r', bstep_fuel cenv rho' e' c r' -> exists r, bstep_fuel cenv rho e c r /\ same_res cenv r' r) ->
  (forall c r, bstep_fuel cenv rho e c r -> exists r', bstep_fuel cenv rho' e' c r' /\ same_outcome cenv r r').
Proof.
  intros H1 H2 c r B. destruct (H1 c r B) as (r' & B' & S). exists r'. split; [auto|].
  destruct r as [|v], r' as [|v']; cbn in *; try tauto. destruct S as [V D].
  destruct (H2 c (Res v') B') as ([|v0] & B0 & S0); [destruct S0|]. destruct S0 as [V0 D0].
  destruct (bstep_fuel_det _ _ _ _ _ _ _ B B0) as [<- _].
  split; [apply refines_eqc; auto|]. split; [apply refines_eqc; auto|]. auto.
Qed.

Lemma same_outcome_sym cenv r r' : same_outcome cenv r r' -> same_outcome cenv r' r.
Proof. destruct r, r'; cbn; tauto. Qed.

Theorem C32_rename : forall cenv sg e rho rho',
  (* no capture *)
  (forall x y, free x e -> get x sg = Some y -> ~ In y (bv e)) ->
  (* [rho] is [rho'] looked up through the renaming *)
  (forall x, free x e -> get x rho = get (apply_r sg x) rho') ->
  (forall c r, bstep_fuel cenv rho e c r ->
     exists r', bstep_fuel cenv rho' (rename_all sg e) c r' /\ same_outcome cenv r r') /\
  (forall c r', bstep_fuel cenv rho' (rename_all sg e) c r' ->
     exists r, bstep_fuel cenv rho e c r /\ same_outcome cenv r r') /\
  (* the variant for renamings away from the binders computes the same program *)
  ((forall x, In x (bv e) -> get x sg = None) -> rename_all_ns sg e = rename_all sg e).
Proof.
  intros cenv sg e rho rho' C E. destruct (rename_sem cenv sg e rho rho' C E) as [R1 R2].
  split; [|split].
  - apply same_res_outcome; auto.
  - intros c r' B. destruct (same_res_outcome _ _ _ _ _ R2 R1 c r' B) as (r & B' & S).
    exists r. split; [auto|]. apply same_outcome_sym. exact S.
  - apply rename_ns_eq.
Qed.
Print Assumptions C32_rename.

Local Open Scope positive_scope.

(** swap [5] and [6]; the inner binder [5] shadows and is not renamed *)
Definition ex_ren : exp :=
  Econstr 7 2 [5; 6] (Efun (Fcons 8 1 [5] (Econstr 9 3 [5; 6] (Ehalt 9)) Fnil) (Eapp 8 1 [7])).
Definition ex_sg : subst := [(5, 16); (6, 5)].

Example C32_example :
  (forall x y, free x (Econstr 7 2 [5; 6] (Ehalt 7)) -> get x ([(5, 6); (6, 5)] : subst) = Some y ->
     ~ In y (bv (Econstr 7 2 [5; 6] (Ehalt 7)))) /\
  rename_all [(5, 6); (6, 5)] (Econstr 7 2 [5; 6] (Ehalt 7)) = Econstr 7 2 [6; 5] (Ehalt 7) /\
  (forall x y, free x ex_ren -> get x [(5, 16); (6, 17)] = Some y -> ~ In y (bv ex_ren)) /\
  rename_all [(5, 16); (6, 17)] ex_ren =
    Econstr 7 2 [16; 17] (Efun (Fcons 8 1 [5] (Econstr 9 3 [5; 17] (Ehalt 9)) Fnil) (Eapp 8 1 [7])) /\
  bstep_fuel [] [(16, Vint 1); (17, Vint 2)] (rename_all [(5, 16); (6, 17)] ex_ren) 5
    (Res (Vconstr 3 [Vconstr 2 [Vint 1; Vint 2]; Vint 2])) /\
  (* renaming [6] to [5] would be captured by the parameter *)
  ~ (forall x y, free x ex_ren -> get x ex_sg = Some y -> ~ In y (bv ex_ren)).
Proof.
  split; [|split; [reflexivity|split; [|split; [reflexivity|split]]]].
  - intros x y F G. cbn [get] in G. destruct (Pos.eq_dec x 5); [injection G as <-; cbn; intuition discriminate|].
    destruct (Pos.eq_dec x 6); [injection G as <-; cbn; intuition discriminate|discriminate].
  - intros x y F G. cbn [get] in G. destruct (Pos.eq_dec x 5); [injection G as <-; cbn; intuition discriminate|].
    destruct (Pos.eq_dec x 6); [injection G as <-; cbn; intuition discriminate|discriminate].
  - apply interp_iff. exists 20%nat. vm_compute. reflexivity.
  - intro K. apply (K 6 5); [|reflexivity|cbn; tauto]. apply exp_fv_spec. vm_compute. tauto.
Qed.
Local Close Scope positive_scope.

(** ** C31: a bound call replaced by the body of the function *)
Lemma letapp_straight : forall e z, (exists p, inline_letapp e z = Some p) <-> straight e.
Proof.
  induction e using exp_ind2 with (P0 := fun _ => True); try exact I; intro z; cbn [inline_letapp straight];
    try (split; [intros [? ?]; discriminate|tauto]);
    try (split; [tauto|eauto]);
    match goal with
    | K : forall z, _ <-> straight ?e |- _ <-> straight ?e =>
        rewrite <- (K z); destruct (inline_letapp e z) as [[? ?]|]; split; intros [? ?]; eauto; discriminate
    end.
Qed.

Theorem C31_inline_letapp : forall cenv body z,
  (* it succeeds on every body that ends without branching *)
  ((exists C x', inline_letapp body z = Some (C, x')) <-> straight body) /\
  forall C x' x ec rho,
  inline_letapp body z = Some (C, x') ->
  (* what follows refers to nothing the body binds, and does not bind the result *)
  (forall y, free y ec -> y <> x -> y <> z /\ ~ In y (bv body)) ->
  ~ In x' (bv ec) ->
  (* the body returns [v]: then the context continues as [ec] with [x] bound to [v] *)
  (forall c1 v, bstep_fuel cenv rho body c1 (Res v) ->
     exists c0, c0 <= c1 <= c0 + 1 /\
     (forall c2 r, bstep_fuel cenv (set x v rho) ec c2 r ->
        exists r', bstep_fuel cenv rho (app_ctx_f C (rename x' x ec)) (c0 + c2) r' /\ same_outcome cenv r r') /\
     (forall c2 r', bstep_fuel cenv rho (app_ctx_f C (rename x' x ec)) (c0 + c2) r' ->
        exists r, bstep_fuel cenv (set x v rho) ec c2 r /\ same_outcome cenv r r')) /\
  (* the body runs out of fuel: so does the context *)
  (forall c, bstep_fuel cenv rho body c OOT ->
     bstep_fuel cenv rho (app_ctx_f C (rename x' x ec)) c OOT).
Proof.
  intros cenv body z. split.
  { rewrite <- (letapp_straight body z). split; [intros (C & x' & H); eauto|intros ([C x'] & H); eauto]. }
  intros C x' x ec rho IL HF HX.
  destruct (letapp_rename cenv body z C x' x ec rho IL HF HX) as [R1 R2]. split; [|exact R2].
  intros c1 v B. destruct (R1 c1 v B) as (c0 & LE & F1 & F2). exists c0. split; [exact LE|].
  assert (SO : forall c2 r r', bstep_fuel cenv (set x v rho) ec c2 r ->
     bstep_fuel cenv rho (app_ctx_f C (rename x' x ec)) (c0 + c2) r' -> same_res cenv r r' -> same_res cenv r' r ->
     same_outcome cenv r r').
  { intros c2 [|u] [|u'] Bu Bu' S1 S2; cbn in *; try tauto. destruct S1, S2.
    split; [apply refines_eqc; auto|]. split; [apply refines_eqc; auto|]. auto. }
  assert (DT : forall rho e c r r', bstep_fuel cenv rho e c r -> bstep_fuel cenv rho e c r' -> r = r').
  { intros rho0 e c [|u] [|u'] B1 B2; auto.
    - pose proof (bstep_fuel_oot_lt _ _ _ _ _ _ B1 B2). lia.
    - pose proof (bstep_fuel_oot_lt _ _ _ _ _ _ B2 B1). lia.
    - destruct (bstep_fuel_det _ _ _ _ _ _ _ B1 B2) as [-> _]. auto. }
  split.
  - intros c2 r Br. destruct (F1 c2 r Br) as (r' & Br' & S). exists r'. split; [auto|].
    destruct (F2 c2 r' Br') as (r0 & Br0 & S0). rewrite (DT _ _ _ _ _ Br0 Br) in S0.
    eapply SO; eauto.
  - intros c2 r' Br'. destruct (F2 c2 r' Br') as (r & Br & S). exists r. split; [auto|].
    destruct (F1 c2 r Br) as (r0 & Br0 & S0). rewrite (DT _ _ _ _ _ Br0 Br') in S0.
    eapply SO; eauto.
Qed.
Print Assumptions C31_inline_letapp.

Local Open Scope positive_scope.
(** the body pairs its argument and calls [30] on the pair; then a field of the
    result is taken *)
Definition ex_body : exp := Econstr 21 2 [20; 20] (Eapp 30 1 [21]).
Definition ex_cont : exp := Eproj 41 2 0 40 (Econstr 42 3 [41; 20] (Ehalt 42)).

Example C31_example :
  exists C, inline_letapp ex_body 50 = Some (C, 50) /\
  app_ctx_f C (rename 50 40 ex_cont) =
    Econstr 21 2 [20; 20] (Eletapp 50 30 1 [21] (Eproj 41 2 0 50 (Econstr 42 3 [41; 20] (Ehalt 42)))) /\
  (forall y, free y ex_cont -> y <> 40 -> y <> 50 /\ ~ In y (bv ex_body)) /\ ~ In 50 (bv ex_cont) /\
  let rho := [(20, Vint 7); (30, Vfun [] (Fcons 30 1 [31] (Ehalt 31) Fnil) 30)] in
  bstep_fuel [] rho ex_body 3 (Res (Vconstr 2 [Vint 7; Vint 7])) /\
  bstep_fuel [] rho (app_ctx_f C (rename 50 40 ex_cont)) 6 (Res (Vconstr 3 [Vint 7; Vint 7])).
Proof.
  eexists. split; [reflexivity|]. split; [reflexivity|]. split; [|split; [|split]].
  - intros y F N. apply exp_fv_spec in F. vm_compute in F. destruct F as [<-|[<-|[]]]; try congruence.
    split; [discriminate|]. cbn. intuition discriminate.
  - cbn. intuition discriminate.
  - apply interp_iff. exists 20%nat. vm_compute. reflexivity.
  - apply interp_iff. exists 20%nat. vm_compute. reflexivity.
Qed.
Local Close Scope positive_scope.

(** ** C60: inlining preserves evaluation, whatever the heuristic decides *)
Lemma max_elt_ge l x : In x l -> exists m, max_elt l = Some m /\ (x <= m)%positive.
Proof.
  induction l as [|y l IH]; [intros []|]. cbn [max_elt]. intros [->|I].
  - destruct (max_elt l); eexists; (split; [reflexivity|lia]).
  - destruct (IH I) as (m & E & L). rewrite E. eexists. split; [reflexivity|lia].
Qed.

Lemma restart_above max_var e : (max_var < restart_names max_var e)%positive /\
  forall x, free x e -> (x < restart_names max_var e)%positive.
Proof.
  split.
  - unfold restart_names. destruct (max_elt (exp_fv e)); lia.
  - intros x F. apply exp_fv_spec in F. destruct (max_elt_ge _ _ F) as (m & E & L).
    unfold restart_names. rewrite E. lia.
Qed.

Section Top.
  Variables (St : Type) (IH : InlineHeuristic St) (max_var : var) (d : nat) (s : St) (e : exp).
  Let e' := fst (inline_top' St IH max_var d s e).
  Let w0 := {| clicked := false; next_var := restart_names max_var e |}.

  Lemma below_top : below e [] [] w0.
  Proof.
    intros y [F|(f & dd & G & _)]; [|discriminate]. cbn. apply (proj2 (restart_above max_var e)). exact F.
  Qed.

  Lemma inline_top_sem : NoDup (bv e) -> (forall x, In x (bv e) -> ~ free x e) -> forall cenv rho k,
    erel cenv (vrel cenv (lin (2 * d + 1) (2 * d))) (lin (2 * d + 1) (2 * d)) k rho e rho e'.
  Proof.
    intros ND FR cenv rho k. unfold e', inline_top'.
    destruct (inline_exp St IH d d e [] [] s _) as [e1 w'] eqn:E. cbn [fst].
    eapply (inline_sem cenv (2 * d + 1) (2 * d) ltac:(lia) St IH d d e); [exact E|lia| | | |].
    - intros f dd G. discriminate.
    - split; [exact ND|]. split; [exact FR|]. intros f dd G. discriminate.
    - apply below_top.
    - split.
      + intros y _. apply arel_refl. lia.
      + destruct d; [exact I|]. cbn. intros f dd v _ G. discriminate.
  Qed.

  Lemma inline_top_syn : NoDup (bv e) ->
    NoDup (bv e') /\ (forall x, In x (bv e') -> (restart_names max_var e <= x)%positive) /\
    (forall x, free x e' -> free x e).
  Proof.
    intro ND. unfold e', inline_top'.
    destruct (inline_exp St IH d d e [] [] s _) as [e1 w'] eqn:E. cbn [fst].
    destruct (inline_syn St IH d _ _ _ _ _ _ _ _ E) as (A1 & A2 & A3 & A4).
    - apply below_top.
    - apply NoDup_bundles. exact ND.
    - intros f t xs b G. discriminate.
    - split; [exact A2|]. split.
      + intros x I. apply A3 in I. cbn in I. lia.
      + intros x F. destruct (A4 x F) as (y & [Fy|(f & dd & G & _)] & ->); [|discriminate]. exact Fy.
  Qed.
End Top.

Theorem C60_inline : forall St (IH : InlineHeuristic St) max_var d s e,
  (* names are bound once and not both bound and free, as the compiler keeps them *)
  NoDup (bv e) -> (forall x, In x (bv e) -> ~ free x e) ->
  let e' := fst (inline_top' St IH max_var d s e) in
  forall cenv rho,
  (* results *)
  (forall c v, bstep_fuel cenv rho e c (Res v) -> exists c' v',
     bstep_fuel cenv rho e' c' (Res v') /\ refines cenv v v' /\ (data v -> v' = v) /\
     c <= (2 * d + 1) * c') /\
  (* divergence *)
  (diverge cenv rho e -> diverge cenv rho e') /\
  (* nothing new, for programs that do not get stuck *)
  (not_stuck cenv rho e ->
     (forall c' v', bstep_fuel cenv rho e' c' (Res v') -> exists c v,
        bstep_fuel cenv rho e c (Res v) /\ refines cenv v v' /\ (data v -> v' = v)) /\
     (diverge cenv rho e' -> diverge cenv rho e)).
Proof.
  intros St IH max_var d s e ND FR e' cenv rho.
  pose proof (inline_top_sem St IH max_var d s e ND FR cenv rho) as H.
  assert (R : forall v v', (forall k, vrel cenv (lin (2 * d + 1) (2 * d)) k v v') -> refines cenv v v').
  { intros v v' V. eapply refines_lin; [|exact V]. lia. }
  split; [|split].
  - intros c v B. destruct (adequacy_res cenv _ _ _ _ _ _ _ H c v B) as (c' & v' & B' & V & D).
    exists c', v'. split; [exact B'|]. split; [auto|]. split; [auto|].
    pose proof (adequacy_cost cenv _ _ _ _ _ _ _ H c v c' v' B B') as L.
    pose proof (bstep_fuel_pos _ _ _ _ _ B'). unfold e'. nia.
  - exact (adequacy_div cenv _ _ _ _ _ _ _ H).
  - intro NS. destruct (adequacy_back cenv _ _ _ _ _ _ _ H NS) as [B1 B2]. split; [|exact B2].
    intros c' v' B'. destruct (B1 c' v' B') as (c & v & B & V & D). exists c, v. auto.
Qed.
Print Assumptions C60_inline.

(** ** C25 (in part): the inliner's names *)
Theorem C25_inline_names : forall St (IH : InlineHeuristic St) max_var d s e,
  NoDup (bv e) ->
  let e' := fst (inline_top' St IH max_var d s e) in
  (* bound once, never free in input or output, and not reserved *)
  NoDup (bv e') /\
  (forall x, In x (bv e') -> (max_var < x)%positive /\ ~ free x e /\ ~ free x e') /\
  (* no new free variable *)
  (forall x, free x e' -> free x e).
Proof.
  intros St IH max_var d s e ND e'.
  destruct (inline_top_syn St IH max_var d s e ND) as (A1 & A2 & A3).
  destruct (restart_above max_var e) as [R1 R2].
  split; [exact A1|]. split; [|exact A3]. intros x I. apply A2 in I.
  split; [lia|]. assert (N : ~ free x e) by (intro F; apply R2 in F; lia). split; [exact N|].
  intro F. apply N. apply A3. exact F.
Qed.
Print Assumptions C25_inline_names.

Local Open Scope positive_scope.
(** the heuristic "inline everything"; [12] and [13] call each other, [13] by a
    bound call and a tail call *)
Definition inline_all : InlineHeuristic unit :=
  {| update_funDef := fun _ _ _ => (tt, tt); update_inFun := fun _ _ _ _ _ _ => tt;
     update_App := fun _ _ _ _ => (tt, true); update_letApp := fun _ _ _ _ => (tt, tt, true) |}.

Definition ex_inl : exp :=
  Efun (Fcons 12 1 [20] (Econstr 21 3 [20; 5] (Ehalt 21))
       (Fcons 13 1 [22] (Eletapp 23 12 1 [22] (Eproj 24 3 0 23 (Eapp 12 1 [24]))) Fnil))
    (Econstr 25 2 [] (Eletapp 26 13 1 [25] (Eapp 12 1 [26]))).

Example C60_example :
  NoDup (bv ex_inl) /\ (forall x, In x (bv ex_inl) -> ~ free x ex_inl) /\
  (* the calls of the main program are gone *)
  fst (inline_top' unit inline_all 9 5 tt ex_inl) =
  Efun (Fcons 10 1 [12] (Econstr 13 3 [12; 5] (Ehalt 13))
       (Fcons 11 1 [14] (Econstr 16 3 [14; 5] (Eproj 17 3 0 16 (Econstr 18 3 [17; 5] (Ehalt 18)))) Fnil))
    (Econstr 19 2 [] (Econstr 22 3 [19; 5] (Eproj 23 3 0 22 (Econstr 24 3 [23; 5] (Econstr 25 3 [24; 5] (Ehalt 25)))))) /\
  bstep_fuel [] [(5, Vint 3)] ex_inl 13
    (Res (Vconstr 3 [Vconstr 3 [Vconstr 2 []; Vint 3]; Vint 3])) /\
  bstep_fuel [] [(5, Vint 3)] (fst (inline_top' unit inline_all 9 5 tt ex_inl)) 7
    (Res (Vconstr 3 [Vconstr 3 [Vconstr 2 []; Vint 3]; Vint 3])).
Proof.
  split; [|split; [|split; [|split]]].
  - vm_compute. repeat constructor; cbn; intuition discriminate.
  - intros x I F. apply exp_fv_spec in F. vm_compute in F. destruct F as [<-|[]].
    vm_compute in I. intuition discriminate.
  - vm_compute. reflexivity.
  - apply interp_iff. exists 20%nat. vm_compute. reflexivity.
  - apply interp_iff. exists 20%nat. vm_compute. reflexivity.
Qed.
