(* The uncurrying pass is a sequence of rewrites; what it does to names and
   tables. *)
From Coq Require Import List Arith NArith PArith Bool Lia Relations String.
From Verif Require Import ANF_Syntax ANF_Eval ANF_Spec ANF_Scope ANF_EvalProofs ANF_FreeProofs Comp_Model Comp_Proofs CC_Proofs CC_Scope
  UC_Model UC_Spec UC_Proofs.
Import ListNotations.
Local Open Scope list_scope.

Scheme somewhere_ind2 := Minimality for somewhere Sort Prop
  with somewheref_ind2 := Minimality for somewheref Sort Prop.
Combined Scheme somewhere_mutind from somewhere_ind2, somewheref_ind2.

Lemma somewhere_mono (R R' : fundefs -> fundefs -> Prop) : (forall B B', R B B' -> R' B B') ->
  (forall e e', somewhere R e e' -> somewhere R' e e') /\ (forall B B', somewheref R B B' -> somewheref R' B B').
Proof.
  intro H. apply somewhere_mutind; intros; first [solve [apply at_fun_defs; auto] | solve [apply at_body; auto] | solve [apply at_rest; auto] | constructor; auto].
Qed.
Lemma rewrite_anti (U U' : var -> Prop) : (forall x, U' x -> U x) -> forall B B', rewrite U B B' -> rewrite U' B B'.
Proof. intros H B B' K. destruct K as [f ft pre fv g gt gv ge tl fds f1 ft1 fv1 gv1 A1 A2 A3 A4 A5 A6 A7]. constructor; auto. intros x I Ux. apply (A7 x I). auto. Qed.

Lemma name_allv x e : name_in x e <-> In x (allv e).
Proof. unfold name_in. symmetry. apply (proj1 allv_spec). Qed.

(* ** One step *)
Lemma step_ue (P U : var -> Prop) : (forall x, ~ U x -> P x) ->
  (forall e e', somewhere (rewrite U) e e' -> okn P e -> ue P e e') /\
  (forall B B', somewheref (rewrite U) B B' -> okf P B -> uf P B B').
Proof.
  intro HP. apply somewhere_mutind; unfold okn, okf; cbn [allv allv_funs].
  - intros x t ys e e' _ IH OK. constructor. apply IH. intros z I. apply OK. cbn [In]. rewrite in_app_iff. auto.
  - intros x l1 c e e' l2 _ IH OK. constructor. apply Forall2_app; [|constructor].
    + clear. induction l1; constructor; [split; [reflexivity|apply ue_refl]|assumption].
    + split; [reflexivity|]. cbn [snd]. apply IH. intros z I. apply OK. right. rewrite flat_map_app. apply in_or_app. right. cbn [flat_map snd].
      apply in_or_app. auto.
    + clear. induction l2; constructor; [split; [reflexivity|apply ue_refl]|assumption].
  - intros x t n y e e' _ IH OK. constructor. apply IH. intros z I. apply OK. cbn [In]. auto.
  - intros x f t ys e e' _ IH OK. constructor. apply IH. intros z I. apply OK. cbn [In]. rewrite in_app_iff. auto.
  - intros x p e e' _ IH OK. constructor. apply IH. intros z I. apply OK. cbn [In]. auto.
  - intros x p ys e e' _ IH OK. constructor. apply IH. intros z I. apply OK. cbn [In]. rewrite in_app_iff. auto.
  - intros B e e' _ IH OK. constructor; [apply ue_refl|]. apply IH. intros z I. apply OK. apply in_or_app. auto.
  - intros B B' e _ IH OK. constructor; [|apply ue_refl]. apply IH. intros z I. apply OK. apply in_or_app. auto.
  - intros B B' R OK. destruct R as [f ft pre fv g gt gv ge tl fds f1 ft1 fv1 gv1 A1 A2 A3 A4 A5 A6 A7].
    apply uf_unc; [|apply ue_refl|apply ue_refl|].
    + unfold wrapc. rewrite <- name_allv. repeat split; auto. intros k I. rewrite <- name_allv. auto.
    + intro I. apply fnames_allv in I. apply (OK f1); [cbn [allv_funs In]; rewrite !in_app_iff; tauto|]. apply HP. apply A7. left. reflexivity.
  - intros f t xs e e' B _ IH OK. constructor; [|apply ue_refl]. apply IH. intros z I. apply OK. cbn [In]. rewrite !in_app_iff. auto.
  - intros f t xs e B B' _ IH OK. constructor; [apply ue_refl|]. apply IH. intros z I. apply OK. cbn [In]. rewrite !in_app_iff. auto.
Qed.

(* no variable becomes free *)
Lemma step_free U :
  (forall e e', somewhere (rewrite U) e e' -> forall z, free z e' -> free z e) /\
  (forall B B', somewheref (rewrite U) B B' -> (forall z, In z (fnames B) -> In z (fnames B')) /\ forall z, ~ In z (fnames B') -> free_body z B' -> free_body z B).
Proof.
  apply somewhere_mutind; cbn [free free_body fnames In].
  - intros x t ys e e' _ IH z. pose proof (IH z). tauto.
  - intros x l1 c e e' l2 _ IH z. intros [->|F]; [left; reflexivity|right].
    revert F. induction l1 as [|p l1 IHl]; cbn [app snd].
    + pose proof (IH z). tauto.
    + intros [F|F]; [left; exact F|right; apply IHl; exact F].
  - intros x t n y e e' _ IH z. pose proof (IH z). tauto.
  - intros x f t ys e e' _ IH z. pose proof (IH z). tauto.
  - intros x p e e' _ IH z. pose proof (IH z). tauto.
  - intros x p ys e e' _ IH z. pose proof (IH z). tauto.
  - intros B e e' _ IH z. pose proof (IH z). tauto.
  - intros B B' e _ [IH1 IH2] z [N F]. pose proof (IH1 z). pose proof (IH2 z N). tauto.
  - intros B B' R. destruct R as [f ft pre fv g gt gv ge tl fds f1 ft1 fv1 gv1 A1 A2 A3 A4 A5 A6 A7].
    cbn [free free_body fnames In]. split; [tauto|]. intros z N [[F1 [F2 [F3|F3]]]|[[F1 F2]|F]]; [| |left|tauto].
    + left. rewrite in_app_iff in *. assert (z = g \/ In z pre) as [->|I]; [|tauto|tauto].
      destruct A1 as [(k & kt & -> & ->)|[-> ->]]; cbn [free In] in *; intuition auto.
    + exfalso. rewrite !in_app_iff in *. intuition congruence.
    + rewrite !in_app_iff in *. assert (Nn : name_in z ge) by (right; exact F2). split; [intros [I|I]; [exact (A3 _ I Nn)|tauto]|].
      split; [intros [<-|[]]; auto|]. right. left. auto.
  - intros f t xs e e' B _ IH. split; [tauto|]. intros z N [[F1 F2]|F]; [left; auto|tauto].
  - intros f t xs e B B' _ [IH1 IH2]. split; [intros z; pose proof (IH1 z); tauto|]. intros z N [F|F]; [tauto|]. right. apply IH2; tauto.
Qed.

Lemma uncurry_step_free e e' : uncurry_step e e' -> forall z, free z e' -> free z e.
Proof. intro H. eapply (proj1 (step_free _)); exact H. Qed.

(* what is preserved *)
Definition preserved (e e' : exp) : Prop :=
  forall cenv rho rho', (forall x, free x e -> forall v, get x rho = Some v -> data v /\ get x rho' = Some v) ->
  forall c r, bstep_fuel cenv rho e c r -> exists c' r', bstep_fuel cenv rho' e' c' r' /\ c <= c' /\
    match r, r' with OOT, OOT => True | Res v, Res v' => same_shape v v' | _, _ => False end.

Lemma uncurry_step_preserved e e' : uncurry_step e e' -> preserved e e'.
Proof.
  intros H cenv rho rho' EV c r B. set (P := fun x => ~ name_in x e).
  assert (OK : okn P e) by (intros x I N; apply N; apply name_allv; exact I).
  assert (U : ue P e e') by (eapply (proj1 (step_ue P _ ltac:(intros x N; exact N))); [exact H|exact OK]).
  destruct (sim P cenv c rho e r B rho' e') as (c' & r' & B' & L & R).
  - left. constructor; auto. intros x F v G. destruct (EV x F v G) as [D G']. exists v. split; [exact G'|apply data_uv; exact D].
  - exists c', r'. split; [exact B'|]. split; [exact L|]. destruct r, r'; cbn in *; try tauto. eapply uv_same. exact R.
Qed.

Lemma refl_preserved e : preserved e e.
Proof.
  intros cenv rho rho' EV c r B. set (P := fun x : var => False).
  destruct (sim P cenv c rho e r B rho' e) as (c' & r' & B' & L & R).
  - left. constructor; [apply ue_refl|intros x _ []|]. intros x F v G. destruct (EV x F v G) as [D G']. exists v. split; [exact G'|apply data_uv; exact D].
  - exists c', r'. split; [exact B'|]. split; [exact L|]. destruct r, r'; cbn in *; try tauto. eapply uv_same. exact R.
Qed.

Lemma uncurry_steps_preserved e e' : uncurry_steps e e' -> (forall z, free z e' -> free z e) /\
  forall cenv rho rho', (forall x, free x e -> exists v, get x rho = Some v /\ data v /\ get x rho' = Some v) ->
  forall c r, bstep_fuel cenv rho e c r -> exists c' r', bstep_fuel cenv rho' e' c' r' /\ c <= c' /\
    match r, r' with OOT, OOT => True | Res v, Res v' => same_shape v v' | _, _ => False end.
Proof.
  intro H. apply clos_rt_rt1n in H. induction H as [e|e e1 e2 H1 _ [F2 IH]].
  - split; [auto|]. intros cenv rho rho' EV c r B. apply (refl_preserved e cenv rho rho'); [|exact B].
    intros x F v G. destruct (EV x F) as (w & A1 & A2 & A3). assert (v = w) by congruence. subst. auto.
  - pose proof (uncurry_step_free _ _ H1) as F1. split; [auto|]. intros cenv rho rho' EV c r B.
    destruct (uncurry_step_preserved _ _ H1 cenv rho rho') with (c := c) (r := r) as (c1 & r1 & B1 & L1 & R1); [|exact B|].
    + intros x F v G. destruct (EV x F) as (w & A1 & A2 & A3). assert (v = w) by congruence. subst. auto.
    + destruct (IH cenv rho' rho') with (c := c1) (r := r1) as (c2 & r2 & B2 & L2 & R2); [|exact B1|].
      * intros x F. destruct (EV x (F1 x F)) as (w & A1 & A2 & A3). eauto.
      * exists c2, r2. split; [exact B2|]. split; [lia|]. destruct r, r1, r2; cbn in *; try tauto. eapply same_trans; eauto.
Qed.

(* ** The traversal, as a relation *)
Inductive run (cps : bool) : exp -> ust -> exp -> ust -> Prop :=
| r_constr x t ys e s e' s' : run cps e s e' s' -> run cps (Econstr x t ys e) s (Econstr x t ys e') s'
| r_case x l s l' s' : runl cps l s l' s' -> run cps (Ecase x l) s (Ecase x l') s'
| r_proj x t n y e s e' s' : run cps e s e' s' -> run cps (Eproj x t n y e) s (Eproj x t n y e') s'
| r_letapp x f t ys e s e' s' : run cps e s e' s' -> run cps (Eletapp x f t ys e) s (Eletapp x f t ys e') s'
| r_fun B e s B' s1 e' s2 : runf cps B s B' s1 -> run cps e s1 e' s2 -> run cps (Efun B e) s (Efun B' e') s2
| r_app f t ys s : run cps (Eapp f t ys) s (Eapp f t ys) s
| r_prim_val x p e s e' s' : run cps e s e' s' -> run cps (Eprim_val x p e) s (Eprim_val x p e') s'
| r_prim x p ys e s e' s' : run cps e s e' s' -> run cps (Eprim x p ys e) s (Eprim x p ys e') s'
| r_halt x s : run cps (Ehalt x) s (Ehalt x) s
with runl (cps : bool) : list (ctor_tag * exp) -> ust -> list (ctor_tag * exp) -> ust -> Prop :=
| rl_nil s : runl cps [] s [] s
| rl_cons c e l s e' s1 l' s2 : run cps e s e' s1 -> runl cps l s1 l' s2 -> runl cps ((c, e) :: l) s ((c, e') :: l') s2
with runf (cps : bool) : fundefs -> ust -> fundefs -> ust -> Prop :=
| rf_nil s : runf cps Fnil s Fnil s
| rf_cons f t xs e B s e' s1 B' s2 : run cps e s e' s1 -> runf cps B s1 B' s2 -> runf cps (Fcons f t xs e B) s (Fcons f t xs e' B') s2
| rf_fire f ft pre fv g gt gv ge tl fds s w fds' s1 r s2 :
    ((exists k kt, pre = [k] /\ tl = Eapp k kt [g]) \/ (pre = [] /\ tl = Ehalt g)) ->
    ~ name_in g ge -> (forall k, In k pre -> ~ name_in k ge) ->
    fire f ft pre fv g gt gv ge tl fds s = (w, fds', s1) -> runf cps fds' s1 r s2 ->
    runf cps (Fcons f ft (pre ++ fv) (Efun (Fcons g gt gv ge Fnil) tl) fds) s (w r) s2.

Scheme run_ind2 := Minimality for run Sort Prop
  with runl_ind2 := Minimality for runl Sort Prop
  with runf_ind2 := Minimality for runf Sort Prop.
Combined Scheme run_mutind from run_ind2, runl_ind2, runf_ind2.

Lemma occurs_in_vars_In k xs : occurs_in_vars k xs = true <-> In k xs.
Proof.
  induction xs as [|x xs IH]; cbn [occurs_in_vars In]; [split; [discriminate|tauto]|].
  rewrite orb_true_iff, IH. rewrite Pos.eqb_eq. split; intros [H|H]; auto.
Qed.
Lemma occurs_spec :
  (forall e k, occurs_in_exp k e = true <-> In k (allv e)) /\ (forall B k, occurs_in_fundefs k B = true <-> In k (allv_funs B)).
Proof.
  apply exp_fundefs_ind; cbn [occurs_in_exp occurs_in_fundefs allv allv_funs In]; intros; repeat rewrite ?orb_true_iff, ?in_app_iff, ?occurs_in_vars_In, ?Pos.eqb_eq, ?H, ?H0;
    try (split; intuition auto; fail).
  - induction H as [|[c e] l HP _ IH]; cbn [flat_map snd] in *; [intuition auto; discriminate|]. rewrite orb_true_iff, in_app_iff. rewrite HP. intuition auto.
  - split; [discriminate|tauto].
Qed.
Lemma occurs_false k e : occurs_in_exp k e = false <-> ~ name_in k e.
Proof.
  rewrite name_allv, <- (proj1 occurs_spec). destruct (occurs_in_exp k e); split; try discriminate; auto. intro H. destruct H; reflexivity.
Qed.

Lemma try_spec cps f ft xs e fds s w fds' s1 : try_rules cps f ft xs e fds s = Some (w, fds', s1) ->
  exists pre fv g gt gv ge tl, xs = pre ++ fv /\ e = Efun (Fcons g gt gv ge Fnil) tl /\
    ((exists k kt, pre = [k] /\ tl = Eapp k kt [g]) \/ (pre = [] /\ tl = Ehalt g)) /\
    ~ name_in g ge /\ (forall k, In k pre -> ~ name_in k ge) /\ fire f ft pre fv g gt gv ge tl fds s = (w, fds', s1).
Proof.
  unfold try_rules. destruct cps.
  - unfold try_cps. destruct xs as [|k fv]; [discriminate|]. destruct e as [| | | |B e| | | |]; try discriminate.
    destruct B as [g gt gv ge B|]; [|discriminate]. destruct B as [|]; [discriminate|]. destruct e as [| | | | |k' kt ys| | |]; try discriminate.
    destruct ys as [|g' [|]]; try discriminate.
    destruct (Pos.eqb k k' && Pos.eqb g g' && negb (marked g s) && negb (occurs_in_exp g ge) && negb (occurs_in_exp k ge)) eqn:C; [|discriminate].
    repeat rewrite andb_true_iff in C. destruct C as ((((C1 & C2) & _) & C3) & C4). apply Pos.eqb_eq in C1, C2. subst k' g'.
    rewrite negb_true_iff, occurs_false in C3, C4. intro H. apply Some_inj in H.
    exists [k], fv, g, gt, gv, ge, (Eapp k kt [g]). split; [reflexivity|]. split; [reflexivity|]. split; [left; eauto|]. split; [exact C3|].
    split; [intros k0 [<-|[]]; exact C4|exact H].
  - unfold try_anf. destruct e as [| | | |B e| | | |]; try discriminate.
    destruct B as [g gt gv ge B|]; [|discriminate]. destruct B as [|]; [discriminate|]. destruct e as [| | | | | | | |g']; try discriminate.
    destruct (Pos.eqb g g' && negb (marked g s) && negb (occurs_in_exp g ge)) eqn:C; [|discriminate].
    repeat rewrite andb_true_iff in C. destruct C as ((C1 & _) & C3). apply Pos.eqb_eq in C1. subst g'.
    rewrite negb_true_iff, occurs_false in C3. intro H. apply Some_inj in H.
    exists [], xs, g, gt, gv, ge, (Ehalt g). split; [reflexivity|]. split; [reflexivity|]. split; [right; auto|]. split; [exact C3|].
    split; [intros k0 []|exact H].
Qed.

Fixpoint uncurry_arms (cps : bool) (n : nat) (arms : list (ctor_tag * exp)) (s : ust) : option (list (ctor_tag * exp) * ust) :=
  match arms with
  | [] => Some ([], s)
  | (c, e) :: arms =>
      match uncurry_exp cps n e s with
      | Some (e', s1) => match uncurry_arms cps n arms s1 with Some (arms', s2) => Some ((c, e') :: arms', s2) | None => None end
      | None => None
      end
  end.
Lemma uncurry_case cps n x arms s : uncurry_exp cps (S n) (Ecase x arms) s =
  match uncurry_arms cps n arms s with Some (arms', s') => Some (Ecase x arms', s') | None => None end.
Proof.
  cbn [uncurry_exp].
  match goal with |- match ?F arms s with _ => _ end = _ => assert (E : forall l s, F l s = uncurry_arms cps n l s) end.
  { induction l as [|[c e] l IH]; intro s0; cbn [uncurry_arms]; [reflexivity|]. destruct (uncurry_exp cps n e s0) as [[e' s1]|]; [|reflexivity]. rewrite IH. reflexivity. }
  rewrite E. reflexivity.
Qed.

Lemma run_sound cps : forall n,
  (forall e s e' s', uncurry_exp cps n e s = Some (e', s') -> run cps e s e' s') /\
  (forall B s B' s', uncurry_fundefs cps n B s = Some (B', s') -> runf cps B s B' s').
Proof.
  induction n as [|n [IHe IHf]]; [split; discriminate|].
  assert (P2 : forall A B (a a' : A) (b b' : B), Some (a, b) = Some (a', b') -> a = a' /\ b = b') by (intros; split; congruence).
  assert (IHl : forall l s l' s', uncurry_arms cps n l s = Some (l', s') -> runl cps l s l' s').
  { induction l as [|[c e] l IH]; intros s l' s' H; cbn [uncurry_arms] in H.
    - apply P2 in H as [<- <-]. constructor.
    - destruct (uncurry_exp cps n e s) as [[e1 s1]|] eqn:E1; [|discriminate]. destruct (uncurry_arms cps n l s1) as [[l1 s2]|] eqn:E2; [|discriminate].
      apply P2 in H as [<- <-]. econstructor; eauto. }
  split.
  - intros e s e' s' H. destruct e as [x t ys e|x l|x t i y e|x f t ys e|B e|f t ys|x p e|x p ys e|x]; [| rewrite uncurry_case in H| | | | | | |]; cbn [uncurry_exp] in H.
    1,3,4,7,8: destruct (uncurry_exp cps n e s) as [[e1 s1]|] eqn:E1; [|discriminate]; apply P2 in H as [<- <-]; constructor; auto.
    + destruct (uncurry_arms cps n l s) as [[l1 s1]|] eqn:E1; [|discriminate]; apply P2 in H as [<- <-]; constructor; auto.
    + destruct (uncurry_fundefs cps n B s) as [[B1 s1]|] eqn:E1; [|discriminate]. destruct (uncurry_exp cps n e s1) as [[e1 s2]|] eqn:E2; [|discriminate].
      apply P2 in H as [<- <-]; econstructor; eauto.
    + apply P2 in H as [<- <-]. constructor.
    + apply P2 in H as [<- <-]. constructor.
  - intros B s B' s' H. destruct B as [f ft xs e B|]; cbn [uncurry_fundefs] in H; [|apply P2 in H as [<- <-]; constructor].
    destruct (try_rules cps f ft xs e B s) as [[[w fds'] s1]|] eqn:T.
    + destruct (uncurry_fundefs cps n fds' s1) as [[r s2]|] eqn:E; [|discriminate]. apply P2 in H as [<- <-].
      apply try_spec in T as (pre & fv & g & gt & gv & ge & tl & -> & -> & T1 & T2 & T3 & T4). eapply rf_fire; eauto.
    + destruct (uncurry_exp cps n e s) as [[e1 s1]|] eqn:E1; [|discriminate]. destruct (uncurry_fundefs cps n B s1) as [[B1 s2]|] eqn:E2; [|discriminate].
      apply P2 in H as [<- <-]; econstructor; eauto.
Qed.

(* enough fuel: the size *)
Lemma fire_size f ft pre fv g gt gv ge tl fds s w fds' s1 : fire f ft pre fv g gt gv ge tl fds s = (w, fds', s1) ->
  fsize fds' = S (esize ge + fsize fds).
Proof.
  unfold fire. destruct (get_fun_tag _ s) as [ft1 s2]. destruct (gensyms _ gv) as [x0 gv1]. destruct (gensyms x0 fv) as [x1 fv1].
  intro H. apply pair3 in H as (_ & <- & _). reflexivity.
Qed.
Lemma esize_pos e : 1 <= esize e.
Proof. destruct e; cbn [esize]; lia. Qed.
Lemma run_total cps : forall n,
  (forall e s, esize e <= n -> exists e' s', uncurry_exp cps n e s = Some (e', s')) /\
  (forall B s, fsize B <= n -> exists B' s', uncurry_fundefs cps n B s = Some (B', s')).
Proof.
  induction n as [|n [IHe IHf]].
  { split; [intros e s L; pose proof (esize_pos e); lia|]. intros B s L. destruct B; cbn [fsize] in L; lia. }
  split.
  - intros e s L. destruct e as [x t ys e|x l|x t i y e|x f t ys e|B e|f t ys|x p e|x p ys e|x]; [| rewrite uncurry_case| | | | | | |]; cbn [uncurry_exp]; cbn [esize] in L.
    1,3,4,7,8: destruct (IHe e s ltac:(lia)) as (e1 & s1 & ->); eauto.
    + assert (K : exists l' s', uncurry_arms cps n l s = Some (l', s')).
      { revert s L. induction l as [|[c e] l IH]; intros s L; cbn [uncurry_arms fold_right snd] in *; [eauto|].
        destruct (IHe e s ltac:(lia)) as (e1 & s1 & ->). destruct (IH s1 ltac:(lia)) as (l1 & s2 & ->). eauto. }
      destruct K as (l' & s' & ->). eauto.
    + destruct (IHf B s ltac:(lia)) as (B1 & s1 & ->). destruct (IHe e s1 ltac:(lia)) as (e1 & s2 & ->). eauto.
    + eauto.
    + eauto.
  - intros B s L. destruct B as [f ft xs e B|]; cbn [uncurry_fundefs]; cbn [fsize] in L; [|eauto].
    destruct (try_rules cps f ft xs e B s) as [[[w fds'] s1]|] eqn:T.
    + apply try_spec in T as (pre & fv & g & gt & gv & ge & tl & -> & -> & T1 & T2 & T3 & T4). apply fire_size in T4.
      cbn [esize fsize] in L. destruct (IHf fds' s1 ltac:(lia)) as (r & s2 & ->). eauto.
    + destruct (IHe e s ltac:(lia)) as (e1 & s1 & ->). destruct (IHf B s1 ltac:(lia)) as (B1 & s2 & ->). eauto.
Qed.

(* ** New names *)
Lemma gensyms_spec A (xs : list A) : forall n n' ys, gensyms n xs = (n', ys) ->
  List.length ys = List.length xs /\ NoDup ys /\ (n <= n')%positive /\ (forall y, In y ys <-> (n <= y < n')%positive).
Proof.
  induction xs as [|a xs IH]; intros n n' ys H; cbn [gensyms] in H.
  - apply pair2 in H as [<- <-]. split; [reflexivity|]. split; [constructor|]. split; [lia|]. intro y. cbn [In]. split; [tauto|lia].
  - destruct (gensyms (n + 1)%positive xs) as [n1 ys1] eqn:E. apply pair2 in H as [<- <-]. destruct (IH _ _ _ E) as (L & ND & Le & I).
    split; [cbn; congruence|]. split; [constructor; [rewrite I; lia|exact ND]|]. split; [lia|]. intro y. cbn [In]. rewrite I. lia.
Qed.

Lemma set_name_fields o n s c : fenv (set_name o n s c) = fenv c /\ next_fun_tag (set_name o n s c) = next_fun_tag c /\
  cenv (set_name o n s c) = cenv c /\ nect_ctor_tag (set_name o n s c) = nect_ctor_tag c /\ next_ind_tag (set_name o n s c) = next_ind_tag c /\
  log (set_name o n s c) = log c.
Proof. destruct c. repeat split. Qed.
Lemma set_names_fields os : forall ns s c, fenv (set_names_lst os ns s c) = fenv c /\ next_fun_tag (set_names_lst os ns s c) = next_fun_tag c /\
  cenv (set_names_lst os ns s c) = cenv c /\ nect_ctor_tag (set_names_lst os ns s c) = nect_ctor_tag c /\ next_ind_tag (set_names_lst os ns s c) = next_ind_tag c /\
  log (set_names_lst os ns s c) = log c.
Proof.
  unfold set_names_lst. induction os as [|o os IH]; intros [|n ns] s c; cbn [combine fold_right]; try (repeat split; fail).
  destruct (IH ns s c) as (A1 & A2 & A3 & A4 & A5 & A6).
  destruct (set_name_fields o n s (fold_right (fun '(old, new) c0 => set_name old new s c0) c (combine os ns))) as (B1 & B2 & B3 & B4 & B5 & B6).
  rewrite B1, B2, B3, B4, B5, B6. repeat split; assumption.
Qed.
Lemma set_name_nenv o n s c x : get x (nenv (set_name o n s c)) = if Pos.eq_dec x n then get x (nenv (set_name o n s c)) else get x (nenv c).
Proof.
  destruct (Pos.eq_dec x n) as [_|D]; [reflexivity|]. destruct c as [v ct it ft e fe ne im lg]. cbn [set_name nenv]. unfold add_entry.
  destruct (get o ne) as [[|nm]|]; rewrite get_set_other by exact D; reflexivity.
Qed.
Lemma set_name_new o n s c : get n (nenv (set_name o n s c)) <> None.
Proof.
  destruct c as [v ct it ft e fe ne im lg]. cbn [set_name nenv]. unfold add_entry. destruct (get o ne) as [[|nm]|]; rewrite get_set_same; discriminate.
Qed.
Lemma set_names_nenv os : forall ns s c x, List.length os = List.length ns ->
  (~ In x ns -> get x (nenv (set_names_lst os ns s c)) = get x (nenv c)) /\ (In x ns -> get x (nenv (set_names_lst os ns s c)) <> None).
Proof.
  unfold set_names_lst. induction os as [|o os IH]; intros [|n ns] s c x L; cbn [combine fold_right]; try discriminate L; [split; [auto|intros []]|].
  cbn in L. destruct (IH ns s c x ltac:(lia)) as [A B]. cbn [In]. destruct (Pos.eq_dec n x) as [->|D].
  - split; [tauto|]. intros _. apply set_name_new.
  - rewrite set_name_nenv. destruct (Pos.eq_dec x n) as [->|_]; [congruence|]. split; [intro N; apply A; tauto|]. intros [E|I]; [congruence|auto].
Qed.

(* the state only grows; entries of the tables are never changed *)
Definition ext {A} (m m' : tmap A) : Prop := forall k v, get k m = Some v -> get k m' = Some v.
Definition tags_ok (s : ust) : Prop :=
  (forall k ft, get k (tag_of_arity s) = Some ft -> exists n, k = N.succ_pos n /\ exists l, get ft (fenv (cdata s)) = Some (n, l) /\ List.length l = N.to_nat n) /\
  (forall t i, get t (fenv (cdata s)) = Some i -> (t < next_fun_tag (cdata s))%positive).
Record grows (s s' : ust) : Prop := {
  g_next : (nextx s <= nextx s')%positive;
  g_fenv : tags_ok s -> ext (fenv (cdata s)) (fenv (cdata s')) /\ tags_ok s';
  g_ftag : (next_fun_tag (cdata s) <= next_fun_tag (cdata s'))%positive;
  g_cenv : cenv (cdata s') = cenv (cdata s);
  g_ctag : nect_ctor_tag (cdata s') = nect_ctor_tag (cdata s);
  g_itag : next_ind_tag (cdata s') = next_ind_tag (cdata s);
  g_log : log (cdata s') = log (cdata s);
  g_names : forall x, ((x < nextx s \/ nextx s' <= x)%positive -> get x (nenv (cdata s')) = get x (nenv (cdata s))) /\
              ((nextx s <= x < nextx s')%positive -> get x (nenv (cdata s')) <> None)
}.
Lemma grows_refl s : grows s s.
Proof. constructor; try reflexivity; try lia; [intro T; split; [intros k v H; exact H|exact T]|]. intro x. split; [reflexivity|lia]. Qed.
Lemma grows_trans s1 s2 s3 : grows s1 s2 -> grows s2 s3 -> grows s1 s3.
Proof.
  intros [A1 A2 A3 A4 A5 A6 A7 A8] [B1 B2 B3 B4 B5 B6 B7 B8]. constructor; try lia; try congruence.
  - intro T. destruct (A2 T) as [X1 T1]. destruct (B2 T1) as [X2 T2]. split; [|exact T2]. intros k v H. auto.
  - intro x. destruct (A8 x) as [P1 P2]. destruct (B8 x) as [Q1 Q2]. split.
    + intro H. rewrite Q1 by lia. apply P1. lia.
    + intro H. destruct (Pos.ltb_spec x (nextx s2)) as [L|L]; [rewrite Q1 by lia; apply P2; lia|apply Q2; lia].
Qed.

Lemma fun_tag_spec n s ft s1 : get_fun_tag n s = (ft, s1) ->
  nextx s1 = nextx s /\ nenv (cdata s1) = nenv (cdata s) /\ cenv (cdata s1) = cenv (cdata s) /\ nect_ctor_tag (cdata s1) = nect_ctor_tag (cdata s) /\
  next_ind_tag (cdata s1) = next_ind_tag (cdata s) /\ log (cdata s1) = log (cdata s) /\ (next_fun_tag (cdata s) <= next_fun_tag (cdata s1))%positive /\
  (tags_ok s -> tags_ok s1 /\ ext (fenv (cdata s)) (fenv (cdata s1)) /\ exists l, get ft (fenv (cdata s1)) = Some (n, l) /\ List.length l = N.to_nat n).
Proof.
  unfold get_fun_tag. intro H. destruct (get (N.succ_pos n) (tag_of_arity s)) as [t|] eqn:E.
  - apply pair2 in H as [<- <-]. repeat (split; [reflexivity || lia|]). intros [T1 T2]. split; [split; assumption|]. split; [intros k v X; exact X|].
    destruct (T1 _ _ E) as (m & Em & K). assert (m = n) by (apply (f_equal Pos.pred_N) in Em; rewrite !N.pos_pred_succ in Em; congruence). subst m. exact K.
  - unfold get_ftag, bind, getM, putM, ret in H. destruct (cdata s) as [v ct it f e fe ne im lg] eqn:EC. cbn [fst snd] in H. apply pair2 in H as [<- <-].
    cbn [nextx cdata nenv cenv nect_ctor_tag next_ind_tag log next_fun_tag fenv tag_of_arity]. repeat (split; [reflexivity || lia|]).
    intros [T1 T2]. rewrite EC in T1, T2. cbn [fenv next_fun_tag] in T1, T2.
    assert (X : ext fe (set f (n, fromN 0 (N.to_nat n)) fe)).
    { intros k i G. rewrite get_set_other; [exact G|]. intros ->. apply T2 in G. lia. }
    assert (G : exists l, get f (set f (n, fromN 0 (N.to_nat n)) fe) = Some (n, l) /\ List.length l = N.to_nat n).
    { eexists. split; [apply get_set_same|]. apply fromN_spec. }
    split; [|split; [exact X|exact G]]. split; cbn [cdata fenv next_fun_tag tag_of_arity].
    + intros k ft. rewrite get_set. destruct (Pos.eq_dec k (N.succ_pos n)) as [->|D].
      * intro Q. apply Some_inj in Q. subst ft. exists n. split; [reflexivity|exact G].
      * intro Q. destruct (T1 _ _ Q) as (m & Em & l & K1 & K2). exists m. split; [exact Em|]. exists l. split; [apply X; exact K1|exact K2].
    + intros t i. rewrite get_set. destruct (Pos.eq_dec t f) as [->|D]; [lia|]. intro Q. apply T2 in Q. lia.
Qed.

Lemma fire_spec f ft pre fv g gt gv ge tl fds s w fds' s1 : fire f ft pre fv g gt gv ge tl fds s = (w, fds', s1) ->
  exists f1 ft1 fv1 gv1, w = Fcons f ft (pre ++ fv1) (Efun (Fcons g gt gv1 (Eapp f1 ft1 (gv1 ++ fv1)) Fnil) tl) /\
    fds' = Fcons f1 ft1 (gv ++ fv) ge fds /\ List.length gv1 = List.length gv /\ List.length fv1 = List.length fv /\
    NoDup (f1 :: gv1 ++ fv1) /\ (forall x, In x (f1 :: gv1 ++ fv1) <-> (nextx s <= x < nextx s1)%positive) /\ grows s s1 /\
    (tags_ok s -> exists l, get ft1 (fenv (cdata s1)) = Some (N.of_nat (List.length fv + List.length gv), l) /\ List.length l = List.length fv + List.length gv).
Proof.
  unfold fire. destruct (get_fun_tag _ s) as [ft1 s2] eqn:ET. destruct (gensyms (nextx s2) gv) as [x0 gv1] eqn:E1. destruct (gensyms x0 fv) as [x1 fv1] eqn:E2.
  intro H. apply pair3 in H as (<- & <- & <-). apply fun_tag_spec in ET as (T1 & T2 & T3 & T4 & T5 & T6 & T7 & T8).
  apply gensyms_spec in E1 as (L1 & ND1 & Le1 & I1). apply gensyms_spec in E2 as (L2 & ND2 & Le2 & I2). rewrite T1 in *.
  assert (IN : forall x, In x (x1 :: gv1 ++ fv1) <-> (nextx s <= x < x1 + 1)%positive).
  { intro x. cbn [In]. rewrite in_app_iff, I1, I2. lia. }
  exists x1, ft1, fv1, gv1. split; [reflexivity|]. split; [reflexivity|]. split; [exact L1|]. split; [exact L2|]. split.
  { constructor; [rewrite in_app_iff, I1, I2; lia|]. clear -ND1 ND2 I1 I2. assert (D : forall x, In x gv1 -> ~ In x fv1) by (intros x; rewrite I1, I2; lia).
    clear I1 I2. induction ND1 as [|a l N ND IH]; [exact ND2|]. cbn [app]. constructor; [|apply IH; intros x I; apply D; right; exact I].
    rewrite in_app_iff. intros [I|I]; [auto|]. exact (D a (or_introl eq_refl) I). }
  unfold metadata_update. split; [exact IN|]. cbn [nextx cdata].
  set (c1 := set_names_lst gv gv1 "" (cdata s2)). set (c2 := set_names_lst fv fv1 "" c1).
  destruct (set_name_fields f x1 "_uncurried" c2) as (A1 & A2 & A3 & A4 & A5 & A6).
  destruct (set_names_fields fv fv1 "" c1) as (B1 & B2 & B3 & B4 & B5 & B6). fold c2 in B1, B2, B3, B4, B5, B6.
  destruct (set_names_fields gv gv1 "" (cdata s2)) as (C1 & C2 & C3 & C4 & C5 & C6). fold c1 in C1, C2, C3, C4, C5, C6.
  split.
  - constructor; cbn [nextx cdata]; try (rewrite ?A2, ?A3, ?A4, ?A5, ?A6; congruence).
    + lia.
    + intro T. destruct (T8 T) as ([K1 K2] & X & _). rewrite A1, B1, C1. split; [exact X|]. split; cbn [tag_of_arity cdata].
      * rewrite A1, B1, C1. exact K1.
      * rewrite A1, B1, C1, A2, B2, C2. exact K2.
    + intro x. destruct (set_names_nenv fv fv1 "" c1 x (eq_sym L2)) as [D1 D2]. destruct (set_names_nenv gv gv1 "" (cdata s2) x (eq_sym L1)) as [F1 F2]. fold c1 in F1, F2.
      fold c2 in D1, D2. rewrite set_name_nenv. split.
      * intro Q. destruct (Pos.eq_dec x x1) as [->|D]; [lia|]. rewrite D1 by (rewrite I2; lia). rewrite F1 by (rewrite I1; lia). rewrite T2. reflexivity.
      * intro Q. destruct (Pos.eq_dec x x1) as [->|D]; [apply set_name_new|]. destruct (in_dec Pos.eq_dec x fv1) as [J|J]; [auto|].
        rewrite D1 by exact J. apply F2. rewrite I1. rewrite I2 in J. lia.
  - intro T. destruct (T8 T) as (_ & _ & l & G & Ll). exists l. rewrite A1, B1, C1. split; [exact G|]. rewrite Nnat.Nat2N.id in Ll. exact Ll.
Qed.

(* ** Rewrites in sequence, each with names that are new for the whole program *)
Section Chain.
  Variable X : Type.
  Variable SW : (fundefs -> fundefs -> Prop) -> X -> X -> Prop.
  Variable AV : X -> list var.
  Inductive chain : positive -> positive -> X -> X -> Prop :=
  | c_refl n n' x : (n <= n')%positive -> chain n n' x x
  | c_step n n1 n' x x1 x' : SW (rewrite (fun y => (y < n)%positive)) x x1 -> (n <= n1)%positive -> (forall y, In y (AV x1) -> (y < n1)%positive) ->
      chain n1 n' x1 x' -> chain n n' x x'.
  Lemma chain_le n n' x x' : chain n n' x x' -> (n <= n')%positive.
  Proof. induction 1; lia. Qed.
  Hypothesis SWm : forall R R' : fundefs -> fundefs -> Prop, (forall B B', R B B' -> R' B B') -> forall x x', SW R x x' -> SW R' x x'.
  Lemma chain_weak n m n' x x' : (n <= m)%positive -> chain m n' x x' -> chain n n' x x'.
  Proof.
    intros L H. destruct H as [m n' x L'|m n1 n' x x1 x' H L' B H1]; [apply c_refl; lia|]. eapply c_step; [| |exact B|exact H1]; [|lia].
    eapply SWm; [|exact H]. apply rewrite_anti. intros y Ly. lia.
  Qed.
  Lemma chain_trans n n1 n2 x x1 x2 : chain n n1 x x1 -> chain n1 n2 x1 x2 -> chain n n2 x x2.
  Proof.
    induction 1 as [n n1 x L|n m n1 x y x1 H L B H1 IH]; intro H2; [eapply chain_weak; eauto|]. eapply c_step; eauto.
  Qed.
  Lemma chain_below n n' x x' : chain n n' x x' -> (forall y, In y (AV x) -> (y < n)%positive) -> forall y, In y (AV x') -> (y < n')%positive.
  Proof. induction 1 as [n n' x L|n m n' x y x' H L B H1 IH]; [intros B y I; apply B in I; lia|auto]. Qed.
End Chain.
Section Lift.
  Variables X Y : Type.
  Variable SX : (fundefs -> fundefs -> Prop) -> X -> X -> Prop.
  Variable SY : (fundefs -> fundefs -> Prop) -> Y -> Y -> Prop.
  Variable AX : X -> list var.
  Variable AY : Y -> list var.
  Variable F : X -> Y.
  Variable L : list var.
  Hypothesis FS : forall R x x', SX R x x' -> SY R (F x) (F x').
  Hypothesis FA : forall x y, In y (AY (F x)) -> In y (AX x) \/ In y L.
  Lemma lift n n' x x' : chain X SX AX n n' x x' -> (forall y, In y L -> (y < n)%positive) -> chain Y SY AY n n' (F x) (F x').
  Proof.
    induction 1 as [n n' x Le|n m n' x z x' H Le B H1 IH]; intro BL; [apply c_refl; exact Le|].
    eapply c_step; [apply FS; exact H|exact Le| |apply IH].
    - intros y I. apply FA in I as [I|I]; [auto|]. apply BL in I. lia.
    - intros y I. apply BL in I. lia.
  Qed.
End Lift.

Notation chaine := (chain exp somewhere allv).
Notation chainf := (chain fundefs somewheref allv_funs).
(* branches: seen as the branches of a case *)
Definition somewherel (R : fundefs -> fundefs -> Prop) (l l' : list (ctor_tag * exp)) : Prop :=
  exists l1 c e e' l2, l = l1 ++ (c, e) :: l2 /\ l' = l1 ++ (c, e') :: l2 /\ somewhere R e e'.
Definition allvl (l : list (ctor_tag * exp)) : list var := flat_map (fun p => allv (snd p)) l.
Notation chainl := (chain (list (ctor_tag * exp)) somewherel allvl).

Lemma swe (R R' : fundefs -> fundefs -> Prop) : (forall B B', R B B' -> R' B B') -> forall x x', somewhere R x x' -> somewhere R' x x'.
Proof. intro H. apply (somewhere_mono R R' H). Qed.
Lemma swf (R R' : fundefs -> fundefs -> Prop) : (forall B B', R B B' -> R' B B') -> forall x x', somewheref R x x' -> somewheref R' x x'.
Proof. intro H. apply (somewhere_mono R R' H). Qed.
Lemma swl (R R' : fundefs -> fundefs -> Prop) : (forall B B', R B B' -> R' B B') -> forall x x', somewherel R x x' -> somewherel R' x x'.
Proof. intros H x x' (l1 & c & e & e' & l2 & -> & -> & W). exists l1, c, e, e', l2. split; [reflexivity|]. split; [reflexivity|]. eapply swe; eauto. Qed.

Definition bele (n : positive) (e : exp) := forall y, In y (allv e) -> (y < n)%positive.
Definition belf (n : positive) (B : fundefs) := forall y, In y (allv_funs B) -> (y < n)%positive.
Definition bell (n : positive) (l : list (ctor_tag * exp)) := forall y, In y (allvl l) -> (y < n)%positive.

Lemma run_grows cps :
  (forall e s e' s', run cps e s e' s' -> grows s s') /\ (forall l s l' s', runl cps l s l' s' -> grows s s') /\ (forall B s B' s', runf cps B s B' s' -> grows s s').
Proof.
  apply run_mutind; intros; try apply grows_refl; try assumption; try (eapply grows_trans; eassumption).
  match goal with H : fire _ _ _ _ _ _ _ _ _ _ _ = _ |- _ => apply fire_spec in H as (f1 & ft1 & fv1 & gv1 & _ & _ & _ & _ & _ & _ & G & _) end.
  eapply grows_trans; eassumption.
Qed.

Ltac inl := intros; unfold allvl in *; cbn [allv allv_funs flat_map snd In app] in *; repeat progress (rewrite ?in_app_iff in *; cbn [In app] in * ); tauto.

Lemma run_chain cps :
  (forall e s e' s', run cps e s e' s' -> bele (nextx s) e -> chaine (nextx s) (nextx s') e e') /\
  (forall l s l' s', runl cps l s l' s' -> bell (nextx s) l -> chainl (nextx s) (nextx s') l l') /\
  (forall B s B' s', runf cps B s B' s' -> belf (nextx s) B -> chainf (nextx s) (nextx s') B B').
Proof.
  apply run_mutind.
  - intros x t ys e s e' s' _ IH BL. refine (lift _ _ _ _ _ _ (Econstr x t ys) (x :: ys) _ _ _ _ _ _ (IH _) _); try inl; [intros; constructor; assumption| |]; intros y I; apply BL; inl.
  - intros x l s l' s' _ IH BL. refine (lift _ _ _ _ _ _ (Ecase x) [x] _ _ _ _ _ _ (IH _) _); try inl; [| |]; [|intros y I; apply BL; inl|intros y I; apply BL; inl].
    intros R l0 l0' (l1 & c & e & e' & l2 & -> & -> & W). constructor. exact W.
  - intros x t n y e s e' s' _ IH BL. refine (lift _ _ _ _ _ _ (Eproj x t n y) [x; y] _ _ _ _ _ _ (IH _) _); try inl; [intros; constructor; assumption| |]; intros z I; apply BL; inl.
  - intros x f t ys e s e' s' _ IH BL. refine (lift _ _ _ _ _ _ (Eletapp x f t ys) (x :: f :: ys) _ _ _ _ _ _ (IH _) _); try inl; [intros; constructor; assumption| |]; intros z I; apply BL; inl.
  - intros B e s B' s1 e' s2 H1 IH1 H2 IH2 BL. assert (G1 : (nextx s <= nextx s1)%positive) by (eapply g_next; eapply (proj2 (proj2 (run_grows cps))); exact H1).
    assert (C1 : chainf (nextx s) (nextx s1) B B') by (apply IH1; intros z I; apply BL; inl).
    assert (C2 : chaine (nextx s1) (nextx s2) e e') by (apply IH2; intros z I; assert (In z (allv (Efun B e))) by inl; apply BL in H; lia).
    eapply (chain_trans _ _ _ swe) with (x1 := Efun B' e).
    + refine (lift _ _ _ _ _ _ (fun B => Efun B e) (allv e) _ _ _ _ _ _ C1 _); try inl; [intros; apply at_fun_defs; assumption|]. intros z I; apply BL; inl.
    + refine (lift _ _ _ _ _ _ (Efun B') (allv_funs B') _ _ _ _ _ _ C2 _); try inl; [intros; constructor; assumption|].
      eapply chain_below; [exact C1|]. intros z I; apply BL; inl.
  - intros. apply c_refl. lia.
  - intros x p e s e' s' _ IH BL. refine (lift _ _ _ _ _ _ (Eprim_val x p) [x] _ _ _ _ _ _ (IH _) _); try inl; [intros; constructor; assumption| |]; intros z I; apply BL; inl.
  - intros x p ys e s e' s' _ IH BL. refine (lift _ _ _ _ _ _ (Eprim x p ys) (x :: ys) _ _ _ _ _ _ (IH _) _); try inl; [intros; constructor; assumption| |]; intros z I; apply BL; inl.
  - intros. apply c_refl. lia.
  - intros. apply c_refl. lia.
  - intros c e l s e' s1 l' s2 H1 IH1 H2 IH2 BL. assert (G1 : (nextx s <= nextx s1)%positive) by (eapply g_next; eapply (proj1 (run_grows cps)); exact H1).
    assert (C1 : chaine (nextx s) (nextx s1) e e') by (apply IH1; intros z I; apply BL; inl).
    assert (C2 : chainl (nextx s1) (nextx s2) l l') by (apply IH2; intros z I; assert (In z (allvl ((c, e) :: l))) by inl; apply BL in H; lia).
    eapply (chain_trans _ _ _ swl) with (x1 := (c, e') :: l).
    + refine (lift _ _ _ _ _ _ (fun e => (c, e) :: l) (allvl l) _ _ _ _ _ _ C1 _); try inl.
      * intros R a a' W. exists [], c, a, a', l. auto.
      * intros z I; apply BL; inl.
    + refine (lift _ _ _ _ _ _ (cons (c, e')) (allv e') _ _ _ _ _ _ C2 _); try inl.
      * intros R a a' (l1 & c0 & a0 & a1 & l2 & -> & -> & W). exists ((c, e') :: l1), c0, a0, a1, l2. auto.
      * eapply chain_below; [exact C1|]. intros z I; apply BL; inl.
  - intros. apply c_refl. lia.
  - intros f t xs e B s e' s1 B' s2 H1 IH1 H2 IH2 BL. assert (G1 : (nextx s <= nextx s1)%positive) by (eapply g_next; eapply (proj1 (run_grows cps)); exact H1).
    assert (C1 : chaine (nextx s) (nextx s1) e e') by (apply IH1; intros z I; apply BL; inl).
    assert (C2 : chainf (nextx s1) (nextx s2) B B') by (apply IH2; intros z I; assert (In z (allv_funs (Fcons f t xs e B))) by inl; apply BL in H; lia).
    eapply (chain_trans _ _ _ swf) with (x1 := Fcons f t xs e' B).
    + refine (lift _ _ _ _ _ _ (fun e => Fcons f t xs e B) (f :: xs ++ allv_funs B) _ _ _ _ _ _ C1 _); try inl.
      * intros; apply at_body; assumption.
      * intros z I; apply BL; inl.
    + refine (lift _ _ _ _ _ _ (Fcons f t xs e') (f :: xs ++ allv e') _ _ _ _ _ _ C2 _); try inl.
      * intros; apply at_rest; assumption.
      * intros z I. cbn [In] in I. rewrite in_app_iff in I. destruct I as [I|[I|I]].
        -- assert (In z (allv_funs (Fcons f t xs e B))) by inl. apply BL in H. lia.
        -- assert (In z (allv_funs (Fcons f t xs e B))) by inl. apply BL in H. lia.
        -- eapply chain_below; [exact C1| |exact I]. intros y J; apply BL; inl.
  - intros f ft pre fv g gt gv ge tl fds s w fds' s1 r s2 A1 A2 A3 FI HR IH BL.
    apply fire_spec in FI as (f1 & ft1 & fv1 & gv1 & -> & -> & L1 & L2 & ND & IN & G & _).
    assert (Le : (nextx s <= nextx s1)%positive) by apply G.
    assert (BB : forall z, In z (allv_funs (Fcons f ft (pre ++ fv) (Efun (Fcons g gt gv ge Fnil) tl) fds)) -> (z < nextx s1)%positive) by (intros z I; apply BL in I; lia).
    assert (BN : forall z, In z (f1 :: gv1 ++ fv1) -> (z < nextx s1)%positive) by (intros z I; apply IN in I; lia).
    assert (B1 : belf (nextx s1) (Fcons f1 ft1 (gv ++ fv) ge fds)).
    { intros z I. assert (In z (f1 :: gv1 ++ fv1) \/ In z (allv_funs (Fcons f ft (pre ++ fv) (Efun (Fcons g gt gv ge Fnil) tl) fds))) as [Q|Q] by inl; auto. }
    eapply c_step; [|exact Le| |].
    + apply at_here. constructor; eauto. intros x I Lx. apply IN in I. lia.
    + intros z I. assert (In z (f1 :: gv1 ++ fv1) \/ In z (allv_funs (Fcons f ft (pre ++ fv) (Efun (Fcons g gt gv ge Fnil) tl) fds))) as [Q|Q] by inl; auto.
    + refine (lift _ _ _ _ _ _ (Fcons f ft (pre ++ fv1) (Efun (Fcons g gt gv1 (Eapp f1 ft1 (gv1 ++ fv1)) Fnil) tl))
        ((f1 :: gv1 ++ fv1) ++ allv_funs (Fcons f ft (pre ++ fv) (Efun (Fcons g gt gv ge Fnil) tl) fds)) _ _ _ _ _ _ (IH B1) _); [intros; apply at_rest; assumption|inl|].
      intros z I. apply in_app_iff in I as [I|I]; auto.
Qed.

Lemma chain_steps n n' e e' : chaine n n' e e' -> bele n e -> uncurry_steps e e'.
Proof.
  induction 1 as [n n' e L|n m n' e e1 e' H L B H1 IH]; intro BL; [apply rt_refl|].
  eapply rt_trans; [apply rt_step|apply IH; exact B]. eapply swe; [|exact H]. apply rewrite_anti. intros x I. apply BL. apply name_allv. exact I.
Qed.

(* ** Binders: those of the program remain, new ones are bound once *)
Definition addsn (n n' : positive) (l l' : list var) : Prop :=
  forall z, ((z < n \/ n' <= z)%positive -> cnt z l' = cnt z l) /\ ((n <= z < n')%positive -> cnt z l' <= 1 + cnt z l).
Lemma cnt_NoDup z l : NoDup l -> cnt z l = if in_dec Pos.eq_dec z l then 1 else 0.
Proof.
  intro ND. unfold cnt. destruct (in_dec Pos.eq_dec z l) as [I|I].
  - apply (proj1 (NoDup_count_occ' Pos.eq_dec l) ND z I).
  - apply count_occ_not_In. exact I.
Qed.
Ltac cn := unfold addsn in *; cbn [bv bv_funs flat_map snd app] in *; repeat progress (rewrite ?cnt_app, ?cnt_cons in * ).
Lemma run_adds cps :
  (forall e s e' s', run cps e s e' s' -> addsn (nextx s) (nextx s') (bv e) (bv e')) /\
  (forall l s l' s', runl cps l s l' s' -> addsn (nextx s) (nextx s') (flat_map (fun p => bv (snd p)) l) (flat_map (fun p => bv (snd p)) l')) /\
  (forall B s B' s', runf cps B s B' s' -> addsn (nextx s) (nextx s') (bv_funs B) (bv_funs B')).
Proof.
  apply run_mutind.
  - intros x t ys e s e' s' _ IH z. specialize (IH z). cn. lia.
  - intros x l s l' s' _ IH z. exact (IH z).
  - intros x t n y e s e' s' _ IH z. specialize (IH z). cn. lia.
  - intros x f t ys e s e' s' _ IH z. specialize (IH z). cn. lia.
  - intros B e s B' s1 e' s2 H1 IH1 H2 IH2 z. pose proof (g_next _ _ (proj2 (proj2 (run_grows cps)) _ _ _ _ H1)). pose proof (g_next _ _ (proj1 (run_grows cps) _ _ _ _ H2)).
    specialize (IH1 z). specialize (IH2 z). cn. lia.
  - intros f t ys s z. cn. lia.
  - intros x p e s e' s' _ IH z. specialize (IH z). cn. lia.
  - intros x p ys e s e' s' _ IH z. specialize (IH z). cn. lia.
  - intros x s z. cn. lia.
  - intros s z. cn. lia.
  - intros c e l s e' s1 l' s2 H1 IH1 H2 IH2 z. pose proof (g_next _ _ (proj1 (run_grows cps) _ _ _ _ H1)). pose proof (g_next _ _ (proj1 (proj2 (run_grows cps)) _ _ _ _ H2)).
    specialize (IH1 z). specialize (IH2 z). cn. lia.
  - intros s z. cn. lia.
  - intros f t xs e B s e' s1 B' s2 H1 IH1 H2 IH2 z. pose proof (g_next _ _ (proj1 (run_grows cps) _ _ _ _ H1)). pose proof (g_next _ _ (proj2 (proj2 (run_grows cps)) _ _ _ _ H2)).
    specialize (IH1 z). specialize (IH2 z). cn. lia.
  - intros f ft pre fv g gt gv ge tl fds s w fds' s1 r s2 A1 A2 A3 FI HR IH z. pose proof (g_next _ _ (proj2 (proj2 (run_grows cps)) _ _ _ _ HR)) as L2.
    apply fire_spec in FI as (f1 & ft1 & fv1 & gv1 & -> & -> & _ & _ & ND & IN & G & _). pose proof (g_next _ _ G) as L1. specialize (IH z). specialize (IN z).
    pose proof (cnt_NoDup z _ ND) as CN. assert (BT : bv tl = []) by (destruct A1 as [(k & kt & -> & ->)|[-> ->]]; reflexivity).
    cn. rewrite BT in *. cn. destruct (in_dec Pos.eq_dec z (f1 :: gv1 ++ fv1)) as [I|I].
    + apply IN in I. destruct IH as [I1 I2]. specialize (I1 (or_introl (proj2 I))). split; [lia|]. intros _. cbn [cnt count_occ] in *. lia.
    + assert (Q : ~ (nextx s <= z < nextx s1)%positive) by tauto. split; intro R.
      * assert (R' : (z < nextx s1 \/ nextx s2 <= z)%positive) by lia. apply IH in R'. lia.
      * assert (R' : (nextx s1 <= z < nextx s2)%positive) by lia. apply IH in R'. lia.
Qed.

(* ** The table of calling conventions *)
Lemma conv_case_app fe l1 l2 x : conv_ok fe (Ecase x (l1 ++ l2)) <-> conv_ok fe (Ecase x l1) /\ conv_ok fe (Ecase x l2).
Proof. cbn [conv_ok]. induction l1 as [|p l1 IH]; cbn [app]; [tauto|]. rewrite IH. tauto. Qed.
Lemma conv_ext fe fe' : ext fe fe' -> (forall e, conv_ok fe e -> conv_ok fe' e) /\ (forall B, conv_ok_funs fe B -> conv_ok_funs fe' B).
Proof.
  intro X. assert (AG : forall t xs, agrees fe t xs -> agrees fe' t xs) by (intros t xs (l & G & L); exists l; auto).
  apply exp_fundefs_ind; cbn [conv_ok conv_ok_funs]; auto.
  - intros x l IH. induction IH as [|p l H _ IHl]; [auto|]. intros [A1 A2]. split; [apply H; exact A1|exact (IHl A2)].
  - intros x f t ys e IH [A1 A2]. auto.
  - intros B e IHB IH [A1 A2]. auto.
  - intros f t xs e B IH IHB (A1 & A2 & A3). auto.
Qed.
Lemma run_conv cps :
  (forall e s e' s', run cps e s e' s' -> tags_ok s -> conv_ok (fenv (cdata s)) e -> conv_ok (fenv (cdata s')) e') /\
  (forall l s l' s', runl cps l s l' s' -> forall x, tags_ok s -> conv_ok (fenv (cdata s)) (Ecase x l) -> conv_ok (fenv (cdata s')) (Ecase x l')) /\
  (forall B s B' s', runf cps B s B' s' -> tags_ok s -> conv_ok_funs (fenv (cdata s)) B -> conv_ok_funs (fenv (cdata s')) B').
Proof.
  assert (AG : forall fe fe' t xs, ext fe fe' -> agrees fe t xs -> agrees fe' t xs) by (intros fe fe' t xs X (l & G & L); exists l; auto).
  apply run_mutind.
  - intros x t ys e s e' s' _ IH. exact IH.
  - intros x l s l' s' _ IH. apply IH.
  - intros x t n y e s e' s' _ IH. exact IH.
  - intros x f t ys e s e' s' H IH T [A1 A2]. destruct (g_fenv _ _ (proj1 (run_grows cps) _ _ _ _ H) T) as [X _]. split; [eapply AG; eauto|auto].
  - intros B e s B' s1 e' s2 H1 IH1 H2 IH2 T [A1 A2]. destruct (g_fenv _ _ (proj2 (proj2 (run_grows cps)) _ _ _ _ H1) T) as [X1 T1].
    destruct (g_fenv _ _ (proj1 (run_grows cps) _ _ _ _ H2) T1) as [X2 _]. split; [apply (conv_ext _ _ X2); auto|]. apply IH2; [exact T1|]. apply (conv_ext _ _ X1). exact A2.
  - auto.
  - intros x p e s e' s' _ IH. exact IH.
  - intros x p ys e s e' s' _ IH. exact IH.
  - auto.
  - auto.
  - intros c e l s e' s1 l' s2 H1 IH1 H2 IH2 x T [A1 A2]. cbn [snd] in *. destruct (g_fenv _ _ (proj1 (run_grows cps) _ _ _ _ H1) T) as [X1 T1].
    destruct (g_fenv _ _ (proj1 (proj2 (run_grows cps)) _ _ _ _ H2) T1) as [X2 _].
    assert (K : conv_ok (fenv (cdata s2)) (Ecase x l')) by (apply IH2; [exact T1|]; apply (conv_ext _ _ X1); exact A2).
    split; [cbn [snd]; apply (conv_ext _ _ X2); auto|exact K].
  - auto.
  - intros f t xs e B s e' s1 B' s2 H1 IH1 H2 IH2 T (A1 & A2 & A3). destruct (g_fenv _ _ (proj1 (run_grows cps) _ _ _ _ H1) T) as [X1 T1].
    destruct (g_fenv _ _ (proj2 (proj2 (run_grows cps)) _ _ _ _ H2) T1) as [X2 _].
    split; [eapply AG; [exact X2|]; eapply AG; eauto|]. split; [apply (conv_ext _ _ X2); auto|]. apply IH2; [exact T1|]. apply (conv_ext _ _ X1). exact A3.
  - intros f ft pre fv g gt gv ge tl fds s w fds' s1 r s2 W1 W2 W3 FI HR IH T A.
    cbn [conv_ok conv_ok_funs] in A. destruct A as (A1 & ((A2 & A3 & _) & A4) & A5).
    apply fire_spec in FI as (f1 & ft1 & fv1 & gv1 & -> & -> & L1 & L2 & ND & IN & G & FT). destruct (g_fenv _ _ G T) as [X1 T1].
    destruct (g_fenv _ _ (proj2 (proj2 (run_grows cps)) _ _ _ _ HR) T1) as [X2 _]. destruct (FT T) as (l & GF & LF). clear FT.
    assert (Q : forall xs, List.length xs = List.length fv + List.length gv -> agrees (fenv (cdata s1)) ft1 xs).
    { intros xs Lx. exists l. unfold var in *. rewrite Lx. auto. }
    assert (LN : forall t (xs ys : list var), List.length xs = List.length ys -> agrees (fenv (cdata s)) t xs -> agrees (fenv (cdata s2)) t ys).
    { intros t xs ys Lx (l0 & G0 & L0). exists l0. unfold var in *. rewrite <- Lx. auto. }
    cbn [conv_ok conv_ok_funs]. split; [eapply LN; [|exact A1]; rewrite !app_length; unfold var in *; lia|]. split; [split|].
    + split; [eapply LN; [|exact A2]; unfold var in *; lia|]. split; [|exact I]. eapply AG; [exact X2|]. apply Q. rewrite app_length. unfold var in *. lia.
    + apply (conv_ext _ _ X2). apply (conv_ext _ _ X1). exact A4.
    + apply IH; [exact T1|]. cbn [conv_ok_funs]. split; [apply Q; rewrite app_length; unfold var in *; lia|].
      split; [apply (conv_ext _ _ X1); exact A3|apply (conv_ext _ _ X1); exact A5].
Qed.
