(* From the program in continuation-passing style to the Wasm module. *)
From Coq Require Import List Arith NArith PArith String Bool Lia Permutation.
From Verif Require Import ANF_Syntax ANF_Subst ANF_Eval ANF_Spec ANF_Scope Comp_Model Comp_Proofs Pipe_Model Pipe_Spec Pipe_Shapes Pipe_ShapesCC
  Shrink_Model Shrink_CensusProofs Shrink_Inv Shrink_Total CC_Scope LB_Model AN_Model AN_Proofs AN_Scope End_Front
  CP_Model CP_Proofs CP_Scope CP_Agree CP_Twin.
From Verif Require Import Inline_LetProofs.
From Verif Require AN_Spec.
Import ListNotations.
Local Open Scope nat_scope.

(* ---- no calls in the middle ---- *)
Fixpoint nolet (e : exp) : Prop :=
  match e with
  | Econstr _ _ _ e | Eproj _ _ _ _ e | Eprim_val _ _ e | Eprim _ _ _ e => nolet e
  | Ecase _ cl => (fix go (cl : list (ctor_tag * exp)) : Prop := match cl with [] => True | p :: cl' => nolet (snd p) /\ go cl' end) cl
  | Eletapp _ _ _ _ _ => False
  | Efun B e => nolet_funs B /\ nolet e
  | Eapp _ _ _ | Ehalt _ => True
  end
with nolet_funs (B : fundefs) : Prop :=
  match B with Fcons _ _ _ e B => nolet e /\ nolet_funs B | Fnil => True end.
Lemma nolet_case x cl : nolet (Ecase x cl) <-> Forall (fun p => nolet (snd p)) cl.
Proof.
  cbn [nolet]. induction cl as [|p cl IH]; [split; auto |]. rewrite IH. split; [intros [A B]; constructor; auto |].
  intro H. inversion H; subst. auto.
Qed.

Lemma off_intro F : (forall e, nolet e -> (forall z, In z (bv e) -> ~ F z) -> (forall z, In z (Shrink_CensusProofs.uses e) -> ~ F z) -> off F e) /\
  (forall B, nolet_funs B -> (forall z, In z (bv_funs B) -> ~ F z) -> (forall z, In z (uses_funs B) -> ~ F z) -> off_funs F B).
Proof.
  apply exp_fundefs_ind; cbn [bv bv_funs Shrink_CensusProofs.uses uses_funs off off_funs].
  - intros x t ys e IH N B U. split; [apply B; left; reflexivity |]. split; [apply Forall_forall; intros z I; apply U; apply in_or_app; auto |].
    apply IH; auto; intros z I; [apply B; right; exact I | apply U; apply in_or_app; auto].
  - intros x cl FA N B U. apply nolet_case in N. apply off_case. split; [apply U; left; reflexivity |].
    assert (B' : forall p z, In p cl -> In z (bv (snd p)) -> ~ F z).
    { intros p z I J. apply B. apply in_flat_map. exists p. auto. }
    assert (U' : forall p z, In p cl -> In z (Shrink_CensusProofs.uses (snd p)) -> ~ F z).
    { intros p z I J. apply U. right. apply in_flat_map. exists p. auto. }
    clear B U. rewrite !Forall_forall in *. intros p I. apply FA; [exact I | apply N; exact I | intros z J; exact (B' p z I J) | intros z J; exact (U' p z I J)].
  - intros x t n y e IH N B U. split; [apply B; left; reflexivity |]. split; [apply U; left; reflexivity |].
    apply IH; auto; intros z I; [apply B; right; exact I | apply U; right; exact I].
  - intros x f t ys e IH [].
  - intros B e IHB IH [N1 N2] Bd U. split; [apply IHB | apply IH]; auto; intros z I; first [solve [apply Bd; apply in_or_app; auto] | apply U; apply in_or_app; auto].
  - intros f t ys _ B U. split; [apply U; left; reflexivity |]. apply Forall_forall. intros z I. apply U. right. exact I.
  - intros x p e IH N B U. split; [apply B; left; reflexivity |]. apply IH; auto. intros z I. apply B. right. exact I.
  - intros x p ys e IH N B U. split; [apply B; left; reflexivity |]. split; [apply Forall_forall; intros z I; apply U; apply in_or_app; auto |].
    apply IH; auto; intros z I; [apply B; right; exact I | apply U; apply in_or_app; auto].
  - intros x _ B U. apply U. left. reflexivity.
  - intros f t xs e B IH IHB [N1 N2] Bd U. split; [apply Bd; left; reflexivity |].
    split; [apply Forall_forall; intros z I; apply Bd; right; apply in_or_app; auto |].
    split; [apply IH | apply IHB]; auto; intros z I; first [solve [apply Bd; right; apply in_or_app; right; apply in_or_app; auto] | apply U; apply in_or_app; auto].
  - auto.
Qed.

(* ---- what the conversion makes ---- *)
Section Shapes.
  Variable S : shape -> Prop.
  Variable prims : tmap nat.
  Variable tgm : conId_map.
  Variables func_tag kon_tag default_tag : positive.
  Variable K : dcon -> N -> Prop.
  Hypothesis SK : forall d n, K d n -> S (SConstr (dcon_to_tag default_tag d tgm) (N.to_nat n)) /\ S (SBranch (dcon_to_tag default_tag d tgm)).
  Hypothesis S0 : S (SConstr default_tag 0).
  Hypothesis SF : S (SFun func_tag 2) /\ S (SCall func_tag 2).
  Hypothesis SK1 : S (SFun kon_tag 1) /\ S (SCall kon_tag 1).
  Notation cps := (cps_cvt prims func_tag kon_tag default_tag tgm).
  Notation cpss := (cps_cvt_exps prims func_tag kon_tag default_tag tgm).
  Notation cpsfs := (cps_cvt_efnlst prims func_tag kon_tag default_tag tgm).
  Notation cpsbs := (cps_cvt_branches prims func_tag kon_tag default_tag tgm).

  Definition fine (e : exp) : Prop := all S e /\ nolet e.
  Lemma fine_fun f t xs b e : S (SFun t (List.length xs)) -> fine b -> fine e -> fine (Efun (Fcons f t xs b Fnil) e).
  Proof. intros A [B1 B2] [C1 C2]. split; [rewrite all_Efun0, all_Fcons; repeat split; auto | cbn [nolet nolet_funs]; auto]. Qed.
  Lemma fine_kon k v : fine (Eapp k kon_tag [v]).
  Proof. split; [apply SK1 | exact I]. Qed.
  Lemma fine_proj t r e : fine e -> forall vars n, fine (app_ctx_f (ctx_bind_proj t r vars n) e).
  Proof. intros A. induction vars as [|v vars IH]; intro n; cbn [ctx_bind_proj app_ctx_f]; auto. apply (IH (n - 1)). Qed.

  Lemma cps_fine :
    (forall e, conforms K e -> forall vn k s e' s', cps e vn k s = Some (e', s') -> fine e') /\
    (forall l, conforms_es K l -> forall vn ea xs ks s e' s', cpss l vn ea xs ks s = Some (e', s') -> fine ea -> fine e') /\
    (forall l, conforms_fs K l -> forall vn ns s B s', cpsfs l vn ns s = Some (B, s') -> all_funs S B /\ nolet_funs B) /\
    (forall l, conforms_bs K l -> forall vn k r s ps s', cpsbs l vn k r s = Some (ps, s') ->
       all_cases S ps /\ Forall (fun p => nolet (snd p)) ps).
  Proof.
    apply exp_ind_lam.
    - intros n _ vn k s e' s' E. cbn [cps_cvt] in E. destruct (nth_error vn (N.to_nat n)); [| discriminate]. injection E as <- <-. apply fine_kon.
    - intros na e IH U vn k s e' s' E. cbn [cps_cvt fresh conforms] in *. dopt E [[e1 s1] |] F. injection E as <- <-.
      apply fine_fun; [apply SF | eapply IH; eauto | apply fine_kon].
    - intros e1 IH1 e2 IH2 [U1 U2] vn k s e' s' E. cbn [cps_cvt fresh] in E. dopt E [[e1' s1] |] F1. dopt E [[e2' s2] |] F2. injection E as <- <-.
      apply fine_fun; [apply SK1 | | eapply IH1; eauto]. apply fine_fun; [apply SK1 | | eapply IH2; eauto]. split; [apply SF | exact I].
    - intros d l IH [U1 U2] vn k s e' s' E. cbn [cps_cvt fresh] in E.
      destruct (fresh_list (N.to_nat (exps_length l)) (s + 1)) as [xs s1] eqn:F1.
      destruct (fresh_list (N.to_nat (exps_length l)) s1) as [ks s2] eqn:F2.
      apply fresh_list_at in F1. destruct F1 as (N1 & _).
      eapply (IH U2); [exact E |]. split; [| exact I]. cbn [all]. split; [rewrite N1; apply (SK _ _ U1) | apply SK1].
    - intros e1 IH1 n bs IHb (U1 & _ & U2) vn k s e' s' E. cbn [cps_cvt fresh] in E. dopt E [[e1' s1] |] F1. dopt E [[ps s2] |] F2. injection E as <- <-.
      destruct (IHb U2 _ _ _ _ _ _ F2) as [A B].
      apply fine_fun; [apply SK1 | | eapply IH1; eauto]. split; [apply all_Ecase; exact A | apply nolet_case; exact B].
    - intros na e1 IH1 e2 IH2 [U1 U2] vn k s e' s' E. cbn [cps_cvt fresh] in E. dopt E [[e2' s1] |] F2. dopt E [[e1' s2] |] F1. injection E as <- <-.
      apply fine_fun; [apply SK1 | eapply IH2; eauto | eapply IH1; eauto].
    - intros fs IH i [L U] vn k s e' s' E. cbn [cps_cvt] in E. destruct (fresh_list (efnlength fs) s) as [ns s1] eqn:F1.
      dopt E [[B s2] |] F2. destruct (nth_error ns (N.to_nat i)); [| discriminate]. injection E as <- <-.
      destruct (IH U _ _ _ _ _ F2) as [A1 A2]. destruct (fine_kon k v) as [B1 B2]. split; [apply all_Efun0; auto | split; auto].
    - intros _ vn k s e' s' E. cbn in E. injection E as <- <-. split; [| exact I]. split; [exact S0 | apply SK1].
    - intros p [].
    - intros p [].
    - intros _ vn ea xs ks s e' s' E A. cbn in E. injection E as <- <-. exact A.
    - intros e IH1 l IH2 [U1 U2] vn ea xs ks s e' s' E A. cbn [cps_cvt_exps] in E. destruct xs as [|x1 xs]; [discriminate |].
      destruct ks as [|k1 ks]; [discriminate |]. dopt E [[e1 s1] |] F1. dopt E [[e2 s2] |] F2. injection E as <- <-.
      apply fine_fun; [apply SK1 | eapply IH2; eauto | eapply IH1; eauto].
    - intros _ vn ns s B s' E. cbn in E. injection E as <- <-. split; exact I.
    - intros na e _ IH1 l IH2 [U1 U2] vn ns s B s' E. cbn [cps_cvt_efnlst fresh] in E. destruct e; try discriminate.
      dopt E [[e1 s1] |] F1. dopt E [[B1 s2] |] F2. injection E as <- <-.
      destruct (IH1 _ _ eq_refl U1 _ _ _ _ _ F1) as [A1 A2]. destruct (IH2 U2 _ _ _ _ _ F2) as [B2 B3].
      split; [rewrite all_Fcons; repeat split; auto; apply SF | split; auto].
    - intros _ vn k r s ps s' E. cbn in E. injection E as <- <-. split; constructor.
    - intros d n e IH1 bs IH2 (U1 & U2 & U3) vn k r s ps s' E. cbn [cps_cvt_branches] in E. dopt E [[ps1 s1] |] F1.
      destruct (fresh_list (N.to_nat (nargs n)) s1) as [vars s2] eqn:FL. dopt E [[e1 s3] |] F2. injection E as <- <-.
      destruct (IH2 U3 _ _ _ _ _ _ F1) as [A1 A2].
      destruct (fine_proj (dcon_to_tag default_tag d tgm) r e1 (IH1 U2 _ _ _ _ _ F2) vars (List.length vars)) as [B1 B2].
      split; [rewrite all_cases_cons; split; [split; [apply (SK _ _ U1) | exact B1] | exact A1] | constructor; [exact B2 | exact A2]].
  Qed.
End Shapes.

(* ---- the program and its twin ---- *)
Section Program.
  Variable prims : tmap nat.
  Variable tgm : conId_map.
  Variables func_tag kon_tag default_tag : positive.
  Variable K : dcon -> N -> Prop.
  Notation convert := (convert_whole_exp prims func_tag kon_tag default_tag tgm).

  (* the twin of the program converted from the name [next] on *)
  Definition twin_at (next : positive) (b : exp) : exp :=
    twin kon_tag (next + 1)%positive next (next + 1 + 1)%positive 1%positive 2%positive b.

  Lemma convert_form next e e' s' : convert next e = Some (e', s') ->
    exists b, cps_cvt prims func_tag kon_tag default_tag tgm e [] next (next + 1 + 1 + 1)%positive = Some (b, s') /\
      e' = original kon_tag (next + 1)%positive next (next + 1 + 1)%positive b.
  Proof.
    intro E. unfold convert_whole_exp in E. cbn [fresh] in E. dopt E [[b s1] |] F. injection E as <- <-. exists b. auto.
  Qed.

  Section Fixed.
    Variables next s' : positive.
    Variable e : lexp.
    Variable b : exp.
    Hypothesis N3 : (3 <= next)%positive.
    Hypothesis CF : conforms K e.
    Hypothesis CV : cps_cvt prims func_tag kon_tag default_tag tgm e [] next (next + 1 + 1 + 1)%positive = Some (b, s').
    Let f := (next + 1)%positive.
    Let x := (next + 1 + 1)%positive.

    Lemma body_free z : free z b -> z = next.
    Proof. intro H. destruct (proj1 (cps_free prims func_tag kon_tag default_tag tgm) _ _ _ _ _ _ CV z H) as [Q | []]. exact Q. Qed.
    Lemma body_bound : NoDup (bv b) /\ forall z, In z (bv b) -> (next + 1 + 1 + 1 <= z)%positive.
    Proof.
      destruct (proj1 (cps_bind prims func_tag kon_tag default_tag tgm) _ _ _ _ _ _ CV) as [A B]. split; [exact A |].
      intros z I. apply B in I. unfold btw in I. lia.
    Qed.
    Lemma body_uses z : In z (Shrink_CensusProofs.uses b) -> z = next \/ (next + 1 + 1 + 1 <= z)%positive.
    Proof. intro I. destruct (proj1 uses_scope b z I) as [H | H]; [left; apply body_free; exact H | right; apply body_bound; exact H]. Qed.

    Lemma body_off : off (fun z => z = f \/ z = 1%positive \/ z = 2%positive) b.
    Proof.
      apply (proj1 (off_intro _)).
      - apply (proj1 (cps_fine (fun _ => True) prims tgm func_tag kon_tag default_tag K
          ltac:(auto) I (conj I I) (conj I I)) e CF _ _ _ _ _ CV).
      - intros z J Q. apply body_bound in J. unfold f in Q. lia.
      - intros z J Q. apply body_uses in J. unfold f in Q. lia.
    Qed.

    Lemma same_max z : max_var (original kon_tag f next x b) z = max_var (twin kon_tag f next x 1%positive 2%positive b) z.
    Proof.
      destruct (proj1 max_var_max (original kon_tag f next x b) z) as (A1 & A2 & A3).
      destruct (proj1 max_var_max (twin kon_tag f next x 1%positive 2%positive b) z) as (B1 & B2 & B3).
      set (m1 := max_var (original kon_tag f next x b) z) in *. set (m2 := max_var (twin kon_tag f next x 1%positive 2%positive b) z) in *. clearbody m1 m2.
      assert (IO : forall y, In y (allv (original kon_tag f next x b)) <-> y = f \/ y = next \/ y = x \/ In y (allv b)).
      { clear. intro y. unfold original. cbn [allv allv_funs]. rewrite !in_app_iff. cbn [In]. rewrite !in_app_iff. cbn [In]. rewrite !in_app_iff. cbn [In]. intuition auto. }
      assert (IT : forall y, In y (allv (twin kon_tag f next x 1%positive 2%positive b)) -> y = f \/ y = next \/ y = x \/ In y (allv b) \/ y = 1%positive \/ y = 2%positive).
      { clear. intro y. unfold twin. cbn [allv allv_funs]. intro J.
        repeat (rewrite in_app_iff in J || cbn [In] in J). intuition auto. match goal with H : In y (repeat _ _) |- _ => apply repeat_spec in H; auto end. }
      assert (TI : forall y, y = f \/ y = next \/ y = x \/ In y (allv b) -> In y (allv (twin kon_tag f next x 1%positive 2%positive b))).
      { clear. intro y. unfold twin. cbn [allv allv_funs]. repeat (rewrite in_app_iff || cbn [In]). intuition auto. }
      assert (L1 : (m1 <= m2)%positive).
      { destruct A1 as [-> | A1]; [exact B2 |]. apply B3. apply TI. apply IO. exact A1. }
      assert (L2 : (m2 <= m1)%positive).
      { destruct B1 as [-> | B1]; [exact A2 |]. apply IT in B1.
        assert (F1 : (f <= m1)%positive) by (apply A3, IO; auto).
        destruct B1 as [B1 | [B1 | [B1 | [B1 | [B1 | B1]]]]]; try (apply A3, IO; auto; fail); unfold f in F1; lia. }
      lia.
    Qed.

    (* the first pass makes the same of both *)
    Lemma twin_shrunk : Pipe_Model.shrunk (original kon_tag f next x b) = Pipe_Model.shrunk (twin kon_tag f next x 1%positive 2%positive b).
    Proof.
      unfold Pipe_Model.shrunk. destruct (shrink_top (original kon_tag f next x b)) as [[r1 s1]|] eqn:E1; [| destruct (shrink_total _ E1)].
      destruct (shrink_top (twin kon_tag f next x 1%positive 2%positive b)) as [[r2 s2]|] eqn:E2; [| destruct (shrink_total _ E2)].
      destruct (shrink_top_exact _ _ _ E1) as (c1 & d1 & j1 & C1 & H1). destruct (shrink_top_exact _ _ _ E2) as (c2 & d2 & j2 & C2 & H2).
      rewrite <- same_max in C2.
      assert (A : forall y, y = f \/ y = next \/ y = 1%positive \/ y = 2%positive -> (max_var (original kon_tag f next x b) 1 + 1)%positive <> y).
      { intros y Y. destruct (proj1 max_var_max (original kon_tag f next x b) 1%positive) as (_ & _ & A3).
        assert (F1 : (f <= max_var (original kon_tag f next x b) 1)%positive).
        { apply A3. unfold original. cbn [allv allv_funs]. left. reflexivity. }
        unfold f in *. lia. }
      eapply (twin_contract kon_tag f next x 1%positive 2%positive b body_off); [| | | | | | | | | | exact C1 | exact C2 | exact H1 | exact H2];
        try (apply A; auto; fail); unfold f, x; try lia.
    Qed.

    (* the twin binds every name once and is closed *)
    Lemma twin_bound : NoDup (bv (twin kon_tag f next x 1%positive 2%positive b)).
    Proof.
      destruct body_bound as [ND B]. unfold twin. cbn [bv bv_funs app]. rewrite !app_nil_r.
      repeat (rewrite NoDup_app_iff || rewrite NoDup_cons_iff). repeat split; auto; try apply NoDup_nil;
        intros; try match goal with |- ~ _ => intro end; in_split; bound; unfold f, x in *; try lia; auto.
    Qed.
    Lemma twin_closed z : ~ free z (twin kon_tag f next x 1%positive 2%positive b).
    Proof.
      unfold twin. cbn [free free_body fnames In]. intros [N [[Q | [Q | []]] | [[N2 FR] | [[N2 FR] | [[N2 [FR | FR]] | []]]]]].
      - subst. apply N. auto.
      - subst. apply N. auto.
      - apply body_free in FR. subst. apply N. auto.
      - subst. apply N2. auto.
      - subst. apply N. auto.
      - apply repeat_spec in FR. subst. apply N. auto.
    Qed.
    Lemma twin_all (S : shape -> Prop) :
      (forall d n, K d n -> S (SConstr (dcon_to_tag default_tag d tgm) (N.to_nat n)) /\ S (SBranch (dcon_to_tag default_tag d tgm))) ->
      S (SConstr default_tag 0) -> (forall t n, S (SFun t n) /\ S (SCall t n)) -> all S (twin kon_tag f next x 1%positive 2%positive b).
    Proof.
      intros S1 S2 S3. unfold twin. rewrite all_Efun0, !all_Fcons.
      assert (A := proj1 (proj1 (cps_fine S prims tgm func_tag kon_tag default_tag K S1 S2 (S3 _ _) (S3 _ _)) e CF _ _ _ _ _ CV)).
      repeat split; try apply S3; auto.
    Qed.
  End Fixed.
End Program.

Lemma abind_same {A B} (m1 m2 : anf_state A) (k : A -> anf_state B) c : m1 c = m2 c -> abind m1 k c = abind m2 k c.
Proof. intro H. unfold abind. rewrite H. reflexivity. Qed.

(* The pipeline starts with the reducer, and its state depends on the program
   only through the largest name. *)
Lemma pipeline_same nv opts cenv ctag itag nenv fenv e1 e2 :
  Pipe_Model.shrunk e1 = Pipe_Model.shrunk e2 -> max_var e1 1 = max_var e2 1 ->
  run_anf_pipeline passes nv opts (cenv, ctag, itag, nenv, fenv, e1) = run_anf_pipeline passes nv opts (cenv, ctag, itag, nenv, fenv, e2).
Proof.
  intros H M. unfold run_anf_pipeline.
  assert (E : anf_pipeline passes nv opts e1 (initial_data cenv ctag itag nenv fenv e1) = anf_pipeline passes nv opts e2 (initial_data cenv ctag itag nenv fenv e2)).
  { unfold initial_data. rewrite M. unfold anf_pipeline. apply abind_same.
    unfold time_anf, timePhase, passes. cbn [Comp_Model.shrink_err]. unfold Pipe_Model.shrink_err. rewrite H. reflexivity. }
  rewrite E. reflexivity.
Qed.

From Verif Require Import WA_Spec WA_Eval LB_Env AN_Spec.
(* ---- the twin computes what the term computes ---- *)
Section Run.
  Variable prims : tmap nat.
  Variables func_tag kon_tag default_tag : positive.
  Variable tgm : conId_map.
  Variable cenv : ctor_env.
  Variable pr : tmap (list val -> option val).
  Hypothesis SIG : AN_Spec.good_sig default_tag tgm cenv.
  Notation peval := (WA_Spec.peval cenv pr).
  Notation vrel := (vrel prims func_tag kon_tag default_tag tgm).

  Lemma twin_sim : forall n next e b s', AN_Spec.uses tgm e -> (3 <= next)%positive ->
    cps_cvt prims func_tag kon_tag default_tag tgm e [] next (next + 1 + 1 + 1)%positive = Some (b, s') ->
    match eeval false n [] e with
    | EVal v => exists m v', vrel v v' /\ peval m [] (twin_at kon_tag next b) = PVal v'
    | ETime => peval n [] (twin_at kon_tag next b) = PTime
    | EStuck => True
    end.
  Proof.
    intros n next e b s1 U N3 F. unfold twin_at, twin.
    set (k := next) in *. set (f := (next + 1)%positive) in *. set (x := (f + 1)%positive) in *.
    set (B := Fcons f kon_tag [1%positive] b (Fcons k kon_tag [x] (Ehalt x) (Fcons 2%positive kon_tag [] (Eapp k kon_tag (repeat k (cnt k (Shrink_CensusProofs.uses b)))) Fnil))).
    change (k + 1)%positive with f. change (f + 1)%positive with x. fold B.
    set (kv := Vfun [] B k). set (gv := Vfun [] B 2%positive). set (r0 := def_funs B B [] []).
    assert (GK : get k r0 = Some kv) by (apply get_def_funs_in; right; left; reflexivity).
    assert (GG : get 2%positive r0 = Some gv) by (apply get_def_funs_in; right; right; left; reflexivity).
    assert (GF : get f r0 = Some (Vfun [] B f)) by (apply get_def_funs_in; left; reflexivity).
    assert (ST : forall m, peval (S m) [] (Efun B (Eapp f kon_tag [2%positive])) = peval m (set 1%positive gv r0) b).
    { intro m. change (peval (S m) r0 (Eapp f kon_tag [2%positive]) = peval m (set 1%positive gv r0) b).
      rewrite (peval_app cenv pr (S m) r0 f kon_tag [2%positive] (Vfun [] B f) [gv]); [| exact GF | cbn [get_list]; rewrite GG; reflexivity].
      erewrite callf_S; [reflexivity | unfold B; cbn [find_def]; destruct (Pos.eq_dec f f); [reflexivity | congruence] | reflexivity]. }
    assert (X : sim_ok prims func_tag kon_tag default_tag tgm cenv pr n (eeval false n [] e) (set 1%positive gv r0) b kv).
    { eapply (body_sim prims func_tag kon_tag default_tag tgm cenv pr SIG n e U [] k); [| | exact F | constructor |].
      - intros y [].
      - unfold x, f, k. lia.
      - rewrite get_set_other; [exact GK |]. unfold k. lia. }
    destruct (eeval false n [] e) as [v | |]; cbn [sim_ok] in X; auto.
    - destruct X as (c & v' & V & R). exists (S (c + 1)), v'. split; auto. rewrite ST, R.
      unfold kv. erewrite callf_S.
      2:{ unfold B. cbn [find_def]. destruct (Pos.eq_dec k f) as [Q |]; [unfold f, k in Q; lia |].
          destruct (Pos.eq_dec k k); [reflexivity | congruence]. }
      2:{ reflexivity. }
      unfold WA_Spec.peval. cbn [WA_Spec.ev]. rewrite get_set_same. reflexivity.
    - destruct n as [|n].
      + change (peval 0 r0 (Eapp f kon_tag [2%positive]) = PTime).
        rewrite (peval_app cenv pr 0 r0 f kon_tag [2%positive] (Vfun [] B f) [gv]); [reflexivity | exact GF | cbn [get_list]; rewrite GG; reflexivity].
      + rewrite ST. apply X. lia.
  Qed.
End Run.
