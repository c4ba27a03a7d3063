(* Conversion to continuation-passing style: it succeeds on well-scoped terms,
   what it gives mentions only the names of the term's variables and its
   continuation, and the names it binds are fresh and distinct. *)
From Coq Require Import List Arith NArith PArith String Bool Lia Permutation.
From Verif Require Import ANF_Syntax ANF_Subst ANF_Spec ANF_Scope LB_Model AN_Model AN_Spec AN_Proofs AN_Scope Inline_LetProofs CP_Model CP_Proofs.
Import ListNotations.

(* Distinctness of concatenated lists of names from bounds of the parts. *)
Ltac in_split := repeat match goal with
  | X : In _ (_ ++ _) |- _ => apply in_app_or in X; destruct X as [X | X]
  | X : In _ (_ :: _) |- _ => destruct X as [X | X]; [try subst |]
  | X : In _ [] |- _ => destruct X
  end.
Ltac bound := repeat match goal with
  | X : In ?y ?l, B : forall z, In z ?l -> _ |- _ => apply B in X
  end.
Ltac rngs := split;
  [ repeat (rewrite NoDup_app_iff || rewrite NoDup_cons_iff); repeat split; auto; try apply NoDup_nil;
    intros; try match goal with |- ~ _ => intro end; in_split; bound; try lia
  | intros; in_split; bound; lia ].

Section Conv.
  Variable prims : tmap nat.
  Variables func_tag kon_tag default_tag : positive.
  Variable tgm : conId_map.
  Notation cps := (cps_cvt prims func_tag kon_tag default_tag tgm).
  Notation cpss := (cps_cvt_exps prims func_tag kon_tag default_tag tgm).
  Notation cpsfs := (cps_cvt_efnlst prims func_tag kon_tag default_tag tgm).
  Notation cpsbs := (cps_cvt_branches prims func_tag kon_tag default_tag tgm).

  (* ---- binders ---- *)

  Lemma prim_bind : forall n p args k s e s', convert_prim func_tag kon_tag n p args k s = (e, s') ->
    rng s s' (bv e).
  Proof.
    induction n; intros p args k s e s' E; cbn [convert_prim fresh] in E.
    - injection E as <- <-. cbn [bv]. apply rng_one. unfold btw. lia.
    - match type of E with context [convert_prim func_tag kon_tag ?a ?b ?c ?d ?e] =>
        destruct (convert_prim func_tag kon_tag a b c d e) as [e1 s1] eqn:F end.
      injection E as <- <-. pose proof (prim_grows _ _ _ _ _ _ _ _ _ F) as G. apply IHn in F.
      cbn [bv bv_funs app]. rewrite !app_nil_r. unfold rng, btw in *. destruct F as [F1 F2]. rngs.
  Qed.

  Lemma cps_bind :
    (forall e vn k s e' s', cps e vn k s = Some (e', s') -> rng s s' (bv e')) /\
    (forall l vn ea xs ks s e' s', cpss l vn ea xs ks s = Some (e', s') ->
       List.length xs = N.to_nat (exps_length l) -> List.length ks = N.to_nat (exps_length l) ->
       exists l0, rng s s' l0 /\ Permutation (bv e') (xs ++ ks ++ bv ea ++ l0)) /\
    (forall l vn ns s B s', cpsfs l vn ns s = Some (B, s') -> List.length ns = efnlength l ->
       exists l0, rng s s' l0 /\ Permutation (bv_funs B) (ns ++ l0)) /\
    (forall l vn k r s ps s', cpsbs l vn k r s = Some (ps, s') -> rng s s' (flat_map (fun p => bv (snd p)) ps)).
  Proof.
    apply exp_ind_lam.
    - intros n vn k s e' s' E. cbn [cps_cvt] in E. destruct (nth_error vn (N.to_nat n)); [| discriminate]. injection E as <- <-. apply rng_nil.
    - intros na e IH vn k s e' s' E. cbn [cps_cvt fresh] in E. dopt E [[e1 s1] |] F. injection E as <- <-.
      pose proof (proj1 (cps_grows _ _ _ _ _) _ _ _ _ _ _ F) as G. apply IH in F.
      cbn [bv bv_funs app]. rewrite !app_nil_r. unfold rng, btw in *. destruct F as [F1 F2]. rngs.
    - intros e1 IH1 e2 IH2 vn k s e' s' E. cbn [cps_cvt fresh] in E. dopt E [[e1' s1] |] F1. dopt E [[e2' s2] |] F2.
      injection E as <- <-.
      pose proof (proj1 (cps_grows _ _ _ _ _) _ _ _ _ _ _ F1) as G1. pose proof (proj1 (cps_grows _ _ _ _ _) _ _ _ _ _ _ F2) as G2.
      apply IH1 in F1. apply IH2 in F2. cbn [bv bv_funs app]. rewrite !app_nil_r. cbn [app]. unfold rng, btw in *.
      destruct F1 as [A1 A2]. destruct F2 as [B1 B2]. rngs.
    - intros d l IH vn k s e' s' E. cbn [cps_cvt fresh] in E.
      destruct (fresh_list (N.to_nat (exps_length l)) (s + 1)) as [xs s1] eqn:F1.
      destruct (fresh_list (N.to_nat (exps_length l)) s1) as [ks s2] eqn:F2.
      apply fresh_list_at in F1. apply fresh_list_at in F2. destruct F1 as (N1 & M1 & B1 & D1). destruct F2 as (N2 & M2 & B2 & D2).
      pose proof (proj1 (proj2 (cps_grows _ _ _ _ _)) _ _ _ _ _ _ _ _ E) as G.
      destruct (IH _ _ _ _ _ _ _ E N1 N2) as (l0 & [R1 R2] & P). eapply NoDup_rng_perm; [exact P |]. cbn [bv app].
      unfold rng, btw in *. rngs.
    - intros e1 IH1 n bs IHb vn k s e' s' E. cbn [cps_cvt fresh] in E. dopt E [[e1' s1] |] F1. dopt E [[ps s2] |] F2.
      injection E as <- <-.
      pose proof (proj1 (cps_grows _ _ _ _ _) _ _ _ _ _ _ F1) as G1. pose proof (proj2 (proj2 (proj2 (cps_grows _ _ _ _ _))) _ _ _ _ _ _ _ F2) as G2.
      apply IH1 in F1. apply IHb in F2. cbn [bv bv_funs app]. rewrite !app_nil_r. unfold rng, btw in *.
      destruct F1 as [A1 A2]. destruct F2 as [B1 B2]. rngs.
    - intros na e1 IH1 e2 IH2 vn k s e' s' E. cbn [cps_cvt fresh] in E. dopt E [[e2' s1] |] F2. dopt E [[e1' s2] |] F1.
      injection E as <- <-.
      pose proof (proj1 (cps_grows _ _ _ _ _) _ _ _ _ _ _ F1) as G1. pose proof (proj1 (cps_grows _ _ _ _ _) _ _ _ _ _ _ F2) as G2.
      apply IH1 in F1. apply IH2 in F2. cbn [bv bv_funs app]. rewrite !app_nil_r. unfold rng, btw in *.
      destruct F1 as [A1 A2]. destruct F2 as [B1 B2]. rngs.
    - intros fs IH i vn k s e' s' E. cbn [cps_cvt] in E. destruct (fresh_list (efnlength fs) s) as [ns s1] eqn:F1.
      apply fresh_list_at in F1. destruct F1 as (N1 & M1 & B1 & D1). dopt E [[B s2] |] F2. destruct (nth_error ns (N.to_nat i)); [| discriminate].
      injection E as <- <-. pose proof (proj1 (proj1 (proj2 (proj2 (cps_grows _ _ _ _ _))) _ _ _ _ _ _ F2)) as G.
      destruct (IH _ _ _ _ _ F2 N1) as (l0 & [R1 R2] & P). cbn [bv]. rewrite app_nil_r. eapply NoDup_rng_perm; [exact P |].
      unfold rng, btw in *. rngs.
    - intros vn k s e' s' E. cbn in E. injection E as <- <-. apply rng_one. unfold btw. lia.
    - intros p vn k s e' s' E. cbn in E. injection E as <- <-. apply rng_one. unfold btw. lia.
    - intros p vn k s e' s' E. cbn [cps_cvt] in E. destruct (get p prims) as [n |]; [| discriminate].
      destruct (convert_prim func_tag kon_tag n p [] k s) as [e1 s1] eqn:F. injection E as <- <-. eapply prim_bind; eauto.
    - intros vn ea xs ks s e' s' E N1 N2. cbn in E. injection E as <- <-. exists []. split; [apply rng_nil |].
      destruct xs; [| discriminate]. destruct ks; [| discriminate]. rewrite app_nil_r. apply Permutation_refl.
    - intros e IH1 l IH2 vn ea xs ks s e' s' E N1 N2. cbn [cps_cvt_exps] in E. destruct xs as [|x1 xs]; [discriminate |].
      destruct ks as [|k1 ks]; [discriminate |]. dopt E [[e1 s1] |] F1. dopt E [[e2 s2] |] F2. injection E as <- <-.
      pose proof (proj1 (cps_grows _ _ _ _ _) _ _ _ _ _ _ F1) as G1. pose proof (proj1 (proj2 (cps_grows _ _ _ _ _)) _ _ _ _ _ _ _ _ F2) as G2.
      apply IH1 in F1. destruct (IH2 _ _ _ _ _ _ _ F2) as (l0 & [R1 R2] & P); [cbn [exps_length List.length] in *; lia | cbn [exps_length List.length] in *; lia |].
      exists (l0 ++ bv e1). split.
      + unfold rng, btw in *. destruct F1 as [A1 A2]. rngs.
      + cbn [bv bv_funs app]. rewrite app_nil_r.
        transitivity (x1 :: k1 :: (xs ++ ks ++ bv ea ++ l0) ++ bv e1).
        { rewrite perm_swap. constructor. constructor. apply Permutation_app_tail. exact P. }
        constructor. rewrite <- !app_assoc. apply (Permutation_middle xs (ks ++ bv ea ++ l0 ++ bv e1) k1).
    - intros vn ns s B s' E N. cbn in E. injection E as <- <-. exists []. split; [apply rng_nil |]. destruct ns; [constructor | discriminate].
    - intros na e _ IH1 l IH2 vn ns s B s' E N. cbn [cps_cvt_efnlst fresh] in E. destruct e; try discriminate.
      destruct ns as [|f ns]; [discriminate |]. cbn [hd tl] in E. cbn in N. injection N as N.
      dopt E [[e1 s1] |] F1. dopt E [[B1 s2] |] F2. injection E as <- <-.
      pose proof (proj1 (cps_grows _ _ _ _ _) _ _ _ _ _ _ F1) as G1.
      pose proof (proj1 (proj1 (proj2 (proj2 (cps_grows _ _ _ _ _))) _ _ _ _ _ _ F2)) as G2.
      apply (IH1 _ _ eq_refl) in F1. destruct (IH2 _ _ _ _ _ F2 N) as (l0 & [R1 R2] & P).
      exists ((s + 1)%positive :: s :: bv e1 ++ l0). split.
      + unfold rng, btw in *. destruct F1 as [A1 A2]. rngs.
      + cbn [bv_funs app]. constructor.
        transitivity ((s + 1)%positive :: s :: bv e1 ++ ns ++ l0).
        { constructor. constructor. apply Permutation_app_head. exact P. }
        transitivity (ns ++ (s + 1)%positive :: s :: bv e1 ++ l0); [| apply Permutation_refl].
        etransitivity; [| apply Permutation_middle]. constructor.
        etransitivity; [| apply Permutation_middle]. constructor.
        rewrite !app_assoc. apply Permutation_app_tail. apply Permutation_app_comm.
    - intros vn k r s ps s' E. cbn in E. injection E as <- <-. apply rng_nil.
    - intros d n e IH1 bs IH2 vn k r s ps s' E. cbn [cps_cvt_branches] in E. dopt E [[ps1 s1] |] F1.
      destruct (fresh_list (N.to_nat (nargs n)) s1) as [vars s2] eqn:FL. apply fresh_list_at in FL. destruct FL as (N1 & M1 & B1 & D1).
      dopt E [[e1 s3] |] F2. injection E as <- <-.
      pose proof (proj1 (cps_grows _ _ _ _ _) _ _ _ _ _ _ F2) as G2. pose proof (proj2 (proj2 (proj2 (cps_grows _ _ _ _ _))) _ _ _ _ _ _ _ F1) as G1.
      apply IH2 in F1. apply IH1 in F2. cbn [flat_map snd]. rewrite bvc_app by apply straight_proj. rewrite bvc_proj.
      unfold rng, btw in *. destruct F1 as [A1 A2]. destruct F2 as [C1 C2]. rngs.
  Qed.

  Local Ltac fin := subst; cbn [In] in *; auto; try contradiction; try solve [exfalso; tauto]; try tauto.

  (* ---- free variables ---- *)

  Lemma prim_free : forall n p args k s e s', convert_prim func_tag kon_tag n p args k s = (e, s') ->
    forall x, free x e -> x = k \/ In x args.
  Proof.
    induction n; intros p args k s e s' E x FR; cbn [convert_prim fresh] in E.
    - injection E as <- <-. cbn [free] in FR. destruct FR as [FR | [N [Q | [Q | []]]]]; fin.
      apply in_rev in FR. auto.
    - match type of E with context [convert_prim func_tag kon_tag ?a ?b ?c ?d ?e] =>
        destruct (convert_prim func_tag kon_tag a b c d e) as [e1 s1] eqn:F end.
      injection E as <- <-. cbn [free free_body fnames] in FR. destruct FR as [N [[Q | [Q | []]] | [[N2 FR] | []]]]; fin.
      apply (IHn _ _ _ _ _ _ F) in FR. destruct FR as [Q | [Q | FR]]; fin.
  Qed.

  Lemma free_case : forall x y ps, free x (Ecase y ps) -> x = y \/ exists p, In p ps /\ free x (snd p).
  Proof.
    intros x y ps [Q | H]; auto. right. induction ps as [|p ps IH]; [destruct H |].
    destruct H as [H | H]; [exists p; split; [left; reflexivity | exact H] |].
    destruct (IH H) as [q [A B]]. exists q. split; [right; exact A | exact B].
  Qed.

  Lemma cps_free :
    (forall e vn k s e' s', cps e vn k s = Some (e', s') -> forall x, free x e' -> x = k \/ In x vn) /\
    (forall l vn ea xs ks s e' s', cpss l vn ea xs ks s = Some (e', s') ->
       List.length xs = N.to_nat (exps_length l) ->
       forall x, free x e' -> In x vn \/ (free x ea /\ ~ In x xs)) /\
    (forall l vn ns s B s', cpsfs l vn ns s = Some (B, s') -> forall x, free_body x B -> In x vn) /\
    (forall l vn k r s ps s', cpsbs l vn k r s = Some (ps, s') ->
       forall p x, In p ps -> free x (snd p) -> x = k \/ x = r \/ In x vn).
  Proof.
    apply exp_ind_lam.
    - intros n vn k s e' s' E x F. cbn [cps_cvt] in E. destruct (nth_error vn (N.to_nat n)) eqn:N; [| discriminate]. injection E as <- <-.
      cbn [free] in F. destruct F as [Q | [Q | []]]; fin. right. eapply nth_error_In; eauto.
    - intros na e IH vn k s e' s' E x FR. cbn [cps_cvt fresh] in E. dopt E [[e1 s1] |] F. injection E as <- <-.
      cbn [free free_body fnames] in FR. destruct FR as [N [[Q | [Q | []]] | [[N2 FR] | []]]]; fin.
      apply (IH _ _ _ _ _ F) in FR. destruct FR as [Q | [Q | FR]]; fin.
    - intros e1 IH1 e2 IH2 vn k s e' s' E x FR. cbn [cps_cvt fresh] in E. dopt E [[e1' s1] |] F1. dopt E [[e2' s2] |] F2.
      injection E as <- <-. cbn [free free_body fnames] in FR.
      destruct FR as [N [FR | [[N2 [N3 [FR | [[N4 [Q | [Q | [Q | []]]]] | []]]]] | []]]]; fin.
      + apply (IH1 _ _ _ _ _ F1) in FR. destruct FR as [Q | FR]; fin.
      + apply (IH2 _ _ _ _ _ F2) in FR. destruct FR as [Q | FR]; fin.
    - intros d l IH vn k s e' s' E x FR. cbn [cps_cvt fresh] in E.
      destruct (fresh_list (N.to_nat (exps_length l)) (s + 1)) as [xs s1] eqn:F1.
      destruct (fresh_list (N.to_nat (exps_length l)) s1) as [ks s2] eqn:F2.
      apply fresh_list_at in F1. destruct F1 as (N1 & _).
      apply (IH _ _ _ _ _ _ _ E N1) in FR. destruct FR as [FR | [FR N]]; auto. cbn [free] in FR.
      destruct FR as [FR | [N2 [Q | [Q | []]]]]; fin.
    - intros e1 IH1 n bs IHb vn k s e' s' E x FR. cbn [cps_cvt fresh] in E. dopt E [[e1' s1] |] F1. dopt E [[ps s2] |] F2.
      injection E as <- <-. destruct FR as [N [FR | [[N2 FR] | []]]].
      + apply (IH1 _ _ _ _ _ F1) in FR. cbn [fnames] in N. destruct FR as [Q | FR]; fin.
      + apply free_case in FR. destruct FR as [Q | [p [P FR]]]; [fin |].
        destruct (IHb _ _ _ _ _ _ F2 _ _ P FR) as [Q | [Q | Q]]; fin.
    - intros na e1 IH1 e2 IH2 vn k s e' s' E x FR. cbn [cps_cvt fresh] in E. dopt E [[e2' s1] |] F2. dopt E [[e1' s2] |] F1.
      injection E as <- <-. cbn [free free_body fnames] in FR. destruct FR as [N [FR | [[N2 FR] | []]]].
      + apply (IH1 _ _ _ _ _ F1) in FR. destruct FR as [Q | FR]; fin.
      + apply (IH2 _ _ _ _ _ F2) in FR. destruct FR as [Q | [Q | FR]]; fin.
    - intros fs IH i vn k s e' s' E x FR. cbn [cps_cvt] in E. destruct (fresh_list (efnlength fs) s) as [ns s1] eqn:F1.
      apply fresh_list_at in F1. destruct F1 as (N1 & _). dopt E [[B s2] |] F2. destruct (nth_error ns (N.to_nat i)) eqn:NE; [| discriminate].
      injection E as <- <-. pose proof (proj2 (proj1 (proj2 (proj2 (cps_grows _ _ _ _ _))) _ _ _ _ _ _ F2) N1) as FN.
      destruct FR as [N FR]. rewrite FN in N. destruct FR as [[Q | [Q | []]] | FR]; auto.
      + subst. exfalso. apply N. eapply nth_error_In; eauto.
      + apply (IH _ _ _ _ _ F2) in FR. apply in_app_or in FR. destruct FR as [FR | FR]; auto. apply in_rev in FR. contradiction.
    - intros vn k s e' s' E x FR. cbn in E. injection E as <- <-. cbn [free] in FR. destruct FR as [[] | [N [Q | [Q | []]]]]; fin.
    - intros p vn k s e' s' E x FR. cbn in E. injection E as <- <-. cbn [free] in FR. destruct FR as [N [Q | [Q | []]]]; fin.
    - intros p vn k s e' s' E x FR. cbn [cps_cvt] in E. destruct (get p prims) as [n |]; [| discriminate].
      destruct (convert_prim func_tag kon_tag n p [] k s) as [e1 s1] eqn:F. injection E as <- <-.
      destruct (prim_free _ _ _ _ _ _ _ F _ FR) as [Q | []]; fin.
    - intros vn ea xs ks s e' s' E N x FR. cbn in E. injection E as <- <-. destruct xs; [| discriminate]. right. split; auto.
    - intros e IH1 l IH2 vn ea xs ks s e' s' E N1 x FR. cbn [cps_cvt_exps] in E. destruct xs as [|x1 xs]; [discriminate |].
      destruct ks as [|k1 ks]; [discriminate |]. dopt E [[e1 s1] |] F1. dopt E [[e2 s2] |] F2. injection E as <- <-.
      cbn [free free_body fnames] in FR. destruct FR as [N [FR | [[N2 FR] | []]]].
      + apply (IH1 _ _ _ _ _ F1) in FR. destruct FR as [Q | FR]; fin.
      + apply (IH2 _ _ _ _ _ _ _ F2) in FR; [| cbn [exps_length List.length] in *; lia].
        destruct FR as [FR | [FR N3]]; fin.
    - intros vn ns s B s' E x FR. cbn in E. injection E as <- <-. destruct FR.
    - intros na e _ IH1 l IH2 vn ns s B s' E x FR. cbn [cps_cvt_efnlst fresh] in E. destruct e; try discriminate.
      dopt E [[e1 s1] |] F1. dopt E [[B1 s2] |] F2. injection E as <- <-. destruct FR as [[N FR] | FR].
      + apply (IH1 _ _ eq_refl _ _ _ _ _ F1) in FR. destruct FR as [Q | [Q | FR]]; fin.
      + eapply IH2; eauto.
    - intros vn k r s ps s' E p x P. cbn in E. injection E as <- <-. destruct P.
    - intros d n e IH1 bs IH2 vn k r s ps s' E p x P FR. cbn [cps_cvt_branches] in E. dopt E [[ps1 s1] |] F1.
      destruct (fresh_list (N.to_nat (nargs n)) s1) as [vars s2] eqn:FL.
      dopt E [[e1 s3] |] F2. injection E as <- <-. destruct P as [<- | P]; [| eapply IH2; eauto].
      cbn [snd] in FR. apply free_proj in FR. destruct FR as [Q | [FR N]]; auto.
      apply (IH1 _ _ _ _ _ F2) in FR. destruct FR as [Q | FR]; auto. apply in_app_or in FR. tauto.
  Qed.

  (* ---- totality ---- *)

  Local Ltac ropt E :=
    match type of E with _ = ?r =>
      match goal with |- context [match ?m with Some _ => _ | None => None end] =>
        replace m with r by (symmetry; exact E)
      end
    end.
  Local Ltac wfs e n :=
    match goal with
    | X : exp_wf _ e |- _ => rename X into n
    | X : exps_wf _ e |- _ => rename X into n
    | X : efnlst_wf _ e |- _ => rename X into n
    | X : branches_wf _ e |- _ => rename X into n
    end.

  Lemma cps_total :
    (forall e n, exp_wf n e -> forall vn k s, N.of_nat (List.length vn) = n -> exists r, cps e vn k s = Some r) /\
    (forall l n, exps_wf n l -> forall vn ea xs ks s, N.of_nat (List.length vn) = n ->
       List.length xs = N.to_nat (exps_length l) -> List.length ks = N.to_nat (exps_length l) ->
       exists r, cpss l vn ea xs ks s = Some r) /\
    (forall l n, efnlst_wf n l -> forall vn ns s, N.of_nat (List.length vn) = n -> exists r, cpsfs l vn ns s = Some r) /\
    (forall l n, branches_wf n l -> forall vn k y s, N.of_nat (List.length vn) = n -> exists r, cpsbs l vn k y s = Some r).
  Proof.
    apply exp_ind_lam.
    - intros i n W vn k s L. inversion W; subst. cbn [cps_cvt].
      destruct (nth_error vn (N.to_nat i)) eqn:NE; [eauto |]. apply nth_error_None in NE. lia.
    - intros na e IH n W vn k s L. inversion W; subst. wfs e We. cbn [cps_cvt fresh].
      destruct (IH _ We (s :: vn) (s + 1 + 1)%positive (s + 1 + 1 + 1)%positive) as [[r s1] E].
      { cbn [List.length]. lia. }
      ropt E. eauto.
    - intros e1 IH1 e2 IH2 n W vn k s L. inversion W; subst. wfs e1 W1. wfs e2 W2. cbn [cps_cvt fresh].
      destruct (IH1 _ W1 vn (s + 1)%positive (s + 1 + 1 + 1 + 1)%positive eq_refl) as [[r1 s1] E1]. ropt E1.
      destruct (IH2 _ W2 vn (s + 1 + 1 + 1)%positive s1 eq_refl) as [[r2 s2] E2]. ropt E2. eauto.
    - intros d l IH n W vn k s L. inversion W; subst. wfs l W1. cbn [cps_cvt fresh].
      destruct (fresh_list (N.to_nat (exps_length l)) (s + 1)) as [xs s1] eqn:F1.
      destruct (fresh_list (N.to_nat (exps_length l)) s1) as [ks s2] eqn:F2.
      apply fresh_list_at in F1. apply fresh_list_at in F2. apply (IH _ W1); [reflexivity | apply F1 | apply F2].
    - intros e1 IH1 m bs IH2 n W vn k s L. inversion W; subst. wfs e1 W1. wfs bs W2. cbn [cps_cvt fresh].
      destruct (IH1 _ W1 vn (s + 1)%positive (s + 1 + 1)%positive eq_refl) as [[r1 s1] E1]. ropt E1.
      destruct (IH2 _ W2 vn k s s1 eq_refl) as [[ps s2] E2]. ropt E2. eauto.
    - intros na e1 IH1 e2 IH2 n W vn k s L. inversion W; subst. wfs e1 W1. wfs e2 W2. cbn [cps_cvt fresh].
      destruct (IH2 _ W2 (s :: vn) k (s + 1 + 1)%positive) as [[r2 s2] E2].
      { cbn [List.length]. lia. }
      ropt E2. destruct (IH1 _ W1 vn (s + 1)%positive s2 eq_refl) as [[r1 s1] E1]. ropt E1. eauto.
    - intros l IH i n W vn k s L. inversion W; subst. wfs l W1. cbn [cps_cvt].
      destruct (fresh_list (efnlength l) s) as [ns s1] eqn:F1. destruct (fresh_list_at _ _ _ _ F1) as (LN & _).
      destruct (IH _ W1 (rev ns ++ vn) ns s1) as [[B s2] E].
      { rewrite app_length, rev_length, efn_len. lia. }
      ropt E. destruct (nth_error ns (N.to_nat i)) eqn:NE; [eauto |]. apply nth_error_None in NE.
      rewrite efn_len in *. lia.
    - intros n W vn k s L. cbn. eauto.
    - intros p n W vn k s L. cbn. eauto.
    - intros p n W. inversion W.
    - intros n W vn ea xs ks s L N1 N2. cbn. eauto.
    - intros e1 IH1 l IH2 n W vn ea xs ks s L N1 N2. inversion W; subst. wfs e1 W1. wfs l W2. cbn [cps_cvt_exps].
      destruct xs as [|x1 xs]; [cbn [exps_length List.length] in *; lia |]. destruct ks as [|k1 ks]; [cbn [exps_length List.length] in *; lia |].
      destruct (IH1 _ W1 vn k1 s eq_refl) as [[r1 s1] E1]. ropt E1.
      destruct (IH2 _ W2 vn ea xs ks s1 eq_refl) as [[r2 s2] E2]; [cbn [exps_length List.length] in *; lia | cbn [exps_length List.length] in *; lia |].
      ropt E2. eauto.
    - intros n W vn ns s L. cbn. eauto.
    - intros na e _ IHb l IH n W vn ns s L. inversion W; subst. destruct e; try contradiction.
      match goal with X : exp_wf _ (Lam_e _ _) |- _ => inversion X; subst; clear X end.
      match goal with X : exp_wf (1 + _) _ |- _ =>
        destruct (IHb _ _ eq_refl _ X (s :: vn) (s + 1)%positive (s + 1 + 1)%positive) as [[r s1] E] end.
      { cbn [List.length]. lia. }
      cbn [cps_cvt_efnlst fresh]. ropt E.
      match goal with X : efnlst_wf _ l |- _ => destruct (IH _ X vn (tl ns) s1 eq_refl) as [[B2 s2] E2] end.
      ropt E2. eauto.
    - intros n W vn k y s L. cbn. eauto.
    - intros d [j na] e IH1 bs IH2 n W vn k y s L. inversion W; subst. cbn [cps_cvt_branches nargs fst].
      match goal with X : branches_wf _ bs |- _ => destruct (IH2 _ X vn k y s eq_refl) as [[ps s1] E1] end.
      ropt E1. destruct (fresh_list (N.to_nat j) s1) as [vars s2] eqn:FR. destruct (fresh_list_at _ _ _ _ FR) as (FL & _).
      match goal with X : exp_wf _ e |- _ => destruct (IH1 _ X (vars ++ vn) k s2) as [[r s3] E2] end.
      { rewrite app_length, FL. cbn [nargs fst]. lia. }
      ropt E2. eauto.
  Qed.
End Conv.
