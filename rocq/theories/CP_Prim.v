(* The curried function a primitive is converted to, in continuation-passing
   style, computes the primitive. *)
From Coq Require Import List Arith NArith PArith String Bool Lia.
From Verif Require Import ANF_Syntax ANF_Subst ANF_Spec WA_Spec WA_Eval LB_Model AN_Model AN_Spec AN_Proofs AN_Prim CP_Model CP_Spec CP_Proofs.
Import ListNotations.

Section P.
  Variable cenv : ctor_env.
  Variable pr : tmap (list val -> option val).
  Variables func_tag kon_tag : positive.
  Notation peval := (WA_Spec.peval cenv pr).
  Notation callf := (WA_Spec.callf cenv pr).

  Lemma prim_run : forall n p args k s e s', convert_prim func_tag kon_tag n p args k s = (e, s') ->
    (forall y, In y args -> (y < s)%positive) -> (k < s)%positive ->
    forall rho kv ws vs f r, get k rho = Some kv -> get_list (rev args) rho = Some ws -> List.length vs = n ->
    get p pr = Some f -> f (ws ++ vs) = Some r ->
    exists g, (forall m, peval m rho e = callf m kv kon_tag [g]) /\ kapplied cenv pr func_tag kon_tag g vs r.
  Proof.
    induction n; intros p args k s e s' E L Lk rho kv ws vs f r GK G LV GP FR; cbn [convert_prim fresh] in E.
    - injection E as <- <-. destruct vs; [| discriminate]. rewrite app_nil_r in FR.
      exists r. split; [| reflexivity]. intro m. unfold WA_Spec.peval. cbn [WA_Spec.ev]. rewrite G, GP, FR.
      apply peval_app.
      + rewrite get_set_other by lia. exact GK.
      + cbn [get_list]. rewrite get_set_same. reflexivity.
    - match type of E with context [convert_prim func_tag kon_tag ?a ?b ?c ?d ?e] =>
        destruct (convert_prim func_tag kon_tag a b c d e) as [e1 s1] eqn:F end.
      injection E as <- <-. destruct vs as [|v vs]; [discriminate |]. injection LV as LV.
      set (D := Fcons (s + 1 + 1)%positive func_tag [(s + 1)%positive; s] e1 Fnil).
      exists (Vfun rho D (s + 1 + 1)%positive). split.
      { intro m. unfold D. rewrite peval_fun1. apply peval_app.
        - rewrite get_set_other by lia. exact GK.
        - cbn [get_list]. rewrite get_set_same. reflexivity. }
      cbn [kapplied]. intro kw.
      set (rho1 := set (s + 1)%positive kw (set s v (def_funs D D rho rho))).
      destruct (IHn p (s :: args) (s + 1)%positive _ _ _ F) with (rho := rho1) (kv := kw) (ws := ws ++ [v]) (vs := vs) (f := f) (r := r)
        as (w & RW & KW); auto.
      + intros y [<- | Hy]; [lia |]. specialize (L y Hy). lia.
      + lia.
      + apply get_set_same.
      + cbn [rev]. apply get_list_snoc.
        * rewrite <- G. apply get_list_ext. intros y Hy. apply in_rev in Hy. specialize (L y Hy).
          unfold rho1, D. cbn [def_funs]. rewrite !get_set_other; auto; intro; subst; lia.
        * unfold rho1. rewrite get_set_other by lia. apply get_set_same.
      + rewrite <- app_assoc. exact FR.
      + exists w. split; auto.
        assert (ST : forall m, callf (S m) (Vfun rho D (s + 1 + 1)%positive) func_tag [kw; v] = callf m kw kon_tag [w]).
        { intro m. erewrite callf_S; [| unfold D; cbn [find_def]; destruct (Pos.eq_dec (s + 1 + 1) (s + 1 + 1)); [reflexivity | congruence] | reflexivity].
          apply RW. }
        intro u. unfold answers_with. split; intros [m H].
        * destruct m; [discriminate |]. rewrite ST in H. eauto.
        * exists (S m). rewrite ST. exact H.
  Qed.
End P.
