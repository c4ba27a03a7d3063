(* The curried function a primitive is converted to computes the primitive. *)
From Coq Require Import List Arith NArith PArith String Bool Lia.
From Verif Require Import ANF_Syntax ANF_Subst ANF_Spec WA_Spec WA_Eval LB_Model AN_Model AN_Spec AN_Proofs.
Import ListNotations.

Lemma get_list_snoc : forall xs x rho ws (v : val), get_list xs rho = Some ws -> get x rho = Some v ->
  get_list (xs ++ [x]) rho = Some (ws ++ [v]).
Proof.
  induction xs; intros x rho ws v E G; cbn [get_list app] in *.
  - injection E as <-. rewrite G. reflexivity.
  - destruct (get a rho); [| discriminate]. destruct (get_list xs rho) eqn:F; [| discriminate].
    injection E as <-. rewrite (IHxs _ _ _ _ F G). reflexivity.
Qed.

Lemma get_list_ext : forall xs (r1 r2 : env), (forall x, In x xs -> get x r2 = get x r1) ->
  get_list xs r2 = get_list xs r1.
Proof.
  induction xs; intros r1 r2 H; cbn [get_list]; auto.
  rewrite (H a (or_introl eq_refl)), (IHxs r1 r2); auto. intros; apply H; right; auto.
Qed.

Section P.
  Variable cenv : ctor_env.
  Variable pr : tmap (list val -> option val).
  Variable func_tag : positive.
  Notation peval := (WA_Spec.peval cenv pr).
  Notation callf := (WA_Spec.callf cenv pr).

  Lemma prim_run : forall n p args s x C s', convert_prim_anf func_tag n p args s = (x, C, s') ->
    (forall y, In y args -> (y < s)%positive) ->
    forall rho ws vs f r, get_list (rev args) rho = Some ws -> List.length vs = n ->
    get p pr = Some f -> f (ws ++ vs) = Some r ->
    forall k, exists v, peval k rho (app_ctx_f C (Ehalt x)) = PVal v /\
      applied (fun g t l w => forall j, callf (S j) g t l = PVal w) func_tag v vs r.
  Proof.
    induction n; intros p args s x C s' E L rho ws vs f r G LV GP FR k; cbn [convert_prim_anf fresh] in E.
    - injection E as <- <- <-. destruct vs; [| discriminate]. rewrite app_nil_r in FR.
      exists r. split; [| constructor]. unfold WA_Spec.peval. cbn [app_ctx_f WA_Spec.ev].
      rewrite G, GP, FR, get_set_same. reflexivity.
    - match type of E with context [convert_prim_anf ?a ?b ?c ?d ?e] =>
        destruct (convert_prim_anf a b c d e) as [[x1 C1] s1] eqn:F end.
      injection E as <- <- <-. destruct vs as [|v vs]; [discriminate |]. injection LV as LV.
      unfold WA_Spec.peval. cbn [app_ctx_f WA_Spec.ev def_funs]. rewrite get_set_same.
      eexists. split; [reflexivity |].
      match goal with |- applied _ _ (Vfun ?a ?b ?c) _ _ => set (D := b) end.
      set (rho1 := set s v (def_funs D D rho rho)).
      assert (X : forall j, exists w, peval j rho1 (app_ctx_f C1 (Ehalt x1)) = PVal w /\
        applied (fun g t l w => forall j, callf (S j) g t l = PVal w) func_tag w vs r).
      { intros j. eapply IHn with (ws := ws ++ [v]) (rho := rho1); [exact F | | | exact LV | exact GP |].
        - intros y [<- | Hy]; [lia |]. specialize (L y Hy). lia.
        - cbn [rev]. apply get_list_snoc; [| unfold rho1; apply get_set_same].
          rewrite <- G. apply get_list_ext. intros y Hy. apply in_rev in Hy. specialize (L y Hy).
          unfold rho1, D. cbn [def_funs]. rewrite !get_set_other; auto; intro; subst; lia.
        - rewrite <- app_assoc. exact FR. }
      destruct (X 0) as [w [EW AW]].
      eapply ap_cons; [| exact AW]. intros j.
      erewrite callf_S; [| unfold D; cbn [find_def]; destruct (Pos.eq_dec (s + 1) (s + 1)); [reflexivity | congruence]
                         | cbn [set_lists]; reflexivity].
      eapply peval_mono; [| exact EW | discriminate]. lia.
  Qed.
End P.
