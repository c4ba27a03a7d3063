(** * Properties of dead-parameter elimination (C29, C30, C59) *)
From Coq Require Import ZArith NArith List Lia Bool Permutation.
From Verif Require Import ANF_Syntax ANF_Eval ANF_Spec ANF_Scope ANF_EvalProofs
  ANF_FreeProofs DPE_Model DPE_Spec Hoist_Proofs DPE_Proofs DPE_Sim DPE_Tags Properties_ANF.
Import ListNotations.

(** ** C30: the analysis stops at the least correct answer *)
Theorem C30_analysis : forall B e, NoDup (fnames B) ->
  let K : masks := fun f => get f (find_live (Efun B e)) in
  (* correct *)
  good_masks B e K /\
  (* it answers for every function that is only called *)
  (forall f, K f <> None <-> In f (fnames B) /\ ~ escapes_funs f B /\ ~ escapes f e) /\
  (* it keeps nothing else: a kept parameter is needed *)
  (forall f t xs b bs i, In (f, t, xs, b) (flist B) -> K f = Some bs ->
     nth_error bs i = Some true -> exists x, nth_error xs i = Some x /\ needed K x b) /\
  (* no correct answer drops a parameter this one keeps *)
  (forall K', good_masks B e K' -> drops_more K K').
Proof.
  intros B e ND K. split; [apply analysis_good; auto|].
  split; [intro f; apply (analysis_dom B e ND)|].
  split; [intros; eapply (analysis_exact B e ND); eauto|].
  intros K' G. apply (analysis_least B e ND K' G).
Qed.
Print Assumptions C30_analysis.

Local Open Scope positive_scope.
(** [f x y z] calls itself with [y] swapped for [x] and returns [z]; [g]
    ignores its parameter and escapes. Only [x] and [y] of [f] are dropped. *)
Definition ex_dead_funs : fundefs :=
  Fcons 10 7 [11; 12; 13]
    (Ecase 13 [(2, Ehalt 13); (3, Econstr 14 2 [] (Eapp 10 7 [12; 11; 14]))])
    (Fcons 20 8 [21] (Econstr 22 3 [] (Ehalt 22)) Fnil).
Definition ex_dead_main : exp :=
  Econstr 30 3 [] (Eletapp 31 10 7 [30; 30; 30] (Econstr 32 1 [31; 20] (Eproj 33 1 0 32 (Ehalt 33)))).
Definition ex_dead : exp := Efun ex_dead_funs ex_dead_main.

Example C30_example :
  NoDup (fnames ex_dead_funs) /\
  get 10 (find_live ex_dead) = Some [false; false; true] /\
  get 20 (find_live ex_dead) = None.
Proof.
  split; [|split; vm_compute; reflexivity].
  repeat constructor; cbn; intuition discriminate.
Qed.

(** ** C29: the result does not change, at the same number of steps *)
Definition dpe_val (e e' : exp) (rho : env) : val -> val -> Prop :=
  match e, e' with
  | Efun B _, Efun B' _ => dval (fun f => get f (find_live e)) B B' rho
  | _, _ => eq
  end.

Lemma dval_refl K B B' rho0 : forall v, dval K B B' rho0 v v.
Proof.
  apply val_ind2.
  - intros t vs F. constructor. induction F; constructor; auto.
  - intros rho D f F. apply dval_out. intros x v _ Gx. exists v. split; auto.
    exact (get_Forall _ (fun v => dval K B B' rho0 v v) _ _ _ F Gx).
  - constructor.
  - constructor.
Qed.

Lemma dpe_all cenv rho e st : NoDup (bv e) -> forall c r,
  bstep_fuel cenv rho e c r ->
  exists r', bstep_fuel cenv rho (fst (DPE e st)) c r' /\
    match r, r' with
    | OOT, OOT => True
    | Res v, Res v' => dpe_val e (fst (DPE e st)) rho v v' /\ (data v -> v' = v)
    | _, _ => False
    end.
Proof.
  intros ND c r H.
  assert (TRIV : fst (DPE e st) = e -> exists r', bstep_fuel cenv rho (fst (DPE e st)) c r' /\
    match r, r' with
    | OOT, OOT => True
    | Res v, Res v' => dpe_val e (fst (DPE e st)) rho v v' /\ (data v -> v' = v)
    | _, _ => False
    end).
  { intro E. rewrite E. exists r. split; [exact H|]. destruct r as [|v]; [exact I|].
    split; [|auto]. destruct e; try reflexivity. apply dval_refl. }
  unfold DPE in *. destruct (is_hoisted e) eqn:HO; [|apply TRIV; reflexivity].
  destruct e; try (apply TRIV; reflexivity). rename f into B.
  destruct (create_fun_tag (find_live (Efun B e)) (make_arityMap (Efun B e) []) B st [])
    as [fm c1] eqn:C. cbn [fst].
  cbn [is_hoisted] in HO. apply andb_true_iff in HO as [HB HE].
  cbn [bv] in ND.
  assert (NB : NoDup (bv_funs B) /\ forall x, In x (bv e) -> ~ In x (bv_funs B)).
  { clear -ND. induction (bv_funs B) as [|a l IH]; cbn in ND; [split; [constructor|auto]|].
    inversion ND as [|? ? N1 N2]; subst. destruct (IH N2) as [I1 I2]. split.
    - constructor; auto. intro. apply N1. apply in_or_app. auto.
    - intros x Ix [->|J]; [apply N1; apply in_or_app; auto|exact (I2 x Ix J)]. }
  destruct NB as [NB NBE].
  assert (NF : NoDup (fnames B) /\ (forall x, In x (fnames B) -> In x (bv_funs B)) /\
          forall f t xs b, In (f, t, xs, b) (flist B) ->
            forall x, In x xs \/ In x (bv b) -> ~ In x (fnames B)).
  { clear -NB. induction B as [g t ys b B IH|]; cbn [bv_funs fnames flist] in *.
    2:{ split; [constructor|]. split; auto. }
    inversion NB as [|? ? N1 N2]; subst.
    assert (N3 : NoDup (bv_funs B) /\ (forall x, In x ys \/ In x (bv b) -> ~ In x (bv_funs B))).
    { clear -N2. rewrite app_assoc in N2.
      assert (X : forall x, In x ys \/ In x (bv b) <-> In x (ys ++ bv b))
        by (intro; rewrite in_app_iff; tauto).
      setoid_rewrite X. clear X. induction (ys ++ bv b) as [|a l IH]; cbn in *.
      - split; auto.
      - inversion N2 as [|? ? M1 M2]; subst. destruct (IH M2) as [I1 I2]. split; auto.
        intros x [->|J] K; [apply M1; apply in_or_app; auto|exact (I2 x J K)]. }
    destruct N3 as [N3 N4]. destruct (IH N3) as (I1 & I2 & I3).
    assert (G1 : ~ In g (ys ++ bv b) /\ ~ In g (bv_funs B)).
    { split; intro; apply N1; rewrite app_assoc; apply in_or_app; auto. }
    split; [|split].
    - constructor; auto. intro. apply (proj2 G1). auto.
    - intros x [->|J]; [left; auto|right]. apply in_or_app. right. apply in_or_app. right. auto.
    - intros f t' xs b' [E|J] x Hx [<-|Q].
      + injection E as <- <- <- <-. apply (proj1 G1). apply in_or_app. exact Hx.
      + injection E as <- <- <- <-. apply (N4 x Hx). auto.
      + apply (proj2 G1). 
        clear -J Hx. induction B as [h t0 zs b0 B IH|]; cbn [flist bv_funs] in *; [|destruct J].
        destruct J as [E|J].
        * injection E as -> -> -> ->. right. rewrite app_assoc. apply in_or_app. left.
          apply in_or_app. exact Hx.
        * right. apply in_or_app. right. apply in_or_app. right. auto.
      + exact (I3 _ _ _ _ J x Hx Q). }
  destruct NF as (NF1 & NF2 & NF3).
  destruct (elim_top cenv B e rho (find_live (Efun B e)) fm) with (c := c) (r := r)
    as (r' & BS & R); auto.
  { apply analysis_good. exact NF1. }
  { intros x Ix J. exact (NBE x Ix (NF2 x J)). }
  exists r'. split; [exact BS|]. destruct r as [|v], r' as [|v']; auto.
  split; [exact R|]. intro D. symmetry. eapply dval_data; [exact R|exact D].
Qed.

Theorem C29_dpe_preserves : forall cenv rho e st e' st',
  DPE e st = (e', st') -> NoDup (bv e) ->
  (* same result, same number of steps *)
  (forall c v, bstep_fuel cenv rho e c (Res v) ->
     exists v', bstep_fuel cenv rho e' c (Res v') /\ dpe_val e e' rho v v' /\ (data v -> v' = v)) /\
  (* same time-outs, hence same divergence *)
  (forall c, bstep_fuel cenv rho e c OOT -> bstep_fuel cenv rho e' c OOT) /\
  (diverge cenv rho e -> diverge cenv rho e') /\
  (* and back, when the source does not get stuck *)
  (not_stuck cenv rho e ->
     (forall c' v', bstep_fuel cenv rho e' c' (Res v') ->
        exists v, bstep_fuel cenv rho e c' (Res v) /\ dpe_val e e' rho v v') /\
     (diverge cenv rho e' -> diverge cenv rho e)).
Proof.
  intros cenv rho e st e' st' E ND.
  assert (E' : e' = fst (DPE e st)) by (rewrite E; reflexivity). clear E. subst e'.
  pose proof (dpe_all cenv rho e st ND) as A.
  assert (R1 : forall c v, bstep_fuel cenv rho e c (Res v) ->
     exists v', bstep_fuel cenv rho (fst (DPE e st)) c (Res v') /\
       dpe_val e (fst (DPE e st)) rho v v' /\ (data v -> v' = v)).
  { intros c v H. destruct (A c _ H) as ([|v'] & BS & R); [destruct R|]. eauto. }
  assert (R2 : forall c, bstep_fuel cenv rho e c OOT -> bstep_fuel cenv rho (fst (DPE e st)) c OOT).
  { intros c H. destruct (A c _ H) as ([|v'] & BS & R); [auto|destruct R]. }
  split; [exact R1|]. split; [exact R2|]. split; [intros D c; auto|].
  intros [(c & v & B)|D].
  - destruct (R1 c v B) as (v2 & B2 & V & _). split.
    + intros c' v' B'. destruct (bstep_fuel_det _ _ _ _ _ _ _ B' B2) as [-> ->]. eauto.
    + intros D. exfalso. specialize (D c). pose proof (bstep_fuel_oot_lt _ _ _ _ _ _ D B2). lia.
  - split; [|auto]. intros c' v' B'. exfalso. specialize (R2 c' (D c')).
    pose proof (bstep_fuel_oot_lt _ _ _ _ _ _ R2 B'). lia.
Qed.
Print Assumptions C29_dpe_preserves.

Definition ex_tags : tag_state :=
  {| next_fun_tag := 9; fenv := [(7, (3%N, [0; 1; 2]%N)); (8, (1%N, [0]%N))] |}.

Example C29_example :
  NoDup (bv ex_dead) /\
  fst (DPE ex_dead ex_tags) =
    Efun (Fcons 10 8 [13]
           (Ecase 13 [(2, Ehalt 13); (3, Econstr 14 2 [] (Eapp 10 8 [14]))])
           (Fcons 20 8 [21] (Econstr 22 3 [] (Ehalt 22)) Fnil))
      (Econstr 30 3 [] (Eletapp 31 10 8 [30]
        (Econstr 32 1 [31; 20] (Eproj 33 1 0 32 (Ehalt 33))))) /\
  bstep_fuel ex_cenv [] ex_dead 11 (Res (Vconstr 2 [])) /\
  bstep_fuel ex_cenv [] (fst (DPE ex_dead ex_tags)) 11 (Res (Vconstr 2 [])).
Proof.
  split; [|split; [|split]].
  - cbn. repeat constructor; cbn; intuition discriminate.
  - vm_compute. reflexivity.
  - apply interp_iff. exists 20%nat. vm_compute. reflexivity.
  - apply interp_iff. exists 20%nat. vm_compute. reflexivity.
Qed.

(** ** C59: function tags still determine the number of parameters *)
Theorem C59_dpe_tags : forall e st e' st',
  DPE e st = (e', st') -> NoDup (bv e) ->
  tags_ok (fenv st) e -> fresh_state st ->
  (match e with Efun B _ => calls_ok B e | _ => True end) ->
  tags_ok (fenv st') e' /\ fresh_state st' /\
  (forall t, get t (fenv st) <> None -> get t (fenv st') = get t (fenv st)).
Proof.
  intros e st e' st' H ND TO FR CO.
  destruct (DPE_tags e st e' st' H) as (A1 & A2 & A3); auto.
  destruct e; auto. cbn in ND.
  assert (P : forall (l1 l2 : list var), NoDup (l1 ++ l2) -> NoDup l1).
  { induction l1; intros l2 N; [constructor|]. cbn in N. inversion N; subst.
    constructor; eauto. intro. apply H2. apply in_or_app. auto. }
  apply P in ND. apply (Permutation_NoDup (proj2 bv_split f)) in ND. apply P in ND.
  clear -ND. induction f as [g t xs b B IH|]; cbn in *; [|constructor].
  inversion ND as [|? ? N1 N2]; subst. rewrite map_app in *.
  assert (Q : forall (l1 l2 : list var), NoDup (l1 ++ l2) -> NoDup l2).
  { induction l1; intros l2 N; [auto|]. cbn in N. inversion N; subst. eauto. }
  constructor; [|apply IH; eapply Q; eauto].
  intro I. apply N1. apply in_or_app. right.
  rewrite fnames_flist in I. apply in_map_iff in I as (d & <- & I).
  apply in_map. apply flist_defs. exact I.
Qed.
Print Assumptions C59_dpe_tags.

Example C59_example :
  tags_ok (fenv ex_tags) ex_dead /\ fresh_state ex_tags /\ calls_ok ex_dead_funs ex_dead /\
  (* with a nursery of tags that has no unary one, a new tag is made *)
  (let st := {| next_fun_tag := 9; fenv := [(7, (3%N, [0; 1; 2]%N))] |} in
   let e := Efun (Fcons 10 7 [11; 12; 13] (Ehalt 13) Fnil)
              (Econstr 30 3 [] (Eapp 10 7 [30; 30; 30])) in
   DPE e st = (Efun (Fcons 10 9 [13] (Ehalt 13) Fnil) (Econstr 30 3 [] (Eapp 10 9 [30])),
               {| next_fun_tag := 10; fenv := [(9, (1%N, [0%N])); (7, (3%N, [0; 1; 2]%N))] |})).
Proof.
  assert (T7 : tagged (fenv ex_tags) 7 3) by (eexists; vm_compute; reflexivity).
  assert (T8 : tagged (fenv ex_tags) 8 1) by (eexists; vm_compute; reflexivity).
  split; [|split; [|split]].
  - cbn [tags_ok tags_ok_funs ex_dead ex_dead_funs ex_dead_main snd length]. tauto.
  - intros t H. cbn [fenv ex_tags get next_fun_tag] in *.
    destruct (Pos.eq_dec t 7); [lia|]. destruct (Pos.eq_dec t 8); [lia|]. congruence.
  - cbn [calls_ok calls_ok_funs ex_dead ex_dead_funs ex_dead_main snd].
    repeat split; auto; intros t xs b H; vm_compute in H; injection H as <- <- <-; reflexivity.
  - vm_compute. reflexivity.
Qed.
