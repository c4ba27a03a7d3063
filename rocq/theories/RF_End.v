(** * From the value of the erased program to what is read back *)
From Coq Require Import ZArith NArith PArith List Lia Bool Arith Ascii String.
From Verif Require Import ANF_Syntax ANF_Eval Pipe_Model Pipe_Main Properties_Pipeline End_Wasm Properties_EndToEnd AN_Model AN_Spec AN_Sig End_Front Properties_Whole
  CP_Model CP_Proofs CP_Twin CP_End CP_End Properties_WholeCPS CG_Clight CG_Model CG_Spec End_C Properties_EndToEndC KC_Model Properties_WholeCPSC EA_Model Properties_Erased.

From Verif Require Import LB_Spec.
From Verif Require Layout_Model Layout_Proofs Properties_Layout LB_Model.
Import LB_Model.
From Verif Require Import RF_Model RF_Spec RF_Subst RF_Proofs.
Import ListNotations.
Local Open Scope nat_scope.

(** The erasure of a value: parameters dropped, constructors at their place in
    the registered order, proofs replaced by the box. *)
Inductive erases (E : genv) (im : mapping) : cterm -> EA_Model.term -> Prop :=
| er_ctor i d k c ps args k' vs :
    E i = Some d -> i_prop d = false -> nth_error (i_ctors d) k = Some c -> List.length ps = i_params d ->
    arity (c_args c) = List.length args -> placed im i k k' -> erases_all E im args vs ->
    erases E im (applist (cConstruct i k) (ps ++ args)) (tConstruct i k' vs)
| er_proof i d k args : E i = Some d -> i_prop d = true -> erases E im (applist (cConstruct i k) args) tBox
with erases_all (E : genv) (im : mapping) : list cterm -> list EA_Model.term -> Prop :=
| ers_nil : erases_all E im [] []
| ers_cons t ts v vs : erases E im t v -> erases_all E im ts vs -> erases_all E im (t :: ts) (v :: vs).
Scheme erases_mut := Minimality for erases Sort Prop with erases_all_mut := Minimality for erases_all Sort Prop.

(** The declarations given to the compiler are those of the environment, with
    the constructors in the registered order. *)
Definition same_types (E : genv) (im : mapping) (name : positive -> string) (g : Layout_Model.ienv) : Prop :=
  forall i d, E i = Some d -> i_prop d = false ->
  exists kn ty, fst i = name kn /\ In (kn, ty) g /\ nth_error ty (snd i) = Some (arities_of im i d).

(** the registered orders list every constructor once *)
Definition orders_ok (E : genv) (im : mapping) : Prop :=
  forall i d tags, E i = Some d -> entry i im = Some tags -> forall k, In k tags -> k < List.length (i_ctors d).

Lemma arities_nth E im i d k c k' : orders_ok E im -> E i = Some d -> nth_error (i_ctors d) k = Some c -> placed im i k k' ->
  nth_error (arities_of im i d) k' = Some (arity (c_args c)).
Proof.
  intros OO Ei Nk PL. unfold placed, arities_of in *. destruct (entry i im) as [tags|] eqn:En.
  - rewrite nth_error_map, PL. cbn [option_map]. f_equal. apply nth_error_nth. rewrite nth_error_map, Nk. reflexivity.
  - subst. rewrite nth_error_map, Nk. reflexivity.
Qed.

Section Table.
  Variables (E : genv) (im : mapping) (name : positive -> string) (g : Layout_Model.ienv) (cenv' : ctor_env).
  Hypothesis ST : same_types E im name g.
  Hypothesis OO : orders_ok E im.
  Hypothesis TAB : forall kn i j cs a, Layout_Proofs.declared g kn i j cs a ->
    exists inf, get (dcon_to_tag default_ctor_tag ((name kn, i), N.of_nat j) (front_tags name g)) cenv' = Some inf /\
      ctor_arity inf = N.of_nat a /\ ctor_ordinal inf = Layout_Proofs.rank cs j a.
  Hypothesis DEF : exists inf, get default_ctor_tag cenv' = Some inf /\ ctor_arity inf = 0%N /\ ctor_ordinal inf = 0%N.

  Lemma rank_same cs j a : nth_error cs j = Some a -> Z.of_N (Layout_Proofs.rank cs j a) = rank cs j.
  Proof. intro N. unfold rank, Layout_Proofs.rank, Layout_Proofs.same_kind. rewrite N. lia. Qed.

  Lemma erased_shown : forall c v, erases E im c v ->
    exists e u, edata v e /\ tree_val (front_tags name g) e = Some u /\ shown E im c (enc cenv' u).
  Proof.
    apply (erases_mut E im
      (fun c v => exists e u, edata v e /\ tree_val (front_tags name g) e = Some u /\ shown E im c (enc cenv' u))
      (fun cs vs => exists es us, edatas vs es /\ tree_vals (front_tags name g) es = Some us /\ showns E im cs (map (enc cenv') us))).
    - intros i d k c ps args k' vs Ei PR Nk L A PL ER (es & us & D & T & SS).
      destruct (ST i d Ei PR) as (kn & ty & Hn & Hin & Hty). destruct i as [s ix]. cbn [fst snd] in *. subst s.
      pose proof (arities_nth _ _ _ _ _ _ _ OO Ei Nk PL) as NA.
      destruct (TAB kn ix k' (arities_of im (name kn, ix) d) (arity (c_args c))) as (inf & G & I1 & I2); [exists ty; auto|].
      assert (RS : Z.of_N (ctor_ordinal inf) = rank (arities_of im (name kn, ix) d) k') by (rewrite I2; exact (rank_same _ _ _ NA)).
      exists (Con_e ((name kn, ix), N.of_nat k') es), (Vconstr (dcon_to_tag default_ctor_tag ((name kn, ix), N.of_nat k') (front_tags name g)) us).
      split; [constructor; exact D|]. split; [cbn [tree_val]; rewrite T; reflexivity|]. cbn [enc]. rewrite G, I1, RS.
      destruct (N.eqb_spec (N.of_nat (arity (c_args c))) 0) as [Z|Z].
      + assert (A0 : arity (c_args c) = 0) by lia. destruct args; [|rewrite A0 in A; discriminate]. rewrite app_nil_r.
        eapply sh_const; eauto.
      + rewrite nat_N_Z. eapply sh_block; eauto. intro Q. subst args. cbn in A. lia.
    - intros i d k args Ei PR. exists Prf_e, (Vconstr default_ctor_tag []). split; [constructor|]. split; [reflexivity|].
      destruct DEF as (inf & G & I1 & I2). cbn [enc]. rewrite G, I1, I2. cbn. eapply sh_proof; eauto.
    - exists enil, []. split; [constructor|]. split; [reflexivity|constructor].
    - intros t ts v vs ER (e & u & D & T & SH) ERS (es & us & Ds & Ts & SHs). exists (econs e es), (u :: us).
      split; [constructor; auto|]. split; [cbn [tree_vals]; rewrite T, Ts; reflexivity|constructor; auto].
  Qed.
End Table.

(** ** The table after compilation *)
Lemma final_table nParam prims lprims nv opts name g nenv e cenv' e' prog : program_ok name g e ->
  compile_source_c nParam prims lprims nv opts name g nenv e = Some (cenv', e', prog) ->
  (forall kn i j cs a, Layout_Proofs.declared g kn i j cs a ->
    exists inf, get (dcon_to_tag default_ctor_tag ((name kn, i), N.of_nat j) (front_tags name g)) cenv' = Some inf /\
      ctor_arity inf = N.of_nat a /\ ctor_ordinal inf = Layout_Proofs.rank cs j a) /\
  (exists inf, get default_ctor_tag cenv' = Some inf /\ ctor_arity inf = 0%N /\ ctor_ordinal inf = 0%N).
Proof.
  intros OK H. unfold compile_source_c in H. pose proof (front_ok lprims nv name g e) as F. unfold front_tags in *. unfold front_tables in *.
  set (r := Layout_Model.convert_env default_ctor_tag default_ind_tag g) in *. cbn [snd] in *.
  destruct (convert_anf_exp lprims fun_fun_tag default_ctor_tag (rename name (Properties_Layout.ids_of r)) nv e) as [[e1 s']|]; [|discriminate].
  destruct (F e1 s' OK eq_refl) as (W & _). apply compile_c_inv in H as (ctag' & itag' & nenv' & fenv' & log & n & P & _).
  destruct (C75_pipeline_names _ _ _ _ _ _ _ _ (proj1 W) _ _ _ _ _ _ _ P) as (_ & _ & X & _).
  destruct OK as (NI & ND & _). split.
  - intros kn i j cs a D. destruct (@Properties_Layout.C34_layout default_ctor_tag default_ind_tag g kn i j cs a ND D) as (it & row & G & _).
    fold r in G. eexists. split; [apply X; change (name kn, i, N.of_nat j) with (rename_dcon name (kn, i, N.of_nat j)); rewrite (rename_tag name NI default_ctor_tag); exact G|].
    split; reflexivity.
  - destruct (@Properties_Layout.C34_default default_ctor_tag default_ind_tag g ND) as [G _]. fold r in G.
    eexists. split; [apply X; exact G|]. split; reflexivity.
Qed.

Lemma final_table_cps nParam prims lprims nv opts name g nenv e cenv' e' prog : program_ok name g e -> (100 <= nv)%positive ->
  compile_source_kc nParam prims lprims nv opts name g nenv e = Some (cenv', e', prog) ->
  (forall kn i j cs a, Layout_Proofs.declared g kn i j cs a ->
    exists inf, get (dcon_to_tag default_ctor_tag ((name kn, i), N.of_nat j) (front_tags name g)) cenv' = Some inf /\
      ctor_arity inf = N.of_nat a /\ ctor_ordinal inf = Layout_Proofs.rank cs j a) /\
  (exists inf, get default_ctor_tag cenv' = Some inf /\ ctor_arity inf = 0%N /\ ctor_ordinal inf = 0%N).
Proof.
  intros OK L H. unfold compile_source_kc in H. pose proof (front_kc_ok lprims nv name g e) as F. unfold front_tags in *. unfold front_tables in *.
  set (r := Layout_Model.convert_env default_ctor_tag default_ind_tag g) in *. cbn [snd] in *.
  destruct (convert_whole_exp lprims fun_fun_tag kon_fun_tag default_ctor_tag (rename name (Properties_Layout.ids_of r)) nv e) as [[e1 s']|] eqn:CW; [|discriminate].
  destruct (convert_form _ _ _ _ _ _ _ _ _ CW) as (b & CV & ->).
  destruct (F b s' OK L CV) as (W & _). assert (N3 : (3 <= nv)%positive) by lia. destruct OK as (NI & ND & WF & CF).
  rewrite (compile_kc_same _ _ _ _ _ _ _ _ _ _ (twin_at kon_fun_tag nv b)) in H;
    [|exact (twin_shrunk lprims _ fun_fun_tag kon_fun_tag default_ctor_tag _ nv s' e b N3 CF CV)|exact (same_max kon_fun_tag nv b N3 1%positive)].
  apply compile_kc_inv in H as (ctag' & itag' & nenv' & fenv' & log & n & P & _).
  destruct (C75_pipeline_names _ _ _ _ _ _ _ _ (proj1 W) _ _ _ _ _ _ _ P) as (_ & _ & X & _). split.
  - intros kn i j cs a D. destruct (@Properties_Layout.C34_layout default_ctor_tag default_ind_tag g kn i j cs a ND D) as (it & row & G & _).
    fold r in G. eexists. split; [apply X; change (name kn, i, N.of_nat j) with (rename_dcon name (kn, i, N.of_nat j)); rewrite (rename_tag name NI default_ctor_tag); exact G|].
    split; reflexivity.
  - destruct (@Properties_Layout.C34_default default_ctor_tag default_ind_tag g ND) as [G _]. fold r in G.
    eexists. split; [apply X; exact G|]. split; reflexivity.
Qed.
