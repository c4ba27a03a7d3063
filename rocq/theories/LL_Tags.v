(* Function tags and the function table under lambda lifting. *)
From Coq Require Import List Arith NArith PArith Bool Lia.
From Verif Require Import ANF_Syntax ANF_Eval ANF_Spec ANF_Scope ANF_FreeProofs Comp_Model CC_Model CC_Proofs UC_Model LL_Model LL_Proofs LL_Spec.
Import ListNotations.
Ltac Zify.zify_post_hook ::= idtac.

(* ** The table *)
Definition ext (s s' : lst) : Prop :=
  (lv_tag s <= lv_tag s')%positive /\ (forall t, (t < lv_tag s \/ lv_tag s' <= t)%positive -> get t (lv_tbl s') = get t (lv_tbl s)) /\
  (forall t, (lv_tag s <= t < lv_tag s')%positive -> get t (lv_tbl s') <> None).
Lemma ext_refl s : ext s s.
Proof. split; [lia|]. split; [reflexivity|]. intros. lia. Qed.
Lemma ext_trans s1 s2 s3 : ext s1 s2 -> ext s2 s3 -> ext s1 s3.
Proof.
  intros (A1 & A2 & A3) (B1 & B2 & B3). split; [lia|]. split.
  - intros t L. rewrite B2 by lia. apply A2. lia.
  - intros t L. destruct (Pos.ltb_spec t (lv_tag s2)); [rewrite B2 by lia; apply A3; lia|apply B3; lia].
Qed.
Lemma ext_same s s' : lv_tag s' = lv_tag s -> lv_tbl s' = lv_tbl s -> ext s s'.
Proof. intros E1 E2. split; [lia|]. rewrite E1, E2. split; [reflexivity|]. intros. lia. Qed.
Lemma new_names_same : forall xs s ys s', new_names xs s = (ys, s') -> lv_tag s' = lv_tag s /\ lv_tbl s' = lv_tbl s /\ length ys = length xs.
Proof.
  induction xs as [|x xs IH]; intros s ys s' H; cbn [new_names] in H.
  - apply pair2 in H as [<- <-]. auto.
  - destruct (new_name s) as [y s1] eqn:E1. destruct (new_names xs s1) as [zs s2] eqn:E2. apply pair2 in H as [<- <-].
    apply new_name_inv in E1 as (_ & _ & E3 & E4). destruct (IH _ _ _ E2) as (I1 & I2 & I3). split; [congruence|]. split; [congruence|]. cbn [length]. congruence.
Qed.
Lemma add_free_vars_same : forall xs m s ys m' s', add_free_vars xs m s = (ys, m', s') -> lv_tag s' = lv_tag s /\ lv_tbl s' = lv_tbl s.
Proof.
  induction xs as [|x xs IH]; intros m s ys m' s' H; cbn [add_free_vars] in H.
  - apply pair3 in H as (_ & _ & <-). auto.
  - destruct (add_free_vars xs m s) as [[ys1 m1] s1] eqn:E1. destruct (new_name s1) as [y s2] eqn:E2. apply pair3 in H as (_ & _ & <-).
    apply new_name_inv in E2 as (_ & _ & E3 & E4). destruct (IH _ _ _ _ _ E1). split; congruence.
Qed.
Lemma make_wrappers_same fvm fm : forall B s ob fvm' s', make_wrappers B fvm fm s = Some (ob, fvm', s') -> lv_tag s' = lv_tag s /\ lv_tbl s' = lv_tbl s.
Proof.
  induction B as [f t xs e B IH|]; intros s ob fvm' s' H; cbn [make_wrappers] in H.
  - destruct (get f fm) as [[f' ft' fvs sfvs args|? ?]|]; [|apply some3 in H as (_ & _ & <-); auto|discriminate].
    destruct (new_name s) as [g s1] eqn:E1. destruct (new_names xs s1) as [xs' s2] eqn:E2.
    destruct (make_wrappers B fvm fm s2) as [[[ob1 fvm1] s3]|] eqn:E3; [|discriminate]. apply some3 in H as (_ & _ & <-).
    apply new_name_inv in E1 as (_ & _ & E1 & E1'). apply new_names_same in E2 as (E2 & E2' & _). destruct (IH _ _ _ _ E3). split; congruence.
  - apply some3 in H as (_ & _ & <-). auto.
Qed.
Lemma new_tag_ext n s t s' : new_tag n s = (t, s') -> ext s s' /\ t = lv_tag s /\ lv_tag s' = (lv_tag s + 1)%positive.
Proof.
  unfold new_tag. intro H. apply pair2 in H as [<- <-]. split; [|auto]. split; [cbn [lv_tag]; lia|]. split; cbn [lv_tag lv_tbl].
  - intros t L. apply get_set_other. lia.
  - intros t L. assert (t = lv_tag s) by lia. subst t. rewrite get_set_same. discriminate.
Qed.
Lemma add_functions_ext fvs sfvs args : forall B m g s m' g' s', add_functions B fvs sfvs args m g s = (m', g', s') -> ext s s'.
Proof.
  induction B as [f t xs e B IH|]; intros m g s m' g' s' H; cbn [add_functions] in H.
  - destruct (add_functions B fvs sfvs args m g s) as [[m1 g1] s1] eqn:E1. apply IH in E1.
    destruct (Nat.eqb (length fvs) (length args)); [|apply pair3 in H as (_ & _ & <-); exact E1].
    destruct (new_name s1) as [f' s2] eqn:E2. destruct (new_tag _ s2) as [ft' s3] eqn:E3. apply pair3 in H as (_ & _ & <-).
    apply new_name_inv in E2 as (_ & _ & E4 & E5). apply new_tag_ext in E3 as (E3 & _).
    eapply ext_trans; [exact E1|]. eapply ext_trans; [apply ext_same; [exact E4|exact E5]|exact E3].
  - apply pair3 in H as (_ & _ & <-). apply ext_refl.
Qed.

Section Ext.
  Variables max_args max_push : nat.
  Variable lift_dec : list var -> list var -> bool.
  Notation ll := (exp_lambda_lift max_args max_push lift_dec).
  Notation llf := (fundefs_lambda_lift max_args max_push lift_dec).
  Lemma wext fvm fm B s ob fvm' s' : make_wrappers B fvm fm s = Some (ob, fvm', s') -> ext s s'.
  Proof. intro H. apply make_wrappers_same in H as [E1 E2]. apply ext_same; auto. Qed.
  Lemma ll_ext :
    (forall e sc fvm fm g s e1 s1, ll e sc fvm fm g s = Some (e1, s1) -> ext s s1) /\
    (forall B B0 nm fvm fm g s B1 s1, llf B B0 nm fvm fm g s = Some (B1, s1) -> ext s s1).
  Proof.
    apply exp_fundefs_ind.
    - intros x t ys e IH sc fvm fm g s e1 s1 H. apply ll_constr in H as (e' & H & _). eauto.
    - intros x l IH sc fvm fm g s e1 s1 H. apply ll_case_inv in H as (l' & H & _). revert s l' H.
      induction IH as [|[y e] l IH1 _ IH2]; intros s l' H.
      + cbn [ll_pats] in H. apply some2 in H as [_ <-]. apply ext_refl.
      + apply pats_cons in H as (e2 & s2 & l2 & A & B & _). apply IH1 in A. apply IH2 in B. eapply ext_trans; eauto.
    - intros x t n y e IH sc fvm fm g s e1 s1 H. apply ll_proj in H as (e' & H & _). eauto.
    - intros x f t ys e IH sc fvm fm g s e1 s1 H. apply ll_letapp in H as (e' & h & t' & zs & H & _). eauto.
    - intros B e IHB IH sc fvm fm g s e1 s1 H.
      apply ll_fun in H as (sfvs & fvs & lfvs & fm' & g' & sa & B' & sb & ob & fvm' & sd & e' & _ & _ & _ & H1 & H2 & H3 & H4 & _).
      apply add_functions_ext in H1. apply IHB in H2. apply wext in H3. apply IH in H4. eauto 6 using ext_trans.
    - intros f t ys sc fvm fm g s e1 s1 H. apply ll_app in H as (h & t' & zs & _ & -> & _). apply ext_refl.
    - intros x p e IH sc fvm fm g s e1 s1 H. apply ll_prim_val in H as (e' & H & _). eauto.
    - intros x p ys e IH sc fvm fm g s e1 s1 H. apply ll_prim in H as (e' & H & _). eauto.
    - intros x sc fvm fm g s e1 s1 H. apply ll_halt in H as [_ ->]. apply ext_refl.
    - intros f t xs e B IH IHB B0 nm fvm fm g s B1 s1 H.
      apply llf_cons in H as [(f' & ft' & fvs & sfvs & args & ys & fvm1 & sa & Bw & fvm2 & sb & e' & sc & B' & _ & H1 & H2 & H3 & H4 & _)|
        (fvs & sfvs & e' & sa & B' & _ & H1 & H2 & _)].
      + apply add_free_vars_same in H1 as [E1 E2]. pose proof (ext_same _ _ E1 E2) as H1. apply wext in H2. apply IH in H3. apply IHB in H4. eauto 6 using ext_trans.
      + apply IH in H1. apply IHB in H2. eauto using ext_trans.
    - intros B0 nm fvm fm g s B1 s1 H. apply llf_nil in H as [_ ->]. apply ext_refl.
  Qed.

  (* ** Numbers of arguments *)
  Variable np : var -> option nat.
  Definition okd (ar : fun_tag -> nat) (n : fun_tag) (l : list fdef) : Prop := forall f t xs b, In (f, t, xs, b) l -> length xs = ar t /\ (t < n)%positive.
  Definition okc (ar : fun_tag -> nat) (n : fun_tag) (l : list (var * fun_tag * list var)) : Prop := forall f t ys, In (f, t, ys) l -> length ys = ar t /\ (t < n)%positive.
  Definition npd (l : list fdef) : Prop := forall f t xs b, In (f, t, xs, b) l -> np f = Some (length xs).
  Definition npc (l : list (var * fun_tag * list var)) : Prop := forall f t ys k, In (f, t, ys) l -> np f = Some k -> length ys = k.
  Definition oks ar n ds cs : Prop := okd ar n ds /\ okc ar n cs.
  Definition agree (ar ar' : fun_tag -> nat) (n : fun_tag) : Prop := forall t, (t < n)%positive -> ar' t = ar t.
  Definition fmok (ar : fun_tag -> nat) (n : fun_tag) (fm : FunInfoMap) : Prop :=
    forall h f' ft' args, lifted fm h = Some (f', ft', args) -> (ft' < n)%positive /\ exists k, np h = Some k /\ ar ft' = k + length args.
  Lemma oks_ext ar ar' n n' ds cs : oks ar n ds cs -> agree ar ar' n -> (n <= n')%positive -> oks ar' n' ds cs.
  Proof.
    intros [D C] A L. split.
    - intros f t xs b I. destruct (D _ _ _ _ I) as [E T]. rewrite A by exact T. split; [exact E|lia].
    - intros f t ys I. destruct (C _ _ _ I) as [E T]. rewrite A by exact T. split; [exact E|lia].
  Qed.
  Lemma fmok_ext ar ar' n n' fm : fmok ar n fm -> agree ar ar' n -> (n <= n')%positive -> fmok ar' n' fm.
  Proof. intros F A L h f' ft' args E. destruct (F _ _ _ _ E) as (T & k & N & Q). split; [lia|]. exists k. rewrite A by exact T. auto. Qed.
  Lemma agree_trans ar1 ar2 ar3 n n' : agree ar1 ar2 n -> agree ar2 ar3 n' -> (n <= n')%positive -> agree ar1 ar3 n.
  Proof. intros A B L t T. rewrite B by lia. apply A. exact T. Qed.
  Lemma oks_app ar n ds1 cs1 ds2 cs2 : oks ar n (ds1 ++ ds2) (cs1 ++ cs2) <-> oks ar n ds1 cs1 /\ oks ar n ds2 cs2.
  Proof.
    split.
    - intros [D C]. split; (split; [intros f t xs b I; apply (D f t xs b)|intros f t ys I; apply (C f t ys)]); apply in_or_app; auto.
    - intros [[D1 C1] [D2 C2]]. split; [intros f t xs b I|intros f t ys I]; apply in_app_or in I as [I|I]; eauto.
  Qed.
  Definition nps ds cs : Prop := npd ds /\ npc cs.
  Lemma nps_app ds1 cs1 ds2 cs2 : nps (ds1 ++ ds2) (cs1 ++ cs2) <-> nps ds1 cs1 /\ nps ds2 cs2.
  Proof.
    split.
    - intros [D C]. split; (split; [intros f t xs b I; apply (D f t xs b)|intros f t ys k I; apply (C f t ys k)]); apply in_or_app; auto.
    - intros [[D1 C1] [D2 C2]]. split; [intros f t xs b I|intros f t ys k I]; apply in_app_or in I as [I|I]; eauto.
  Qed.

  Lemma add_functions_ar fvs sfvs args : forall B m g s m' g' s' ar, add_functions B fvs sfvs args m g s = (m', g', s') ->
    npd (defs_of_funs B) -> fmok ar (lv_tag s) m -> exists ar', agree ar ar' (lv_tag s) /\ fmok ar' (lv_tag s') m'.
  Proof.
    induction B as [f t xs e B IH|]; intros m g s m' g' s' ar H N F; cbn [add_functions] in H.
    2: { apply pair3 in H as (<- & _ & <-). exists ar. split; [intros u Lu; reflexivity|exact F]. }
    destruct (add_functions B fvs sfvs args m g s) as [[m1 g1] s1] eqn:E1. pose proof (add_functions_ext _ _ _ _ _ _ _ _ _ _ E1) as (X1 & _ & _).
    assert (N' : npd (defs_of_funs B)) by (intros h u zs b I; apply (N h u zs b); cbn [defs_of_funs]; right; apply in_or_app; auto).
    destruct (IH _ _ _ _ _ _ ar E1 N' F) as (ar1 & A1 & F1).
    destruct (Nat.eqb (length fvs) (length args)).
    - destruct (new_name s1) as [f' s2] eqn:E2. destruct (new_tag _ s2) as [ft' s3] eqn:E3. apply pair3 in H as (<- & _ & <-).
      apply new_name_inv in E2 as (_ & _ & E4 & E5). apply new_tag_ext in E3 as (E3 & -> & E6). rewrite E4 in *.
      exists (fun u => if Pos.eqb u (lv_tag s1) then length xs + length args else ar1 u). split.
      + intros u Lu. destruct (Pos.eqb_spec u (lv_tag s1)); [lia|]. apply A1. exact Lu.
      + intros h f1 ft1 a1 L. unfold lifted in L. rewrite get_set in L. destruct (Pos.eq_dec h f) as [->|D].
        * assert (ft1 = lv_tag s1 /\ a1 = args) as [-> ->] by (split; congruence). split; [lia|]. exists (length xs). split.
          -- eapply N. cbn [defs_of_funs]. left. reflexivity.
          -- rewrite Pos.eqb_refl. reflexivity.
        * destruct (F1 h f1 ft1 a1 L) as (T & k & Nk & Q). split; [lia|]. exists k. split; [exact Nk|]. destruct (Pos.eqb_spec ft1 (lv_tag s1)); [lia|exact Q].
    - apply pair3 in H as (<- & _ & <-). exists ar1. split; [exact A1|]. intros h f1 ft1 a1 L. unfold lifted in L. rewrite get_set in L.
      destruct (Pos.eq_dec h f) as [->|D]; [discriminate|]. apply (F1 h f1 ft1 a1 L).
  Qed.
  Lemma wrappers_oks ar n fvm fm : forall B s ob fvm' s', make_wrappers B fvm fm s = Some (ob, fvm', s') ->
    (forall f t xs b, In (f, t, xs, b) (flist B) -> length xs = ar t /\ (t < n)%positive /\ np f = Some (length xs)) -> fmok ar n fm ->
    match ob with Some Bw => oks ar n (defs_of_funs Bw) (calls_of_funs Bw) | None => True end.
  Proof.
    induction B as [f t xs e B IH|]; intros s ob fvm' s' H D F; cbn [make_wrappers] in H.
    2: { apply some3 in H as (<- & _). split; intros ? ? ? ?; [intro I; destruct I|destruct H]. }
    destruct (get f fm) as [[f' ft' fvs sfvs args|? ?]|] eqn:G; [|apply some3 in H as (<- & _); exact Logic.I|discriminate].
    destruct (new_name s) as [g s1] eqn:E1. destruct (new_names xs s1) as [xs' s2] eqn:E2.
    destruct (make_wrappers B fvm fm s2) as [[[ob1 fvm1] s3]|] eqn:E3; [|discriminate]. apply some3 in H as (<- & _).
    assert (K : match ob1 with Some Bw => oks ar n (defs_of_funs Bw) (calls_of_funs Bw) | None => True end).
    { eapply IH; [exact E3| |exact F]. intros h u zs b I. apply (D h u zs b). right. exact I. }
    destruct (D f t xs e ltac:(left; reflexivity)) as (D1 & D2 & D3). apply new_names_same in E2 as (_ & _ & E2).
    destruct (F _ _ _ _ (lifted_get _ _ _ _ _ _ _ G)) as (T & k & Nk & Q).
    assert (K' : let Bw := match ob1 with Some Bw => Bw | None => Fnil end in oks ar n (defs_of_funs Bw) (calls_of_funs Bw)).
    { destruct ob1; [exact K|]. split; [intros ? ? ? ? []|intros ? ? ? []]. }
    destruct K' as [K1 K2]. split.
    - intros h u zs b I. cbn [defs_of_funs defs_of app In] in I. destruct I as [I|I]; [|eapply K1; exact I].
      assert (zs = xs' /\ u = t) as [-> ->] by (split; congruence). rewrite E2. auto.
    - intros h u zs I. cbn [calls_of_funs calls_of app In] in I. destruct I as [I|I]; [|eapply K2; exact I].
      assert (zs = xs' ++ rename_lst fvm args /\ u = ft') as [-> ->] by (split; congruence). split; [|exact T].
      unfold rename_lst. rewrite app_length, map_length, E2, Q. congruence.
  Qed.
  Lemma call_ar ar n fvm fm f t ys h t' zs : call_to fvm fm f t ys h t' zs -> length ys = ar t /\ (t < n)%positive -> (forall k, np f = Some k -> length ys = k) ->
    fmok ar n fm -> length zs = ar t' /\ (t' < n)%positive.
  Proof.
    intros [(-> & -> & ->)|(f' & args & L & E)] [A T] N F.
    - unfold rename_lst. rewrite map_length. auto.
    - destruct (F _ _ _ _ L) as (T' & k & Nk & Q). destruct E as [_ ->]. unfold rename_lst. rewrite map_length, app_length, (N k Nk). auto.
  Qed.

  Definition post (ar : fun_tag -> nat) (s s1 : lst) ds cs : Prop := exists ar', agree ar ar' (lv_tag s) /\ oks ar' (lv_tag s1) ds cs.
  Lemma oks_call ar n ds f t ys cs : oks ar n ds ((f, t, ys) :: cs) <-> (length ys = ar t /\ (t < n)%positive) /\ oks ar n ds cs.
  Proof.
    split.
    - intros [D C]. split; [apply (C f t ys); left; reflexivity|]. split; [exact D|]. intros h u zs I. apply (C h u zs). right. exact I.
    - intros [E [D C]]. split; [exact D|]. intros h u zs [I|I]; [assert (zs = ys /\ u = t) as [-> ->] by (split; congruence); exact E|eapply C; exact I].
  Qed.
  Lemma oks_def ar n f t xs b ds cs : oks ar n ((f, t, xs, b) :: ds) cs <-> (length xs = ar t /\ (t < n)%positive) /\ oks ar n ds cs.
  Proof.
    split.
    - intros [D C]. split; [apply (D f t xs b); left; reflexivity|]. split; [|exact C]. intros h u zs a I. apply (D h u zs a). right. exact I.
    - intros [E [D C]]. split; [|exact C]. intros h u zs a [I|I]; [assert (zs = xs /\ u = t) as [-> ->] by (split; congruence); exact E|eapply D; exact I].
  Qed.
  Lemma nps_call ds f t ys cs : nps ds ((f, t, ys) :: cs) -> (forall k, np f = Some k -> length ys = k) /\ nps ds cs.
  Proof. intros [D C]. split; [intro k; apply (C f t ys k); left; reflexivity|]. split; [exact D|]. intros h u zs k I. apply (C h u zs k). right. exact I. Qed.
  Lemma nps_def f t xs b ds cs : nps ((f, t, xs, b) :: ds) cs -> np f = Some (length xs) /\ nps ds cs.
  Proof. intros [D C]. split; [apply (D f t xs b); left; reflexivity|]. split; [|exact C]. intros h u zs a I. apply (D h u zs a). right. exact I. Qed.
  Lemma flist_defs B d : In d (flist B) -> In d (defs_of_funs B).
  Proof. induction B as [f t xs e B IH|]; cbn [flist defs_of_funs]; [|auto]. intros [->|I]; [left; reflexivity|right; apply in_or_app; auto]. Qed.

  Lemma ll_tags :
    (forall e sc fvm fm g s e1 s1 ar, ll e sc fvm fm g s = Some (e1, s1) -> oks ar (lv_tag s) (defs_of e) (calls_of e) -> nps (defs_of e) (calls_of e) ->
       fmok ar (lv_tag s) fm -> post ar s s1 (defs_of e1) (calls_of e1)) /\
    (forall B B0 nm fvm fm g s B1 s1 ar, llf B B0 nm fvm fm g s = Some (B1, s1) -> oks ar (lv_tag s) (defs_of_funs B) (calls_of_funs B) ->
       nps (defs_of_funs B) (calls_of_funs B) -> okd ar (lv_tag s) (defs_of_funs B0) -> npd (defs_of_funs B0) -> fmok ar (lv_tag s) fm ->
       post ar s s1 (defs_of_funs B1) (calls_of_funs B1)).
  Proof.
    apply exp_fundefs_ind.
    - intros x t ys e IH sc fvm fm g s e1 s1 ar H. apply ll_constr in H as (e' & H & ->). cbn [defs_of calls_of]. eauto.
    - intros x l IH sc fvm fm g s e1 s1 ar H. apply ll_case_inv in H as (l' & H & ->). cbn [defs_of calls_of]. revert s l' ar H.
      induction IH as [|[y e] l IH1 _ IH2]; intros s l' ar H O N F.
      + cbn [ll_pats] in H. apply some2 in H as [<- <-]. exists ar. split; [intros t _; reflexivity|exact O].
      + apply pats_cons in H as (e2 & s2 & l2 & A & B & ->). cbn [flat_map snd] in *. apply oks_app in O as [O1 O2]. apply nps_app in N as [N1 N2].
        destruct (IH1 _ _ _ _ _ _ _ ar A O1 N1 F) as (ar1 & G1 & P1). pose proof (proj1 (proj1 ll_ext _ _ _ _ _ _ _ _ A)) as X1.
        destruct (IH2 _ _ ar1 B) as (ar2 & G2 & P2); [eapply oks_ext; eauto|exact N2|eapply fmok_ext; eauto|].
        assert (X2 : (lv_tag s2 <= lv_tag s1)%positive).
        { clear -B. revert s2 l2 B. induction l as [|[y e] l IHl]; intros s2 l2 B; [cbn [ll_pats] in B; apply some2 in B as [_ <-]; lia|].
          apply pats_cons in B as (e3 & s3 & l3 & A & B & _). apply IHl in B. pose proof (proj1 (proj1 ll_ext _ _ _ _ _ _ _ _ A)). lia. }
        exists ar2. split; [eapply agree_trans; eauto|]. apply oks_app. split; [eapply oks_ext; eauto|exact P2].
    - intros x t n y e IH sc fvm fm g s e1 s1 ar H. apply ll_proj in H as (e' & H & ->). cbn [defs_of calls_of]. eauto.
    - intros x f t ys e IH sc fvm fm g s e1 s1 ar H O N F. apply ll_letapp in H as (e' & h & t' & zs & H & -> & CT). cbn [defs_of calls_of] in *.
      apply oks_call in O as [O1 O2]. apply nps_call in N as [N1 N2]. destruct (IH _ _ _ _ _ _ _ ar H O2 N2 F) as (ar1 & G1 & P1).
      exists ar1. split; [exact G1|]. apply oks_call. split; [|exact P1]. destruct (call_ar _ _ _ _ _ _ _ _ _ _ CT O1 N1 F) as [Q T].
      rewrite (G1 _ T). split; [exact Q|]. pose proof (proj1 (proj1 ll_ext _ _ _ _ _ _ _ _ H)). lia.
    - intros B e IHB IH sc fvm fm g s e1 s1 ar H O N F. cbn [defs_of calls_of] in O, N. apply oks_app in O as [O1 O2]. apply nps_app in N as [N1 N2].
      apply ll_fun in H as (sfvs & fvs & lfvs & fm' & g' & sa & B' & sb & ob & fvm' & sd & e' & _ & _ & _ & H1 & H2 & H3 & H4 & ->).
      pose proof (proj1 (add_functions_ext _ _ _ _ _ _ _ _ _ _ H1)) as X1. pose proof (proj1 (proj2 ll_ext _ _ _ _ _ _ _ _ _ H2)) as X2.
      pose proof (proj1 (make_wrappers_same _ _ _ _ _ _ _ H3)) as X3. pose proof (proj1 (proj1 ll_ext _ _ _ _ _ _ _ _ H4)) as X4.
      destruct (add_functions_ar _ _ _ _ _ _ _ _ _ _ ar H1 (proj1 N1) F) as (ar1 & G1 & F1).
      assert (O1' : oks ar1 (lv_tag sa) (defs_of_funs B) (calls_of_funs B)) by (eapply oks_ext; eauto).
      destruct (IHB _ _ _ _ _ _ _ _ ar1 H2 O1' N1 (proj1 O1') (proj1 N1) F1) as (ar2 & G2 & P2).
      assert (F2 : fmok ar2 (lv_tag sb) fm') by (eapply fmok_ext; eauto).
      assert (G12 : agree ar ar2 (lv_tag s)) by (eapply agree_trans; eauto).
      assert (PW : match ob with Some Bw => oks ar2 (lv_tag sb) (defs_of_funs Bw) (calls_of_funs Bw) | None => True end).
      { eapply wrappers_oks; [exact H3| |exact F2]. intros f t xs b I. apply flist_defs in I. destruct (proj1 O1' _ _ _ _ I) as [Q T].
        rewrite (G2 _ T). split; [exact Q|]. split; [lia|]. eapply (proj1 N1). exact I. }
      rewrite <- X3 in F2. assert (O2' : oks ar2 (lv_tag sd) (defs_of e) (calls_of e)) by (eapply oks_ext; [exact O2|exact G12|lia]).
      destruct (IH _ _ _ _ _ _ _ ar2 H4 O2' N2 F2) as (ar3 & G3 & P3). rewrite X3 in G3.
      exists ar3. split; [eapply agree_trans; [exact G12|exact G3|lia]|].
      assert (P2' : oks ar3 (lv_tag s1) (defs_of_funs B') (calls_of_funs B')) by (eapply oks_ext; [exact P2|exact G3|lia]).
      destruct ob as [Bw|]; cbn [defs_of calls_of]; apply oks_app; (split; [exact P2'|]); [|exact P3].
      apply oks_app. split; [|exact P3]. eapply oks_ext; [exact PW|exact G3|lia].
    - intros f t ys sc fvm fm g s e1 s1 ar H O N F. apply ll_app in H as (h & t' & zs & -> & -> & CT). cbn [defs_of calls_of] in *.
      apply oks_call in O as [O1 O2]. apply nps_call in N as [N1 N2]. exists ar. split; [intros u _; reflexivity|]. apply oks_call. split; [|exact O2].
      eapply call_ar; eauto.
    - intros x p e IH sc fvm fm g s e1 s1 ar H. apply ll_prim_val in H as (e' & H & ->). cbn [defs_of calls_of]. eauto.
    - intros x p ys e IH sc fvm fm g s e1 s1 ar H. apply ll_prim in H as (e' & H & ->). cbn [defs_of calls_of]. eauto.
    - intros x sc fvm fm g s e1 s1 ar H O N F. apply ll_halt in H as [-> ->]. exists ar. split; [intros u _; reflexivity|exact O].
    - intros f t xs e B IH IHB B0 nm fvm fm g s B1 s1 ar H O N O0 N0 F. cbn [defs_of_funs calls_of_funs] in O, N.
      apply oks_def in O as [OD O]. apply nps_def in N as [ND N]. apply oks_app in O as [O1 O2]. apply nps_app in N as [N1 N2].
      apply llf_cons in H as [(f' & ft' & fvs & sfvs & args & ys & fvm1 & sa & Bw & fvm2 & sb & e' & sc & B' & G & H1 & H2 & H3 & H4 & ->)|
        (fvs & sfvs & e' & sa & B' & G & H1 & H2 & ->)].
      + pose proof (proj1 (add_free_vars_same _ _ _ _ _ _ H1)) as X1. pose proof (proj1 (make_wrappers_same _ _ _ _ _ _ _ H2)) as X2.
        pose proof (proj1 (add_free_vars_spec _ _ _ _ _ _ H1)) as LY.
        pose proof (proj1 (proj1 ll_ext _ _ _ _ _ _ _ _ H3)) as X3. pose proof (proj1 (proj2 ll_ext _ _ _ _ _ _ _ _ _ H4)) as X4.
        assert (PW : oks ar (lv_tag s) (defs_of_funs Bw) (calls_of_funs Bw)).
        { apply (wrappers_oks ar (lv_tag s) _ _ _ _ _ _ _ H2); [|exact F]. intros h u zs b I. apply flist_defs in I.
          destruct (O0 _ _ _ _ I). split; [assumption|]. split; [assumption|]. eapply N0. exact I. }
        assert (XB : lv_tag sb = lv_tag s) by congruence. rewrite <- XB in O1, F.
        destruct (IH _ _ _ _ _ _ _ ar H3 O1 N1 F) as (ar1 & G1 & P1). rewrite XB in G1, F, X3.
        destruct (IHB _ _ _ _ _ _ _ _ ar1 H4) as (ar2 & G2 & P2);
          [eapply oks_ext; eauto|exact N2|eapply (oks_ext ar ar1 _ _ _ []); [split; [exact O0|intros ? ? ? []]|exact G1|exact X3]|exact N0|eapply fmok_ext; eauto|].
        assert (G12 : agree ar ar2 (lv_tag s)) by (eapply agree_trans; eauto).
        exists ar2. split; [exact G12|]. cbn [defs_of_funs calls_of_funs defs_of calls_of]. apply oks_def. split.
        * destruct (F _ _ _ _ (lifted_get _ _ _ _ _ _ _ G)) as (T & k & Nk & Q). rewrite (G12 _ T), Q, app_length, LY. split; [|lia].
          assert (k = length xs) by congruence. lia.
        * apply oks_app. split; [|exact P2]. apply oks_app. split; [eapply oks_ext; [exact PW|exact G12|lia]|eapply oks_ext; [exact P1|exact G2|exact X4]].
      + pose proof (proj1 (proj1 ll_ext _ _ _ _ _ _ _ _ H1)) as X3. pose proof (proj1 (proj2 ll_ext _ _ _ _ _ _ _ _ _ H2)) as X4.
        destruct (IH _ _ _ _ _ _ _ ar H1 O1 N1 F) as (ar1 & G1 & P1).
        destruct (IHB _ _ _ _ _ _ _ _ ar1 H2) as (ar2 & G2 & P2);
          [eapply oks_ext; eauto|exact N2|eapply (oks_ext ar ar1 _ _ _ []); [split; [exact O0|intros ? ? ? []]|exact G1|exact X3]|exact N0|eapply fmok_ext; eauto|].
        assert (G12 : agree ar ar2 (lv_tag s)) by (eapply agree_trans; eauto).
        exists ar2. split; [exact G12|]. cbn [defs_of_funs calls_of_funs]. apply oks_def. split.
        * destruct OD as [Q T]. rewrite (G12 _ T). split; [exact Q|lia].
        * apply oks_app. split; [eapply oks_ext; [exact P1|exact G2|exact X4]|exact P2].
    - intros B0 nm fvm fm g s B1 s1 ar H O N O0 N0 F. apply llf_nil in H as [-> ->]. exists ar. split; [intros u _; reflexivity|exact O].
  Qed.
End Ext.

(* the number of parameters of a function of the program *)
Fixpoint find_np (l : list fdef) (f : var) : option nat :=
  match l with (h, _, xs, _) :: l => if Pos.eqb h f then Some (length xs) else find_np l f | [] => None end.
Lemma find_np_def l f : forall k, find_np l f = Some k -> exists t xs b, In (f, t, xs, b) l /\ k = length xs.
Proof.
  induction l as [|[[[h t] xs] b] l IH]; cbn [find_np]; [discriminate|]. intro k. destruct (Pos.eqb_spec h f) as [->|].
  - intro H. exists t, xs, b. split; [left; reflexivity|congruence].
  - intro H. destruct (IH k H) as (t' & xs' & b' & I & E). exists t', xs', b'. split; [right; exact I|exact E].
Qed.
Lemma find_np_In l : NoDup (map (fun d : fdef => fst (fst (fst d))) l) -> forall f t xs b, In (f, t, xs, b) l -> find_np l f = Some (length xs).
Proof.
  induction l as [|[[[h u] ys] a] l IH]; intros N f t xs b I; [destruct I|]. cbn [map fst] in N. apply NoDup_cons_iff in N as [N1 N2]. cbn [find_np].
  destruct I as [I|I].
  - assert (h = f /\ ys = xs) as [-> ->] by (split; congruence). rewrite Pos.eqb_refl. reflexivity.
  - destruct (Pos.eqb_spec h f) as [->|]; [|eapply IH; eauto]. exfalso. apply N1. apply in_map_iff. exists (f, t, xs, b). auto.
Qed.

(* ** Numbers of parameters *)
Section Params.
  Variables max_args max_push : nat.
  Variable lift_dec : list var -> list var -> bool.
  Notation ll := (exp_lambda_lift max_args max_push lift_dec).
  Notation llf := (fundefs_lambda_lift max_args max_push lift_dec).
  Variable DS : list fdef.
  Definition bounded (l : list fdef) : Prop := forall f t xs b, In (f, t, xs, b) l ->
    exists f0 t0 xs0 b0, In (f0, t0, xs0, b0) DS /\ length xs0 <= length xs <= length xs0 + max_args.
  Definition short (fm : FunInfoMap) : Prop := forall h f' ft' args, lifted fm h = Some (f', ft', args) -> length args <= max_args.
  Lemma bounded_app l1 l2 : bounded l1 -> bounded l2 -> bounded (l1 ++ l2).
  Proof. intros B1 B2 f t xs b I. apply in_app_or in I as [I|I]; eauto. Qed.
  Lemma lifted_vars_short fvs B : length (lifted_vars max_args max_push fvs B) <= max_args.
  Proof.
    unfold lifted_vars. destruct (Nat.ltb_spec (max_args - fundefs_max_params B) (length (if existsb (fun x => Nat.ltb max_push (stack_push_fundefs x B)) fvs then [] else fvs)));
      cbn [length]; lia.
  Qed.
  Lemma add_functions_short fvs sfvs args : length args <= max_args -> forall B m g s m' g' s', add_functions B fvs sfvs args m g s = (m', g', s') -> short m -> short m'.
  Proof.
    intros LA. induction B as [f t xs e B IH|]; intros m g s m' g' s' H S; cbn [add_functions] in H.
    2: { apply pair3 in H as (<- & _). exact S. }
    destruct (add_functions B fvs sfvs args m g s) as [[m1 g1] s1] eqn:E1. specialize (IH _ _ _ _ _ _ E1 S).
    assert (K : forall i, match i with Fun _ _ _ _ a => length a <= max_args | _ => True end -> short (set f i m1)).
    { intros i Hi h f' ft' a L. unfold lifted in L. rewrite get_set in L. destruct (Pos.eq_dec h f) as [->|]; [|eapply IH; exact L].
      destruct i; [|discriminate]. assert (l1 = a) by congruence. subst. exact Hi. }
    destruct (Nat.eqb (length fvs) (length args)).
    - destruct (new_name s1) as [f' s2]. destruct (new_tag _ s2) as [ft' s3]. apply pair3 in H as (<- & _). apply K. exact LA.
    - apply pair3 in H as (<- & _). apply K. exact Logic.I.
  Qed.
  Lemma wrappers_bounded fvm fm : forall B s ob fvm' s', make_wrappers B fvm fm s = Some (ob, fvm', s') -> incl (defs_of_funs B) DS ->
    match ob with Some Bw => bounded (defs_of_funs Bw) | None => True end.
  Proof.
    induction B as [f t xs e B IH|]; intros s ob fvm' s' H D; cbn [make_wrappers] in H.
    2: { apply some3 in H as (<- & _). intros ? ? ? ? []. }
    destruct (get f fm) as [[f' ft' fvs sfvs args|? ?]|] eqn:G; [|apply some3 in H as (<- & _); exact Logic.I|discriminate].
    destruct (new_name s) as [g s1] eqn:E1. destruct (new_names xs s1) as [xs' s2] eqn:E2.
    destruct (make_wrappers B fvm fm s2) as [[[ob1 fvm1] s3]|] eqn:E3; [|discriminate]. apply some3 in H as (<- & _).
    cbn [defs_of_funs] in D. apply incl_cons_inv in D as [D1 D]. apply incl_app_inv in D as [_ D2]. specialize (IH _ _ _ _ E3 D2).
    apply new_names_same in E2 as (_ & _ & E2). intros h u zs b I. cbn [defs_of_funs defs_of app In] in I. destruct I as [I|I].
    - assert (zs = xs') by congruence. subst zs. exists f, t, xs, e. split; [exact D1|]. lia.
    - destruct ob1; [eapply IH; exact I|destruct I].
  Qed.
  Lemma ll_params :
    (forall e sc fvm fm g s e1 s1, ll e sc fvm fm g s = Some (e1, s1) -> incl (defs_of e) DS -> short fm -> bounded (defs_of e1)) /\
    (forall B B0 nm fvm fm g s B1 s1, llf B B0 nm fvm fm g s = Some (B1, s1) -> incl (defs_of_funs B) DS -> incl (defs_of_funs B0) DS -> short fm ->
       bounded (defs_of_funs B1)).
  Proof.
    apply exp_fundefs_ind.
    - intros x t ys e IH sc fvm fm g s e1 s1 H. apply ll_constr in H as (e' & H & ->). cbn [defs_of]. eauto.
    - intros x l IH sc fvm fm g s e1 s1 H. apply ll_case_inv in H as (l' & H & ->). cbn [defs_of]. revert s l' H.
      induction IH as [|[y e] l IH1 _ IH2]; intros s l' H D S.
      + cbn [ll_pats] in H. apply some2 in H as [<- <-]. intros ? ? ? ? [].
      + apply pats_cons in H as (e2 & s2 & l2 & A & B & ->). cbn [flat_map snd] in *. apply incl_app_inv in D as [D1 D2]. apply bounded_app; eauto.
    - intros x t n y e IH sc fvm fm g s e1 s1 H. apply ll_proj in H as (e' & H & ->). cbn [defs_of]. eauto.
    - intros x f t ys e IH sc fvm fm g s e1 s1 H. apply ll_letapp in H as (e' & h & t' & zs & H & -> & _). cbn [defs_of]. eauto.
    - intros B e IHB IH sc fvm fm g s e1 s1 H D S. cbn [defs_of] in D. apply incl_app_inv in D as [D1 D2].
      apply ll_fun in H as (sfvs & fvs & lfvs & fm' & g' & sa & B' & sb & ob & fvm' & sd & e' & _ & _ & EL & H1 & H2 & H3 & H4 & ->).
      assert (S' : short fm') by (eapply add_functions_short; [|exact H1|exact S]; rewrite EL; apply lifted_vars_short).
      pose proof (wrappers_bounded _ _ _ _ _ _ _ H3 D1) as W. specialize (IHB _ _ _ _ _ _ _ _ H2 D1 D1 S'). specialize (IH _ _ _ _ _ _ _ H4 D2 S').
      destruct ob; cbn [defs_of]; apply bounded_app; auto. apply bounded_app; auto.
    - intros f t ys sc fvm fm g s e1 s1 H D S. apply ll_app in H as (h & t' & zs & -> & -> & _). intros ? ? ? ? [].
    - intros x p e IH sc fvm fm g s e1 s1 H. apply ll_prim_val in H as (e' & H & ->). cbn [defs_of]. eauto.
    - intros x p ys e IH sc fvm fm g s e1 s1 H. apply ll_prim in H as (e' & H & ->). cbn [defs_of]. eauto.
    - intros x sc fvm fm g s e1 s1 H D S. apply ll_halt in H as [-> ->]. intros ? ? ? ? [].
    - intros f t xs e B IH IHB B0 nm fvm fm g s B1 s1 H D D0 S. cbn [defs_of_funs] in D. apply incl_cons_inv in D as [D1 D]. apply incl_app_inv in D as [D2 D3].
      apply llf_cons in H as [(f' & ft' & fvs & sfvs & args & ys & fvm1 & sa & Bw & fvm2 & sb & e' & sc & B' & G & H1 & H2 & H3 & H4 & ->)|
        (fvs & sfvs & e' & sa & B' & G & H1 & H2 & ->)].
      + pose proof (proj1 (add_free_vars_spec _ _ _ _ _ _ H1)) as LY. pose proof (S _ _ _ _ (lifted_get _ _ _ _ _ _ _ G)) as LA.
        pose proof (wrappers_bounded _ _ _ _ _ _ _ H2 D0) as W. specialize (IH _ _ _ _ _ _ _ H3 D2 S). specialize (IHB _ _ _ _ _ _ _ _ H4 D3 D0 S).
        cbn [defs_of_funs defs_of]. intros h u zs b [I|I].
        * assert (zs = xs ++ ys) by congruence. subst zs. rewrite app_length. exists f, t, xs, e. split; [exact D1|]. lia.
        * revert h u zs b I. apply bounded_app; [apply bounded_app; assumption|exact IHB].
      + specialize (IH _ _ _ _ _ _ _ H1 D2 S). specialize (IHB _ _ _ _ _ _ _ _ H2 D3 D0 S).
        cbn [defs_of_funs]. intros h u zs b [I|I].
        * assert (zs = xs) by congruence. subst zs. exists f, t, xs, e. split; [exact D1|]. lia.
        * revert h u zs b I. apply bounded_app; assumption.
    - intros B0 nm fvm fm g s B1 s1 H D D0 S. apply llf_nil in H as [-> ->]. intros ? ? ? ? [].
  Qed.
End Params.
