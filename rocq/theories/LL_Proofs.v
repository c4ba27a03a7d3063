(* Lambda lifting preserves evaluation: lemmas on the parts of the pass. *)
From Coq Require Import List Arith NArith PArith Bool Lia.
From Verif Require Import ANF_Syntax ANF_Eval ANF_Spec ANF_Scope ANF_EvalProofs ANF_FreeProofs Comp_Model CC_Model CC_Spec CC_Proofs UC_Model LL_Model.
Import ListNotations.

Notation nv := lv_var.

(* ** New names *)
Lemma new_name_inv s x s' : new_name s = (x, s') -> x = nv s /\ nv s' = (nv s + 1)%positive /\ lv_tag s' = lv_tag s /\ lv_tbl s' = lv_tbl s.
Proof. unfold new_name. intro H. apply pair2 in H as [<- <-]. auto. Qed.
Lemma new_tag_nv n s t s' : new_tag n s = (t, s') -> nv s' = nv s.
Proof. unfold new_tag. intro H. apply pair2 in H as [<- <-]. reflexivity. Qed.

Lemma new_names_spec : forall xs s ys s', new_names xs s = (ys, s') ->
  length ys = length xs /\ NoDup ys /\ (forall y, In y ys -> (nv s <= y < nv s')%positive) /\ (nv s <= nv s')%positive.
Proof.
  induction xs as [|x xs IH]; intros s ys s' H; cbn [new_names] in H.
  - apply pair2 in H as [<- <-]. repeat split; try constructor; try lia; destruct H.
  - destruct (new_name s) as [y s1] eqn:E1. destruct (new_names xs s1) as [ys1 s2] eqn:E2. apply pair2 in H as [<- <-].
    apply new_name_inv in E1 as (-> & E1 & _). destruct (IH _ _ _ E2) as (I1 & I2 & I3 & I4).
    split; [cbn [length]; congruence|]. split.
    { constructor; [|exact I2]. intro I. apply I3 in I. lia. }
    split; [|lia]. intros z [<-|I]; [lia|]. apply I3 in I. lia.
Qed.

(* ** The function map *)
Definition lifted (fm : FunInfoMap) (x : var) : option (var * fun_tag * list var) :=
  match get x fm with Some (Fun f' ft' _ _ args) => Some (f', ft', args) | _ => None end.

Lemma lifted_get fm x f' ft' fvs sfvs args : get x fm = Some (Fun f' ft' fvs sfvs args) -> lifted fm x = Some (f', ft', args).
Proof. unfold lifted. intros ->. reflexivity. Qed.
Lemma lifted_inv fm x f' ft' args : lifted fm x = Some (f', ft', args) -> exists fvs sfvs, get x fm = Some (Fun f' ft' fvs sfvs args).
Proof.
  unfold lifted. destruct (get x fm) as [[f1 t1 fvs sfvs a|? ?]|]; [|discriminate|discriminate]. intro H. exists fvs, sfvs.
  assert (f1 = f' /\ t1 = ft' /\ a = args) by (repeat split; congruence). destruct H0 as (-> & -> & ->). reflexivity.
Qed.
Lemma lifted_none fm x : get x fm = None -> lifted fm x = None.
Proof. unfold lifted. intros ->. reflexivity. Qed.

Lemma add_functions_spec fvs sfvs args : forall B m g s m' g' s', add_functions B fvs sfvs args m g s = (m', g', s') -> NoDup (fnames B) ->
  (nv s <= nv s')%positive /\
  (forall x, ~ In x (fnames B) -> get x m' = get x m) /\
  (length fvs = length args ->
    (forall x, In x (fnames B) -> exists f' ft', get x m' = Some (Fun f' ft' fvs sfvs args) /\ (nv s <= f' < nv s')%positive /\ get f' g' <> None) /\
    (forall x y f' t1 a1 t2 a2, In x (fnames B) -> In y (fnames B) -> lifted m' x = Some (f', t1, a1) -> lifted m' y = Some (f', t2, a2) -> x = y)) /\
  (length fvs <> length args -> forall x, In x (fnames B) -> get x m' = Some (NoLiftFun fvs sfvs)) /\
  (forall y, get y g <> None -> get y g' <> None) /\
  (forall y, get y g' <> None -> get y g <> None \/ (fvs = [] /\ In y (fnames B)) \/ (nv s <= y < nv s')%positive).
Proof.
  induction B as [f t xs e B IH|]; intros m g s m' g' s' H N; cbn [add_functions] in H.
  2: { apply pair3 in H as (<- & <- & <-). cbn [fnames]. split; [lia|]. split; [reflexivity|]. split; [intros _; split; [intros x []|intros x y f' t1 a1 t2 a2 []]|].
       split; [intros _ ? []|]. split; auto. }
  destruct (add_functions B fvs sfvs args m g s) as [[m1 g1] s1] eqn:E1. cbn [fnames] in N. inversion N as [|? ? NI N']; subst.
  destruct (IH _ _ _ _ _ _ E1 N') as (I1 & I2 & I3 & I4 & I5 & I6). clear IH.
  set (g2 := if match fvs with [] => true | _ => false end then set f GFun g1 else g1) in *.
  assert (G2 : forall y, get y g1 <> None -> get y g2 <> None).
  { intros y Hy. unfold g2. destruct fvs; [|exact Hy]. rewrite get_set. destruct (Pos.eq_dec y f); [discriminate|exact Hy]. }
  assert (G3 : forall y, get y g2 <> None -> get y g1 <> None \/ (fvs = [] /\ y = f)).
  { intros y. unfold g2. destruct fvs; [|auto]. rewrite get_set. destruct (Pos.eq_dec y f) as [->|]; auto. }
  destruct (Nat.eqb_spec (length fvs) (length args)) as [EL|NL].
  - destruct (new_name s1) as [f' s2] eqn:E2. destruct (new_tag _ s2) as [ft' s3] eqn:E3. apply pair3 in H as (<- & <- & <-).
    apply new_name_inv in E2 as (-> & E2 & _). apply new_tag_nv in E3. cbn [fnames In].
    split; [lia|]. split.
    { intros x I. rewrite get_set_other by (intros ->; tauto). apply I2. tauto. }
    split; [intros _; destruct (I3 EL) as [J1 J2]; split|].
    + intros x I. destruct (Pos.eq_dec x f) as [->|D].
      * exists (nv s1), ft'. rewrite get_set_same. split; [reflexivity|]. split; [lia|]. rewrite get_set_same. discriminate.
      * destruct I as [<-|I]; [congruence|]. destruct (J1 x I) as (f1 & t1 & A1 & A2 & A3). exists f1, t1.
        rewrite get_set_other by exact D. split; [exact A1|]. split; [lia|]. rewrite get_set. destruct (Pos.eq_dec f1 (nv s1)); [discriminate|auto].
    + assert (LL : forall x f1 t1 a1, In x (fnames B) -> lifted (set f (Fun (nv s1) ft' fvs sfvs args) m1) x = Some (f1, t1, a1) ->
        lifted m1 x = Some (f1, t1, a1) /\ (f1 < nv s1)%positive).
      { intros x f1 t1 a1 I L. assert (D : x <> f) by (intros ->; contradiction). unfold lifted in L. rewrite get_set_other in L by exact D.
        split; [exact L|]. destruct (J1 x I) as (f2 & t2 & A1 & A2 & _). rewrite A1 in L. assert (f2 = f1) by congruence. lia. }
      assert (LF : forall f1 t1 a1, lifted (set f (Fun (nv s1) ft' fvs sfvs args) m1) f = Some (f1, t1, a1) -> f1 = nv s1).
      { intros f1 t1 a1 L. unfold lifted in L. rewrite get_set_same in L. congruence. }
      intros x y f1 t1 a1 t2 a2 Ix Iy Lx Ly.
      destruct Ix as [<-|Ix], Iy as [<-|Iy]; [reflexivity| | |].
      * apply LF in Lx. apply LL in Ly as [_ Ly]; [|exact Iy]. lia.
      * apply LF in Ly. apply LL in Lx as [_ Lx]; [|exact Ix]. lia.
      * apply LL in Lx as [Lx _]; [|exact Ix]. apply LL in Ly as [Ly _]; [|exact Iy]. eapply J2; eauto.
    + split; [intro; contradiction|]. split.
      * intros y Hy. rewrite get_set. destruct (Pos.eq_dec y (nv s1)); [discriminate|auto].
      * intros y. rewrite get_set. destruct (Pos.eq_dec y (nv s1)) as [->|]; [intros _; right; right; lia|].
        intro Hy. destruct (G3 y Hy) as [Hy1|[F ->]]; [|auto]. destruct (I6 y Hy1) as [|[[F I]|L]]; auto. right. right. lia.
  - apply pair3 in H as (<- & <- & <-). cbn [fnames In]. split; [exact I1|]. split.
    { intros x I. rewrite get_set_other by (intros ->; tauto). apply I2. tauto. }
    split; [intro; contradiction|]. split.
    { intros _ x I. destruct (Pos.eq_dec x f) as [->|D]; [apply get_set_same|]. rewrite get_set_other by exact D.
      destruct I as [<-|I]; [congruence|]. apply I4; auto. }
    split; [auto|]. intros y Hy. destruct (G3 y Hy) as [Hy1|[F ->]]; [|auto]. destruct (I6 y Hy1) as [|[[F I]|L]]; auto.
Qed.

(* ** Parameters for the free variables *)
Lemma rename_other fvm x : get x fvm = None -> rename fvm x = x.
Proof. unfold rename. intros ->. reflexivity. Qed.
Lemma rename_eq m m' x : get x m' = get x m -> rename m' x = rename m x.
Proof. unfold rename. intros ->. reflexivity. Qed.

Lemma add_free_vars_spec : forall args m s ys m' s', add_free_vars args m s = (ys, m', s') ->
  length ys = length args /\ NoDup ys /\ (forall y, In y ys -> (nv s <= y < nv s')%positive) /\ (nv s <= nv s')%positive /\
  (forall x, ~ In x args -> get x m' = get x m) /\
  (forall x, In x args -> exists y, get x m' = Some (FreeVar y) /\ In y ys) /\
  (forall (R : var -> val -> Prop) ws rho r, Forall2 R args ws -> set_lists ys ws rho = Some r ->
     forall a, In a args -> exists w, get (rename m' a) r = Some w /\ R a w).
Proof.
  induction args as [|a args IH]; intros m s ys m' s' H; cbn [add_free_vars] in H.
  - apply pair3 in H as (<- & <- & <-). split; [reflexivity|]. split; [constructor|]. split; [intros ? []|]. split; [lia|].
    split; [reflexivity|]. split; [intros ? []|]. intros R ws rho r _ _ x [].
  - destruct (add_free_vars args m s) as [[ys1 m1] s1] eqn:E1. destruct (new_name s1) as [y s2] eqn:E2. apply pair3 in H as (<- & <- & <-).
    apply new_name_inv in E2 as (-> & E2 & _). destruct (IH _ _ _ _ _ E1) as (I1 & I2 & I3 & I4 & I5 & I6 & I7).
    split; [cbn [length]; congruence|]. split; [constructor; [intro I; apply I3 in I; lia|exact I2]|].
    split; [intros z [<-|I]; [lia|apply I3 in I; lia]|]. split; [lia|]. split.
    { intros x I. cbn [In] in I. rewrite get_set_other by (intros ->; tauto). apply I5. tauto. }
    split.
    { intros x I. rewrite get_set. destruct (Pos.eq_dec x a) as [->|D]; [exists (nv s1); split; [reflexivity|left; reflexivity]|].
      destruct I as [<-|I]; [congruence|]. destruct (I6 x I) as (y & A & B). exists y. split; [exact A|right; exact B]. }
    intros R ws rho r F S x I. inversion F as [|? w ? ws' Rw F']; subst. cbn [set_lists] in S.
    destruct (set_lists ys1 ws' rho) as [r1|] eqn:S1; [|discriminate]. assert (r = set (nv s1) w r1) by congruence. subst r.
    destruct (Pos.eq_dec x a) as [->|D].
    + exists w. unfold rename. rewrite (get_set_same a). rewrite get_set_same. auto.
    + rewrite (rename_eq m1) by (apply get_set_other; exact D). destruct I as [<-|I]; [congruence|]. destruct (I6 x I) as (y & A & B). destruct (I7 R _ _ _ F' S1 x I) as (w' & C1 & C2).
      unfold rename in *. rewrite A in *. exists w'. split; [|exact C2]. rewrite get_set_other; [exact C1|]. apply I3 in B. lia.
Qed.

(* ** Wrappers *)
Definition all_lift (fm : FunInfoMap) (args : list var) (B : fundefs) : Prop :=
  forall x, In x (fnames B) -> exists f' ft' fvs sfvs, get x fm = Some (Fun f' ft' fvs sfvs args).
Definition all_nolift (fm : FunInfoMap) (B : fundefs) : Prop :=
  forall x, In x (fnames B) -> exists fvs sfvs, get x fm = Some (NoLiftFun fvs sfvs).

Lemma all_lift_cons fm args f t xs e B : all_lift fm args (Fcons f t xs e B) -> all_lift fm args B.
Proof. intros H x I. apply H. right. exact I. Qed.
Lemma all_nolift_cons fm f t xs e B : all_nolift fm (Fcons f t xs e B) -> all_nolift fm B.
Proof. intros H x I. apply H. right. exact I. Qed.

Lemma make_wrappers_lift fvm fm args : forall B s, all_lift fm args B -> NoDup (fnames B) ->
  exists Bw fvm' s', make_wrappers B fvm fm s = Some (Some Bw, fvm', s') /\ (nv s <= nv s')%positive /\
    (forall x, ~ In x (fnames B) -> get x fvm' = get x fvm) /\
    (forall f t xs e, find_def f B = Some (t, xs, e) ->
       exists g xs' f' ft', get f fvm' = Some (WrapperFun g) /\ lifted fm f = Some (f', ft', args) /\
         find_def g Bw = Some (t, xs', Eapp f' ft' (xs' ++ rename_lst fvm args)) /\
         length xs' = length xs /\ NoDup xs' /\ (nv s <= g < nv s')%positive /\ (forall z, In z xs' -> (nv s <= z < nv s')%positive)) /\
    (forall z, In z (fnames Bw) -> (nv s <= z < nv s')%positive).
Proof.
  induction B as [f t xs e B IH|]; intros s AL N; cbn [make_wrappers].
  2: { exists Fnil, fvm, s. split; [reflexivity|]. split; [lia|]. split; [reflexivity|]. split; [discriminate|]. intros z []. }
  destruct (AL f ltac:(left; reflexivity)) as (f' & ft' & fvs & sfvs & GF). rewrite GF. cbn [fnames] in N. inversion N as [|? ? NI N']; subst.
  destruct (new_name s) as [g s1] eqn:E1. destruct (new_names xs s1) as [xs' s2] eqn:E2.
  apply new_name_inv in E1 as (-> & E1 & _). apply new_names_spec in E2 as (X1 & X2 & X3 & X4).
  destruct (IH s2 (all_lift_cons _ _ _ _ _ _ _ AL) N') as (Bw & fvm1 & s3 & M & L & K1 & K2 & K3). rewrite M.
  eexists _, _, s3. split; [reflexivity|]. split; [lia|]. split.
  { intros x I. cbn [fnames In] in I. rewrite get_set_other by (intros ->; tauto). apply K1. tauto. }
  split.
  - intros h t0 xs0 e0 F. cbn [find_def] in F. destruct (Pos.eq_dec h f) as [->|D].
    + assert (t = t0 /\ xs = xs0 /\ e = e0) by (repeat split; congruence). destruct H as (-> & -> & ->).
      exists (nv s), xs', f', ft'. rewrite get_set_same. split; [reflexivity|]. split; [eapply lifted_get; eauto|].
      cbn [find_def]. destruct (Pos.eq_dec (nv s) (nv s)); [|congruence]. split; [reflexivity|]. split; [exact X1|]. split; [exact X2|].
      split; [lia|]. intros z I. apply X3 in I. lia.
    + destruct (K2 _ _ _ _ F) as (g & xs1 & f1 & ft1 & A1 & A2 & A3 & A4 & A5 & A6 & A7). exists g, xs1, f1, ft1.
      rewrite get_set_other by exact D. split; [exact A1|]. split; [exact A2|]. cbn [find_def]. destruct (Pos.eq_dec g (nv s)) as [->|]; [lia|].
      split; [exact A3|]. split; [exact A4|]. split; [exact A5|]. split; [lia|]. intros z I. apply A7 in I. lia.
  - intros z [<-|I]; [lia|]. apply K3 in I. lia.
Qed.
Lemma make_wrappers_nolift fvm fm B s : all_nolift fm B -> B <> Fnil -> make_wrappers B fvm fm s = Some (None, fvm, s).
Proof.
  destruct B as [f t xs e B|]; [|congruence]. intros AL _. cbn [make_wrappers].
  destruct (AL f ltac:(left; reflexivity)) as (a & b & ->). reflexivity.
Qed.

(* ** Inversion of the pass *)
Section Sim.
  Variables max_args max_push : nat.
  Variable lift_dec : list var -> list var -> bool.
  Notation ll := (exp_lambda_lift max_args max_push lift_dec).
  Notation llf := (fundefs_lambda_lift max_args max_push lift_dec).

  Fixpoint ll_pats (l : list (ctor_tag * exp)) scope fvm fm g (s : lst) : option (list (ctor_tag * exp) * lst) :=
    match l with
    | [] => Some ([], s)
    | (c, e) :: P =>
        match ll e scope fvm fm g s with
        | Some (e', s) => match ll_pats P scope fvm fm g s with Some (P', s) => Some ((c, e') :: P', s) | None => None end
        | None => None
        end
    end.
  Lemma ll_case x l scope fvm fm g s :
    ll (Ecase x l) scope fvm fm g s = match ll_pats l scope fvm fm g s with Some (P', s) => Some (Ecase (rename fvm x) P', s) | None => None end.
  Proof.
    cbn [exp_lambda_lift].
    match goal with |- match ?F l s with _ => _ end = _ => assert (E : forall l s, F l s = ll_pats l scope fvm fm g s) end.
    { clear. induction l as [|[y e] l IH]; intro s; cbn [ll_pats]; [reflexivity|].
      destruct (ll e scope fvm fm g s) as [[e1 s1]|]; [|reflexivity]. rewrite IH. reflexivity. }
    rewrite E. reflexivity.
  Qed.

  Ltac dopt H :=
    repeat match type of H with
    | (match ?A with _ => _ end) = _ => first [is_var A; destruct A|let E := fresh "E" in destruct A as [?|] eqn:E; [|discriminate H]|let E := fresh "E" in destruct A as [? ?] eqn:E]
    end.
  Lemma some2 A B (a a' : A) (b b' : B) : Some (a, b) = Some (a', b') -> a = a' /\ b = b'.
  Proof. intro H. injection H. auto. Qed.
  Lemma some3 A B C (a a' : A) (b b' : B) (c c' : C) : Some (a, b, c) = Some (a', b', c') -> a = a' /\ b = b' /\ c = c'.
  Proof. intro H. injection H. auto. Qed.
  Ltac ex_all := repeat match goal with
    | |- ex _ => eexists
    | |- ?A /\ _ => split; [first [eassumption|reflexivity]|]
    end; first [eassumption|reflexivity].
  Ltac inv2 H := dopt H; apply some2 in H; destruct H as [? ?]; subst; ex_all.

  Lemma ll_constr x t ys e sc fvm fm g s e1 s1 : ll (Econstr x t ys e) sc fvm fm g s = Some (e1, s1) ->
    exists e', ll e (sadd x sc) fvm fm g s = Some (e', s1) /\ e1 = Econstr x t (rename_lst fvm ys) e'.
  Proof. cbn [exp_lambda_lift]. intro H. inv2 H. Qed.
  Lemma ll_case_inv x l sc fvm fm g s e1 s1 : ll (Ecase x l) sc fvm fm g s = Some (e1, s1) ->
    exists l', ll_pats l sc fvm fm g s = Some (l', s1) /\ e1 = Ecase (rename fvm x) l'.
  Proof. rewrite ll_case. intro H. inv2 H. Qed.
  Lemma ll_proj x t n y e sc fvm fm g s e1 s1 : ll (Eproj x t n y e) sc fvm fm g s = Some (e1, s1) ->
    exists e', ll e (sadd x sc) fvm fm g s = Some (e', s1) /\ e1 = Eproj x t n (rename fvm y) e'.
  Proof. cbn [exp_lambda_lift]. intro H. inv2 H. Qed.
  Lemma ll_prim_val x p e sc fvm fm g s e1 s1 : ll (Eprim_val x p e) sc fvm fm g s = Some (e1, s1) ->
    exists e', ll e (sadd x sc) fvm fm g s = Some (e', s1) /\ e1 = Eprim_val x p e'.
  Proof. cbn [exp_lambda_lift]. intro H. inv2 H. Qed.
  Lemma ll_prim x p ys e sc fvm fm g s e1 s1 : ll (Eprim x p ys e) sc fvm fm g s = Some (e1, s1) ->
    exists e', ll e (sadd x sc) fvm fm g s = Some (e', s1) /\ e1 = Eprim x p (rename_lst fvm ys) e'.
  Proof. cbn [exp_lambda_lift]. intro H. inv2 H. Qed.
  Lemma ll_halt x sc fvm fm g s e1 s1 : ll (Ehalt x) sc fvm fm g s = Some (e1, s1) -> e1 = Ehalt (rename fvm x) /\ s1 = s.
  Proof. cbn [exp_lambda_lift]. intro H. apply some2 in H as [<- <-]. auto. Qed.

  (* the target of a call *)
  Definition call_to (fvm : VarInfoMap) (fm : FunInfoMap) (f : var) (t : fun_tag) (ys : list var) (h : var) (t' : fun_tag) (zs : list var) : Prop :=
    (h = rename fvm f /\ t' = t /\ zs = rename_lst fvm ys) \/
    (exists f' args, lifted fm f = Some (f', t', args) /\ h = rename fvm f' /\ zs = rename_lst fvm (ys ++ args)).
  Lemma ll_app f t ys sc fvm fm g s e1 s1 : ll (Eapp f t ys) sc fvm fm g s = Some (e1, s1) ->
    exists h t' zs, e1 = Eapp h t' zs /\ s1 = s /\ call_to fvm fm f t ys h t' zs.
  Proof.
    cbn [exp_lambda_lift]. intro H. destruct (get f fm) as [[f' ft' fvs sfvs args|? ?]|] eqn:E; [destruct (lift_dec args sc)| |];
      apply some2 in H as [<- <-]; eexists _, _, _; (split; [reflexivity|]); (split; [reflexivity|]).
    - right. exists f', args. split; [eapply lifted_get; eauto|]. auto.
    - left. auto.
    - left. auto.
    - left. auto.
  Qed.
  Lemma ll_letapp x f t ys e sc fvm fm g s e1 s1 : ll (Eletapp x f t ys e) sc fvm fm g s = Some (e1, s1) ->
    exists e' h t' zs, ll e (sadd x sc) fvm fm g s = Some (e', s1) /\ e1 = Eletapp x h t' zs e' /\ call_to fvm fm f t ys h t' zs.
  Proof.
    cbn [exp_lambda_lift]. intro H. destruct (ll e (sadd x sc) fvm fm g s) as [[e' s']|]; [|discriminate].
    destruct (get f fm) as [[f' ft' fvs sfvs args|? ?]|] eqn:E; [destruct (lift_dec args sc)| |];
      apply some2 in H as [<- <-]; eexists e', _, _, _; (split; [reflexivity|]); (split; [reflexivity|]).
    - right. exists f', args. split; [eapply lifted_get; eauto|]. auto.
    - left. auto.
    - left. auto.
    - left. auto.
  Qed.
  Lemma ll_fun_eq B e sc fvm fm g s : ll (Efun B e) sc fvm fm g s =
    let sfvs := lift_fvs lift_dec fm g B in
    let fvs := elements sfvs in
    let '(fm', gfuns', s) := add_functions B fvs sfvs (lifted_vars max_args max_push fvs B) fm g s in
    match llf B B (fundefs_names B) fvm fm' gfuns' s with
    | Some (B', s) =>
        match make_wrappers B fvm fm' s with
        | Some (ob, fvm', s) =>
            match ll e (union_list sc (fundefs_names B)) fvm' fm' gfuns' s with
            | Some (e', s) => match ob with Some Bw => Some (Efun B' (Efun Bw e'), s) | None => Some (Efun B' e', s) end
            | None => None
            end
        | None => None
        end
    | None => None
    end.
  Proof. reflexivity. Qed.
  Lemma llf_cons_eq f t xs e B B0 nm fvm fm g s : llf (Fcons f t xs e B) B0 nm fvm fm g s =
    match get f fm with
    | Some (Fun f' ft' fvs sfvs args) =>
        let '(ys, fvm', s) := add_free_vars args fvm s in
        match make_wrappers B0 fvm' fm s with
        | Some (ob, fvm'', s) =>
            match ll e (union_list (union_list sfvs xs) nm) fvm'' fm g s with
            | Some (e', s) =>
                match llf B B0 nm fvm fm g s with
                | Some (B', s) => match ob with Some Bw => Some (Fcons f' ft' (xs ++ ys) (Efun Bw e') B', s) | None => None end
                | None => None
                end
            | None => None
            end
        | None => None
        end
    | Some (NoLiftFun fvs sfvs) =>
        match ll e (union_list (union_list sfvs xs) nm) fvm fm g s with
        | Some (e', s) => match llf B B0 nm fvm fm g s with Some (B', s) => Some (Fcons f t xs e' B', s) | None => None end
        | None => None
        end
    | None => None
    end.
  Proof. reflexivity. Qed.
  Lemma ll_fun B e sc fvm fm g s e1 s1 : ll (Efun B e) sc fvm fm g s = Some (e1, s1) ->
    exists sfvs fvs lfvs fm' g' sa B' sb ob fvm' sd e',
      sfvs = lift_fvs lift_dec fm g B /\ fvs = elements sfvs /\ lfvs = lifted_vars max_args max_push fvs B /\
      add_functions B fvs sfvs lfvs fm g s = (fm', g', sa) /\
      llf B B (fundefs_names B) fvm fm' g' sa = Some (B', sb) /\
      make_wrappers B fvm fm' sb = Some (ob, fvm', sd) /\
      ll e (union_list sc (fundefs_names B)) fvm' fm' g' sd = Some (e', s1) /\
      e1 = match ob with Some Bw => Efun B' (Efun Bw e') | None => Efun B' e' end.
  Proof.
    rewrite ll_fun_eq. cbv zeta. intro H.
    destruct (add_functions B _ _ _ fm g s) as [[fm' g'] sa] eqn:E1. 
    destruct (llf B B _ fvm fm' g' sa) as [[B' sb]|] eqn:E2; [|discriminate].
    destruct (make_wrappers B fvm fm' sb) as [[[ob fvm'] sd]|] eqn:E3; [|discriminate].
    destruct (ll e _ fvm' fm' g' sd) as [[e' s']|] eqn:E4; [|discriminate].
    destruct ob; apply some2 in H as [<- <-]; eexists _, _, _, fm', g', sa, B', sb, _, fvm', sd, e'; repeat (split; [first [reflexivity|eassumption]|]); reflexivity.
  Qed.
  Lemma pats_cons y e l sc fvm fm g s l' s' : ll_pats ((y, e) :: l) sc fvm fm g s = Some (l', s') ->
    exists e1 s1 l1, ll e sc fvm fm g s = Some (e1, s1) /\ ll_pats l sc fvm fm g s1 = Some (l1, s') /\ l' = (y, e1) :: l1.
  Proof. cbn [ll_pats]. intro H. inv2 H. Qed.
  Lemma llf_cons f t xs e B B0 nm fvm fm g s B1 s1 : llf (Fcons f t xs e B) B0 nm fvm fm g s = Some (B1, s1) ->
    (exists f' ft' fvs sfvs args ys fvm1 sa Bw fvm2 sb e' sc B',
       get f fm = Some (Fun f' ft' fvs sfvs args) /\
       add_free_vars args fvm s = (ys, fvm1, sa) /\ make_wrappers B0 fvm1 fm sa = Some (Some Bw, fvm2, sb) /\
       ll e (union_list (union_list sfvs xs) nm) fvm2 fm g sb = Some (e', sc) /\
       llf B B0 nm fvm fm g sc = Some (B', s1) /\ B1 = Fcons f' ft' (xs ++ ys) (Efun Bw e') B') \/
    (exists fvs sfvs e' sa B', get f fm = Some (NoLiftFun fvs sfvs) /\
       ll e (union_list (union_list sfvs xs) nm) fvm fm g s = Some (e', sa) /\
       llf B B0 nm fvm fm g sa = Some (B', s1) /\ B1 = Fcons f t xs e' B').
  Proof.
    rewrite llf_cons_eq. intro H. destruct (get f fm) as [[f' ft' fvs sfvs args|fvs sfvs]|] eqn:EG; [left|right|discriminate].
    - destruct (add_free_vars args fvm s) as [[ys fvm1] sa] eqn:E1.
      destruct (make_wrappers B0 fvm1 fm sa) as [[[ob fvm2] sb]|] eqn:E2; [|discriminate].
      destruct (ll e _ fvm2 fm g sb) as [[e' sc]|] eqn:E3; [|discriminate].
      destruct (llf B B0 nm fvm fm g sc) as [[B' sd]|] eqn:E4; [|discriminate]. destruct ob as [Bw|]; [|discriminate].
      apply some2 in H as [<- <-]. ex_all.
    - destruct (ll e _ fvm fm g s) as [[e' sc]|] eqn:E3; [|discriminate].
      destruct (llf B B0 nm fvm fm g sc) as [[B' sd]|] eqn:E4; [|discriminate].
      apply some2 in H as [<- <-]. ex_all.
  Qed.
  Lemma llf_nil B0 nm fvm fm g s B1 s1 : llf Fnil B0 nm fvm fm g s = Some (B1, s1) -> B1 = Fnil /\ s1 = s.
  Proof. cbn [fundefs_lambda_lift]. intro H. apply some2 in H as [<- <-]. auto. Qed.

  (* ** The counter only grows *)
  Lemma add_functions_le fvs sfvs args : forall B m g s m' g' s', add_functions B fvs sfvs args m g s = (m', g', s') -> (nv s <= nv s')%positive.
  Proof.
    induction B as [f t xs e B IH|]; intros m g s m' g' s' H; cbn [add_functions] in H.
    - destruct (add_functions B fvs sfvs args m g s) as [[m1 g1] s1] eqn:E1. apply IH in E1.
      destruct (Nat.eqb (length fvs) (length args)); [|apply pair3 in H as (_ & _ & <-); exact E1].
      destruct (new_name s1) as [f' s2] eqn:E2. destruct (new_tag _ s2) as [ft' s3] eqn:E3. apply pair3 in H as (_ & _ & <-).
      apply new_name_inv in E2 as (_ & E2 & _). apply new_tag_nv in E3. lia.
    - apply pair3 in H as (_ & _ & <-). lia.
  Qed.
  Lemma make_wrappers_le fvm fm : forall B s ob fvm' s', make_wrappers B fvm fm s = Some (ob, fvm', s') -> (nv s <= nv s')%positive.
  Proof.
    induction B as [f t xs e B IH|]; intros s ob fvm' s' H; cbn [make_wrappers] in H.
    - destruct (get f fm) as [[f' ft' fvs sfvs args|? ?]|]; [|apply some3 in H as (_ & _ & <-); lia|discriminate].
      destruct (new_name s) as [g s1] eqn:E1. destruct (new_names xs s1) as [xs' s2] eqn:E2.
      destruct (make_wrappers B fvm fm s2) as [[[ob1 fvm1] s3]|] eqn:E3; [|discriminate]. apply some3 in H as (_ & _ & <-).
      apply new_name_inv in E1 as (_ & E1 & _). apply new_names_spec in E2 as (_ & _ & _ & E2). apply IH in E3. lia.
    - apply some3 in H as (_ & _ & <-). lia.
  Qed.
  Lemma ll_le :
    (forall e sc fvm fm g s e1 s1, ll e sc fvm fm g s = Some (e1, s1) -> (nv s <= nv s1)%positive) /\
    (forall B B0 nm fvm fm g s B1 s1, llf B B0 nm fvm fm g s = Some (B1, s1) -> (nv s <= nv s1)%positive).
  Proof.
    apply exp_fundefs_ind.
    - intros x t ys e IH sc fvm fm g s e1 s1 H. apply ll_constr in H as (e' & H & _). eauto.
    - intros x l IH sc fvm fm g s e1 s1 H. apply ll_case_inv in H as (l' & H & _). revert s l' H.
      induction IH as [|[y e] l IH1 _ IH2]; intros s l' H.
      + cbn [ll_pats] in H. apply some2 in H as [_ <-]. lia.
      + apply pats_cons in H as (e2 & s2 & l2 & A & B & _). apply IH1 in A. apply IH2 in B. lia.
    - intros x t n y e IH sc fvm fm g s e1 s1 H. apply ll_proj in H as (e' & H & _). eauto.
    - intros x f t ys e IH sc fvm fm g s e1 s1 H. apply ll_letapp in H as (e' & h & t' & zs & H & _). eauto.
    - intros B e IHB IH sc fvm fm g s e1 s1 H.
      apply ll_fun in H as (sfvs & fvs & lfvs & fm' & g' & sa & B' & sb & ob & fvm' & sd & e' & _ & _ & _ & H1 & H2 & H3 & H4 & _).
      apply add_functions_le in H1. apply IHB in H2. apply make_wrappers_le in H3. apply IH in H4. lia.
    - intros f t ys sc fvm fm g s e1 s1 H. apply ll_app in H as (h & t' & zs & _ & -> & _). lia.
    - intros x p e IH sc fvm fm g s e1 s1 H. apply ll_prim_val in H as (e' & H & _). eauto.
    - intros x p ys e IH sc fvm fm g s e1 s1 H. apply ll_prim in H as (e' & H & _). eauto.
    - intros x sc fvm fm g s e1 s1 H. apply ll_halt in H as [_ ->]. lia.
    - intros f t xs e B IH IHB B0 nm fvm fm g s B1 s1 H.
      apply llf_cons in H as [(f' & ft' & fvs & sfvs & args & ys & fvm1 & sa & Bw & fvm2 & sb & e' & sc & B' & _ & H1 & H2 & H3 & H4 & _)|
        (fvs & sfvs & e' & sa & B' & _ & H1 & H2 & _)].
      + apply add_free_vars_spec in H1 as (_ & _ & _ & H1 & _). apply make_wrappers_le in H2. apply IH in H3. apply IHB in H4. lia.
      + apply IH in H1. apply IHB in H2. lia.
    - intros B0 nm fvm fm g s B1 s1 H. apply llf_nil in H as [_ ->]. lia.
  Qed.
  Lemma pats_le l sc fvm fm g : forall s l' s', ll_pats l sc fvm fm g s = Some (l', s') -> (nv s <= nv s')%positive.
  Proof.
    induction l as [|[y e] l IH]; intros s l' s' H.
    - cbn [ll_pats] in H. apply some2 in H as [_ <-]. lia.
    - apply pats_cons in H as (e2 & s2 & l2 & A & B & _). apply (proj1 ll_le) in A. apply IH in B. lia.
  Qed.

  (* a branch, a function after the pass *)
  Lemma pats_find sc fvm fm g t : forall l s l' s' e, ll_pats l sc fvm fm g s = Some (l', s') -> findtag l t = Some e ->
    exists sa e1 sb, ll e sc fvm fm g sa = Some (e1, sb) /\ (nv s <= nv sa)%positive /\ findtag l' t = Some e1.
  Proof.
    induction l as [|[y a] l IH]; intros s l' s' e H F; cbn [findtag] in F; [discriminate|].
    apply pats_cons in H as (e2 & s2 & l2 & A & B & ->). cbn [findtag]. destruct (Pos.eq_dec y t).
    - assert (a = e) by congruence. subst a. exists s, e2, s2. split; [exact A|]. split; [lia|reflexivity].
    - destruct (IH _ _ _ _ B F) as (sa & e1 & sb & C1 & C2 & C3). exists sa, e1, sb.
      apply (proj1 ll_le) in A. split; [exact C1|]. split; [lia|exact C3].
  Qed.
  Lemma pats_tags sc fvm fm g cenv t : forall l s l' s', ll_pats l sc fvm fm g s = Some (l', s') ->
    caseConsistent_f cenv l' t = caseConsistent_f cenv l t.
  Proof.
    induction l as [|[y a] l IH]; intros s l' s' H.
    - cbn [ll_pats] in H. apply some2 in H as [<- _]. reflexivity.
    - apply pats_cons in H as (e2 & s2 & l2 & A & B & ->). cbn [caseConsistent_f]. rewrite (IH _ _ _ B). reflexivity.
  Qed.
  Lemma llf_fnames args B0 nm fvm fm g : forall B s B1 s1, llf B B0 nm fvm fm g s = Some (B1, s1) -> all_lift fm args B ->
    (forall z, In z (fnames B1) <-> exists x ft', In x (fnames B) /\ lifted fm x = Some (z, ft', args)).
  Proof.
    induction B as [f t xs e B IH|]; intros s B1 s1 H AL z.
    - apply llf_cons in H as [(f' & ft' & fvs & sfvs & a & ys & fvm1 & sa & Bw & fvm2 & sb & e' & sc & B' & G & H1 & H2 & H3 & H4 & ->)|
        (fvs & sfvs & e' & sa & B' & G & _)].
      2: { destruct (AL f ltac:(left; reflexivity)) as (? & ? & ? & ? & G'). congruence. }
      destruct (AL f ltac:(left; reflexivity)) as (q1 & q2 & q3 & q4 & G'). rewrite G in G'.
      assert (a = args) by congruence. subst a. clear G'.
      cbn [fnames In]. rewrite (IH _ _ _ H4 (all_lift_cons _ _ _ _ _ _ _ AL) z). split.
      + intros [<-|(x & t0 & I & L)]; [exists f, ft'; split; [auto|eapply lifted_get; eauto]|exists x, t0; auto].
      + intros (x & t0 & [<-|I] & L); [left|right; eauto]. rewrite (lifted_get _ _ _ _ _ _ _ G) in L. congruence.
    - apply llf_nil in H as [-> _]. cbn [fnames In]. split; [intros []|intros (x & t0 & [] & _)].
  Qed.
  Lemma llf_find args B0 nm fvm fm g f t xs e : forall B s B1 s1, llf B B0 nm fvm fm g s = Some (B1, s1) -> all_lift fm args B ->
    (forall x y f' t1 a1 t2 a2, In x (fnames B) -> In y (fnames B) -> lifted fm x = Some (f', t1, a1) -> lifted fm y = Some (f', t2, a2) -> x = y) ->
    find_def f B = Some (t, xs, e) ->
    exists f' ft' fvs sfvs ys fvm1 sa Bw fvm2 sb e' sc sd,
       get f fm = Some (Fun f' ft' fvs sfvs args) /\ (nv s <= nv sa)%positive /\
       add_free_vars args fvm sa = (ys, fvm1, sb) /\ make_wrappers B0 fvm1 fm sb = Some (Some Bw, fvm2, sc) /\
       ll e (union_list (union_list sfvs xs) nm) fvm2 fm g sc = Some (e', sd) /\
       find_def f' B1 = Some (ft', xs ++ ys, Efun Bw e').
  Proof.
    induction B as [h t' xs' e' B IH|]; intros s B1 s1 H AL INJ F; cbn [find_def] in F; [|discriminate].
    apply llf_cons in H as [(f' & ft' & fvs & sfvs & a & ys & fvm1 & sa & Bw & fvm2 & sb & e0 & sc & B' & G & H1 & H2 & H3 & H4 & ->)|
        (fvs & sfvs & e0 & sa & B' & G & _)].
    2: { destruct (AL h ltac:(left; reflexivity)) as (? & ? & ? & ? & G'). congruence. }
    destruct (AL h ltac:(left; reflexivity)) as (q1 & q2 & q3 & q4 & G'). rewrite G in G'.
    assert (a = args) by congruence. subst a. clear G'. cbn [find_def].
    destruct (Pos.eq_dec f h) as [->|D].
    - assert (t' = t /\ xs' = xs /\ e' = e) by (repeat split; congruence). destruct H as (-> & -> & ->).
      exists f', ft', fvs, sfvs, ys, fvm1, s, Bw, fvm2, sa, e0, sb, sc. destruct (Pos.eq_dec f' f'); [|congruence].
      repeat (split; [first [eassumption|reflexivity|lia]|]). reflexivity.
    - destruct (IH _ _ _ H4 (all_lift_cons _ _ _ _ _ _ _ AL)) as (f2 & ft2 & fvs2 & sfvs2 & ys2 & fvm12 & sa2 & Bw2 & fvm22 & sb2 & e2 & sc2 & sd2 & A1 & A2 & A3 & A4 & A5 & A6);
        [intros u v z t1 a1 t2 a2 Ix Iy; apply INJ; right; assumption|exact F|].
      exists f2, ft2, fvs2, sfvs2, ys2, fvm12, sa2, Bw2, fvm22, sb2, e2, sc2, sd2.
      apply add_free_vars_spec in H1 as (_ & _ & _ & H1 & _). apply make_wrappers_le in H2. apply (proj1 ll_le) in H3.
      destruct (Pos.eq_dec f2 f') as [->|].
      + exfalso. apply D. eapply INJ; [right| left; reflexivity|eapply lifted_get; exact A1|eapply lifted_get; exact G].
        clear -F. induction B as [h t' xs' e' B IH|]; cbn [find_def] in F; [|discriminate]. cbn [fnames In].
        destruct (Pos.eq_dec f h); auto.
      + split; [exact A1|]. split; [lia|]. auto.
  Qed.
  Lemma llf_nl_fnames B0 nm fvm fm g : forall B s B1 s1, llf B B0 nm fvm fm g s = Some (B1, s1) -> all_nolift fm B -> fnames B1 = fnames B.
  Proof.
    induction B as [f t xs e B IH|]; intros s B1 s1 H AL.
    - apply llf_cons in H as [(f' & ft' & fvs & sfvs & a & ys & fvm1 & sa & Bw & fvm2 & sb & e' & sc & B' & G & _)|
        (fvs & sfvs & e' & sa & B' & G & H1 & H2 & ->)].
      + destruct (AL f ltac:(left; reflexivity)) as (? & ? & G'). congruence.
      + cbn [fnames]. f_equal. eapply IH; [exact H2|eapply all_nolift_cons; eauto].
    - apply llf_nil in H as [-> _]. reflexivity.
  Qed.
  Lemma llf_nl_find B0 nm fvm fm g f t xs e : forall B s B1 s1, llf B B0 nm fvm fm g s = Some (B1, s1) -> all_nolift fm B ->
    find_def f B = Some (t, xs, e) ->
    exists sc sa e' sb, (nv s <= nv sa)%positive /\ ll e sc fvm fm g sa = Some (e', sb) /\ find_def f B1 = Some (t, xs, e').
  Proof.
    induction B as [h t' xs' e' B IH|]; intros s B1 s1 H AL F; cbn [find_def] in F; [|discriminate].
    apply llf_cons in H as [(f' & ft' & fvs & sfvs & a & ys & fvm1 & sa & Bw & fvm2 & sb & e0 & sc & B' & G & _)|
        (fvs & sfvs & e0 & sa & B' & G & H1 & H2 & ->)].
    { destruct (AL h ltac:(left; reflexivity)) as (? & ? & G'). congruence. }
    cbn [find_def]. destruct (Pos.eq_dec f h) as [->|D].
    - assert (t' = t /\ xs' = xs /\ e' = e) by (repeat split; congruence). destruct H as (-> & -> & ->).
      eexists _, s, e0, sa. split; [lia|]. split; [exact H1|reflexivity].
    - destruct (IH _ _ _ H2 (all_nolift_cons _ _ _ _ _ _ AL) F) as (sc & sa2 & e2 & sb2 & A1 & A2 & A3).
      exists sc, sa2, e2, sb2. apply (proj1 ll_le) in H1. split; [lia|]. auto.
  Qed.

  (* ** True free variables come from free variables *)
  Definition reaches (fm : FunInfoMap) (F : var -> Prop) (x : var) : Prop :=
    exists h f' ft' args, F h /\ lifted fm h = Some (f', ft', args) /\ (x = f' \/ In x args).
  Lemma reaches_mono fm (F F' : var -> Prop) x : (forall h, get h fm <> None -> F h -> F' h) -> reaches fm F x -> reaches fm F' x.
  Proof.
    intros M (h & f' & ft' & args & H1 & H2 & H3). exists h, f', ft', args. split; [|auto]. apply M; [|exact H1].
    apply lifted_inv in H2 as (? & ? & E). congruence.
  Qed.
  Lemma call_fv_sound fm f sc fvset x : In x (call_fv lift_dec fm f sc fvset) ->
    In x fvset \/ (~ In x sc /\ x = f) \/ reaches fm (fun h => h = f) x.
  Proof.
    unfold call_fv. intro I.
    assert (ADD : In x (if mem f sc then fvset else sadd f fvset) -> In x fvset \/ ~ In x sc /\ x = f).
    { destruct (mem f sc) eqn:E; [auto|]. rewrite sadd_In. apply mem_not_In in E. intros [->|]; auto. }
    destruct (get f fm) as [[f' ft' fvs sfvs lfvs|? ?]|] eqn:E; [destruct (lift_dec lfvs fvset)| |]; try (apply ADD in I; tauto).
    apply union_list_In in I. destruct I as [I|I]; [auto|]. right. right. exists f, f', ft', lfvs. split; [reflexivity|].
    split; [eapply lifted_get; eauto|]. destruct I as [<-|I]; auto.
  Qed.
  Lemma true_fv_fun_eq fm B e sc fvset : exp_true_fv_aux lift_dec fm (Efun B e) sc fvset =
    let '(sc', fvset') := fundefs_true_fv_aux lift_dec fm B sc fvset in exp_true_fv_aux lift_dec fm e sc' fvset'.
  Proof. reflexivity. Qed.
  Lemma true_fv_cons_eq fm f t ys e B sc fvset : fundefs_true_fv_aux lift_dec fm (Fcons f t ys e B) sc fvset =
    let (sc', fvset') := fundefs_true_fv_aux lift_dec fm B (sadd f sc) fvset in
    (sc', exp_true_fv_aux lift_dec fm e (union_list sc' ys) fvset').
  Proof. reflexivity. Qed.
  Lemma true_fv_sound fm :
    (forall e sc fvset x, (forall y, In y (bv e) -> get y fm = None) -> In x (exp_true_fv_aux lift_dec fm e sc fvset) ->
       In x fvset \/ (~ In x sc /\ free x e) \/ reaches fm (fun h => free h e) x) /\
    (forall B sc fvset, (forall y, In y (bv_funs B) -> get y fm = None) ->
       (forall x, In x (fst (fundefs_true_fv_aux lift_dec fm B sc fvset)) <-> In x sc \/ In x (fnames B)) /\
       (forall x, In x (snd (fundefs_true_fv_aux lift_dec fm B sc fvset)) ->
          In x fvset \/ (~ In x sc /\ ~ In x (fnames B) /\ free_body x B) \/ reaches fm (fun h => free_body h B) x)).
  Proof.
    assert (ADD : forall y scope s x,
      In x (if mem y scope then s else sadd y s) <-> In x s \/ (~ In x scope /\ x = y)).
    { intros y scope s x. destruct (mem y scope) eqn:E.
      - apply mem_In in E. split; [auto|]. intros [|[N ->]]; tauto.
      - apply mem_not_In in E. rewrite sadd_In. split; [intros [->|]; auto|]. intros [|[N ->]]; auto. }
    apply exp_fundefs_ind.
    - intros y t ys e IH sc fvset x D I. cbn [exp_true_fv_aux] in I. cbn [bv] in D. apply IH in I; [|intros z J; apply D; right; exact J].
      rewrite add_list_In, sadd_In in I. destruct I as [[I|I]|[I|I]]; [tauto|cbn [free]; tauto|cbn [free]; intuition congruence|].
      right. right. eapply reaches_mono; [|exact I]. intros h N F. cbn [free]. right. split; [|exact F]. intros ->. apply N, D. left. reflexivity.
    - intros y l F sc fvset x D I. cbn [exp_true_fv_aux] in I. rewrite ADD in I.
      assert (G : forall s, In x (fold_left (fun fvs p => exp_true_fv_aux lift_dec fm (snd p) sc fvs) l s) ->
                In x s \/ (~ In x sc /\ free_case x l) \/ reaches fm (fun h => free_case h l) x).
      { cbn [bv] in D. clear -F D. induction F as [|p l Hp F IH]; intros s I; cbn [fold_left free_case] in *; [auto|].
        apply IH in I; [|intros y J; apply D; cbn [flat_map]; apply in_or_app; auto].
        destruct I as [I|[I|I]]; [|tauto|right; right; eapply reaches_mono; [|exact I]; cbn; auto].
        apply Hp in I; [|intros y J; apply D; cbn [flat_map]; apply in_or_app; auto].
        destruct I as [I|[I|I]]; [tauto|tauto|right; right; eapply reaches_mono; [|exact I]; cbn; auto]. }
      destruct I as [I|[I ->]]; [|right; left; split; [exact I|left; reflexivity]].
      apply G in I. destruct I as [I|[[I J]|I]]; [auto|right; left; split; [exact I|apply free_Ecase; auto]|].
      right. right. eapply reaches_mono; [|exact I]. intros h N H. apply free_Ecase. auto.
    - intros y t n z e IH sc fvset x D I. cbn [exp_true_fv_aux] in I. cbn [bv] in D. apply IH in I; [|intros w J; apply D; right; exact J].
      rewrite ADD, sadd_In in I. destruct I as [[I|I]|[I|I]]; [tauto|cbn [free]; tauto|cbn [free]; intuition congruence|].
      right. right. eapply reaches_mono; [|exact I]. intros h N F. cbn [free]. right. split; [|exact F]. intros ->. apply N, D. left. reflexivity.
    - intros y f t ys e IH sc fvset x D I. cbn [exp_true_fv_aux] in I. cbn [bv] in D. apply IH in I; [|intros w J; apply D; right; exact J].
      rewrite add_list_In, sadd_In in I. destruct I as [[I|I]|[I|I]].
      + apply call_fv_sound in I. destruct I as [I|[[I ->]|I]]; [auto|right; left; split; [exact I|cbn [free]; cbn [In]; auto]|].
        right. right. eapply reaches_mono; [|exact I]. intros h N ->. cbn [free]. cbn [In]. auto.
      + right. left. split; [tauto|]. cbn [free]. cbn [In]. tauto.
      + right. left. split; [tauto|]. cbn [free]. right. right. split; [|tauto]. intros ->. tauto.
      + right. right. eapply reaches_mono; [|exact I]. intros h N F. cbn [free]. right. right. split; [|exact F]. intros ->. apply N, D. left. reflexivity.
    - intros B e IHB IH sc fvset x D I. rewrite true_fv_fun_eq in I. cbn [bv] in D.
      destruct (IHB sc fvset ltac:(intros z J; apply D; apply in_or_app; auto)) as [B1 B2].
      destruct (fundefs_true_fv_aux lift_dec fm B sc fvset) as [sc' fvset']. cbn [fst snd] in *.
      apply IH in I; [|intros z J; apply D; apply in_or_app; auto].
      assert (FN : forall h, get h fm <> None -> ~ In h (fnames B)).
      { intros h N J. apply N, D. apply in_or_app. left. apply fnames_bv. exact J. }
      destruct I as [I|[[I J]|I]].
      + apply B2 in I. destruct I as [I|[I|I]]; [auto|right; left; split; [tauto|]; cbn [free]; tauto|].
        right. right. eapply reaches_mono; [|exact I]. intros h N F. cbn [free]. split; auto.
      + rewrite B1 in I. right. left. split; [tauto|]. cbn [free]. tauto.
      + right. right. eapply reaches_mono; [|exact I]. intros h N F. cbn [free]. split; auto.
    - intros f t ys sc fvset x D I. cbn [exp_true_fv_aux] in I. rewrite add_list_In in I. destruct I as [I|I].
      + apply call_fv_sound in I. destruct I as [I|[[I ->]|I]]; [auto|right; left; split; [exact I|cbn [free]; auto]|].
        right. right. eapply reaches_mono; [|exact I]. intros h N ->. cbn [free]. auto.
      + right. left. cbn [free]. tauto.
    - intros y p e IH sc fvset x D I. cbn [exp_true_fv_aux] in I. cbn [bv] in D. apply IH in I; [|intros w J; apply D; right; exact J].
      rewrite sadd_In in I. destruct I as [I|[I|I]]; [tauto|cbn [free]; intuition congruence|].
      right. right. eapply reaches_mono; [|exact I]. intros h N F. cbn [free]. split; [|exact F]. intros ->. apply N, D. left. reflexivity.
    - intros y p ys e IH sc fvset x D I. cbn [exp_true_fv_aux] in I. cbn [bv] in D. apply IH in I; [|intros w J; apply D; right; exact J].
      rewrite add_list_In, sadd_In in I. destruct I as [[I|I]|[I|I]]; [tauto|cbn [free]; tauto|cbn [free]; intuition congruence|].
      right. right. eapply reaches_mono; [|exact I]. intros h N F. cbn [free]. right. split; [|exact F]. intros ->. apply N, D. left. reflexivity.
    - intros y sc fvset x D I. cbn [exp_true_fv_aux] in I. rewrite ADD in I. cbn [free]. tauto.
    - intros f t xs e B IH IHB sc fvset D. cbn [bv_funs] in D.
      destruct (IHB (sadd f sc) fvset) as [B1 B2].
      { intros y J. apply D. right. apply in_or_app. right. apply in_or_app. auto. }
      rewrite true_fv_cons_eq. destruct (fundefs_true_fv_aux lift_dec fm B (sadd f sc) fvset) as [sc' fvset']. cbn [fst snd] in *. split.
      + intro x. rewrite B1, sadd_In. cbn [fnames In]. intuition congruence.
      + intros x I. apply IH in I; [|intros y J; apply D; right; apply in_or_app; right; apply in_or_app; auto].
        rewrite union_list_In, B1, sadd_In in I. cbn [fnames free_body In]. destruct I as [I|[I|I]].
        * apply B2 in I. rewrite sadd_In in I. destruct I as [I|[I|I]]; [auto|right; left; intuition congruence|].
          right. right. eapply reaches_mono; [|exact I]. cbn. auto.
        * right. left. intuition congruence.
        * right. right. eapply reaches_mono; [|exact I]. intros h N F. cbn. left. split; [|exact F].
          intros J. apply N, D. right. apply in_or_app. auto.
    - intros sc fvset D. cbn. split; intro x; tauto.
  Qed.
  Lemma lift_fvs_sound fm g B x : (forall y, In y (bv_funs B) -> get y fm = None) -> In x (lift_fvs lift_dec fm g B) ->
    get x g = None /\ (free_funs x B \/ reaches fm (fun h => free_funs h B) x).
  Proof.
    intros D I. unfold lift_fvs in I. apply filter_In in I as [I G]. split; [destruct (get x g); [discriminate|reflexivity]|].
    unfold fundefs_true_fv in I. destruct (proj2 (true_fv_sound fm) B [] [] D) as [_ S]. apply S in I. unfold free_funs.
    destruct I as [[]|[I|I]]; [tauto|]. right. eapply reaches_mono; [|exact I]. intros h N F. split; [|exact F].
    intro J. apply N, D. apply fnames_bv. exact J.
  Qed.
  Lemma lifted_vars_cases fvs B : lifted_vars max_args max_push fvs B = fvs \/ lifted_vars max_args max_push fvs B = [].
  Proof. unfold lifted_vars. destruct (existsb _ fvs); destruct (Nat.ltb _ _); auto. Qed.
End Sim.
