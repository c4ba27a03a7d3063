(** * Inlining: names of the output *)
From Coq Require Import ZArith NArith Arith List Lia Bool.
From Verif Require Import ANF_Syntax ANF_Eval ANF_Spec ANF_EvalProofs ANF_FreeProofs ANF_Scope
  ANF_LR ANF_LRProofs ANF_Subst ANF_Alpha Inline_Model Inline_LetProofs.
Import ListNotations.

Section Unfold.
  Variable St : Type.
  Variable IH : InlineHeuristic St.
  Notation inl := (inline_exp St IH).

  (** branches and bundles, as separate functions *)
  Definition inl_cl (F : exp -> istate -> exp * istate) :=
    fix inl_cl (br : list (ctor_tag * exp)) (w : istate) : list (ctor_tag * exp) * istate :=
    match br with
    | [] => ([], w)
    | (t, e) :: br' =>
        let (e', w) := F e w in
        let (br'', w) := inl_cl br' w in
        ((t, e') :: br'', w)
    end.

  Definition inl_fds (F : exp -> r_map -> var -> St -> istate -> exp * istate) (sig sig' : r_map) :=
    fix inl_fds (fds : fundefs) (s : St) (w : istate) : fundefs * istate :=
    match fds with
    | Fcons f t xs e fds' =>
        let s' := update_inFun IH f t xs e sig s in
        let f' := apply_r sig' f in
        let (xs', w) := get_fresh_names xs w in
        let (e', w) := F e (set_list (combine xs xs') sig') f s' w in
        let (fds'', w) := inl_fds fds' s w in
        (Fcons f' t xs' e' fds'', w)
    | Fnil => (Fnil, w)
    end.

  Lemma inl_fds_cons F sig sig' f t xs e fds s w :
    inl_fds F sig sig' (Fcons f t xs e fds) s w =
    let (xs', w) := get_fresh_names xs w in
    let (e', w) := F e (set_list (combine xs xs') sig') f (update_inFun IH f t xs e sig s) w in
    let (fds', w) := inl_fds F sig sig' fds s w in
    (Fcons (apply_r sig' f) t xs' e' fds', w).
  Proof. reflexivity. Qed.

  Lemma inl_Econstr d j x t ys e sig fm s w :
    inl d j (Econstr x t ys e) sig fm s w =
    let (x', w) := get_fresh_name x w in
    let (e', w) := inl d j e (set x x' sig) fm s w in
    (Econstr x' t (apply_r_list sig ys) e', w).
  Proof. destruct d; reflexivity. Qed.

  Lemma inl_Ecase d j v cl sig fm s w :
    inl d j (Ecase v cl) sig fm s w =
    let (cl', w) := inl_cl (fun e w => inl d j e sig fm s w) cl w in
    (Ecase (apply_r sig v) cl', w).
  Proof. destruct d; reflexivity. Qed.

  Lemma inl_Eproj d j x t n y e sig fm s w :
    inl d j (Eproj x t n y e) sig fm s w =
    let (x', w) := get_fresh_name x w in
    let (e', w) := inl d j e (set x x' sig) fm s w in
    (Eproj x' t n (apply_r sig y) e', w).
  Proof. destruct d; reflexivity. Qed.

  (** the call is kept *)
  Definition keep_let d j x f t ys ec sig fm s w : exp * istate :=
    let (x', w) := get_fresh_name x w in
    let (ec', w) := inl d j ec (set x x' sig) fm s w in
    (Eletapp x' (apply_r sig f) t (apply_r_list sig ys) ec', w).

  Lemma inl_Eletapp d j x f t ys ec sig fm s w :
    inl d j (Eletapp x f t ys ec) sig fm s w =
    let '(s', s'', inl_dec) := update_letApp IH f t (apply_r_list sig ys) s in
    match inl_dec, get f fm, d, j with
    | true, Some (ft, xs, e), S d', S j' =>
        if Nat.eqb (List.length xs) (List.length ys) then
          let sig' := set_list (combine xs (apply_r_list sig ys)) sig in
          let (x', w) := get_fresh_name x w in
          let '(j1, j2) := split_fuel j' in
          let (e', w) := inl d' j1 e sig' (mremove f fm) s' w in
          match inline_letapp e' x' with
          | Some (C, x') =>
              let w := click w in
              let (ec', w) := inl d' j2 ec (set x x' sig) fm s'' w in
              (app_ctx_f C ec', w)
          | _ => keep_let d j x f t ys ec sig fm s' w
          end
        else keep_let d j x f t ys ec sig fm s' w
    | _, _, _, _ => keep_let d j x f t ys ec sig fm s' w
    end.
  Proof.
    destruct d; cbn [inline_exp];
      (destruct (update_letApp IH f t (apply_r_list sig ys) s) as [[s' s''] []];
       [destruct (get f fm) as [[[ft xs] e]|]|]; reflexivity).
  Qed.

  Lemma inl_Efun d j fds e sig fm s w :
    inl d j (Efun fds e) sig fm s w =
    let fm' := add_fundefs fds fm in
    let (s1, s2) := update_funDef IH fds sig s in
    let (names', w) := get_fresh_names (fnames fds) w in
    let sig' := set_list (combine (fnames fds) names') sig in
    let (fds', w) := inl_fds (fun e sg f s w => inl d j e sg (mremove f fm') s w) sig sig' fds s1 w in
    let (e', w) := inl d j e sig' fm' s2 w in
    (Efun fds' e', w).
  Proof. destruct d; reflexivity. Qed.

  Lemma inl_Eapp d j f t ys sig fm s w :
    inl d j (Eapp f t ys) sig fm s w =
    let ys' := apply_r_list sig ys in
    let (s', inl_dec) := update_App IH f t ys' s in
    match inl_dec, get f fm, d, j with
    | true, Some (ft, xs, e), S d', S j' =>
        if Nat.eqb (List.length xs) (List.length ys) then
          let sig' := set_list (combine xs ys') sig in
          inl d' j' e sig' (mremove f fm) s' (click w)
        else (Eapp (apply_r sig f) t ys', w)
    | _, _, _, _ => (Eapp (apply_r sig f) t ys', w)
    end.
  Proof. destruct d; reflexivity. Qed.

  Lemma inl_Eprim_val d j x p e sig fm s w :
    inl d j (Eprim_val x p e) sig fm s w =
    let (x', w) := get_fresh_name x w in
    let (e', w) := inl d j e (set x x' sig) fm s w in
    (Eprim_val x' p e', w).
  Proof. destruct d; reflexivity. Qed.

  Lemma inl_Eprim d j x p ys e sig fm s w :
    inl d j (Eprim x p ys e) sig fm s w =
    let (x', w) := get_fresh_name x w in
    let (e', w) := inl d j e (set x x' sig) fm s w in
    (Eprim x' p (apply_r_list sig ys) e', w).
  Proof. destruct d; reflexivity. Qed.

  Lemma inl_Ehalt d j x sig fm s w :
    inl d j (Ehalt x) sig fm s w = (Ehalt (apply_r sig x), w).
  Proof. destruct d; reflexivity. Qed.
End Unfold.

(** ** Fresh names and renamings *)
Local Open Scope positive_scope.

Lemma fresh_names_spec : forall xs w xs' w', get_fresh_names xs w = (xs', w') ->
  length xs' = length xs /\ next_var w <= next_var w' /\ NoDup xs' /\
  (forall x, In x xs' -> next_var w <= x < next_var w').
Proof.
  induction xs as [|x xs IH]; cbn; intros w xs' w' H.
  - injection H as <- <-. split; [auto|]. split; [lia|]. split; [constructor|]. intros x [].
  - destruct (get_fresh_names xs _) as [ys w1] eqn:E. injection H as <- <-.
    apply IH in E as (L & N & ND & R). cbn in N, R.
    split; [cbn; auto|]. split; [lia|]. split.
    + constructor; auto. intro I. apply R in I. lia.
    + intros y [<-|I]; [lia|]. apply R in I. lia.
Qed.

Lemma apply_r_set sg x x' y : apply_r (set x x' sg) y = if Pos.eq_dec y x then x' else apply_r sg y.
Proof. unfold apply_r. cbn [get set]. destruct (Pos.eq_dec y x); reflexivity. Qed.

Lemma apply_r_set_list : forall (xs xs' : list var) (sg : r_map) (y : var), length xs' = length xs ->
  (In y xs -> In (apply_r (set_list (combine xs xs') sg) y) xs') /\
  (~ In y xs -> apply_r (set_list (combine xs xs') sg) y = apply_r sg y).
Proof.
  induction xs as [|x xs IH]; intros [|x' xs'] sg y L; cbn in L; try discriminate.
  - cbn. tauto.
  - cbn [combine set_list fold_right fst snd].
    change (fold_right _ _ _) with (set_list (combine xs xs') sg). rewrite apply_r_set.
    destruct (IH xs' sg y ltac:(congruence)) as [A B]. destruct (Pos.eq_dec y x) as [->|N]; split; intro I.
    + left. auto.
    + exfalso. apply I. left. auto.
    + right. apply A. destruct I; [congruence|auto].
    + apply B. intro. apply I. right. auto.
Qed.

Lemma get_set_list : forall A xs (xs' : list A) sg y, length xs' = length xs ->
  ~ In y xs -> get y (set_list (combine xs xs') sg) = get y sg.
Proof.
  induction xs as [|x xs IH]; intros [|x' xs'] sg y L I; cbn in L; try discriminate; [auto|].
  cbn [combine set_list fold_right fst snd get set].
  destruct (Pos.eq_dec y x) as [->|]; [exfalso; apply I; left; auto|]. apply IH; [congruence|]. intro; apply I; right; auto.
Qed.

(** ** Known functions *)
Definition fdesc : Type := fun_tag * list var * exp.
Definition fvb (d : fdesc) (y : var) : Prop := let '(_, xs, b) := d in free y b /\ ~ In y xs.
Definition own (d : fdesc) : list var := let '(_, xs, b) := d in xs ++ bv b.

(** variables the inliner may have to look up *)
Definition need (e : exp) (fm : fun_map) (y : var) : Prop :=
  free y e \/ exists f d, get f fm = Some d /\ fvb d y.

(** no bundle defines a function twice *)
Definition fnd (e : exp) : Prop := forall B, In B (bundles e) -> NoDup (fnames B).
Definition fnd_fm (fm : fun_map) : Prop := forall f t xs b, get f fm = Some (t, xs, b) -> fnd b.

Lemma fnd_flist B f t xs b : In (f, t, xs, b) (flist B) -> forall D, In D (bundles b) -> In D (bundles_funs B).
Proof.
  induction B as [g t' ys e B IH|]; cbn; [|tauto]. intros [E|I] D HD; apply in_or_app.
  - injection E as <- <- <- <-. auto.
  - right. auto.
Qed.

Lemma find_def_flist f B t xs b : find_def f B = Some (t, xs, b) -> In (f, t, xs, b) (flist B).
Proof.
  induction B as [g t' ys e B IH|]; cbn; [|discriminate].
  destruct (Pos.eq_dec f g) as [->|]; intro H; [injection H as <- <- <-; auto|auto].
Qed.

Definition img (P : var -> Prop) (sg : r_map) (z : var) : Prop := exists y, P y /\ z = apply_r sg y.

Lemma get_add_fundefs f : forall B fm, get f (add_fundefs B fm) =
  match find_def f B with Some d => Some d | None => get f fm end.
Proof.
  induction B as [g t xs e B IH|]; intro fm; cbn [add_fundefs find_def get set]; [|reflexivity].
  destruct (Pos.eq_dec f g); [reflexivity|apply IH].
Qed.

Lemma find_def_fnames f B : find_def f B <> None <-> In f (fnames B).
Proof.
  induction B as [g t xs e B IH|]; cbn; [|tauto].
  destruct (Pos.eq_dec f g) as [->|N].
  - split; [auto|discriminate].
  - rewrite IH. split; [auto|]. intros [E|]; [congruence|auto].
Qed.

Lemma need_fun B e fm f d y : get f (add_fundefs B fm) = Some d -> fvb d y ->
  In y (fnames B) \/ need (Efun B e) fm y.
Proof.
  rewrite get_add_fundefs. destruct (find_def f B) as [[[t xs] b]|] eqn:E; intros H F.
  - injection H as <-. destruct F as [F N].
    destruct (in_dec Pos.eq_dec y (fnames B)) as [|I]; [auto|right]. left. cbn. split; auto.
    right. eapply find_def_free; eauto.
  - right. right. eauto.
Qed.

Lemma mremove_get A f g (m : tmap A) d : get f (mremove g m) = Some d -> f <> g /\ get f m = Some d.
Proof. rewrite get_mremove. destruct (Pos.eq_dec f g); [discriminate|auto]. Qed.

Section Syn.
  Variable St : Type.
  Variable IH : InlineHeuristic St.
  Notation inl := (inline_exp St IH).

  Definition syn_ok (e : exp) (sig : r_map) (fm : fun_map) (w : istate) (e' : exp) (w' : istate) : Prop :=
    (forall y, need e fm y -> apply_r sig y < next_var w) -> fnd e -> fnd_fm fm ->
    next_var w <= next_var w' /\ NoDup (bv e') /\
    (forall x, In x (bv e') -> next_var w <= x < next_var w') /\
    (forall z, free z e' -> img (need e fm) sig z).

  Definition syn_all d := forall e j sig fm s w e' w', inl d j e sig fm s w = (e', w') -> syn_ok e sig fm w e' w'.

  (** one binder *)
  Lemma syn_one (e e1 : exp) sig fm x w e' w' :
    (forall y, free y e -> y = x \/ need e1 fm y) ->
    (forall y, need e1 fm y -> apply_r sig y < next_var w) -> fnd e -> fnd_fm fm ->
    let x' := next_var w in
    syn_ok e (set x x' sig) fm {| clicked := clicked w; next_var := next_var w + 1 |} e' w' ->
    next_var w <= next_var w' /\ NoDup (x' :: bv e') /\
    (forall z, In z (x' :: bv e') -> next_var w <= z < next_var w') /\
    (forall z, z <> x' -> free z e' -> img (need e1 fm) sig z).
  Proof.
    intros F R WE WF x' S.
    assert (FN : forall y, need e fm y -> y = x \/ need e1 fm y).
    { intros y [Fy|K]; [auto|]. right. right. exact K. }
    destruct S as (S1 & S2 & S3 & S4).
    { intros y N. cbn [next_var]. rewrite apply_r_set. destruct (Pos.eq_dec y x); [lia|].
      destruct (FN y N); [congruence|]. specialize (R y H). lia. }
    { exact WE. } { exact WF. }
    cbn [next_var] in *.
    split; [lia|]. split; [|split].
    - constructor; [|auto]. intro I. apply S3 in I. lia.
    - intros z [<-|I]; [lia|]. apply S3 in I. lia.
    - intros z Nz Fz. destruct (S4 z Fz) as (y & Ny & ->). rewrite apply_r_set in *.
      destruct (Pos.eq_dec y x); [congruence|]. exists y. split; [|auto]. destruct (FN y Ny); [congruence|auto].
  Qed.

  (** function body entered by inlining *)
  Lemma need_inlined f ft xs b fm sig ys e y :
    get f fm = Some (ft, xs, b) -> length xs = length ys ->
    (forall z, In z ys -> free z e) ->
    need b (mremove f fm) y ->
    img (need e fm) sig (apply_r (set_list (combine xs (apply_r_list sig ys)) sig) y).
  Proof.
    intros G L Y N.
    assert (L' : length (apply_r_list sig ys) = length xs) by (unfold apply_r_list; rewrite map_length; auto).
    destruct (apply_r_set_list xs (apply_r_list sig ys) sig y L') as [A B].
    destruct (in_dec Pos.eq_dec y xs) as [I|I].
    - specialize (A I). unfold apply_r_list in A at 2. apply in_map_iff in A as (z & E & Iz).
      exists z. split; [left; auto|auto].
    - rewrite (B I). exists y. split; [|auto]. right. destruct N as [Fy|(g & d & Gg & Fg)].
      + exists f, (ft, xs, b). split; [auto|]. split; auto.
      + apply mremove_get in Gg as [_ Gg]. eauto.
  Qed.

  Lemma need_mono e1 e2 fm y : (forall z, free z e1 -> free z e2) -> need e1 fm y -> need e2 fm y.
  Proof. intros H [F|K]; [left; auto|right; auto]. Qed.

  Lemma keep_let_syn d j x f t ys ec sig fm s w0 w e' w' :
    (forall sig fm s w e' w', inl d j ec sig fm s w = (e', w') -> syn_ok ec sig fm w e' w') ->
    next_var w0 <= next_var w ->
    keep_let St IH d j x f t ys ec sig fm s w = (e', w') ->
    syn_ok (Eletapp x f t ys ec) sig fm w0 e' w'.
  Proof.
    intros IHe LE H R WE WF. unfold keep_let in H. cbn [get_fresh_name] in H.
    destruct (inl d j ec _ fm s _) as [ec' w1] eqn:E. injection H as <- <-. apply IHe in E.
    destruct (syn_one ec (Eletapp x f t ys ec) sig fm x w ec' w1) as (A1 & A2 & A3 & A4); auto.
    { intros y Fy. destruct (Pos.eq_dec y x); [auto|right; left; cbn; auto]. }
    { intros y N. specialize (R y N). lia. }
    split; [lia|]. split; [exact A2|]. split.
    - intros z Iz. specialize (A3 z Iz). lia.
    - intros z [->|[Fz|[Nz Fz]]].
      + exists f. split; [left; cbn; auto|auto].
      + unfold apply_r_list in Fz. apply in_map_iff in Fz as (y & <- & Iy). exists y. split; [left; cbn; auto|auto].
      + apply A4; auto.
  Qed.

  Lemma inline_syn : forall d, syn_all d.
  Proof.
    assert (LST : forall sig ys (P : var -> Prop) z, In z (apply_r_list sig ys) -> (forall y, In y ys -> P y) -> img P sig z).
    { intros sig ys P z Iz H. unfold apply_r_list in Iz. apply in_map_iff in Iz as (y & <- & Iy). exists y. auto. }
    intro d. induction d as [d IHd] using lt_wf_ind. intro e.
    induction e using exp_ind2 with (P0 := fun B => forall f t xs e, In (f, t, xs, e) (flist B) ->
      forall j sig fm s w e' w', inl d j e sig fm s w = (e', w') -> syn_ok e sig fm w e' w');
      [ | | | | | | | | | |intros ? ? ? ? []].
    - intros j sig fm s w e' w' H R WE WF. rewrite inl_Econstr in H. cbn [get_fresh_name] in H.
      destruct (inl d j e _ fm s _) as [e1 w1] eqn:E. injection H as <- <-. apply IHe in E.
      destruct (syn_one e (Econstr x t ys e) sig fm x w e1 w1) as (A1 & A2 & A3 & A4); auto.
      { intros y Fy. destruct (Pos.eq_dec y x); [auto|right; left; cbn; auto]. }
      split; [auto|split; [auto|split; [auto|]]]. intros z [Fz|[Nz Fz]].
      + eapply LST; [exact Fz|]. intros y Iy. left. cbn. auto.
      + apply A4; auto.
    - intros j sig fm s w e' w' HH R WE WF. rewrite inl_Ecase in HH.
      destruct (inl_cl _ l w) as [l' w1] eqn:E. injection HH as <- <-.
      assert (X : next_var w <= next_var w1 /\ NoDup (flat_map (fun p => bv (snd p)) l') /\
         (forall x, In x (flat_map (fun p => bv (snd p)) l') -> next_var w <= x < next_var w1) /\
         (forall z, free_case z l' -> exists y, (free_case y l \/ exists f d, get f fm = Some d /\ fvb d y) /\ z = apply_r sig y)).
      { assert (R' : forall y, free_case y l \/ (exists f d, get f fm = Some d /\ fvb d y) -> apply_r sig y < next_var w).
        { intros y [K|K]; apply R; [left; apply free_Ecase; auto|right; auto]. }
        assert (WE' : forall D, In D (flat_map (fun p => bundles (snd p)) l) -> NoDup (fnames D)) by exact WE.
        clear R WE. revert w l' w1 E R'. induction H as [|[t e] l Hp F IHl]; intros w l' w1 E R'; cbn [inl_cl] in E.
        - injection E as <- <-. cbn. split; [lia|]. split; [constructor|]. split; [tauto|]. intros z [].
        - destruct (inl d j e sig fm s w) as [e1 w2] eqn:E1.
          destruct (inl_cl _ l w2) as [l2 w3] eqn:E2. injection E as <- <-.
          cbn [snd] in Hp. apply Hp in E1.
          destruct E1 as (A1 & A2 & A3 & A4).
          { intros y [K|K]; apply R'; [left; left; exact K|right; exact K]. }
          { intros D ID. apply WE'. cbn. apply in_or_app. auto. } { exact WF. }
          destruct (IHl ltac:(intros D ID; apply WE'; cbn; apply in_or_app; auto) w2 l2 w3 E2) as (B1 & B2 & B3 & B4).
          { intros y K. assert (apply_r sig y < next_var w); [|lia]. apply R'.
            destruct K as [K|K]; [left; right; exact K|right; exact K]. }
          split; [lia|]. cbn [flat_map snd]. split; [|split].
          + apply NoDup_app_iff. split; [auto|split; [auto|]]. intros x0 I1 I2.
            apply A3 in I1. apply B3 in I2. lia.
          + intros x0 I. apply in_app_iff in I as [I|I]; [apply A3 in I|apply B3 in I]; lia.
          + intros z [Fz|Fz]; cbn [snd] in Fz.
            * destruct (A4 z Fz) as (y & [K|K] & ->); exists y; (split; [|auto]); [left; left; exact K|right; exact K].
            * destruct (B4 z Fz) as (y & [K|K] & ->); exists y; (split; [|auto]); [left; right; exact K|right; exact K]. }
      destruct X as (X1 & X2 & X3 & X4). split; [auto|split; [auto|split; [auto|]]].
      intros z Fz. apply free_Ecase in Fz as [->|Fz].
      + exists x. split; [left; apply free_Ecase; auto|auto].
      + destruct (X4 z Fz) as (y & [K|K] & ->); exists y; (split; [|auto]); [left; apply free_Ecase; auto|right; auto].
    - intros j sig fm s w e' w' H R WE WF. rewrite inl_Eproj in H. cbn [get_fresh_name] in H.
      destruct (inl d j e _ fm s _) as [e1 w1] eqn:E. injection H as <- <-. apply IHe in E.
      destruct (syn_one e (Eproj x t n y e) sig fm x w e1 w1) as (A1 & A2 & A3 & A4); auto.
      { intros z Fy. destruct (Pos.eq_dec z x); [auto|right; left; cbn; auto]. }
      split; [auto|split; [auto|split; [auto|]]]. intros z [->|[Nz Fz]].
      + exists y. split; [left; cbn; auto|auto].
      + apply A4; auto.
    - intros j sig fm s w e' w' H.
      rewrite inl_Eletapp in H.
      destruct (update_letApp IH f t (apply_r_list sig ys) s) as [[s' s''] dec].
      destruct dec; [|eapply keep_let_syn; [intros; eapply IHe; eauto| |exact H]; lia].
      destruct (get f fm) as [[[ft xs] b]|] eqn:G; [|eapply keep_let_syn; [intros; eapply IHe; eauto| |exact H]; lia].
      destruct d as [|d']; [eapply keep_let_syn; [intros; eapply IHe; eauto| |exact H]; lia|].
      destruct j as [|j']; [eapply keep_let_syn; [intros; eapply IHe; eauto| |exact H]; lia|].
      destruct (Nat.eqb (length xs) (length ys)) eqn:L; [|eapply keep_let_syn; [intros; eapply IHe; eauto| |exact H]; lia].
      apply Nat.eqb_eq in L.
      cbn [get_fresh_name] in H. destruct (split_fuel j') as [j1 j2].
      destruct (inl d' j1 b _ _ s' _) as [b' w1] eqn:E1.
      apply IHd in E1; [|lia]. intros R WE WF.
      assert (NI : forall y, need b (mremove f fm) y ->
        img (need (Eletapp x f t ys e) fm) sig (apply_r (set_list (combine xs (apply_r_list sig ys)) sig) y)).
      { intros y Ny. eapply need_inlined; eauto. intros z Iz. cbn. auto. }
      destruct E1 as (A1 & A2 & A3 & A4).
      { intros y Ny. cbn [next_var]. destruct (NI y Ny) as (z & Nz & ->). specialize (R z Nz). lia. }
      { exact (WF _ _ _ _ G). } { intros g t' xs' b0 Gg. apply mremove_get in Gg as [_ Gg]. exact (WF _ _ _ _ Gg). }
      cbn [next_var] in *.
      destruct (inline_letapp b' (next_var w)) as [[C x']|] eqn:IL.
      + destruct (inl d' j2 e _ fm s'' _) as [ec' w2] eqn:E2. injection H as <- <-. apply IHd in E2; [|lia].
        destruct (letapp_free _ _ _ _ IL) as [LF LX].
        assert (X' : x' < next_var w1).
        { destruct (letapp_var _ _ _ _ IL) as [->|[K|K]]; [lia|apply A3 in K; lia|].
          destruct (A4 _ K) as (y & Ny & ->). destruct (NI y Ny) as (z & Nz & ->). specialize (R z Nz). lia. }
        destruct E2 as (B1 & B2 & B3 & B4).
        { intros y Ny. cbn [click next_var]. rewrite apply_r_set. destruct (Pos.eq_dec y x); [auto|].
          assert (apply_r sig y < next_var w); [|lia]. apply R.
          destruct Ny as [Fy|K]; [left; cbn; auto|right; auto]. }
        { exact WE. } { exact WF. }
        cbn [click next_var] in *.
        split; [lia|]. split; [|split].
        * eapply letapp_NoDup; [exact IL|auto|auto| | |].
          -- intro I. apply A3 in I. lia.
          -- intro I. apply B3 in I. lia.
          -- intros z I1 I2. apply A3 in I1. apply B3 in I2. lia.
        * intros z Iz. destruct (letapp_bv _ _ _ _ _ IL _ Iz) as [->|[K|K]]; [lia|apply A3 in K; lia|apply B3 in K; lia].
        * intros z Fz. destruct (LF ec' z Fz) as [Fz'|[Fz' NS]].
          -- destruct (A4 z Fz') as (y & Ny & ->). apply NI. exact Ny.
          -- destruct (B4 z Fz') as (y & Ny & ->). rewrite apply_r_set in *. destruct (Pos.eq_dec y x) as [->|N].
             ++ destruct LX as [LX|LX]; [tauto|]. destruct (A4 _ LX) as (y & Ny' & ->). apply NI. exact Ny'.
             ++ exists y. split; [|auto]. destruct Ny as [Fy|K]; [left; cbn; auto|right; auto].
      + revert R WE WF. eapply keep_let_syn; [intros; eapply IHe; eauto| |exact H]. lia.
    - intros j sig fm s w e' w' HH R WE WF. rewrite inl_Efun in HH. cbv zeta in HH.
      destruct (update_funDef IH B sig s) as [s1 s2].
      destruct (get_fresh_names (fnames B) w) as [names' w1] eqn:EN.
      destruct (inl_fds St IH _ sig _ B s1 w1) as [B' w2] eqn:EB.
      destruct (inl d j e _ _ s2 w2) as [e1 w3] eqn:EE. injection HH as <- <-.
      apply fresh_names_spec in EN as (L & N1 & ND & RN).
      set (sig' := set_list (combine (fnames B) names') sig) in *.
      set (fm' := add_fundefs B fm) in *.
      assert (SG : forall y, In y (fnames B) \/ need (Efun B e) fm y -> In (apply_r sig' y) names' \/
                    (~ In y (fnames B) /\ apply_r sig' y = apply_r sig y)).
      { intros y _. destruct (apply_r_set_list (fnames B) names' sig y L) as [A1 A2].
        destruct (in_dec Pos.eq_dec y (fnames B)); [left; auto|right; auto]. }
      assert (SGN : forall y, In y (fnames B) \/ need (Efun B e) fm y -> apply_r sig' y < next_var w1).
      { intros y K. destruct (SG y K) as [I|[I E]]; [apply RN in I; lia|]. rewrite E.
        destruct K as [K|K]; [tauto|]. specialize (R y K). lia. }
      assert (NFM : forall y f d, get f fm' = Some d -> fvb d y -> In y (fnames B) \/ need (Efun B e) fm y).
      { intros y f d0 G F. eapply need_fun; eauto. }
      (* the bundle *)
      assert (NB : forall f t xs b, find_def f B = Some (t, xs, b) -> forall y, free y b -> ~ In y xs ->
                 In y (fnames B) \/ need (Efun B e) fm y).
      { intros f t xs b FD y Fy Ny. apply (NFM y f (t, xs, b)); [|split; auto].
        unfold fm'. rewrite get_add_fundefs, FD. reflexivity. }
      assert (WF' : fnd_fm fm').
      { intros f t xs b G. unfold fm' in G. rewrite get_add_fundefs in G. destruct (find_def f B) as [d0|] eqn:FD.
        - injection G as ->. apply find_def_flist in FD. intros D HD. apply WE. cbn. right. apply in_or_app. left.
          eapply fnd_flist; eauto.
        - exact (WF _ _ _ _ G). }
      assert (XB : forall B0 (w1 : istate) B' w2,
         (forall f t xs b, In (f, t, xs, b) (flist B0) -> fnd b /\
            (forall j sig fm s w e' w', inl d j b sig fm s w = (e', w') -> syn_ok b sig fm w e' w') /\
            forall y, free y b -> ~ In y xs -> In y (fnames B) \/ need (Efun B e) fm y) ->
         inl_fds St IH (fun e sg f s w => inl d j e sg (mremove f fm') s w) sig sig' B0 s1 w1 = (B', w2) ->
         (forall y, In y (fnames B) \/ need (Efun B e) fm y -> apply_r sig' y < next_var w1) ->
         fnames B' = apply_r_list sig' (fnames B0) /\
         next_var w1 <= next_var w2 /\
         (forall x, In x (bv_funs B') -> In x (fnames B') \/ next_var w1 <= x < next_var w2) /\
         (NoDup (fnames B') -> (forall x, In x (fnames B') -> x < next_var w1) -> NoDup (bv_funs B')) /\
         (forall z, free_body z B' -> exists y, (In y (fnames B) \/ need (Efun B e) fm y) /\ z = apply_r sig' y)).
      { clear - WF' NFM. intro B0. induction B0 as [f t xs b B0 IHB|]; intros w1 B' w2 HB HI HR.
        2:{ injection HI as <- <-. cbn. split; [auto|split; [lia|split; [tauto|split; [constructor|tauto]]]]. }
        rewrite inl_fds_cons in HI.
        destruct (get_fresh_names xs w1) as [xs' w3] eqn:EX.
        destruct (inl d j b _ _ _ w3) as [b' w4] eqn:EB.
        destruct (inl_fds St IH _ sig sig' B0 s1 w4) as [B1 w5] eqn:EF.
        injection HI as <- <-.
        apply fresh_names_spec in EX as (LX & N3 & NDX & RX).
        destruct (HB f t xs b ltac:(left; auto)) as (FB & IHb & NEb). apply IHb in EB.
        destruct EB as (A1 & A2 & A3 & A4).
        { intros y Ny. destruct (apply_r_set_list xs xs' sig' y LX) as [P1 P2].
          destruct (in_dec Pos.eq_dec y xs) as [I|I]; [specialize (P1 I); apply RX in P1; lia|].
          rewrite (P2 I). assert (apply_r sig' y < next_var w1); [|lia]. apply HR.
          destruct Ny as [Fy|(g & d0 & Gg & Fg)]; [auto|]. apply mremove_get in Gg as [_ Gg]. eauto. }
        { exact FB. }
        { intros g t' ys' b0 Gg. apply mremove_get in Gg as [_ Gg]. exact (WF' _ _ _ _ Gg). }
        destruct (IHB w4 B1 w5) as (B1' & B2 & B3 & B4 & B5).
        { intros f0 t0 xs0 b0 I0. apply (HB f0 t0 xs0 b0). right. auto. }
        { exact EF. }
        { intros y K. specialize (HR y K). lia. }
        cbn [fnames bv_funs free_body]. split; [|split; [lia|split; [|split]]].
        - cbn. f_equal. exact B1'.
        - intros x [->|I]; [left; left; auto|]. apply in_app_iff in I as [I|I]; [apply RX in I; right; lia|].
          apply in_app_iff in I as [I|I]; [apply A3 in I; right; lia|].
          destruct (B3 x I); [left; right; auto|right; lia].
        - intros NDF LT. inversion NDF as [|? ? F1 F2]; subst. constructor.
          + rewrite !in_app_iff. intros [I|[I|I]].
            * apply RX in I. specialize (LT _ (or_introl eq_refl)). lia.
            * apply A3 in I. specialize (LT _ (or_introl eq_refl)). lia.
            * destruct (B3 _ I); [tauto|]. specialize (LT _ (or_introl eq_refl)). lia.
          + apply NoDup_app_iff. split; [auto|]. split.
            * apply NoDup_app_iff. split; [auto|]. split.
              -- apply B4; auto. intros x I. specialize (LT x (or_intror I)). lia.
              -- intros x I1 I2. apply A3 in I1. destruct (B3 x I2) as [I3|I3]; [specialize (LT x (or_intror I3)); lia|lia].
            * intros x I1 I2. apply RX in I1. apply in_app_iff in I2 as [I2|I2]; [apply A3 in I2; lia|].
              destruct (B3 x I2) as [I3|I3]; [specialize (LT x (or_intror I3)); lia|lia].
        - intros z [[Nz Fz]|Fz]; [|apply B5; auto].
          destruct (A4 z Fz) as (y & Ny & ->). destruct (apply_r_set_list xs xs' sig' y LX) as [P1 P2].
          destruct (in_dec Pos.eq_dec y xs) as [I|I]; [specialize (P1 I); tauto|].
          rewrite (P2 I). exists y. split; [|auto].
          destruct Ny as [Fy|(g & d0 & Gg & Fg)]; [auto|]. apply mremove_get in Gg as [_ Gg]. eauto. }
      destruct (XB B w1 B' w2) as (X1 & X2 & X3 & X4 & X5).
      { intros f t xs b I. split; [|split].
        - intros D HD. apply WE. cbn. right. apply in_or_app. left. eapply fnd_flist; eauto.
        - intros. eapply IHe; eauto.
        - intros y Fy Ny. destruct (in_dec Pos.eq_dec y (fnames B)); [auto|right]. left. cbn. split; [auto|right].
          clear -I Fy Ny. induction B as [g t' ys e0 B IHB|]; cbn in *; [|tauto].
          destruct I as [E|I]; [injection E as -> -> -> ->; auto|right; auto]. }
      { exact EB. } { exact SGN. }
      apply IHe0 in EE. destruct EE as (A1 & A2 & A3 & A4).
      { intros y Ny. assert (apply_r sig' y < next_var w1); [|lia]. apply SGN.
        destruct Ny as [Fy|(g & d0 & Gg & Fg)]; [|eauto].
        destruct (in_dec Pos.eq_dec y (fnames B)); [auto|right; left; cbn; auto]. }
      { intros D HD. apply WE. cbn. right. apply in_or_app. auto. }
      { exact WF'. }
      assert (NBn : NoDup (fnames B)) by (apply WE; left; auto).
      assert (FN : fnames B' = names').
      { rewrite X1. unfold sig', apply_r_list. clear - L NBn. revert names' L NBn. generalize (fnames B) as l.
        intro l. induction l as [|a l IHl]; intros [|n names'] L ND; cbn in L; try discriminate; [auto|].
        inversion ND as [|? ? D1 D2]; subst. cbn [map combine set_list fold_right fst snd].
        change (fold_right _ _ _) with (set_list (combine l names') sig). rewrite apply_r_set.
        destruct (Pos.eq_dec a a); [|congruence]. f_equal. rewrite <- (IHl names') at 2 by (auto; congruence).
        apply map_ext_in. intros b Ib. rewrite apply_r_set. destruct (Pos.eq_dec b a) as [->|]; [tauto|auto]. }
      rewrite FN in *.
      cbn [bv free]. rewrite FN. split; [lia|]. split; [|split].
      + apply NoDup_app_iff. split; [apply X4; [auto|intros x I; apply RN in I; lia]|]. split; [auto|].
        intros x I1 I2. apply A3 in I2. destruct (X3 x I1) as [I|I]; [apply RN in I; lia|lia].
      + intros x I. apply in_app_iff in I as [I|I]; [|apply A3 in I; lia].
        destruct (X3 x I) as [J|J]; [apply RN in J; lia|lia].
      + assert (FIN : forall y, In y (fnames B) \/ need (Efun B e) fm y -> ~ In (apply_r sig' y) names' ->
                  img (need (Efun B e) fm) sig (apply_r sig' y)).
        { intros y K NI. destruct (SG y K) as [I|[I E]]; [tauto|]. rewrite E.
          exists y. split; [|auto]. destruct K; [tauto|auto]. }
        intros z [Nz [Fz|Fz]].
        * destruct (A4 z Fz) as (y & Ny & ->). apply FIN; auto.
          destruct Ny as [Fy|(g & d0 & Gg & Fg)]; [|eauto].
          destruct (in_dec Pos.eq_dec y (fnames B)); [auto|right; left; cbn; auto].
        * destruct (X5 z Fz) as (y & Ny & ->). apply FIN; auto.
    - intros j sig fm s w e' w' H R WE WF. rewrite inl_Eapp in H. cbv zeta in H.
      destruct (update_App IH f t (apply_r_list sig ys) s) as [s' dec].
      assert (KEEP : (Eapp (apply_r sig f) t (apply_r_list sig ys), w) = (e', w') ->
        next_var w <= next_var w' /\ NoDup (bv e') /\
        (forall x, In x (bv e') -> next_var w <= x < next_var w') /\
        (forall z, free z e' -> img (need (Eapp f t ys) fm) sig z)).
      { intro E. injection E as <- <-. split; [lia|]. split; [constructor|]. split; [intros x []|].
        intros z [->|Fz]; [exists f; split; [left; cbn; auto|auto]|]. eapply LST; [exact Fz|]. intros y Iy. left. cbn. auto. }
      destruct dec; [|auto]. destruct (get f fm) as [[[ft xs] b]|] eqn:G; [|auto].
      destruct d as [|d']; [auto|]. destruct j as [|j']; [auto|].
      destruct (Nat.eqb (length xs) (length ys)) eqn:L; [|auto]. apply Nat.eqb_eq in L.
      apply IHd in H; [|lia].
      assert (NI : forall y, need b (mremove f fm) y ->
        img (need (Eapp f t ys) fm) sig (apply_r (set_list (combine xs (apply_r_list sig ys)) sig) y)).
      { intros y Ny. eapply need_inlined; eauto. intros z Iz. cbn. auto. }
      destruct H as (A1 & A2 & A3 & A4).
      { intros y Ny. cbn [click next_var]. destruct (NI y Ny) as (z & Nz & ->). auto. }
      { exact (WF _ _ _ _ G). } { intros g t' xs' b0 Gg. apply mremove_get in Gg as [_ Gg]. exact (WF _ _ _ _ Gg). }
      cbn [click next_var] in *. split; [auto|split; [auto|split; [auto|]]].
      intros z Fz. destruct (A4 z Fz) as (y & Ny & ->). auto.
    - intros j sig fm s w e' w' H R WE WF. rewrite inl_Eprim_val in H. cbn [get_fresh_name] in H.
      destruct (inl d j e _ fm s _) as [e1 w1] eqn:E. injection H as <- <-. apply IHe in E.
      destruct (syn_one e (Eprim_val x p e) sig fm x w e1 w1) as (A1 & A2 & A3 & A4); auto.
      { intros y Fy. destruct (Pos.eq_dec y x); [auto|right; left; cbn; auto]. }
      split; [auto|split; [auto|split; [auto|]]]. intros z [Nz Fz]. apply A4; auto.
    - intros j sig fm s w e' w' H R WE WF. rewrite inl_Eprim in H. cbn [get_fresh_name] in H.
      destruct (inl d j e _ fm s _) as [e1 w1] eqn:E. injection H as <- <-. apply IHe in E.
      destruct (syn_one e (Eprim x p ys e) sig fm x w e1 w1) as (A1 & A2 & A3 & A4); auto.
      { intros y Fy. destruct (Pos.eq_dec y x); [auto|right; left; cbn; auto]. }
      split; [auto|split; [auto|split; [auto|]]]. intros z [Fz|[Nz Fz]].
      + eapply LST; [exact Fz|]. intros y Iy. left. cbn. auto.
      + apply A4; auto.
    - intros j sig fm s w e' w' H R WE WF. rewrite inl_Ehalt in H. injection H as <- <-.
      split; [lia|]. split; [constructor|]. split; [intros y []|].
      intros z ->. exists x. split; [left; reflexivity|auto].
    - intros g t' xs' e' [F|F]; [injection F as <- <- <- <-; exact IHe|].
      eapply IHe0; eauto.
  Qed.
End Syn.
