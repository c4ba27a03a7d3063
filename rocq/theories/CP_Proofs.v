(* Conversion to continuation-passing style preserves evaluation: a converted
   term ends by giving the value of the term to its continuation. *)
From Coq Require Import List Arith NArith PArith String Bool Lia Permutation.
From Verif Require Import ANF_Syntax ANF_Subst ANF_Spec WA_Spec WA_Eval LB_Model LB_Env AN_Model AN_Spec AN_Proofs CP_Model.
Import ListNotations.

Lemma fresh_list_at : forall n s xs s', fresh_list n s = (xs, s') ->
  List.length xs = n /\ (s <= s')%positive /\ (forall x, In x xs -> btw s s' x) /\ NoDup xs.
Proof. intros n s xs s' H. pose proof (fresh_list_spec n s) as F. rewrite H in F. exact F. Qed.

Section Conv.
  Variable prims : tmap nat.
  Variables func_tag kon_tag default_tag : positive.
  Variable tgm : conId_map.
  Notation cps := (cps_cvt prims func_tag kon_tag default_tag tgm).
  Notation cpss := (cps_cvt_exps prims func_tag kon_tag default_tag tgm).
  Notation cpsfs := (cps_cvt_efnlst prims func_tag kon_tag default_tag tgm).
  Notation cpsbs := (cps_cvt_branches prims func_tag kon_tag default_tag tgm).
  Notation tag := (fun d => dcon_to_tag default_tag d tgm).

  Lemma prim_grows : forall n p args k s e s', convert_prim func_tag kon_tag n p args k s = (e, s') -> (s <= s')%positive.
  Proof.
    induction n; intros p args k s e s' E; cbn [convert_prim fresh] in E.
    - injection E as <- <-. lia.
    - match type of E with context [convert_prim func_tag kon_tag ?a ?b ?c ?d ?e] =>
        destruct (convert_prim func_tag kon_tag a b c d e) as [e1 s1] eqn:F end.
      injection E as <- <-. apply IHn in F. lia.
  Qed.

  Lemma cps_grows :
    (forall e vn k s e' s', cps e vn k s = Some (e', s') -> (s <= s')%positive) /\
    (forall l vn ea xs ks s e' s', cpss l vn ea xs ks s = Some (e', s') -> (s <= s')%positive) /\
    (forall l vn ns s B s', cpsfs l vn ns s = Some (B, s') -> (s <= s')%positive /\
       (List.length ns = efnlength l -> fnames B = ns)) /\
    (forall l vn k r s ps s', cpsbs l vn k r s = Some (ps, s') -> (s <= s')%positive).
  Proof.
    apply exp_ind_lam.
    - intros n vn k s e' s' E. cbn [cps_cvt] in E. destruct (nth_error vn (N.to_nat n)); [| discriminate]. injection E as <- <-. lia.
    - intros na e IH vn k s e' s' E. cbn [cps_cvt fresh] in E. dopt E [[e1 s1] |] F. injection E as <- <-. apply IH in F. lia.
    - intros e1 IH1 e2 IH2 vn k s e' s' E. cbn [cps_cvt fresh] in E. dopt E [[e1' s1] |] F1. dopt E [[e2' s2] |] F2.
      injection E as <- <-. apply IH1 in F1. apply IH2 in F2. lia.
    - intros d l IH vn k s e' s' E. cbn [cps_cvt fresh] in E.
      destruct (fresh_list (N.to_nat (exps_length l)) (s + 1)) as [xs s1] eqn:F1.
      destruct (fresh_list (N.to_nat (exps_length l)) s1) as [ks s2] eqn:F2.
      apply fresh_list_at in F1. apply fresh_list_at in F2. apply IH in E. lia.
    - intros e1 IH1 n bs IHb vn k s e' s' E. cbn [cps_cvt fresh] in E. dopt E [[e1' s1] |] F1. dopt E [[ps s2] |] F2.
      injection E as <- <-. apply IH1 in F1. apply IHb in F2. lia.
    - intros na e1 IH1 e2 IH2 vn k s e' s' E. cbn [cps_cvt fresh] in E. dopt E [[e2' s1] |] F2. dopt E [[e1' s2] |] F1.
      injection E as <- <-. apply IH1 in F1. apply IH2 in F2. lia.
    - intros fs IH i vn k s e' s' E. cbn [cps_cvt] in E. destruct (fresh_list (efnlength fs) s) as [ns s1] eqn:F1.
      apply fresh_list_at in F1. dopt E [[B s2] |] F2. destruct (nth_error ns (N.to_nat i)); [| discriminate].
      injection E as <- <-. apply IH in F2. lia.
    - intros vn k s e' s' E. cbn in E. injection E as <- <-. lia.
    - intros p vn k s e' s' E. cbn in E. injection E as <- <-. lia.
    - intros p vn k s e' s' E. cbn [cps_cvt] in E. destruct (get p prims) as [n |]; [| discriminate].
      destruct (convert_prim func_tag kon_tag n p [] k s) as [e1 s1] eqn:F. injection E as <- <-. eapply prim_grows; eauto.
    - intros vn ea xs ks s e' s' E. cbn in E. injection E as <- <-. lia.
    - intros e IH1 l IH2 vn ea xs ks s e' s' E. cbn [cps_cvt_exps] in E. destruct xs as [|x1 xs]; [discriminate |].
      destruct ks as [|k1 ks]; [discriminate |]. dopt E [[e1 s1] |] F1. dopt E [[e2 s2] |] F2. injection E as <- <-.
      apply IH1 in F1. apply IH2 in F2. lia.
    - intros vn ns s B s' E. cbn in E. injection E as <- <-. split; [lia |]. destruct ns; [reflexivity | discriminate].
    - intros na e _ IH1 l IH2 vn ns s B s' E. cbn [cps_cvt_efnlst fresh] in E. destruct e; try discriminate.
      dopt E [[e1 s1] |] F1. dopt E [[B1 s2] |] F2. injection E as <- <-. apply (IH1 _ _ eq_refl) in F1. destruct (IH2 _ _ _ _ _ F2) as [L N].
      split; [lia |]. intro LN. destruct ns as [|f ns]; [discriminate |]. cbn [hd tl fnames] in *. f_equal. apply N. cbn in LN. lia.
    - intros vn k r s ps s' E. cbn in E. injection E as <- <-. lia.
    - intros d n e IH1 bs IH2 vn k r s ps s' E. cbn [cps_cvt_branches] in E. dopt E [[ps1 s1] |] F1.
      destruct (fresh_list (N.to_nat (nargs n)) s1) as [vars s2] eqn:FL. apply fresh_list_at in FL.
      dopt E [[e1 s3] |] F2. injection E as <- <-. apply IH2 in F1. apply IH1 in F2. lia.
  Qed.

  (* ---- related values ---- *)

  Inductive vrel : value -> val -> Prop :=
  | vr_con : forall d vs vs', known tgm d -> Forall2 vrel vs vs' ->
      vrel (Con_v d vs) (Vconstr (dcon_to_tag default_tag d tgm) vs')
  | vr_prf : vrel Prf_v (Vconstr default_tag [])
  | vr_prim : forall p, vrel (Prim_v p) (Vprim p)
  | vr_clos : forall rho na b rho' f k1 x e' vn s s',
      (forall y, In y vn -> (y < s)%positive) -> ~ In f vn -> ~ In x vn -> ~ In k1 vn ->
      f <> x -> f <> k1 -> x <> k1 -> (x < s)%positive -> (k1 < s)%positive ->
      cps b (x :: vn) k1 s = Some (e', s') -> uses tgm b ->
      Forall2 (fun v y => exists v', get y rho' = Some v' /\ vrel v v') rho vn ->
      vrel (Clos_v rho na b) (Vfun rho' (Fcons f func_tag [k1; x] e' Fnil) f)
  | vr_fix : forall rho fnl n rho' B f vn s s1 s2 names,
      (forall y, In y vn -> (y < s)%positive) ->
      fresh_list (efnlength fnl) s = (names, s1) ->
      cpsfs fnl (rev names ++ vn) names s1 = Some (B, s2) -> uses_fs tgm fnl ->
      nth_error names (N.to_nat n) = Some f ->
      Forall2 (fun v y => exists v', get y rho' = Some v' /\ vrel v v') rho vn ->
      vrel (ClosFix_v rho fnl n) (Vfun rho' B f).

  Definition erel (rho : venv) (ns : list var) (rho' : env) : Prop :=
    Forall2 (fun v y => exists v', get y rho' = Some v' /\ vrel v v') rho ns.

  Lemma erel_ext : forall rho ns r1 r2, erel rho ns r1 ->
    (forall y, In y ns -> get y r2 = get y r1) -> erel rho ns r2.
  Proof.
    unfold erel. induction 1; intros G; constructor.
    - destruct H as [v' [A B]]. exists v'. rewrite G by (left; auto). auto.
    - apply IHForall2. intros z Hz. apply G. right; auto.
  Qed.
  Lemma erel_app : forall a b xs ys rho', erel a xs rho' -> erel b ys rho' -> erel (a ++ b) (xs ++ ys) rho'.
  Proof. intros. apply Forall2_app; auto. Qed.
  Lemma erel_nth : forall rho ns rho' k v, erel rho ns rho' -> nth_error rho k = Some v ->
    exists y v', nth_error ns k = Some y /\ get y rho' = Some v' /\ vrel v v'.
  Proof.
    intros rho ns rho' k v H. revert k. induction H; intros k E; destruct k; try discriminate.
    - injection E as <-. destruct H as [v' [A B]]. exists y, v'. auto.
    - apply IHForall2; auto.
  Qed.

  (* The functions of a converted fixpoint. *)
  Lemma fix_find : forall fs names vn s B s', uses_fs tgm fs ->
    cpsfs fs vn names s = Some (B, s') -> NoDup names ->
    forall j f na b, nth_error names j = Some f -> enthopt j fs = Some (Lam_e na b) ->
    exists k1 x s1 e s2, find_def f B = Some (func_tag, [k1; x], e) /\
      cps b (x :: vn) k1 s1 = Some (e, s2) /\ uses tgm b /\
      (s <= x)%positive /\ (s <= k1)%positive /\ x <> k1 /\ (x < s1)%positive /\ (k1 < s1)%positive.
  Proof.
    induction fs as [|na0 e fs IH]; intros names vn s B s' U E ND j f na b N H; [destruct j; discriminate |].
    destruct U as [U1 U2]. cbn [cps_cvt_efnlst fresh] in E. destruct names as [|g names]; [destruct j; discriminate |].
    destruct e; try discriminate. cbn [hd tl] in E. dopt E [[ce s1] |] F1. dopt E [[B2 s2] |] F2. injection E as <- <-.
    inversion ND; subst. cbn [uses] in U1. pose proof (proj1 cps_grows _ _ _ _ _ _ F1) as A1.
    destruct j; cbn [nth_error enthopt] in *.
    - injection N as <-. injection H as <- <-. exists (s + 1)%positive, s, (s + 1 + 1)%positive, ce, s1.
      cbn [find_def]. destruct (Pos.eq_dec g g); [| congruence]. repeat split; auto; lia.
    - destruct (IH _ _ _ _ _ U2 F2 ltac:(assumption) j f na b N H) as (k1 & x & t1 & e0 & t2 & Q1 & Q2 & Q3 & Q4 & Q5 & Q6 & Q7 & Q8).
      exists k1, x, t1, e0, t2. cbn [find_def]. destruct (Pos.eq_dec f g) as [-> |].
      + exfalso. match goal with X : ~ In g names |- _ => apply X end. eapply nth_error_In; eauto.
      + repeat split; auto; lia.
  Qed.

  (* The environment of a fixpoint's functions. *)
  Lemma rec_env_rel : forall fnl rho rho' vn s s1 s2 names B,
    (forall y, In y vn -> (y < s)%positive) ->
    fresh_list (efnlength fnl) s = (names, s1) ->
    cpsfs fnl (rev names ++ vn) names s1 = Some (B, s2) -> uses_fs tgm fnl ->
    erel rho vn rho' ->
    erel (make_rec_env fnl rho) (rev names ++ vn) (def_funs B B rho' rho').
  Proof.
    intros fnl rho rho' ns s s1 s2 names B L AF CF U R.
    destruct (fresh_list_at _ _ _ _ AF) as [LN [_ [I ND]]].
    pose proof (proj2 (proj1 (proj2 (proj2 cps_grows)) _ _ _ _ _ _ CF) LN) as FB.
    apply erel_app.
    - unfold erel.
      assert (X : forall k, k <= efnlength fnl ->
         Forall2 (fun v y => exists v', get y (def_funs B B rho' rho') = Some v' /\ vrel v v')
           (map (fun n => ClosFix_v rho fnl (N.of_nat n)) (list_to_zero k)) (rev (firstn k names))).
      { induction k; intros Lk; [constructor |].
        destruct (nth_error names k) as [f |] eqn:NE; [| apply nth_error_None in NE; lia].
        assert (FN : firstn (S k) names = firstn k names ++ [f]).
        { clear -NE. revert names NE. induction k; intros [|a l] NE; try discriminate.
          - cbn in *. congruence.
          - cbn in NE. cbn [firstn app]. rewrite <- IHk; auto. }
        rewrite FN, rev_app_distr. cbn [rev app list_to_zero map]. constructor; [| apply IHk; lia].
        exists (Vfun rho' B f). split.
        - apply get_def_funs_in. rewrite FB. eapply nth_error_In; eauto.
        - eapply vr_fix; eauto. rewrite Nnat.Nat2N.id. exact NE. }
      specialize (X (efnlength fnl) (le_n _)). rewrite <- LN, firstn_all in X. rewrite <- LN. exact X.
    - eapply erel_ext; [exact R |]. intros y Hy. apply get_def_funs_out. rewrite FB.
      intro Hn. apply I in Hn. unfold btw in Hn. specialize (L y Hy). lia.
  Qed.

  Variable cenv : ctor_env.
  Variable pr : tmap (list val -> option val).
  Hypothesis SIG : good_sig default_tag tgm cenv.
  Notation ev := (WA_Spec.ev cenv pr).
  Notation callf := (WA_Spec.callf cenv pr).
  Notation peval := (WA_Spec.peval cenv pr).

  (* The target goes on as [callf _ kv t l] after [c] calls. *)
  Definition runs_to (c : nat) (rho : env) (e : exp) (kv : val) (t : fun_tag) (l : list val) : Prop :=
    forall m, peval (c + m) rho e = callf m kv t l.
  Definition late (n : nat) (rho : env) (e : exp) : Prop := forall m, m <= n -> peval m rho e = PTime.

  Lemma callf_0 : forall v t l, callf 0 v t l = PTime.
  Proof. reflexivity. Qed.

  Lemma runs_late : forall c rho e kv t l n, runs_to c rho e kv t l ->
    (forall m, m <= n -> callf m kv t l = PTime) -> late n rho e.
  Proof.
    intros c rho e kv t l n R H m L. destruct (Nat.le_gt_cases c m) as [Q | Q].
    - replace m with (c + (m - c)) by lia. rewrite R. apply H. lia.
    - specialize (R 0). rewrite callf_0 in R. destruct (peval m rho e) eqn:E; auto.
      + assert (X : peval (c + 0) rho e = PVal v); [| congruence]. eapply peval_mono; [| exact E | discriminate]. lia.
      + assert (X : peval (c + 0) rho e = PStuck); [| congruence]. eapply peval_mono; [| exact E | discriminate]. lia.
  Qed.

  (* A continuation: the only function of its bundle. *)
  Lemma call_kon : forall m rho k x e v, callf (S m) (Vfun rho (Fcons k kon_tag [x] e Fnil) k) kon_tag [v] =
    peval m (set x v (set k (Vfun rho (Fcons k kon_tag [x] e Fnil) k) rho)) e.
  Proof.
    intros. erewrite callf_S; [reflexivity | cbn [find_def]; destruct (Pos.eq_dec k k); [reflexivity | congruence] | reflexivity].
  Qed.

  Lemma peval_fun1 : forall m rho f t xs b e, peval m rho (Efun (Fcons f t xs b Fnil) e) =
    peval m (set f (Vfun rho (Fcons f t xs b Fnil) f) rho) e.
  Proof. reflexivity. Qed.
  Lemma peval_app : forall m rho f t ys vf vs, get f rho = Some vf -> get_list ys rho = Some vs ->
    peval m rho (Eapp f t ys) = callf m vf t vs.
  Proof. intros m rho f t ys vf vs G1 G2. unfold WA_Spec.peval. cbn [WA_Spec.ev]. rewrite G1, G2. reflexivity. Qed.

  (* What conversion does to a term: results of the source and of the target. *)
  Definition sim_ok (n : nat) (r : eres value) (rho' : env) (e' : exp) (kv : val) : Prop :=
    match r with
    | EVal v => exists c v', vrel v v' /\ runs_to c rho' e' kv kon_tag [v']
    | ETime => late n rho' e'
    | EStuck => True
    end.
  Definition body_ok (n : nat) (bs : venv -> lexp -> eres value) : Prop :=
    forall b, uses tgm b -> forall vn k s e' s' rho rho' kv,
      (forall y, In y vn -> (y < s)%positive) -> (k < s)%positive ->
      cps b vn k s = Some (e', s') -> erel rho vn rho' -> get k rho' = Some kv ->
      sim_ok n (bs rho b) rho' e' kv.

  Definition lower_ok (n : nat) : Prop := match n with 0 => True | S m => body_ok m (eeval false m) end.
  Notation lower := (lower).

  Lemma apply_ok : forall n, lower_ok n -> forall f vf v v' kv, vrel f vf -> vrel v v' ->
    match apply_fun false (lower n) f v with
    | EVal w => exists c w', vrel w w' /\ forall m, callf (c + m) vf func_tag [kv; v'] = callf m kv kon_tag [w']
    | ETime => forall m, m <= n -> callf m vf func_tag [kv; v'] = PTime
    | EStuck => True
    end.
  Proof.
    intros n LO f vf v v' kv R1 R2. inversion R1; subst; cbn [apply_fun]; auto.
    - (* closure *)
      match goal with |- context [Vfun rho' ?D f0] => set (D0 := D) end.
      set (re := set k1 kv (set x v' (set f0 (Vfun rho' D0 f0) rho'))).
      assert (ST : forall m, callf (S m) (Vfun rho' D0 f0) func_tag [kv; v'] = peval m re e').
      { intro m. erewrite callf_S; [reflexivity | unfold D0; cbn [find_def]; destruct (Pos.eq_dec f0 f0); [reflexivity | congruence] | reflexivity]. }
      destruct n as [|n]; cbn [lower_ok] in LO.
      + cbn [AN_Proofs.lower]. intros m L. replace m with 0 by lia. apply callf_0.
      + cbn [AN_Proofs.lower].
        assert (X : sim_ok n (eeval false n (v :: rho) b) re e' kv).
        { eapply (LO b H9 (x :: vn) k1); [| exact H7 | exact H8 | | ].
          - intros y [<- | Hy]; auto.
          - constructor.
            + exists v'. split; auto. unfold re. rewrite get_set_other by auto. apply get_set_same.
            + eapply erel_ext; [exact H10 |]. intros y Hy. unfold re.
              rewrite !get_set_other by (intro; subst; contradiction). reflexivity.
          - unfold re. apply get_set_same. }
        destruct (eeval false n (v :: rho) b) as [w | |]; auto.
        * destruct X as (c & w' & V & R). exists (S c), w'. split; auto. intro m. cbn [Nat.add]. rewrite ST. apply R.
        * intros [|m] L; [apply callf_0 |]. rewrite ST. apply X. lia.
    - (* fixpoint *)
      destruct (enthopt (N.to_nat n0) fnl) as [[] |] eqn:EN; auto.
      match goal with HA : fresh_list _ _ = _, HC : cpsfs _ _ _ _ = _, HU : uses_fs tgm fnl, HN : nth_error _ _ = _, HE : Forall2 _ rho vn |- _ =>
        destruct (fresh_list_at _ _ _ _ HA) as [LN [L1 [I ND]]];
        destruct (fix_find _ _ _ _ _ _ HU HC ND _ _ _ _ HN EN) as (k1 & x & t1 & e0 & t2 & Q1 & Q2 & Q3 & Q4 & Q5 & Q6 & Q7 & Q8);
        pose proof (rec_env_rel _ _ _ _ _ _ _ _ _ H HA HC HU HE) as RE
      end.
      assert (BD : forall z, In z (rev names ++ vn) -> (z < s1)%positive).
      { intros z Hy. apply in_app_or in Hy. destruct Hy as [Hy | Hy].
        - apply in_rev in Hy. apply I in Hy. unfold btw in Hy. lia.
        - specialize (H z Hy). lia. }
      set (re := set k1 kv (set x v' (def_funs B B rho' rho'))).
      assert (ST : forall m, callf (S m) (Vfun rho' B f0) func_tag [kv; v'] = peval m re e0).
      { intro m. erewrite callf_S; [reflexivity | exact Q1 | reflexivity]. }
      destruct n as [|n]; cbn [lower_ok] in LO.
      + cbn [AN_Proofs.lower]. intros m L. replace m with 0 by lia. apply callf_0.
      + cbn [AN_Proofs.lower].
        assert (X : sim_ok n (eeval false n (v :: make_rec_env fnl rho) l) re e0 kv).
        { eapply (LO l Q3 (x :: rev names ++ vn) k1); [| exact Q8 | exact Q2 | | ].
          - intros y [<- | Hy]; auto. specialize (BD y Hy). lia.
          - constructor.
            + exists v'. split; auto. unfold re. rewrite get_set_other by auto. apply get_set_same.
            + eapply erel_ext; [exact RE |]. intros y Hy. unfold re. specialize (BD y Hy).
              rewrite !get_set_other by (intro; subst; lia). reflexivity.
          - unfold re. apply get_set_same. }
        destruct (eeval false n (v :: make_rec_env fnl rho) l) as [w | |]; auto.
        * destruct X as (c & w' & V & R). exists (S c), w'. split; auto. intro m. cbn [Nat.add]. rewrite ST. apply R.
        * intros [|m] L; [apply callf_0 |]. rewrite ST. apply X. lia.
  Qed.

  (* What projections bind does not depend on how calls are run. *)
  Lemma evc_proj : forall c1 c2 tg y vars n rho,
    evc c1 rho (ctx_bind_proj tg y vars n) = evc c2 rho (ctx_bind_proj tg y vars n).
  Proof.
    intros c1 c2 tg y. induction vars as [|x vars IH]; intros n rho; cbn [ctx_bind_proj evc]; [reflexivity |].
    destruct (get y rho) as [[] |]; auto. destruct (Pos.eq_dec tg c); auto.
    destruct (nthN l (N.of_nat (n - 1))); auto.
  Qed.

  (* The branch that is selected. *)
  Lemma branch_ok : forall bs r vn k s ps s', uses_bs tgm bs ->
    cpsbs bs vn k r s = Some (ps, s') ->
    (forall y, In y vn -> (y < s)%positive) -> (r < s)%positive -> (k < s)%positive ->
    forall d j b, find_branch d j bs = Some b -> known tgm d ->
    exists vars ce t1 t2,
      findtag ps (dcon_to_tag default_tag d tgm) =
        Some (app_ctx_f (ctx_bind_proj (dcon_to_tag default_tag d tgm) r vars (List.length vars)) ce) /\
      List.length vars = N.to_nat j /\ NoDup vars /\ ~ In r vars /\ ~ In k vars /\ (k < t1)%positive /\
      (forall x, In x (vars ++ vn) -> (x < t1)%positive) /\ (forall x, In x vn -> ~ In x vars) /\
      cps b (vars ++ vn) k t1 = Some (ce, t2) /\ uses tgm b.
  Proof.
    induction bs as [|d0 [n na] e bs IH]; intros r vn k s ps s' U E L Lr Lk d j b FB KD; [discriminate |].
    destruct U as [KD0 [U1 U2]]. cbn [cps_cvt_branches nargs fst] in E.
    dopt E [[ps1 s1] |] F1. destruct (fresh_list (N.to_nat n) s1) as [vars s2] eqn:FR.
    dopt E [[ce s3] |] F2. injection E as <- <-.
    assert (M1 := proj2 (proj2 (proj2 cps_grows)) _ _ _ _ _ _ _ F1).
    destruct (fresh_list_at _ _ _ _ FR) as [FL1 [FL2 [FL3 FL4]]]. unfold btw in FL3.
    cbn [find_branch nargs fst] in FB. cbn [findtag].
    destruct (dcon_eqb d d0) eqn:DE.
    - assert (d = d0).
      { clear -DE. destruct d as [[a b] c], d0 as [[a' b'] c']. unfold dcon_eqb, ind_eqb in DE. cbn in DE.
        apply andb_true_iff in DE. destruct DE as [DE D3]. apply andb_true_iff in DE. destruct DE as [D1 D2].
        apply String.eqb_eq in D1. apply Nat.eqb_eq in D2. apply N.eqb_eq in D3. congruence. }
      subst d0. destruct (Pos.eq_dec (dcon_to_tag default_tag d tgm) (dcon_to_tag default_tag d tgm)); [| congruence].
      destruct (N.eqb_spec n j); [| discriminate]. injection FB as <-. subst j.
      exists vars, ce, s2, s3. split; [reflexivity |]. split; [exact FL1 |]. split; [exact FL4 |].
      split; [intro X; specialize (FL3 r X); lia |]. split; [intro X; specialize (FL3 k X); lia |].
      split; [lia |]. split; [| split].
      + intros x Hx. apply in_app_or in Hx. destruct Hx as [Hx | Hx]; [apply FL3 in Hx; lia |].
        specialize (L x Hx). lia.
      + intros x Hx X. apply FL3 in X. specialize (L x Hx). lia.
      + split; [exact F2 | exact U1].
    - destruct (Pos.eq_dec (dcon_to_tag default_tag d0 tgm) (dcon_to_tag default_tag d tgm)) as [X |].
      + exfalso. apply (proj1 SIG) in X; auto. subst.
        assert (dcon_eqb d d = true); [| congruence].
        clear. destruct d as [[a b] c]. unfold dcon_eqb, ind_eqb. cbn.
        rewrite String.eqb_refl, Nat.eqb_refl, N.eqb_refl. reflexivity.
      + eapply IH; eauto.
  Qed.

  Lemma consistent_ok : forall bs i d r vn k s ps s', uses_bs tgm bs -> brs_of i bs ->
    cpsbs bs vn k r s = Some (ps, s') -> known tgm d -> fst d = i ->
    caseConsistent_f cenv ps (dcon_to_tag default_tag d tgm) = true.
  Proof.
    induction bs as [|d0 [n na] e bs IH]; intros i d r vn k s ps s' U I E K F; cbn [cps_cvt_branches nargs fst] in E.
    - injection E as <- <-. reflexivity.
    - destruct U as [K0 [U1 U2]]. destruct I as [I1 I2].
      dopt E [[ps1 s1] |] F1. destruct (fresh_list (N.to_nat n) s1) as [vars s2].
      dopt E [[ce s3] |] F2. injection E as <- <-. cbn [caseConsistent_f].
      rewrite (IH i d r vn k s ps1 s1 U2 I2 F1 K F). cbn [andb].
      destruct (proj2 SIG d d0 K K0) as [j [j' [G1 [G2 G3]]]]; [congruence |].
      rewrite G1, G2, G3. apply Pos.eqb_refl.
  Qed.

  (* Going on after a continuation has been called. *)
  Lemma kon_runs : forall c1 rho e1 k1 x1 b v1 c2 kv t l rho0,
    runs_to c1 rho e1 (Vfun rho0 (Fcons k1 kon_tag [x1] b Fnil) k1) kon_tag [v1] ->
    runs_to c2 (set x1 v1 (set k1 (Vfun rho0 (Fcons k1 kon_tag [x1] b Fnil) k1) rho0)) b kv t l ->
    runs_to (c1 + S c2) rho e1 kv t l.
  Proof.
    intros c1 rho e1 k1 x1 b v1 c2 kv t l rho0 R1 R2 m.
    rewrite <- Nat.add_assoc. rewrite R1. cbn [Nat.add]. rewrite call_kon. apply R2.
  Qed.
  Lemma kon_late : forall c1 rho e1 k1 x1 b v1 n rho0,
    runs_to c1 rho e1 (Vfun rho0 (Fcons k1 kon_tag [x1] b Fnil) k1) kon_tag [v1] ->
    (forall m, m < n -> peval m (set x1 v1 (set k1 (Vfun rho0 (Fcons k1 kon_tag [x1] b Fnil) k1) rho0)) b = PTime) ->
    late n rho e1.
  Proof.
    intros c1 rho e1 k1 x1 b v1 n rho0 R1 R2. eapply runs_late; [exact R1 |].
    intros [|m] L; [apply callf_0 |]. rewrite call_kon. apply R2. lia.
  Qed.

  Notation tes n := (es false (lower n)).
  Notation tess n := (ess false (lower n)).

  Lemma cps_sim : forall n, lower_ok n ->
    (forall e, uses tgm e -> forall vn k s e' s' rho rho' kv,
       (forall y, In y vn -> (y < s)%positive) -> (k < s)%positive ->
       cps e vn k s = Some (e', s') -> erel rho vn rho' -> get k rho' = Some kv ->
       sim_ok n (tes n rho e) rho' e' kv) /\
    (forall l, uses_es tgm l -> forall vn ea xs ks s e' s' rho rho',
       (forall y, In y vn -> (y < s)%positive) -> NoDup (xs ++ ks) ->
       (forall y, In y (xs ++ ks) -> (y < s)%positive /\ ~ In y vn) ->
       List.length xs = N.to_nat (exps_length l) -> 
       cpss l vn ea xs ks s = Some (e', s') -> erel rho vn rho' ->
       match tess n rho l with
       | EVal vs => exists c vs' rho2, Forall2 vrel vs vs' /\ get_list xs rho2 = Some vs' /\
           (forall y, ~ In y (xs ++ ks) -> get y rho2 = get y rho') /\
           (forall m, peval (c + m) rho' e' = peval m rho2 ea)
       | ETime => late n rho' e'
       | EStuck => True
       end) /\
    (forall l : efnlst, True) /\ (forall l : branches_e, True).
  Proof.
    intros n LO.
    apply exp_ind_lam; try (intros; exact I); cbn [uses uses_es].
    - (* Var_e *)
      intros i _ vn k s e' s' rho rho' kv L Lk E R G. cbn [cps_cvt] in E. cbn [es].
      destruct (nth_error rho (N.to_nat i)) as [v |] eqn:N; cbn [sim_ok]; auto.
      destruct (erel_nth _ _ _ _ _ R N) as (y & v' & N' & G' & V). rewrite N' in E. injection E as <- <-.
      exists 0, v'. split; auto. intro m. cbn [Nat.add]. apply peval_app; auto. cbn [get_list]. rewrite G'. reflexivity.
    - (* Lam_e *)
      intros na e IH U vn k s e' s' rho rho' kv L Lk E R G. cbn [cps_cvt fresh] in E. dopt E [[b s1] |] F. injection E as <- <-.
      cbn [es sim_ok]. eexists 0, _. split.
      + eapply (vr_clos rho na e rho' (s + 1) (s + 1 + 1) s b vn (s + 1 + 1 + 1) s1); try lia; auto;
          try (intro X; apply L in X; lia). intros y Hy. specialize (L y Hy). lia.
      + intro m. cbn [Nat.add]. rewrite peval_fun1. apply peval_app.
        * rewrite get_set_other by lia. exact G.
        * cbn [get_list]. rewrite get_set_same. reflexivity.
    - (* App_e *)
      intros e1 IH1 e2 IH2 [U1 U2] vn k s e' s' rho rho' kv L Lk E R G. cbn [cps_cvt fresh] in E.
      dopt E [[e1' s1] |] F1. dopt E [[e2' s2] |] F2. injection E as <- <-.
      pose proof (proj1 cps_grows _ _ _ _ _ _ F1) as G1.
      set (x1 := s) in *. set (k1 := (s + 1)%positive) in *. set (x2 := (k1 + 1)%positive) in *. set (k2 := (x2 + 1)%positive) in *.
      set (bd := Efun (Fcons k2 kon_tag [x2] (Eapp x1 func_tag [k; x2]) Fnil) e2') in *.
      set (K1 := Vfun rho' (Fcons k1 kon_tag [x1] bd Fnil) k1) in *.
      assert (FR : forall y, (y < s)%positive -> y <> x1 /\ y <> k1 /\ y <> x2 /\ y <> k2) by (intros; unfold k2, x2, k1, x1; lia).
      assert (X1 : sim_ok n (tes n rho e1) (set k1 K1 rho') e1' K1).
      { eapply (IH1 U1 vn k1); [| | exact F1 | | apply get_set_same].
        - intros y Hy. specialize (L y Hy). unfold k2, x2, k1 in *. lia.
        - unfold k2, x2, k1. lia.
        - eapply erel_ext; [exact R |]. intros y Hy. apply get_set_other. apply FR. auto. }
      cbn [es]. destruct (tes n rho e1) as [f | |]; cbn [sim_ok] in *; auto; try (intros m Lm; rewrite peval_fun1; apply X1; exact Lm).
      destruct X1 as (c1 & vf & V1 & R1).
      set (r1 := set x1 vf (set k1 K1 rho')).
      set (K2 := Vfun r1 (Fcons k2 kon_tag [x2] (Eapp x1 func_tag [k; x2]) Fnil) k2).
      assert (X2 : sim_ok n (tes n rho e2) (set k2 K2 r1) e2' K2).
      { eapply (IH2 U2 vn k2); [| | exact F2 | | apply get_set_same].
        - intros y Hy. specialize (L y Hy). unfold k2, x2, k1 in *. lia.
        - unfold k2, x2, k1 in *. lia.
        - eapply erel_ext; [exact R |]. intros y Hy. destruct (FR y (L y Hy)) as (A1 & A2 & A3 & A4). unfold r1.
          rewrite !get_set_other by auto. reflexivity. }
      destruct (tes n rho e2) as [v2 | |]; cbn [sim_ok] in *; auto.
      2:{ intros m Lm. rewrite peval_fun1. revert m Lm. eapply kon_late; [exact R1 |].
          intros m Lm. unfold bd. rewrite peval_fun1. apply X2. lia. }
      destruct X2 as (c2 & v2' & V2 & R2).
      set (r2 := set x2 v2' (set k2 K2 r1)).
      assert (LAST : forall m, peval m r2 (Eapp x1 func_tag [k; x2]) = callf m vf func_tag [kv; v2']).
      { intro m. apply peval_app.
        - unfold r2, r1. rewrite !get_set_other by (unfold k2, x2, k1, x1; lia). apply get_set_same.
        - destruct (FR k Lk) as (A1 & A2 & A3 & A4). cbn [get_list]. unfold r2, r1.
          rewrite get_set_same. rewrite !get_set_other by auto. rewrite G. reflexivity. }
      pose proof (apply_ok n LO f vf v2 v2' kv V1 V2) as AP.
      destruct (apply_fun false (lower n) f v2) as [w | |]; auto.
      + destruct AP as (c3 & w' & V3 & R3). exists (c1 + S (c2 + S c3)), w'. split; auto.
        intro m. rewrite peval_fun1. revert m. eapply kon_runs; [exact R1 |].
        intro m. unfold bd. rewrite peval_fun1. revert m. eapply kon_runs; [exact R2 |].
        intro m. rewrite <- R3. apply LAST.
      + intros m Lm. rewrite peval_fun1. revert m Lm. eapply kon_late; [exact R1 |].
        intros m Lm. unfold bd. rewrite peval_fun1.
        assert (LT : late n (set k2 K2 r1) e2').
        { eapply kon_late; [exact R2 |]. intros j Lj. etransitivity; [apply LAST |]. apply AP. lia. }
        apply LT. lia.
    - (* Con_e *)
      intros d l IH [KD UL] vn k s e' s' rho rho' kv L Lk E R G. cbn [cps_cvt fresh] in E.
      destruct (fresh_list (N.to_nat (exps_length l)) (s + 1)) as [xs s1] eqn:F1.
      destruct (fresh_list (N.to_nat (exps_length l)) s1) as [ks s2] eqn:F2.
      apply fresh_list_at in F1. apply fresh_list_at in F2. destruct F1 as (N1 & M1 & B1 & D1). destruct F2 as (N2 & M2 & B2 & D2).
      unfold btw in B1, B2. rewrite es_con.
      assert (X := fun A1 A2 A3 => IH UL vn _ xs ks s2 e' s' rho rho' A1 A2 A3 N1 E R).
      assert (FR : forall y, (y < s2)%positive -> (y <= s)%positive -> ~ In y (xs ++ ks)).
      { intros y A A' H. apply in_app_or in H. destruct H as [H | H]; [apply B1 in H | apply B2 in H]; lia. }
      match type of X with ?A1 -> ?A2 -> ?A3 -> _ => assert (H1 : A1); [| assert (H2 : A2); [| assert (H3 : A3); [| specialize (X H1 H2 H3)]]] end.
      + intros y Hy. specialize (L y Hy). lia.
      + clear -D1 D2 B1 B2. induction xs as [|x xs IH]; auto. inversion D1; subst. cbn. constructor.
        * intro H. apply in_app_or in H. destruct H as [H | H]; auto. specialize (B1 x (or_introl eq_refl)). apply B2 in H. lia.
        * apply IH; auto. intros y Hy. apply B1. right; auto.
      + intros y H. assert ((s < y)%positive /\ (y < s2)%positive).
        { apply in_app_or in H. destruct H as [H | H]; [apply B1 in H | apply B2 in H]; lia. }
        split; [lia |]. intro Z. apply L in Z. lia.
      + destruct (tess n rho l) as [vs | |]; cbn [sim_ok]; auto.
        destruct X as (c & vs' & rho2 & V & GL & GO & RR). exists c, (Vconstr (dcon_to_tag default_tag d tgm) vs').
        split; [constructor; auto |]. intro m. rewrite RR. unfold WA_Spec.peval. cbn [WA_Spec.ev]. rewrite GL.
        apply (peval_app m).
        * rewrite get_set_other by lia. rewrite GO by (apply FR; lia). exact G.
        * cbn [get_list]. rewrite get_set_same. reflexivity.
    - (* Match_e *)
      intros e1 IH1 nn bs _ [U1 [[i UI] UB]] vn k s e' s' rho rho' kv L Lk E R G. cbn [cps_cvt fresh] in E.
      dopt E [[e1' s1] |] F1. dopt E [[ps s2] |] F2. injection E as <- <-.
      pose proof (proj1 cps_grows _ _ _ _ _ _ F1) as G1.
      set (x1 := s) in *. set (k1 := (s + 1)%positive) in *.
      set (bd := Ecase x1 ps) in *. set (K1 := Vfun rho' (Fcons k1 kon_tag [x1] bd Fnil) k1) in *.
      assert (X1 : sim_ok n (tes n rho e1) (set k1 K1 rho') e1' K1).
      { eapply (IH1 U1 vn k1); [| | exact F1 | | apply get_set_same].
        - intros y Hy. specialize (L y Hy). unfold k1 in *. lia.
        - unfold k1. lia.
        - eapply erel_ext; [exact R |]. intros y Hy. apply get_set_other. specialize (L y Hy). unfold k1. lia. }
      cbn [es]. destruct (tes n rho e1) as [v1 | |]; cbn [sim_ok] in *; auto; try (intros m Lm; rewrite peval_fun1; apply X1; exact Lm).
      destruct X1 as (c1 & v1' & V1 & R1).
      destruct v1 as [d vs | | | |]; cbn [sim_ok]; auto.
      destruct (find_branch d (N.of_nat (List.length vs)) bs) as [b |] eqn:FB; cbn [sim_ok]; auto.
      inversion V1; subst. match goal with X : Forall2 vrel vs _ |- _ => rename X into VS end.
      destruct (find_known tgm bs i d _ _ UB UI FB) as [KD FI].
      set (r1 := set x1 (Vconstr (dcon_to_tag default_tag d tgm) vs') (set k1 K1 rho')).
      assert (L1 : forall y, In y vn -> (y < s1)%positive) by (intros y Hy; specialize (L y Hy); unfold k1 in *; lia).
      assert (L2 : (x1 < s1)%positive) by (unfold k1, x1 in *; lia).
      assert (L3 : (k < s1)%positive) by (unfold k1, x1 in *; lia).
      destruct (branch_ok bs x1 vn k s1 ps s2 UB F2 L1 L2 L3 d _ b FB KD) as (vars & ce & t1 & t2 & B1 & B2 & B3 & B4 & B5 & B6 & B7 & B8 & B9 & B10).
      assert (LV : List.length vars = List.length vs').
      { rewrite B2, Nnat.Nat2N.id. clear -VS. induction VS; cbn; congruence. }
      assert (GX : get x1 r1 = Some (Vconstr (dcon_to_tag default_tag d tgm) vs')) by apply get_set_same.
      destruct (proj_ok (callf 0) (dcon_to_tag default_tag d tgm) x1 vars vs' r1 GX ltac:(lia) B3 B4) as (r2 & P1 & P2 & P3).
      assert (ST : forall m, peval m r1 bd = peval m r2 ce).
      { intro m. unfold WA_Spec.peval, bd. rewrite ev_case. rewrite GX.
        rewrite (consistent_ok bs i d x1 vn k s1 ps s2 UB UI F2 KD FI), B1.
        rewrite (evc_proj _ (callf m)) in P1.
        pose proof (evc_ev (callf m) cenv pr (ctx_bind_proj (dcon_to_tag default_tag d tgm) x1 vars (List.length vars)) r1 ce) as EE.
        rewrite P1 in EE. exact EE. }
      assert (X : forall j, n = S j -> sim_ok j (eeval false j (rev vs ++ rho) b) r2 ce kv).
      { intros j ->. cbn [lower_ok] in LO. eapply (LO b B10 (vars ++ vn) k t1); [exact B7 | exact B6 | exact B9 | |].
        - apply erel_app.
          + unfold erel. rewrite LV, firstn_all in P3. clear -P3 VS.
            assert (Q : Forall2 vrel (rev vs) (rev vs')).
            { clear P3. induction VS; cbn [rev]; [constructor |]. apply Forall2_app; auto. }
            revert vars P3. induction Q; intros vars P3; inversion P3; subst; constructor; eauto.
          + eapply erel_ext; [exact R |]. intros y Hy. rewrite P2 by (apply B8; exact Hy). unfold r1.
            specialize (L y Hy). rewrite !get_set_other by (unfold k1, x1; lia). reflexivity.
        - rewrite P2 by exact B5. unfold r1. rewrite !get_set_other by (unfold k1, x1; lia). exact G. }
      destruct n as [|j]; cbn [AN_Proofs.lower sim_ok].
      + intros m Lm. rewrite peval_fun1. revert m Lm. eapply kon_late; [exact R1 |]. intros m Lm. lia.
      + specialize (X j eq_refl). destruct (eeval false j (rev vs ++ rho) b) as [w | |]; cbn [sim_ok] in *; auto.
        * destruct X as (c3 & w' & V3 & R3). exists (c1 + S c3), w'. split; auto.
          intro m. rewrite peval_fun1. revert m. eapply kon_runs; [exact R1 |].
          intro m. rewrite <- R3. apply ST.
        * intros m Lm. rewrite peval_fun1. revert m Lm. eapply kon_late; [exact R1 |].
          intros m Lm. etransitivity; [apply ST |]. apply X. lia.
    - (* Let_e *)
      intros na e1 IH1 e2 IH2 [U1 U2] vn k s e' s' rho rho' kv L Lk E R G. cbn [cps_cvt fresh] in E.
      dopt E [[e2' s1] |] F2. dopt E [[e1' s2] |] F1. injection E as <- <-.
      pose proof (proj1 cps_grows _ _ _ _ _ _ F2) as G1.
      set (x := s) in *. set (k1 := (s + 1)%positive) in *.
      set (K1 := Vfun rho' (Fcons k1 kon_tag [x] e2' Fnil) k1) in *.
      assert (X1 : sim_ok n (tes n rho e1) (set k1 K1 rho') e1' K1).
      { eapply (IH1 U1 vn k1); [| | exact F1 | | apply get_set_same].
        - intros y Hy. specialize (L y Hy). unfold k1 in *. lia.
        - unfold k1 in *. lia.
        - eapply erel_ext; [exact R |]. intros y Hy. apply get_set_other. specialize (L y Hy). unfold k1. lia. }
      cbn [es]. destruct (tes n rho e1) as [v1 | |]; cbn [sim_ok] in *; auto; try (intros m Lm; rewrite peval_fun1; apply X1; exact Lm).
      destruct X1 as (c1 & v1' & V1 & R1).
      set (r1 := set x v1' (set k1 K1 rho')).
      assert (X2 : sim_ok n (tes n (v1 :: rho) e2) r1 e2' kv).
      { eapply (IH2 U2 (x :: vn) k); [| | exact F2 | |].
        - intros y [<- | Hy]; [unfold k1, x; lia |]. specialize (L y Hy). unfold k1 in *. lia.
        - unfold k1 in *. lia.
        - constructor; [exists v1'; split; auto; apply get_set_same |].
          eapply erel_ext; [exact R |]. intros y Hy. specialize (L y Hy). unfold r1.
          rewrite !get_set_other by (unfold k1, x; lia). reflexivity.
        - unfold r1. rewrite !get_set_other by (unfold k1, x; lia). exact G. }
      destruct (tes n (v1 :: rho) e2) as [v2 | |]; cbn [sim_ok] in *; auto.
      + destruct X2 as (c2 & v2' & V2 & R2). exists (c1 + S c2), v2'. split; auto.
        intro m. rewrite peval_fun1. revert m. eapply kon_runs; [exact R1 | exact R2].
      + intros m Lm. rewrite peval_fun1. revert m Lm. eapply kon_late; [exact R1 |].
        intros m Lm. apply X2. lia.
    - (* Fix_e *)
      intros fs _ i [UI UF] vn k s e' s' rho rho' kv L Lk E R G. cbn [cps_cvt] in E.
      destruct (fresh_list (efnlength fs) s) as [ns s1] eqn:F1. dopt E [[B s2] |] F2.
      destruct (nth_error ns (N.to_nat i)) as [f |] eqn:NE; [| discriminate]. injection E as <- <-.
      destruct (fresh_list_at _ _ _ _ F1) as (N1 & M1 & B1 & D1). unfold btw in B1.
      pose proof (proj2 (proj1 (proj2 (proj2 cps_grows)) _ _ _ _ _ _ F2) N1) as FB.
      cbn [es sim_ok]. exists 0, (Vfun rho' B f). split; [eapply vr_fix; eauto |].
      intro m. cbn [Nat.add]. change (peval m (def_funs B B rho' rho') (Eapp k kon_tag [f]) = callf m kv kon_tag [Vfun rho' B f]).
      apply peval_app.
      + rewrite get_def_funs_out; auto. rewrite FB. intro X. apply B1 in X. lia.
      + cbn [get_list]. rewrite get_def_funs_in; auto. rewrite FB. eapply nth_error_In; eauto.
    - (* Prf_e *)
      intros _ vn k s e' s' rho rho' kv L Lk E R G. cbn in E. injection E as <- <-. cbn [es sim_ok].
      exists 0, (Vconstr default_tag []). split; [constructor |]. intro m. cbn [Nat.add].
      change (peval m (set s (Vconstr default_tag []) rho') (Eapp k kon_tag [s]) = callf m kv kon_tag [Vconstr default_tag []]).
      apply peval_app; [rewrite get_set_other by lia; exact G | cbn [get_list]; rewrite get_set_same; reflexivity].
    - (* Prim_val_e *)
      intros p _ vn k s e' s' rho rho' kv L Lk E R G. cbn in E. injection E as <- <-. cbn [es sim_ok].
      exists 0, (Vprim p). split; [constructor |]. intro m. cbn [Nat.add].
      change (peval m (set s (Vprim p) rho') (Eapp k kon_tag [s]) = callf m kv kon_tag [Vprim p]).
      apply peval_app; [rewrite get_set_other by lia; exact G | cbn [get_list]; rewrite get_set_same; reflexivity].
    - (* enil *)
      intros _ vn ea xs ks s e' s' rho rho' L ND FRS LX E R. cbn in E. injection E as <- <-. cbn [ess].
      exists 0, [], rho'. split; [constructor |]. destruct xs; [| discriminate]. split; [reflexivity |]. split; auto.
    - (* econs *)
      intros e1 IH1 l IH2 [U1 U2] vn ea xs ks s e' s' rho rho' L ND FRS LX E R. cbn [cps_cvt_exps] in E.
      destruct xs as [|x1 xs]; [discriminate |]. destruct ks as [|k1 ks]; [discriminate |].
      dopt E [[e1' s1] |] F1. dopt E [[e2' s2] |] F2. injection E as <- <-.
      pose proof (proj1 cps_grows _ _ _ _ _ _ F1) as G1.
      set (K1 := Vfun rho' (Fcons k1 kon_tag [x1] e2' Fnil) k1) in *.
      assert (ND' : NoDup (x1 :: k1 :: xs ++ ks)).
      { eapply Permutation_NoDup; [| exact ND]. cbn. constructor. apply Permutation_sym, Permutation_middle. }
      inversion ND' as [|? ? NX ND1]; subst. inversion ND1 as [|? ? NK ND2]; subst.
      assert (FX := FRS x1 (or_introl eq_refl)).
      assert (FK := FRS k1 ltac:(right; apply in_or_app; right; left; reflexivity)).
      assert (X1 : sim_ok n (tes n rho e1) (set k1 K1 rho') e1' K1).
      { eapply (IH1 U1 vn k1); [exact L | apply FK | exact F1 | | apply get_set_same].
        eapply erel_ext; [exact R |]. intros y Hy. apply get_set_other. intros ->. apply FK. exact Hy. }
      rewrite ess_cons. destruct (tes n rho e1) as [v1 | |]; cbn [sim_ok] in *; auto; try (intros m Lm; rewrite peval_fun1; apply X1; exact Lm).
      destruct X1 as (c1 & v1' & V1 & R1).
      set (r1 := set x1 v1' (set k1 K1 rho')).
      assert (X2 := fun A1 A3 A4 A5 => IH2 U2 vn ea xs ks s1 e2' s2 rho r1 A1 ND2 A3 A4 F2 A5).
      match type of X2 with ?A1 -> ?A2 -> ?A3 -> ?A4 -> _ => assert (H1 : A1); [| assert (H2 : A2); [| assert (H3 : A3); [| assert (H4 : A4); [| specialize (X2 H1 H2 H3 H4)]]]] end.
      + intros y Hy. specialize (L y Hy). lia.
      + intros y Hy. destruct (FRS y) as [A B]; [| split; [lia | exact B]].
        apply in_app_or in Hy. destruct Hy as [Hy | Hy]; [right; apply in_or_app; left; auto | right; apply in_or_app; right; right; auto].
      + cbn [exps_length List.length] in LX. lia.
      + eapply erel_ext; [exact R |]. intros y Hy. unfold r1. rewrite !get_set_other; auto.
        * intros ->. apply FK; exact Hy.
        * intros ->. apply FX; exact Hy.
      + destruct (tess n rho l) as [vs | |]; cbn [sim_ok] in *; auto.
        * destruct X2 as (c2 & vs' & rho2 & V & GL & GO & RR). exists (c1 + S c2), (v1' :: vs'), rho2.
          split; [constructor; auto |]. split; [| split].
          -- cbn [get_list]. rewrite GL. rewrite GO by (intro; apply NX; right; assumption). unfold r1. rewrite get_set_same. reflexivity.
          -- intros y Hy. rewrite GO.
             ++ unfold r1. rewrite !get_set_other; auto.
                ** intros ->. apply Hy. right. apply in_or_app. right. left. reflexivity.
                ** intros ->. apply Hy. left. reflexivity.
             ++ intro X. apply Hy. apply in_app_or in X. destruct X as [X | X]; [right; apply in_or_app; left; auto | right; apply in_or_app; right; right; auto].
          -- intro m. rewrite peval_fun1. replace (c1 + S c2 + m) with (c1 + S (c2 + m)) by lia.
             rewrite R1. unfold K1. rewrite call_kon. apply RR.
        * intros m Lm. rewrite peval_fun1. revert m Lm. eapply kon_late; [exact R1 |]. intros m Lm. apply X2. lia.
  Qed.

  Lemma body_sim : forall n, body_ok n (eeval false n).
  Proof.
    assert (STEP : forall n, lower_ok n -> body_ok n (eeval false n)).
    { intros n LO b U vn k s e' s' rho rho' kv L Lk E R G.
      assert (EQ : eeval false n rho b = es false (lower n) rho b) by (destruct n; reflexivity).
      rewrite EQ. eapply (proj1 (cps_sim n LO)); eauto. }
    induction n; apply STEP; cbn [lower_ok]; auto.
  Qed.

  Lemma vrel_tree : forall v v', vrel v v' -> same_tree default_tag tgm (readback v) v'.
  Proof.
    fix IH 1. intros [d vs | rho na b | rho fs n | | p] v' R; inversion R; subst; cbn [readback]; constructor.
    match goal with X : Forall2 vrel vs _ |- _ => rename X into F end.
    clear R. revert vs' F. induction vs as [|v vs IHvs]; intros vs' F; inversion F; subst; cbn [map exps_of]; constructor.
    - apply IH. assumption.
    - apply IHvs. assumption.
  Qed.

  (* The whole program. *)
  Lemma whole_sim : forall n next e e' s' , uses tgm e ->
    convert_whole_exp prims func_tag kon_tag default_tag tgm next e = Some (e', s') ->
    match eeval false n [] e with
    | EVal v => exists m v', vrel v v' /\ peval m [] e' = PVal v'
    | ETime => peval n [] e' = PTime
    | EStuck => True
    end.
  Proof.
    intros n next e e' s' U E. unfold convert_whole_exp in E. cbn [fresh] in E. dopt E [[b s1] |] F. injection E as <- <-.
    set (k := next) in *. set (f := (next + 1)%positive) in *. set (x := (f + 1)%positive) in *.
    set (B := Fcons f kon_tag [k] b (Fcons k kon_tag [x] (Ehalt x) Fnil)) in *.
    set (kv := Vfun [] B k). set (r0 := def_funs B B [] []).
    assert (GK : get k r0 = Some kv) by (apply get_def_funs_in; right; left; reflexivity).
    assert (GF : get f r0 = Some (Vfun [] B f)) by (apply get_def_funs_in; left; reflexivity).
    assert (ST : forall m, peval (S m) [] (Efun B (Eapp f kon_tag [k])) = peval m (set k kv r0) b).
    { intro m. change (peval (S m) r0 (Eapp f kon_tag [k]) = peval m (set k kv r0) b).
      rewrite (peval_app (S m) r0 f kon_tag [k] (Vfun [] B f) [kv]); [| exact GF | cbn [get_list]; rewrite GK; reflexivity].
      erewrite callf_S; [reflexivity | unfold B; cbn [find_def]; destruct (Pos.eq_dec f f); [reflexivity | congruence] | reflexivity]. }
    assert (X : sim_ok n (eeval false n [] e) (set k kv r0) b kv).
    { eapply (body_sim n e U [] k); [| | exact F | constructor | apply get_set_same].
      - intros y [].
      - unfold x, f, k. lia. }
    destruct (eeval false n [] e) as [v | |]; cbn [sim_ok] in X; auto.
    - destruct X as (c & v' & V & R). exists (S (c + 1)), v'. split; auto. rewrite ST, R.
      unfold kv. erewrite callf_S.
      2:{ unfold B. cbn [find_def]. destruct (Pos.eq_dec k f) as [Q |]; [unfold f, k in Q; lia |].
          destruct (Pos.eq_dec k k); [reflexivity | congruence]. }
      2:{ reflexivity. }
      unfold WA_Spec.peval. cbn [WA_Spec.ev]. rewrite get_set_same. reflexivity.
    - destruct n as [|n].
      + change (peval 0 r0 (Eapp f kon_tag [k]) = PTime).
        rewrite (peval_app 0 r0 f kon_tag [k] (Vfun [] B f) [kv]); [reflexivity | exact GF | cbn [get_list]; rewrite GK; reflexivity].
      + rewrite ST. apply X. lia.
  Qed.
End Conv.
