(** * Simulation: the generated C computes the value of the source program *)
From Coq Require Import ZArith NArith List Lia Bool.
Import ListNotations.
From Verif Require Import ANF_Syntax ANF_Eval ANF_EvalProofs ANF_Spec ANF_FreeProofs CG_Clight CG_Model CG_Spec CG_Stack.
Set Implicit Arguments.
Local Open Scope Z_scope.
Ltac Zify.zify_post_hook ::= idtac.

(** ** Conditions on programs *)

Section WF.
  Variable cenv : ctor_env.
  (** constructors get as many arguments as declared and do not mention the
      variable they define; what is allocated between two calls fits in 63 bits *)
  Fixpoint wf_exp (e : exp) : Prop :=
    match e with
    | Econstr x t ys e' =>
        ~ In x ys /\ (forall i, get t cenv = Some i -> ctor_arity i = N.of_nat (length ys)) /\ wf_exp e'
    | Ecase x cs => (fix go cs := match cs with [] => True | p :: cs' => wf_exp (snd p) /\ go cs' end) cs
    | Eproj _ _ _ _ e' => wf_exp e'
    | Eletapp _ _ _ _ e' => Z.of_nat (max_allocs e') < 2 ^ 63 /\ wf_exp e'
    | Efun _ _ => False
    | Eapp _ _ _ => True
    | Eprim_val _ _ e' => wf_exp e'
    | Eprim _ _ _ e' => wf_exp e'
    | Ehalt _ => True
    end.

  (** no tail call *)
  Fixpoint no_tail (e : exp) : Prop :=
    match e with
    | Econstr _ _ _ e' | Eproj _ _ _ _ e' | Eletapp _ _ _ _ e' | Eprim_val _ _ e' | Eprim _ _ _ e' => no_tail e'
    | Ecase x cs => (fix go cs := match cs with [] => True | p :: cs' => no_tail (snd p) /\ go cs' end) cs
    | Efun _ _ => True
    | Eapp _ _ _ => False
    | Ehalt _ => True
    end.
End WF.

(** variables may not be reserved identifiers *)
Definition reserved : list positive := [allocIdent; limitIdent; argsIdent; caseIdent; resultIdent; mainIdent].

(** ** Small facts *)

Lemma Some_inj A (x y : A) : Some x = Some y -> x = y.
Proof. congruence. Qed.

Lemma hdr_size a o : 0 <= o < 1024 -> 0 <= a -> Z.shiftr (1024 * a + o) 10 = a.
Proof.
  intros Ho Ha. rewrite Z.shiftr_div_pow2 by lia. change (2 ^ 10) with 1024.
  rewrite Z.mul_comm, Z.div_add_l by lia. rewrite Z.div_small by lia. lia.
Qed.

Lemma hdr_low a o : 0 <= o < 256 -> Z.land (1024 * a + o) 255 = o.
Proof.
  intros Ho. change 255 with (Z.ones 8). rewrite Z.land_ones by lia. change (2 ^ 8) with 256.
  replace (1024 * a + o) with (o + (4 * a) * 256) by lia. rewrite Z.mod_add by lia. apply Z.mod_small. lia.
Qed.

Lemma tag_enum o : Z.shiftl o 1 + 1 = 2 * o + 1.
Proof. rewrite Z.shiftl_mul_pow2 by lia. lia. Qed.

Lemma tag_boxed a o : Z.shiftl a 10 + o = 1024 * a + o.
Proof. rewrite Z.shiftl_mul_pow2 by lia. change (2 ^ 10) with 1024. lia. Qed.

Lemma shr_enum o : Z.shiftr (2 * o + 1) 1 = o.
Proof. rewrite Z.shiftr_div_pow2 by lia. change (2 ^ 1) with 2. rewrite Z.mul_comm, Z.div_add_l by lia. rewrite Z.div_small by lia. lia. Qed.

Lemma and_enum o : Z.land (2 * o + 1) 1 = 1.
Proof. change 1 with (Z.ones 1) at 2. rewrite Z.land_ones by lia. change (2 ^ 1) with 2.
  replace (2 * o + 1) with (1 + o * 2) by lia. rewrite Z.mod_add by lia. reflexivity. Qed.

Lemma makeArgList_seq vs : makeArgList vs = map N.of_nat (seq 0 (length vs)).
Proof.
  unfold makeArgList. induction vs as [|x vs IH]; [reflexivity|].
  cbn [makeArgList' rev length]. rewrite IH. rewrite seq_S, map_app. reflexivity.
Qed.

Lemma get_list_Forall2 A ys (rho : tmap A) : forall vs, get_list ys rho = Some vs ->
  Forall2 (fun y v => get y rho = Some v) ys vs.
Proof.
  induction ys as [|y ys IH]; cbn; intros vs H.
  - injection H as <-. constructor.
  - destruct (get y rho) eqn:E; [|discriminate]. destruct (get_list ys rho) eqn:E'; [|discriminate].
    injection H as <-. constructor; auto.
Qed.

Lemma Forall2_length A B (R : A -> B -> Prop) l1 l2 : Forall2 R l1 l2 -> length l1 = length l2.
Proof. induction 1; cbn; congruence. Qed.

Lemma nth_error_Forall2 A B (R : A -> B -> Prop) l1 l2 : Forall2 R l1 l2 -> forall i x,
  nth_error l1 i = Some x -> exists y, nth_error l2 i = Some y /\ R x y.
Proof.
  induction 1 as [|a b l1 l2 H F IH]; intros [|i] x E; try discriminate.
  - injection E as <-. exists b. split; [reflexivity|exact H].
  - apply IH. exact E.
Qed.

Lemma nthN_nth_error A (l : list A) : forall n, nthN l n = nth_error l (N.to_nat n).
Proof.
  induction l as [|a l IH]; intro n; cbn [nthN].
  - destruct (N.to_nat n); reflexivity.
  - destruct (N.eqb n 0) eqn:E.
    + apply N.eqb_eq in E. subst n. reflexivity.
    + apply N.eqb_neq in E. rewrite IH. replace (N.to_nat n) with (S (N.to_nat (n - 1))) by lia. reflexivity.
Qed.

Lemma inter_In x s1 s2 : In x (inter s1 s2) <-> In x s1 /\ In x s2.
Proof. unfold inter. rewrite filter_In, mem_In. reflexivity. Qed.

Lemma remove1_In x y s : In x (remove1 y s) <-> In x s /\ x <> y.
Proof.
  unfold remove1. rewrite filter_In. destruct (Pos.eqb x y) eqn:E; cbn.
  - apply Pos.eqb_eq in E. intuition congruence.
  - apply Pos.eqb_neq in E. intuition.
Qed.

Lemma NoDup_split A (l1 l2 : list A) : NoDup (l1 ++ l2) -> NoDup l1 /\ NoDup l2 /\ (forall x, In x l1 -> ~ In x l2).
Proof.
  induction l1 as [|x l1 IH]; cbn; intro H; [split; [constructor|split; [exact H|intros x []]]|].
  inversion H as [|? ? N1 N2]; subst. destruct (IH N2) as (A1 & A2 & A3).
  split; [constructor; [intro I; apply N1; apply in_or_app; left; exact I|exact A1]|]. split; [exact A2|].
  intros y [->|I]; [intro J; apply N1; apply in_or_app; right; exact J|apply A3; exact I].
Qed.

(** ** The simulation *)

Section Sim.
  Variable gc : mem -> gres.
  Hypothesis GC : gc_ok gc.
  Variable nParam : nat.
  Variable prims : tmap bool.
  Variable cenv : ctor_env.
  Hypothesis CE : cenv_ok cenv.
  Variable fenv : tmap (N * list N).
  Variable fmap : tmap (positive * positive).
  Variable B0 : fundefs.
  (** the number of arguments the table says functions with a given tag have *)
  Variable ar : positive -> nat.
  Variable prog : cprog.

  Notation tb := (translate_body nParam false prims fenv cenv fmap).
  Notation mv := (fun x => makeVar x fenv fmap).

  Hypothesis Hfun : forall x, In x (fnames B0) -> makeVar x fenv fmap = Xfun x.
  Hypothesis Htemp : forall x, ~ In x (fnames B0) -> x <> mainIdent -> makeVar x fenv fmap = Xtemp x.
  Hypothesis Hfenv : forall t inf, get t fenv = Some inf -> inf = (N.of_nat (ar t), map N.of_nat (seq 0 (ar t))).
  Hypothesis Hres : forall x, In x reserved -> ~ In x (fnames B0).
  Hypothesis Hgc : ~ In gcIdent (fnames B0).

  (** a variable name that is neither a function nor reserved *)
  Definition okname (x : positive) : Prop := ~ In x (fnames B0) /\ ~ In x reserved.

  (** values: constructors with the declared number of fields, functions of the program *)
  Inductive wfv : val -> Prop :=
  | wfv_constr t vs i : get t cenv = Some i -> N.of_nat (length vs) = ctor_arity i -> Forall wfv vs -> wfv (Vconstr t vs)
  | wfv_fun f : In f (fnames B0) -> wfv (Vfun [] B0 f).

  Definition okv (m : mem) (a : Z) (v : val) (w : cval) : Prop := hr m a (enc cenv v) w /\ wfv v.

  (** what the environment says about one variable *)
  Definition envv (L : list positive) (rho : env) (t : tmap cval) (m : mem) (a : Z) (x : positive) : Prop :=
    (In x (fnames B0) /\ get x rho = Some (Vfun [] B0 x)) \/
    (In x L /\ exists v w, get x rho = Some v /\ get x t = Some w /\ okv m a v w).

  Record INV (L : list positive) (size : Z) (id : positive) (ids : list positive) (fp0 : cval)
      (rho : env) (e : exp) (t : tmap cval) (m : mem) (a : Z) : Prop := {
    iv_lk : LK id fp0 ids size 0 m a;
    iv_t : temps_ok t m a;
    iv_b : a + Z.of_nat (max_allocs e) <= m_hi m;
    iv_env : forall x, free x e -> envv L rho t m a x }.

  (** the outcome of running a body: abort, return of a right value, or (if [T])
      not enough fuel *)
  Definition good (T : Prop) (Q : val -> Prop) (id : positive) (ids : list positive) (fp0 : cval) (m : mem) (a : Z) (r : sres) : Prop :=
    (T /\ r = RTime) \/ r = RAbort \/
    exists v w t' m' a', Q v /\ r = ROk (Oret w) t' m' /\ area m' a' /\ m_lo m' <= a' <= m_hi m' /\
      m_fp m' = fp0 /\ keepf m a ids id m' a' /\ okv m' a' v w.

  Definition body_ok (T : Prop) (Q : val -> Prop) (k : nat) (rho : env) (e : exp) : Prop :=
    forall fv L locs decl id ids fp0 size t m a s slots n,
      tb fv L locs e slots = Some (s, n) -> Z.of_N n <= size -> size < 2 ^ 63 ->
      (forall x, In x L -> okname x) -> incl (get_locals e) L -> incl L decl ->
      In allocIdent decl -> In limitIdent decl -> In argsIdent decl ->
      (In resultIdent decl \/ no_tail e) -> wf_exp cenv e ->
      INV L size id ids fp0 rho e t m a ->
      good T Q id ids fp0 m a (exec gc (run gc gcIdent prog k) decl gcIdent id s t m).

  Lemma exec_seq call decl id s1 s2 t m :
    exec gc call decl gcIdent id (Sseq s1 s2) t m = andthen (exec gc call decl gcIdent id s1 t m) (exec gc call decl gcIdent id s2).
  Proof. reflexivity. Qed.

  Lemma okname_res x y : okname x -> In y reserved -> x <> y.
  Proof. intros [_ H] I ->. contradiction. Qed.

  Lemma assign_temp_ok decl x v t m : In x decl -> assign_temp decl x v t m = ROk Onormal (set x v t) m.
  Proof. intro I. unfold assign_temp. apply mem_In in I. rewrite I. reflexivity. Qed.

  (** ** Reading variables *)

  (** [y] evaluates to [w] in every memory *)
  Definition evv (t : tmap cval) (y : positive) (w : cval) : Prop :=
    (makeVar y fenv fmap = Xfun y /\ w = VF y) \/ (makeVar y fenv fmap = Xtemp y /\ get y t = Some w).

  Lemma evv_eval id t m y w : evv t y w -> eval id t m (makeVar y fenv fmap) = Some w.
  Proof. intros [[-> ->]|[-> H]]; cbn [eval]; auto. Qed.

  Lemma envv_evv L rho t m a y v : envv L rho t m a y -> (forall x, In x L -> okname x) -> get y rho = Some v ->
    exists w, evv t y w /\ okv m a v w /\ (In y L \/ In y (fnames B0)).
  Proof.
    intros [[I G]|(I & v' & w & G & T & O)] HL E.
    - rewrite E in G. injection G as ->. exists (VF y). split; [left; auto|]. split; [|auto]. split; [constructor|constructor; exact I].
    - rewrite E in G. injection G as <-. exists w. split; [right; split; [|exact T]|auto].
      destruct (HL y I) as [N R]. apply Htemp; [exact N|]. intros ->. apply R. cbn. tauto.
  Qed.

  Lemma evv_agree t t' y w : evv t y w -> get y t' = get y t -> evv t' y w.
  Proof. intros [H|[H1 H2]] E; [left; exact H|right; split; [exact H1|congruence]]. Qed.

  Lemma envv_list L rho t m a : forall ys vs, (forall y, In y ys -> envv L rho t m a y) -> (forall x, In x L -> okname x) ->
    get_list ys rho = Some vs -> exists ws, Forall2 (evv t) ys ws /\ Forall2 (okv m a) vs ws.
  Proof.
    induction ys as [|y ys IH]; cbn; intros vs He HL H.
    - injection H as <-. exists []. auto.
    - destruct (get y rho) as [v|] eqn:E; [|discriminate]. destruct (get_list ys rho) as [vs'|] eqn:E'; [|discriminate].
      injection H as <-. destruct (IH vs') as (ws & F1 & F2); auto.
      destruct (envv_evv (He y (or_introl eq_refl)) HL E) as (w & W1 & W2 & _).
      exists (w :: ws). auto.
  Qed.

  (** ** Argument passing *)

  Lemma exec_args decl id k : forall vs ws j t m,
    Forall2 (evv t) vs ws -> get argsIdent t = Some (VP BArgs 0) -> (length vs = 0 \/ j + length vs <= 1024)%nat ->
    forall s, asgnAppVars'' vs (map N.of_nat (seq j (length vs))) fenv fmap = Some s ->
    exists A, exec gc k decl gcIdent id s t m = ROk Onormal t (set_args m A) /\
      (forall i w, nth_error ws i = Some w -> A (Z.of_nat (j + i)) = Some w).
  Proof.
    induction vs as [|v vs IH]; intros ws j t m F Ga Hj s E.
    - inversion F; subst. cbn in E. injection E as <-. exists (m_args m). split; [destruct m; reflexivity|].
      intros [|i] w H; discriminate.
    - inversion F as [|? w0 ? ws' W F']; subst. cbn [length seq map asgnAppVars''] in E.
      destruct (asgnAppVars'' vs (map N.of_nat (seq (S j) (length vs))) fenv fmap) as [s'|] eqn:E'; [|discriminate].
      injection E as <-. cbn [length] in Hj.
      destruct (IH ws' (S j) t m F' Ga ltac:(lia) s' E') as (A & Ex & HA).
      exists (upd A (Z.of_nat j) w0). split.
      + rewrite exec_seq, Ex. cbn [andthen exec]. rewrite (evv_eval id (set_args m A) W).
        cbn [assign argsE]. unfold argsE. cbn [assign eval]. rewrite Ga.
        change (if (- 2 ^ 63 <=? Z.of_N (N.of_nat j)) && (Z.of_N (N.of_nat j) <? 2 ^ 64) then Some (VZ (Z.of_N (N.of_nat j))) else None)
          with (eval id t (set_args m A) (Xconst (Z.of_N (N.of_nat j)))).
        rewrite eval_const by (change (2 ^ 63) with 9223372036854775808; lia).
        cbn [binop_eval store]. rewrite Z.add_0_l, nat_N_Z. unfold maxArgs.
        assert (Q : (0 <=? Z.of_nat j) && (Z.of_nat j <? 1024) = true).
        { apply andb_true_iff. rewrite Z.leb_le, Z.ltb_lt. lia. }
        rewrite Q. reflexivity.
      + intros [|i] w H; cbn [nth_error] in H; unfold upd.
        * injection H as <-. rewrite Nat.add_0_r, Z.eqb_refl. reflexivity.
        * destruct (Z.of_nat (j + S i) =? Z.of_nat j) eqn:Q; [apply Z.eqb_eq in Q; lia|].
          rewrite <- (HA i w H). f_equal. lia.
  Qed.

  Lemma exec_params decl id k : forall vs j t m s,
    asgnFunVars' vs (map N.of_nat (seq j (length vs))) = Some s ->
    get argsIdent t = Some (VP BArgs 0) -> (length vs = 0 \/ j + length vs <= 1024)%nat -> incl vs decl -> ~ In argsIdent vs -> NoDup vs ->
    (forall i, (i < length vs)%nat -> exists w, m_args m (Z.of_nat (j + i)) = Some w) ->
    exists t', exec gc k decl gcIdent id s t m = ROk Onormal t' m /\
      (forall i x, nth_error vs i = Some x -> get x t' = m_args m (Z.of_nat (j + i))) /\
      (forall x, ~ In x vs -> get x t' = get x t).
  Proof.
    induction vs as [|v vs IH]; intros j t m s E Ga Hj D Na ND HA.
    - cbn in E. injection E as <-. exists t. split; [reflexivity|]. split; [intros [|i] x H; discriminate|auto].
    - cbn [length seq map asgnFunVars'] in E.
      destruct (asgnFunVars' vs (map N.of_nat (seq (S j) (length vs)))) as [s'|] eqn:E'; [|discriminate].
      injection E as <-. cbn [length] in *.
      destruct (HA 0%nat ltac:(lia)) as (w & W). rewrite Nat.add_0_r in W.
      destruct (IH (S j) (set v w t) m s' E') as (t' & Ex & P1 & P2).
      + rewrite get_set_other; [exact Ga|]. intro Q. apply Na. left. congruence.
      + lia.
      + intros y I. apply D. right. exact I.
      + intro I. apply Na. right. exact I.
      + inversion ND; assumption.
      + intros i Hi. destruct (HA (S i) ltac:(lia)) as (w' & W'). exists w'. rewrite <- W'. f_equal. lia.
      + exists t'. split; [|split].
        * rewrite exec_seq. cbn [exec]. unfold argsE. cbn [eval]. rewrite Ga.
          change (if (- 2 ^ 63 <=? Z.of_N (N.of_nat j)) && (Z.of_N (N.of_nat j) <? 2 ^ 64) then Some (VZ (Z.of_N (N.of_nat j))) else None)
            with (eval id t m (Xconst (Z.of_N (N.of_nat j)))).
          rewrite eval_const by (change (2 ^ 63) with 9223372036854775808; lia).
          cbn [binop_eval load]. rewrite Z.add_0_l, nat_N_Z. unfold maxArgs.
          assert (Q : (0 <=? Z.of_nat j) && (Z.of_nat j <? 1024) = true).
          { apply andb_true_iff. rewrite Z.leb_le, Z.ltb_lt. lia. }
          rewrite Q, W. rewrite assign_temp_ok by (apply D; left; reflexivity). cbn [andthen]. exact Ex.
        * intros [|i] x H; cbn [nth_error] in H.
          -- injection H as <-. rewrite P2 by (inversion ND; assumption). rewrite get_set_same. rewrite Nat.add_0_r. congruence.
          -- rewrite (P1 i x H). f_equal. lia.
        * intros x Nx. rewrite P2 by (intro I; apply Nx; right; exact I). apply get_set_other. intros ->. apply Nx. left. reflexivity.
  Qed.

  Lemma eval_callvars id t m : forall n vs ws es, mkCallVars fenv fmap n vs = Some es -> Forall2 (evv t) vs ws ->
    eval_list id t m es = Some ws.
  Proof.
    induction n as [|n IH]; intros [|v vs] ws es E F; cbn in E; try discriminate.
    - injection E as <-. inversion F; subst. reflexivity.
    - destruct (mkCallVars fenv fmap n vs) as [r|] eqn:E'; [|discriminate]. injection E as <-.
      inversion F as [|? w ? ws' W F']; subst. cbn [eval_list]. rewrite (evv_eval id m W), (IH vs ws' r E' F'). reflexivity.
  Qed.

  Lemma Forall2_firstn A B (R : A -> B -> Prop) n : forall l1 l2, Forall2 R l1 l2 -> Forall2 R (firstn n l1) (firstn n l2).
  Proof. induction n; intros l1 l2 F; cbn; [constructor|]. destruct F; constructor; auto. Qed.

  Lemma Forall2_skipn A B (R : A -> B -> Prop) n : forall l1 l2, Forall2 R l1 l2 -> Forall2 R (skipn n l1) (skipn n l2).
  Proof. induction n; intros l1 l2 F; cbn; [exact F|]. destruct F; [constructor|]. auto. Qed.

  Lemma skipn_seq n : forall j len, skipn n (seq j len) = seq (j + n) (len - n).
  Proof.
    induction n as [|n IH]; intros j len; cbn [skipn].
    - rewrite Nat.add_0_r, Nat.sub_0_r. reflexivity.
    - destruct len as [|len]; [reflexivity|]. cbn [seq]. rewrite IH. f_equal; lia.
  Qed.

  Lemma skipn_map A B (f : A -> B) n : forall l, skipn n (map f l) = map f (skipn n l).
  Proof. induction n; intros [|x l]; cbn; auto. Qed.

  Lemma nth_error_skipn A n : forall (l : list A) i, nth_error (skipn n l) i = nth_error l (n + i).
  Proof. induction n; intros [|x l] i; cbn; auto. destruct i; reflexivity. Qed.

  (** ** Constructors *)

  Lemma exec_fields decl id k x p : forall vs ws j t m,
    Forall2 (evv t) vs ws -> get x t = Some (VP BHeap p) ->
    m_lo m <= p + Z.of_nat j -> p + Z.of_nat (j + length vs) <= m_hi m -> Z.of_nat (j + length vs) < 2 ^ 63 ->
    exists h, exec gc k decl gcIdent id (assignConstructorS' fenv fmap x j vs) t m = ROk Onormal t (set_heap m h) /\
      (forall i w, nth_error ws i = Some w -> h (p + Z.of_nat (j + i)) = Some w) /\
      (forall y, y < p + Z.of_nat j \/ p + Z.of_nat (j + length vs) <= y -> h y = m_heap m y).
  Proof.
    induction vs as [|v vs IH]; intros ws j t m F Gx H1 H2 H3.
    - inversion F; subst. exists (m_heap m). split; [destruct m; reflexivity|]. split; [intros [|i] w H; discriminate|auto].
    - inversion F as [|? w0 ? ws' W F']; subst. cbn [length] in *.
      set (m1 := set_heap m (upd (m_heap m) (p + Z.of_nat j) w0)).
      assert (E1 : exec gc k decl gcIdent id (Sassign (Field (Xtemp x) (Z.of_nat j)) (makeVar v fenv fmap)) t m = ROk Onormal t m1).
      { cbn [exec]. rewrite (evv_eval id m W). unfold Field. cbn [assign eval]. rewrite Gx.
        change (if (- 2 ^ 63 <=? Z.of_nat j) && (Z.of_nat j <? 2 ^ 64) then Some (VZ (Z.of_nat j)) else None)
          with (eval id t m (Xconst (Z.of_nat j))).
        rewrite eval_const by (change (2 ^ 63) with 9223372036854775808 in *; lia).
        cbn [binop_eval store].
        assert (Q : (m_lo m <=? p + Z.of_nat j) && (p + Z.of_nat j <? m_hi m) = true).
        { apply andb_true_iff. rewrite Z.leb_le, Z.ltb_lt. lia. }
        rewrite Q. reflexivity. }
      destruct (IH ws' (j + 1)%nat t m1 F' Gx) as (h & Ex & P1 & P2).
      + cbn [m1 set_heap m_lo]. lia.
      + cbn [m1 set_heap m_hi]. lia.
      + lia.
      + exists h. split; [|split].
        * destruct vs as [|v' vs'].
          -- cbn [assignConstructorS'] in *. rewrite E1. apply (f_equal (fun r => match r with ROk _ _ m => m_heap m | _ => h end)) in Ex.
             cbn [exec set_heap m_heap] in Ex. rewrite <- Ex. reflexivity.
          -- cbn [assignConstructorS']. cbn [assignConstructorS'] in Ex. rewrite exec_seq, E1. cbn [andthen]. rewrite Ex. reflexivity.
        * intros [|i] w H; cbn [nth_error] in H.
          -- injection H as <-. rewrite P2 by lia. cbn [m1 set_heap m_heap]. unfold upd. rewrite Nat.add_0_r, Z.eqb_refl. reflexivity.
          -- rewrite <- (P1 i w H). f_equal. lia.
        * intros y Hy. rewrite P2 by lia. cbn [m1 set_heap m_heap]. unfold upd.
          destruct (y =? p + Z.of_nat j) eqn:Q; [apply Z.eqb_eq in Q; lia|reflexivity].
  Qed.

  Definition cost (ys : list positive) : nat := match ys with [] => 0 | _ => S (length ys) end.

  (** without the frames *)
  Lemma exec_constr0 decl id k x t0 ys vs ws t m a s :
    assignConstructorS cenv fenv fmap x t0 ys = Some s ->
    (forall i, get t0 cenv = Some i -> ctor_arity i = N.of_nat (length ys)) ->
    ~ In x ys -> okname x -> In x decl -> In allocIdent decl -> (forall y, In y ys -> y <> allocIdent) ->
    m_lo m <= a <= m_hi m -> temps_ok t m a -> a + Z.of_nat (cost ys) <= m_hi m ->
    Forall2 (evv t) ys ws -> Forall2 (okv m a) vs ws ->
    exists t' m' a' w, exec gc k decl gcIdent id s t m = ROk Onormal t' m' /\
      (exists h, m' = set_heap m h) /\ temps_ok t' m' a' /\ a' = a + Z.of_nat (cost ys) /\
      (forall v w, hr m a v w -> hr m' a' v w) /\
      get x t' = Some w /\ okv m' a' (Vconstr t0 vs) w /\
      (forall y, y <> x -> y <> allocIdent -> get y t' = get y t).
  Proof.
    intros E Har Nx Ox Dx Da Ny Ar T Hb F1 F2.
    unfold assignConstructorS in E. destruct (makeTagZ cenv t0) as [tag|] eqn:Et; [|discriminate].
    unfold makeTagZ in Et. unfold make_ctor_rep in *. destruct (get t0 cenv) as [i|] eqn:Ei; [|discriminate].
    specialize (Har i eq_refl).
    assert (Lvs : length vs = length ys).
    { apply Forall2_length in F1. apply Forall2_length in F2. congruence. }
    assert (WV : wfv (Vconstr t0 vs)).
    { econstructor; [exact Ei| |].
      - rewrite Har, Lvs. reflexivity.
      - clear -F2. induction F2 as [|v w vs ws [_ H] F IH]; constructor; auto. }
    destruct T as [Ta Tl].
    destruct (N.eqb (ctor_arity i) 0) eqn:Ea.
    - apply N.eqb_eq in Ea. apply Some_inj in Et. apply Some_inj in E. subst tag s.
      assert (Y0 : ys = []). { destruct ys; [reflexivity|]. cbn [length] in Har. lia. }
      subst ys. cbn [cost] in *. rewrite Z.add_0_r in *.
      pose proof (ce_enum CE t0 Ei Ea) as Ho.
      exists (set x (VZ (2 * Z.of_N (ctor_ordinal i) + 1)) t), m, a, (VZ (2 * Z.of_N (ctor_ordinal i) + 1)).
      rewrite tag_enum.
      assert (R : 0 <= 2 * Z.of_N (ctor_ordinal i) + 1 < 2 ^ 63).
      { change (2 ^ 63) with 9223372036854775808. change (2 ^ 62) with 4611686018427387904 in Ho. lia. }
      split; [|split; [exists (m_heap m); destruct m; reflexivity|split; [|split; [reflexivity|split; [auto|split; [|split]]]]]].
      + cbn [exec]. rewrite eval_const by (change (2 ^ 63) with 9223372036854775808 in *; lia). apply assign_temp_ok. exact Dx.
      + split; rewrite get_set_other; auto; intro Q; destruct Ox as [_ Ox]; apply Ox; rewrite <- Q; cbn; tauto.
      + apply get_set_same.
      + split; [|exact WV]. cbn [enc]. rewrite Ei, Ea. constructor.
      + intros y N1 N2. apply get_set_other. exact N1.
    - pose proof Ea as Ea'. apply N.eqb_neq in Ea. apply Some_inj in Et. apply Some_inj in E. subst tag s.
      destruct (ce_boxed CE t0 Ei Ea) as [Ho Hn].
      assert (Yn : cost ys = S (length ys)). { destruct ys; [cbn [length] in Har; lia|reflexivity]. }
      rewrite Yn in *. rewrite tag_boxed.
      set (hdr := 1024 * Z.of_N (ctor_arity i) + Z.of_N (ctor_ordinal i)).
      assert (Rh : 0 <= hdr < 2 ^ 63).
      { unfold hdr. change (2 ^ 63) with 9223372036854775808. change (2 ^ 53) with 9007199254740992 in Hn. lia. }
      assert (Rn : Z.of_nat (length ys) < 2 ^ 53). { rewrite <- nat_N_Z, <- Har. exact Hn. }
      set (t1 := set x (VP BHeap (a + 1)) t).
      set (t2 := set allocIdent (VP BHeap (a + Z.of_N (ctor_arity i + 1))) t1).
      assert (Nxa : x <> allocIdent) by (apply (okname_res Ox); cbn; tauto).
      assert (Nxl : x <> limitIdent) by (apply (okname_res Ox); cbn; tauto).
      assert (Gx2 : get x t2 = Some (VP BHeap (a + 1))).
      { unfold t2. rewrite get_set_other by exact Nxa. apply get_set_same. }
      set (m1 := set_heap m (upd (m_heap m) a (VZ hdr))).
      assert (E0 : forall rest, exec gc k decl gcIdent id (Sseq (Sseq (Sseq (Sset x (Xcast (Xbin Oadd (Xtemp allocIdent) (Xconst 1))))
                             (Sset allocIdent (Xbin Oadd (Xtemp allocIdent) (Xconst (Z.of_N (ctor_arity i + 1))))))
                       (Sassign (Field (Xtemp x) (-1)) (Xconst hdr))) rest) t m = exec gc k decl gcIdent id rest t2 m1).
      { intro rest. rewrite !exec_seq. cbn [exec].
        assert (E1 : eval id t m (Xcast (Xbin Oadd (Xtemp allocIdent) (Xconst 1))) = Some (VP BHeap (a + 1))).
        { cbn [eval]. rewrite Ta. reflexivity. }
        rewrite E1. rewrite assign_temp_ok by exact Dx. cbn [andthen]. fold t1.
        assert (E2 : eval id t1 m (Xbin Oadd (Xtemp allocIdent) (Xconst (Z.of_N (ctor_arity i + 1)))) = Some (VP BHeap (a + Z.of_N (ctor_arity i + 1)))).
        { cbn [eval]. unfold t1. rewrite get_set_other by (intro Q; apply Nxa; congruence). rewrite Ta.
          change (if (- 2 ^ 63 <=? Z.of_N (ctor_arity i + 1)) && (Z.of_N (ctor_arity i + 1) <? 2 ^ 64) then Some (VZ (Z.of_N (ctor_arity i + 1))) else None)
            with (eval id t m (Xconst (Z.of_N (ctor_arity i + 1)))).
          rewrite eval_const; [reflexivity|]. change (2 ^ 63) with 9223372036854775808. change (2 ^ 53) with 9007199254740992 in Hn. lia. }
        rewrite E2. rewrite assign_temp_ok by exact Da. cbn [andthen]. fold t2.
        rewrite eval_const by (change (2 ^ 63) with 9223372036854775808 in *; lia).
        unfold Field. cbn [assign].
        assert (E3 : eval id t2 m (Xbin Oadd (Xcast (Xtemp x)) (Xconst (-1))) = Some (VP BHeap a)).
        { cbn [eval]. rewrite Gx2. cbn [binop_eval]. change (if (- 2 ^ 63 <=? -1) && (-1 <? 2 ^ 64) then Some (VZ (-1)) else None) with (Some (VZ (-1))).
          cbn [binop_eval]. f_equal. f_equal. lia. }
        rewrite E3. cbn [store].
        assert (Q : (m_lo m <=? a) && (a <? m_hi m) = true).
        { apply andb_true_iff. rewrite Z.leb_le, Z.ltb_lt. lia. }
        rewrite Q. reflexivity. }
      rewrite E0.
      assert (F1' : Forall2 (evv t2) ys ws).
      { clear -F1 Nx Ny. induction F1 as [|y w ys ws H F IH]; constructor.
        - eapply evv_agree; [exact H|]. unfold t2, t1. rewrite !get_set_other; [reflexivity| |].
          + intros ->. apply Nx. left. reflexivity.
          + apply Ny. left. reflexivity.
        - apply IH; [intro I; apply Nx; right; exact I|intros y' I; apply Ny; right; exact I]. }
      destruct (@exec_fields decl id k x (a + 1) ys ws 0 t2 m1 F1' Gx2) as (h & Ex & P1 & P2).
      { cbn [m1 set_heap m_lo]. lia. }
      { cbn [m1 set_heap m_hi]. lia. }
      { change (2 ^ 63) with 9223372036854775808. change (2 ^ 53) with 9007199254740992 in Rn. lia. }
      rewrite Ex. cbn [Nat.add] in P1, P2. cbn [m1 set_heap m_heap] in P2.
      set (m2 := set_heap m1 h). set (a2 := a + Z.of_nat (S (length ys))).
      assert (HM : forall v w, hr m a v w -> hr m2 a2 v w).
      { intros v w H. eapply hr_mono; [exact H|]. intros y O. cbn [m2 m1 set_heap m_hi m_heap].
        unfold outside in *. split; [unfold a2; lia|]. rewrite P2 by lia. unfold upd.
        destruct (y =? a) eqn:Q; [apply Z.eqb_eq in Q; lia|reflexivity]. }
      assert (Ha2 : a + Z.of_N (ctor_arity i + 1) = a2). { unfold a2. rewrite Har. lia. }
      exists t2, m2, a2, (VP BHeap (a + 1)).
      split; [reflexivity|].
      split; [exists h; reflexivity|split; [|split; [reflexivity|split; [exact HM|split; [exact Gx2|split]]]]].
      + split.
        * unfold t2. rewrite get_set_same, Ha2. reflexivity.
        * unfold t2, t1. rewrite !get_set_other; [exact Tl| |discriminate]. intro Q; apply Nxl; congruence.
      + split; [|exact WV]. cbn [enc]. rewrite Ei, Ea'. fold hdr.
        assert (Lf : length (map (enc cenv) vs) = length ys) by (rewrite map_length; exact Lvs).
        unfold hr. apply HR_block with (ws := fun j => nth j ws (VZ 0)).
        * cbn [m2 set_heap m_heap]. rewrite P2 by lia. unfold upd.
          replace (a + 1 - 1 =? a) with true by (symmetry; apply Z.eqb_eq; lia). reflexivity.
        * unfold outside, a2. lia.
        * unfold hdr. rewrite hdr_size by lia. rewrite Lf, Har. lia.
        * unfold hdr. rewrite hdr_low by lia. lia.
        * intros j v Ej. assert (Lj : (j < length ys)%nat).
          { rewrite <- Lf. apply nth_error_Some. congruence. }
          split; [unfold outside, a2; lia|]. cbn [m2 set_heap m_heap]. apply P1.
          apply nth_error_nth'. apply Forall2_length in F1. lia.
        * intros j v Ej. rewrite nth_error_map in Ej. destruct (nth_error vs j) as [v'|] eqn:Ev; [|discriminate].
          injection Ej as <-. destruct (nth_error_Forall2 F2 j Ev) as (w & Ew & [O _]).
          rewrite (nth_error_nth _ _ _ Ew). apply HM in O. exact O.
      + intros y N1 N2. unfold t2, t1. rewrite !get_set_other by assumption. reflexivity.
  Qed.

  Lemma exec_constr decl id ids fp0 size k x t0 ys vs ws t m a s :
    assignConstructorS cenv fenv fmap x t0 ys = Some s ->
    (forall i, get t0 cenv = Some i -> ctor_arity i = N.of_nat (length ys)) ->
    ~ In x ys -> okname x -> In x decl -> In allocIdent decl -> (forall y, In y ys -> y <> allocIdent) ->
    LK id fp0 ids size 0 m a -> temps_ok t m a -> a + Z.of_nat (cost ys) <= m_hi m ->
    Forall2 (evv t) ys ws -> Forall2 (okv m a) vs ws ->
    exists t' m' a' w, exec gc k decl gcIdent id s t m = ROk Onormal t' m' /\
      LK id fp0 ids size 0 m' a' /\ temps_ok t' m' a' /\ m_hi m' = m_hi m /\ a' = a + Z.of_nat (cost ys) /\
      keepf m a ids id m' a' /\ (forall v w, hr m a v w -> hr m' a' v w) /\
      get x t' = Some w /\ okv m' a' (Vconstr t0 vs) w /\
      (forall y, y <> x -> y <> allocIdent -> get y t' = get y t).
  Proof.
    intros E Har Nx Ox Dx Da Ny K T Hb F1 F2. pose proof (wf_area (lk_wf K)) as Ar.
    destruct (@exec_constr0 decl id k x t0 ys vs ws t m a s E Har Nx Ox Dx Da Ny Ar T Hb F1 F2)
      as (t' & m' & a' & w & Ex & (h & ->) & T' & -> & HM & Gx & O & Ot).
    assert (KF : forall b, keepf m a ids b (set_heap m h) (a + Z.of_nat (cost ys))).
    { intro b. apply keepf_same; [cbn; lia|exact HM|reflexivity]. }
    exists t', (set_heap m h), (a + Z.of_nat (cost ys)), w. split; [exact Ex|].
    split; [|split; [exact T'|split; [reflexivity|split; [reflexivity|split; [apply KF|split; [exact HM|split; [exact Gx|split; [exact O|exact Ot]]]]]]]].
    eapply LK_keepf; [exact K|apply KF|reflexivity|]. cbn [set_heap m_lo m_hi]. lia.
  Qed.

  (** ** Environments *)

  Lemma envv_mono L rho t m a x t' m' a' :
    envv L rho t m a x -> (forall v w, hr m a v w -> hr m' a' v w) -> get x t' = get x t -> envv L rho t' m' a' x.
  Proof.
    intros [H|(I & v & w & G & T & O1 & O2)] HM E; [left; exact H|].
    right. split; [exact I|]. exists v, w. split; [exact G|]. split; [congruence|]. split; auto.
  Qed.

  Lemma envv_set L rho t m a x v w : In x L -> get x t = Some w -> okv m a v w -> envv L (set x v rho) t m a x.
  Proof. intros I G O. right. split; [exact I|]. exists v, w. rewrite get_set_same. auto. Qed.

  Lemma envv_set_other L rho t m a x y v : y <> x -> envv L rho t m a y -> envv L (set x v rho) t m a y.
  Proof.
    intros N [[I G]|(I & v' & w & G & T & O)].
    - left. rewrite get_set_other by exact N. auto.
    - right. split; [exact I|]. exists v', w. rewrite get_set_other by exact N. auto.
  Qed.

  Lemma good_pre T Q id ids fp0 m a m1 a1 r : keepf m a ids id m1 a1 -> good T Q id ids fp0 m1 a1 r -> good T Q id ids fp0 m a r.
  Proof.
    intros K [H|[->|(v & w & t' & m' & a' & HQ & E & A & B & F & KF & O)]]; [left; exact H|right; left; reflexivity|].
    right. right. exists v, w, t', m', a'. split; [exact HQ|]. split; [exact E|]. split; [exact A|]. split; [exact B|].
    split; [exact F|]. split; [|exact O]. eapply keepf_trans; [exact K|exact KF].
  Qed.

  (** ** Calls *)

  Lemma set_lists_nth A xs : forall (vs : list A) rho rho' i x v, set_lists xs vs rho = Some rho' -> NoDup xs ->
    nth_error xs i = Some x -> nth_error vs i = Some v -> get x rho' = Some v.
  Proof.
    induction xs as [|y xs IH]; intros [|w vs] rho rho' i x v H ND E1 E2; cbn in H; try discriminate.
    - destruct i; discriminate.
    - destruct (set_lists xs vs rho) as [r|] eqn:E; [|discriminate]. injection H as <-.
      destruct i as [|i]; cbn in E1, E2.
      + injection E1 as <-. injection E2 as <-. apply get_set_same.
      + inversion ND as [|? ? N1 N2]; subst. rewrite get_set_other; [eapply IH; eauto|].
        intros ->. apply N1. eapply nth_error_In. exact E1.
  Qed.

  Lemma firstn_nth_error A n : forall (l : list A) i, (i < n)%nat -> nth_error (firstn n l) i = nth_error l i.
  Proof. induction n; intros [|x l] i H; cbn; try lia; auto. destruct i; cbn; [reflexivity|]. apply IHn. lia. Qed.

  Lemma asgnFun_len : forall vs ind s, asgnFunVars' vs ind = Some s -> length vs = length ind.
  Proof.
    induction vs as [|v vs IH]; intros [|i ind] s E; cbn [asgnFunVars'] in E; try discriminate; [reflexivity|].
    destruct (asgnFunVars' vs ind) eqn:E'; [|discriminate]. cbn. f_equal. eapply IH. exact E'.
  Qed.
  Lemma asgnApp_len : forall vs ind s, asgnAppVars'' vs ind fenv fmap = Some s -> length vs = length ind.
  Proof.
    induction vs as [|v vs IH]; intros [|i ind] s E; cbn [asgnAppVars''] in E; try discriminate; [reflexivity|].
    destruct (asgnAppVars'' vs ind fenv fmap) eqn:E'; [|discriminate]. cbn. f_equal. eapply IH. exact E'.
  Qed.

  Definition locs_of (t : positive) : list N := map N.of_nat (seq 0 (ar t)).
  Definition loc_ids (xs : list positive) (e : exp) : list positive := union_list (union_list [] xs) (get_locals e).
  Definition live_at_entry (xs : list positive) (e : exp) : list positive := inter (ANF_Syntax.exp_fv e) (union_list [] xs).

  (** the C function for a source function *)
  Definition cfun_of (xs : list positive) (e : exp) (asgn s : stmt) (n : N) : cfun :=
    {| cf_params := firstn nParam xs;
       cf_temps := (skipn nParam xs ++ get_locals e) ++ [allocIdent; limitIdent; argsIdent; caseIdent; resultIdent];
       cf_slots := Z.of_N (N.max (N.of_nat (length (live_at_entry xs e))) n);
       cf_body := fold_right Sseq s
                    [Sset allocIdent (Xtinfo Talloc); Sset limitIdent (Xtinfo Tlimit);
                     Sset argsIdent (Xtinfo Targs); asgn; init_stack;
                     fst (make_GC_call (max_allocs e) (live_at_entry xs e) 0)] |}.

  Hypothesis Hprog : forall f t xs e, find_def f B0 = Some (t, xs, e) ->
    exists asgn s n, asgnFunVars nParam xs (locs_of t) = Some asgn /\
      tb xs (loc_ids xs e) (locs_of t) e 0 = Some (s, n) /\
      get f prog = Some (cfun_of xs e asgn s n) /\
      Z.of_N (N.max (N.of_nat (length (live_at_entry xs e))) n) < 2 ^ 63.
  Hypothesis Hwf : forall f t xs e, find_def f B0 = Some (t, xs, e) ->
    NoDup xs /\ (forall x, In x (xs ++ get_locals e) -> okname x) /\
    (forall x, free x e -> In x xs \/ In x (fnames B0)) /\ wf_exp cenv e /\
    Z.of_nat (max_allocs e) < 2 ^ 63 /\ (length xs <= 1024 \/ length xs <= nParam)%nat.

  Lemma def_funs_name x : In x (fnames B0) -> get x (def_funs B0 B0 [] []) = Some (Vfun [] B0 x).
  Proof.
    generalize (@nil (positive * val)) at 2. revert x. generalize B0 at 1 3. intro B.
    induction B as [f t xs e B IH|]; cbn [fnames def_funs]; intros x rho I; [|contradiction].
    rewrite get_set. destruct (Pos.eq_dec x f) as [->|N]; [reflexivity|].
    destruct I as [->|I]; [contradiction|]. apply IH. exact I.
  Qed.

  Lemma filter_other A (fs : tmap A) id i : i <> id -> get i (filter (fun p => negb (Pos.eqb (fst p) id)) fs) = get i fs.
  Proof.
    intro N. induction fs as [|[j f] fs IH]; [reflexivity|]. cbn [filter fst].
    destruct (Pos.eqb j id) eqn:E; cbn [negb get].
    - apply Pos.eqb_eq in E. subst j. destruct (Pos.eq_dec i id); [contradiction|exact IH].
    - destruct (Pos.eq_dec i j); [reflexivity|exact IH].
  Qed.

  (** calling [f] with values for [vs] *)
  Definition callee_ok (T : Prop) (Q : val -> Prop) (k : nat) (f : positive) (vs : list val) : Prop :=
    forall m a ids ws, wfm m a ids -> area m a -> Forall2 (okv m a) vs ws ->
      (forall i w, nth_error ws i = Some w -> (nParam <= i)%nat -> m_args m (Z.of_nat i) = Some w) ->
      (T /\ run gc gcIdent prog k f (firstn nParam ws) m = CTime) \/
      run gc gcIdent prog k f (firstn nParam ws) m = CAbort \/
      exists v w m' a', Q v /\ run gc gcIdent prog k f (firstn nParam ws) m = COk w m' /\ area m' a' /\
        m_lo m' <= a' <= m_hi m' /\ m_fp m' = m_fp m /\ keepf m a ids (m_next m) m' a' /\ okv m' a' v w.

  Lemma callee_ok_S (T : Prop) (Q : val -> Prop) k f t xs e vs rho'' :
    find_def f B0 = Some (t, xs, e) -> set_lists xs vs (def_funs B0 B0 [] []) = Some rho'' -> body_ok T Q k rho'' e ->
    callee_ok T Q (S k) f vs.
  Proof.
    intros Ef Er IH m a ids ws W Ar Fv Hargs.
    destruct (@Hprog _ _ _ _ Ef) as (asgn & s & n & Ea & Es & Gp & Hsz).
    destruct (@Hwf _ _ _ _ Ef) as (ND & Hn & Hfree & We & Hmax & Har).
    pose proof (set_lists_length _ _ _ Er) as Lv. pose proof (Forall2_length Fv) as Lw.
    unfold var, ANF_Syntax.ctor_tag, fun_tag in *.
    cbn [run]. rewrite Gp. cbn [cfun_of cf_params cf_temps cf_slots cf_body].
    destruct (@set_lists_total _ (firstn nParam xs) (firstn nParam ws) []) as (t0 & Et0).
    { rewrite !firstn_length. lia. }
    rewrite Et0.
    set (decl := firstn nParam xs ++ (skipn nParam xs ++ get_locals e) ++ [allocIdent; limitIdent; argsIdent; caseIdent; resultIdent]).
    set (size := Z.of_N (N.max (N.of_nat (length (live_at_entry xs e))) n)) in *.
    set (id := m_next m). set (m0 := enter size m).
    assert (Dres : forall x, In x [allocIdent; limitIdent; argsIdent; caseIdent; resultIdent] -> In x decl).
    { intros x I. unfold decl. apply in_or_app. right. apply in_or_app. right. exact I. }
    assert (Dxs : incl xs decl).
    { intros x I. rewrite <- (firstn_skipn nParam xs) in I. unfold decl. apply in_app_or in I. destruct I as [I|I].
      - apply in_or_app. left. exact I.
      - apply in_or_app. right. apply in_or_app. left. apply in_or_app. left. exact I. }
    assert (Dloc : incl (get_locals e) decl).
    { intros x I. unfold decl. apply in_or_app. right. apply in_or_app. left. apply in_or_app. right. exact I. }
    assert (Dal : In allocIdent decl) by (apply Dres; cbn; tauto).
    assert (Dli : In limitIdent decl) by (apply Dres; cbn; tauto).
    assert (Dar : In argsIdent decl) by (apply Dres; cbn; tauto).
    assert (Nx : forall x y, In x xs -> In y reserved -> x <> y).
    { intros x y I. apply okname_res. apply Hn. apply in_or_app. left. exact I. }
    cbn [fold_right]. destruct Ar as [Ar1 Ar2].
    rewrite exec_seq. cbn [exec eval tinfo_get]. rewrite assign_temp_ok by exact Dal. cbn [andthen].
    cbn [exec eval tinfo_get]. rewrite assign_temp_ok by exact Dli. cbn [andthen].
    cbn [exec eval tinfo_get]. rewrite assign_temp_ok by exact Dar. cbn [andthen].
    replace (m_alloc m0) with (VP BHeap a) by (symmetry; exact Ar1).
    replace (m_limit m0) with (VP BHeap (m_hi m)) by (symmetry; exact Ar2).
    set (t3 := set argsIdent (VP BArgs 0) (set limitIdent (VP BHeap (m_hi m)) (set allocIdent (VP BHeap a) t0))).
    assert (G3 : forall x, In x xs -> get x t3 = get x t0).
    { intros x I. unfold t3. rewrite !get_set_other; [reflexivity| | |]; apply Nx; auto; cbn; tauto. }
    pose proof ND as ND'. rewrite <- (firstn_skipn nParam xs) in ND'. apply NoDup_split in ND'.
    (* parameters from the args array *)
    unfold asgnFunVars in Ea. unfold locs_of in Ea. rewrite skipn_map, skipn_seq in Ea. cbn [Nat.add] in Ea.
    assert (Lsk : length (skipn nParam xs) = (ar t - nParam)%nat).
    { apply asgnFun_len in Ea. rewrite map_length, seq_length in Ea. exact Ea. }
    rewrite <- Lsk in Ea.
    destruct (@exec_params decl id (run gc gcIdent prog k) (skipn nParam xs) nParam t3 m0 asgn Ea) as (t4 & E4 & P4 & Q4).
    { unfold t3. apply get_set_same. }
    { rewrite skipn_length. lia. }
    { intros x I. apply Dxs. rewrite <- (firstn_skipn nParam xs). apply in_or_app. right. exact I. }
    { intro I. apply (Nx argsIdent argsIdent); [|cbn; tauto|reflexivity].
      rewrite <- (firstn_skipn nParam xs). apply in_or_app. right. exact I. }
    { apply ND'. }
    { intros i Hi. rewrite skipn_length in Hi. cbn [m0 enter m_args].
      destruct (nth_error ws (nParam + i)) as [w|] eqn:Ew.
      - exists w. apply Hargs; [exact Ew|lia].
      - apply nth_error_None in Ew. lia. }
    rewrite E4. cbn [andthen].
    assert (G4 : forall i x w, nth_error xs i = Some x -> nth_error ws i = Some w -> get x t4 = Some w).
    { intros i x w Ex Ew. destruct (Nat.lt_ge_cases i nParam) as [Lt|Ge].
      - assert (I1 : nth_error (firstn nParam xs) i = Some x) by (rewrite firstn_nth_error; auto).
        rewrite Q4.
        + rewrite G3 by (eapply nth_error_In; exact Ex).
          eapply set_lists_nth; [exact Et0| |exact I1|rewrite firstn_nth_error; auto].
          apply ND'.
        + apply nth_error_In in I1. apply ND'. exact I1.
      - rewrite (P4 (i - nParam)%nat x).
        + cbn [m0 enter m_args]. replace (nParam + (i - nParam))%nat with i by lia. apply Hargs; auto.
        + rewrite nth_error_skipn. replace (nParam + (i - nParam))%nat with i by lia. exact Ex. }
    assert (T4 : get allocIdent t4 = Some (VP BHeap a) /\ get limitIdent t4 = Some (VP BHeap (m_hi m))).
    { split; rewrite Q4.
      - unfold t3. rewrite !get_set_other by discriminate. apply get_set_same.
      - intro I. apply (Nx allocIdent allocIdent); [|cbn; tauto|reflexivity].
        rewrite <- (firstn_skipn nParam xs). apply in_or_app. right. exact I.
      - unfold t3. rewrite get_set_other by discriminate. apply get_set_same.
      - intro I. apply (Nx limitIdent limitIdent); [|cbn; tauto|reflexivity].
        rewrite <- (firstn_skipn nParam xs). apply in_or_app. right. exact I. }
    (* the frame *)
    set (fr := {| f_next := Some (VP (BRoots id) 0); f_root := Some (VP (BRoots id) 0); f_prev := Some (m_fp m);
                  f_arr := fun _ => None; f_size := size |}).
    assert (G0 : get id (m_frames m0) = Some (no_frame size)) by (apply get_set_same).
    assert (Ei : exists m1, exec gc (run gc gcIdent prog k) decl gcIdent id init_stack t4 m0 = ROk Onormal t4 m1 /\
      frame_upd id m0 fr m1).
    { unfold init_stack. cbn [exec eval assign]. rewrite G0. cbn [andthen exec eval assign set_frames m_frames].
      rewrite get_set_same. cbn [andthen exec eval assign set_frames m_frames tinfo_get m_fp].
      rewrite get_set_same. eexists. split; [reflexivity|].
      exists (set id fr (set id (set_ffield (set_ffield (no_frame size) Fnext (VP (BRoots id) 0)) Froot (VP (BRoots id) 0))
              (set id (set_ffield (no_frame size) Fnext (VP (BRoots id) 0)) (m_frames m0)))).
      split; [reflexivity|]. split; [apply get_set_same|]. intros i Hi. rewrite !get_set_other by exact Hi. reflexivity. }
    destruct Ei as (m1 & Ei & Fu). rewrite Ei. cbn [andthen].
    pose proof (frame_upd_heap Fu) as (H1a & H1b & H1c).
    assert (HM1 : forall v w, hr m a v w -> hr m1 a v w).
    { intros v' w'. apply hr_same. split; [exact H1a|]. split; [exact H1b|exact H1c]. }
    assert (Fp1 : m_fp m1 = m_fp m). { destruct Fu as (fs & -> & _ & _). reflexivity. }
    assert (Fo : forall i, i <> id -> get i (m_frames m1) = get i (m_frames m)).
    { intros i Hi. destruct Fu as (fs & -> & _ & O). cbn [set_frames m_frames]. rewrite O by exact Hi.
      cbn [m0 enter m_frames]. apply get_set_other. exact Hi. }
    assert (Nx1 : m_next m1 = Pos.succ id). { destruct Fu as (fs & -> & _ & _). reflexivity. }
    assert (KF1 : keepf m a ids id m1 a).
    { apply keepf_same; [rewrite Nx1; unfold id; lia|exact HM1|]. intros i Hi. apply Fo. lia. }
    pose proof W as [W1 W2 W3 W4].
    assert (Cm1 : chain (m_frames m1) (m_fp m) ids).
    { eapply chain_agree; [exact W2|]. intros i fri I Gi. exists fri. rewrite Fo; [auto|]. intros ->. specialize (W3 _ I). unfold id in W3. lia. }
    assert (K1 : LK id (m_fp m) ids size 0 m1 a).
    { constructor.
      - cbn [N.eqb]. constructor.
        + rewrite H1b, H1c. exact W1.
        + rewrite Fp1. exact Cm1.
        + intros i I. rewrite Nx1. specialize (W3 i I). unfold id. lia.
        + intros i fri o I Gi U. rewrite Fo in Gi by (intros ->; specialize (W3 _ I); unfold id in W3; lia).
          destruct (W4 i fri o I Gi U) as (w & v' & A' & B'). exists w, v'. split; [exact A'|apply HM1; exact B'].
      - intros i I. exact (W3 i I).
      - rewrite Nx1. lia.
      - exists fr. split; [exact (frame_upd_get Fu)|]. repeat split. intro Z0. congruence.
      - cbn [N.eqb]. exact Fp1.
      - exact Cm1. }
    assert (Ar1' : area m1 a). { destruct Fu as (fs & -> & _ & _). split; [exact Ar1|exact Ar2]. }
    assert (Lin : forall x, In x (live_at_entry xs e) <-> free x e /\ In x xs).
    { intro x. unfold live_at_entry. rewrite inter_In, exp_fv_spec, union_list_In. cbn. tauto. }
    assert (Val : forall x, In x xs -> exists v' w, get x rho'' = Some v' /\ get x t4 = Some w /\ okv m1 a v' w).
    { intros x I. apply In_nth_error in I. destruct I as (i & Ex).
      assert (Hi : (i < length xs)%nat) by (apply nth_error_Some; congruence).
      destruct (nth_error vs i) as [v'|] eqn:Ev; [|apply nth_error_None in Ev; lia].
      destruct (nth_error_Forall2 Fv i Ev) as (w & Ew & [O1 O2]).
      exists v', w. split; [eapply set_lists_nth; eauto|]. split; [eapply G4; eauto|]. split; [apply HM1; exact O1|exact O2]. }
    destruct (@exec_gc_call gc (run gc gcIdent prog k) decl id (m_fp m) ids size 0%N (live_at_entry xs e) (max_allocs e) t4 m1 a)
      as [Eg|(t5 & m5 & a5 & Eg & K5 & A5 & T5 & B5 & KF5 & _ & V5 & O5)]; auto.
    { intros _. unfold size. lia. }
    { intros x I. apply Lin in I. apply Dxs. tauto. }
    { intro I. apply Lin in I. apply (Nx allocIdent allocIdent); [tauto|cbn; tauto|reflexivity]. }
    { intro I. apply Lin in I. apply (Nx limitIdent limitIdent); [tauto|cbn; tauto|reflexivity]. }
    { split; [apply T4|]. rewrite H1c. apply T4. }
    { intro Z0. congruence. }
    { intros x I. apply Lin in I. destruct (Val x) as (v' & w & _ & Gw & O1 & _); [tauto|]. exists w, (enc cenv v'). auto. }
    { right. left. rewrite Eg. reflexivity. }
    rewrite Eg. cbn [andthen].
    assert (Body : good T Q id ids (m_fp m) m5 a5 (exec gc (run gc gcIdent prog k) decl gcIdent id s t5 m5)).
    { eapply IH; [exact Es| |exact Hsz| | | |exact Dal|exact Dli|exact Dar| |exact We|].
      - unfold size. lia.
      - intros x I. apply Hn. unfold loc_ids in I. rewrite !union_list_In in I. apply in_or_app. cbn in I. tauto.
      - intros x I. unfold loc_ids. apply union_list_In. right. exact I.
      - intros x I. unfold loc_ids in I. rewrite !union_list_In in I. cbn in I. destruct I as [[[]|I]|I]; auto.
      - left. apply Dres. cbn. tauto.
      - constructor; auto.
        intros x Fx. destruct (Hfree x Fx) as [I|I].
        + right. split; [unfold loc_ids; rewrite !union_list_In; tauto|].
          destruct (Val x I) as (v' & w & Gr & Gt & O1 & O2).
          destruct (V5 x w (enc cenv v')) as (w' & Gt' & O'); [apply Lin; auto|exact Gt|exact O1|].
          exists v', w'. split; [exact Gr|]. split; [exact Gt'|]. split; [exact O'|exact O2].
        + left. split; [exact I|]. rewrite (@set_lists_not_In _ _ _ _ _ _ Er); [apply def_funs_name; exact I|].
          intro J. destruct (Hn x) as [Q0 _]; [apply in_or_app; left; exact J|]. contradiction. }
    destruct Body as [[HT Eb]|[Eb|(v & w & t6 & m6 & a6 & HQ & Eb & A6 & B6 & F6 & KF6 & O6)]].
    { left. split; [exact HT|]. rewrite Eb. reflexivity. }
    { right. left. rewrite Eb. reflexivity. }
    right. right. rewrite Eb.
    assert (HL : forall v w, hr m6 a6 v w -> hr (leave id m6) a6 v w).
    { intros v' w'. apply hr_same. repeat split. }
    exists v, w, (leave id m6), a6. split; [exact HQ|]. split; [reflexivity|]. split; [exact A6|]. split; [exact B6|]. split; [exact F6|]. split.
    - apply keepf_trans with (m1 := m1) (a1 := a); [exact KF1|].
      apply keepf_trans with (m1 := m5) (a1 := a5); [exact KF5|].
      apply keepf_trans with (m1 := m6) (a1 := a6); [exact KF6|].
      apply keepf_same; [cbn; lia|exact HL|]. intros i Hi. cbn [leave set_frames m_frames]. apply filter_other. lia.
    - destruct O6 as [O6a O6b]. split; [apply HL; exact O6a|exact O6b].
  Qed.

  (** ** Case analysis *)

  Section Cases.
    Variable fv L : list positive.
    Variable locs : list N.
    Variable slots : N.

    Fixpoint mkc (l : list (ctor_tag * exp)) : option (lstmts * lstmts * N) :=
      match l with
      | [] => Some (LSnil, LSnil, slots)
      | p :: l' =>
          match tb fv L locs (snd p) slots with
          | Some progn =>
              match mkc l' with
              | Some pn => add_case cenv (fst p) (fst progn) (snd progn) pn
              | None => None
              end
          | None => None
          end
      end.

    Lemma tb_case x l : tb fv L locs (Ecase x l) slots =
      match mkc l with Some p => let '(ls, ls', n) := p in Some (make_case_switch x ls ls', n) | None => None end.
    Proof. reflexivity. Qed.

    Lemma exec_sel_cons call decl id l c s ls tm m :
      exec_sel gc call decl gcIdent id l (LScons c s ls) tm m =
      if lab_eqb c l then andthen (exec gc call decl gcIdent id s tm m) (exec_all gc call decl gcIdent id ls)
      else exec_sel gc call decl gcIdent id l ls tm m.
    Proof. reflexivity. Qed.

    Lemma add_case_max t s n ls ls' n0 r : add_case cenv t s n (ls, ls', n0) = Some r -> snd r = N.max n n0.
    Proof.
      unfold add_case. destruct (make_ctor_rep cenv t) as [[o|o ar0]|]; [| |discriminate].
      - destruct ls'; intro H; apply Some_inj in H; subst r; reflexivity.
      - destruct ls; intro H; apply Some_inj in H; subst r; reflexivity.
    Qed.

    Definition pick (i : ctor_ty_info) (ls ls' : lstmts) : lstmts := if N.eqb (ctor_arity i) 0 then ls' else ls.

    Lemma cases_ok t i e : get t cenv = Some i -> forall l ls ls' n,
      mkc l = Some (ls, ls', n) -> caseConsistent_f cenv l t = true -> findtag l t = Some e ->
      pick i ls ls' <> LSnil /\
      exists s ne, tb fv L locs e slots = Some (s, ne) /\ (ne <= n)%N /\
        forall call decl id tm m,
          match exec gc call decl gcIdent id s tm m with ROk (Oret _) _ _ | RAbort | RTime => True | _ => False end ->
          unbreak (exec_sel gc call decl gcIdent id
                     (if has_label (Z.of_N (ctor_ordinal i)) (pick i ls ls') then Some (Z.of_N (ctor_ordinal i)) else None)
                     (pick i ls ls') tm m)
          = exec gc call decl gcIdent id s tm m.
    Proof.
      intro Gi. induction l as [|[t' e'] l IH]; intros ls ls' n E C F; [discriminate|].
      cbn [mkc fst snd] in E. destruct (tb fv L locs e' slots) as [[s1 n1]|] eqn:E1; [|discriminate].
      destruct (mkc l) as [[[l1 l1'] n0]|] eqn:E0; [|discriminate]. cbn [fst snd] in E.
      pose proof (add_case_max _ _ _ _ _ _ E) as Hn. cbn [snd] in Hn.
      cbn [caseConsistent_f] in C. apply andb_true_iff in C. destruct C as [C1 C2]. rewrite Gi in C2.
      destruct (get t' cenv) as [i'|] eqn:Gi'; [|discriminate]. apply Pos.eqb_eq in C2.
      unfold add_case, make_ctor_rep in E. rewrite Gi' in E.
      cbn [findtag] in F.
      assert (Lb : N.eqb (ctor_arity i') 0 = false -> Z.land (Z.shiftl (Z.of_N (ctor_arity i')) 10 + Z.of_N (ctor_ordinal i')) 255 = Z.of_N (ctor_ordinal i')).
      { intro Q. apply N.eqb_neq in Q. destruct (ce_boxed CE t' Gi' Q) as [B1 _]. rewrite tag_boxed. apply hdr_low. lia. }
      assert (Le : Z.shiftr (Z.shiftl (Z.of_N (ctor_ordinal i')) 1 + 1) 1 = Z.of_N (ctor_ordinal i')).
      { rewrite tag_enum. apply shr_enum. }
      assert (Sel : forall s sel call decl id tm m o, match exec gc call decl gcIdent id s tm m with ROk (Oret _) _ _ | RAbort | RTime => True | _ => False end ->
         sel = LSnil \/ True ->
         unbreak (exec_sel gc call decl gcIdent id (if has_label o (LScons (match sel with LSnil => None | _ => Some o end) (Sseq s Sbreak) sel) then Some o else None)
            (LScons (match sel with LSnil => None | _ => Some o end) (Sseq s Sbreak) sel) tm m) = exec gc call decl gcIdent id s tm m).
      { intros s sel call decl id tm m o H _. destruct sel; cbn [has_label]; rewrite exec_sel_cons.
        - cbn [lab_eqb]. rewrite exec_seq. destruct (exec gc call decl gcIdent id s tm m) as [[]| | |]; try contradiction; reflexivity.
        - rewrite Z.eqb_refl. cbn [orb lab_eqb]. rewrite Z.eqb_refl.
          rewrite exec_seq. destruct (exec gc call decl gcIdent id s tm m) as [[]| | |]; try contradiction; reflexivity. }
      destruct (Pos.eq_dec t' t) as [->|Nt].
      - (* this branch *)
        rewrite Gi in Gi'. injection Gi' as <-.
        assert (e' = e) by (destruct (Pos.eq_dec t t); congruence). subst e'.
        destruct (N.eqb (ctor_arity i) 0) eqn:Ea.
        + assert (R : ls = l1 /\ ls' = LScons (match l1' with LSnil => None | _ => Some (Z.of_N (ctor_ordinal i)) end) (Sseq s1 Sbreak) l1').
          { rewrite Le in E. destruct l1'; apply Some_inj in E; split; congruence. }
          destruct R as [-> ->]. unfold pick. rewrite Ea. split; [discriminate|].
          exists s1, n1. split; [exact E1|]. split; [lia|]. intros call decl id tm m H. apply Sel; auto.
        + assert (R : ls' = l1' /\ ls = LScons (match l1 with LSnil => None | _ => Some (Z.of_N (ctor_ordinal i)) end) (Sseq s1 Sbreak) l1).
          { rewrite (Lb eq_refl) in E. destruct l1; apply Some_inj in E; split; congruence. }
          destruct R as [-> ->]. unfold pick. rewrite Ea. split; [discriminate|].
          exists s1, n1. split; [exact E1|]. split; [lia|]. intros call decl id tm m H. apply Sel; auto.
      - assert (F' : findtag l t = Some e) by (destruct (Pos.eq_dec t' t); congruence).
        destruct (IH l1 l1' n0 eq_refl C1 F') as (NN & s & ne & Es & Hne & Hs).
        assert (Skip : forall sel call decl id tm m o o' s', o' <> o ->
          exec_sel gc call decl gcIdent id (if has_label o (LScons (Some o') s' sel) then Some o else None) (LScons (Some o') s' sel) tm m
          = exec_sel gc call decl gcIdent id (if has_label o sel then Some o else None) sel tm m).
        { intros sel call decl id tm m o o' s' No. cbn [has_label].
          assert (Q : (o' =? o) = false) by (apply Z.eqb_neq; exact No). rewrite Q. cbn [orb]. rewrite exec_sel_cons.
          destruct (has_label o sel); cbn [lab_eqb]; [rewrite Q|]; reflexivity. }
        assert (Inj : (N.eqb (ctor_arity i') 0 = N.eqb (ctor_arity i) 0) -> Z.of_N (ctor_ordinal i') <> Z.of_N (ctor_ordinal i)).
        { intros Q H. apply Nt. apply N2Z.inj in H. eapply (ce_inj CE); eauto.
          destruct (N.eqb (ctor_arity i') 0) eqn:A1; symmetry in Q;
            [apply N.eqb_eq in A1, Q|apply N.eqb_neq in A1, Q]; tauto. }
        assert (R : pick i ls ls' = pick i l1 l1' \/
                    (Z.of_N (ctor_ordinal i') <> Z.of_N (ctor_ordinal i) /\
                     pick i ls ls' = LScons (Some (Z.of_N (ctor_ordinal i'))) (Sseq s1 Sbreak) (pick i l1 l1'))).
        { unfold pick in *. destruct (N.eqb (ctor_arity i') 0) eqn:A1; destruct (N.eqb (ctor_arity i) 0) eqn:A2.
          - right. split; [apply Inj; reflexivity|]. rewrite Le in E. destruct l1'; [contradiction|]. apply Some_inj in E. congruence.
          - left. destruct l1'; apply Some_inj in E; congruence.
          - left. destruct l1; apply Some_inj in E; congruence.
          - right. split; [apply Inj; reflexivity|]. rewrite (Lb eq_refl) in E. destruct l1; [contradiction|]. apply Some_inj in E. congruence. }
        destruct R as [R|[No R]]; rewrite R.
        + split; [exact NN|]. exists s, ne. split; [exact Es|]. split; [lia|exact Hs].
        + split; [discriminate|]. exists s, ne. split; [exact Es|]. split; [lia|].
          intros call decl id tm m H. rewrite Skip by exact No. apply Hs. exact H.
    Qed.
  End Cases.

  (** ** The number of slots only grows *)

  Lemma call_slots fvL asgn c x e slots : (slots <= snd (call_with_stack fvL asgn c x e slots))%N.
  Proof.
    unfold call_with_stack. destruct (push_live_vars _) as [p n0]. destruct (make_GC_call _ _ _) as [g n1]. cbn [snd]. lia.
  Qed.

  Lemma tb_mono fv L locs : forall e slots s n, tb fv L locs e slots = Some (s, n) -> (slots <= n)%N.
  Proof.
    apply (@exp_ind2 (fun e => forall slots s n, tb fv L locs e slots = Some (s, n) -> (slots <= n)%N) (fun _ => True)).
    - intros x t ys e IH slots s n H. cbn [translate_body] in H.
      destruct (assignConstructorS cenv fenv fmap x t ys); [|discriminate].
      destruct (tb fv L locs e slots) as [[s1 n1]|] eqn:E; [|discriminate].
      apply Some_inj in H. assert (n = n1) by (cbn [fst snd] in H; congruence). subst n1. eauto.
    - intros x l F slots s n H. rewrite tb_case in H.
      destruct (mkc fv L locs slots l) as [[[ls ls'] n']|] eqn:E; [|discriminate].
      assert (n = n') by (apply Some_inj in H; congruence). subst n'. clear H.
      revert ls ls' n E. induction F as [|[t e] l Hp F IH]; intros ls ls' n E; cbn [mkc fst snd] in E.
      + apply Some_inj in E. assert (n = slots) by congruence. lia.
      + destruct (tb fv L locs e slots) as [[s1 n1]|] eqn:E1; [|discriminate].
        destruct (mkc fv L locs slots l) as [[[l1 l1'] n2]|] eqn:E2; [|discriminate].
        pose proof (add_case_max _ _ _ _ _ _ E) as Hm. cbn [snd fst] in Hm. specialize (IH _ _ _ eq_refl). lia.
    - intros x t k y e IH slots s n H. cbn [translate_body] in H.
      destruct (tb fv L locs e slots) as [[s1 n1]|] eqn:E; [|discriminate].
      apply Some_inj in H. assert (n = n1) by (cbn [fst snd] in H; congruence). subst n1. eauto.
    - intros x f t ys e IH slots s n H. cbn [translate_body] in H.
      destruct (get t fenv) as [inf|]; [|discriminate].
      destruct (asgnAppVars nParam ys (snd inf) fenv fmap) as [asgn|]; [|discriminate].
      destruct (mkCall nParam _ _ _ _ _ _) as [c|]; [|discriminate].
      pose proof (call_slots L [asgn] c x e slots) as Hc.
      destruct (call_with_stack L [asgn] c x e slots) as [kk sl]. cbn [snd] in Hc.
      destruct (tb fv L locs e sl) as [[s1 n1]|] eqn:E; [|discriminate].
      apply Some_inj in H. assert (n = n1) by (cbn [fst snd] in H; congruence). subst n1. specialize (IH _ _ _ E). lia.
    - intros B e _ IH slots s n H. discriminate.
    - intros f t ys slots s n H. cbn [translate_body] in H.
      destruct (get t fenv) as [inf|]; [|discriminate].
      destruct (asgnAppVars nParam ys (snd inf) fenv fmap) as [asgn|]; [|discriminate].
      destruct (mkCall nParam _ _ _ _ _ _) as [c|]; [|discriminate].
      apply Some_inj in H. assert (n = slots) by congruence. lia.
    - intros x p e IH slots s n H. cbn [translate_body] in H.
      destruct (tb fv L locs e slots) as [[s1 n1]|] eqn:E; [|discriminate].
      apply Some_inj in H. assert (n = n1) by (cbn [fst snd] in H; congruence). subst n1. eauto.
    - intros x p ys e IH slots s n H. cbn [translate_body] in H.
      destruct (get p prims) as [tk|]; [|discriminate].
      destruct (mkPrimCall fenv fmap x p (length ys) ys) as [c|]; [|discriminate]. destruct tk.
      + pose proof (call_slots L [] c x e slots) as Hc.
        destruct (call_with_stack L [] c x e slots) as [kk sl]. cbn [snd] in Hc.
        destruct (tb fv L locs e sl) as [[s1 n1]|] eqn:E; [|discriminate].
        apply Some_inj in H. assert (n = n1) by (cbn [fst snd] in H; congruence). subst n1. specialize (IH _ _ _ E). lia.
      + destruct (tb fv L locs e slots) as [[s1 n1]|] eqn:E; [|discriminate].
        apply Some_inj in H. assert (n = n1) by (cbn [fst snd] in H; congruence). subst n1. eauto.
    - intros x slots s n H. cbn [translate_body] in H. apply Some_inj in H. assert (n = slots) by congruence. lia.
    - auto.
    - exact I.
  Qed.

  (** ** One lemma per construct *)

  Lemma envv_name L rho t m a x y : (forall x, In x L -> okname x) -> envv L rho t m a x -> In y reserved -> x <> y.
  Proof.
    intros HL [[I _]|[I _]] Iy.
    - intros ->. exact (@Hres y Iy I).
    - apply okname_res; auto.
  Qed.

  Lemma body_constr (T : Prop) (Q : val -> Prop) k rho x t0 ys e vs :
    get_list ys rho = Some vs -> body_ok T Q k (set x (Vconstr t0 vs) rho) e -> body_ok T Q k rho (Econstr x t0 ys e).
  Proof.
    intros Gl IH fv L locs decl id ids fp0 size t m a s slots n E Hn Hs HL HG HD Da Dl Dg Dr W [K Tk B V].
    cbn [translate_body] in E. destruct (assignConstructorS cenv fenv fmap x t0 ys) as [s0|] eqn:E0; [|discriminate].
    destruct (tb fv L locs e slots) as [[s1 n1]|] eqn:E1; [|discriminate]. apply Some_inj in E.
    assert (En : n1 = n /\ s = Sseq s0 s1) by (cbn [fst snd] in E; split; congruence). destruct En as [-> ->]. clear E.
    cbn [wf_exp] in W. destruct W as (W1 & W2 & W3). cbn [get_locals] in HG.
    assert (Bc : max_allocs (Econstr x t0 ys e) = (cost ys + max_allocs e)%nat).
    { cbn [max_allocs]. unfold var in *. destruct ys; cbn [cost length]; lia. }
    rewrite Bc in B.
    assert (Ix : In x L) by (apply HG; left; reflexivity).
    destruct (envv_list ys (fun y I => V y (or_introl I)) HL Gl) as (ws & F1 & F2).
    destruct (@exec_constr decl id ids fp0 size (run gc gcIdent prog k) x t0 ys vs ws t m a s0)
      as (t' & m' & a' & w & Ex & K' & Tk' & Hh & Ha & KF & HM & Gx & Ox & Ot); auto.
    { intros y I. apply (envv_name HL (V y (or_introl I))). cbn. tauto. }
    { lia. }
    rewrite exec_seq, Ex. cbn [andthen]. apply (good_pre KF).
    eapply IH; eauto.
    - intros y I. apply HG. right. exact I.
    - constructor; auto; [lia|]. intros y Fy. destruct (Pos.eq_dec y x) as [->|N].
      + eapply envv_set; eauto.
      + apply envv_set_other; [exact N|]. assert (Vy : envv L rho t m a y) by (apply V; right; auto).
        eapply envv_mono; [exact Vy|exact HM|]. apply Ot; [exact N|]. apply (envv_name HL Vy). cbn. tauto.
  Qed.

  Lemma hrepr_block h lo hi hdr vs w : hrepr h lo hi (HBlock hdr vs) w ->
    exists p ws, w = VP BHeap p /\ h (p - 1) = Some (VZ hdr) /\
      (forall i v, nth_error vs i = Some v ->
        outside lo hi (p + Z.of_nat i) /\ h (p + Z.of_nat i) = Some (ws i)) /\
      (forall i v, nth_error vs i = Some v -> hrepr h lo hi v (ws i)).
  Proof. inversion 1; subst. exists p, ws. auto. Qed.

  (** a constructor value in a variable *)
  Lemma envv_constr L rho t m a y t0 vs : (forall x, In x L -> okname x) -> envv L rho t m a y -> get y rho = Some (Vconstr t0 vs) ->
    exists w i, get y t = Some w /\ hr m a (enc cenv (Vconstr t0 vs)) w /\ get t0 cenv = Some i /\
      N.of_nat (length vs) = ctor_arity i /\ Forall wfv vs.
  Proof.
    intros HL [[I G]|(I & v & w & G & Gt & O1 & O2)] E; [congruence|].
    assert (v = Vconstr t0 vs) by congruence. subst v. inversion O2 as [t' vs' i G1 G2 G3|]; subst.
    exists w, i. auto.
  Qed.

  Lemma body_proj (T : Prop) (Q : val -> Prop) k rho x t0 j y e vs v :
    get y rho = Some (Vconstr t0 vs) -> nthN vs j = Some v ->
    body_ok T Q k (set x v rho) e -> body_ok T Q k rho (Eproj x t0 j y e).
  Proof.
    intros Gy Gn IH fv L locs decl id ids fp0 size t m a s slots n E Hn Hs HL HG HD Da Dl Dg Dr W [K Tk B V].
    cbn [translate_body] in E. destruct (tb fv L locs e slots) as [[s1 n1]|] eqn:E1; [|discriminate]. apply Some_inj in E.
    assert (En : n1 = n /\ s = Sseq (Sset x (Field (Xtemp y) (Z.of_N j))) s1) by (cbn [fst snd] in E; split; congruence).
    destruct En as [-> ->]. clear E.
    cbn [wf_exp] in W. cbn [get_locals] in HG. cbn [max_allocs] in B.
    assert (Ix : In x L) by (apply HG; left; reflexivity).
    assert (Vy : envv L rho t m a y) by (apply V; left; reflexivity).
    destruct (envv_constr HL Vy Gy) as (w & i & Gt & Hw & Gi & Lv & Wv).
    rewrite nthN_nth_error in Gn.
    assert (Lj : (N.to_nat j < length vs)%nat) by (apply nth_error_Some; congruence).
    assert (Na : N.eqb (ctor_arity i) 0 = false) by (apply N.eqb_neq; lia).
    assert (Wv' : wfv v). { rewrite Forall_forall in Wv. apply Wv. eapply nth_error_In. exact Gn. }
    cbn [enc] in Hw. rewrite Gi, Na in Hw.
    assert (Sm : Z.of_N (ctor_arity i) < 2 ^ 53). { apply N.eqb_neq in Na. apply (ce_boxed CE t0 Gi Na). }
    apply hrepr_block in Hw. destruct Hw as (p & ws' & -> & H1 & H5 & H6).
    assert (En : nth_error (map (enc cenv) vs) (N.to_nat j) = Some (enc cenv v)) by (rewrite nth_error_map, Gn; reflexivity).
    destruct (H5 _ _ En) as [H7 H8]. specialize (H6 _ _ En).
    assert (Ex : exec gc (run gc gcIdent prog k) decl gcIdent id (Sset x (Field (Xtemp y) (Z.of_N j))) t m
                 = ROk Onormal (set x (ws' (N.to_nat j)) t) m).
    { cbn [exec]. unfold Field.
      assert (Ev : eval id t m (Xderef (Xbin Oadd (Xcast (Xtemp y)) (Xconst (Z.of_N j)))) = Some (ws' (N.to_nat j))).
      { cbn [eval]. rewrite Gt.
        change (if (- 2 ^ 63 <=? Z.of_N j) && (Z.of_N j <? 2 ^ 64) then Some (VZ (Z.of_N j)) else None)
          with (eval id t m (Xconst (Z.of_N j))).
        rewrite eval_const by (change (2 ^ 63) with 9223372036854775808; change (2 ^ 53) with 9007199254740992 in Sm; lia).
        cbn [binop_eval load]. rewrite N_nat_Z in H8. exact H8. }
      rewrite Ev. apply assign_temp_ok. apply HD. exact Ix. }
    rewrite exec_seq, Ex. cbn [andthen].
    assert (Nx : forall z, In z reserved -> x <> z) by (intro z; apply okname_res; apply HL; exact Ix).
    eapply IH; eauto.
    - intros z I. apply HG. right. exact I.
    - constructor; auto.
      + destruct Tk as [T1 T2]. split; rewrite get_set_other; auto; intro Z0; symmetry in Z0; revert Z0; apply Nx; cbn; tauto.
      + intros z Fz. destruct (Pos.eq_dec z x) as [->|N].
        * eapply envv_set; [exact Ix|apply get_set_same|]. split; [exact H6|exact Wv'].
        * apply envv_set_other; [exact N|]. eapply envv_mono; [apply V; right; split; [exact N|exact Fz]|auto|].
          apply get_set_other. exact N.
  Qed.

  Lemma wf_case (cs : list (ctor_tag * exp)) p : (fix go (cs : list (ctor_tag * exp)) := match cs with [] => True | p :: cs' => wf_exp cenv (snd p) /\ go cs' end) cs -> In p cs -> wf_exp cenv (snd p).
  Proof. induction cs as [|q cs IH]; intros H I; [contradiction|]. destruct H as [H1 H2]. destruct I as [->|I]; auto. Qed.

  Lemma nt_case (cs : list (ctor_tag * exp)) p : (fix go (cs : list (ctor_tag * exp)) := match cs with [] => True | p :: cs' => no_tail (snd p) /\ go cs' end) cs -> In p cs -> no_tail (snd p).
  Proof. induction cs as [|q cs IH]; intros H I; [contradiction|]. destruct H as [H1 H2]. destruct I as [->|I]; auto. Qed.

  Lemma max_case (cs : list (ctor_tag * exp)) p : In p cs -> (max_allocs (snd p) <= fold_right (fun p r => Nat.max (max_allocs (snd p)) r) 0 cs)%nat.
  Proof. induction cs as [|q cs IH]; intros I; [contradiction|]. cbn [fold_right]. destruct I as [->|I]; [lia|]. specialize (IH I). lia. Qed.

  Lemma good_exec T Q id ids fp0 m a r : good T Q id ids fp0 m a r ->
    match r with ROk (Oret _) _ _ | RAbort | RTime => True | _ => False end.
  Proof. intros [[_ ->]|[->|(v & w & t' & m' & a' & HQ & -> & _)]]; exact I. Qed.

  Lemma exec_if call decl id e s1 s2 t m : exec gc call decl gcIdent id (Sif e s1 s2) t m =
    match eval id t m e with
    | Some (VZ z) => if z =? 0 then exec gc call decl gcIdent id s2 t m else exec gc call decl gcIdent id s1 t m
    | _ => RUB
    end.
  Proof. reflexivity. Qed.

  Lemma exec_switch call decl id e ls t m : exec gc call decl gcIdent id (Sswitch e ls) t m =
    match eval id t m e with
    | Some (VZ z) => unbreak (exec_sel gc call decl gcIdent id (if has_label z ls then Some z else None) ls t m)
    | _ => RUB
    end.
  Proof. reflexivity. Qed.

  Lemma body_case (T : Prop) (Q : val -> Prop) k rho y cl t0 vs e :
    get y rho = Some (Vconstr t0 vs) -> caseConsistent_f cenv cl t0 = true -> findtag cl t0 = Some e ->
    body_ok T Q k rho e -> body_ok T Q k rho (Ecase y cl).
  Proof.
    intros Gy CC FT IH fv L locs decl id ids fp0 size t m a s slots n E Hn Hs HL HG HD Da Dl Dg Dr W [K Tk B V].
    rewrite tb_case in E. destruct (mkc fv L locs slots cl) as [[[ls ls'] n']|] eqn:Em; [|discriminate].
    apply Some_inj in E. assert (En : n' = n /\ s = make_case_switch y ls ls') by (split; congruence).
    destruct En as [-> ->]. clear E.
    assert (Vy : envv L rho t m a y) by (apply V; left; reflexivity).
    destruct (envv_constr HL Vy Gy) as (w & i & Gt & Hw & Gi & Lv & Wv).
    destruct (cases_ok fv L locs slots t0 Gi cl Em CC FT) as (NN & s1 & ne & Es & Hne & Hsel).
    assert (Ie : In (t0, e) cl) by (apply findtag_In; exact FT).
    assert (Body : good T Q id ids fp0 m a (exec gc (run gc gcIdent prog k) decl gcIdent id s1 t m)).
    { eapply IH; eauto.
      - lia.
      - intros x I. apply HG. cbn [get_locals]. apply in_flat_map. exists (t0, e). auto.
      - destruct Dr as [D|D]; [left; exact D|right]. apply (nt_case cl (t0, e) D Ie).
      - apply (wf_case cl (t0, e) W Ie).
      - constructor; auto.
        + cbn [max_allocs] in B. pose proof (max_case cl (t0, e) Ie) as M. cbn [snd] in M. lia.
        + intros x Fx. apply V. apply free_Ecase. right. eapply free_case_In; eauto. }
    specialize (Hsel (run gc gcIdent prog k) decl id t m (good_exec Body)).
    unfold make_case_switch, pick in *. cbn [enc] in Hw. rewrite Gi in Hw.
    destruct (N.eqb (ctor_arity i) 0) eqn:Ea.
    - assert (Ew : w = VZ (2 * Z.of_N (ctor_ordinal i) + 1)) by (inversion Hw; reflexivity). subst w.
      rewrite exec_if.
      assert (Ei : eval id t m (isPtr y) = Some (VZ 0)).
      { unfold isPtr. cbn [eval]. rewrite Gt. change (if (- 2 ^ 63 <=? 1) && (1 <? 2 ^ 64) then Some (VZ 1) else None) with (Some (VZ 1)).
        change (if (- 2 ^ 63 <=? 0) && (0 <? 2 ^ 64) then Some (VZ 0) else None) with (Some (VZ 0)). cbn [binop_eval]. rewrite and_enum. reflexivity. }
      rewrite Ei. rewrite Z.eqb_refl.
      assert (E2 : eval id t m (Xbin Oshr (Xtemp y) (Xconst 1)) = Some (VZ (Z.of_N (ctor_ordinal i)))).
      { cbn [eval]. rewrite Gt. change (if (- 2 ^ 63 <=? 1) && (1 <? 2 ^ 64) then Some (VZ 1) else None) with (Some (VZ 1)). cbn [binop_eval]. rewrite shr_enum. reflexivity. }
      rewrite exec_switch.
      rewrite E2, Hsel. exact Body.
    - apply hrepr_block in Hw. destruct Hw as (p & ws' & -> & H1 & H5 & H6).
      rewrite exec_if.
      assert (Ei : eval id t m (isPtr y) = Some (VZ 1)).
      { unfold isPtr. cbn [eval]. rewrite Gt. reflexivity. }
      rewrite Ei. change (1 =? 0) with false. cbv iota.
      assert (E2 : eval id t m (Xbin Oand (Field (Xtemp y) (-1)) (Xconst 255)) = Some (VZ (Z.of_N (ctor_ordinal i)))).
      { unfold Field. cbn [eval]. rewrite Gt.
        change (if (- 2 ^ 63 <=? -1) && (-1 <? 2 ^ 64) then Some (VZ (-1)) else None) with (Some (VZ (-1))).
        cbn [binop_eval load]. change (p + -1) with (p - 1). rewrite H1.
        change (if (- 2 ^ 63 <=? 255) && (255 <? 2 ^ 64) then Some (VZ 255) else None) with (Some (VZ 255)).
        cbn [binop_eval]. rewrite hdr_low; [reflexivity|]. apply N.eqb_neq in Ea. pose proof (ce_boxed CE t0 Gi Ea). lia. }
      rewrite exec_switch.
      rewrite E2, Hsel. exact Body.
  Qed.

  Lemma exec_asgn decl id k t0 ys ws t m asgn inf :
    get t0 fenv = Some inf -> asgnAppVars nParam ys (snd inf) fenv fmap = Some asgn ->
    (length ys <= 1024 \/ length ys <= nParam)%nat -> In argsIdent decl ->
    (forall y, In y ys -> y <> argsIdent) -> Forall2 (evv t) ys ws ->
    exists A, exec gc k decl gcIdent id asgn t m = ROk Onormal (set argsIdent (VP BArgs 0) t) (set_args m A) /\
      (forall i w, nth_error ws i = Some w -> (nParam <= i)%nat -> A (Z.of_nat i) = Some w).
  Proof.
    intros Gi Ea Hb D Ny F. apply Hfenv in Gi. subst inf. cbn [snd] in Ea.
    unfold asgnAppVars, asgnAppVars' in Ea. rewrite skipn_map, skipn_seq in Ea. cbn [Nat.add] in Ea.
    destruct (asgnAppVars'' (skipn nParam ys) _ fenv fmap) as [s0|] eqn:E0; [|discriminate].
    assert (Ls : length (skipn nParam ys) = (ar t0 - nParam)%nat).
    { apply asgnApp_len in E0. rewrite map_length, seq_length in E0. exact E0. }
    rewrite <- Ls in E0.
    apply Some_inj in Ea. subst asgn. rewrite exec_seq. cbn [exec eval tinfo_get]. rewrite assign_temp_ok by exact D. cbn [andthen].
    destruct (@exec_args decl id k (skipn nParam ys) (skipn nParam ws) nParam (set argsIdent (VP BArgs 0) t) m) with (s := s0)
      as (A & Ex & HA); auto.
    - apply Forall2_skipn. clear -F Ny. induction F as [|y w ys ws H F IH]; constructor.
      + eapply evv_agree; [exact H|]. apply get_set_other. apply Ny. left. reflexivity.
      + apply IH. intros y' I. apply Ny. right. exact I.
    - rewrite skipn_length. lia.
    - exists A. split; [exact Ex|]. intros i w Ew Hi. specialize (HA (i - nParam)%nat w).
      replace (nParam + (i - nParam))%nat with i in HA by lia. apply HA. rewrite nth_error_skipn.
      replace (nParam + (i - nParam))%nat with i by lia. exact Ew.
  Qed.

  (** the state after storing the allocation pointers *)
  Definition synced (m : mem) (A : Z -> option cval) (a : Z) : mem :=
    {| m_heap := m_heap m; m_lo := m_lo m; m_hi := m_hi m; m_args := A;
       m_alloc := VP BHeap a; m_limit := VP BHeap (m_hi m); m_fp := m_fp m; m_nalloc := m_nalloc m;
       m_frames := m_frames m; m_next := m_next m |}.

  Lemma exec_sync decl id k t m a A rest : temps_ok t m a ->
    exec gc k decl gcIdent id (Sseq (Sassign (Xtinfo Talloc) (Xtemp allocIdent)) (Sseq (Sassign (Xtinfo Tlimit) (Xtemp limitIdent)) rest)) t (set_args m A)
    = exec gc k decl gcIdent id rest t (synced m A a).
  Proof. intros [T1 T2]. rewrite !exec_seq. cbn [exec eval]. rewrite T1. cbn [assign set_tinfo andthen]. cbn [exec eval]. rewrite T2. reflexivity. Qed.

  Lemma synced_LK id fp0 ids size off m A a : LK id fp0 ids size off m a -> LK id fp0 ids size off (synced m A a) a.
  Proof.
    intro K. eapply LK_keepf; [exact K| |reflexivity|].
    - apply keepf_same; [cbn; lia| |reflexivity]. intros v w. apply hr_same. repeat split.
    - exact (wf_area (lk_wf K)).
  Qed.

  Lemma okv_fun m a rho' fl f' w : okv m a (Vfun rho' fl f') w -> w = VF f' /\ rho' = [] /\ fl = B0 /\ In f' (fnames B0).
  Proof.
    intros [H W]. inversion W; subst. cbn [enc] in H. unfold hr in H. inversion H; subst. auto.
  Qed.

  Lemma okv_sync m A a v w : okv m a v w -> okv (synced m A a) a v w.
  Proof. intros [H W]. split; [|exact W]. eapply hr_same; [|exact H]. repeat split. Qed.

  Lemma Forall2_imp A B (R R' : A -> B -> Prop) l1 l2 : (forall x y, R x y -> R' x y) -> Forall2 R l1 l2 -> Forall2 R' l1 l2.
  Proof. intros H F. induction F; constructor; auto. Qed.

  Lemma body_halt (T : Prop) (Q : val -> Prop) k rho x v : get x rho = Some v -> Q v -> body_ok T Q k rho (Ehalt x).
  Proof.
    intros Gx HQ fv L locs decl id ids fp0 size t m a s slots n E Hn Hs HL HG HD Da Dl Dg Dr W [K Tk B V].
    cbn [translate_body fold_right] in E. apply Some_inj in E.
    assert (Es : s = Sseq (Sassign (Xtinfo Talloc) (Xtemp allocIdent)) (Sseq (Sassign (Xtinfo Tlimit) (Xtemp limitIdent)) (Sreturn (makeVar x fenv fmap)))) by congruence.
    subst s. clear E.
    destruct (envv_evv (V x eq_refl) HL Gx) as (w & Ew & Ow & _).
    replace m with (set_args m (m_args m)) at 2 by (destruct m; reflexivity).
    rewrite exec_sync with (a := a) by exact Tk. cbn [exec]. rewrite (evv_eval id _ Ew).
    right. right. exists v, w, t, (synced m (m_args m) a), a.
    split; [exact HQ|]. split; [reflexivity|]. split; [split; reflexivity|]. split; [exact (wf_area (lk_wf K))|].
    split; [exact (lk_fp K)|]. split; [|apply okv_sync; exact Ow].
    apply keepf_same; [cbn; lia| |reflexivity]. intros v' w'. apply hr_same. repeat split.
  Qed.

  Lemma mkCall_eval id t m t0 inf y f ys ws c : get t0 fenv = Some inf ->
    mkCall nParam (Some y) fenv fmap (Xcast (makeVar f fenv fmap)) (Nat.min (N.to_nat (fst inf)) nParam) ys = Some c ->
    Forall2 (evv t) ys ws ->
    exists es, c = Scall (Some y) (Xcast (makeVar f fenv fmap)) es /\ eval_list id t m es = Some (firstn nParam ws).
  Proof.
    intros Gi E F. unfold mkCall in E. destruct (mkCallVars fenv fmap _ (firstn nParam ys)) as [es|] eqn:Em; [|discriminate].
    apply Some_inj in E. exists es. split; [congruence|]. eapply eval_callvars; [exact Em|]. apply Forall2_firstn. exact F.
  Qed.

  Lemma exec_call call decl id y f es t m g vs :
    eval id t m f = Some (VF g) -> eval_list id t m es = Some vs -> g <> gcIdent ->
    exec gc call decl gcIdent id (Scall (Some y) f es) t m =
      match call g vs m with
      | COk v m' => assign_temp decl y v t m'
      | CUB => RUB | CAbort => RAbort | CTime => RTime
      end.
  Proof.
    intros E1 E2 N. cbn [exec]. rewrite E1, E2. assert (Q : Pos.eqb g gcIdent = false) by (apply Pos.eqb_neq; exact N).
    rewrite Q. reflexivity.
  Qed.

  Lemma body_app (T : Prop) (Q : val -> Prop) k rho f t0 ys rho' fl f' vs xs e :
    get f rho = Some (Vfun rho' fl f') -> get_list ys rho = Some vs -> find_def f' fl = Some (t0, xs, e) -> length xs = length vs ->
    (rho' = [] -> fl = B0 -> callee_ok T Q k f' vs) -> body_ok T Q k rho (Eapp f t0 ys).
  Proof.
    intros Gf Gl Fd Lv IH fv L locs decl id ids fp0 size t m a s slots n E Hn Hs HL HG HD Da Dl Dg Dr W [K Tk B V].
    cbn [translate_body] in E.
    destruct (get t0 fenv) as [inf|] eqn:Gi; [|discriminate].
    destruct (asgnAppVars nParam ys (snd inf) fenv fmap) as [asgn|] eqn:Ea; [|discriminate].
    destruct (mkCall nParam (Some resultIdent) fenv fmap (Xcast (makeVar f fenv fmap)) (Nat.min (N.to_nat (fst inf)) nParam) ys) as [c|] eqn:Ec; [|discriminate].
    apply Some_inj in E. cbn [fold_right] in E. assert (Es := f_equal fst E). cbn [fst] in Es. subst s. clear E.
    destruct (envv_evv (V f (or_introl eq_refl)) HL Gf) as (wf & Ewf & Owf & _).
    apply okv_fun in Owf. destruct Owf as (-> & -> & -> & If). specialize (IH eq_refl eq_refl).
    destruct (envv_list ys (fun y I => V y (or_intror I)) HL Gl) as (ws & F1 & F2).
    destruct (@Hwf _ _ _ _ Fd) as (_ & _ & _ & _ & _ & Hb).
    assert (Ly := get_list_length _ _ Gl). rewrite Lv, Ly in Hb.
    assert (Ny : forall y, In y ys -> y <> argsIdent).
    { intros y I. apply (envv_name HL (V y (or_intror I))). cbn. tauto. }
    destruct (@exec_asgn decl id (run gc gcIdent prog k) t0 ys ws t m asgn inf Gi Ea Hb Dg Ny F1) as (A & Ex & HA).
    rewrite exec_seq, Ex. cbn [andthen].
    set (t1 := set argsIdent (VP BArgs 0) t).
    assert (Tk1 : temps_ok t1 m a).
    { destruct Tk as [T1 T2]. split; unfold t1; rewrite get_set_other by discriminate; assumption. }
    rewrite exec_sync with (a := a) by exact Tk1.
    set (m1 := synced m A a).
    assert (F1' : Forall2 (evv t1) ys ws).
    { clear -F1 Ny. unfold t1. induction F1 as [|y w ys ws H F IH]; constructor.
      - eapply evv_agree; [exact H|]. apply get_set_other. apply Ny. left. reflexivity.
      - apply IH. intros y' I. apply Ny. right. exact I. }
    assert (Ewf1 : evv t1 f (VF f')).
    { eapply evv_agree; [exact Ewf|]. apply get_set_other. apply (envv_name HL (V f (or_introl eq_refl))). cbn. tauto. }
    destruct (@mkCall_eval id t1 m1 t0 inf resultIdent f ys ws c Gi Ec F1') as (es & -> & Ees).
    rewrite exec_seq. rewrite (@exec_call _ decl id resultIdent (Xcast (makeVar f fenv fmap)) es t1 m1 f' (firstn nParam ws)).
    2:{ cbn [eval]. apply (evv_eval id m1 Ewf1). }
    2:{ exact Ees. }
    2:{ intros ->. contradiction. }
    pose proof (synced_LK A K) as K1. fold m1 in K1.
    destruct (IH m1 a ids ws) as [[HT Er]|[Er|(v & w & m' & a' & HQ & Er & A' & B' & Fp & KF & O)]].
    - exact (lk_wf K1).
    - split; reflexivity.
    - eapply Forall2_imp; [|exact F2]. intros v w. apply okv_sync.
    - exact HA.
    - rewrite Er. left. split; [exact HT|reflexivity].
    - rewrite Er. right. left. reflexivity.
    - rewrite Er. destruct Dr as [D|[]]. rewrite assign_temp_ok by exact D. cbn [andthen exec].
      assert (Er' : makeVar resultIdent fenv fmap = Xtemp resultIdent).
      { apply Htemp; [apply Hres; cbn; tauto|discriminate]. }
      rewrite Er'. cbn [eval]. rewrite get_set_same.
      right. right. exists v, w, (set resultIdent w t1), m', a'.
      split; [exact HQ|]. split; [reflexivity|]. split; [exact A'|]. split; [exact B'|].
      split; [rewrite Fp; exact (lk_fp K)|]. split; [|exact O].
      apply keepf_trans with (m1 := m1) (a1 := a).
      + apply keepf_same; [cbn; lia| |reflexivity]. intros v' w'. apply hr_same. repeat split.
      + eapply keepf_weaken; [exact KF| |apply incl_refl]. pose proof (lk_id K1). lia.
  Qed.

  Definition live_after (L : list positive) (x : positive) (e : exp) : list positive := remove1 x (inter (ANF_Syntax.exp_fv e) L).
  Definition live_result (L : list positive) (x : positive) (e : exp) : list positive :=
    if ANF_Syntax.mem x (inter (ANF_Syntax.exp_fv e) L) then [x] else [].

  Lemma call_with_stack_eq L asgn c x e slots rest :
    let fvs := live_after L x e in
    let off := N.of_nat (length fvs) in
    let g := make_GC_call (max_allocs e) (live_result L x e) off in
    fst (call_with_stack L asgn c x e slots) rest =
      fold_right Sseq rest (asgn ++
        [Sassign (Xtinfo Talloc) (Xtemp allocIdent); Sassign (Xtinfo Tlimit) (Xtemp limitIdent);
         make_stack (fst (push_aux fvs 0 Sskip)) (0 + N.of_nat (length fvs)) (negb (N.eqb 0 0)); c;
         Sset allocIdent (Xtinfo Talloc); Sset limitIdent (Xtinfo Tlimit);
         fst g; Sseq (pop_aux fvs 0 Sskip) (reset_stack (0 + N.of_nat (length fvs)) false)]) /\
    snd (call_with_stack L asgn c x e slots) = N.max slots (snd g).
  Proof.
    intros fvs off g. unfold call_with_stack, push_live_vars, push_live_vars_offset, pop_live_vars, pop_live_vars_offset.
    change (remove1 x (inter (ANF_Syntax.exp_fv e) L)) with fvs.
    pose proof (snd_push_aux fvs 0 Sskip) as Hp. destruct (push_aux fvs 0 Sskip) as [p n0] eqn:Ep. cbn [snd] in Hp. subst n0.
    change (0 + N.of_nat (length fvs))%N with off.
    change (if ANF_Syntax.mem x (inter (ANF_Syntax.exp_fv e) L) then [x] else []) with (live_result L x e).
    fold g. destruct g as [gg n1]. split; reflexivity.
  Qed.

  Lemma exec_reload decl id k t m rest : In allocIdent decl -> In limitIdent decl ->
    exec gc k decl gcIdent id (Sseq (Sset allocIdent (Xtinfo Talloc)) (Sseq (Sset limitIdent (Xtinfo Tlimit)) rest)) t m
    = exec gc k decl gcIdent id rest (set limitIdent (m_limit m) (set allocIdent (m_alloc m) t)) m.
  Proof.
    intros D1 D2. rewrite exec_seq. assert (E1 : exec gc k decl gcIdent id (Sset allocIdent (Xtinfo Talloc)) t m = ROk Onormal (set allocIdent (m_alloc m) t) m).
    { cbn [exec eval tinfo_get]. apply assign_temp_ok. exact D1. }
    rewrite E1. cbn [andthen]. rewrite exec_seq.
    assert (E2 : forall t, exec gc k decl gcIdent id (Sset limitIdent (Xtinfo Tlimit)) t m = ROk Onormal (set limitIdent (m_limit m) t) m).
    { intro t'. cbn [exec eval tinfo_get]. apply assign_temp_ok. exact D2. }
    rewrite E2. reflexivity.
  Qed.

  Lemma body_letapp (T : Prop) (Q1 Q : val -> Prop) k rho x f t0 ys e rho' fl f' vs xs eb :
    get f rho = Some (Vfun rho' fl f') -> get_list ys rho = Some vs -> find_def f' fl = Some (t0, xs, eb) -> length xs = length vs ->
    (rho' = [] -> fl = B0 -> callee_ok T Q1 k f' vs) -> (forall v, Q1 v -> body_ok T Q k (set x v rho) e) -> body_ok T Q k rho (Eletapp x f t0 ys e).
  Proof.
    intros Gf Gl Fd Lv IH1 IH2 fv L locs decl id ids fp0 size t m a s slots n E Hn Hs HL HG HD Da Dl Dg Dr W [K Tk B V].
    cbn [translate_body] in E.
    destruct (get t0 fenv) as [inf|] eqn:Gi; [|discriminate].
    destruct (asgnAppVars nParam ys (snd inf) fenv fmap) as [asgn|] eqn:Ea; [|discriminate].
    destruct (mkCall nParam _ _ _ _ _ _) as [c|] eqn:Ec; [|discriminate].
    pose proof (fun r => call_with_stack_eq L [asgn] c x e slots r) as CW.
    destruct (call_with_stack L [asgn] c x e slots) as [kk sl]. cbn [fst snd] in CW.
    destruct (tb fv L locs e sl) as [[s1 n1]|] eqn:E1; [|discriminate].
    apply Some_inj in E. assert (En : n1 = n /\ s = kk s1) by (cbn [fst snd] in E; split; congruence).
    destruct En as [-> ->]. clear E. destruct (CW s1) as [-> Hsl]. clear CW.
    pose proof (tb_mono _ _ _ _ _ E1) as Hmono.
    set (fvs := live_after L x e) in *. set (fg := live_result L x e) in *.
    cbn [get_locals] in HG. assert (Ix : In x L) by (apply HG; left; reflexivity).
    assert (Nx : forall z, In z reserved -> x <> z) by (intro z; apply okname_res; apply HL; exact Ix).
    assert (Ifv : forall y, In y fvs <-> free y e /\ In y L /\ y <> x).
    { intro y. unfold fvs, live_after. rewrite remove1_In, inter_In, exp_fv_spec. tauto. }
    assert (Ifg : forall y, In y fg <-> y = x /\ free x e).
    { intro y. unfold fg, live_result. destruct (ANF_Syntax.mem x (inter (ANF_Syntax.exp_fv e) L)) eqn:Em.
      - apply mem_In in Em. rewrite inter_In, exp_fv_spec in Em. cbn. split; [intros [->|[]]; tauto|intros [-> _]; auto].
      - split; [intros []|]. intros [-> Fx]. assert (Hm : In x (inter (ANF_Syntax.exp_fv e) L)) by (rewrite inter_In, exp_fv_spec; auto).
        apply mem_In in Hm. congruence. }
    destruct (envv_evv (V f (or_introl eq_refl)) HL Gf) as (wf & Ewf & Owf & _).
    apply okv_fun in Owf. destruct Owf as (-> & -> & -> & If). specialize (IH1 eq_refl eq_refl).
    destruct (envv_list ys (fun y I => V y (or_intror (or_introl I))) HL Gl) as (ws & F1 & F2).
    destruct (@Hwf _ _ _ _ Fd) as (_ & _ & _ & _ & _ & Hb).
    assert (Ly := get_list_length _ _ Gl). rewrite Lv, Ly in Hb.
    cbn [wf_exp] in W. destruct W as (W2 & W3).
    assert (Ny : forall y, In y ys -> y <> argsIdent).
    { intros y I. apply (envv_name HL (V y (or_intror (or_introl I)))). cbn. tauto. }
    cbn [app fold_right].
    destruct (@exec_asgn decl id (run gc gcIdent prog k) t0 ys ws t m asgn inf Gi Ea Hb Dg Ny F1) as (A & Ex & HA).
    rewrite exec_seq, Ex. cbn [andthen]. clear Ex.
    set (t1 := set argsIdent (VP BArgs 0) t).
    assert (Tk1 : temps_ok t1 m a).
    { destruct Tk as [T1 T2]. split; unfold t1; rewrite get_set_other by discriminate; assumption. }
    rewrite exec_sync with (a := a) by exact Tk1.
    set (m1 := synced m A a).
    assert (F1' : Forall2 (evv t1) ys ws).
    { clear -F1 Ny. unfold t1. induction F1 as [|y w ys ws H F IH]; constructor.
      - eapply evv_agree; [exact H|]. apply get_set_other. apply Ny. left. reflexivity.
      - apply IH. intros y' I. apply Ny. right. exact I. }
    assert (Ewf1 : evv t1 f (VF f')).
    { eapply evv_agree; [exact Ewf|]. apply get_set_other. apply (envv_name HL (V f (or_introl eq_refl))). cbn. tauto. }
    pose proof (synced_LK A K) as K1. fold m1 in K1.
    (* live variables *)
    assert (LV : forall y, In y fvs -> exists v w, get y rho = Some v /\ get y t1 = Some w /\ okv m1 a v w).
    { intros y I. apply Ifv in I. destruct I as (Fy & Iy & Ny').
      destruct (V y) as [[If' _]|(_ & v & w & G1 & G2 & G3)]; [cbn [free]; tauto| |].
      - destruct (HL y Iy). contradiction.
      - exists v, w. split; [exact G1|]. split; [|apply okv_sync; exact G3].
        unfold t1. rewrite get_set_other; [exact G2|]. apply okname_res; [apply HL; exact Iy|cbn; tauto]. }
    assert (Hoff : Z.of_nat (length fvs) <= size /\ (max_allocs e <> 0%nat -> Z.of_nat (length fvs) + Z.of_nat (length fg) <= size)).
    { destruct (Nat.eq_dec (max_allocs e) 0) as [Z0|NZ].
      - rewrite Z0 in Hsl. cbn [make_GC_call] in Hsl. unfold make_GC_call in Hsl.
        destruct (push_live_vars_offset (N.of_nat (length fvs)) fg). cbn [Nat.eqb snd] in Hsl. split; [lia|contradiction].
      - rewrite (snd_gc_call fg (N.of_nat (length fvs)) NZ) in Hsl. split; lia. }
    destruct Hoff as [Hoff1 Hoff2].
    destruct (@exec_make_stack gc (run gc gcIdent prog k) decl id fp0 ids size 0%N fvs t1 m1 a K1 Hs)
      as (m2 & Ex & K2 & SR & KF2 & _ & SV2).
    { lia. }
    { intro Z0. congruence. }
    { intros y I. destruct (LV y I) as (v & w & _ & G2 & G3 & _). exists w, (enc cenv v). auto. }
    rewrite exec_seq, Ex. cbn [andthen]. clear Ex. rewrite N.add_0_l in *.
    set (off := N.of_nat (length fvs)) in *.
    destruct SR as ((Q1' & Q2' & Q3') & SRa & SRal & SRli & SRn & SRx).
    (* the call *)
    destruct (@mkCall_eval id t1 m2 t0 inf x f ys ws c Gi Ec F1') as (es & -> & Ees).
    rewrite exec_seq. rewrite (@exec_call _ decl id x (Xcast (makeVar f fenv fmap)) es t1 m2 f' (firstn nParam ws)).
    2:{ cbn [eval]. apply (evv_eval id m2 Ewf1). }
    2:{ exact Ees. }
    2:{ intros ->. contradiction. }
    assert (HM2 : forall v w, hr m1 a v w -> hr m2 a v w).
    { intros v w. apply hr_same. split; [exact Q1'|split; [exact Q2'|exact Q3']]. }
    assert (KF1 : keepf m a ids id m1 a).
    { apply keepf_same; [cbn; lia| |reflexivity]. intros v w. apply hr_same. repeat split. }
    destruct (IH1 m2 a (linked id off ids) ws) as [[HT Er]|[Er|(v & w & m3 & a3 & HQ & Er & A3 & B3 & Fp3 & KF3 & O3)]].
    { exact (lk_wf K2). }
    { split; [rewrite SRal; reflexivity|rewrite SRli, Q3'; reflexivity]. }
    { eapply Forall2_imp; [|exact F2]. intros v w O. apply (okv_sync A) in O. destruct O as [O1 O2]. split; [apply HM2; exact O1|exact O2]. }
    { intros i w Ew Hi. rewrite SRa. apply HA; assumption. }
    { rewrite Er. left. split; [exact HT|reflexivity]. }
    { rewrite Er. right. left. reflexivity. }
    rewrite Er. rewrite assign_temp_ok by (apply HD; exact Ix). cbn [andthen]. clear Er.
    pose proof (lk_id K2) as Id2.
    assert (KF3s : keepf m2 a (linked id off ids) (Pos.succ id) m3 a3).
    { eapply keepf_weaken; [exact KF3|lia|apply incl_refl]. }
    assert (K3 : LK id fp0 ids size off m3 a3) by (eapply LK_keepf; [exact K2|exact KF3s|exact Fp3|exact B3]).
    assert (KF3i : keepf m2 a ids id m3 a3).
    { eapply keepf_weaken; [exact KF3|lia|]. unfold linked. destruct (N.eqb off 0); [apply incl_refl|apply incl_tl, incl_refl]. }
    destruct A3 as [A3a A3b].
    rewrite (exec_reload _ _ _ _ _ _ Da Dl).
    rewrite A3a, A3b.
    set (t3 := set limitIdent (VP BHeap (m_hi m3)) (set allocIdent (VP BHeap a3) (set x w t1))).
    assert (Gx3 : get x t3 = Some w).
    { unfold t3. rewrite !get_set_other by (apply Nx; cbn; tauto). apply get_set_same. }
    assert (G3o : forall y, y <> x -> y <> allocIdent -> y <> limitIdent -> get y t3 = get y t1).
    { intros y N1 N2 N3. unfold t3. rewrite !get_set_other by assumption. reflexivity. }
    assert (SV3 : forall i y v' w', nth_error fvs i = Some y -> get y t1 = Some w' -> okv m1 a v' w' ->
              slotv id m3 a3 (Z.of_nat i) (enc cenv v')).
    { intros i y v' w' Ei Gy [O1 _]. eapply slotv_keepf; [exact K2|exact KF3s| |].
      - assert (i < length fvs)%nat by (apply nth_error_Some; congruence). unfold off. lia.
      - specialize (SV2 i y w' (enc cenv v') Ei Gy O1). cbn [Z.of_N] in SV2. rewrite Z.add_0_l in SV2. exact SV2. }
    assert (SVe : forall i, 0 <= i < Z.of_N off -> exists v', slotv id m3 a3 i v').
    { intros i Hi. destruct (nth_error fvs (Z.to_nat i)) as [y|] eqn:Ei.
      - destruct (LV y (nth_error_In _ _ Ei)) as (v' & w' & _ & G2 & G3). exists (enc cenv v').
        specialize (SV3 _ y v' w' Ei G2 G3). rewrite Z2Nat.id in SV3 by lia. exact SV3.
      - apply nth_error_None in Ei. unfold off in Hi. lia. }
    destruct (@exec_gc_call gc (run gc gcIdent prog k) decl id fp0 ids size off fg (max_allocs e) t3 m3 a3 GC K3 Hs)
      as [Eg|(t4 & m4 & a4 & Eg & K4 & A4 & T4 & B4 & KF4 & SV4 & V4 & O4)]; auto.
    { intro NZ. specialize (Hoff2 NZ). unfold off. lia. }
    { intros y I. apply Ifg in I. destruct I as [-> _]. apply HD. exact Ix. }
    { intro I. apply Ifg in I. destruct I as [I _]. symmetry in I. revert I. apply Nx. cbn. tauto. }
    { intro I. apply Ifg in I. destruct I as [I _]. symmetry in I. revert I. apply Nx. cbn. tauto. }
    { split; [exact A3a|exact A3b]. }
    { split; unfold t3; [rewrite get_set_other by discriminate|]; apply get_set_same. }
    { intros y I. apply Ifg in I. destruct I as [-> _]. exists w, (enc cenv v). split; [exact Gx3|apply O3]. }
    { rewrite exec_seq, Eg. right. left. reflexivity. }
    rewrite exec_seq, Eg. cbn [andthen]. clear Eg.
    assert (K4' : LK id fp0 ids size (0 + N.of_nat (length fvs))%N m4 a4) by (rewrite N.add_0_l; exact K4).
    destruct (@exec_discard gc (run gc gcIdent prog k) decl id fp0 ids size 0%N fvs t4 m4 a4 false K4' Hs)
      as (t5 & m5 & Ed & K5 & SR5 & Fr5 & T5n & T5i); auto.
    { intros y I. apply HD. apply Ifv in I. tauto. }
    { intros i y Ei. destruct (LV y (nth_error_In _ _ Ei)) as (v' & w' & _ & G2 & G3). exists (enc cenv v').
      cbn [Z.of_N]. rewrite Z.add_0_l. apply SV4; [|eapply SV3; eauto].
      assert (i < length fvs)%nat by (apply nth_error_Some; congruence). unfold off. lia. }
    rewrite N.add_0_l in Ed. fold off in Ed.
    rewrite exec_seq, Ed. cbn [andthen]. clear Ed.
    destruct SR5 as (SH5 & SR5a & SR5al & SR5li & SR5n & SR5x).
    assert (HM5 : forall v w, hr m4 a4 v w -> hr m5 a4 v w) by (intros v' w'; apply hr_same; exact SH5).
    assert (KF5 : keepf m4 a4 ids id m5 a4).
    { apply keepf_same; [rewrite SR5x; lia|exact HM5|]. intros i _. rewrite Fr5. reflexivity. }
    assert (KFall : keepf m a ids id m5 a4).
    { eapply keepf_trans; [exact KF1|]. eapply keepf_trans; [exact KF2|]. eapply keepf_trans; [exact KF3i|].
      eapply keepf_trans; [exact KF4|exact KF5]. }
    apply (good_pre KFall).
    assert (Nfv : forall z, In z reserved -> ~ In z fvs).
    { intros z I J. apply Ifv in J. destruct J as (_ & J & _). apply (HL z J). exact I. }
    eapply (IH2 v HQ); eauto.
    - intros y I. apply HG. right. exact I.
    - constructor; auto.
      + destruct T4 as [T4a T4b]. split; rewrite T5n by (apply Nfv; cbn; tauto); [exact T4a|].
        rewrite T4b. f_equal. f_equal. symmetry. apply SH5.
      + destruct SH5 as (_ & _ & H5). lia.
      + intros y Fy. destruct (Pos.eq_dec y x) as [->|Nyx].
        * destruct (V4 x w (enc cenv v)) as (w' & G' & O'); [apply Ifg; auto|exact Gx3|apply O3|].
          eapply envv_set; [exact Ix| |].
          -- rewrite T5n; [exact G'|]. rewrite Ifv. tauto.
          -- split; [apply HM5; exact O'|apply O3].
        * apply envv_set_other; [exact Nyx|].
          destruct (V y) as [[If' Gr]|(Iy & _)]; [cbn [free]; tauto|left; auto|].
          right. split; [exact Iy|].
          assert (Iv : In y fvs) by (apply Ifv; auto).
          destruct (LV y Iv) as (v' & w1 & G1 & G2 & G3).
          destruct (T5i y Iv) as (i & w' & fr & Ei & Gt & Gfr & Gsl).
          exists v', w'. split; [exact G1|]. split; [exact Gt|]. split; [|apply G3].
          apply HM5. cbn [Z.of_N] in Gsl. rewrite Z.add_0_l in Gsl.
          assert (Sl : slotv id m4 a4 (Z.of_nat i) (enc cenv v')).
          { apply SV4; [|eapply SV3; eauto].
            assert (i < length fvs)%nat by (apply nth_error_Some; congruence). unfold off. lia. }
          destruct Sl as (fr' & w2 & Gf' & Gs' & Hr'). rewrite Gfr in Gf'. injection Gf' as <-. rewrite Gsl in Gs'. injection Gs' as <-. exact Hr'.
  Qed.

  (** ** Terminating programs *)

  Lemma sim_term :
    (forall rho e c r, bstep cenv rho e c r ->
       match r with Res v => forall k, (c <= k)%nat -> body_ok False (eq v) k rho e | OOT => True end) /\
    (forall rho e c r, bstep_fuel cenv rho e c r ->
       match r with Res v => (1 <= c)%nat /\ forall k, (c <= S k)%nat -> body_ok False (eq v) k rho e | OOT => True end).
  Proof.
    apply bstep_mutind.
    - intros x t ys e rho vs r c G _ IH. destruct r as [|v]; [exact I|]. intros k Hk.
      eapply body_constr; [exact G|]. apply IH. lia.
    - intros t vs rho x n y e v r c G N _ IH. destruct r as [|v']; [exact I|]. intros k Hk.
      eapply body_proj; [exact G|exact N|]. apply IH. lia.
    - intros y r e t cl vl rho c G C F _ IH. destruct r as [|v]; [exact I|]. intros k Hk.
      eapply body_case; [exact G|exact C|exact F|]. apply IH. lia.
    - intros rho' fl f' vs xs e rho'' rho f t ys r c G GL FD SL _ IH. destruct r as [|v]; [exact I|]. intros k Hk.
      destruct IH as [Hc IH]. destruct k as [|k]; [lia|].
      eapply body_app; [exact G|exact GL|exact FD|exact (set_lists_length _ _ _ SL)|]. intros -> ->. eapply callee_ok_S; [exact FD|exact SL|]. apply IH. lia.
    - intros rho' fl f' vs xs eb e rho'' rho x f t ys v r c1 c2 G GL FD SL _ [Hc1 IH1] _ IH2. destruct r as [|v']; [exact I|]. intros k Hk.
      destruct IH2 as [Hc2 IH2]. destruct k as [|k]; [lia|].
      eapply body_letapp; [exact G|exact GL|exact FD|exact (set_lists_length _ _ _ SL)| |].
      + intros -> ->. eapply callee_ok_S; [exact FD|exact SL|]. apply IH1. lia.
      + intros v0 <-. apply IH2. lia.
    - intros. exact I.
    - intros rho B e r c _ _. destruct r as [|v]; [exact I|].
      intros k Hk fv L locs decl id ids fp0 size t m a s slots n E. discriminate.
    - intros x v rho G k Hk. eapply body_halt; [exact G|reflexivity].
    - intros. exact I.
    - intros rho e r c _ IH. destruct r as [|v]; [exact I|]. split; [lia|]. intros k Hk. apply IH. lia.
  Qed.

  (** ** Programs that do not get stuck *)

  (** at every number of steps: finished, or still running *)
  Definition safe (rho : env) (e : exp) : Prop :=
    forall c, (exists c' v, (c' <= c)%nat /\ bstep_fuel cenv rho e c' (Res v)) \/ bstep_fuel cenv rho e c OOT.

  Lemma not_stuck_safe rho e : not_stuck cenv rho e -> safe rho e.
  Proof.
    intros [(c & v & H)|H] c'; [|right; apply H].
    destruct (Nat.le_gt_cases c c') as [L|L]; [left; exists c, v; auto|right; eapply bstep_fuel_less; eauto].
  Qed.

  Lemma safe_step rho e : safe rho e ->
    forall c, (exists c' v, (c' <= c)%nat /\ bstep cenv rho e c' (Res v)) \/ bstep cenv rho e c OOT.
  Proof.
    intros S c. destruct (S (c + 1)%nat) as [(c' & v & L & H)|H]; inversion H; subst.
    - left. exists c0, v. split; [lia|assumption].
    - lia.
    - right. replace c with c0 by lia. assumption.
  Qed.

  Lemma body_ok_imp (T : Prop) (Q Q' : val -> Prop) k rho e : (forall v, Q v -> Q' v) -> body_ok T Q k rho e -> body_ok T Q' k rho e.
  Proof.
    intros H IH fv L locs decl id ids fp0 size t m a s slots n H1 H2 H3 H4 H5 H6 H7 H8 H9 H10 H11 H12.
    specialize (IH fv L locs decl id ids fp0 size t m a s slots n H1 H2 H3 H4 H5 H6 H7 H8 H9 H10 H11 H12).
    destruct IH as [G|[G|(v & w & t' & m' & a' & G & R)]]; [left; exact G|right; left; exact G|].
    right. right. exists v, w, t', m', a'. auto.
  Qed.

  Definition returns (rho : env) (e : exp) (v : val) : Prop := exists c, bstep_fuel cenv rho e c (Res v).

  Lemma returns_bstep rho e c v : bstep cenv rho e c (Res v) -> returns rho e v.
  Proof. intro H. exists (c + 1)%nat. apply BStepf_run. exact H. Qed.

  Lemma sim_safe : forall k rho e, safe rho e -> body_ok True (returns rho e) k rho e.
  Proof.
    induction k as [k IHk] using lt_wf_ind. intros rho e. revert rho.
    apply (@exp_ind2 (fun e => forall rho, safe rho e -> body_ok True (returns rho e) k rho e) (fun _ => True)); clear e.
    - intros x t ys e IH rho S. pose proof (safe_step S) as S'.
      assert (G : exists vs, get_list ys rho = Some vs).
      { destruct (S' 0%nat) as [(c' & v & _ & H)|H]; inversion H; subst; eauto. }
      destruct G as (vs & G). eapply body_constr; [exact G|].
      eapply body_ok_imp; [|apply IH].
      + intros v (c & H). eapply returns_bstep. econstructor; eassumption.
      + intro c. destruct (S' c) as [(c' & v & L & H)|H]; inversion H; subst.
        * left. exists c', v. split; [exact L|congruence].
        * right. congruence.
    - intros y l F rho S. pose proof (safe_step S) as S'.
      assert (G : exists t vl e, get y rho = Some (Vconstr t vl) /\ caseConsistent_f cenv l t = true /\ findtag l t = Some e).
      { destruct (S' 0%nat) as [(c' & v & _ & H)|H]; inversion H; subst; eauto 6. }
      destruct G as (t & vl & e & G & C & Ft). eapply body_case; [exact G|exact C|exact Ft|].
      assert (IH : forall rho, safe rho e -> body_ok True (returns rho e) k rho e).
      { rewrite Forall_forall in F. apply (F (t, e)). apply findtag_In. exact Ft. }
      eapply body_ok_imp; [|apply IH].
      + intros v (c & H). eapply returns_bstep. econstructor; eassumption.
      + intro c. destruct (S' c) as [(c' & v & L & H)|H]; inversion H; subst.
        * left. exists c', v. split; [exact L|congruence].
        * right. congruence.
    - intros x t n y e IH rho S. pose proof (safe_step S) as S'.
      assert (G : exists vs v, get y rho = Some (Vconstr t vs) /\ nthN vs n = Some v).
      { destruct (S' 0%nat) as [(c' & v & _ & H)|H]; inversion H; subst; eauto. }
      destruct G as (vs & v & G & N). eapply body_proj; [exact G|exact N|].
      eapply body_ok_imp; [|apply IH].
      + intros v' (c & H). eapply returns_bstep. econstructor; eassumption.
      + intro c. destruct (S' c) as [(c' & v' & L & H)|H]; inversion H; subst.
        * left. exists c', v'. split; [exact L|congruence].
        * right. congruence.
    - intros x f t ys e IH rho S. pose proof (safe_step S) as S'.
      assert (G : exists rho' fl f' vs xs eb rho'', get f rho = Some (Vfun rho' fl f') /\ get_list ys rho = Some vs /\
                  find_def f' fl = Some (t, xs, eb) /\ set_lists xs vs (def_funs fl fl rho' rho') = Some rho'').
      { destruct (S' 0%nat) as [(c' & v & _ & H)|H]; inversion H; subst;
          repeat (eapply ex_intro); (split; [eassumption|split; [eassumption|split; eassumption]]). }
      destruct G as (rho' & fl & f' & vs & xs & eb & rho'' & G & GL & FD & SL).
      assert (Sb : safe rho'' eb).
      { intro c. destruct (S' c) as [(c' & v & L & H)|H]; inversion H; subst;
          match goal with A : get f rho = Some (Vfun ?a ?b ?c), B : get_list ys rho = Some ?d, C : find_def _ _ = Some (_, ?e, ?g), D : set_lists _ _ _ = Some ?h |- _ =>
            assert (a = rho') by congruence; assert (b = fl) by congruence; assert (c = f') by congruence; assert (d = vs) by congruence; subst end.
        - left. exists c1. eexists. split; [lia|]. replace rho'' with rho''0 by congruence. replace eb with e_body by congruence. eassumption.
        - left. exists c1. eexists. split; [lia|]. replace rho'' with rho''0 by congruence. replace eb with e_body by congruence. eassumption.
        - right. replace rho'' with rho''0 by congruence. replace eb with e_body by congruence. assumption. }
      eapply body_letapp with (Q1 := returns rho'' eb); [exact G|exact GL|exact FD|exact (set_lists_length _ _ _ SL)| |].
      + intros -> ->. destruct k as [|k]; [intros m a ids ws _ _ _ _; left; split; [exact I|reflexivity]|].
        eapply callee_ok_S; [exact FD|exact SL|]. apply IHk; [lia|exact Sb].
      + intros v (c1 & Hb). eapply body_ok_imp; [|apply IH].
        * intros v' (c & H). eapply returns_bstep. eapply BStept_letapp; eassumption.
        * intro c. destruct (S' (c1 + c)%nat) as [(c' & v' & L & H)|H]; inversion H; subst;
          match goal with A : get f rho = Some (Vfun ?a ?b ?c), B : get_list ys rho = Some ?d, C : find_def _ _ = Some (_, ?e, ?g), D : set_lists _ _ _ = Some ?h |- _ =>
            assert (a = rho') by congruence; assert (b = fl) by congruence; assert (c = f') by congruence; assert (d = vs) by congruence; subst end.
          -- match goal with A : bstep_fuel cenv rho''0 e_body ?x (Res ?y) |- _ =>
               replace rho''0 with rho'' in A by congruence; replace e_body with eb in A by congruence;
               destruct (bstep_fuel_det _ _ _ _ _ _ _ A Hb) as [<- <-] end.
             left. exists c2, v'. split; [lia|assumption].
          -- match goal with A : bstep_fuel cenv rho''0 e_body ?x (Res ?y) |- _ =>
               replace rho''0 with rho'' in A by congruence; replace e_body with eb in A by congruence;
               destruct (bstep_fuel_det _ _ _ _ _ _ _ A Hb) as [<- <-] end.
             right. replace c with c2 by lia. assumption.
          -- exfalso. match goal with A : bstep_fuel cenv rho''0 e_body ?x OOT |- _ =>
               replace rho''0 with rho'' in A by congruence; replace e_body with eb in A by congruence;
               pose proof (bstep_fuel_oot_lt _ _ _ _ _ _ A Hb) end. lia.
    - intros B e _ _ rho S fv L locs decl id ids fp0 size t m a s slots n E. discriminate.
    - intros f t ys rho S. pose proof (safe_step S) as S'.
      assert (G : exists rho' fl f' vs xs eb rho'', get f rho = Some (Vfun rho' fl f') /\ get_list ys rho = Some vs /\
                  find_def f' fl = Some (t, xs, eb) /\ set_lists xs vs (def_funs fl fl rho' rho') = Some rho'').
      { destruct (S' 0%nat) as [(c' & v & _ & H)|H]; inversion H; subst;
          repeat (eapply ex_intro); (split; [eassumption|split; [eassumption|split; eassumption]]). }
      destruct G as (rho' & fl & f' & vs & xs & eb & rho'' & G & GL & FD & SL).
      eapply body_app; [exact G|exact GL|exact FD|exact (set_lists_length _ _ _ SL)|]. intros -> ->.
      destruct k as [|k]; [intros m a ids ws _ _ _ _; left; split; [exact I|reflexivity]|].
      eapply callee_ok_S; [exact FD|exact SL|].
      eapply body_ok_imp; [|apply IHk; [lia|]].
      + intros v (c & H). eapply returns_bstep. econstructor; eassumption.
      + intro c. destruct (S' c) as [(c' & v & L & H)|H]; inversion H; subst;
          match goal with A : get f rho = Some (Vfun ?a ?b ?c), B : get_list ys rho = Some ?d, C : find_def _ _ = Some (_, ?e, ?g), D : set_lists _ _ _ = Some ?h |- _ =>
            assert (a = []) by congruence; assert (b = B0) by congruence; assert (c = f') by congruence; assert (d = vs) by congruence; subst end.
        * left. exists c', v. split; [exact L|]. replace rho'' with rho''0 by congruence. replace eb with e by congruence. assumption.
        * right. replace rho'' with rho''0 by congruence. replace eb with e by congruence. assumption.
    - intros x p e _ rho S. destruct (safe_step S 0%nat) as [(c' & v & _ & H)|H]; inversion H.
    - intros x p ys e _ rho S. destruct (safe_step S 0%nat) as [(c' & v & _ & H)|H]; inversion H.
    - intros x rho S. destruct (safe_step S 0%nat) as [(c' & v & _ & H)|H]; inversion H; subst.
      eapply body_halt; [eassumption|]. eapply returns_bstep. constructor. assumption.
    - auto.
    - exact I.
  Qed.
End Sim.
