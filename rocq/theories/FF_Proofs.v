(** * Proofs about foreign-function glue *)
From Coq Require Import ZArith PArith List Bool Arith Lia String.
From Verif Require Import ANF_Syntax CG_Clight FF_Model FF_Spec.
Import ListNotations.
Local Open Scope nat_scope.
Ltac Zify.zify_post_hook ::= idtac.

Lemma setv_same vars x v : setv vars x v x = Some v.
Proof. unfold setv. now rewrite Pos.eqb_refl. Qed.
Lemma setv_other vars x v y : y <> x -> setv vars x v y = vars y.
Proof. intro H. unfold setv. now rewrite (proj2 (Pos.eqb_neq _ _) H). Qed.

Definition set_alloc (m : mem) (v : cval) : mem :=
  {| m_heap := m_heap m; m_lo := m_lo m; m_hi := m_hi m; m_args := m_args m; m_alloc := v; m_limit := m_limit m; m_fp := m_fp m;
     m_nalloc := m_nalloc m; m_frames := m_frames m; m_next := m_next m |}.

(** memory after allocating a block of two words *)
Definition paired (m : mem) (a : Z) (x y : cval) : mem :=
  set_alloc (set_heap m (upd (upd (upd (m_heap m) a (VZ 2048)) (a + 1) x) (a + 2) y)) (VP BHeap (a + 3)).

Definition simple (x : positive) (e : fexp) : Prop := match e with Xvar y => y <> x | Xfun _ => True | _ => False end.

Lemma simple_val x e vars v m m' : simple x e -> fval (setv vars x v) m e = fval vars m' e.
Proof. destruct e; cbn [simple fval]; intro H; try contradiction; auto. now apply setv_other. Qed.

Lemma run_pair ext x ea eb vars m a va vb : simple x ea -> simple x eb -> fval vars m ea = Some va -> fval vars m eb = Some vb ->
  m_alloc m = VP BHeap a -> (m_lo m <= a)%Z -> (a + 3 <= m_hi m)%Z ->
  exists vars', frun ext (make_pair x ea eb) vars m = Next vars' (paired m a va vb) /\
    vars' x = Some (VP BHeap (a + 1)) /\ forall y, y <> x -> vars' y = vars y.
Proof.
  intros Sa Sb Ha Hb A L H. unfold make_pair, Field, incr. cbn [frun fval assign]. rewrite A.
  rewrite setv_same. unfold store. cbn [m_lo m_hi set_heap].
  assert (E : forall i, (0 <= i < 3)%Z -> ((m_lo m <=? a + i) && (a + i <? m_hi m))%Z = true).
  { intros i I. apply andb_true_iff. split; [apply Z.leb_le|apply Z.ltb_lt]; lia. }
  rewrite E by lia. rewrite (simple_val x ea vars _ _ m Sa), Ha, setv_same. cbn [m_lo m_hi set_heap]. rewrite E by lia.
  rewrite (simple_val x eb vars _ _ m Sb), Hb, setv_same. cbn [m_lo m_hi set_heap]. rewrite E by lia.
  cbn [m_alloc set_heap]. rewrite A. cbn [set_tinfo]. rewrite setv_same.
  eexists. split; [unfold paired, set_alloc; cbn; rewrite Z.add_0_r; reflexivity|]. split.
  - apply setv_same.
  - intros y N. rewrite !setv_other; auto.
Qed.

(** ** Memory *)
Lemma upd_same (f : Z -> option cval) o v : upd f o v o = Some v.
Proof. unfold upd. now rewrite Z.eqb_refl. Qed.
Lemma upd_other (f : Z -> option cval) o v p : p <> o -> upd f o v p = f p.
Proof. intro H. unfold upd. now rewrite (proj2 (Z.eqb_neq _ _) H). Qed.

Lemma allocated_trans n p m m1 m2 : (0 <= n)%Z -> (0 <= p)%Z -> allocated n m m1 -> allocated p m1 m2 -> allocated (n + p) m m2.
Proof.
  intros N P (a & A & A' & H & L & Hi & Li & Fp & Fr) (b & B & B' & H2 & L2 & Hi2 & Li2 & Fp2 & Fr2). exists a.
  assert (b = a + n)%Z by congruence. subst b. repeat split; try congruence.
  - rewrite B'. f_equal. lia.
  - intros o O. rewrite H2 by lia. apply H. lia.
Qed.

Lemma allocated_args m f a : m_alloc m = VP BHeap a -> allocated 0 m (set_args m f).
Proof. intro A. exists a. cbn. rewrite Z.add_0_r. repeat split; auto. Qed.

Lemma allocated_none m a : m_alloc m = VP BHeap a -> allocated 0 m m.
Proof. intro A. exists a. rewrite Z.add_0_r. repeat split; auto. Qed.

Lemma allocated_paired m a x y : m_alloc m = VP BHeap a -> allocated 3 m (paired m a x y).
Proof.
  intro A. exists a. cbn. repeat split; auto. intros o O. rewrite !upd_other by lia. reflexivity.
Qed.

Lemma pair_kept n m m' w x y : (0 <= n)%Z -> room m n -> allocated n m m' -> pair_at m w x y -> pair_at m' w x y.
Proof.
  intros N (b & B & _ & R) (a & A & A' & H & _ & Hi & _) (o & W & U & X & Y). exists o. split; [exact W|].
  assert (b = a) by congruence. subst b. destruct (U a A) as [V|V].
  - split; [intros a' E; rewrite A' in E; injection E as <-; lia|]. rewrite !H by lia. auto.
  - split; [intros a' E; rewrite Hi; lia|]. rewrite !H by lia. auto.
Qed.

Lemma env_kept n m m' l : (0 <= n)%Z -> room m n -> allocated n m m' -> forall w, env_holds m w l -> env_holds m' w l.
Proof.
  intros N R A. induction l as [|v r IH]; [auto|]. intros w (w' & P & Q). exists w'. split; [exact (pair_kept _ _ _ _ _ _ N R A P)|auto].
Qed.

Lemma paired_pair m a x y : m_alloc m = VP BHeap a ->
  pair_at (paired m a x y) (VP BHeap (a + 1)) x y /\ headed (paired m a x y) (VP BHeap (a + 1)).
Proof.
  intro A. split.
  - exists (a + 1)%Z. split; [reflexivity|]. split; [intros b B; cbn in B; injection B as <-; lia|]. cbn. split.
    + rewrite upd_other by lia. apply upd_same.
    + replace (a + 1 + 1)%Z with (a + 2)%Z by lia. apply upd_same.
  - exists (a + 1)%Z. split; [reflexivity|]. cbn. rewrite !upd_other by lia. replace (a + 1 - 1)%Z with a by lia. apply upd_same.
Qed.

(** ** Arguments of the generated functions *)
Lemma run_inputs be c ext env k arg e kw v cargs m : env <> k -> env <> arg -> k <> arg -> passed c (words_in be e kw v) cargs m ->
  let all := match be with ANF => [env; arg] | CPS => [env; k; arg] end in
  exists vars0 vars, bind_params (firstn c all) cargs = Some vars0 /\
    frun ext (multiple (skipn c (inputs 0 all))) vars0 m = Next vars m /\
    vars env = Some e /\ vars arg = Some v /\ (be = CPS -> vars k = Some kw).
Proof.
  intros N1 N2 N3 [-> P]. destruct be; cbn [words_in] in *; cbn zeta.
  - destruct c as [|[|c]].
    + pose proof (P 0 _ ltac:(lia) eq_refl) as P0. pose proof (P 1 _ ltac:(lia) eq_refl) as P1. cbn in P0, P1.
      do 2 eexists. split; [reflexivity|]. split; [cbn; rewrite P0; cbn; rewrite P1; reflexivity|].
      rewrite ?setv_same, ?setv_other, ?setv_same by auto. repeat split; auto; discriminate.
    + pose proof (P 1 _ ltac:(lia) eq_refl) as P1. cbn in P1.
      do 2 eexists. split; [reflexivity|]. split; [cbn; rewrite P1; reflexivity|].
      rewrite ?setv_same, ?setv_other, ?setv_same by auto. repeat split; auto; discriminate.
    + assert (E : forall A (x y : A), firstn (S (S c)) [x; y] = [x; y]) by (intros; now destruct c).
      assert (E' : forall A (x y : A), skipn (S (S c)) [x; y] = []) by (intros; now destruct c).
      rewrite !E. cbn [inputs]. rewrite E'. do 2 eexists. split; [reflexivity|]. split; [reflexivity|].
      rewrite ?setv_same, ?setv_other, ?setv_same by auto. repeat split; auto; discriminate.
  - destruct c as [|[|[|c]]].
    + pose proof (P 0 _ ltac:(lia) eq_refl) as P0. pose proof (P 1 _ ltac:(lia) eq_refl) as P1. pose proof (P 2 _ ltac:(lia) eq_refl) as P2.
      cbn in P0, P1, P2. do 2 eexists. split; [reflexivity|]. split; [cbn; rewrite P0; cbn; rewrite P1; cbn; rewrite P2; reflexivity|].
      split; [|split; [|intros _]]; repeat (rewrite setv_same || rewrite setv_other by auto); auto.
    + pose proof (P 1 _ ltac:(lia) eq_refl) as P1. pose proof (P 2 _ ltac:(lia) eq_refl) as P2.
      cbn in P1, P2. do 2 eexists. split; [reflexivity|]. split; [cbn; rewrite P1; cbn; rewrite P2; reflexivity|].
      split; [|split; [|intros _]]; repeat (rewrite setv_same || rewrite setv_other by auto); auto.
    + pose proof (P 2 _ ltac:(lia) eq_refl) as P2.
      cbn in P2. do 2 eexists. split; [reflexivity|]. split; [cbn; rewrite P2; reflexivity|].
      split; [|split; [|intros _]]; repeat (rewrite setv_same || rewrite setv_other by auto); auto.
    + assert (E : forall A (x y z : A), firstn (S (S (S c))) [x; y; z] = [x; y; z]) by (intros; now destruct c).
      assert (E' : forall A (x y z : A), skipn (S (S (S c))) [x; y; z] = []) by (intros; now destruct c).
      rewrite !E. cbn [inputs]. rewrite E'. do 2 eexists. split; [reflexivity|]. split; [reflexivity|].
      split; [|split; [|intros _]]; repeat (rewrite setv_same || rewrite setv_other by auto); auto.
Qed.

(** ** The answer *)
Lemma run_final be c ext k ret kw r vars m a : m_alloc m = VP BHeap a -> vars ret = Some r ->
  (be = CPS -> vars k = Some kw /\ exists kf kenv, pair_at m kw kf kenv) ->
  exists m', answers be c kw r (frun ext (final be c k ret) vars m) m' /\ allocated 0 m m' /\ (m_heap m' = m_heap m).
Proof.
  intros A R K. destruct be; cbn [answers final].
  - eexists. split; [cbn; rewrite R; split; [reflexivity|apply upd_same]|]. split; [exact (allocated_args _ _ _ A)|reflexivity].
  - destruct (K eq_refl) as (Kv & kf & kenv & o & -> & U & F & E).
    assert (PA : forall f, pair_at (set_args m f) (VP BHeap o) kf kenv) by (intro f; exists o; repeat split; auto).
    assert (PA0 : pair_at m (VP BHeap o) kf kenv) by (exists o; repeat split; auto).
    destruct c as [|[|c]].
    + eexists. split.
      * exists kf, kenv, []. split; [|split; [|split; [reflexivity|]]].
        2: { cbn. rewrite Kv. cbn. rewrite E. cbn. rewrite R. cbn. rewrite Kv. cbn. rewrite Z.add_0_r, F. reflexivity. }
        2: { intros [|[|i]] w _ Q; cbn in Q; [| |destruct i; discriminate]; injection Q as <-; reflexivity. }
        { exact (PA _). }
      * split; [|reflexivity]. exact (allocated_args _ _ _ A).
    + eexists. split.
      * exists kf, kenv, [kenv]. split; [|split; [|split; [reflexivity|]]].
        2: { cbn. rewrite R. cbn. rewrite Kv. cbn. rewrite Z.add_0_r, F, E. reflexivity. }
        2: { intros [|[|i]] w Hi Q; cbn in Q; [lia| |destruct i; discriminate]; injection Q as <-; reflexivity. }
        { exact (PA _). }
      * split; [|reflexivity]. exact (allocated_args _ _ _ A).
    + exists m. split; [|split; [exact (allocated_none _ _ A)|reflexivity]]. exists kf, kenv, [kenv; r]. split; [exact PA0|]. split.
      * assert (E1 : forall A (x y : A), firstn (S (S c)) [x; y] = [x; y]) by (intros; now destruct c).
        assert (E2 : forall A (x y : A), skipn (S (S c)) [x; y] = []) by (intros; now destruct c).
        rewrite E1, E2. cbn. rewrite Kv. cbn. rewrite Z.add_0_r, F, E, R. reflexivity.
      * split; [destruct c; reflexivity|]. intros [|[|i]] w Hi Q; [lia|lia|destruct i; discriminate].
Qed.

(** ** Arguments collected earlier *)
Lemma env_proj_val vars m : forall i l e w, fval vars m e = Some w -> env_holds m w l -> i < List.length l ->
  fval vars m (env_proj i e) = nth_error l i.
Proof.
  induction i as [|i IH]; intros [|v r] e w E H L; cbn [List.length] in L; try lia.
  - destruct H as (w' & (o & -> & U & X & Y) & Q). cbn. rewrite E. cbn. exact X.
  - destruct H as (w' & (o & -> & U & X & Y) & Q). cbn [env_proj nth_error]. apply (IH _ _ w'); [|exact Q|lia].
    cbn. rewrite E. cbn. exact Y.
Qed.

Lemma run_args ext env ew L m : forall l st res st', make_args env l st = (res, st') -> (env < fs_gensym st)%positive ->
  env_holds m ew L -> (forall i, In i l -> i < List.length L) ->
  (fs_gensym st <= fs_gensym st')%positive /\
  (forall x, In x (fst (List.split res)) -> (fs_gensym st <= x < fs_gensym st')%positive) /\
  forall vars, vars env = Some ew -> exists vars', frun ext (multiple (snd (List.split res))) vars m = Next vars' m /\
    Forall2 (fun x i => vars' x = nth_error L i) (fst (List.split res)) l /\
    (forall y, (y < fs_gensym st)%positive -> vars' y = vars y).
Proof.
  induction l as [|i l IH]; intros st res st' M LT H B.
  - cbn in M. injection M as <- <-. cbn. split; [lia|]. split; [contradiction|]. intros vars E. exists vars. repeat split; auto.
  - cbn [make_args] in M. unfold gensym in M. cbn in M.
    match type of M with context [make_args ?e ?l ?s] => destruct (make_args e l s) as [r s1] eqn:E1 end.
    injection M as <- <-. specialize (IH _ _ _ E1). cbn [fs_gensym] in IH. destruct IH as (G & R & IH); [lia|exact H|intros; apply B; now right|].
    cbn [List.split]. destruct (List.split r) as [xs ss] eqn:Sp. cbn [fst snd] in *. split; [lia|]. split.
    + intros x [<-|I]; [lia|]. specialize (R x I). lia.
    + intros vars E. specialize (IH (setv vars (fs_gensym st) match nth_error L i with Some x => x | None => VZ 0 end)).
      assert (Il : i < List.length L) by (apply B; now left).
      destruct (nth_error L i) as [x|] eqn:Ni; [|apply nth_error_None in Ni; lia].
      destruct IH as (vars' & F & A & O); [rewrite setv_other by lia; exact E|]. exists vars'. cbn [multiple fold_right frun].
      assert (V : fval vars m (env_proj i (Xvar env)) = Some x) by (rewrite <- Ni; apply (env_proj_val vars m i L (Xvar env) ew); auto).
      rewrite V. cbn [assign]. split; [exact F|]. split.
      * constructor; [|exact A]. rewrite O by lia. rewrite Ni. apply setv_same.
      * intros y Y. rewrite O by lia. apply setv_other. lia.
Qed.

Lemma fvals_vars vars m xs l L : Forall2 (fun x i => vars x = nth_error L i) xs l -> (forall i, In i l -> i < List.length L) ->
  exists ws, fvals vars m (map Xvar xs) = Some ws /\ Forall2 (fun w i => nth_error L i = Some w) ws l.
Proof.
  induction 1 as [|x i xs l Hx _ IH]; intro B.
  - exists []. split; [reflexivity|constructor].
  - destruct IH as (ws & E & F); [intros; apply B; now right|]. assert (I : i < List.length L) by (apply B; now left).
    destruct (nth_error L i) as [w|] eqn:N; [|apply nth_error_None in N; lia].
    exists (w :: ws). cbn. rewrite Hx. rewrite E. split; [reflexivity|constructor; auto].
Qed.

Lemma to_zero_bound n i : In i (list_to_zero n) -> i < n.
Proof. induction n; cbn; [contradiction|]. intros [<-|I]; [lia|]. specialize (IHn I). lia. Qed.

Lemma to_zero_rev : forall vs ws : list cval, Forall2 (fun w i => nth_error (rev vs) i = Some w) ws (list_to_zero (List.length vs)) -> ws = vs.
Proof.
  induction vs as [|v vs IH]; intros ws F.
  - cbn in F. now inversion F.
  - cbn [List.length list_to_zero] in F. inversion F as [|w i ws' l' Hw F']; subst. f_equal.
    + cbn in Hw. rewrite nth_error_app2 in Hw by (rewrite rev_length; lia). rewrite rev_length, Nat.sub_diag in Hw. cbn in Hw. congruence.
    + apply IH. clear -F'. assert (B : forall i, In i (list_to_zero (List.length vs)) -> i < List.length vs) by apply to_zero_bound.
      induction F' as [|w i ws l H F IH]; constructor; [|apply IH; intros; apply B; now right].
      rewrite <- H. cbn. rewrite nth_error_app1; [reflexivity|]. rewrite rev_length. apply B. now left.
Qed.

Lemma fvals_app vars m xs ys ws zs : fvals vars m xs = Some ws -> fvals vars m ys = Some zs -> fvals vars m (xs ++ ys) = Some (ws ++ zs).
Proof.
  revert ws. induction xs as [|x xs IH]; intros ws X Y; cbn in *.
  - injection X as <-. exact Y.
  - destruct (fval vars m x); [|discriminate]. destruct (fvals vars m xs); [|discriminate]. injection X as <-. now rewrite (IH l eq_refl Y).
Qed.

Lemma fvals_same vars vars' m m' xs : (forall x, In x xs -> vars x = vars' x) -> fvals vars m (map Xvar xs) = fvals vars' m' (map Xvar xs).
Proof. induction xs as [|x xs IH]; intro H; [reflexivity|]. cbn. rewrite (H x) by now left. rewrite IH by (intros; apply H; now right). reflexivity. Qed.

(** ** One function *)
Definition builds (be : backend) (c : nat) (fn : ffun) (next : positive) : Prop :=
  forall ext e k v cargs m, passed c (words_in be e k v) cargs m -> room m 6 -> (be = CPS -> exists kf kenv, pair_at m k kf kenv) ->
  exists env' w' m', answers be c k w' (fcall ext fn cargs m) m' /\ allocated 6 m m' /\
    pair_at m' w' (VF next) env' /\ pair_at m' env' v e /\ headed m' w' /\ headed m' env'.

Definition given (io : bool) (vs : list cval) (v : cval) : list cval := if io then vs else vs ++ [v].

Definition calls (be : backend) (c arity : nat) (io : bool) (target : positive) (fn : ffun) : Prop :=
  forall ext e k v cargs m vs, passed c (words_in be e k v) cargs m -> env_holds m e (rev vs) ->
  List.length vs = (if io then arity else pred arity) ->
  match ext target (given io vs v) m with
  | None => fcall ext fn cargs m = Undefined
  | Some (r, m2) =>
      (exists a, m_alloc m2 = VP BHeap a) -> (be = CPS -> exists kf kenv, pair_at m2 k kf kenv) ->
      if io then room m2 3 -> exists p m', answers be c k p (fcall ext fn cargs m) m' /\ pair_at m' p r v /\ headed m' p /\ allocated 3 m2 m'
      else exists m', answers be c k r (fcall ext fn cargs m) m' /\ allocated 0 m2 m'
  end.

Lemma run_seq ext a b vars m vars' m' : frun ext a vars m = Next vars' m' -> frun ext (Fseq a b) vars m = frun ext b vars' m'.
Proof. intro H. cbn. now rewrite H. Qed.

Lemma mid_fn be c kn n arity io next st f d st' : make_curried_fn be c kn (S n) arity io next st = ((f, d), st') ->
  (n = 0 -> io = true) ->
  f = fs_gensym st /\ (fs_gensym st < fs_gensym st')%positive /\ exists fn, d = Fun fn /\ builds be c fn next.
Proof.
  intros M NI. unfold make_curried_fn, gensym in M. cbn [fs_gensym fs_nenv] in M.
  assert (M' : exists nm1 nm2, (let g := fs_gensym st in
    (g, Fun (mkffun (firstn c (match be with ANF => [g+1+1+1+1+1; g+1+1+1+1+1+1+1] | CPS => [g+1+1+1+1+1; g+1+1+1+1+1+1; g+1+1+1+1+1+1+1] end)%positive)
       (skipn c (match be with ANF => [g+1+1+1+1+1; g+1+1+1+1+1+1+1] | CPS => [g+1+1+1+1+1; g+1+1+1+1+1+1; g+1+1+1+1+1+1+1] end)%positive ++
         [g+1+1+1+1+1+1+1+1+1; g+1+1+1+1+1+1+1+1+1+1]%positive)
       (Fseq (multiple (skipn c (inputs 0 (match be with ANF => [g+1+1+1+1+1; g+1+1+1+1+1+1+1] | CPS => [g+1+1+1+1+1; g+1+1+1+1+1+1; g+1+1+1+1+1+1+1] end)%positive)))
         (Fseq (Fseq (make_pair (g+1+1+1+1+1+1+1+1+1) (Xvar (g+1+1+1+1+1+1+1)) (Xvar (g+1+1+1+1+1)))
                     (make_pair (g+1+1+1+1+1+1+1+1+1+1) (Xfun next) (Xvar (g+1+1+1+1+1+1+1+1+1))))
               (final be c (g+1+1+1+1+1+1) (g+1+1+1+1+1+1+1+1+1+1))))),
     mkfs (g+1+1+1+1+1+1+1+1+1+1+1) (nm1 :: nm2))) = ((f, d), st')).
  { destruct n as [|n]; [rewrite (NI eq_refl) in M|]; eexists _, _; exact M. }
  clear M. destruct M' as (nm1 & nm2 & M). cbn zeta in M. injection M as <- <- <-. cbn [fs_gensym]. split; [reflexivity|]. split; [lia|].
  eexists. split; [reflexivity|]. set (g := fs_gensym st). set (env := (g+1+1+1+1+1)%positive). set (k := (env+1)%positive).
  set (arg := (k+1)%positive). set (ne := (arg+1+1)%positive). set (nc := (ne+1)%positive).
  intros ext e kw v cargs m P (a & A & Lo & Hi) K.
  destruct (run_inputs be c ext env k arg e kw v cargs m) as (vars0 & vars & B & RI & Ve & Va & Vk); [lia|lia|lia|exact P|].
  unfold fcall. cbn [ff_params ff_body]. rewrite B. rewrite (run_seq _ _ _ _ _ _ _ RI).
  destruct (run_pair ext ne (Xvar arg) (Xvar env) vars m a v e) as (v1 & R1 & N1 & O1); try exact A; try lia; try assumption; [cbn; lia|cbn; lia|].
  set (m1 := paired m a v e) in *.
  destruct (run_pair ext nc (Xfun next) (Xvar ne) v1 m1 (a + 3)%Z (VF next) (VP BHeap (a + 1))) as (v2 & R2 & N2 & O2);
    [exact I|cbn; lia|reflexivity|exact N1|reflexivity|cbn; lia|cbn; lia|].
  set (m2 := paired m1 (a + 3)%Z (VF next) (VP BHeap (a + 1))) in *.
  assert (AL1 : allocated 3 m m1) by exact (allocated_paired m a v e A).
  assert (AL2 : allocated 3 m1 m2) by exact (allocated_paired m1 (a+3)%Z (VF next) (VP BHeap (a + 1)) eq_refl).
  pose proof (allocated_trans 3 3 _ _ _ ltac:(lia) ltac:(lia) AL1 AL2) as AL. cbn in AL.
  assert (RM : room m 6) by (exists a; auto).
  assert (RM1 : room m1 3) by (exists (a + 3)%Z; split; [reflexivity|cbn; lia]).
  rewrite (run_seq ext (Fseq _ _) _ vars m v2 m2) by (rewrite (run_seq _ _ _ _ _ _ _ R1); exact R2).
  destruct (run_final be c ext k nc kw (VP BHeap (a + 3 + 1)) v2 m2 (a + 3 + 3)%Z) as (m' & AN & AL0 & HE); [reflexivity|exact N2| |].
  { intro C. split; [rewrite O2, O1 by lia; exact (Vk C)|]. destruct (K C) as (kf & kenv & PK). exists kf, kenv.
    refine (pair_kept 6 m m2 kw kf kenv _ RM AL PK). lia. }
  pose proof (allocated_trans 6 0 _ _ _ ltac:(lia) ltac:(lia) AL AL0) as AL'. cbn in AL'.
  exists (VP BHeap (a + 1)), (VP BHeap (a + 3 + 1)), m'. split; [exact AN|]. split; [exact AL'|].
  assert (RM2 : room m2 0) by (exists (a + 3 + 3)%Z; split; [reflexivity|cbn; lia]).
  destruct (paired_pair m a v e A) as (P1 & H1). destruct (paired_pair m1 (a+3)%Z (VF next) (VP BHeap (a + 1)) eq_refl) as (P2 & H2).
  fold m1 in P1, H1. fold m2 in P2, H2.
  split; [exact (pair_kept 0 _ _ _ _ _ ltac:(lia) RM2 AL0 P2)|].
  split; [apply (pair_kept 0 _ _ _ _ _ ltac:(lia) RM2 AL0), (pair_kept 3 _ _ _ _ _ ltac:(lia) RM1 AL2), P1|].
  unfold headed in *. rewrite HE. split; [exact H2|]. destruct H1 as (o & Eo & Ho). exists o. split; [exact Eo|]. injection Eo as <-.
  unfold m2. cbn [paired set_alloc set_heap m_heap]. rewrite !upd_other by lia. exact Ho.
Qed.

Lemma args_grow env : forall l st res st', make_args env l st = (res, st') -> (fs_gensym st <= fs_gensym st')%positive.
Proof.
  induction l as [|i l IH]; intros st res st' M.
  - cbn in M. injection M as <- <-. lia.
  - cbn [make_args] in M. unfold gensym in M.
    match type of M with context [make_args ?e ?l ?s] => destruct (make_args e l s) as [r s1] eqn:E1 end.
    injection M as <- <-. specialize (IH _ _ _ E1). cbn [fs_gensym] in IH. lia.
Qed.

Lemma last_fn be c kn num arity io target st f d st' : make_curried_fn be c kn num arity io target st = ((f, d), st') ->
  num = 0 \/ (num = 1 /\ io = false) ->
  f = fs_gensym st /\ (fs_gensym st < fs_gensym st')%positive /\ exists fn, d = Fun fn /\ calls be c arity io target fn.
Proof.
  intros M NI. unfold make_curried_fn, gensym in M. cbn [fs_gensym fs_nenv] in M.
  set (g := fs_gensym st) in *. set (env := (g+1+1+1+1+1)%positive) in *. set (k := (env+1)%positive) in *.
  set (arg := (k+1)%positive) in *.
  assert (M' : exists nm,
    (let '((ret, vars', rest), st) :=
        let args_to_extract := if io then arity else pred arity in
        let (res, st) := make_args env (list_to_zero args_to_extract) (mkfs (arg+1+1) nm) in
        let '(args, ss) := List.split res in
        let all_args := if io then args else args ++ [arg] in
        let (r, st) := gensym "result" st in
        let call := Fcall r target (map Xvar all_args) in
        if io then
          let (pair, st) := gensym "pair" st in
          ((pair, r :: pair :: args, Fseq (multiple ss) (Fseq call (make_pair pair (Xvar r) (Xvar arg)))), st)
        else ((r, r :: args, Fseq (multiple ss) call), st) in
    let all := match be with ANF => [env; arg] | CPS => [env; k; arg] end in
    ((g, Fun (mkffun (firstn c all) (skipn c all ++ vars') (Fseq (multiple (skipn c (inputs 0 all))) (Fseq rest (final be c k ret))))), st))
    = ((f, d), st')).
  { destruct NI as [->|[-> ->]]; eexists; exact M. }
  clear M NI. destruct M' as (nm & M). cbn zeta in M.
  destruct (make_args env (list_to_zero (if io then arity else pred arity)) (mkfs (arg+1+1) nm)) as [res s1] eqn:MA.
  destruct (List.split res) as [args ss] eqn:Sp. unfold gensym in M.
  pose proof (args_grow _ _ _ _ _ MA) as G. cbn [fs_gensym] in G.
  assert (RUN : forall ext e kw v cargs m vs, passed c (words_in be e kw v) cargs m -> env_holds m e (rev vs) ->
    List.length vs = (if io then arity else pred arity) -> exists vars0 vars1 vars2,
    bind_params (firstn c (match be with ANF => [env; arg] | CPS => [env; k; arg] end)) cargs = Some vars0 /\
    frun ext (multiple (skipn c (inputs 0 (match be with ANF => [env; arg] | CPS => [env; k; arg] end)))) vars0 m = Next vars1 m /\
    frun ext (multiple ss) vars1 m = Next vars2 m /\
    fvals vars2 m (map Xvar args) = Some vs /\ vars2 arg = Some v /\ (be = CPS -> vars2 k = Some kw)).
  { intros ext e kw v cargs m vs P EH LV.
    destruct (run_inputs be c ext env k arg e kw v cargs m) as (vars0 & vars & B & RI & Ve & Va & Vk); [lia|lia|lia|exact P|].
    destruct (run_args ext env e (rev vs) m _ _ _ _ MA) as (_ & _ & RA); [cbn; lia|exact EH| |].
    { intros i Ii. apply to_zero_bound in Ii. rewrite rev_length. lia. }
    rewrite Sp in RA. cbn [fst snd fs_gensym] in RA. destruct (RA vars Ve) as (vars2 & R2 & F2 & O2).
    exists vars0, vars, vars2. split; [exact B|]. split; [exact RI|]. split; [exact R2|].
    rewrite <- LV in F2. destruct (fvals_vars vars2 m args _ (rev vs) F2) as (ws & Fw & F).
    { intros i Ii. apply to_zero_bound in Ii. rewrite rev_length. exact Ii. }
    apply to_zero_rev in F. subst ws. split; [exact Fw|]. split; [rewrite O2 by lia; exact Va|].
    intro C. rewrite O2 by lia. exact (Vk C). }
  destruct io.
  - injection M as <- <- <-. cbn [fs_gensym]. split; [reflexivity|]. split; [lia|]. eexists. split; [reflexivity|].
    set (r := fs_gensym s1) in *. set (pr := (r + 1)%positive) in *.
    intros ext e kw v cargs m vs P EH LV. destruct (RUN ext e kw v cargs m vs P EH LV) as (vars0 & vars1 & vars2 & B & R1 & R2 & FV & Va & Vk).
    unfold fcall. cbn [ff_params ff_body given]. rewrite B. rewrite (run_seq _ _ _ _ _ _ _ R1).
    destruct (ext target vs m) as [[w m2]|] eqn:EX.
    + intros _ K (a & A & Lo & Hi).
      destruct (run_pair ext pr (Xvar r) (Xvar arg) (setv vars2 r w) m2 a w v) as (v3 & R3 & N3 & O3); try exact A; try lia;
        [cbn; lia|cbn; lia|apply setv_same|cbn; rewrite setv_other by lia; exact Va|].
      set (m3 := paired m2 a w v) in *. assert (AL : allocated 3 m2 m3) by exact (allocated_paired m2 a w v A).
      assert (RR : frun ext (Fseq (multiple ss) (Fseq (Fcall r target (map Xvar args)) (make_pair pr (Xvar r) (Xvar arg)))) vars1 m = Next v3 m3).
      { rewrite (run_seq _ _ _ _ _ _ _ R2). rewrite (run_seq _ _ _ _ _ (setv vars2 r w) m2); [exact R3|]. cbn [frun]. rewrite FV, EX. reflexivity. }
      rewrite (run_seq _ _ _ _ _ _ _ RR).
      assert (RM : room m2 3) by (exists a; auto).
      destruct (run_final be c ext k pr kw (VP BHeap (a + 1)) v3 m3 (a + 3)%Z) as (m' & AN & AL0 & HE); [reflexivity|exact N3| |].
      { intro C. split; [rewrite O3, setv_other by lia; exact (Vk C)|]. destruct (K C) as (kf & kenv & PK). exists kf, kenv.
        exact (pair_kept 3 m2 m3 kw kf kenv ltac:(lia) RM AL PK). }
      exists (VP BHeap (a + 1)), m'. split; [exact AN|]. destruct (paired_pair m2 a w v A) as (P1 & H1). fold m3 in P1, H1.
      assert (RM3 : room m3 0) by (exists (a + 3)%Z; split; [reflexivity|cbn; lia]).
      split; [exact (pair_kept 0 _ _ _ _ _ ltac:(lia) RM3 AL0 P1)|]. split; [unfold headed in *; rewrite HE; exact H1|].
      exact (allocated_trans 3 0 _ _ _ ltac:(lia) ltac:(lia) AL AL0).
    + cbn [frun]. rewrite R2, FV, EX. reflexivity.
  - injection M as <- <- <-. cbn [fs_gensym]. split; [reflexivity|]. split; [lia|]. eexists. split; [reflexivity|].
    set (r := fs_gensym s1) in *.
    intros ext e kw v cargs m vs P EH LV. destruct (RUN ext e kw v cargs m vs P EH LV) as (vars0 & vars1 & vars2 & B & R1 & R2 & FV & Va & Vk).
    unfold fcall. cbn [ff_params ff_body given]. rewrite B. rewrite (run_seq _ _ _ _ _ _ _ R1).
    assert (FV' : fvals vars2 m (map Xvar (args ++ [arg])) = Some (vs ++ [v])).
    { rewrite map_app. apply fvals_app; [exact FV|]. cbn. now rewrite Va. }
    destruct (ext target (vs ++ [v]) m) as [[w m2]|] eqn:EX.
    + intros (a & A) K.
      assert (RR : frun ext (Fseq (multiple ss) (Fcall r target (map Xvar (args ++ [arg])))) vars1 m = Next (setv vars2 r w) m2).
      { rewrite (run_seq _ _ _ _ _ _ _ R2). cbn [frun]. rewrite FV', EX. reflexivity. }
      rewrite (run_seq _ _ _ _ _ _ _ RR).
      destruct (run_final be c ext k r kw w (setv vars2 r w) m2 a) as (m' & AN & AL0 & HE); [exact A|apply setv_same| |].
      { intro C. split; [rewrite setv_other by lia; exact (Vk C)|exact (K C)]. }
      exists m'. split; [exact AN|exact AL0].
    + cbn [frun]. rewrite R2, FV', EX. reflexivity.
Qed.

(** ** All functions of a field *)
Fixpoint chained (be : backend) (c arity : nat) (io : bool) (target : positive) (l : list (positive * fdef)) : Prop :=
  match l with
  | [] => False
  | (f, d) :: r =>
      match r with
      | [] => exists fn, d = Fun fn /\ calls be c arity io target fn
      | (g, _) :: _ => (exists fn, d = Fun fn /\ builds be c fn g) /\ chained be c arity io target r
      end
  end.

Lemma chain be c kn arity io target : forall num st l st', make_curried_fns be c kn num arity io target st = (l, st') ->
  chained be c arity io target l /\
  List.length l = (if io then S num else match num with O => 1 | _ => num end) /\
  (fs_gensym st < fs_gensym st')%positive /\
  (forall x, In x (map fst l) -> (fs_gensym st <= x < fs_gensym st')%positive) /\ NoDup (map fst l).
Proof.
  assert (LAST : forall num st l st', num = 0 \/ (num = 1 /\ io = false) ->
    (let (x, st) := make_curried_fn be c kn num arity io target st in ([x], st)) = (l, st') ->
    chained be c arity io target l /\ List.length l = (if io then S num else match num with O => 1 | _ => num end) /\
    (fs_gensym st < fs_gensym st')%positive /\
    (forall x, In x (map fst l) -> (fs_gensym st <= x < fs_gensym st')%positive) /\ NoDup (map fst l)).
  { intros num st l st' NI M. destruct (make_curried_fn be c kn num arity io target st) as [[f d] s1] eqn:E. injection M as <- <-.
    destruct (last_fn _ _ _ _ _ _ _ _ _ _ _ E NI) as (-> & LT & fn & -> & C). cbn. split; [exists fn; auto|].
    split; [destruct NI as [->|[-> ->]]; [destruct io|]; reflexivity|]. split; [exact LT|]. split; [intros x [<-|[]]; lia|].
    constructor; [intros []|constructor]. }
  induction num as [|num IH]; intros st l st' M; cbn [make_curried_fns] in M.
  - apply (LAST 0 st l st'); auto.
  - destruct ((S num =? 1) && negb io) eqn:B.
    + apply andb_true_iff in B as (B1 & B2). apply Nat.eqb_eq in B1. apply negb_true_iff in B2. apply (LAST (S num) st l st'); auto.
    + destruct (make_curried_fns be c kn num arity io target st) as [rest s1] eqn:E1.
      destruct (IH _ _ _ E1) as (CH & LE & LT & BD & ND).
      destruct rest as [|(prev, dp) r]; [contradiction|].
      destruct (make_curried_fn be c kn (S num) arity io prev s1) as [[f d] s2] eqn:E2. injection M as <- <-.
      destruct (mid_fn _ _ _ _ _ _ _ _ _ _ _ E2) as (-> & LT2 & fn & -> & BU).
      { intros ->. destruct io; [reflexivity|discriminate]. }
      split; [|split; [|split; [|split]]].
      * cbn [chained]. split; [exists fn; auto|exact CH].
      * cbn [List.length] in *. rewrite LE. destruct io; [reflexivity|]. destruct num; [discriminate|reflexivity].
      * lia.
      * intros x. cbn [map In fst]. intros [<-|I]; [lia|]. specialize (BD x I). lia.
      * cbn [map fst]. constructor; [|exact ND]. intro I. specialize (BD _ I). lia.
Qed.

Lemma chain_get be c arity io target : forall l i f d, chained be c arity io target l -> nth_error l i = Some (f, d) ->
  (S i = List.length l -> exists fn, d = Fun fn /\ calls be c arity io target fn) /\
  (S i < List.length l -> exists fn g d', d = Fun fn /\ nth_error l (S i) = Some (g, d') /\ builds be c fn g).
Proof.
  induction l as [|[f0 d0] l IH]; intros i f d C N; [destruct C|]. cbn [chained] in C. destruct l as [|[g dg] r].
  - destruct i; [|destruct i; discriminate]. cbn in N. injection N as <- <-. split; [auto|cbn; lia].
  - destruct C as ((fn & -> & BU) & C). destruct i as [|i].
    + cbn in N. injection N as <- <-. split; [cbn; lia|]. intros _. exists fn, g, dg. auto.
    + cbn [nth_error] in N. destruct (IH i f d C N) as (X & Y). split; intro H; cbn [List.length] in *; [apply X; lia|apply Y; lia].
Qed.

(** a field *)
Lemma field_defs be c kn t arity io st defs st' : type_to_args t = (arity, io) -> make_one_field be c kn t st = (defs, st') ->
  exists rest clo entry, defs = (fs_gensym st, Extern arity) :: rev rest ++ [(clo, Closure entry)] /\
    chained be c arity io (fs_gensym st) rest /\ nth_error (map fst rest) 0 = Some entry /\
    List.length rest = (if io then S arity else match arity with O => 1 | _ => arity end) /\
    functions defs = map fst rest /\ NoDup (map fst defs) /\ (fs_gensym st < fs_gensym st')%positive /\
    (forall x, In x (map fst defs) -> (fs_gensym st <= x < fs_gensym st')%positive).
Proof.
  intros T M. unfold make_one_field in M. rewrite T in M. unfold gensym in M.
  match type of M with context [make_curried_fns be c kn ?n ?a ?i ?t ?s] => destruct (make_curried_fns be c kn n a i t s) as [rest s1] eqn:E1 end.
  destruct (chain _ _ _ _ _ _ _ _ _ _ E1) as (CH & LE & LT & BD & ND). cbn [fs_gensym] in *.
  destruct rest as [|(entry, de) r] eqn:Er; [contradiction|]. rewrite <- Er in *. injection M as <- <-. cbn [fs_gensym].
  exists rest, (fs_gensym s1), entry. split; [reflexivity|]. split; [exact CH|]. split; [rewrite Er; reflexivity|]. split; [exact LE|].
  assert (FU : forall l, chained be c arity io (fs_gensym st) l -> flat_map (fun d : positive * fdef => match snd d with Fun _ => [fst d] | _ => [] end) l = map fst l).
  { clear. induction l as [|[f d] l IH]; [contradiction|]. intro C. cbn [chained] in C. destruct l as [|[g dg] r].
    - destruct C as (fn & -> & _). reflexivity.
    - destruct C as ((fn & -> & _) & C). specialize (IH C). cbn [flat_map map snd fst] in *. cbn [app]. f_equal. exact IH. }
  split.
  { unfold functions. cbn [rev]. rewrite rev_app_distr, rev_involutive. cbn [rev app flat_map snd fst].
    rewrite flat_map_app, (FU _ CH). cbn. now rewrite app_nil_r. }
  split; [|split; [lia|]].
  - cbn [map fst]. rewrite map_app, map_rev. cbn [map fst]. constructor.
    + rewrite in_app_iff, <- in_rev. intros [I|[I|[]]]; [specialize (BD _ I); lia|lia].
    + apply (NoDup_Add (a := fs_gensym s1) (l := rev (map fst rest))); [|split; [now apply NoDup_rev|rewrite <- in_rev; intro I; specialize (BD _ I); lia]].
      pose proof (Add_app (fs_gensym s1) (rev (map fst rest)) []) as AA. rewrite app_nil_r in AA. exact AA.
  - intros x. cbn [map fst In]. rewrite map_app, map_rev, in_app_iff, <- in_rev. cbn [map fst In].
    intros [<-|[I|[<-|[]]]]; [lia| |lia]. specialize (BD x I). lia.
Qed.

Lemma code_unique defs f fn fn' : NoDup (map fst defs) -> code defs f fn -> In (f, Fun fn') defs -> fn' = fn.
Proof.
  unfold code. induction defs as [|[x d] l IH]; intros ND A B; cbn in *; [contradiction|]; inversion ND; subst; destruct A as [A|A].
  - destruct B as [B|B]; [congruence|]. injection A as -> ->. exfalso. apply H1. change f with (fst (f, Fun fn')). now apply in_map.
  - destruct B as [B|B]; [|auto]. injection B as -> ->. exfalso. apply H1. change f with (fst (f, Fun fn)). now apply in_map.
Qed.

(** ** Closures *)
Lemma env_moved ren m m' w : moved ren m m' w -> forall l x, in_chain m w x -> env_holds m x l -> env_holds m' (ren x) (map ren l).
Proof.
  intros (_ & MV). induction l as [|v r IH]; intros x C H; [exact I|]. destruct H as (w' & P & Q). exists (ren w').
  split; [exact (MV _ _ _ C P)|]. apply IH; [|exact Q]. econstructor; eauto.
Qed.

Lemma stage_moved defs ren m m' w vs : moved ren m m' w -> stage defs m w vs -> stage defs m' (ren w) (map ren vs).
Proof.
  intros MV (f & env & P & E & N). exists f, (ren env). destruct MV as (VFe & MV'). split.
  - rewrite <- (VFe f). apply MV'; [constructor|exact P].
  - split; [|rewrite map_length; exact N]. rewrite <- map_rev. apply (env_moved ren m m' w); [split; auto| |exact E].
    econstructor; [constructor|exact P].
Qed.

Lemma pair_det m w x y x' y' : pair_at m w x y -> pair_at m w x' y' -> x = x' /\ y = y'.
Proof. intros (o & -> & _ & X & Y) (o' & E & _ & X' & Y'). injection E as <-. split; congruence. Qed.
