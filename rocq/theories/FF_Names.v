(** * Names of the functions generated for a field *)
From Coq Require Import ZArith PArith NArith List Bool Arith Lia Ascii String.
From Verif Require Import ANF_Syntax CG_Clight FF_Model FF_Spec FF_Proofs.
From Verif Require PR_Model PR_Spec PR_Lex.
Import ListNotations.
Local Open Scope nat_scope.
Ltac Zify.zify_post_hook ::= idtac.

Definition good (st : fstate) : Prop :=
  (forall x s, In (x, s) (fs_nenv st) -> (x < fs_gensym st)%positive) /\ NoDup (map fst (fs_nenv st)).

Definition grows (st st' : fstate) : Prop := good st' /\ incl (fs_nenv st) (fs_nenv st').

Lemma grows_refl st : good st -> grows st st.
Proof. intro G. split; [exact G|intros x I; exact I]. Qed.
Lemma grows_trans a b c : grows a b -> grows b c -> grows a c.
Proof. intros (_ & I) (G & J). split; [exact G|intros x X; auto]. Qed.

Lemma gensym_grows s st x st' : good st -> gensym s st = (x, st') -> grows st st' /\ In (x, s) (fs_nenv st').
Proof.
  intros (B & N) E. unfold gensym in E. injection E as <- <-. cbn. split; [|now left]. split; [split; cbn|].
  - intros y t [Q|I]; [injection Q as <- <-; lia|]. specialize (B y t I). lia.
  - constructor; [|exact N]. intro I. apply in_map_iff in I as ((y & t) & Q & I). specialize (B y t I). cbn in Q. subst y. lia.
  - intros y I. now right.
Qed.

Lemma args_grows env : forall l st res st', good st -> make_args env l st = (res, st') -> grows st st'.
Proof.
  induction l as [|i l IH]; intros st res st' G M; cbn [make_args] in M.
  - injection M as <- <-. now apply grows_refl.
  - destruct (gensym ("arg" ++ show_nat i) st) as [x s1] eqn:E1. destruct (make_args env l s1) as [r s2] eqn:E2. injection M as <- <-.
    destruct (gensym_grows _ _ _ _ G E1) as (G1 & _). eapply grows_trans; [exact G1|]. eapply IH; [exact (proj1 G1)|exact E2].
Qed.

(** the name of the function that waits for [num] arguments *)
Definition fname (kn : string) (num : nat) : string :=
  match num with S _ => (kn ++ "_" ++ show_nat num)%string | O => (kn ++ "_world")%string end.

Ltac one G M n :=
  let x := fresh "x" in let s := fresh "s" in let E := fresh "E" in let G' := fresh "G" in let I := fresh "In" in
  destruct (gensym n _) as [x s] eqn:E in M; destruct (gensym_grows _ _ _ _ (proj1 G) E) as (G' & I).

Lemma fn_grows be c kn num arity io next st f d st' : good st -> make_curried_fn be c kn num arity io next st = ((f, d), st') ->
  grows st st' /\ In (f, fname kn num) (fs_nenv st').
Proof.
  intros G M. unfold make_curried_fn in M. fold (fname kn num) in M.
  destruct (gensym (fname kn num) st) as [x0 s0] eqn:E0. destruct (gensym_grows _ _ _ _ G E0) as (G0 & I0).
  destruct (gensym "thread_info" s0) as [x1 s1] eqn:E1. destruct (gensym_grows _ _ _ _ (proj1 G0) E1) as (G1 & _).
  destruct (gensym "alloc" s1) as [x2 s2] eqn:E2. destruct (gensym_grows _ _ _ _ (proj1 G1) E2) as (G2 & _).
  destruct (gensym "args" s2) as [x3 s3] eqn:E3. destruct (gensym_grows _ _ _ _ (proj1 G2) E3) as (G3 & _).
  destruct (gensym "tinfo" s3) as [x4 s4] eqn:E4. destruct (gensym_grows _ _ _ _ (proj1 G3) E4) as (G4 & _).
  destruct (gensym "env" s4) as [x5 s5] eqn:E5. destruct (gensym_grows _ _ _ _ (proj1 G4) E5) as (G5 & _).
  destruct (gensym "k" s5) as [x6 s6] eqn:E6. destruct (gensym_grows _ _ _ _ (proj1 G5) E6) as (G6 & _).
  destruct (gensym "arg" s6) as [x7 s7] eqn:E7. destruct (gensym_grows _ _ _ _ (proj1 G6) E7) as (G7 & _).
  destruct (gensym "call" s7) as [x8 s8] eqn:E8. destruct (gensym_grows _ _ _ _ (proj1 G7) E8) as (G8 & _).
  assert (GA : grows s0 s8).
  { repeat (eapply grows_trans; [eassumption|]). apply grows_refl. exact (proj1 G8). }
  assert (K : forall s9, grows s8 s9 -> f = x0 -> st' = s9 -> grows st st' /\ In (f, fname kn num) (fs_nenv st')).
  { intros s9 G9 -> ->. pose proof (grows_trans _ _ _ GA G9) as GB. split; [exact (grows_trans _ _ _ G0 GB)|]. apply (proj2 GB), I0. }
  assert (MID : forall (F : positive -> positive -> fdef),
    (let (y, t) := gensym "new_env" s8 in let (z, u) := gensym "new_clo" t in (x0, F y z, u)) = (f, d, st') ->
    grows st st' /\ In (f, fname kn num) (fs_nenv st')).
  { intros F Q. destruct (gensym "new_env" s8) as [y t] eqn:Ey. destruct (gensym_grows _ _ _ _ (proj1 G8) Ey) as (Gy & _).
    destruct (gensym "new_clo" t) as [z u] eqn:Ez. destruct (gensym_grows _ _ _ _ (proj1 Gy) Ez) as (Gz & _).
    apply (K u); [exact (grows_trans _ _ _ Gy Gz)|congruence|congruence]. }
  assert (LASTF : forall n, (forall res s9, make_args x5 n s8 = (res, s9) -> grows s8 s9)) by (intros; eapply args_grows; [exact (proj1 G8)|eassumption]).
  destruct num as [|[|num]].
  - destruct (make_args x5 _ s8) as [res s9] eqn:E9. specialize (LASTF _ _ _ E9). destruct (List.split res) as [xs ss].
    destruct (gensym "result" s9) as [r s10] eqn:E10. destruct (gensym_grows _ _ _ _ (proj1 LASTF) E10) as (G10 & _).
    destruct io.
    + destruct (gensym "pair" s10) as [q s11] eqn:E11. destruct (gensym_grows _ _ _ _ (proj1 G10) E11) as (G11 & _).
      apply (K s11); [exact (grows_trans _ _ _ LASTF (grows_trans _ _ _ G10 G11))|congruence|congruence].
    + apply (K s10); [exact (grows_trans _ _ _ LASTF G10)|congruence|congruence].
  - destruct io.
    + destruct (gensym "new_env" s8) as [y t] eqn:Ey. destruct (gensym_grows _ _ _ _ (proj1 G8) Ey) as (Gy & _).
      destruct (gensym "new_clo" t) as [z u] eqn:Ez. destruct (gensym_grows _ _ _ _ (proj1 Gy) Ez) as (Gz & _).
      apply (K u); [exact (grows_trans _ _ _ Gy Gz)|congruence|congruence].
    + destruct (make_args x5 _ s8) as [res s9] eqn:E9. specialize (LASTF _ _ _ E9). destruct (List.split res) as [xs ss].
      destruct (gensym "result" s9) as [r s10] eqn:E10. destruct (gensym_grows _ _ _ _ (proj1 LASTF) E10) as (G10 & _).
      apply (K s10); [exact (grows_trans _ _ _ LASTF G10)|congruence|congruence].
  - destruct (gensym "new_env" s8) as [y t] eqn:Ey. destruct (gensym_grows _ _ _ _ (proj1 G8) Ey) as (Gy & _).
    destruct (gensym "new_clo" t) as [z u] eqn:Ez. destruct (gensym_grows _ _ _ _ (proj1 Gy) Ez) as (Gz & _).
    apply (K u); [exact (grows_trans _ _ _ Gy Gz)|congruence|congruence].
Qed.

(** the names of a chain *)
Fixpoint chain_names (kn : string) (io : bool) (num : nat) : list string :=
  match num with
  | O => [fname kn 0]
  | S n => if (num =? 1) && negb io then [fname kn num] else fname kn num :: chain_names kn io n
  end.

Lemma chain_grows be c kn arity io target : forall num st l st', good st ->
  make_curried_fns be c kn num arity io target st = (l, st') ->
  grows st st' /\ Forall2 (fun x s => In (x, s) (fs_nenv st')) (map fst l) (chain_names kn io num).
Proof.
  assert (LAST : forall num st l st', good st -> (let (x, st) := make_curried_fn be c kn num arity io target st in ([x], st)) = (l, st') ->
    grows st st' /\ Forall2 (fun x s => In (x, s) (fs_nenv st')) (map fst l) [fname kn num]).
  { intros num st l st' G M. destruct (make_curried_fn be c kn num arity io target st) as [[f d] s1] eqn:E. injection M as <- <-.
    destruct (fn_grows _ _ _ _ _ _ _ _ _ _ _ G E) as (G1 & I). split; [exact G1|]. constructor; [exact I|constructor]. }
  induction num as [|num IH]; intros st l st' G M; cbn [make_curried_fns chain_names] in *.
  - now apply LAST.
  - destruct ((S num =? 1) && negb io); [now apply LAST|].
    destruct (make_curried_fns be c kn num arity io target st) as [rest s1] eqn:E1. destruct (IH _ _ _ G E1) as (G1 & F1).
    pose proof (chain _ _ _ _ _ _ _ _ _ _ E1) as (CH & _). destruct rest as [|(p, dp) r]; [contradiction|].
    destruct (make_curried_fn be c kn (S num) arity io p s1) as [[f d] s2] eqn:E2. injection M as <- <-.
    destruct (fn_grows _ _ _ _ _ _ _ _ _ _ _ (proj1 G1) E2) as (G2 & I2). split; [exact (grows_trans _ _ _ G1 G2)|].
    cbn [map fst]. constructor; [exact I2|]. clear -F1 G2. cbn [map fst] in F1.
    induction F1; constructor; auto. now apply (proj2 G2).
Qed.

(** ** Distinct names *)
Lemma app_inj_head (s a b : string) : (s ++ a = s ++ b)%string -> a = b.
Proof. induction s as [|ch s IH]; cbn; intro H; [exact H|]. injection H as H. auto. Qed.

Lemma app_not_nil (s a : string) : s = (s ++ a)%string -> a = ""%string.
Proof. induction s as [|ch s IH]; cbn; intro H; [now symmetry|]. injection H as H. auto. Qed.

Lemma dec_digit_head n ch r : PR_Model.dec n = String ch r -> PR_Spec.is_digit ch = true.
Proof.
  intro E. pose proof (PR_Lex.dec_all n) as A. rewrite E in A. cbn in A. now apply andb_true_iff in A as (A & _).
Qed.

Lemma fname_inj kn a b : fname kn a = fname kn b -> a = b.
Proof.
  assert (W : forall n, show_nat n <> "world"%string).
  { intros n E. unfold show_nat in E. apply dec_digit_head in E. discriminate. }
  destruct a as [|a], b as [|b]; cbn [fname]; intro E; auto; apply app_inj_head in E; cbn [append] in E.
  - injection E as E. symmetry in E. now apply W in E.
  - injection E as E. now apply W in E.
  - injection E as E. unfold show_nat in E. pose proof (PR_Lex.read_dec (N.of_nat (S a))) as R. rewrite E, PR_Lex.read_dec in R.
    injection R as R. lia.
Qed.

Lemma chain_in kn io num s : In s (chain_names kn io num) -> exists n, n <= num /\ s = fname kn n.
Proof.
  induction num as [|num IH]; cbn [chain_names].
  - intros [<-|[]]. exists 0. auto.
  - destruct ((S num =? 1) && negb io).
    + intros [<-|[]]. exists (S num). auto.
    + intros [<-|I]; [exists (S num); auto|]. destruct (IH I) as (n & L & E). exists n. split; [lia|exact E].
Qed.

Lemma chain_nodup kn io num : NoDup (chain_names kn io num).
Proof.
  induction num as [|num IH]; cbn [chain_names].
  - constructor; [intros []|constructor].
  - destruct ((S num =? 1) && negb io); [constructor; [intros []|constructor]|]. constructor; [|exact IH].
    intro I. destruct (chain_in _ _ _ _ I) as (n & L & E). apply fname_inj in E. lia.
Qed.

(** all names of a field *)
Definition field_names (kn : string) (arity : nat) (io : bool) : list string :=
  kn :: rev (chain_names kn io arity) ++ [(kn ++ "_clo")%string].

(** what follows the name of the field: nothing, or an underscore and no other one *)
Fixpoint no_us (s : string) : bool :=
  match s with EmptyString => true | String ch r => negb (Ascii.eqb ch "_") && no_us r end.

Lemma digits_no_us s : PR_Spec.all_chars PR_Spec.is_digit s = true -> no_us s = true.
Proof.
  induction s as [|ch s IH]; cbn; [auto|]. intro H. apply andb_true_iff in H as (H1 & H2). rewrite (IH H2), andb_true_r.
  apply negb_true_iff. destruct (Ascii.eqb_spec ch "_") as [->|_]; [discriminate|reflexivity].
Qed.

Lemma field_name_form kn arity io s : In s (field_names kn arity io) -> s = kn \/ exists b, no_us b = true /\ s = (kn ++ "_" ++ b)%string /\
  (b = "clo"%string \/ b = "world"%string \/ exists n, b = show_nat n).
Proof.
  unfold field_names. cbn [In]. rewrite in_app_iff, <- in_rev. cbn [In]. intros [<-|[I|[<-|[]]]].
  - now left.
  - right. destruct (chain_in _ _ _ _ I) as ([|n] & _ & ->); cbn [fname].
    + exists "world"%string. repeat split; auto.
    + exists (show_nat (S n)). split; [apply digits_no_us, PR_Lex.dec_all|]. split; [reflexivity|]. eauto.
  - right. exists "clo"%string. repeat split; auto.
Qed.

Lemma suffix_inj : forall a a' b b', no_us b = true -> no_us b' = true -> (a ++ "_" ++ b = a' ++ "_" ++ b')%string -> a = a'.
Proof.
  assert (NU : forall a b, no_us (a ++ "_" ++ b) = false).
  { induction a as [|ch a IH]; intro b; cbn; [reflexivity|]. cbn in IH. rewrite IH. apply andb_false_r. }
  induction a as [|ch a IH]; intros [|ch' a'] b b' B B' E; cbn [append] in E; auto.
  - injection E as E1 E. exfalso. rewrite E in B. pose proof (NU a' b') as F. cbn [append] in F. congruence.
  - injection E as E1 E. exfalso. rewrite <- E in B'. pose proof (NU a b) as F. cbn [append] in F. congruence.
  - injection E as -> E. f_equal. eapply IH; [exact B|exact B'|exact E].
Qed.

Lemma field_names_nodup kn arity io : NoDup (field_names kn arity io).
Proof.
  unfold field_names. constructor.
  - rewrite in_app_iff, <- in_rev. intros [I|[E|[]]].
    + destruct (chain_in _ _ _ _ I) as ([|n] & _ & E); cbn [fname] in E; apply app_not_nil in E; discriminate.
    + symmetry in E. apply app_not_nil in E. discriminate.
  - assert (NI : ~ In (kn ++ "_clo")%string (rev (chain_names kn io arity))).
    { rewrite <- in_rev. intro I. destruct (chain_in _ _ _ _ I) as ([|n] & _ & E); cbn [fname] in E; apply app_inj_head in E; [discriminate|].
      cbn [append] in E. injection E as E. symmetry in E. unfold show_nat in E. apply dec_digit_head in E. discriminate. }
    apply (NoDup_Add (a := (kn ++ "_clo")%string) (l := rev (chain_names kn io arity))); [|split; [apply NoDup_rev, chain_nodup|exact NI]].
    pose proof (Add_app (kn ++ "_clo")%string (rev (chain_names kn io arity)) []) as AA. rewrite app_nil_r in AA. exact AA.
Qed.

Lemma forall2_incl (A : list (positive * string)) B xs ss : incl A B ->
  Forall2 (fun x s => In (x, s) A) xs ss -> Forall2 (fun x s => In (x, s) B) xs ss.
Proof. intros I. induction 1; constructor; auto. Qed.

Lemma forall2_rev (A : list (positive * string)) xs ss :
  Forall2 (fun x s => In (x, s) A) xs ss -> Forall2 (fun x s => In (x, s) A) (rev xs) (rev ss).
Proof. induction 1; cbn; [constructor|]. apply Forall2_app; [assumption|constructor; [assumption|constructor]]. Qed.

Lemma field_grows be c kn t st defs st' : good st -> make_one_field be c kn t st = (defs, st') ->
  grows st st' /\ Forall2 (fun x s => In (x, s) (fs_nenv st')) (map fst defs) (field_names kn (fst (type_to_args t)) (snd (type_to_args t))).
Proof.
  intros G M. unfold make_one_field in M. destruct (type_to_args t) as [arity io]. cbn [fst snd].
  destruct (gensym kn st) as [e s0] eqn:E0. destruct (gensym_grows _ _ _ _ G E0) as (G0 & I0).
  destruct (gensym "thread_info" s0) as [x1 s1] eqn:E1. destruct (gensym_grows _ _ _ _ (proj1 G0) E1) as (G1 & _).
  destruct (make_curried_fns be c kn arity arity io e s1) as [rest s2] eqn:E2.
  destruct (chain_grows _ _ _ _ _ _ _ _ _ _ (proj1 G1) E2) as (G2 & F2).
  pose proof (chain _ _ _ _ _ _ _ _ _ _ E2) as (CH & _). destruct rest as [|(en, de) r] eqn:Er; [contradiction|]. rewrite <- Er in *.
  destruct (gensym (kn ++ "_clo") s2) as [clo s3] eqn:E3. destruct (gensym_grows _ _ _ _ (proj1 G2) E3) as (G3 & I3).
  injection M as <- <-. split.
  - exact (grows_trans _ _ _ G0 (grows_trans _ _ _ G1 (grows_trans _ _ _ G2 G3))).
  - unfold field_names. cbn [map fst]. constructor; [apply (proj2 G3), (proj2 G2), (proj2 G1), I0|].
    rewrite map_app, map_rev. apply Forall2_app; [apply forall2_rev, (forall2_incl _ _ _ _ (proj2 G3) F2)|].
    constructor; [exact I3|constructor].
Qed.

(** names of all fields *)
Definition all_names (fields : list (string * ftype)) : list string :=
  flat_map (fun f => field_names (fst f) (fst (type_to_args (snd f))) (snd (type_to_args (snd f)))) fields.

Lemma all_grows be c : forall fields st defs st', good st -> make_all_fields be c fields st = (defs, st') ->
  grows st st' /\ Forall2 (fun x s => In (x, s) (fs_nenv st')) (map fst defs) (all_names fields).
Proof.
  induction fields as [|[kn t] fs IH]; intros st defs st' G M; cbn [make_all_fields] in M.
  - injection M as <- <-. split; [now apply grows_refl|constructor].
  - destruct (make_one_field be c kn t st) as [d s1] eqn:E1. destruct (field_grows _ _ _ _ _ _ _ G E1) as (G1 & F1).
    destruct (make_all_fields be c fs s1) as [ds s2] eqn:E2. destruct (IH _ _ _ (proj1 G1) E2) as (G2 & F2). injection M as <- <-.
    split; [exact (grows_trans _ _ _ G1 G2)|]. unfold all_names. cbn [flat_map fst snd]. rewrite map_app.
    apply Forall2_app; [exact (forall2_incl _ _ _ _ (proj2 G2) F1)|exact F2].
Qed.

Lemma named_once (nenv : list (positive * string)) xs ss : NoDup (map fst nenv) -> NoDup ss -> Forall2 (fun x s => In (x, s) nenv) xs ss ->
  forall x y s, In x xs -> In y xs -> In (x, s) nenv -> In (y, s) nenv -> x = y.
Proof.
  intros ND NS F.
  assert (FUN : forall x s s', In (x, s) nenv -> In (x, s') nenv -> s = s').
  { clear -ND. induction nenv as [|[z t] l IH]; [contradiction|]. cbn in ND. inversion ND; subst. intros x s s' [A|A] [B|B].
    - congruence.
    - exfalso. apply H1. assert (z = x) by congruence. subst z. change x with (fst (x, s')). now apply in_map.
    - exfalso. apply H1. assert (z = x) by congruence. subst z. change x with (fst (x, s)). now apply in_map.
    - eauto. }
  induction F as [|z t xs ss Hz F IH]; [contradiction|]. inversion NS; subst.
  assert (NAME : forall x s, In x xs -> In (x, s) nenv -> In s ss).
  { clear -F FUN. induction F as [|z t xs ss Hz F IH]; [contradiction|]. intros x s [<-|I] J; [left; eauto|right; eauto]. }
  intros x y s [<-|Ix] [<-|Iy] Jx Jy; auto.
  - exfalso. apply H1. rewrite (FUN _ _ _ Hz Jx). eauto.
  - exfalso. apply H1. rewrite (FUN _ _ _ Hz Jy). eauto.
  - eauto.
Qed.

(** no field is called like a function generated for another one *)
Definition apart (kns : list string) : Prop :=
  NoDup kns /\ forall kn kn', In kn kns -> In kn' kns ->
    kn <> (kn' ++ "_world")%string /\ kn <> (kn' ++ "_clo")%string /\ forall n, kn <> (kn' ++ "_" ++ show_nat n)%string.

Lemma all_names_nodup : forall fields, apart (map fst fields) -> NoDup (all_names fields).
Proof.
  induction fields as [|[kn t] fs IH]; intros (ND & AP); [constructor|]. unfold all_names. cbn [flat_map map fst snd] in *.
  inversion ND as [|? ? NI ND']; subst.
  assert (D : forall s, In s (field_names kn (fst (type_to_args t)) (snd (type_to_args t))) -> In s (all_names fs) -> False).
  { intros s I J. apply in_flat_map in J as ([kn' t'] & F & J). cbn [fst snd] in J.
    assert (F' : In kn' (map fst fs)) by (change kn' with (fst (kn', t')); now apply in_map).
    assert (NE : kn <> kn') by (intros ->; contradiction).
    destruct (field_name_form _ _ _ _ I) as [->|(b & B & -> & C)]; destruct (field_name_form _ _ _ _ J) as [E|(b' & B' & E & C')].
    - contradiction.
    - destruct (AP kn kn' (or_introl eq_refl) (or_intror F')) as (A1 & A2 & A3). destruct C' as [->|[->|(n & ->)]]; cbn in E; [now apply A2|now apply A1|now apply (A3 n)].
    - destruct (AP kn' kn (or_intror F') (or_introl eq_refl)) as (A1 & A2 & A3). symmetry in E.
      destruct C as [->|[->|(n & ->)]]; cbn in E; [now apply A2|now apply A1|now apply (A3 n)].
    - apply NE. exact (suffix_inj _ _ _ _ B B' E). }
  fold (all_names fs). assert (IH' : NoDup (all_names fs)).
  { apply IH. split; [exact ND'|]. intros a b Ia Ib. apply AP; now right. }
  generalize (field_names_nodup kn (fst (type_to_args t)) (snd (type_to_args t))). revert D.
  generalize (field_names kn (fst (type_to_args t)) (snd (type_to_args t))). intros l. induction l as [|a l IHl]; intros D N; [exact IH'|].
  inversion N; subst. cbn. constructor; [|apply IHl; [intros s I; apply D; now right|assumption]].
  rewrite in_app_iff. intros [I|I]; [contradiction|]. eapply D; [now left|exact I].
Qed.
