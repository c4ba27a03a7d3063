(** Runs of programs that allocate, store roots, and overwrite fields through
    [certirocq_modify], with collections that stop at the nursery. *)
From Coq Require Import ZArith Bool List Lia.
From Verif Require Import RT_Word RT_Values GC_Model GC_Spec GC_Proofs GC_Step GC_Heap GC_Mutator GC_Modify.
Import ListNotations.
Open Scope Z_scope.
Ltac Zify.zify_post_hook ::= idtac.

(** Recording cells moves the limit of the destination by whole words. *)
Lemma remset_limit n : forall fs fl q m next lim m' next' lim',
  forward_remset_loop n fs fl q (m, next, lim) = (m', next', lim') -> lim' mod 8 = lim mod 8.
Proof.
  induction n as [|n IH]; intros fs fl q m next lim m' next' lim'; cbn [forward_remset_loop].
  - intros E. injection E as <- <- <-. reflexivity.
  - destruct (negb ((fs <=? m q) && (m q <? fl))).
    + destruct (forward fs fl (m, next) (m q)) as [m1 next1]. destruct (negb (m (m q) =? m1 (m q))).
      * intros E. apply IH in E. rewrite E. replace (lim - 8) with (lim + (-1) * 8) by lia. apply Z.mod_add. lia.
      * apply IH.
    + apply IH.
Qed.

Lemma do_generation_limit from to frs m f t m' : do_generation from to frs m = Ok (f, t, m') ->
  sp_limit t mod 8 = sp_limit to mod 8.
Proof.
  unfold do_generation, forward_remset. destruct (_ <=? _); [|discriminate]. cbn [cbind].
  destruct (forward_remset_loop _ _ _ _ _) as [[m1 next1] lim1] eqn:E.
  match goal with |- context [do_scan ?a ?b ?c ?d ?e] => destruct (do_scan a b c d e) as [[m2 next2]| |] end; cbn [cbind]; try discriminate.
  intros Eq. injection Eq as <- <- <-. cbn [sp_limit]. eapply remset_limit. exact E.
Qed.

Section Upd.
Variables (malloc : nat -> Z -> option Z) (H : Z -> Prop).
Hypothesis MOK : malloc_ok malloc H.

(** The collection stops after the nursery: generation 1 does not exist yet, or after receiving
    the survivors it still has room for a full nursery (the test at gc_stack.c:425). *)
Definition minor (ti : thread) (m : mem) : Prop :=
  sp_start (th_heap ti 1%nat) = 0 \/
  forall from to m', do_generation (sync_nursery ti 0%nat) (th_heap ti 1%nat) (th_fp ti) m = Ok (from, to, m') ->
    sp_rem from - sp_start from <= sp_limit to - sp_next to.

Inductive ustep : state -> state -> Prop :=
| us_plain s s' : pstep H s s' -> ustep s s'
| us_modify ti m a x v ti' m' :
    (* field [x] of a reachable object that holds values *)
    reachable H m (slots_of ti) a -> ~ raw m a -> 0 <= x < size m a -> live H (ti, m) v ->
    certirocq_modify ti m (a + 8 * x) v = Ok (ti', m') -> ustep (ti, m) (ti', m')
| us_gc ti m ti' m' : minor ti m -> garbage_collect malloc ti m = Ok (ti', m') -> ustep (ti, m) (ti', m').

Inductive urun : state -> state -> Prop :=
| urun_refl s : urun s s
| urun_step s1 s2 s3 : urun s1 s2 -> ustep s2 s3 -> urun s1 s3.

Definition upd_ok (s : state) : Prop :=
  exists k objs, mshape malloc H (slots_of (fst s)) (sync_nursery (fst s)) k objs (snd s).

Lemma mshape_ext R h h' k objs m : (forall i, h' i = h i) -> mshape malloc H R h k objs m -> mshape malloc H R h' k objs m.
Proof.
  intros E S. constructor.
  - apply (ms_k _ _ _ _ _ _ _ S).
  - intros i. rewrite E. apply (ms_null _ _ _ _ _ _ _ S).
  - rewrite E. apply (ms_nursery _ _ _ _ _ _ _ S).
  - intros i. rewrite E. apply (ms_malloc _ _ _ _ _ _ _ S).
  - intros i. rewrite E. apply (ms_space _ _ _ _ _ _ _ S).
  - intros i. rewrite E. apply (ms_objs _ _ _ _ _ _ _ S).
  - apply (ms_roots _ _ _ _ _ _ _ S).
  - apply (ms_rootv _ _ _ _ _ _ _ S).
  - apply (ms_field _ _ _ _ _ _ _ S).
  - rewrite E. apply (ms_rec _ _ _ _ _ _ _ S).
  - rewrite E. apply (ms_young _ _ _ _ _ _ _ S).
  - unfold fits. rewrite !E. apply (ms_fits _ _ _ _ _ _ _ S).
Qed.

Lemma mfield_heap R h k objs m c : mshape malloc H R h k objs m -> is_field objs k m c -> H c.
Proof.
  intros S (j & a & x & Hj & Ha & _ & Hx & ->). pose proof (ms_obj malloc H MOK _ _ _ _ _ S j a Hj Ha).
  pose proof (ms_space _ _ _ _ _ _ _ S j Hj). apply (ms_info malloc H MOK _ _ _ _ _ S j Hj). lia.
Qed.

Lemma mshape_reroot (R R' : Z -> Prop) h k objs m m' : mshape malloc H R h k objs m ->
  (forall a, H a -> m' a = m a) -> (forall p, R' p -> ~ H p) ->
  (forall p, R' p -> pointer (m' p) -> H (m' p) -> exists i, (i <= k)%nat /\ In (m' p) (objs i)) ->
  mshape malloc H R' h k objs m'.
Proof.
  intros S Em Hr Hv.
  assert (Hd : forall i a, (i <= k)%nat -> In a (objs i) -> m' (a - 8) = m (a - 8)).
  { intros i a Hi Ha. apply Em. pose proof (ms_obj malloc H MOK _ _ _ _ _ S i a Hi Ha).
    pose proof (ms_space _ _ _ _ _ _ _ S i Hi). apply (ms_info malloc H MOK _ _ _ _ _ S i Hi). lia. }
  assert (IF : forall c, is_field objs k m' c <-> is_field objs k m c).
  { intros c. split; intros (j & a & x & Hj & Ha & Nr & Hx & ->); exists j, a, x; unfold raw, tag, size in *;
    rewrite (Hd j a Hj Ha) in *; auto. }
  assert (MF : forall c, is_field objs k m c -> m' c = m c) by (intros c Hc; apply Em; eapply mfield_heap; eassumption).
  assert (MR : forall q, 0 <= q < (sp_rem (h 0%nat) - sp_limit (h 0%nat)) / 8 -> m' (sp_limit (h 0%nat) + 8 * q) = m (sp_limit (h 0%nat) + 8 * q)).
  { intros q Hq. apply Em. pose proof (ms_space _ _ _ _ _ _ _ S 0%nat ltac:(lia)).
    apply (ms_info malloc H MOK _ _ _ _ _ S 0%nat ltac:(lia)).
    pose proof (Z.mul_div_le (sp_rem (h 0%nat) - sp_limit (h 0%nat)) 8 ltac:(lia)). lia. }
  constructor.
  - apply (ms_k _ _ _ _ _ _ _ S).
  - apply (ms_null _ _ _ _ _ _ _ S).
  - apply (ms_nursery _ _ _ _ _ _ _ S).
  - apply (ms_malloc _ _ _ _ _ _ _ S).
  - apply (ms_space _ _ _ _ _ _ _ S).
  - intros i Hi. eapply objects_in_ext; [apply (ms_objs _ _ _ _ _ _ _ S i Hi)|].
    intros x Hx. apply Em. pose proof (ms_space _ _ _ _ _ _ _ S i Hi). apply (ms_info malloc H MOK _ _ _ _ _ S i Hi). lia.
  - exact Hr.
  - exact Hv.
  - intros c Hc P Q. rewrite IF in Hc. rewrite (MF c Hc) in *. apply (ms_field _ _ _ _ _ _ _ S); assumption.
  - intros q Hq. rewrite (MR q Hq), IF. apply (ms_rec _ _ _ _ _ _ _ S q Hq).
  - intros c Hc N Hin. rewrite IF in Hc. rewrite (MF c Hc) in Hin.
    destruct (ms_young _ _ _ _ _ _ _ S c Hc N Hin) as (q & Hq & Eq). exists q. split; [exact Hq|]. rewrite (MR q Hq). exact Eq.
  - apply (ms_fits _ _ _ _ _ _ _ S).
Qed.

Lemma mlive_obj ti h k objs m w : mshape malloc H (slots_of ti) h k objs m -> live H (ti, m) w -> pointer w -> H w ->
  exists i, (i <= k)%nat /\ In w (objs i).
Proof.
  intros S [N|Rw] P Q; [destruct (N (conj P Q))|].
  apply (ms_reach malloc H _ _ _ _ _ S). eapply reachable_mono; [|exact Rw]. auto.
Qed.

(** ** Allocation *)
Lemma malloc_step_ok ti m tag ws r :
  (1 <= length ws)%nat -> 0 <= tag < 256 -> th_alloc ti + 8 * (1 + Z.of_nat (length ws)) <= th_limit ti ->
  slots_of ti r -> (251 <= tag \/ forall w, In w ws -> live H (ti, m) w) -> upd_ok (ti, m) ->
  upd_ok (with_alloc ti (th_alloc ti + 8 * (1 + Z.of_nat (length ws))),
          upd (store_words m (th_alloc ti) ((1024 * Z.of_nat (length ws) + tag) :: ws)) r (th_alloc ti + 8)).
Proof.
  intros Hl Ht Hroom Hr Hw (k & objs & S). cbn [fst snd] in *.
  set (n := Z.of_nat (length ws)) in *. set (a0 := th_alloc ti) in *. set (hd := 1024 * n + tag) in *.
  assert (Hn : 1 <= n) by (unfold n; lia).
  set (m1 := store_words m a0 (hd :: ws)). set (m2 := upd m1 r (a0 + 8)).
  destruct (ms_space _ _ _ _ _ _ _ S 0%nat ltac:(lia)) as (A1 & A2 & A3 & A3').
  destruct (ms_info malloc H MOK _ _ _ _ _ S 0%nat ltac:(lia)) as (A4 & A5 & A6 & A7).
  pose proof (ms_rec _ _ _ _ _ _ _ S) as Hrec. pose proof (ms_young _ _ _ _ _ _ _ S) as Hyg.
  pose proof (ms_objs _ _ _ _ _ _ _ S 0%nat ltac:(lia)) as Ob0.
  cbn [sync_nursery set_space Nat.eqb sp_start sp_next sp_limit sp_rem] in A1, A2, A3, A3', A4, A5, A6, A7, Hrec, Hyg, Ob0. fold a0 in A1, A3, Ob0.
  assert (Hrh : ~ H r) by (apply (ms_roots _ _ _ _ _ _ _ S r Hr)).
  assert (Ha0 : forall x, a0 <= x < a0 + 8 * (1 + n) -> H x) by (intros x Hx; apply A7; lia).
  assert (Out : forall x, ~ (a0 <= x < a0 + 8 * (1 + n)) -> m1 x = m x).
  { intros x Hx. apply store_words_out. cbn [length]. unfold n in Hx. lia. }
  assert (Out2 : forall x, H x -> ~ (a0 <= x < a0 + 8 * (1 + n)) -> m2 x = m x).
  { intros x Hx Nx. unfold m2. rewrite upd_other by (intros ->; auto). apply Out. exact Nx. }
  assert (Ehd : m2 a0 = hd).
  { unfold m2. rewrite upd_other by (intros ->; apply Hrh; apply Ha0; lia).
    pose proof (store_words_in (hd :: ws) m a0 0 ltac:(cbn [length]; lia)) as X.
    replace (a0 + 8 * 0) with a0 in X by lia. exact X. }
  assert (Efl : forall i, 0 <= i < n -> m2 (a0 + 8 + 8 * i) = nth (Z.to_nat i) ws 0).
  { intros i Hi. unfold m2. rewrite upd_other by (intros Eq; apply Hrh; rewrite <- Eq; apply Ha0; lia).
    pose proof (store_words_in (hd :: ws) m a0 (1 + i) ltac:(cbn [length]; unfold n in Hi; lia)) as X.
    replace (a0 + 8 * (1 + i)) with (a0 + 8 + 8 * i) in X by lia. unfold m1. rewrite X.
    replace (Z.to_nat (1 + i)) with (Datatypes.S (Z.to_nat i)) by lia. reflexivity. }
  assert (Esz : size m2 (a0 + 8) = n).
  { unfold size. replace (a0 + 8 - 8) with a0 by lia. rewrite Ehd. unfold hd.
    rewrite Z.mul_comm, Z.div_add_l, Z.div_small by lia. lia. }
  assert (Etag : GC_Spec.tag m2 (a0 + 8) = tag).
  { unfold GC_Spec.tag. replace (a0 + 8 - 8) with a0 by lia. rewrite Ehd. unfold hd.
    replace (1024 * n + tag) with (tag + (4 * n) * 256) by lia. rewrite Z.mod_add, Z.mod_small by lia. reflexivity. }
  set (objs' := fun j => if Nat.eqb j 0 then objs 0%nat ++ [a0 + 8] else objs j).
  set (h' := sync_nursery (with_alloc ti (a0 + 8 * (1 + n)))).
  assert (H0 : h' 0%nat = {| sp_start := sp_start (th_heap ti 0%nat); sp_next := a0 + 8 * (1 + n);
                sp_limit := th_limit ti; sp_rem := sp_rem (th_heap ti 0%nat) |}) by reflexivity.
  assert (HS : forall j, (0 < j)%nat -> h' j = sync_nursery ti j) by (intros [|j] Hj; [lia|reflexivity]).
  assert (Hst : forall j, sp_start (h' j) = sp_start (sync_nursery ti j)) by (intros [|j]; reflexivity).
  assert (Hrm : forall j, sp_rem (h' j) = sp_rem (sync_nursery ti j)) by (intros [|j]; reflexivity).
  assert (Sub : forall j w, In w (objs j) -> In w (objs' j)).
  { intros j w X. unfold objs'. destruct (Nat.eqb_spec j 0) as [->|_]; [apply in_or_app; left|]; exact X. }
  (* objects of existing generations do not meet the new one *)
  assert (Apart : forall j a, (j <= k)%nat -> In a (objs j) -> H (a - 8) /\
      (forall x, -1 <= x < size m a -> H (a + 8 * x) /\ ~ (a0 <= a + 8 * x < a0 + 8 * (1 + n)))).
  { intros j a Hj Ha. pose proof (ms_obj malloc H MOK _ _ _ _ _ S j a Hj Ha) as Ob.
    pose proof (ms_space _ _ _ _ _ _ _ S j Hj) as Sj. destruct (ms_info malloc H MOK _ _ _ _ _ S j Hj) as (_ & _ & _ & B).
    assert (X : forall x, -1 <= x < size m a -> H (a + 8 * x) /\ ~ (a0 <= a + 8 * x < a0 + 8 * (1 + n))).
    { intros x Hx. split; [apply B; lia|]. destruct (Nat.eq_dec j 0) as [->|N].
      - cbn [sync_nursery set_space Nat.eqb sp_start sp_next] in Ob. fold a0 in Ob. lia.
      - pose proof (ms_apart malloc H MOK _ _ _ _ _ S 0%nat j ltac:(lia) Hj ltac:(lia)) as Ap.
        unfold sync_nursery in Ap at 1 4. cbn [set_space Nat.eqb sp_start sp_rem] in Ap. lia. }
    split; [|exact X]. replace (a - 8) with (a + 8 * (-1)) by lia. apply X. lia. }
  assert (Keep : forall j a x, (j <= k)%nat -> In a (objs j) -> -1 <= x < size m a -> m2 (a + 8 * x) = m (a + 8 * x)).
  { intros j a x Hj Ha Hx. destruct (Apart j a Hj Ha) as [_ X]. destruct (X x Hx). apply Out2; assumption. }
  assert (KHd : forall j a, (j <= k)%nat -> In a (objs j) -> m2 (a - 8) = m (a - 8)).
  { intros j a Hj Ha. pose proof (ms_obj malloc H MOK _ _ _ _ _ S j a Hj Ha) as Ob.
    replace (a - 8) with (a + 8 * (-1)) by lia. apply (Keep j); auto. lia. }
  assert (IFold : forall c, is_field objs k m c -> is_field objs' k m2 c /\ m2 c = m c).
  { intros c (j & a & x & Hj & Ha & Nr & Hx & ->). split; [|apply (Keep j); auto; lia].
    exists j, a, x. unfold raw, GC_Spec.tag, size. rewrite (KHd j a Hj Ha). auto. }
  assert (IFnew : forall c, is_field objs' k m2 c ->
     (is_field objs k m c) \/ (exists x, 0 <= x < n /\ c = a0 + 8 + 8 * x /\ tag < 251)).
  { intros c (j & a & x & Hj & Ha & Nr & Hx & ->).
    assert (OC : In a (objs j) -> is_field objs k m (a + 8 * x)).
    { intros Ho. exists j, a, x. unfold raw, GC_Spec.tag, size in *. rewrite (KHd j a Hj Ho) in *. auto. }
    unfold objs' in Ha. destruct (Nat.eqb_spec j 0) as [->|N]; [|left; auto].
    apply in_app_or in Ha. destruct Ha as [Ha|[Ea|[]]]; [left; auto|]. subst a. right. exists x.
    rewrite Esz in Hx. unfold raw in Nr. rewrite Etag in Nr. split; [exact Hx|]. split; [reflexivity|lia]. }
  assert (Lv : forall w, live H (ti, m) w -> pointer w -> H w -> exists i, (i <= k)%nat /\ In w (objs' i)).
  { intros w Lw P Q. destruct (mlive_obj _ _ _ _ _ _ S Lw P Q) as (i & Hi & X). exists i. auto. }
  assert (MR : forall q, 0 <= q < (sp_rem (th_heap ti 0%nat) - th_limit ti) / 8 -> m2 (th_limit ti + 8 * q) = m (th_limit ti + 8 * q)).
  { intros q Hq. pose proof (Z.mul_div_le (sp_rem (th_heap ti 0%nat) - th_limit ti) 8 ltac:(lia)).
    apply Out2; [apply A7; lia|lia]. }
  exists k, objs'. cbn [fst snd]. constructor; fold h'; fold m1; fold m2.
  - apply (ms_k _ _ _ _ _ _ _ S).
  - intros j Hj. rewrite HS by lia. apply (ms_null _ _ _ _ _ _ _ S j Hj).
  - rewrite Hst, Hrm. apply (ms_nursery _ _ _ _ _ _ _ S).
  - intros j Hj. rewrite Hst, Hrm. apply (ms_malloc _ _ _ _ _ _ _ S j Hj).
  - intros j Hj. destruct (Nat.eq_dec j 0) as [->|N].
    + rewrite H0. cbn [sp_start sp_next sp_limit sp_rem]. split; [lia|]. split; [exact A2|]. split; [|exact A3'].
      replace (a0 + 8 * (1 + n)) with (a0 + (1 + n) * 8) by lia. rewrite Z.mod_add by lia. exact A3.
    + rewrite HS by lia. apply (ms_space _ _ _ _ _ _ _ S j Hj).
  - assert (Same : forall j, (j <= k)%nat -> forall l a b, objects_in m a l b -> incl l (objs j) -> objects_in m2 a l b).
    { intros j Hj l a b O. induction O as [|a l b S1 O IH]; intros Hi; [constructor|].
      assert (Es : size m2 (a + 8) = size m (a + 8)).
      { unfold size. rewrite (KHd j) by (auto; apply Hi; left; reflexivity). reflexivity. }
      constructor; rewrite Es; [exact S1|]. apply IH. intros x Hx. apply Hi. right. exact Hx. }
    intros j Hj. rewrite Hst. destruct (Nat.eq_dec j 0) as [->|N].
    + rewrite H0. cbn [sp_next]. unfold objs'. cbn [Nat.eqb]. eapply objects_in_app.
      * apply (Same 0%nat); [lia|exact Ob0|apply incl_refl].
      * constructor; rewrite Esz; [exact Hn|]. replace (a0 + 8 + 8 * n) with (a0 + 8 * (1 + n)) by lia. constructor.
    + rewrite HS by lia. unfold objs'. rewrite (proj2 (Nat.eqb_neq _ _)) by lia.
      apply (Same j Hj); [apply (ms_objs _ _ _ _ _ _ _ S j Hj)|apply incl_refl].
  - exact (ms_roots _ _ _ _ _ _ _ S).
  - intros p Hp P Q. change (slots_of ti p) in Hp.
    destruct (Z.eq_dec p r) as [->|N].
    + unfold m2. rewrite upd_same. exists 0%nat. split; [lia|]. unfold objs'. cbn [Nat.eqb]. apply in_or_app. right. left. reflexivity.
    + assert (Ep : m2 p = m p).
      { unfold m2. rewrite upd_other by exact N. apply Out. intros X. apply (ms_roots _ _ _ _ _ _ _ S p Hp). apply Ha0. exact X. }
      rewrite Ep in *. destruct (ms_rootv _ _ _ _ _ _ _ S p Hp P Q) as (i & Hi & X). exists i. auto.
  - intros c Hc P Q. destruct (IFnew c Hc) as [Ho|(x & Hx & -> & Htg)].
    + destruct (IFold c Ho) as [_ Ec]. rewrite Ec in *. destruct (ms_field _ _ _ _ _ _ _ S c Ho P Q) as (j' & Hj' & X). exists j'. auto.
    + rewrite (Efl x Hx) in *. destruct Hw as [Hw|Hw]; [lia|]. apply Lv; auto. apply Hw. apply nth_In. unfold n in Hx. lia.
  - rewrite H0. cbn [sp_rem sp_limit]. intros q Hq. rewrite (MR q Hq). apply IFold. apply Hrec. exact Hq.
  - rewrite H0. cbn [sp_start sp_rem sp_limit]. intros c Hc N Hin. destruct (IFnew c Hc) as [Ho|(x & Hx & -> & Htg)]; [|exfalso; lia].
    destruct (IFold c Ho) as [_ Ec]. rewrite Ec in Hin.
    assert (Hin0 : In (m c) (objs 0%nat)).
    { unfold objs' in Hin. cbn [Nat.eqb] in Hin. apply in_app_or in Hin. destruct Hin as [Hin|[Hin|[]]]; [exact Hin|]. exfalso.
      (* a stale word cannot equal the address of the new object *)
      assert (P : pointer (m c)).
      { rewrite <- Hin. unfold pointer. replace (a0 + 8) with (8 * (a0 / 8 + 1)).
        - rewrite Z.even_mul. reflexivity.
        - pose proof (Z.div_mod a0 8). lia. }
      destruct (ms_field _ _ _ _ _ _ _ S c Ho P) as (j' & Hj' & X); [rewrite <- Hin; apply Ha0; lia|].
      rewrite <- Hin in X. destruct (Apart j' _ Hj' X) as [_ Y].
      pose proof (ms_obj malloc H MOK _ _ _ _ _ S j' _ Hj' X). specialize (Y 0 ltac:(lia)). lia. }
    destruct (Hyg c Ho N Hin0) as (q & Hq & Eq). exists q. split; [exact Hq|]. rewrite (MR q Hq). exact Eq.
  - intros Hk. pose proof (ms_fits _ _ _ _ _ _ _ S Hk) as X. unfold fits in *. rewrite Hst, Hrm, (HS 1%nat) by lia. exact X.
Qed.

Lemma plain_ok s s' : upd_ok s -> pstep H s s' -> upd_ok s'.
Proof.
  intros Ok0 St. destruct St as [ti m tag ws r H1 H2 H3 H4 H5|ti m r w Hr Hw|ti m start n Hs|ti m f fs Hf|ti m a w Ha Hs|ti m n].
  - apply malloc_step_ok; assumption.
  - destruct Ok0 as (k & objs & S). cbn [fst snd] in *. exists k, objs. cbn [fst snd].
    pose proof (ms_roots _ _ _ _ _ _ _ S r Hr) as Nr.
    eapply mshape_reroot; [exact S| |apply (ms_roots _ _ _ _ _ _ _ S)|].
    + intros a Ha. apply upd_other. intros ->. auto.
    + intros p Hp P Q. destruct (Z.eq_dec p r) as [->|N].
      * rewrite upd_same in *. eapply mlive_obj; eassumption.
      * rewrite upd_other in * by exact N. apply (ms_rootv _ _ _ _ _ _ _ S); assumption.
  - destruct Ok0 as (k & objs & S). cbn [fst snd] in *. exists k, objs. cbn [fst snd].
    assert (SL : forall p, slots_of (with_fp ti ((start, n) :: th_fp ti)) p -> slots_of ti p \/ exists k, 0 <= k < Z.of_nat n /\ p = start + 8 * k).
    { intros p (st & n' & k' & [Eq|Hin] & Hk' & ->).
      - injection Eq as -> ->. right. exists k'. auto.
      - left. exists st, n', k'. auto. }
    change (sync_nursery (with_fp ti ((start, n) :: th_fp ti))) with (sync_nursery ti).
    eapply mshape_reroot; [exact S|reflexivity| |].
    + intros p Hp. destruct (SL p Hp) as [X|(k' & Hk' & ->)]; [apply (ms_roots _ _ _ _ _ _ _ S); exact X|apply Hs; exact Hk'].
    + intros p Hp P Q. destruct (SL p Hp) as [X|(k' & Hk' & ->)]; [apply (ms_rootv _ _ _ _ _ _ _ S); assumption|].
      eapply mlive_obj; try eassumption. apply Hs. exact Hk'.
  - destruct Ok0 as (k & objs & S). cbn [fst snd] in *. exists k, objs. cbn [fst snd].
    assert (SL : forall p, slots_of (with_fp ti fs) p -> slots_of ti p).
    { intros p (st & n' & k' & Hin & Hk' & ->). exists st, n', k'. rewrite Hf. split; [right; exact Hin|auto]. }
    change (sync_nursery (with_fp ti fs)) with (sync_nursery ti).
    eapply mshape_reroot; [exact S|reflexivity| |].
    + intros p Hp. apply (ms_roots _ _ _ _ _ _ _ S). auto.
    + intros p Hp P Q. apply (ms_rootv _ _ _ _ _ _ _ S); auto.
  - destruct Ok0 as (k & objs & S). cbn [fst snd] in *. exists k, objs. cbn [fst snd].
    eapply mshape_reroot; [exact S| |apply (ms_roots _ _ _ _ _ _ _ S)|].
    + intros x Hx. apply upd_other. intros ->. auto.
    + intros p Hp P Q. assert (N : p <> a) by (intros ->; auto).
      rewrite upd_other in * by exact N. apply (ms_rootv _ _ _ _ _ _ _ S); assumption.
  - exact Ok0.
Qed.

(** ** The write barrier *)
Lemma modify_ok ti m a x v ti' m' : upd_ok (ti, m) -> reachable H m (slots_of ti) a -> ~ raw m a -> 0 <= x < size m a ->
  live H (ti, m) v -> certirocq_modify ti m (a + 8 * x) v = Ok (ti', m') -> upd_ok (ti', m').
Proof.
  intros (k & objs & S) Ra Nr Hx Lv. cbn [fst snd] in *.
  destruct (ms_space _ _ _ _ _ _ _ S 0%nat ltac:(lia)) as (A1 & A2 & A3 & A3').
  destruct (ms_info malloc H MOK _ _ _ _ _ S 0%nat ltac:(lia)) as (A4 & A5 & A6 & A7).
  pose proof (ms_rec _ _ _ _ _ _ _ S) as Hrec. pose proof (ms_young _ _ _ _ _ _ _ S) as Hyg.
  cbn [sync_nursery set_space Nat.eqb sp_start sp_next sp_limit sp_rem] in A1, A2, A3, A3', A4, A5, A6, A7, Hrec, Hyg.
  unfold certirocq_modify. destruct (Z.ltb_spec (th_alloc ti) (th_limit ti)) as [Lt|]; [|discriminate].
  set (c0 := a + 8 * x).
  destruct (ms_reach malloc H _ _ _ _ _ S a) as (j0 & Hj0 & Ha0).
  { eapply reachable_mono; [|exact Ra]. auto. }
  assert (IF0 : is_field objs k m c0) by (exists j0, a, x; auto).
  assert (Hc0 : H c0) by (eapply mfield_heap; eassumption).
  assert (Gap : th_alloc ti + 8 <= th_limit ti).
  { pose proof (Z.div_mod (th_alloc ti) 8). pose proof (Z.div_mod (th_limit ti) 8). lia. }
  set (m1 := upd m c0 v).
  (* objects keep their headers *)
  assert (NH : forall j b, (j <= k)%nat -> In b (objs j) -> b - 8 <> c0).
  { intros j b Hj Hb E. pose proof (ms_obj malloc H MOK _ _ _ _ _ S j b Hj Hb).
    destruct (ms_word malloc H MOK _ _ _ _ _ S j b j0 a (-1) x) as [_ X]; auto; unfold c0 in E; lia. }
  (* the word below the limit is not part of an object *)
  assert (NL : forall j b y, (j <= k)%nat -> In b (objs j) -> -1 <= y < size m b -> b + 8 * y <> th_limit ti - 8).
  { intros j b y Hj Hb Hy E. pose proof (ms_obj malloc H MOK _ _ _ _ _ S j b Hj Hb) as Ob.
    pose proof (ms_space _ _ _ _ _ _ _ S j Hj) as Sj. destruct j as [|j].
    - cbn [sync_nursery set_space Nat.eqb sp_start sp_next] in Ob. lia.
    - pose proof (ms_apart malloc H MOK _ _ _ _ _ S 0%nat (Datatypes.S j) ltac:(lia) Hj ltac:(lia)) as Ap.
      unfold sync_nursery in Ap at 1 4. cbn [set_space Nat.eqb sp_start sp_rem] in Ap. lia. }
  assert (Hlim : H (th_limit ti - 8)) by (apply A7; lia).
  (* general form: memory m2 agrees with m except at c0 (now v) and possibly below the limit *)
  assert (Gen : forall m2 h2,
     (forall z, z <> c0 -> z <> th_limit ti - 8 -> m2 z = m z) -> m2 c0 = v ->
     (forall j, sp_start (h2 j) = sp_start (sync_nursery ti j) /\ sp_next (h2 j) = sp_next (sync_nursery ti j) /\ sp_rem (h2 j) = sp_rem (sync_nursery ti j)) ->
     (forall j, (1 <= j)%nat -> h2 j = sync_nursery ti j) ->
     th_alloc ti <= sp_limit (h2 0%nat) <= th_limit ti -> sp_limit (h2 0%nat) mod 8 = 0 ->
     (forall q, 0 <= q < (sp_rem (h2 0%nat) - sp_limit (h2 0%nat)) / 8 -> is_field objs k m (m2 (sp_limit (h2 0%nat) + 8 * q))) ->
     (forall c, is_field objs k m c -> ~ (sp_start (th_heap ti 0%nat) <= c < sp_limit (h2 0%nat)) -> In (m2 c) (objs 0%nat) ->
        exists q, 0 <= q < (sp_rem (h2 0%nat) - sp_limit (h2 0%nat)) / 8 /\ c = m2 (sp_limit (h2 0%nat) + 8 * q)) ->
     mshape malloc H (slots_of ti) h2 k objs m2).
  { intros m2 h2 Ag Ev HH HS Hl Hm Hr2 Hy2.
    assert (KHd : forall j b, (j <= k)%nat -> In b (objs j) -> m2 (b - 8) = m (b - 8)).
    { intros j b Hj Hb. apply Ag; [apply (NH j); assumption|].
      pose proof (ms_obj malloc H MOK _ _ _ _ _ S j b Hj Hb).
      replace (b - 8) with (b + 8 * (-1)) by lia. apply (NL j); auto. lia. }
    assert (IF : forall c, is_field objs k m2 c <-> is_field objs k m c).
    { intros c. split; intros (j & b & y & Hj & Hb & Nb & Hy & ->); exists j, b, y; unfold raw, tag, size in *;
      rewrite (KHd j b Hj Hb) in *; auto. }
    constructor.
    - apply (ms_k _ _ _ _ _ _ _ S).
    - intros j Hj. rewrite HS by lia. apply (ms_null _ _ _ _ _ _ _ S j Hj).
    - destruct (HH 0%nat) as (-> & _ & ->). apply (ms_nursery _ _ _ _ _ _ _ S).
    - intros j Hj. destruct (HH j) as (-> & _ & ->). apply (ms_malloc _ _ _ _ _ _ _ S j Hj).
    - intros j Hj. destruct j as [|j].
      + destruct (HH 0%nat) as (-> & -> & ->). cbn [sync_nursery set_space Nat.eqb sp_start sp_next sp_rem]. repeat split; auto; lia.
      + rewrite HS by lia. apply (ms_space _ _ _ _ _ _ _ S _ Hj).
    - assert (Same : forall j, (j <= k)%nat -> forall l s e, objects_in m s l e -> incl l (objs j) -> objects_in m2 s l e).
      { intros j Hj l s e O. induction O as [|s l e S1 O IH]; intros Hi; [constructor|].
        assert (Es : size m2 (s + 8) = size m (s + 8)).
        { unfold size. rewrite (KHd j) by (auto; apply Hi; left; reflexivity). reflexivity. }
        constructor; rewrite Es; [exact S1|]. apply IH. intros z Hz. apply Hi. right. exact Hz. }
      intros j Hj. destruct (HH j) as (-> & -> & _). apply (Same j Hj); [apply (ms_objs _ _ _ _ _ _ _ S j Hj)|apply incl_refl].
    - apply (ms_roots _ _ _ _ _ _ _ S).
    - intros p Hp P Q. pose proof (ms_roots _ _ _ _ _ _ _ S p Hp) as Np.
      rewrite Ag in * by (intros ->; auto). apply (ms_rootv _ _ _ _ _ _ _ S); assumption.
    - intros c Hc P Q. rewrite IF in Hc. destruct (Z.eq_dec c c0) as [->|Ne].
      + rewrite Ev in *. eapply mlive_obj; eassumption.
      + assert (c <> th_limit ti - 8).
        { destruct Hc as (j & b & y & Hj & Hb & _ & Hy & ->). apply (NL j); auto. lia. }
        rewrite Ag in * by assumption. apply (ms_field _ _ _ _ _ _ _ S); assumption.
    - intros q Hq. rewrite IF. apply Hr2. exact Hq.
    - intros c Hc N Hin. rewrite IF in Hc. destruct (HH 0%nat) as (E1 & _). rewrite E1 in N. apply Hy2; assumption.
    - intros Hk. pose proof (ms_fits _ _ _ _ _ _ _ S Hk) as X. unfold fits in *.
      destruct (HH 0%nat) as (-> & _ & ->). rewrite (HS 1%nat) by lia. exact X. }
  destruct (is_ptr v) eqn:Pv; intros E.
  - assert (Eti : {| th_alloc := th_alloc ti; th_limit := th_limit ti - 8; th_heap := th_heap ti; th_fp := th_fp ti; th_nalloc := th_nalloc ti |} = ti') by congruence.
    assert (Em : upd m1 (th_limit ti - 8) c0 = m') by congruence. clear E. subst ti' m'.
    assert (Nc : c0 <> th_limit ti - 8) by (apply (NL j0); auto; lia).
    assert (Nq : (sp_rem (th_heap ti 0%nat) - (th_limit ti - 8)) / 8 = (sp_rem (th_heap ti 0%nat) - th_limit ti) / 8 + 1).
    { replace (sp_rem (th_heap ti 0%nat) - (th_limit ti - 8)) with (sp_rem (th_heap ti 0%nat) - th_limit ti + 1 * 8) by lia. apply Z.div_add. lia. }
    assert (Sh : forall q, 0 <= q < (sp_rem (th_heap ti 0%nat) - th_limit ti) / 8 ->
       upd m1 (th_limit ti - 8) c0 (th_limit ti + 8 * q) = m (th_limit ti + 8 * q)).
    { intros q Hq. rewrite upd_other by lia. unfold m1. apply upd_other. intros E.
      destruct IF0 as (j & b & y & Hj & Hb & _ & Hy & Eb). pose proof (ms_obj malloc H MOK _ _ _ _ _ S j b Hj Hb) as Ob.
      pose proof (ms_space _ _ _ _ _ _ _ S j Hj) as Sj.
      pose proof (Z.mul_div_le (sp_rem (th_heap ti 0%nat) - th_limit ti) 8 ltac:(lia)).
      destruct j as [|j].
      - cbn [sync_nursery set_space Nat.eqb sp_start sp_next] in Ob. lia.
      - pose proof (ms_apart malloc H MOK _ _ _ _ _ S 0%nat (Datatypes.S j) ltac:(lia) Hj ltac:(lia)) as Ap.
        unfold sync_nursery in Ap at 1 4. cbn [set_space Nat.eqb sp_start sp_rem] in Ap. lia. }
    exists k, objs. cbn [fst snd]. apply Gen.
    + intros z N1 N2. rewrite upd_other by exact N2. unfold m1. apply upd_other. exact N1.
    + rewrite upd_other by exact Nc. unfold m1. apply upd_same.
    + intros [|j]; cbn; auto.
    + intros [|j] Hj; [lia|reflexivity].
    + cbn [sync_nursery set_space Nat.eqb sp_limit th_limit]. lia.
    + cbn [sync_nursery set_space Nat.eqb sp_limit th_limit]. replace (th_limit ti - 8) with (th_limit ti + (-1) * 8) by lia.
      rewrite Z.mod_add by lia. exact A3'.
    + cbn [sync_nursery set_space Nat.eqb sp_limit sp_rem th_limit th_heap]. rewrite Nq. intros q Hq.
      destruct (Z.eq_dec q 0) as [->|N].
      * replace (th_limit ti - 8 + 8 * 0) with (th_limit ti - 8) by lia. rewrite upd_same. exact IF0.
      * replace (th_limit ti - 8 + 8 * q) with (th_limit ti + 8 * (q - 1)) by lia. rewrite Sh by lia. apply Hrec. lia.
    + cbn [sync_nursery set_space Nat.eqb sp_limit sp_rem th_limit th_heap]. rewrite Nq. intros c Hc N Hin.
      destruct (Z.eq_dec c c0) as [->|Ne].
      * exists 0. split; [pose proof (Z.div_pos (sp_rem (th_heap ti 0%nat) - th_limit ti) 8); lia|].
        replace (th_limit ti - 8 + 8 * 0) with (th_limit ti - 8) by lia. rewrite upd_same. reflexivity.
      * assert (Nl : c <> th_limit ti - 8).
        { destruct Hc as (j & b & y & Hj & Hb & _ & Hy & ->). apply (NL j); auto. lia. }
        rewrite upd_other in Hin by exact Nl. unfold m1 in Hin. rewrite upd_other in Hin by exact Ne.
        assert (N2 : ~ (sp_start (th_heap ti 0%nat) <= c < th_limit ti)).
        { intros X. destruct Hc as (j & b & y & Hj & Hb & _ & Hy & ->).
          pose proof (ms_obj malloc H MOK _ _ _ _ _ S j b Hj Hb) as Ob. pose proof (ms_space _ _ _ _ _ _ _ S j Hj) as Sj.
          destruct j as [|j].
          - cbn [sync_nursery set_space Nat.eqb sp_start sp_next] in Ob. lia.
          - pose proof (ms_apart malloc H MOK _ _ _ _ _ S 0%nat (Datatypes.S j) ltac:(lia) Hj ltac:(lia)) as Ap.
            unfold sync_nursery in Ap at 1 4. cbn [set_space Nat.eqb sp_start sp_rem] in Ap. lia. }
        destruct (Hyg c Hc N2 Hin) as (q & Hq & Eq). exists (q + 1). split; [lia|].
        replace (th_limit ti - 8 + 8 * (q + 1)) with (th_limit ti + 8 * q) by lia. rewrite Sh by exact Hq. exact Eq.
  - assert (Eti : ti = ti') by congruence. assert (Em : m1 = m') by congruence. clear E. subst ti' m'.
    assert (Sh : forall q, 0 <= q < (sp_rem (th_heap ti 0%nat) - th_limit ti) / 8 -> m1 (th_limit ti + 8 * q) = m (th_limit ti + 8 * q)).
    { intros q Hq. unfold m1. apply upd_other. intros E.
      destruct IF0 as (j & b & y & Hj & Hb & _ & Hy & Eb). pose proof (ms_obj malloc H MOK _ _ _ _ _ S j b Hj Hb) as Ob.
      pose proof (ms_space _ _ _ _ _ _ _ S j Hj) as Sj.
      pose proof (Z.mul_div_le (sp_rem (th_heap ti 0%nat) - th_limit ti) 8 ltac:(lia)).
      destruct j as [|j].
      - cbn [sync_nursery set_space Nat.eqb sp_start sp_next] in Ob. lia.
      - pose proof (ms_apart malloc H MOK _ _ _ _ _ S 0%nat (Datatypes.S j) ltac:(lia) Hj ltac:(lia)) as Ap.
        unfold sync_nursery in Ap at 1 4. cbn [set_space Nat.eqb sp_start sp_rem] in Ap. lia. }
    exists k, objs. cbn [fst snd]. apply Gen.
    + intros z N1 N2. unfold m1. apply upd_other. exact N1.
    + unfold m1. apply upd_same.
    + intros j. auto.
    + intros j Hj. reflexivity.
    + cbn [sync_nursery set_space Nat.eqb sp_limit]. lia.
    + exact A3'.
    + cbn [sync_nursery set_space Nat.eqb sp_limit sp_rem]. intros q Hq. rewrite (Sh q Hq). apply Hrec. exact Hq.
    + cbn [sync_nursery set_space Nat.eqb sp_limit sp_rem]. intros c Hc N Hin.
      destruct (Z.eq_dec c c0) as [->|Ne].
      * exfalso. unfold m1 in Hin. rewrite upd_same in Hin.
        pose proof (ms_obj malloc H MOK _ _ _ _ _ S 0%nat v ltac:(lia) Hin) as Ob.
        assert (pointer v).
        { unfold pointer. rewrite (Z.div_mod v 8) by lia. rewrite (proj2 (proj2 (proj2 Ob))), Z.add_0_r, Z.even_mul. reflexivity. }
        apply is_ptr_pointer in H0. congruence.
      * unfold m1 in Hin. rewrite upd_other in Hin by exact Ne.
        destruct (Hyg c Hc N Hin) as (q & Hq & Eq). exists q. split; [exact Hq|]. rewrite (Sh q Hq). exact Eq.
Qed.

(** ** Collections that stop at the nursery *)

Lemma mcreate h objs m R s : mshape malloc H R h 0 objs m ->
  create_space malloc 1 (2 * ((sp_rem (h 0%nat) - sp_start (h 0%nat)) / 8)) = Ok s ->
  mshape malloc H R (set_space h 1 s) 1 (fun j => if Nat.eqb j 1 then [] else objs j) m /\
  sp_limit s - sp_next s = 2 * (sp_rem (h 0%nat) - sp_start (h 0%nat)).
Proof.
  intros S. rewrite (ms_nursery _ _ _ _ _ _ _ S). replace (8 * NURSERY_SIZE / 8) with NURSERY_SIZE by (rewrite Z.mul_comm, Z.div_mul by lia; reflexivity).
  unfold create_space. destruct (malloc 1%nat (2 * NURSERY_SIZE)) as [p|] eqn:Em; [|discriminate].
  intros Es. assert (Es' : {| sp_start := p; sp_next := p; sp_limit := p + 8 * (2 * NURSERY_SIZE); sp_rem := p + 8 * (2 * NURSERY_SIZE) |} = s) by congruence.
  clear Es. subst s. cbn [sp_limit sp_next].
  destruct (proj1 MOK _ _ _ Em) as (P1 & P2 & P3).
  split; [|unfold NURSERY_SIZE; lia].
  assert (IF : forall c, is_field (fun j => if Nat.eqb j 1 then [] else objs j) 1 m c <-> is_field objs 0 m c).
  { intros c. split; intros (j & a & x & Hj & Ha & Nr & Hx & ->).
    - destruct j as [|[|j]]; [|destruct Ha|lia]. exists 0%nat, a, x. auto.
    - assert (j = 0%nat) by lia. subst j. exists 0%nat, a, x. auto. }
  assert (E0 : forall s, set_space h 1 s 0%nat = h 0%nat) by reflexivity.
  constructor; rewrite ?E0.
  - unfold MAX_SPACES. lia.
  - intros [|[|i]] Hi; try lia. apply (ms_null _ _ _ _ _ _ _ S). lia.
  - apply (ms_nursery _ _ _ _ _ _ _ S).
  - intros [|[|i]] Hi; [|exists (2 * NURSERY_SIZE); cbn; auto|lia]. rewrite E0. apply (ms_malloc _ _ _ _ _ _ _ S). lia.
  - intros [|[|i]] Hi; [rewrite E0; apply (ms_space _ _ _ _ _ _ _ S); lia| |lia].
    cbn [set_space Nat.eqb sp_start sp_next sp_limit sp_rem]. repeat split; auto; try (unfold NURSERY_SIZE; lia).
    rewrite Z.mul_comm, Z.mod_add by lia. exact P2.
  - intros [|[|i]] Hi; [rewrite E0; apply (ms_objs _ _ _ _ _ _ _ S); lia|constructor|lia].
  - apply (ms_roots _ _ _ _ _ _ _ S).
  - intros p0 Hp P Q. destruct (ms_rootv _ _ _ _ _ _ _ S p0 Hp P Q) as (i & Hi & X). assert (i = 0%nat) by lia. subst i.
    exists 0%nat. split; [lia|exact X].
  - intros c Hc P Q. rewrite IF in Hc. destruct (ms_field _ _ _ _ _ _ _ S c Hc P Q) as (i & Hi & X). assert (i = 0%nat) by lia. subst i.
    exists 0%nat. split; [lia|exact X].
  - intros q Hq. rewrite IF. apply (ms_rec _ _ _ _ _ _ _ S q Hq).
  - intros c Hc N Hin. rewrite IF in Hc. apply (ms_young _ _ _ _ _ _ _ S c Hc N Hin).
  - intros _. unfold fits. rewrite E0. cbn [set_space Nat.eqb sp_limit sp_next].
    rewrite (ms_nursery _ _ _ _ _ _ _ S). unfold NURSERY_SIZE. lia.
Qed.

(** What a collection of the nursery leaves. *)
Definition minor_done (ti : thread) (m : mem) (ti' : thread) (m' : mem) : Prop :=
  upd_ok (ti', m') /\
  exists phi, same_graph H (slots_of ti) m m' phi /\
    (forall a, ~ H a -> ~ slots_of ti a -> m' a = m a) /\
    th_fp ti' = th_fp ti /\ th_nalloc ti' = th_nalloc ti /\
    th_alloc ti' = sp_start (th_heap ti' 0%nat) /\ th_nalloc ti' <= (th_limit ti' - th_alloc ti') / 8 /\
    (* recorded cells outside the nursery are redirected *)
    forall c, remembered m (sp_start (th_heap ti 0%nat)) (th_limit ti) (sp_rem (th_heap ti 0%nat)) c -> m' c = phi (m c).

Lemma gc_minor_ok ti m : upd_ok (ti, m) -> minor ti m ->
  match garbage_collect malloc ti m with
  | Ok (ti', m') => minor_done ti m ti' m'
  | Abort => NURSERY_SIZE < th_nalloc ti \/ malloc 1%nat (2 * NURSERY_SIZE) = None
  | UB => False
  end.
Proof.
  intros (k & objs & S) Mi. cbn [fst snd] in *. unfold garbage_collect.
  change (MAX_SPACES - 1)%nat with (Datatypes.S 41). cbn [gc_loop].
  assert (Ex : match (if sp_start (sync_nursery ti 1%nat) =? 0
                 then cbind (create_space malloc 1 (2 * ((sp_rem (sync_nursery ti 0%nat) - sp_start (sync_nursery ti 0%nat)) / 8))) (fun s => Ok (set_space (sync_nursery ti) 1 s))
                 else Ok (sync_nursery ti)) with
          | Ok h1 => exists k1 objs1, mshape malloc H (slots_of ti) h1 k1 objs1 m /\ (1 <= k1)%nat /\
              h1 0%nat = sync_nursery ti 0%nat /\
              (2 * (sp_rem (h1 0%nat) - sp_start (h1 0%nat)) <= sp_limit (h1 1%nat) - sp_next (h1 1%nat) \/
               forall from to m', do_generation (h1 0%nat) (h1 1%nat) (th_fp ti) m = Ok (from, to, m') ->
                 sp_rem from - sp_start from <= sp_limit to - sp_next to)
          | Abort => malloc 1%nat (2 * NURSERY_SIZE) = None
          | UB => False
          end).
  { destruct (Z.eqb_spec (sp_start (sync_nursery ti 1%nat)) 0) as [E0|E0].
    - assert (k = 0%nat).
      { destruct k; [reflexivity|]. exfalso. pose proof (ms_info malloc H MOK _ _ _ _ _ S 1%nat ltac:(lia)). lia. }
      subst k. destruct (create_space malloc 1 _) as [s| |] eqn:Ec; cbn [cbind].
      + destruct (mcreate _ _ _ _ _ S Ec) as [S' Er]. exists 1%nat. eexists. split; [exact S'|]. split; [lia|].
        split; [reflexivity|]. change (set_space (sync_nursery ti) 1 s 0%nat) with (sync_nursery ti 0%nat).
        change (set_space (sync_nursery ti) 1 s 1%nat) with s. left. lia.
      + unfold create_space in Ec. match type of Ec with (match ?x with _ => _ end) = _ => destruct x; discriminate end.
      + unfold create_space in Ec. match type of Ec with (match ?x with _ => _ end) = _ => destruct x eqn:Em; [discriminate|] end.
        rewrite (ms_nursery _ _ _ _ _ _ _ S) in Em. rewrite (Z.mul_comm 8), Z.div_mul in Em by lia. exact Em.
    - assert (1 <= k)%nat.
      { destruct k; [|lia]. destruct E0. apply (ms_null _ _ _ _ _ _ _ S). lia. }
      exists k, objs. split; [exact S|]. split; [assumption|]. split; [reflexivity|].
      destruct Mi as [Mi|Mi]; [contradiction|]. right. exact Mi. }
  destruct (if sp_start (sync_nursery ti 1%nat) =? 0 then _ else _) as [h1| |]; cbn [cbind].
  2: { exact Ex. }
  2: { right. exact Ex. }
  destruct Ex as (k1 & objs1 & S1 & Hk1 & E0 & Hroom).
  pose proof (nursery_collectable malloc H MOK (th_fp ti) _ _ _ _ S1 Hk1) as CO.
  destruct (do_generation_ok H m (objs1 0%nat) (h1 0%nat) (h1 1%nat) (th_fp ti) CO) as (from' & to' & m' & phi & news & Er & SR).
  rewrite Er. cbn [cbind].
  pose proof (do_generation_limit _ _ _ _ _ _ _ Er) as Lm.
  destruct (ms_space _ _ _ _ _ _ _ S1 0%nat ltac:(lia)) as (A1 & A2 & A3 & A4).
  destruct (ms_space _ _ _ _ _ _ _ S1 1%nat ltac:(lia)) as (B1 & B2 & B3 & B4).
  rewrite B4 in Lm.
  pose proof (sr_from _ _ _ _ _ _ _ _ _ _ _ SR) as Ef.
  destruct (sr_to _ _ _ _ _ _ _ _ _ _ _ SR) as (T1 & T2 & T3 & T4 & T5 & T6 & T7).
  assert (Fit : sp_rem from' - sp_start from' <= sp_limit to' - sp_next to').
  { destruct Hroom as [Hroom|Hroom]; [rewrite Ef; cbn [sp_rem sp_start]; lia|exact (Hroom _ _ _ Er)]. }
  destruct (nursery_shape malloc H MOK (th_fp ti) _ _ _ _ _ _ _ _ _ S1 Hk1 SR Fit Lm) as [S2 FR].
  set (h2 := set_space (set_space h1 0 from') 1 to') in *.
  replace (h2 0%nat) with from' by reflexivity. replace (h2 1%nat) with to' by reflexivity.
  replace ((sp_rem from' - sp_start from') / 8 <=? (sp_limit to' - sp_next to') / 8) with true.
  2: { symmetry. apply Z.leb_le. apply Z.div_le_mono; lia. }
  unfold resume. replace (h2 0%nat) with from' by reflexivity.
  assert (En : sp_limit from' - sp_start from' = 8 * NURSERY_SIZE).
  { pose proof (ms_nursery _ _ _ _ _ _ _ S1) as Y. rewrite Ef. cbn [sp_limit sp_start]. exact Y. }
  rewrite En. rewrite Z.mul_comm, Z.div_mul by lia. change (u64 NURSERY_SIZE) with NURSERY_SIZE.
  destruct (Z.ltb_spec NURSERY_SIZE (th_nalloc ti)) as [Lt|Ge]; cbn [cbind]; [left; exact Lt|].
  split.
  - exists k1, (objs_after objs1 0 news). cbn [fst snd]. unfold slots_of. cbn [th_fp].
    eapply mshape_ext; [|exact S2]. intros [|i]; [|reflexivity].
    cbn [sync_nursery set_space Nat.eqb th_heap th_alloc th_limit]. replace (h2 0%nat) with from' by reflexivity.
    rewrite Ef. reflexivity.
  - exists phi. split; [exact (sr_graph _ _ _ _ _ _ _ _ _ _ _ SR)|]. split; [exact FR|].
    cbn [th_fp th_nalloc th_alloc th_limit th_heap]. split; [reflexivity|]. split; [reflexivity|]. split; [reflexivity|].
    split.
    + rewrite En, Z.mul_comm, Z.div_mul by lia. exact Ge.
    + intros c Hc. apply (sr_cells _ _ _ _ _ _ _ _ _ _ _ SR). rewrite E0. exact Hc.
Qed.

Lemma ustep_ok s s' : upd_ok s -> ustep s s' -> upd_ok s'.
Proof.
  intros O St. destruct St as [s s' St|ti m a x v ti' m' Ra Nr Hx Lv E|ti m ti' m' Mi E].
  - eapply plain_ok; eassumption.
  - eapply modify_ok; eassumption.
  - pose proof (gc_minor_ok ti m O Mi) as X. rewrite E in X. apply X.
Qed.

Lemma urun_ok s s' : upd_ok s -> urun s s' -> upd_ok s'.
Proof. intros O Rn. induction Rn; auto. eapply ustep_ok; [apply IHRn; exact O|eassumption]. Qed.

Lemma make_tinfo_upd ti m : make_tinfo malloc = Ok ti -> upd_ok (ti, m).
Proof.
  unfold make_tinfo, create_heap, create_space. destruct (malloc 0%nat NURSERY_SIZE) as [p|] eqn:Em; [|discriminate].
  cbn [cbind]. intros Eq. injection Eq as Eq. subst ti.
  destruct (proj1 MOK _ _ _ Em) as (P1 & P2 & P3).
  exists 0%nat, (fun _ => []). cbn [fst snd]. constructor.
  - unfold MAX_SPACES. lia.
  - intros [|i] Hi; [lia|reflexivity].
  - cbn. lia.
  - intros i Hi. assert (i = 0%nat) by lia. subst i. exists NURSERY_SIZE. cbn. auto.
  - intros i Hi. assert (i = 0%nat) by lia. subst i. cbn [sync_nursery set_space Nat.eqb sp_start sp_next sp_limit sp_rem th_heap th_alloc th_limit].
    split; [unfold NURSERY_SIZE; lia|]. split; [lia|]. split; [exact P2|].
    change ((p + 8 * NURSERY_SIZE) mod 8 = 0). rewrite (Z.mul_comm 8), Z.mod_add by lia. exact P2.
  - intros i Hi. assert (i = 0%nat) by lia. subst i. cbn. constructor.
  - intros p0 (st & n & k & [] & _).
  - intros p0 (st & n & k & [] & _).
  - intros c (j & a & x & Hj & [] & _).
  - intros q. cbn [sync_nursery set_space Nat.eqb sp_start sp_next sp_limit sp_rem th_heap th_alloc th_limit]. rewrite Z.sub_diag. cbn. lia.
  - intros c (j & a & x & Hj & [] & _).
  - lia.
Qed.

Theorem urun_collect ti0 m0 ti m : make_tinfo malloc = Ok ti0 -> urun (ti0, m0) (ti, m) -> minor ti m ->
  match garbage_collect malloc ti m with
  | Ok (ti', m') => minor_done ti m ti' m'
  | Abort => NURSERY_SIZE < th_nalloc ti \/ malloc 1%nat (2 * NURSERY_SIZE) = None
  | UB => False
  end.
Proof. intros E R Mi. apply gc_minor_ok; [|exact Mi]. eapply urun_ok; [apply make_tinfo_upd; exact E|exact R]. Qed.

End Upd.
