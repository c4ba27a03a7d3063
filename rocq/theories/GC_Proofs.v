(** The Cheney invariant for one collection step of [GC_Model]. *)
From Coq Require Import ZArith Bool List Lia.
From Verif Require Import RT_Word RT_Values GC_Model GC_Spec.
Import ListNotations.
Open Scope Z_scope.
Ltac Zify.zify_post_hook ::= idtac.

Lemma Wosize_size m v : Wosize_hd (m (v - 8)) = size m v.
Proof. unfold Wosize_hd, size. rewrite Z.shiftr_div_pow2 by lia. reflexivity. Qed.

Lemma Wosize_div hd : Wosize_hd hd = hd / 1024.
Proof. unfold Wosize_hd. rewrite Z.shiftr_div_pow2 by lia. reflexivity. Qed.

Lemma Tag_mod hd : Tag_hd hd = hd mod 256.
Proof. unfold Tag_hd. change 255 with (Z.ones 8). rewrite Z.land_ones by lia. reflexivity. Qed.

Lemma No_scan_raw m v : No_scan (Tag_hd (m (v - 8))) = true <-> raw m v.
Proof. rewrite Tag_mod. unfold No_scan, No_scan_tag, raw, tag. apply Z.leb_le. Qed.

Lemma is_ptr_pointer w : is_ptr w = true <-> pointer w.
Proof.
  unfold is_ptr, pointer. change 1 with (Z.ones 1). rewrite Z.land_ones by lia. change (2 ^ 1) with 2.
  rewrite Zmod_even. destruct (Z.even w); cbn; intuition discriminate.
Qed.

Lemma upd_same m a v : upd m a v a = v.
Proof. unfold upd. rewrite Z.eqb_refl. reflexivity. Qed.
Lemma upd_other m a v b : b <> a -> upd m a v b = m b.
Proof. unfold upd. intros. destruct (Z.eqb_spec b a); [contradiction|reflexivity]. Qed.

(** ** Facts about regions of objects *)

Lemma objects_in_range m a l b : objects_in m a l b ->
  a <= b /\ forall v, In v l -> a + 8 <= v /\ v + 8 * size m v <= b /\ 1 <= size m v /\ v mod 8 = a mod 8.
Proof.
  induction 1 as [a|a l b Hs Ho [IH1 IH2]].
  - split; [lia|]. intros v [].
  - split; [lia|]. intros v [<-|Hv].
    + repeat split; try lia. apply (Z.mod_add a 1 8). lia.
    + destruct (IH2 v Hv) as (A & B & C & D). repeat split; try lia. rewrite D.
      replace (a + 8 + 8 * size m (a + 8)) with (a + (1 + size m (a + 8)) * 8) by lia. apply Z.mod_add. lia.
Qed.

Lemma objects_in_disjoint m a l b : objects_in m a l b ->
  forall v w, In v l -> In w l -> v = w \/ v + 8 * size m v <= w - 8 \/ w + 8 * size m w <= v - 8.
Proof.
  induction 1 as [a|a l b Hs Ho IH]; intros v w Hv Hw; [destruct Hv|].
  destruct (objects_in_range _ _ _ _ Ho) as [_ R].
  destruct Hv as [<-|Hv], Hw as [<-|Hw].
  - auto.
  - right. left. specialize (R w Hw). lia.
  - right. right. specialize (R v Hv). lia.
  - apply IH; assumption.
Qed.

Lemma objects_in_nodup m a l b : objects_in m a l b -> NoDup l.
Proof.
  induction 1 as [a|a l b Hs Ho IH]; constructor; auto.
  intros Hin. destruct (objects_in_range _ _ _ _ Ho) as [_ R]. specialize (R _ Hin). lia.
Qed.

(** Words (in bytes) taken by a list of objects. *)
Fixpoint total (f : Z -> Z) (l : list Z) : Z :=
  match l with [] => 0 | v :: l => f v + total f l end.

Lemma total_app f l1 l2 : total f (l1 ++ l2) = total f l1 + total f l2.
Proof. induction l1; cbn; lia. Qed.

Lemma objects_in_total m a l b : objects_in m a l b -> total (fun v => 8 + 8 * size m v) l = b - a.
Proof. induction 1; cbn [total]; lia. Qed.

Lemma total_incl f l1 : NoDup l1 -> forall l2, incl l1 l2 -> (forall v, In v l2 -> 0 <= f v) ->
  total f l1 <= total f l2.
Proof.
  induction 1 as [|v l1 Hn Hd IH]; intros l2 Hi Hf.
  - cbn. clear Hi. induction l2; cbn; [lia|]. pose proof (Hf a (or_introl eq_refl)).
    specialize (IHl2 (fun v h => Hf v (or_intror h))). lia.
  - assert (Hin : In v l2) by (apply Hi; left; reflexivity).
    destruct (in_split _ _ Hin) as (x & y & ->).
    assert (I2 : incl l1 (x ++ y)).
    { intros w Hw. assert (In w (x ++ v :: y)) by (apply Hi; right; exact Hw).
      apply in_app_or in H. apply in_or_app. destruct H as [H|[H|H]]; auto. subst. contradiction. }
    specialize (IH (x ++ y) I2). rewrite total_app in *. cbn [total].
    assert (total f l1 <= total f x + total f y).
    { apply IH. intros w Hw. apply Hf. apply in_app_or in Hw. apply in_or_app. cbn. tauto. }
    lia.
Qed.

Lemma NoDup_snoc (l : list Z) v : NoDup l -> ~ In v l -> NoDup (l ++ [v]).
Proof.
  induction 1 as [|w l Hw Hl IH]; intros Hv; cbn; (constructor; [|auto]); auto; try (now constructor).
  - intros h. apply in_app_or in h. destruct h as [h|[h|[]]]; [contradiction|]. subst. apply Hv. left. reflexivity.
  - apply IH. intros h. apply Hv. right. exact h.
Qed.

(** ** Copying the fields of one object *)

Lemma copy_fields_in n : forall i newv v m j,
  (forall j k, i <= j < i + Z.of_nat n -> i <= k < i + Z.of_nat n -> newv + 8 * j <> v + 8 * k) ->
  i <= j < i + Z.of_nat n ->
  copy_fields n i newv v m (newv + 8 * j) = m (v + 8 * j).
Proof.
  induction n as [|n IH]; intros i newv v m j Hd Hj; [lia|].
  cbn [copy_fields].
  destruct (Z.eq_dec j i) as [->|Hne].
  - assert (Hout : forall n i' m, i < i' -> copy_fields n i' newv v m (newv + 8 * i) = m (newv + 8 * i)).
    { clear. induction n; intros i' m Hi; cbn [copy_fields]; [reflexivity|].
      rewrite IHn by lia. apply upd_other. lia. }
    rewrite Hout by lia. apply upd_same.
  - rewrite IH.
    + apply upd_other. intros E. apply (Hd i j); lia.
    + intros a b Ha Hb. apply Hd; lia.
    + lia.
Qed.

Lemma copy_fields_out n : forall i newv v m a,
  (forall j, i <= j < i + Z.of_nat n -> a <> newv + 8 * j) ->
  copy_fields n i newv v m a = m a.
Proof.
  induction n as [|n IH]; intros i newv v m a Hd; cbn [copy_fields]; [reflexivity|].
  rewrite IH.
  - apply upd_other. apply Hd. lia.
  - intros j Hj. apply Hd. lia.
Qed.

(** ** The invariant *)

Section Step.

Variable m0 : mem.                (* memory before the collection *)
Variables fs fn fl : Z.           (* from-space: start, end of objects, limit *)
Variable objs : list Z.           (* its objects *)
Variables tn tlim tl : Z.         (* free part of the to-space: [tn, tl); copies must stay below tlim *)
Variable E : Z -> Prop.           (* root slots and remembered cells *)
Variable G : Z -> Prop.           (* from-space objects that may be copied *)

Hypothesis Hobjs : objects_in m0 fs objs fn.
Hypothesis Hfn : fn <= fl.
Hypothesis Hal_f : fs mod 8 = 0.
Hypothesis Hal_t : tn mod 8 = 0.
Hypothesis Hroom : tn + (fn - fs) <= tlim.
Hypothesis Htl : tlim <= tl.
Hypothesis Hdisj : fl <= tn \/ tl <= fs.
Hypothesis HE : forall p, E p -> ~ (fs <= p < fl) /\ ~ (tn <= p < tl).
Hypothesis HG : forall v, G v -> In v objs.
Hypothesis HGE : forall p, E p -> is_ptr (m0 p) = true -> Is_from fs fl (m0 p) = true -> G (m0 p).
Hypothesis HGf : forall v i, G v -> No_scan (Tag_hd (m0 (v - 8))) = false -> 0 <= i < size m0 v ->
  is_ptr (m0 (v + 8 * i)) = true -> Is_from fs fl (m0 (v + 8 * i)) = true -> G (m0 (v + 8 * i)).

Notation sz := (size m0).
Notation scanned v := (No_scan (Tag_hd (m0 (v - 8))) = false).

(** A word that points into the from-space. *)
Definition fptr (w : Z) : Prop := is_ptr w = true /\ Is_from fs fl w = true.

Lemma fptr_dec w : fptr w \/ ~ fptr w.
Proof. unfold fptr. destruct (is_ptr w), (Is_from fs fl w); intuition discriminate. Qed.

Lemma Is_from_iff w : Is_from fs fl w = true <-> fs <= w < fl.
Proof. unfold Is_from. rewrite andb_true_iff, Z.leb_le, Z.ltb_lt. reflexivity. Qed.

Lemma objs_range v : In v objs -> fs + 8 <= v /\ v + 8 * sz v <= fn /\ 1 <= sz v /\ v mod 8 = 0.
Proof.
  intros Hv. destruct (objects_in_range _ _ _ _ Hobjs) as [_ R]. destruct (R v Hv) as (A & B & C & D).
  rewrite Hal_f in D. auto.
Qed.

Lemma objs_hd_nonzero v : In v objs -> m0 (v - 8) <> 0.
Proof.
  intros Hv E0. destruct (objs_range v Hv) as (_ & _ & S1 & _). unfold size in S1. rewrite E0 in S1.
  cbn in S1. lia.
Qed.

(** The copies: pairs (old object, new object), one after the other. *)
Fixpoint placed (a : Z) (L : list (Z * Z)) (b : Z) : Prop :=
  match L with
  | [] => a = b
  | (v, nv) :: L => nv = a + 8 /\ placed (a + 8 + 8 * sz v) L b
  end.

Lemma placed_app L1 : forall a L2 b, placed a (L1 ++ L2) b <-> exists c, placed a L1 c /\ placed c L2 b.
Proof.
  induction L1 as [|[v nv] L1 IH]; intros a L2 b; cbn [app placed].
  - split; [eauto|]. intros (c & -> & H). exact H.
  - rewrite IH. split.
    + intros (? & c & ? & ?). exists c. auto.
    + intros (c & (? & ?) & ?). eauto.
Qed.

Definition good (L : list (Z * Z)) : Prop := forall v nv, In (v, nv) L -> G v.

Lemma good_sz L v nv : good L -> In (v, nv) L -> 1 <= sz v.
Proof. intros g i. apply objs_range. apply HG. eapply g. exact i. Qed.

Lemma placed_range L : forall a b, good L -> placed a L b ->
  a <= b /\ forall v nv, In (v, nv) L -> a + 8 <= nv /\ nv + 8 * sz v <= b /\ nv mod 8 = a mod 8.
Proof.
  induction L as [|[v nv] L IH]; intros a b Hg; cbn [placed].
  - intros ->. split; [lia|]. intros ? ? [].
  - intros [-> P]. assert (S1 : 1 <= sz v) by (eapply good_sz; [exact Hg|left; reflexivity]).
    destruct (IH _ _ (fun v nv h => Hg v nv (or_intror h)) P) as [R1 R2].
    split; [lia|]. intros w nw [Eq|Hin].
    + injection Eq as <- <-. repeat split; try lia. apply (Z.mod_add a 1 8). lia.
    + destruct (R2 w nw Hin) as (A & B & C). repeat split; try lia. rewrite C.
      replace (a + 8 + 8 * sz v) with (a + (1 + sz v) * 8) by lia. apply Z.mod_add. lia.
Qed.

Lemma placed_disjoint L : forall a b, good L -> placed a L b ->
  forall v nv w nw, In (v, nv) L -> In (w, nw) L ->
  (v = w /\ nv = nw) \/ nv + 8 * sz v <= nw - 8 \/ nw + 8 * sz w <= nv - 8.
Proof.
  induction L as [|[x nx] L IH]; intros a b Hg; cbn [placed]; [intros _ ? ? ? ? []|].
  intros [-> P] v nv w nw Hv Hw.
  assert (Hg' : good L) by (intros ? ? h; eapply Hg; right; exact h).
  destruct (placed_range _ _ _ Hg' P) as [_ R].
  destruct Hv as [Ev|Hv], Hw as [Ew|Hw].
  - injection Ev as <- <-. injection Ew as <- <-. auto.
  - injection Ev as <- <-. right. left. specialize (R _ _ Hw). lia.
  - injection Ew as <- <-. right. right. specialize (R _ _ Hv). lia.
  - eapply IH; eassumption.
Qed.

Lemma placed_total L : forall a b, placed a L b -> b = a + total (fun v => 8 + 8 * sz v) (map fst L).
Proof.
  induction L as [|[v nv] L IH]; intros a b; cbn [placed map fst total].
  - lia.
  - intros [-> P]. apply IH in P. lia.
Qed.

(** Copies of distinct objects fit below [tlim]. *)
Lemma placed_fits L b : good L -> NoDup (map fst L) -> placed tn L b -> b <= tlim.
Proof.
  intros Hg Hn P. rewrite (placed_total _ _ _ P).
  assert (total (fun v => 8 + 8 * sz v) (map fst L) <= total (fun v => 8 + 8 * sz v) objs).
  { apply total_incl; [assumption| |].
    - intros v Hv. apply in_map_iff in Hv. destruct Hv as ([x nx] & <- & Hin). apply HG. eapply Hg. exact Hin.
    - intros v Hv. destruct (objs_range v Hv) as (_ & _ & S1 & _). lia. }
  rewrite (objects_in_total _ _ _ _ Hobjs) in H. lia.
Qed.

(** [w'] is what the word [w] must become. *)
Definition image (L : list (Z * Z)) (w w' : Z) : Prop :=
  (fptr w /\ In (w, w') L) \/ (~ fptr w /\ w' = w).

Lemma image_mono L L' w w' : incl L L' -> image L w w' -> image L' w w'.
Proof. intros I [[H1 H2]|H]; [left; auto|right; auto]. Qed.

(** The state of a slot with original contents [w]; [D] are the slots already treated. *)
Definition slot_ok (L : list (Z * Z)) (D : Z -> Prop) (m : mem) (x w : Z) : Prop :=
  (D x -> image L w (m x)) /\ (image L w (m x) \/ m x = w).

Record Inv (L : list (Z * Z)) (D : Z -> Prop) (m : mem) (next : Z) : Prop := {
  i_place : placed tn L next;
  i_nodup : NoDup (map fst L);
  i_good : good L;
  i_fwd : forall v nv, In (v, nv) L -> m (v - 8) = 0 /\ m v = nv;
  i_from : forall v, In v objs -> ~ In v (map fst L) -> forall i, -1 <= i < sz v -> m (v + 8 * i) = m0 (v + 8 * i);
  i_hd : forall v nv, In (v, nv) L -> m (nv - 8) = m0 (v - 8);
  i_raw : forall v nv i, In (v, nv) L -> No_scan (Tag_hd (m0 (v - 8))) = true -> 0 <= i < sz v -> m (nv + 8 * i) = m0 (v + 8 * i);
  i_fld : forall v nv i, In (v, nv) L -> scanned v -> 0 <= i < sz v -> slot_ok L D m (nv + 8 * i) (m0 (v + 8 * i));
  i_ext : forall p, E p -> slot_ok L D m p (m0 p);
  i_done : forall x, D x -> ~ (next <= x < tl);
  i_frame : forall a, ~ (fs <= a < fn) -> ~ (tn <= a < tl) -> ~ E a -> m a = m0 a }.

(** [p] is a slot the collector may forward, with original contents [w]. *)
Definition slot (L : list (Z * Z)) (p w : Z) : Prop :=
  (E p /\ w = m0 p) \/
  (exists v nv i, In (v, nv) L /\ scanned v /\ 0 <= i < sz v /\ p = nv + 8 * i /\ w = m0 (v + 8 * i)).

Lemma next_bound L D m next : Inv L D m next -> tn <= next <= tlim.
Proof.
  intros I. split.
  - apply (placed_range L tn next (i_good _ _ _ _ I) (i_place _ _ _ _ I)).
  - apply (placed_fits L next (i_good _ _ _ _ I) (i_nodup _ _ _ _ I) (i_place _ _ _ _ I)).
Qed.

Lemma copy_range L D m next v nv : Inv L D m next -> In (v, nv) L ->
  tn + 8 <= nv /\ nv + 8 * sz v <= next /\ nv mod 8 = 0 /\ 1 <= sz v.
Proof.
  intros I Hin. destruct (placed_range L tn next (i_good _ _ _ _ I) (i_place _ _ _ _ I)) as [_ R].
  destruct (R v nv Hin) as (A & B & C). rewrite Hal_t in C. repeat split; auto.
  eapply good_sz; [apply (i_good _ _ _ _ I)|exact Hin].
Qed.

Lemma slot_unique L D m next p w w' : Inv L D m next -> slot L p w -> slot L p w' -> w = w'.
Proof.
  intros I S S'. pose proof (next_bound _ _ _ _ I) as NB.
  destruct S as [[Ep ->]|(v & nv & i & Hin & Hs & Hi & Ep & ->)];
  destruct S' as [[Ep' ->]|(v' & nv' & i' & Hin' & Hs' & Hi' & Ep' & ->)].
  - reflexivity.
  - exfalso. destruct (HE p Ep) as [_ N]. pose proof (copy_range _ _ _ _ _ _ I Hin'). lia.
  - exfalso. destruct (HE p Ep') as [_ N]. pose proof (copy_range _ _ _ _ _ _ I Hin). lia.
  - destruct (placed_disjoint L tn next (i_good _ _ _ _ I) (i_place _ _ _ _ I) v nv v' nv' Hin Hin')
      as [[-> ->]|[Hd|Hd]]; [f_equal; lia|exfalso; lia|exfalso; lia].
Qed.

Lemma slot_state L D m next p w : Inv L D m next -> slot L p w -> slot_ok L D m p w.
Proof.
  intros I [[Ep ->]|(v & nv & i & Hin & Hs & Hi & -> & ->)].
  - apply (i_ext _ _ _ _ I). assumption.
  - apply (i_fld _ _ _ _ I); assumption.
Qed.

(** Where a slot lies. *)
Lemma slot_place L D m next p w : Inv L D m next -> slot L p w ->
  ~ (fs <= p < fl) /\ (E p \/ tn + 8 <= p < next) /\ ~ (next <= p < tl) /\
  (forall v nv, In (v, nv) L -> p <> nv - 8).
Proof.
  intros I S. pose proof (next_bound _ _ _ _ I) as NB.
  destruct S as [[Ep ->]|(v & nv & i & Hin & Hs & Hi & -> & ->)].
  - destruct (HE p Ep) as [N1 N2]. repeat split; auto; try lia.
    intros v nv Hin. pose proof (copy_range _ _ _ _ _ _ I Hin). lia.
  - pose proof (copy_range _ _ _ _ _ _ I Hin) as R. repeat split; try (right; lia); try lia.
    intros v' nv' Hin'. pose proof (copy_range _ _ _ _ _ _ I Hin') as R'.
    destruct (placed_disjoint L tn next (i_good _ _ _ _ I) (i_place _ _ _ _ I) v nv v' nv' Hin Hin')
      as [[-> ->]|[Hd|Hd]]; lia.
Qed.

Lemma slot_G L D m next p w : Inv L D m next -> slot L p w -> fptr w -> G w.
Proof.
  intros I [[Ep ->]|(v & nv & i & Hin & Hs & Hi & -> & ->)] [P F].
  - apply HGE; assumption.
  - apply HGf; auto. eapply (i_good _ _ _ _ I). exact Hin.
Qed.

(** Marking a slot whose contents are already right. *)
Lemma Inv_mark L D m next p w : Inv L D m next -> slot L p w -> image L w (m p) ->
  Inv L (fun x => D x \/ x = p) m next.
Proof.
  intros I S Im. destruct I as [P N Gd F Fr H R Fl Ex Dn Fm] eqn:EI.
  assert (K : forall x w', slot L x w' -> slot_ok L D m x w' -> slot_ok L (fun x => D x \/ x = p) m x w').
  { intros x w' S' [A B]. split; [|exact B]. intros [Dx| ->]; [auto|].
    rewrite (slot_unique _ _ _ _ _ _ _ I S' S). exact Im. }
  constructor; auto.
  - intros v nv i Hin Hs Hi. apply K; [|auto]. right. exists v, nv, i. auto.
  - intros q Eq. apply K; [|auto]. left. auto.
  - intros x [Dx| ->]; [auto|]. apply (slot_place _ _ _ _ _ _ I S).
Qed.

(** Overwriting a slot with the address of an object already copied. *)
Lemma Inv_redirect L D m next p w w' : Inv L D m next -> slot L p w -> image L w w' ->
  Inv L (fun x => D x \/ x = p) (upd m p w') next.
Proof.
  intros I S Im. pose proof (slot_place _ _ _ _ _ _ I S) as (N1 & N2 & N3 & N4).
  assert (K : forall x x', slot L x x' -> slot_ok L D m x x' -> slot_ok L (fun x => D x \/ x = p) (upd m p w') x x').
  { intros x x' S' [A B]. destruct (Z.eq_dec x p) as [->|Hne].
    - rewrite (slot_unique _ _ _ _ _ _ _ I S' S). unfold slot_ok. rewrite upd_same. split; [auto|left; exact Im].
    - unfold slot_ok. rewrite upd_other by assumption. split; [|exact B]. intros [Dx|]; [auto|contradiction]. }
  destruct I as [P N Gd F Fr H R Fl Ex Dn Fm] eqn:EI. constructor; auto.
  - intros v nv Hin. destruct (objs_range v (HG v (Gd v nv Hin))) as (A & B & C & _).
    rewrite !upd_other by lia. apply F. exact Hin.
  - intros v Hv Hn i Hi. destruct (objs_range v Hv) as (A & B & C & _).
    rewrite upd_other by lia. apply Fr; assumption.
  - intros v nv Hin. rewrite upd_other; [apply H; exact Hin|]. intro. eapply N4; [exact Hin|lia].
  - intros v nv i Hin Hs Hi. rewrite upd_other; [apply R; assumption|]. intros Exp.
    destruct S as [[Ep _]|(v' & nv' & i' & Hin' & Hs' & Hi' & Ep & _)].
    + destruct (HE _ Ep) as [_ Q]. pose proof (copy_range _ _ _ _ _ _ I Hin). pose proof (next_bound _ _ _ _ I). lia.
    + destruct (placed_disjoint L tn next Gd P v nv v' nv' Hin Hin') as [[-> ->]|[Hd|Hd]]; [congruence|lia|lia].
  - intros v nv i Hin Hs Hi. apply K; [|auto]. right. exists v, nv, i. auto.
  - intros q Eq. apply K; [|auto]. left. auto.
  - intros x [Dx| ->]; [auto|]. exact N3.
  - intros a A1 A2 A3. rewrite upd_other; [apply Fm; assumption|]. intros ->.
    destruct N2 as [N2|N2]; [contradiction|]. pose proof (next_bound _ _ _ _ I). lia.
Qed.

Lemma forward_ok L D m next p w : Inv L D m next -> slot L p w ->
  exists L' m' next', forward fs fl (m, next) p = (m', next') /\
    Inv L' (fun x => D x \/ x = p) m' next' /\ (exists X, L' = L ++ X) /\ next <= next'.
Proof.
  intros I S. pose proof (next_bound _ _ _ _ I) as NB.
  pose proof (slot_place _ _ _ _ _ _ I S) as (N1 & N2 & N3 & N4).
  pose proof (slot_state _ _ _ _ _ _ I S) as [_ St].
  unfold forward.
  destruct St as [Im|Ep].
  - (* already right *)
    assert (NF : ~ fptr (m p)).
    { destruct Im as [[Fw Hin]|[Nw ->]]; [|assumption].
      intros [_ Q]. apply Is_from_iff in Q. pose proof (copy_range _ _ _ _ _ _ I Hin). lia. }
    exists L, m, next. split; [|split; [|split]].
    + destruct (is_ptr (m p)) eqn:P; [|reflexivity]. destruct (Is_from fs fl (m p)) eqn:Q; [|reflexivity].
      exfalso. apply NF. split; assumption.
    + eapply Inv_mark; eassumption.
    + exists []. rewrite app_nil_r. reflexivity.
    + lia.
  - rewrite Ep. destruct (fptr_dec w) as [Fw|Nw].
    2: { exists L, m, next. split; [|split; [|split]].
      + destruct (is_ptr w) eqn:P; [|reflexivity]. destruct (Is_from fs fl w) eqn:Q; [|reflexivity].
        exfalso. apply Nw. split; assumption.
      + eapply Inv_mark; [eassumption|eassumption|]. right. auto.
      + exists []. rewrite app_nil_r. reflexivity.
      + lia. }
    pose proof Fw as [Pw Qw]. rewrite Pw, Qw.
    assert (Gw : G w) by (eapply slot_G; eassumption).
    pose proof (HG w Gw) as Ow. destruct (objs_range w Ow) as (W1 & W2 & W3 & W4).
    destruct (Z.eqb_spec (m (w - 8)) 0) as [Ez|Enz].
    + (* forwarded before *)
      assert (Hin : In w (map fst L)).
      { destruct (in_dec Z.eq_dec w (map fst L)) as [h|h]; [exact h|exfalso].
        pose proof (i_from _ _ _ _ I w Ow h (-1) ltac:(lia)) as Q.
        replace (w + 8 * -1) with (w - 8) in Q by lia. apply (objs_hd_nonzero w Ow). congruence. }
      apply in_map_iff in Hin. destruct Hin as ([w1 nw] & Ew & Hin). cbn in Ew. subst w1.
      destruct (i_fwd _ _ _ _ I w nw Hin) as [_ ->].
      exists L, (upd m p nw), next. split; [reflexivity|]. split; [|split].
      * eapply Inv_redirect; [eassumption|eassumption|]. left. auto.
      * exists []. rewrite app_nil_r. reflexivity.
      * lia.
    + (* copy the object *)
      assert (Hnin : ~ In w (map fst L)).
      { intros h. apply in_map_iff in h. destruct h as ([w1 nw] & Ew & Hin). cbn in Ew. subst w1.
        destruct (i_fwd _ _ _ _ I w nw Hin) as [Q _]. contradiction. }
      assert (Ehd : m (w - 8) = m0 (w - 8)).
      { pose proof (i_from _ _ _ _ I w Ow Hnin (-1) ltac:(lia)) as Q.
        replace (w + 8 * -1) with (w - 8) in Q by lia. exact Q. }
      rewrite Ehd, Wosize_size.
      set (newv := next + 8). set (next' := newv + 8 * sz w).
      set (L' := L ++ [(w, newv)]).
      assert (GL' : good L').
      { intros v nv h. apply in_app_or in h. destruct h as [h|[h|[]]].
        - eapply (i_good _ _ _ _ I). exact h.
        - injection h as <- <-. exact Gw. }
      assert (NL' : NoDup (map fst L')).
      { unfold L'. rewrite map_app. cbn. apply NoDup_snoc; [apply (i_nodup _ _ _ _ I)|exact Hnin]. }
      assert (PL' : placed tn L' next').
      { unfold L'. apply placed_app. exists next. split; [apply (i_place _ _ _ _ I)|]. cbn. auto. }
      pose proof (placed_fits L' next' GL' NL' PL') as NB'.
      replace (newv - 8) with next by (unfold newv; lia).
      set (m1 := upd m next (m0 (w - 8))).
      set (m2 := copy_fields (Z.to_nat (sz w)) 0 newv w m1).
      set (m' := upd (upd (upd m2 (w - 8) 0) w newv) p newv).
      exists L', m', next'. split; [reflexivity|]. split; [|split; [exists [(w, newv)]; reflexivity|unfold next', newv; lia]].
      assert (F1 : m' p = newv) by apply upd_same.
      assert (F2 : m' w = newv) by (unfold m'; rewrite upd_other by lia; apply upd_same).
      assert (F3 : m' (w - 8) = 0).
      { unfold m'. rewrite upd_other by lia. rewrite upd_other by lia. apply upd_same. }
      assert (Fgen : forall a, a <> p -> a <> w -> a <> w - 8 -> m' a = m2 a).
      { intros a A1 A2 A3. unfold m'. rewrite !upd_other by assumption. reflexivity. }
      assert (F5 : forall j, 0 <= j < sz w -> m' (newv + 8 * j) = m0 (w + 8 * j)).
      { intros j Hj. rewrite Fgen by (unfold newv, next' in *; lia).
        unfold m2. rewrite copy_fields_in.
        - unfold m1. rewrite upd_other by (unfold newv, next' in *; lia).
          apply (i_from _ _ _ _ I); auto. lia.
        - intros j1 k1 Hj1 Hk1. rewrite Z2Nat.id in * by lia. unfold newv, next' in *; lia.
        - rewrite Z2Nat.id by lia. lia. }
      assert (F6 : forall a, a <> p -> a <> w -> a <> w - 8 -> ~ (next <= a < next') -> m' a = m a).
      { intros a A1 A2 A3 A4. rewrite Fgen by assumption. unfold m2. rewrite copy_fields_out.
        - unfold m1. apply upd_other. unfold next', newv in *; lia.
        - intros j Hj. rewrite Z2Nat.id in Hj by lia. unfold next', newv in *; lia. }
      assert (F4 : m' next = m0 (w - 8)).
      { rewrite Fgen by (unfold newv, next' in *; lia). unfold m2. rewrite copy_fields_out.
        - apply upd_same.
        - intros j Hj. unfold newv. lia. }
      clearbody m'. clear Fgen m1 m2.
      assert (Hnext' : next' = next + 8 + 8 * sz w) by (unfold next', newv; lia).
      assert (incL : incl L L') by (unfold L'; apply incl_appl; apply incl_refl).
      assert (Nd : next < next') by lia.
      (* the slots *)
      assert (K : forall x x', slot L x x' -> slot_ok L D m x x' -> slot_ok L' (fun x => D x \/ x = p) m' x x').
      { intros x x' S' [A B]. destruct (Z.eq_dec x p) as [->|Hne].
        - rewrite (slot_unique _ _ _ _ _ _ _ I S' S). unfold slot_ok. rewrite F1.
          assert (image L' w newv) by (left; split; [assumption|]; unfold L'; apply in_or_app; right; left; reflexivity).
          split; auto.
        - pose proof (slot_place _ _ _ _ _ _ I S') as (M1 & M2 & M3 & M4).
          assert (Ex : m' x = m x) by (apply F6; lia).
          unfold slot_ok. rewrite Ex. split.
          + intros [Dx|]; [eapply image_mono; [exact incL|auto]|contradiction].
          + destruct B as [B|B]; [left; eapply image_mono; [exact incL|exact B]|right; exact B]. }
      constructor; auto.
      * (* forwarded objects *)
        intros v nv Hin. unfold L' in Hin. apply in_app_or in Hin. destruct Hin as [Hin|[Hin|[]]].
        -- assert (v <> w) by (intros ->; apply Hnin; apply in_map_iff; exists (w, nv); auto).
           pose proof (HG v (i_good _ _ _ _ I v nv Hin)) as Ov. destruct (objs_range v Ov) as (V1 & V2 & V3 & V4).
           destruct (objects_in_disjoint _ _ _ _ Hobjs v w Ov Ow) as [|Hdj]; [contradiction|].
           rewrite !F6 by lia. apply (i_fwd _ _ _ _ I). exact Hin.
        -- injection Hin as <- <-. auto.
      * (* objects not forwarded *)
        intros v Ov Hn i Hi. destruct (objs_range v Ov) as (V1 & V2 & V3 & V4).
        assert (v <> w). { intros ->. apply Hn. unfold L'. rewrite map_app. apply in_or_app. right. left. reflexivity. }
        destruct (objects_in_disjoint _ _ _ _ Hobjs v w Ov Ow) as [|Hdj]; [contradiction|].
        rewrite F6 by lia. apply (i_from _ _ _ _ I); auto.
        intros h. apply Hn. unfold L'. rewrite map_app. apply in_or_app. left. exact h.
      * (* headers *)
        intros v nv Hin. unfold L' in Hin. apply in_app_or in Hin. destruct Hin as [Hin|[Hin|[]]].
        -- pose proof (copy_range _ _ _ _ _ _ I Hin). rewrite F6; [apply (i_hd _ _ _ _ I); exact Hin| | | |]; try lia.
           intro. eapply N4; [exact Hin|lia].
        -- injection Hin as <- <-. replace (newv - 8) with next by (unfold newv; lia). exact F4.
      * (* raw fields *)
        intros v nv i Hin Hs Hi. unfold L' in Hin. apply in_app_or in Hin. destruct Hin as [Hin|[Hin|[]]].
        -- pose proof (copy_range _ _ _ _ _ _ I Hin). rewrite F6; [apply (i_raw _ _ _ _ I); assumption| | | |]; try lia.
           intros <-. destruct S as [[Epp _]|(v' & nv' & i' & Hin' & Hs' & Hi' & Epp & _)].
           ++ destruct (HE _ Epp) as [_ Q]. lia.
           ++ destruct (placed_disjoint L tn next (i_good _ _ _ _ I) (i_place _ _ _ _ I) v nv v' nv' Hin Hin') as [[-> ->]|[Hd|Hd]]; [congruence|lia|lia].
        -- injection Hin as <- <-. apply F5. exact Hi.
      * (* scanned fields *)
        intros v nv i Hin Hs Hi. unfold L' in Hin. apply in_app_or in Hin. destruct Hin as [Hin|[Hin|[]]].
        -- apply K; [right; exists v, nv, i; auto|]. apply (i_fld _ _ _ _ I); assumption.
        -- injection Hin as <- <-. unfold slot_ok. split; [|right; apply F5; exact Hi].
           intros HD. exfalso. destruct HD as [HD|HD].
           ++ apply (i_done _ _ _ _ I) in HD. unfold newv in HD. lia.
           ++ lia.
      * intros q Eq. apply K; [left; auto|]. apply (i_ext _ _ _ _ I). exact Eq.
      * intros x [Dx| ->]; [apply (i_done _ _ _ _ I) in Dx; lia|lia].
      * intros a A1 A2 A3. rewrite F6; [apply (i_frame _ _ _ _ I); assumption| | | |]; try lia.
        intros ->. destruct N2 as [N2|N2]; [contradiction|]. lia.
Qed.

(** States reachable from one another: copies are only added, treated slots stay treated. *)
Definition later (L : list (Z * Z)) (D : Z -> Prop) (L' : list (Z * Z)) (D' : Z -> Prop) : Prop :=
  (exists X, L' = L ++ X) /\ (forall x, D x -> D' x).

Lemma later_refl L D : later L D L D.
Proof. split; [exists []; rewrite app_nil_r; reflexivity|auto]. Qed.

Lemma later_trans L D L1 D1 L2 D2 : later L D L1 D1 -> later L1 D1 L2 D2 -> later L D L2 D2.
Proof.
  intros [[X ->] A] [[Y ->] B]. split; [exists (X ++ Y); rewrite app_assoc; reflexivity|auto].
Qed.

Lemma later_incl L D L' D' : later L D L' D' -> incl L L'.
Proof. intros [[X ->] _]. apply incl_appl, incl_refl. Qed.

Lemma slot_later L D L' D' p w : later L D L' D' -> slot L p w -> slot L' p w.
Proof.
  intros Hl [[Ep ->]|(v & nv & i & Hin & Hs & Hi & Ep & Ew)]; [left; auto|].
  right. exists v, nv, i. split; [eapply later_incl; eassumption|auto].
Qed.

Lemma forward_later L D m next p w : Inv L D m next -> slot L p w ->
  exists L' D' m' next', forward fs fl (m, next) p = (m', next') /\ Inv L' D' m' next' /\
    later L D L' D' /\ D' p.
Proof.
  intros I S. destruct (forward_ok L D m next p w I S) as (L' & m' & next' & Eq & I' & HX & _).
  exists L', (fun x => D x \/ x = p), m', next'. split; [exact Eq|]. split; [exact I'|].
  split; [split; [exact HX|auto]|right; reflexivity].
Qed.

(** Recording a remembered cell at the top of the to-space. *)
Lemma Inv_push L D m next a v : Inv L D m next -> tlim <= a < tl -> Inv L D (upd m a v) next.
Proof.
  intros I Ha. pose proof (next_bound _ _ _ _ I) as NB.
  assert (K : forall x w, slot L x w -> slot_ok L D m x w -> slot_ok L D (upd m a v) x w).
  { intros x w S' Q. pose proof (slot_place _ _ _ _ _ _ I S') as (M1 & M2 & M3 & M4).
    unfold slot_ok. rewrite upd_other by lia. exact Q. }
  constructor; try apply I.
  - intros x nx Hin. destruct (objs_range x (HG x (i_good _ _ _ _ I x nx Hin))) as (A & B & C & _).
    rewrite !upd_other by lia. apply (i_fwd _ _ _ _ I). exact Hin.
  - intros x Ox Hn i Hi. destruct (objs_range x Ox) as (A & B & C & _). rewrite upd_other by lia.
    apply (i_from _ _ _ _ I); assumption.
  - intros x nx Hin. pose proof (copy_range _ _ _ _ _ _ I Hin). rewrite upd_other by lia. apply (i_hd _ _ _ _ I). exact Hin.
  - intros x nx i Hin Hs Hi. pose proof (copy_range _ _ _ _ _ _ I Hin). rewrite upd_other by lia.
    apply (i_raw _ _ _ _ I); assumption.
  - intros x nx i Hin Hs Hi. apply K; [right; exists x, nx, i; auto|]. apply (i_fld _ _ _ _ I); assumption.
  - intros p Ep. apply K; [left; auto|]. apply (i_ext _ _ _ _ I). exact Ep.
  - intros b B1 B2 B3. rewrite upd_other by lia. apply (i_frame _ _ _ _ I); assumption.
Qed.

(** ** Remembered set *)

Lemma forward_remset_loop_ok n : forall q L D m next tolim,
  Inv L D m next ->
  fl <= q ->
  (forall k, 0 <= k < Z.of_nat n -> ~ (tn <= q + 8 * k < tl) /\ ~ E (q + 8 * k)) ->
  (forall k, 0 <= k < Z.of_nat n -> ~ (fs <= m0 (q + 8 * k) < fl) -> E (m0 (q + 8 * k))) ->
  tlim + 8 * Z.of_nat n <= tolim <= tl ->
  exists L' D' m' next' tolim', forward_remset_loop n fs fl q (m, next, tolim) = (m', next', tolim') /\
    Inv L' D' m' next' /\ later L D L' D' /\
    tlim <= tolim' <= tolim /\
    (forall k, 0 <= k < Z.of_nat n -> ~ (fs <= m0 (q + 8 * k) < fl) -> D' (m0 (q + 8 * k))).
Proof.
  induction n as [|n IH]; intros q L D m next tolim I Hq Hs Hc Hlim.
  - exists L, D, m, next, tolim. cbn [forward_remset_loop]. split; [reflexivity|].
    split; [exact I|]. split; [apply later_refl|]. split; [lia|]. intros; lia.
  - cbn [forward_remset_loop].
    destruct (Hs 0 ltac:(lia)) as [S1 S2]. replace (q + 8 * 0) with q in * by lia.
    assert (Eq : m q = m0 q) by (apply (i_frame _ _ _ _ I); [pose proof Hfn; lia|exact S1|exact S2]).
    rewrite Eq. set (p := m0 q) in *.
    assert (Step : exists L1 D1 m1 next1 tolim1,
      (if negb ((fs <=? p) && (p <? fl))
       then let '(m2, next2) := forward fs fl (m, next) p in
            if negb (m p =? m2 p) then (upd m2 (tolim - 8) p, next2, tolim - 8) else (m2, next2, tolim)
       else (m, next, tolim)) = (m1, next1, tolim1) /\
      Inv L1 D1 m1 next1 /\ later L D L1 D1 /\ tolim - 8 <= tolim1 <= tolim /\
      (~ (fs <= p < fl) -> D1 p)).
    { destruct ((fs <=? p) && (p <? fl)) eqn:Ein; cbn [negb].
      - exists L, D, m, next, tolim. split; [reflexivity|]. split; [exact I|]. split; [apply later_refl|].
        split; [lia|]. intros N. exfalso. apply N. apply andb_true_iff in Ein. rewrite Z.leb_le, Z.ltb_lt in Ein. exact Ein.
      - assert (Np : ~ (fs <= p < fl)).
        { intros N. rewrite <- Is_from_iff in N. unfold Is_from in N. congruence. }
        assert (Ep : E p). { specialize (Hc 0 ltac:(lia)). replace (q + 8 * 0) with q in Hc by lia. apply Hc. exact Np. }
        destruct (forward_later L D m next p (m0 p) I) as (L1 & D1 & m1 & next1 & -> & I1 & HL & HD).
        { left. auto. }
        destruct (negb (m p =? m1 p)).
        + exists L1, D1, (upd m1 (tolim - 8) p), next1, (tolim - 8). split; [reflexivity|].
          split; [apply Inv_push; [exact I1|lia]|]. split; [exact HL|]. split; [lia|]. auto.
        + exists L1, D1, m1, next1, tolim. split; [reflexivity|]. split; [exact I1|]. split; [exact HL|].
          split; [lia|]. auto. }
    destruct Step as (L1 & D1 & m1 & next1 & tolim1 & -> & I1 & HL1 & Hl1 & HD1).
    destruct (IH (q + 8) L1 D1 m1 next1 tolim1 I1) as (L2 & D2 & m2 & next2 & tolim2 & -> & I2 & HL2 & Hl2 & HD2).
    + lia.
    + intros k Hk. specialize (Hs (k + 1) ltac:(lia)). replace (q + 8 + 8 * k) with (q + 8 * (k + 1)) by lia. exact Hs.
    + intros k Hk. specialize (Hc (k + 1) ltac:(lia)). replace (q + 8 + 8 * k) with (q + 8 * (k + 1)) by lia. exact Hc.
    + lia.
    + exists L2, D2, m2, next2, tolim2. split; [reflexivity|]. split; [exact I2|].
      split; [eapply later_trans; eassumption|]. split; [lia|].
      intros k Hk N. destruct (Z.eq_dec k 0) as [->|Hk0].
      * replace (q + 8 * 0) with q in * by lia. apply (proj2 HL2). apply HD1. exact N.
      * specialize (HD2 (k - 1) ltac:(lia)). replace (q + 8 + 8 * (k - 1)) with (q + 8 * k) in HD2 by lia. apply HD2. exact N.
Qed.

(** ** Roots *)

Lemma forward_frame_ok n : forall start L D m next, Inv L D m next ->
  (forall k, 0 <= k < Z.of_nat n -> E (start + 8 * k)) ->
  exists L' D' m' next', forward_frame n fs fl start (m, next) = (m', next') /\
    Inv L' D' m' next' /\ later L D L' D' /\
    (forall k, 0 <= k < Z.of_nat n -> D' (start + 8 * k)).
Proof.
  induction n as [|n IH]; intros start L D m next I HS.
  - exists L, D, m, next. split; [reflexivity|]. split; [exact I|]. split; [apply later_refl|]. intros; lia.
  - cbn [forward_frame].
    assert (Es : E start) by (specialize (HS 0 ltac:(lia)); replace (start + 8 * 0) with start in HS by lia; exact HS).
    destruct (forward_later L D m next start (m0 start) I) as (L1 & D1 & m1 & next1 & -> & I1 & HL1 & HD1); [left; auto|].
    destruct (IH (start + 8) L1 D1 m1 next1 I1) as (L2 & D2 & m2 & next2 & -> & I2 & HL2 & HD2).
    { intros k Hk. replace (start + 8 + 8 * k) with (start + 8 * (k + 1)) by lia. apply HS. lia. }
    exists L2, D2, m2, next2. split; [reflexivity|]. split; [exact I2|]. split; [eapply later_trans; eassumption|].
    intros k Hk. destruct (Z.eq_dec k 0) as [->|Hk0].
    + replace (start + 8 * 0) with start by lia. apply (proj2 HL2). exact HD1.
    + replace (start + 8 * k) with (start + 8 + 8 * (k - 1)) by lia. apply HD2. lia.
Qed.

(** The addresses of the root slots of the frames. *)
Definition root_slot (fr : frames) (p : Z) : Prop :=
  exists start n k, In (start, n) fr /\ 0 <= k < Z.of_nat n /\ p = start + 8 * k.

Lemma forward_roots_ok fr : forall L D m next, Inv L D m next ->
  (forall p, root_slot fr p -> E p) ->
  exists L' D' m' next', forward_roots fs fl fr (m, next) = (m', next') /\
    Inv L' D' m' next' /\ later L D L' D' /\
    (forall p, root_slot fr p -> D' p).
Proof.
  induction fr as [|[start n] fr IH]; intros L D m next I HS.
  - exists L, D, m, next. split; [reflexivity|]. split; [exact I|]. split; [apply later_refl|].
    intros p (? & ? & ? & [] & _).
  - cbn [forward_roots].
    destruct (forward_frame_ok n start L D m next I) as (L1 & D1 & m1 & next1 & -> & I1 & HL1 & HD1).
    { intros k Hk. apply HS. exists start, n, k. split; [left; reflexivity|auto]. }
    destruct (IH L1 D1 m1 next1 I1) as (L2 & D2 & m2 & next2 & -> & I2 & HL2 & HD2).
    { intros p (s & c & k & Hin & Hk & ->). apply HS. exists s, c, k. split; [right; exact Hin|auto]. }
    exists L2, D2, m2, next2. split; [reflexivity|]. split; [exact I2|]. split; [eapply later_trans; eassumption|].
    intros p (s & c & k & [Hin|Hin] & Hk & ->).
    + injection Hin as <- <-. apply (proj2 HL2). apply HD1. exact Hk.
    + apply HD2. exists s, c, k. auto.
Qed.

(** ** Scanning the copies *)

Lemma scan_fields_ok n : forall j s v L D m next, Inv L D m next ->
  In (v, s + 8) L -> scanned v -> 1 <= j -> j + Z.of_nat n - 1 <= sz v ->
  exists L' D' m' next', scan_fields n j fs fl s (m, next) = (m', next') /\
    Inv L' D' m' next' /\ later L D L' D' /\
    (forall k, j <= k < j + Z.of_nat n -> D' (s + 8 * k)).
Proof.
  induction n as [|n IH]; intros j s v L D m next I Hin Hs Hj Hn.
  - exists L, D, m, next. split; [reflexivity|]. split; [exact I|]. split; [apply later_refl|]. intros; lia.
  - cbn [scan_fields].
    destruct (forward_later L D m next (s + 8 * j) (m0 (v + 8 * (j - 1))) I) as (L1 & D1 & m1 & next1 & -> & I1 & HL1 & HD1).
    { right. exists v, (s + 8), (j - 1). repeat split; auto; lia. }
    destruct (IH (j + 1) s v L1 D1 m1 next1 I1) as (L2 & D2 & m2 & next2 & -> & I2 & HL2 & HD2); try assumption; try lia.
    { eapply later_incl; eassumption. }
    exists L2, D2, m2, next2. split; [reflexivity|]. split; [exact I2|]. split; [eapply later_trans; eassumption|].
    intros k Hk. destruct (Z.eq_dec k j) as [->|Hk0].
    + apply (proj2 HL2). exact HD1.
    + apply HD2. lia.
Qed.

(** All fields of the copies [L1] have been treated. *)
Definition fields_done (L1 : list (Z * Z)) (D : Z -> Prop) : Prop :=
  forall v nv i, In (v, nv) L1 -> scanned v -> 0 <= i < sz v -> D (nv + 8 * i).

Lemma do_scan_ok fuel : forall s L1 L2 D m next,
  Inv (L1 ++ L2) D m next -> placed tn L1 s -> placed s L2 next -> fields_done L1 D ->
  tlim - s < 8 * Z.of_nat fuel ->
  exists L' D' m' next', do_scan fuel fs fl s (m, next) = Ok (m', next') /\
    Inv L' D' m' next' /\ later (L1 ++ L2) D L' D' /\ fields_done L' D'.
Proof.
  induction fuel as [|fuel IH]; intros s L1 L2 D m next I P1 P2 FD Hf.
  - exfalso. pose proof (next_bound _ _ _ _ I) as NB.
    assert (good L2) by (intros v nv h; eapply (i_good _ _ _ _ I); apply in_or_app; right; exact h).
    pose proof (placed_range _ _ _ H P2). lia.
  - cbn [do_scan].
    assert (G2 : good L2) by (intros v nv h; eapply (i_good _ _ _ _ I); apply in_or_app; right; exact h).
    pose proof (next_bound _ _ _ _ I) as NB.
    destruct L2 as [|[v nv] L2].
    + cbn in P2. subst next. rewrite Z.ltb_irrefl.
      exists (L1 ++ []), D, m, s. split; [reflexivity|]. split; [exact I|]. split; [apply later_refl|].
      rewrite app_nil_r. exact FD.
    + pose proof (good_sz _ v nv G2 (or_introl eq_refl)) as S1.
      pose proof (placed_range _ _ _ G2 P2) as [_ R]. specialize (R v nv (or_introl eq_refl)).
      cbn [placed] in P2. destruct P2 as [-> P2].
      replace (s <? next) with true by (symmetry; apply Z.ltb_lt; lia).
      assert (Hin : In (v, s + 8) (L1 ++ (v, s + 8) :: L2)) by (apply in_or_app; right; left; reflexivity).
      assert (Ehd : m s = m0 (v - 8)).
      { pose proof (i_hd _ _ _ _ I v (s + 8) Hin) as Q. replace (s + 8 - 8) with s in Q by lia. exact Q. }
      rewrite Ehd, Wosize_size.
      assert (Step : exists L' D' m' next',
        (if No_scan (Tag_hd (m0 (v - 8))) then (m, next)
         else scan_fields (Z.to_nat (sz v)) 1 fs fl s (m, next)) = (m', next') /\
        Inv L' D' m' next' /\ later (L1 ++ (v, s + 8) :: L2) D L' D' /\
        fields_done (L1 ++ [(v, s + 8)]) D').
      { destruct (No_scan (Tag_hd (m0 (v - 8)))) eqn:Es.
        - exists (L1 ++ (v, s + 8) :: L2), D, m, next. split; [reflexivity|]. split; [exact I|].
          split; [apply later_refl|]. intros x nx i h Hs Hi. apply in_app_or in h. destruct h as [h|[h|[]]].
          + eapply FD; eassumption.
          + injection h as <- <-. congruence.
        - destruct (scan_fields_ok (Z.to_nat (sz v)) 1 s v (L1 ++ (v, s + 8) :: L2) D m next I Hin Es) as
            (L' & D' & m' & next' & -> & I' & HL & HD); try lia.
          exists L', D', m', next'. split; [reflexivity|]. split; [exact I'|]. split; [exact HL|].
          intros x nx i h Hs Hi. apply in_app_or in h. destruct h as [h|[h|[]]].
          + apply (proj2 HL). eapply FD; eassumption.
          + injection h as <- <-. replace (s + 8 + 8 * i) with (s + 8 * (i + 1)) by lia. apply HD. lia. }
      destruct Step as (L' & D' & m' & next' & -> & I' & HL & FD').
      destruct HL as [[X ->] HD].
      rewrite <- app_assoc in I'. cbn [app] in I'.
      pose proof (i_place _ _ _ _ I') as PP.
      assert (EqL : L1 ++ (v, s + 8) :: L2 ++ X = (L1 ++ [(v, s + 8)]) ++ (L2 ++ X)) by (rewrite <- app_assoc; reflexivity).
      rewrite EqL in I', PP.
      apply placed_app in PP. destruct PP as (c & PA & PB).
      assert (c = s + 8 * (1 + sz v)).
      { apply placed_app in PA. destruct PA as (c' & PA1 & PA2). cbn [placed] in PA2. destruct PA2 as [E1 E2]. lia. }
      subst c.
      destruct (IH (s + 8 * (1 + sz v)) _ _ _ _ _ I' PA PB FD') as (L3 & D3 & m3 & next3 & -> & I3 & HL3 & FD3); [lia|].
      exists L3, D3, m3, next3. split; [reflexivity|]. split; [exact I3|]. split; [|exact FD3].
      eapply later_trans; [|exact HL3]. split; [|exact HD]. exists X. rewrite <- !app_assoc. reflexivity.
Qed.

(** ** The initial state *)

Lemma Inv_init : Inv [] (fun _ => False) m0 tn.
Proof.
  constructor; cbn; auto; try (intros; contradiction); try (intros ? ? []); try (intros ? ? ? []).
  - constructor.
  - intros p Ep. split; [intros []|right; reflexivity].
Qed.

End Step.
