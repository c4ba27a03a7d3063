(** One collection step: the theorem about [do_generation]. *)
From Coq Require Import ZArith Bool List Lia.
From Verif Require Import RT_Word RT_Values GC_Model GC_Spec GC_Proofs.
Import ListNotations.
Open Scope Z_scope.
Ltac Zify.zify_post_hook ::= idtac.

Lemma reachable_mono H m (S1 S2 : Z -> Prop) : (forall p, S1 p -> S2 p) ->
  forall a, reachable H m S1 a -> reachable H m S2 a.
Proof.
  intros Hs a R. induction R; [apply reach_slot; auto|apply reach_field; auto].
Qed.

(** What a step leaves behind. *)
Record step_result (H R : Z -> Prop) (m m' : mem) (objs : list Z) (from to from' to' : space)
  (phi : Z -> Z) (news : list Z) : Prop := {
  sr_graph : same_graph H R m m' phi;
  sr_from : from' = {| sp_start := sp_start from; sp_next := sp_start from; sp_limit := sp_rem from; sp_rem := sp_rem from |};
  sr_to : sp_start to' = sp_start to /\ sp_rem to' = sp_rem to /\
          sp_next to <= sp_next to' <= sp_limit to' /\ sp_limit to' <= sp_limit to /\
          sp_limit to - (sp_rem from - sp_limit from) <= sp_limit to' /\
          sp_next to' <= sp_next to + (sp_next from - sp_start from) /\
          sp_next to' mod 8 = 0;
  (* the copies *)
  sr_news : objects_in m' (sp_next to) news (sp_next to');
  sr_copy : forall b, In b news -> exists a, In a objs /\ phi a = b /\
     reachable H m (fun p => R p \/ remembered m (sp_start from) (sp_limit from) (sp_rem from) p) a /\
     m' (b - 8) = m (a - 8) /\
     forall i, 0 <= i < size m a -> m' (b + 8 * i) = (if No_scan (Tag_hd (m (a - 8))) then m (a + 8 * i) else phi (m (a + 8 * i))) /\
       (No_scan (Tag_hd (m (a - 8))) = false -> pointer (m (a + 8 * i)) -> sp_start from <= m (a + 8 * i) < sp_limit from -> In (phi (m (a + 8 * i))) news);
  (* pointers into the collected generation lead to copies *)
  sr_moved : forall a, reachable H m R a ->
     sp_start from <= a < sp_limit from -> In (phi a) news;
  sr_fixed : forall w, ~ (pointer w /\ sp_start from <= w < sp_limit from) -> phi w = w;
  sr_cells : forall c, remembered m (sp_start from) (sp_limit from) (sp_rem from) c -> m' c = phi (m c) /\
     (pointer (m c) -> sp_start from <= m c < sp_limit from -> In (phi (m c)) news);
  (* nothing else is written *)
  sr_frame : forall a, ~ (sp_start from <= a < sp_next from) -> ~ (sp_next to <= a < sp_limit to) ->
     ~ R a -> ~ remembered m (sp_start from) (sp_limit from) (sp_rem from) a -> m' a = m a }.

Section Gen.
Variables (H : Z -> Prop) (m : mem) (objs : list Z) (from to : space) (frs : frames).
Notation fs := (sp_start from). Notation fn := (sp_next from). Notation fl := (sp_limit from). Notation fr := (sp_rem from).
Notation ts := (sp_start to). Notation tn := (sp_next to). Notation tl := (sp_limit to).
Notation R := (slot_of frs).
Hypothesis C : collectable H R m objs fs fn fl fr ts tn tl.

Notation cell := (remembered m fs fl fr).
Notation E := (fun p => R p \/ cell p).

Definition tlim := tl - (fr - fl).
(** Objects that may be copied. *)
Definition G (a : Z) : Prop := In a objs /\ reachable H m E a.

Lemma rem8 : (fr - fl) = 8 * ((fr - fl) / 8).
Proof.
  destruct (co_from _ _ _ _ _ _ _ _ _ _ _ C) as (_ & _ & _ & A & B).
  assert ((fr - fl) mod 8 = 0) by (rewrite Zminus_mod, A, B; reflexivity).
  pose proof (Z.div_mod (fr - fl) 8). lia.
Qed.

Lemma p_al_f : fs mod 8 = 0. Proof. apply C. Qed.
Lemma p_al_t : tn mod 8 = 0. Proof. apply C. Qed.
Lemma p_fn : fn <= fl. Proof. apply C. Qed.
Lemma p_room : tn + (fn - fs) <= tlim. Proof. pose proof (co_room _ _ _ _ _ _ _ _ _ _ _ C). unfold tlim. lia. Qed.
Lemma p_tl : tlim <= tl. Proof. unfold tlim. destruct (co_from _ _ _ _ _ _ _ _ _ _ _ C). lia. Qed.
Lemma p_disj : fl <= tn \/ tl <= fs.
Proof. destruct (co_apart _ _ _ _ _ _ _ _ _ _ _ C); [left|right]; destruct C; lia. Qed.
Lemma p_E : forall p, E p -> ~ (fs <= p < fl) /\ ~ (tn <= p < tl).
Proof.
  destruct (co_from _ _ _ _ _ _ _ _ _ _ _ C). intros p [Hp|Hp].
  - apply (co_roots _ _ _ _ _ _ _ _ _ _ _ C) in Hp. lia.
  - apply (co_cells _ _ _ _ _ _ _ _ _ _ _ C) in Hp. lia.
Qed.
Lemma p_G : forall v, G v -> In v objs. Proof. intros v [? _]. assumption. Qed.
Lemma p_GE : forall p, E p -> is_ptr (m p) = true -> Is_from fs fl (m p) = true -> G (m p).
Proof.
  intros p Ep P Q. apply is_ptr_pointer in P. rewrite Is_from_iff in Q.
  assert (Rm : reachable H m E (m p)).
  { apply reach_slot; auto. apply (co_heap _ _ _ _ _ _ _ _ _ _ _ C). left. exact Q. }
  split; [|exact Rm]. apply (co_reach _ _ _ _ _ _ _ _ _ _ _ C); assumption.
Qed.
Lemma p_Gf : forall v i, G v -> No_scan (Tag_hd (m (v - 8))) = false -> 0 <= i < size m v ->
  is_ptr (m (v + 8 * i)) = true -> Is_from fs fl (m (v + 8 * i)) = true -> G (m (v + 8 * i)).
Proof.
  intros v i [_ Rv] Ns Hi P Q. apply is_ptr_pointer in P. rewrite Is_from_iff in Q.
  assert (Rm : reachable H m E (m (v + 8 * i))).
  { apply reach_field; auto.
    - rewrite <- No_scan_raw. congruence.
    - apply (co_heap _ _ _ _ _ _ _ _ _ _ _ C). left. exact Q. }
  split; [|exact Rm]. apply (co_reach _ _ _ _ _ _ _ _ _ _ _ C); assumption.
Qed.

Notation INV := (Inv m fs fn fl objs tn tl E G).

Lemma run : exists L D m' next' tolim',
  do_generation from to frs m = Ok
    ({| sp_start := fs; sp_next := fs; sp_limit := fr; sp_rem := fr |},
     {| sp_start := ts; sp_next := next'; sp_limit := tolim'; sp_rem := sp_rem to |}, m') /\
  INV L D m' next' /\ tlim <= tolim' <= tl /\ next' <= tlim /\
  (forall p, R p -> D p) /\ (forall c, cell c -> D c) /\ fields_done m L D.
Proof.
  pose proof (co_objs _ _ _ _ _ _ _ _ _ _ _ C) as Ho.
  pose proof rem8 as R8.
  destruct (co_from _ _ _ _ _ _ _ _ _ _ _ C) as (F1 & F2 & F3 & F4 & F5).
  destruct (co_to _ _ _ _ _ _ _ _ _ _ _ C) as (T1 & T2 & T3 & T4).
  pose proof (co_room _ _ _ _ _ _ _ _ _ _ _ C) as Rm. pose proof (co_apart _ _ _ _ _ _ _ _ _ _ _ C) as Ap.
  unfold do_generation, forward_remset.
  replace ((fr - fl) / 8 <=? (tl - ts) / 8) with true.
  2: { symmetry. apply Z.leb_le. apply Z.div_le_mono; lia. }
  cbn [cbind].
  set (n := Z.to_nat ((fr - fl) / 8)).
  assert (Hn : Z.of_nat n = (fr - fl) / 8) by (unfold n; apply Z2Nat.id; apply Z.div_pos; lia).
  destruct (forward_remset_loop_ok m fs fn fl objs tn tlim tl E G Ho p_fn p_al_f p_al_t p_room p_tl p_disj p_E p_G p_GE p_Gf
             n fl [] (fun _ => False) m tn tl) as (L1 & D1 & m1 & next1 & tolim' & -> & I1 & HL1 & Hl1 & HD1).
  - apply Inv_init.
  - lia.
  - intros k Hk. split; [lia|]. intros [Hr|Hc].
    + apply (co_roots _ _ _ _ _ _ _ _ _ _ _ C) in Hr. lia.
    + apply (co_cells _ _ _ _ _ _ _ _ _ _ _ C) in Hc. lia.
  - intros k Hk N. right. split; [exact N|]. exists k. split; [lia|reflexivity].
  - unfold tlim. lia.
  - cbn [cbind].
    destruct (forward_roots_ok m fs fn fl objs tn tlim tl E G Ho p_fn p_al_f p_al_t p_room p_tl p_disj p_E p_G p_GE p_Gf
               frs L1 D1 m1 next1 I1) as (L2 & D2 & m2 & next2 & -> & I2 & HL2 & HD2).
    { intros p Hp. left. exact Hp. }
    destruct (do_scan_ok m fs fn fl objs tn tlim tl E G Ho p_fn p_al_f p_al_t p_room p_tl p_disj p_E p_G p_GE p_Gf
               (S (Z.to_nat ((tl - ts) / 8))) tn [] L2 D2 m2 next2) as (L3 & D3 & m3 & next3 & -> & I3 & HL3 & FD3).
    + exact I2.
    + reflexivity.
    + apply (i_place _ _ _ _ _ _ _ _ _ _ _ _ _ I2).
    + intros v nv i [].
    + rewrite Nat2Z.inj_succ, Z2Nat.id by (apply Z.div_pos; lia).
      pose proof (Z.mul_succ_div_gt (tl - ts) 8 ltac:(lia)). unfold tlim. lia.
    + exists L3, D3, m3, next3, tolim'. cbn [cbind app] in *. split; [reflexivity|]. split; [exact I3|].
      split; [lia|].
      split; [apply (next_bound m fs fn fl objs tn tlim tl E G Ho p_al_f p_room p_G _ _ _ _ I3)|].
      split; [intros p Hp; apply (proj2 HL3); apply HD2; exact Hp|].
      split; [|exact FD3].
      intros c Hc. apply (proj2 HL3). apply (proj2 HL2).
      destruct Hc as [N (k & Hk & ->)]. apply HD1; [lia|exact N].
Qed.

Fixpoint lookup (w : Z) (L : list (Z * Z)) : Z :=
  match L with
  | [] => w
  | (v, nv) :: L => if v =? w then nv else lookup w L
  end.

Lemma lookup_in L : NoDup (map fst L) -> forall v nv, In (v, nv) L -> lookup v L = nv.
Proof.
  induction L as [|[x nx] L IH]; cbn; [intros _ ? ? []|]. intros N v nv [Eq|Hin].
  - injection Eq as -> ->. rewrite Z.eqb_refl. reflexivity.
  - inversion N as [|? ? N1 N2]; subst. destruct (Z.eqb_spec x v) as [->|_]; [|auto].
    destruct N1. apply in_map_iff. exists (v, nv). auto.
Qed.

Lemma placed_mod L : forall a b, placed m a L b -> b mod 8 = a mod 8.
Proof.
  induction L as [|[v nv] L IH]; cbn [placed]; intros a b.
  - intros ->. reflexivity.
  - intros [_ P]. rewrite (IH _ _ P). replace (a + 8 + 8 * size m v) with (a + (1 + size m v) * 8) by lia.
    apply Z.mod_add. lia.
Qed.

Definition moved (L : list (Z * Z)) (w : Z) : Z :=
  if is_ptr w && Is_from fs fl w then lookup w L else w.

Lemma moved_image L w w' : NoDup (map fst L) -> image fs fl L w w' -> w' = moved L w.
Proof.
  intros N [[[F1 F2] Hin]|[F ->]]; unfold moved.
  - rewrite F1, F2. cbn. symmetry. apply lookup_in; assumption.
  - unfold fptr in F. destruct (is_ptr w), (Is_from fs fl w); cbn; try reflexivity. exfalso. auto.
Qed.

Lemma moved_id L w : ~ (pointer w /\ fs <= w < fl) -> moved L w = w.
Proof.
  intros N. unfold moved. destruct (is_ptr w) eqn:P; [|reflexivity].
  destruct (Is_from fs fl w) eqn:Q; [|reflexivity]. exfalso. apply N.
  split; [apply is_ptr_pointer; exact P|]. apply Is_from_iff. exact Q.
Qed.

Lemma placed_objects m' next L : (forall v nv, In (v, nv) L -> 1 <= size m v) ->
  (forall v nv, In (v, nv) L -> m' (nv - 8) = m (v - 8)) ->
  forall a, placed m a L next -> objects_in m' a (map snd L) next.
Proof.
  induction L as [|[v nv] L IH]; intros S1 Hh a; cbn [placed map snd].
  - intros ->. constructor.
  - intros [-> P]. assert (Es : size m' (a + 8) = size m v).
    { unfold size. rewrite (Hh v (a + 8)) by (left; reflexivity). reflexivity. }
    constructor; rewrite Es.
    + apply (S1 v (a + 8)). left. reflexivity.
    + apply IH; [intros; eapply S1; right; eassumption|intros; apply Hh; right; assumption|exact P].
Qed.

Lemma finish L D m' next' tolim' : INV L D m' next' -> tlim <= tolim' <= tl -> next' <= tlim ->
  (forall p, R p -> D p) -> (forall c, cell c -> D c) -> fields_done m L D ->
  step_result H R m m' objs from to {| sp_start := fs; sp_next := fs; sp_limit := fr; sp_rem := fr |}
    {| sp_start := ts; sp_next := next'; sp_limit := tolim'; sp_rem := sp_rem to |} (moved L) (map snd L) /\
  forall v nv, In (v, nv) L -> moved L v = nv.
Proof.
  intros I Hl Hn HR HC FD.
  pose proof (co_objs _ _ _ _ _ _ _ _ _ _ _ C) as Ho.
  pose proof rem8 as R8.
  destruct (co_from _ _ _ _ _ _ _ _ _ _ _ C) as (F1 & F2 & F3 & F4 & F5).
  destruct (co_to _ _ _ _ _ _ _ _ _ _ _ C) as (T1 & T2 & T3 & T4).
  pose proof (co_room _ _ _ _ _ _ _ _ _ _ _ C) as Rm. pose proof (co_apart _ _ _ _ _ _ _ _ _ _ _ C) as Ap.
  pose proof (i_nodup _ _ _ _ _ _ _ _ _ _ _ _ _ I) as ND.
  pose proof (i_place _ _ _ _ _ _ _ _ _ _ _ _ _ I) as PL.
  pose proof (i_good _ _ _ _ _ _ _ _ _ _ _ _ _ I) as GD.
  pose proof (i_hd _ _ _ _ _ _ _ _ _ _ _ _ _ I) as HD.
  pose proof (i_raw _ _ _ _ _ _ _ _ _ _ _ _ _ I) as RW.
  pose proof (i_frame _ _ _ _ _ _ _ _ _ _ _ _ _ I) as FR.
  assert (CR : forall v nv, In (v, nv) L -> tn + 8 <= nv /\ nv + 8 * size m v <= next' /\ nv mod 8 = 0 /\ 1 <= size m v).
  { intros v nv Hin. eapply (copy_range m fs fn fl objs tn tl E G Ho p_al_f p_al_t p_G); eassumption. }
  assert (NB : tn <= next').
  { apply (next_bound m fs fn fl objs tn tlim tl E G Ho p_al_f p_room p_G _ _ _ _ I). }
  assert (LK : forall v nv, In (v, nv) L -> pointer v -> fs <= v < fl -> moved L v = nv).
  { intros v nv Hin Pv Fv. unfold moved. apply is_ptr_pointer in Pv. apply Is_from_iff in Fv.
    rewrite Pv, Fv. cbn. apply lookup_in; assumption. }
  assert (OP : forall v, In v objs -> pointer v /\ fs <= v < fl).
  { intros v Hv. destruct (objs_range m fs fn objs Ho p_al_f v Hv) as (A1 & A2 & A3 & A4).
    split; [|lia]. apply is_ptr_pointer. unfold is_ptr. change 1 with (Z.ones 1). rewrite Z.land_ones by lia.
    apply Z.eqb_eq. change (2 ^ 1) with 2. pose proof (Z.div_mod v 8). rewrite (Z.div_mod v 8), A4 by lia.
    replace (8 * (v / 8) + 0) with (0 + (4 * (v / 8)) * 2) by lia. rewrite Z.mod_add by lia. reflexivity. }
  assert (LO : forall v nv, In (v, nv) L -> moved L v = nv).
  { intros v nv Hin. destruct (OP v) as [P1 P2]; [apply (GD v nv Hin)|]. apply LK; assumption. }
  (* treated slots hold the image *)
  assert (TE : forall p, E p -> m' p = moved L (m p)).
  { intros p Ep. apply moved_image; [exact ND|].
    destruct (i_ext _ _ _ _ _ _ _ _ _ _ _ _ _ I p Ep) as [Q _]. apply Q. destruct Ep; auto. }
  assert (TEin : forall p, E p -> pointer (m p) -> fs <= m p < fl -> exists nv, In (m p, nv) L).
  { intros p Ep P Q. destruct (i_ext _ _ _ _ _ _ _ _ _ _ _ _ _ I p Ep) as [X _].
    destruct X as [[_ X]|[X _]]; [destruct Ep; auto|eauto|].
    exfalso. apply X. split; [apply is_ptr_pointer; exact P|apply Is_from_iff; exact Q]. }
  assert (TF : forall v nv i, In (v, nv) L -> No_scan (Tag_hd (m (v - 8))) = false -> 0 <= i < size m v ->
                m' (nv + 8 * i) = moved L (m (v + 8 * i)) /\
                (pointer (m (v + 8 * i)) -> fs <= m (v + 8 * i) < fl -> exists nw, In (m (v + 8 * i), nw) L)).
  { intros v nv i Hin Sc Hi. destruct (i_fld _ _ _ _ _ _ _ _ _ _ _ _ _ I v nv i Hin Sc Hi) as [X _].
    specialize (X (FD v nv i Hin Sc Hi)). split; [apply moved_image; assumption|].
    intros P Q. destruct X as [[_ X]|[X _]]; [eauto|]. exfalso. apply X.
    split; [apply is_ptr_pointer; exact P|apply Is_from_iff; exact Q]. }
  assert (RE : forall a, reachable H m R a -> reachable H m E a).
  { apply reachable_mono. intros p Hp. left. exact Hp. }
  assert (Fdec : forall a, fs <= a < fl \/ ~ (fs <= a < fl)) by (intros; lia).
  (* everything reachable in the from-space is copied *)
  assert (All : forall a, reachable H m R a -> fs <= a < fl -> exists nv, In (a, nv) L).
  { intros a Ra. induction Ra as [r Hr P Hh | a i Ra IH NR Hi P Hh]; intros Fa.
    - apply TEin; auto.
    - destruct (Fdec a) as [Fb|Fb].
      + destruct (IH Fb) as (nv & Hin). eapply (proj2 (TF a nv i Hin _ Hi)); assumption.
      + destruct (co_else _ _ _ _ _ _ _ _ _ _ _ C a Ra Fb) as (_ & _ & _ & _ & X).
        apply TEin; auto.
    Unshelve.
    rewrite <- No_scan_raw in NR. destruct (No_scan (Tag_hd (m (a - 8)))); [exfalso; auto|reflexivity]. }
  assert (SC : forall a, ~ raw m a -> No_scan (Tag_hd (m (a - 8))) = false).
  { intros a NR. rewrite <- No_scan_raw in NR. destruct (No_scan (Tag_hd (m (a - 8)))); [exfalso; auto|reflexivity]. }
  assert (Out : forall a i, reachable H m R a -> ~ (fs <= a < fl) -> -1 <= i < size m a -> ~ cell (a + 8 * i) ->
            m' (a + 8 * i) = m (a + 8 * i)).
  { intros a i Ra Fa Hi Nc. destruct (co_else _ _ _ _ _ _ _ _ _ _ _ C a Ra Fa) as (_ & X & _).
    destruct (X i Hi) as (X1 & X2 & X3). apply FR; [lia|exact X2|]. intros [Y|Y]; auto. }
  assert (Fix0 : forall a, ~ (fs <= a < fl) -> moved L a = a) by (intros a Fa; apply moved_id; intros [_ Y]; auto).
  split; [|exact LO]. constructor.
  - (* graph *)
    constructor.
    + intros w N. apply moved_id. intros [P Q]. apply N. split; [exact P|].
      apply (co_heap _ _ _ _ _ _ _ _ _ _ _ C). left. exact Q.
    + intros r Hr. apply TE. left. exact Hr.
    + intros a Ra. destruct (Fdec a) as [Fa|Fa].
      * destruct (All a Ra Fa) as (nv & Hin). rewrite (LO _ _ Hin). apply HD. exact Hin.
      * rewrite (Fix0 a Fa). destruct (co_else _ _ _ _ _ _ _ _ _ _ _ C a Ra Fa) as (X1 & _ & X3 & _).
        replace (a - 8) with (a + 8 * (-1)) in * by lia. apply Out; auto. lia.
    + intros a i Ra NR Hi. destruct (Fdec a) as [Fa|Fa].
      * destruct (All a Ra Fa) as (nv & Hin). rewrite (LO _ _ Hin). apply TF; auto.
      * rewrite (Fix0 a Fa). destruct (co_else _ _ _ _ _ _ _ _ _ _ _ C a Ra Fa) as (X1 & _ & X3 & _ & X5).
        assert (Dec : cell (a + 8 * i) \/ ~ cell (a + 8 * i)).
        { unfold remembered. destruct (Fdec (a + 8 * i)) as [Y|Y]; [right; intros [Z _]; auto|].
          set (n := (fr - fl) / 8). destruct (Z.le_gt_cases n 0) as [Z|Z]; [right; intros [_ (k & Hk & _)]; lia|].
          assert (Q : forall j, (exists k, 0 <= k < Z.of_nat j /\ a + 8 * i = m (fl + 8 * k)) \/
                     ~ (exists k, 0 <= k < Z.of_nat j /\ a + 8 * i = m (fl + 8 * k))).
          { induction j as [|j IHj]; [right; intros (k & Hk & _); lia|].
            destruct IHj as [(k & Hk & Ek)|N]; [left; exists k; split; [lia|exact Ek]|].
            destruct (Z.eq_dec (a + 8 * i) (m (fl + 8 * Z.of_nat j))) as [e|ne]; [left; exists (Z.of_nat j); split; [lia|exact e]|].
            right. intros (k & Hk & Ek). destruct (Z.eq_dec k (Z.of_nat j)) as [->|nk]; [auto|].
            apply N. exists k. split; [lia|exact Ek]. }
          destruct (Q (Z.to_nat n)) as [W|W]; rewrite Z2Nat.id in W by lia; [left; auto|right; intros [_ W']; auto]. }
        destruct Dec as [Hc|Hc].
        -- apply TE. right. exact Hc.
        -- rewrite Out; auto; [|lia]. symmetry. apply moved_id. intros [P Q]. apply Hc. apply X5; auto.
    + intros a i Ra Rw Hi. destruct (Fdec a) as [Fa|Fa].
      * destruct (All a Ra Fa) as (nv & Hin). rewrite (LO _ _ Hin). apply RW; auto.
        apply No_scan_raw. exact Rw.
      * rewrite (Fix0 a Fa). destruct (co_else _ _ _ _ _ _ _ _ _ _ _ C a Ra Fa) as (_ & _ & _ & X4 & _).
        apply Out; auto. lia.
    + intros a Ra. destruct (Fdec a) as [Fa|Fa].
      * destruct (All a Ra Fa) as (nv & Hin). rewrite (LO _ _ Hin). destruct (CR a nv Hin) as (A1 & A2 & A3 & A4). split.
        -- unfold pointer. rewrite (Z.div_mod nv 8), A3 by lia. rewrite Z.add_0_r, Z.even_mul. reflexivity.
        -- apply (co_heap _ _ _ _ _ _ _ _ _ _ _ C). right. lia.
      * rewrite (Fix0 a Fa). inversion Ra; subst; auto.
    + assert (Sep : forall a b, reachable H m R a -> reachable H m R b -> fs <= a < fl -> ~ (fs <= b < fl) -> moved L a <> moved L b).
      { intros a b Ra Rb Fa Fb Eq. destruct (All a Ra Fa) as (nv & Hin). rewrite (LO _ _ Hin), (Fix0 b Fb) in Eq. subst b.
        destruct (CR a nv Hin) as (A1 & A2 & A3 & A4).
        destruct (co_else _ _ _ _ _ _ _ _ _ _ _ C nv Rb Fb) as (B1 & B2 & _).
        destruct (B2 0 ltac:(lia)) as (_ & B3 & _). lia. }
      intros a b Ra Rb Eq. destruct (Fdec a) as [Fa|Fa], (Fdec b) as [Fb|Fb].
      * destruct (All a Ra Fa) as (na & Ha). destruct (All b Rb Fb) as (nb & Hb).
        rewrite (LO _ _ Ha), (LO _ _ Hb) in Eq. subst nb.
        destruct (CR _ _ Ha) as (_ & _ & _ & A4). destruct (CR _ _ Hb) as (_ & _ & _ & B4).
        destruct (placed_disjoint m fs fn objs G Ho p_al_f p_G L tn next' GD PL a na b na Ha Hb) as [[Y _]|[Y|Y]]; [exact Y|lia|lia].
      * exfalso. eapply (Sep a b); eassumption.
      * exfalso. eapply (Sep b a); auto.
      * rewrite (Fix0 a Fa), (Fix0 b Fb) in Eq. exact Eq.
  - reflexivity.
  - cbn [sp_start sp_next sp_limit sp_rem]. repeat split; try reflexivity; try lia.
    + unfold tlim in Hl. lia.
    + assert (X : tn + (fn - fs) <= tn + (fn - fs)) by lia.
      apply (placed_fits m fs fn objs tn (tn + (fn - fs)) G Ho p_al_f X p_G L next' GD ND PL).
    + rewrite (placed_mod _ _ _ PL). exact T3.
  - cbn [sp_next]. apply placed_objects.
    + intros v nv Hin. apply (CR v nv Hin).
    + exact HD.
    + exact PL.
  - intros b Hb. apply in_map_iff in Hb. destruct Hb as ([v nv] & <- & Hin). cbn [snd].
    exists v. destruct (GD v nv Hin) as [G1 G2]. split; [exact G1|]. split; [apply LO; exact Hin|].
    split; [exact G2|]. split; [apply HD; exact Hin|].
    intros i Hi. destruct (No_scan (Tag_hd (m (v - 8)))) eqn:Es.
    + split; [apply RW; auto|discriminate].
    + destruct (TF v nv i Hin Es Hi) as [Y1 Y2]. split; [exact Y1|]. intros _ P Q.
      destruct (Y2 P Q) as (nw & Hw). rewrite (LO _ _ Hw). apply in_map_iff. exists (m (v + 8 * i), nw). auto.
  - intros a Ra Fa. destruct (All a Ra Fa) as (nv & Hin). rewrite (LO _ _ Hin).
    apply in_map_iff. exists (a, nv). auto.
  - intros w N. apply moved_id. exact N.
  - intros c Hc. split; [apply TE; right; exact Hc|]. intros P Q.
    destruct (TEin c (or_intror Hc) P Q) as (nw & Hw). rewrite (LO _ _ Hw). apply in_map_iff. exists (m c, nw). auto.
  - intros a N1 N2 N3 N4. apply FR; auto. intros [Y|Y]; auto.
Qed.

Theorem do_generation_ok : exists from' to' m' phi news,
  do_generation from to frs m = Ok (from', to', m') /\
  step_result H R m m' objs from to from' to' phi news.
Proof.
  destruct run as (L & D & m' & next' & tolim' & Run & I & Hl & Hn & HR & HC & FD).
  destruct (finish L D m' next' tolim' I Hl Hn HR HC FD) as [SR _].
  do 5 eexists. split; [exact Run|exact SR].
Qed.

(** The object in the first root slot is the first to be copied. *)
Lemma run_first slot n frs' : frs = (slot, S n) :: frs' -> fr = fl -> In (m slot) objs ->
  exists L D m' next' tolim',
  do_generation from to frs m = Ok
    ({| sp_start := fs; sp_next := fs; sp_limit := fr; sp_rem := fr |},
     {| sp_start := ts; sp_next := next'; sp_limit := tolim'; sp_rem := sp_rem to |}, m') /\
  INV L D m' next' /\ tlim <= tolim' <= tl /\ next' <= tlim /\
  (forall p, R p -> D p) /\ (forall c, cell c -> D c) /\ fields_done m L D /\ In (m slot, tn + 8) L.
Proof.
  intros Efr Erem Hin.
  pose proof (co_objs _ _ _ _ _ _ _ _ _ _ _ C) as Ho.
  destruct (co_from _ _ _ _ _ _ _ _ _ _ _ C) as (F1 & F2 & F3 & F4 & F5).
  destruct (co_to _ _ _ _ _ _ _ _ _ _ _ C) as (T1 & T2 & T3 & T4).
  pose proof (co_room _ _ _ _ _ _ _ _ _ _ _ C) as Rm. pose proof (co_apart _ _ _ _ _ _ _ _ _ _ _ C) as Ap.
  assert (Rs : R slot).
  { exists slot, (S n), 0. rewrite Efr. split; [left; reflexivity|]. split; lia. }
  unfold do_generation, forward_remset.
  replace ((fr - fl) / 8) with 0 by (rewrite Erem, Z.sub_diag; reflexivity).
  replace (0 <=? (tl - ts) / 8) with true.
  2: { symmetry. apply Z.leb_le. apply Z.div_pos; lia. }
  change (Z.to_nat 0) with O. cbn [forward_remset_loop cbind].
  assert (Ef : forward_roots fs fl frs (m, tn) = forward_roots fs fl ((slot + 8, n) :: frs') (forward fs fl (m, tn) slot)).
  { rewrite Efr. reflexivity. }
  rewrite Ef.
  assert (Sl : slot_of frs slot) by exact Rs.
  assert (SL0 : GC_Proofs.slot m E [] slot (m slot)) by (left; split; [left; exact Rs|reflexivity]).
  destruct (forward_later m fs fn fl objs tn tlim tl E G Ho p_fn p_al_f p_al_t p_room p_tl p_disj p_E p_G p_GE p_Gf
     [] (fun _ => False) m tn slot (m slot) (Inv_init _ _ _ _ _ _ _ _ _) SL0)
    as (L1 & D1 & m1 & next1 & E1 & I1 & HL1 & HD1).
  (* what the first forwarding does *)
  destruct (objs_range m fs fn objs Ho p_al_f _ Hin) as (O1 & O2 & O3 & O4).
  assert (Pv : is_ptr (m slot) = true).
  { apply is_ptr_pointer. unfold pointer. rewrite (Z.div_mod (m slot) 8), O4 by lia. rewrite Z.add_0_r, Z.even_mul. reflexivity. }
  assert (Fv : Is_from fs fl (m slot) = true) by (apply Is_from_iff; lia).
  assert (M1 : m1 slot = tn + 8).
  { unfold forward in E1. rewrite Pv, Fv in E1.
    rewrite (proj2 (Z.eqb_neq _ _)) in E1 by (apply (objs_hd_nonzero m fs fn objs Ho p_al_f); exact Hin).
    assert (Em1 := f_equal fst E1). cbn [fst] in Em1. rewrite <- Em1. apply upd_same. }
  assert (In1 : In (m slot, tn + 8) L1).
  { destruct (i_ext _ _ _ _ _ _ _ _ _ _ _ _ _ I1 slot (or_introl Rs)) as [X _].
    destruct (X HD1) as [[_ Y]|[Y _]]; [rewrite M1 in Y; exact Y|]. exfalso. apply Y. split; assumption. }
  rewrite E1.
  destruct (forward_roots_ok m fs fn fl objs tn tlim tl E G Ho p_fn p_al_f p_al_t p_room p_tl p_disj p_E p_G p_GE p_Gf
               ((slot + 8, n) :: frs') L1 D1 m1 next1 I1) as (L2 & D2 & m2 & next2 & -> & I2 & HL2 & HD2).
  { intros p (st & n' & k & [Eq|Hx] & Hk & ->); left.
    - injection Eq as <- <-. exists slot, (S n), (k + 1). rewrite Efr. split; [left; reflexivity|]. split; lia.
    - exists st, n', k. rewrite Efr. split; [right; exact Hx|]. auto. }
  destruct (do_scan_ok m fs fn fl objs tn tlim tl E G Ho p_fn p_al_f p_al_t p_room p_tl p_disj p_E p_G p_GE p_Gf
               (S (Z.to_nat ((tl - ts) / 8))) tn [] L2 D2 m2 next2) as (L3 & D3 & m3 & next3 & -> & I3 & HL3 & FD3).
  - exact I2.
  - reflexivity.
  - apply (i_place _ _ _ _ _ _ _ _ _ _ _ _ _ I2).
  - intros v nv i [].
  - rewrite Nat2Z.inj_succ, Z2Nat.id by (apply Z.div_pos; lia).
    pose proof (Z.mul_succ_div_gt (tl - ts) 8 ltac:(lia)). unfold tlim. lia.
  - exists L3, D3, m3, next3, tl. cbn [cbind app] in *. split; [reflexivity|]. split; [exact I3|].
    split; [unfold tlim; lia|].
    split; [apply (next_bound m fs fn fl objs tn tlim tl E G Ho p_al_f p_room p_G _ _ _ _ I3)|].
    split.
    + intros p (st & n' & k & Hp & Hk & ->). apply (proj2 HL3). rewrite Efr in Hp. destruct Hp as [Eq|Hp].
      * injection Eq as <- <-. destruct (Z.eq_dec k 0) as [->|Nk].
        -- apply (proj2 HL2). replace (slot + 8 * 0) with slot by lia. exact HD1.
        -- apply HD2. exists (slot + 8), n, (k - 1). split; [left; reflexivity|]. split; lia.
      * apply HD2. exists st, n', k. split; [right; exact Hp|]. auto.
    + split; [|split; [exact FD3|]].
      * intros c [_ (k & Hk & _)]. rewrite Erem, Z.sub_diag in Hk. cbn in Hk. lia.
      * eapply later_incl; [exact HL3|]. eapply later_incl; [exact HL2|]. exact In1.
Qed.

Theorem do_generation_first slot n frs' : frs = (slot, S n) :: frs' -> fr = fl -> In (m slot) objs ->
  exists from' to' m' phi news,
  do_generation from to frs m = Ok (from', to', m') /\
  step_result H R m m' objs from to from' to' phi news /\ phi (m slot) = tn + 8.
Proof.
  intros E1 E2 E3.
  destruct (run_first slot n frs' E1 E2 E3) as (L & D & m' & next' & tolim' & Run & I & Hl & Hn & HR & HC & FD & Hin).
  destruct (finish L D m' next' tolim' I Hl Hn HR HC FD) as [SR LO].
  do 5 eexists. split; [exact Run|]. split; [exact SR|]. apply LO. exact Hin.
Qed.

End Gen.
