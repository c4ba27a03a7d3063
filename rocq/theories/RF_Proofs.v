(** * Reading back gives the value *)
From Coq Require Import ZArith NArith List Lia Bool Arith Ascii String.
From Verif Require Import ANF_Syntax CG_Clight CG_Spec RF_Model RF_Spec RF_Subst.
Import ListNotations.
Local Open Scope nat_scope.

Scheme value_mut := Minimality for value Sort Prop with values_mut := Minimality for values Sort Prop.
Scheme shown_mut := Minimality for shown Sort Prop with showns_mut := Minimality for showns Sort Prop.

Lemma decompose_ind i l : decompose (applist (cInd i) l) = (cInd i, l).
Proof. destruct l; reflexivity. Qed.
Lemma decompose_con i k l : decompose (applist (cConstruct i k) l) = (cConstruct i k, l).
Proof. destruct l; reflexivity. Qed.
Lemma con_inj i k l i' k' l' : applist (cConstruct i k) l = applist (cConstruct i' k') l' -> i = i' /\ k = k' /\ l = l'.
Proof. intro H. apply (f_equal decompose) in H. rewrite !decompose_con in H. injection H as -> -> ->. auto. Qed.
Lemma con_not_lit i k l p w : applist (cConstruct i k) l <> cLit p w.
Proof. destruct l; discriminate. Qed.
Lemma app_same {A} (a b c d : list A) : List.length a = List.length c -> a ++ b = c ++ d -> a = c /\ b = d.
Proof.
  revert c. induction a as [|x a IH]; intros [|y c] L H; try discriminate; [auto|]. cbn [app] in H. injection H as -> H.
  injection L as L. destruct (IH c L H) as [-> ->]. auto.
Qed.

Lemma values_length E ds idx args idx' : values E ds idx args idx' -> List.length args = arity ds.
Proof.
  intro V. induction V as [|ty r idx a args idx' V0 V IH|b ty r idx args idx' V IH]; cbn [List.length arity]; auto.
  - rewrite IH. rewrite arity_subst. reflexivity.
  - rewrite IH. apply arity_subst.
Qed.

Lemma shown_inv E im i k ps args hv d c : shown E im (applist (cConstruct i k) (ps ++ args)) hv ->
  E i = Some d -> i_prop d = false -> nth_error (i_ctors d) k = Some c -> List.length ps = i_params d ->
  exists k', placed im i k k' /\
    ((args = [] /\ arity (c_args c) = 0 /\ hv = HInt (2 * rank (arities_of im i d) k' + 1)) \/
     (exists hs, args <> [] /\ arity (c_args c) = List.length args /\ hv = HBlock (1024 * Z.of_nat (arity (c_args c)) + rank (arities_of im i d) k') hs /\ showns E im args hs)).
Proof.
  intros S Ei Pi Ck L. remember (applist (cConstruct i k) (ps ++ args)) as t eqn:Et.
  destruct S as [i0 d0 k0 c0 ps0 k' E0 P0 C0 L0 A0 PL|i0 d0 k0 c0 ps0 args0 k' hs E0 P0 C0 L0 A0 NE PL SH|i0 d0 k0 args0 E0 P0|z].
  - apply con_inj in Et as (-> & -> & ->). rewrite Ei in E0. injection E0 as <-. rewrite Ck in C0. injection C0 as <-.
    exists k'. split; [exact PL|left]. rewrite app_length in L0. destruct args; [|cbn [List.length] in L0; lia]. auto.
  - apply con_inj in Et as (-> & -> & Q). rewrite Ei in E0. injection E0 as <-. rewrite Ck in C0. injection C0 as <-.
    apply app_same in Q as [-> ->]; [|congruence]. exists k'. split; [exact PL|right]. exists hs. auto.
  - apply con_inj in Et as (-> & -> & ->). congruence.
  - symmetry in Et. apply con_not_lit in Et. destruct Et.
Qed.

Lemma relevant_inv E i k ps args d : relevant E (applist (cConstruct i k) (ps ++ args)) -> E i = Some d -> List.length ps = i_params d ->
  i_prop d = false /\ Forall (relevant E) args.
Proof.
  intros R Ei L. remember (applist (cConstruct i k) (ps ++ args)) as t eqn:Et.
  destruct R as [i0 d0 k0 ps0 args0 E0 P0 L0 F|z]; [|symmetry in Et; apply con_not_lit in Et; destruct Et].
  apply con_inj in Et as (-> & -> & Q). rewrite Ei in E0. injection E0 as <-. apply app_same in Q as [-> ->]; [|congruence]. auto.
Qed.

(** ** Positions *)
Lemma find_non_constant cs : forall al n i b j c, Forall2 (fun c a => is_empty c = (a =? 0)) cs al ->
  nth_error cs j = Some c -> is_empty c = false -> (n = b + Z.of_nat (List.length (filter (fun a : nat => Bool.eqb false (Nat.eqb a 0)) (firstn j al))))%Z ->
  find_nth_non_constant_from n i b cs = Some (i + j).
Proof.
  induction cs as [|c0 cs IH]; intros al n i b j c F N NE Q; [destruct j; discriminate|]. inversion F as [|? a ? al' Fa F']; subst al. 
  destruct j as [|j].
  - injection N as <-. cbn [find_nth_non_constant_from]. rewrite NE. cbn [negb]. cbn [firstn filter List.length] in Q.
    destruct (Z.eqb_spec b n); [f_equal; lia|lia].
  - cbn [nth_error] in N. cbn [find_nth_non_constant_from]. cbn [firstn filter] in Q. rewrite <- Fa in Q. destruct (is_empty c0); cbn [negb Bool.eqb] in *.
    + rewrite (IH al' n (S i) b j c F' N NE Q). f_equal; lia.
    + cbn [List.length] in Q. destruct (Z.eqb_spec b n); [lia|]. rewrite (IH al' n (S i) (b + 1)%Z j c F' N NE); [f_equal; lia|lia].
Qed.
Lemma find_constant cs : forall al n i b j c, Forall2 (fun c a => is_empty c = (a =? 0)) cs al ->
  nth_error cs j = Some c -> is_empty c = true -> (n = b + Z.of_nat (List.length (filter (fun a : nat => Bool.eqb true (Nat.eqb a 0)) (firstn j al))))%Z ->
  find_nth_constant_from n i b cs = Some (i + j).
Proof.
  induction cs as [|c0 cs IH]; intros al n i b j c F N NE Q; [destruct j; discriminate|]. inversion F as [|? a ? al' Fa F']; subst al. 
  destruct j as [|j].
  - injection N as <-. cbn [find_nth_constant_from]. rewrite NE. cbn [negb]. cbn [firstn filter List.length] in Q.
    destruct (Z.eqb_spec b n); [f_equal; lia|lia].
  - cbn [nth_error] in N. cbn [find_nth_constant_from]. cbn [firstn filter] in Q. rewrite <- Fa in Q. destruct (is_empty c0); cbn [negb Bool.eqb] in *.
    + cbn [List.length] in Q. destruct (Z.eqb_spec b n); [lia|]. rewrite (IH al' n (S i) (b + 1)%Z j c F' N NE); [f_equal; lia|lia].
    + rewrite (IH al' n (S i) b j c F' N NE Q). f_equal; lia.
Qed.

Lemma pick_ok {A} (l : list A) tags : (forall k, In k tags -> k < List.length l) ->
  exists xs, pick l tags = Done xs /\ Forall2 (fun k x => nth_error l k = Some x) tags xs.
Proof.
  induction tags as [|k tags IH]; intro H; [exists []; split; [reflexivity|constructor]|].
  destruct IH as (xs & P1 & P2); [intros q I; apply H; right; exact I|]. cbn [pick].
  destruct (nth_error l k) as [x|] eqn:N.
  - rewrite P1. exists (x :: xs). split; [reflexivity|]. constructor; auto.
  - apply nth_error_None in N. specialize (H k (or_introl eq_refl)). lia.
Qed.
Lemma Forall2_nth {A B} (R : A -> B -> Prop) l l' j a : Forall2 R l l' -> nth_error l j = Some a -> exists b, nth_error l' j = Some b /\ R a b.
Proof.
  intro F. revert j. induction F as [|x y l l' H F IH]; intros [|j] N; try discriminate; cbn [nth_error] in *.
  - injection N as ->. eauto.
  - auto.
Qed.

Lemma index0_nth tags : forall j k, NoDup tags -> nth_error tags j = Some k -> index0 k tags = Some j.
Proof.
  induction tags as [|x tags IH]; intros [|j] k ND N; try discriminate; cbn [nth_error index0] in *.
  - injection N as ->. rewrite Nat.eqb_refl. reflexivity.
  - inversion ND as [|? ? NI ND']; subst. destruct (Nat.eqb_spec k x) as [->|]; [destruct NI; eapply nth_error_In; eauto|].
    rewrite (IH _ _ ND' N). reflexivity.
Qed.
Lemma own_inverse_nodup n tags : own_inverse n tags -> NoDup tags.
Proof.
  intros [_ H]. apply NoDup_nth_error. intros a b La E. destruct (nth_error tags a) as [k|] eqn:Na; [|apply nth_error_None in Na; lia].
  symmetry in E. apply H in Na, E. congruence.
Qed.
Lemma own_inverse_bound n tags : own_inverse n tags -> forall k, In k tags -> k < n.
Proof.
  intros [L H] k I. apply In_nth_error in I as [j N]. apply H in N. rewrite <- L. apply nth_error_Some. congruence.
Qed.

(** ** Types that only differ where nobody looks *)
Definition meets (E : genv) (t t' : cterm) : Prop :=
  (exists i l l', decompose t = (cInd i, l) /\ decompose t' = (cInd i, l') /\
     forall d, E i = Some d -> firstn (i_params d) l = firstn (i_params d) l' /\ i_params d <= List.length l /\ Forall closed (firstn (i_params d) l)) \/
  (closed t /\ t' = t).

Lemma firstn_map_closed n l s k : Forall closed (firstn n l) -> firstn n (map (substl s k) l) = firstn n l.
Proof.
  rewrite firstn_map. intro F. rewrite <- (map_id (firstn n l)) at 2. apply map_ext_Forall. eapply Forall_impl; [|exact F].
  intros x C. apply substl_closed. eapply vars_in_weaken; [exact C|lia].
Qed.

Lemma meets_subst E t t' s k : meets E t t' -> meets E (substl s k t) t'.
Proof.
  intros [(i & l & l' & D & D' & H)|[C ->]].
  - left. exists i, (map (substl s k) l), l'. split.
    { destruct t; cbn [decompose] in D; try discriminate; injection D as -> <-; reflexivity. }
    split; [exact D'|]. intros d Ed. destruct (H d Ed) as (A & B & F). rewrite firstn_map_closed by exact F.
    split; [exact A|]. split; [rewrite map_length; exact B|exact F].
  - right. rewrite substl_closed; [split; [exact C|reflexivity]|]. eapply vars_in_weaken; [exact C|lia].
Qed.

Lemma meets_all_subst E ts : forall ts' s k, Forall2 (meets E) ts ts' -> Forall2 (meets E) (subst_tys s k ts) ts'.
Proof.
  induction ts as [|t ts IH]; intros ts' s k F; inversion F; subst; cbn [subst_tys]; constructor; auto. apply meets_subst. assumption.
Qed.

(** instances of the types of arguments *)
Lemma simple_meets E np j t ps : List.length ps = np -> Forall closed ps -> simple_arg E np j t -> meets E (substl ps j t) (substl ps j t).
Proof.
  intros L C S. destruct S as [n B|i d l Ei B F|].
  - cbn [substl]. destruct (Nat.ltb_spec n j); [lia|]. destruct (nth_error ps (n - j)) as [u|] eqn:N; [|apply nth_error_None in N; lia].
    right. rewrite Forall_forall in C. pose proof (C _ (nth_error_In _ _ N)) as Cu. rewrite lift_closed by exact Cu. auto.
  - left. exists i, (map (substl ps j) l), (map (substl ps j) l).
    assert (D : decompose (substl ps j (applist (cInd i) l)) = (cInd i, map (substl ps j) l)) by (destruct l; reflexivity).
    split; [exact D|]. split; [exact D|]. intros d' Ed. rewrite Ei in Ed. injection Ed as <-. split; [reflexivity|].
    split; [rewrite map_length; exact B|]. rewrite firstn_map, Forall_map. eapply Forall_impl; [|exact F].
    intros x V. cbv beta in V. rewrite <- L in V. pose proof (vars_in_subst x ps j 0 C V) as R. rewrite Nat.add_0_r in R. exact R.
  - right. split; [exact I|reflexivity].
Qed.

(** ** Fields *)
Lemma fields_ok h ws n : forall p b, (forall i, i < n -> h (p + Z.of_nat i)%Z = Some (ws (b + i))) -> fields h p n = Done (map ws (seq b n)).
Proof.
  induction n as [|n IH]; intros p b H; [reflexivity|]. cbn [fields seq map].
  pose proof (H 0 ltac:(lia)) as H0. rewrite Z.add_0_r, Nat.add_0_r in H0. rewrite H0. rewrite (IH (p + 1)%Z (S b)); [reflexivity|].
  intros i L. replace (p + 1 + Z.of_nat i)%Z with (p + Z.of_nat (S i))%Z by lia. rewrite H by lia. f_equal. f_equal. lia.
Qed.
Lemma Forall2_seq {A B} (R : A -> B -> Prop) (ws : nat -> B) hs : forall b, (forall i v, nth_error hs i = Some v -> R v (ws (b + i))) ->
  Forall2 R hs (map ws (seq b (List.length hs))).
Proof.
  induction hs as [|v hs IH]; intros b H; cbn [List.length seq map]; constructor.
  - specialize (H 0 v eq_refl). rewrite Nat.add_0_r in H. exact H.
  - apply IH. intros i w N. replace (S b + i) with (b + S i) by lia. apply H. exact N.
Qed.

Lemma land_header a r : (0 <= r < 256)%Z -> (0 <= a)%Z -> Z.land (1024 * a + r) 255 = r.
Proof.
  intros R A. change 255%Z with (Z.ones 8). rewrite Z.land_ones by lia. change (2 ^ 8)%Z with 256%Z.
  replace (1024 * a + r)%Z with (r + (4 * a) * 256)%Z by lia. rewrite Z.mod_add by lia. apply Z.mod_small. exact R.
Qed.
Lemma odd_shift r : Z.odd (2 * r + 1) = true /\ Z.shiftr (2 * r + 1) 1 = r.
Proof.
  split; [rewrite Z.odd_add, Z.odd_mul; reflexivity|]. rewrite Z.shiftr_div_pow2 by lia. change (2 ^ 1)%Z with 2%Z.
  replace (2 * r + 1)%Z with (1 + r * 2)%Z by lia. rewrite Z.div_add by lia. reflexivity.
Qed.

Lemma hrepr_int h lo hi z w : hrepr h lo hi (HInt z) w -> w = VZ z.
Proof. intro H. inversion H; subst. reflexivity. Qed.
Lemma hrepr_block h lo hi hdr hs w : hrepr h lo hi (HBlock hdr hs) w -> exists p ws,
  w = VP BHeap p /\ h (p - 1)%Z = Some (VZ hdr) /\ (forall j v, nth_error hs j = Some v -> h (p + Z.of_nat j)%Z = Some (ws j)) /\
  (forall j v, nth_error hs j = Some v -> hrepr h lo hi v (ws j)).
Proof.
  intro H. inversion H as [| |hdr' vs p ws Hh Ho Hs Hl Hw Hv]; subst. exists p, ws. split; [reflexivity|]. split; [exact Hh|].
  split; [intros j v N; apply (Hw j v N)|exact Hv].
Qed.

(** ** A constructor in its table *)
Lemma empty_subst l k ds : subst_ctx l k ds = [] <-> ds = [].
Proof. destruct ds as [|[t|b t] r]; cbn [subst_ctx]; split; intro H; try discriminate; reflexivity. Qed.

Section Reads.
  Variables (E : genv) (im : mapping) (strings : bool) (h : Z -> option cval) (lo hi : Z).
  Hypothesis RD : readable E im.

  Definition inst (ps : list cterm) (c : ctor) : ctor :=
    mkctor (subst_ctx (rev ps) 0 (c_args c)) (map (substl (rev ps) (List.length (c_args c))) (c_indices c)).

  Lemma empty_arity i d c ps : E i = Some d -> In c (i_ctors d) -> is_empty (inst ps c) = (arity (c_args c) =? 0).
  Proof.
    intros Ei I. unfold is_empty, inst. cbn [c_args]. pose proof (rd_lets _ _ RD i d c Ei I) as L.
    destruct (Nat.eqb_spec (arity (c_args c)) 0) as [Z|Z].
    - rewrite (L Z). reflexivity.
    - destruct (c_args c) as [|[t|b t] r]; [destruct Z; reflexivity|reflexivity|reflexivity].
  Qed.

  (** the reordered constructors and arities *)
  Lemma reordered i d ps k c k' : E i = Some d -> nth_error (i_ctors d) k = Some c -> placed im i k k' ->
    exists cs, apply_reordering i im (get_constructors d ps) = Done cs /\
      Forall2 (fun c a => is_empty c = (a =? 0)) cs (arities_of im i d) /\
      nth_error cs k' = Some (inst ps c) /\ nth_error (arities_of im i d) k' = Some (arity (c_args c)) /\
      find_reverse_mapping i im k' = k.
  Proof.
    intros Ei Nk PL. unfold apply_reordering, arities_of, placed, find_reverse_mapping in *.
    change (get_constructors d ps) with (map (inst ps) (i_ctors d)).
    destruct (entry i im) as [tags|] eqn:En.
    - pose proof (rd_order _ _ RD i d tags Ei En) as O. pose proof (own_inverse_bound _ _ O) as OB.
      destruct (pick_ok (map (inst ps) (i_ctors d)) tags) as (xs & P1 & P2); [intros q I; rewrite map_length; auto|].
      exists xs. split; [exact P1|]. split; [|split; [|split]].
      + clear P1 En PL O. induction P2 as [|q x tags xs H P2 IH]; [constructor|]. cbn [map]. constructor.
        * rewrite nth_error_map in H. destruct (nth_error (i_ctors d) q) as [c0|] eqn:N0; [|discriminate]. injection H as <-.
          rewrite (empty_arity i d c0 ps Ei (nth_error_In _ _ N0)). f_equal. symmetry. apply nth_error_nth. rewrite nth_error_map, N0. reflexivity.
        * apply IH. intros r I. apply OB. right. exact I.
      + destruct (Forall2_nth _ _ _ _ _ P2 PL) as (x & N & H). rewrite nth_error_map, Nk in H. cbn [option_map] in H. congruence.
      + rewrite nth_error_map, PL. cbn [option_map]. f_equal. apply nth_error_nth. rewrite nth_error_map, Nk. reflexivity.
      + rewrite (index0_nth tags k k' (own_inverse_nodup _ _ O)); [reflexivity|]. apply (proj2 O). exact PL.
    - subst k'. exists (map (inst ps) (i_ctors d)). split; [reflexivity|]. split; [|split; [|split]].
      + assert (A : forall c, In c (i_ctors d) -> is_empty (inst ps c) = (arity (c_args c) =? 0)) by (intros; eapply empty_arity; eauto).
        clear Nk En. induction (i_ctors d) as [|c0 l IH]; cbn [map]; constructor; [apply A; left; reflexivity|].
        apply IH. intros; apply A; right; assumption.
      + rewrite nth_error_map, Nk. reflexivity.
      + rewrite nth_error_map, Nk. reflexivity.
      + reflexivity.
  Qed.

  Lemma rank_bound i d k c k' : E i = Some d -> nth_error (i_ctors d) k = Some c -> placed im i k k' -> arity (c_args c) <> 0 ->
    (0 <= rank (arities_of im i d) k' < 256)%Z.
  Proof.
    intros Ei Nk PL NZ. destruct (reordered i d [] k c k' Ei Nk PL) as (cs & _ & _ & _ & N & _).
    unfold rank. rewrite N. destruct (Nat.eqb_spec (arity (c_args c)) 0) as [|_]; [contradiction|]. split; [lia|].
    pose proof (rd_few _ _ RD i d Ei) as F.
    set (f := fun b : nat => Bool.eqb false (b =? 0)) in *.
    assert (LT : List.length (filter f (firstn k' (arities_of im i d))) < List.length (filter f (arities_of im i d))).
    { rewrite <- (firstn_skipn k' (arities_of im i d)) at 2. rewrite filter_app, app_length.
      destruct (skipn k' (arities_of im i d)) as [|a r] eqn:SK.
      - exfalso. assert (k' < List.length (arities_of im i d)) by (apply nth_error_Some; congruence).
        apply (f_equal (@List.length nat)) in SK. rewrite skipn_length in SK. cbn in SK. lia.
      - assert (a = arity (c_args c)).
        { rewrite <- (firstn_skipn k' (arities_of im i d)) in N. rewrite SK in N. rewrite nth_error_app2 in N by apply firstn_le_length.
          rewrite firstn_length_le in N by (apply (f_equal (@List.length nat)) in SK; rewrite skipn_length in SK; cbn in SK; lia).
          rewrite Nat.sub_diag in N. injection N as ->. reflexivity. }
        subst a. cbn [filter]. unfold f at 3. destruct (Nat.eqb_spec (arity (c_args c)) 0); [contradiction|]. cbn [Bool.eqb List.length]. lia. }
    assert (LE : List.length (filter f (arities_of im i d)) <= List.length (filter (fun c => negb (arity (c_args c) =? 0)) (i_ctors d))).
    2:{ change (filter (fun b : nat => Bool.eqb false (b =? 0))) with (filter f). lia. }
    unfold arities_of. set (l := map (fun c => arity (c_args c)) (i_ctors d)).
    assert (LL : List.length (filter f l) = List.length (filter (fun c => negb (arity (c_args c) =? 0)) (i_ctors d))).
    { subst l. clear. induction (i_ctors d) as [|c0 r IH]; [reflexivity|]. cbn [map filter]. unfold f at 1.
      destruct (arity (c_args c0) =? 0); cbn [Bool.eqb negb List.length]; lia. }
    rewrite <- LL. destruct (entry i im) as [tags|] eqn:En; [|lia].
    pose proof (rd_order _ _ RD i d tags Ei En) as O.
    pose proof (own_inverse_nodup _ _ O) as ND. pose proof (own_inverse_bound _ _ O) as OB.
    (* positions with arguments, injected into those of the original order *)
    assert (LI : forall tg, NoDup tg -> (forall q, In q tg -> q < List.length l) ->
      List.length (filter f (map (fun q => nth q l 0) tg)) <= List.length (filter (fun q => f (nth q l 0)) (seq 0 (List.length l)))).
    { intros tg NDt Bt. assert (X : List.length (filter f (map (fun q => nth q l 0) tg)) = List.length (filter (fun q => f (nth q l 0)) tg)).
      { clear. induction tg as [|q tg IH]; [reflexivity|]. cbn [map filter]. destruct (f (nth q l 0)); cbn [List.length]; lia. }
      rewrite X. apply NoDup_incl_length; [apply NoDup_filter; exact NDt|]. intros q I. apply filter_In in I as [I1 I2]. apply filter_In. split; [|exact I2].
      apply in_seq. specialize (Bt q I1). lia. }
    assert (LS : List.length (filter (fun q => f (nth q l 0)) (seq 0 (List.length l))) = List.length (filter f l)).
    { clear. assert (G : forall r b g, (forall q, q < List.length r -> g (b + q) = f (nth q r 0)) ->
        List.length (filter g (seq b (List.length r))) = List.length (filter f r)).
      { induction r as [|x r IH]; intros b g H; [reflexivity|]. cbn [List.length seq filter].
        pose proof (H 0 ltac:(cbn; lia)) as H0. rewrite Nat.add_0_r in H0. cbn [nth] in H0. rewrite H0.
        pose proof (IH (S b) g) as J. destruct (f x); cbn [List.length]; rewrite J; auto;
          intros q L; replace (S b + q) with (b + S q) by lia; apply (H (S q)); cbn; lia. }
      apply (G l 0). reflexivity. }
    rewrite <- LS. apply LI; [exact ND|]. intros q I. subst l. rewrite map_length. auto.
  Qed.
  (** ** The recursion *)
  Notation rfy f := (reify f strings E im h).

  (** a type of the form the reader looks at, with the parameters [ps] *)
  Definition likes (ty : cterm) (r : reifyable) : Prop :=
    match r with
    | IsInductive i l => exists l0 d, decompose ty = (cInd i, l0) /\ E i = Some d /\ i_params d <= List.length l0 /\
        firstn (i_params d) l = firstn (i_params d) l0 /\ Forall closed (firstn (i_params d) l0)
    | IsPrimitive p => ty = cPrim p
    end.

  Lemma value_form ty t : value E ty t ->
    (exists i d l, ty = applist (cInd i) l /\ E i = Some d /\ i_params d <= List.length l) \/ ty = cPrim PInt.
  Proof.
    intros [i d k c ps idx args Ei Nk L V|z]; [left|right; reflexivity].
    exists i, d, (ps ++ idx). split; [reflexivity|]. split; [exact Ei|]. rewrite app_length. lia.
  Qed.

  Lemma closed_applist f l : closed (applist f l) -> Forall closed l.
  Proof. destruct l as [|x l]; [constructor|]. intro C. unfold closed in C. cbn [applist] in C. rewrite vars_in_app in C. apply C. Qed.

  Lemma firstn_Forall {A} (P : A -> Prop) n l : Forall P l -> Forall P (firstn n l).
  Proof. intro F. revert n. induction F; intros [|n]; cbn [firstn]; constructor; auto. Qed.

  Lemma meets_likes ty ty' t : value E ty t -> meets E ty ty' -> exists r, check_reifyable ty' = Done r /\ likes ty r.
  Proof.
    intros V M. destruct (value_form _ _ V) as [(i & d & l & -> & Ei & L)| ->].
    - destruct M as [(i0 & l0 & l1 & D & D' & H)|[C ->]].
      + rewrite decompose_ind in D. injection D as <- <-. destruct (H d Ei) as (H1 & H2 & H3).
        exists (IsInductive i l1). unfold check_reifyable. rewrite D'. split; [reflexivity|]. exists l, d. rewrite decompose_ind. auto.
      + exists (IsInductive i l). unfold check_reifyable. rewrite decompose_ind. split; [reflexivity|].
        exists l, d. rewrite decompose_ind. apply closed_applist in C. repeat split; auto. apply firstn_Forall. exact C.
    - destruct M as [(i0 & l0 & l1 & D & D' & H)|[C ->]]; [discriminate|]. exists (IsPrimitive PInt). split; reflexivity.
  Qed.

  Lemma Forall2_refl_nth {A} (R : A -> A -> Prop) l : (forall j x, nth_error l j = Some x -> R x x) -> Forall2 R l l.
  Proof.
    induction l as [|x l IH]; intro H; constructor; [apply (H 0); reflexivity|]. apply IH. intros j y N. apply (H (S j)). exact N.
  Qed.

  Lemma firstn_app_exact {A} n (a b : list A) : List.length a = n -> firstn n (a ++ b) = a.
  Proof. intros <-. rewrite firstn_app, Nat.sub_diag, firstn_all. cbn [firstn]. apply app_nil_r. Qed.

  Lemma showns_Forall2 args hs : showns E im args hs -> Forall2 (shown E im) args hs.
  Proof. induction 1; constructor; auto. Qed.

  Theorem reads_back : forall ty t, value E ty t -> relevant E t -> forall hv w, shown E im t hv -> hrepr h lo hi hv w ->
    forall r, likes ty r -> exists n, forall f, n <= f -> rfy f r w = Done t.
  Proof.
    apply (value_mut E
      (fun ty t => relevant E t -> forall hv w, shown E im t hv -> hrepr h lo hi hv w -> forall r, likes ty r -> exists n, forall f, n <= f -> rfy f r w = Done t)
      (fun ds idx args idx' => Forall (relevant E) args -> forall hs ws, Forall2 (shown E im) args hs -> Forall2 (hrepr h lo hi) hs ws ->
         forall tys, Forall2 (meets E) (smash ds) tys ->
         exists n, forall f, n <= f -> map2 (fun argty v => andthen (check_reifyable argty) (fun t => rfy f t v)) tys ws = Done args)).
    - intros i d k c ps idx args Ei Nk L V IH R hv w SH HR r LK.
      destruct (relevant_inv _ _ _ _ _ _ R Ei L) as [PR RA].
      destruct r as [i' l|p]; [|destruct (ps ++ idx); discriminate].
      destruct LK as (l0 & d' & D & Ed & L0 & F0 & C0). rewrite decompose_ind in D. injection D as <- <-. rewrite Ei in Ed. injection Ed as <-.
      rewrite (firstn_app_exact _ _ _ L) in F0, C0.
      assert (LL : List.length l <? i_params d = false).
      { apply Nat.ltb_ge. apply (f_equal (@List.length cterm)) in F0. rewrite firstn_length in F0. lia. }
      destruct (shown_inv _ _ _ _ _ _ _ _ _ SH Ei PR Nk L) as (k' & PL & [(-> & A0 & ->)|(hs & NE & A0 & -> & SS)]).
      + exists 1. intros [|f] Lf; [lia|]. apply hrepr_int in HR as ->. cbn [reify]. rewrite Ei, LL, F0.
        destruct (reordered i d ps k c k' Ei Nk PL) as (cs & O1 & O2 & O3 & O4 & O5). rewrite O1. cbn [andthen].
        destruct (odd_shift (rank (arities_of im i d) k')) as [Q1 Q2]. rewrite Q1, Q2.
        unfold find_nth_constant. rewrite (find_constant cs (arities_of im i d) _ 0 0%Z k' (inst ps c) O2 O3).
        * cbn [Nat.add]. rewrite O5. rewrite app_nil_r. reflexivity.
        * rewrite (empty_arity i d c ps Ei (nth_error_In _ _ Nk)). rewrite A0. reflexivity.
        * unfold rank. rewrite O4, A0. reflexivity.
      + pose proof (rank_bound i d k c k' Ei Nk PL) as RB. rewrite A0 in RB.
        assert (NZ : List.length args <> 0) by (destruct args; [contradiction|discriminate]). specialize (RB NZ).
        apply hrepr_block in HR as (p & ws & -> & Hh & Hw & Hv).
        assert (LV : List.length args = List.length hs) by (clear - SS; induction SS; cbn [List.length]; congruence).
        assert (FW : Forall2 (hrepr h lo hi) hs (map ws (seq 0 (List.length hs)))) by (apply Forall2_seq; intros j v N; apply Hv; exact N).
        destruct (IH RA hs _ (showns_Forall2 _ _ SS) FW (smash (subst_ctx (rev ps) 0 (c_args c)))) as [n Hn].
        { rewrite smash_subst. apply Forall2_refl_nth. intros j x N. rewrite subst_tys_nth in N.
          destruct (nth_error (smash (c_args c)) j) as [ty|] eqn:NJ; [|discriminate]. injection N as <-. cbn [Nat.add].
          apply (simple_meets E (i_params d)); [rewrite rev_length; exact L|apply Forall_rev; exact C0|].
          eapply (rd_args _ _ RD); [exact Ei|exact (nth_error_In _ _ Nk)|exact NJ]. }
        exists (S n). intros [|f] Lf; [lia|]. cbn [reify]. rewrite Ei, LL, F0.
        destruct (reordered i d ps k c k' Ei Nk PL) as (cs & O1 & O2 & O3 & O4 & O5). rewrite O1. cbn [andthen].
        unfold get_boxed_ordinal. rewrite Hh. rewrite land_header by lia. cbn [andthen].
        unfold find_nth_non_constant. rewrite (find_non_constant cs (arities_of im i d) _ 0 0%Z k' (inst ps c) O2 O3).
        * cbn [Nat.add]. rewrite O3, O5. cbn [inst c_args]. rewrite smash_length, arity_subst, A0, LV.
          rewrite (fields_ok h ws (List.length hs) p 0).
          2:{ intros j Lj. destruct (nth_error hs j) as [v|] eqn:N; [|apply nth_error_None in N; lia]. apply (Hw j v N). }
          cbn [andthen]. rewrite Hn by lia. reflexivity.
        * rewrite (empty_arity i d c ps Ei (nth_error_In _ _ Nk)). rewrite A0. apply Nat.eqb_neq. exact NZ.
        * unfold rank. rewrite O4, A0. destruct (Nat.eqb_spec (List.length args) 0); [contradiction|reflexivity].
    - intros z R hv w SH HR r LK. destruct r as [i l|p].
      + destruct LK as (l0 & d & D & _). discriminate.
      + cbn [likes] in LK. injection LK as <-. exists 1. intros [|f] Lf; [lia|]. cbn [reify].
        remember (cLit PInt (VZ z)) as t eqn:Et. destruct SH; try (apply con_not_lit in Et; destruct Et).
        injection Et as ->. apply hrepr_int in HR as ->. reflexivity.
    - intros idx _ hs ws S H tys M. inversion S; subst. inversion H; subst. inversion M; subst. exists 0. reflexivity.
    - intros ty r idx a args idx' V IHV VS IHS R hs ws S H tys M. inversion R as [|? ? R1 R2]; subst. inversion S as [|? hv ? hs' S1 S2]; subst.
      inversion H as [|? w ? ws' H1 H2]; subst. cbn [smash] in M. inversion M as [|? ty' ? tys' M1 M2]; subst.
      destruct (meets_likes _ _ _ V M1) as (q & Q1 & Q2). destruct (IHV R1 hv w S1 H1 q Q2) as [n1 N1].
      destruct (IHS R2 hs' ws' S2 H2 tys') as [n2 N2]; [rewrite smash_subst; apply meets_all_subst; exact M2|].
      exists (n1 + n2). intros f Lf. cbn [map2]. rewrite Q1. cbn [andthen]. rewrite N1 by lia. cbn [andthen]. rewrite N2 by lia. reflexivity.
    - intros b ty r idx args idx' VS IHS R hs ws S H tys M. apply (IHS R hs ws S H). rewrite smash_subst. exact M.
  Qed.
End Reads.
