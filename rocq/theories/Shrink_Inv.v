(** * The shrink reducer: what holds of the census and of the names

    Proof device: [inv] relates the parts of a program that are still to be
    reduced (the current term, and the known functions that are not inlined
    yet, [P]) to the census; [post] says what a reduction guarantees. *)
From Coq Require Import ZArith NArith PArith List Lia Bool Arith.
From Verif Require Import ANF_Syntax ANF_Eval ANF_Spec ANF_FreeProofs ANF_Scope ANF_Subst CC_Scope Shrink_Census
  Shrink_CensusProofs Shrink_Model Shrink_Total Inline_Model Inline_LetProofs Inline_Syn Inline_Sem.
Import ListNotations.

Notation occ l v := (cnt v l).

(** ** Uses, free and bound variables *)
Definition dfun (d : fdef) : fdesc := let '(_, t, xs, m) := d in (t, xs, m).
Definition duses (d : fdef) : list var := let '(_, _, _, m) := d in uses m.
Definition fvd (d : fdef) (w : var) : Prop := fvb (dfun d) w.
Definition ownd (d : fdef) : list var := own (dfun d).

Lemma cnt_In (z : var) l : In z l <-> cnt z l > 0.
Proof. unfold cnt. rewrite (count_occ_In Pos.eq_dec l z). lia. Qed.
Lemma cnt_notIn (z : var) l : ~ In z l <-> cnt z l = 0.
Proof. rewrite cnt_In. lia. Qed.
Lemma cnt_NoDup (l : list var) : NoDup l <-> forall z, cnt z l <= 1.
Proof. apply (NoDup_count_occ Pos.eq_dec). Qed.

Lemma uses_free :
  (forall e w, free w e -> In w (uses e)) /\
  (forall B w, free_body w B -> In w (uses_funs B)).
Proof.
  apply exp_fundefs_ind; intros; cbn [uses uses_funs] in *.
  - destruct H0 as [|[_ ?]]; rewrite in_app_iff; auto.
  - apply free_Ecase in H0 as [->|K]; [left; auto|right]. induction H as [|[t e] l He _ IH]; cbn in *; [tauto|].
    rewrite in_app_iff. destruct K; auto.
  - destruct H0 as [->|[_ ?]]; cbn; auto.
  - destruct H0 as [->|[?|[_ ?]]]; cbn; rewrite ?in_app_iff; auto.
  - destruct H1 as [_ [?|?]]; rewrite in_app_iff; auto.
  - destruct H as [->|?]; cbn; auto.
  - destruct H0; auto.
  - destruct H0 as [|[_ ?]]; rewrite in_app_iff; auto.
  - cbn in H. subst. cbn. auto.
  - destruct H1 as [[_ ?]|?]; rewrite in_app_iff; auto.
  - destruct H.
Qed.

Lemma uses_scope :
  (forall e w, In w (uses e) -> free w e \/ In w (bv e)) /\
  (forall B w, In w (uses_funs B) -> free_body w B \/ In w (bv_funs B)).
Proof.
  apply exp_fundefs_ind; intros; cbn [uses uses_funs bv bv_funs] in *.
  - rewrite in_app_iff in H0. cbn [free In]. destruct (Pos.eq_dec w x) as [->|]; [auto|]. destruct H0 as [|K]; [auto|]. destruct (H w K); auto.
  - rewrite free_Ecase. destruct H0 as [->|K]; [auto|].
    assert (Z : free_case w l \/ In w (flat_map (fun p => bv (snd p)) l)).
    { induction H as [|[t e] l He _ IH]; cbn in *; [tauto|]. rewrite in_app_iff in *.
      destruct K as [K|K]; [destruct (He w K); auto|destruct (IH K); auto]. }
    tauto.
  - cbn [free In]. destruct (Pos.eq_dec w x) as [->|]; [auto|]. destruct H0 as [->|K]; [auto|]. destruct (H w K); auto.
  - cbn [free In]. destruct (Pos.eq_dec w x) as [->|]; [auto|]. cbn in H0. rewrite in_app_iff in H0.
    destruct H0 as [->|[K|K]]; [auto|auto|]. destruct (H w K); auto.
  - cbn [free]. rewrite in_app_iff in *. destruct (in_dec Pos.eq_dec w (fnames B)) as [I|N].
    + right. left. apply fnames_bv. auto.
    + destruct H1 as [K|K]; [destruct (H w K)|destruct (H0 w K)]; auto.
  - cbn. cbn in H. destruct H as [->|]; auto.
  - cbn [free In]. destruct (Pos.eq_dec w x) as [->|]; [auto|]. destruct (H w H0); auto.
  - rewrite in_app_iff in H0. cbn [free In]. destruct (Pos.eq_dec w x) as [->|]; [auto|]. destruct H0 as [|K]; [auto|]. destruct (H w K); auto.
  - cbn in *. destruct H as [->|[]]. auto.
  - cbn [free_body In]. rewrite !in_app_iff in *. destruct (in_dec Pos.eq_dec w xs) as [I|N]; [auto|].
    destruct H1 as [K|K]; [destruct (H w K)|destruct (H0 w K)]; auto.
  - destruct H.
Qed.

Lemma duses_scope d w : In w (duses d) -> fvd d w \/ In w (ownd d).
Proof.
  destruct d as [[[f t] xs] m]. cbn. rewrite in_app_iff. intro I. destruct (in_dec Pos.eq_dec w xs) as [|N]; [auto|].
  destruct (proj1 uses_scope m w I); auto.
Qed.
Lemma fvd_uses d w : fvd d w -> In w (duses d).
Proof. destruct d as [[[f t] xs] m]. cbn. intros [F _]. apply uses_free. exact F. Qed.

Lemma arl_app sig l1 l2 : apply_r_list sig (l1 ++ l2) = apply_r_list sig l1 ++ apply_r_list sig l2.
Proof. apply map_app. Qed.
Lemma arl_In sig l z : In z (apply_r_list sig l) <-> exists w, apply_r sig w = z /\ In w l.
Proof. apply in_map_iff. Qed.

(** ** Sums over the known functions that are not inlined yet *)
Fixpoint psum (im : b_map) (P : list fdef) (g : fdef -> nat) : nat :=
  match P with
  | [] => 0
  | d :: P => (if get_b (fname d) im then 0 else g d) + psum im P g
  end.

Definition live (im : b_map) (P : list fdef) (d : fdef) : Prop := In d P /\ get_b (fname d) im = false.

Lemma psum_ext im P g g' : (forall d, live im P d -> g d = g' d) -> psum im P g = psum im P g'.
Proof.
  induction P as [|d P IH]; cbn; intros H; [auto|].
  destruct (get_b (fname d) im) eqn:E; [|rewrite (H d)]; [| |split; [left; auto|auto]];
    f_equal; apply IH; intros d' [I L]; apply H; split; [right; auto|auto|right; auto|auto].
Qed.
Lemma psum_le im im' P g : ble im im' -> psum im' P g <= psum im P g.
Proof.
  intros B. induction P as [|d P IH]; cbn; [lia|].
  destruct (get_b (fname d) im) eqn:E; [rewrite (B _ E); lia|]. destruct (get_b (fname d) im'); lia.
Qed.
Lemma psum_app im P Q g : psum im (P ++ Q) g = psum im P g + psum im Q g.
Proof. induction P; cbn; lia. Qed.
Lemma psum_In im P g d : live im P d -> g d <= psum im P g.
Proof.
  induction P as [|d' P IH]; intros [I L]; cbn; [destruct I|].
  destruct I as [->|I]; [rewrite L; lia|]. specialize (IH (conj I L)). lia.
Qed.
Lemma psum_pos im P g : psum im P g > 0 -> exists d, live im P d /\ g d > 0.
Proof.
  induction P as [|d' P IH]; cbn; [lia|]. intro H. destruct (get_b (fname d') im) eqn:E.
  - destruct (IH H) as (d & [I L] & K). exists d. split; [split; [right; auto|auto]|auto].
  - destruct (Nat.eq_dec (g d') 0) as [Z|Z].
    + destruct IH as (d & [I L] & K); [lia|]. exists d. split; [split; [right; auto|auto]|auto].
    + exists d'. split; [split; [left; auto|auto]|lia].
Qed.
Lemma psum_keep im P g f : ~ In f (map fname P) -> psum (set f true im) P g = psum im P g.
Proof.
  induction P as [|d P IH]; cbn; intro N; [auto|]. rewrite get_b_set. destruct (Pos.eq_dec (fname d) f) as [E|]; [exfalso; apply N; left; exact E|].
  rewrite IH by (intro; apply N; right; auto). reflexivity.
Qed.
Lemma psum_set im P g d : NoDup (map fname P) -> live im P d ->
  psum im P g = g d + psum (set (fname d) true im) P g.
Proof.
  induction P as [|d' P IH]; intros ND [I L]; cbn in *; [destruct I|]. inversion ND as [|? ? N1 N2]; subst.
  rewrite get_b_set. destruct I as [->|I].
  - rewrite L. destruct (Pos.eq_dec (fname d) (fname d)); [|congruence]. rewrite psum_keep by auto. lia.
  - destruct (Pos.eq_dec (fname d') (fname d)) as [E|_].
    + exfalso. apply N1. rewrite E. apply in_map. auto.
    + rewrite (IH N2 (conj I L)). lia.
Qed.
Lemma live_le im im' P d : ble im im' -> live im' P d -> live im P d.
Proof. intros B [I L]. split; [auto|]. destruct (get_b (fname d) im) eqn:E; [|auto]. rewrite (B _ E) in L. discriminate. Qed.

Definition pocc (sig : subst) im P (z : var) : nat := psum im P (fun d => cnt z (apply_r_list sig (duses d))).
Definition pbv im P (z : var) : nat := psum im P (fun d => cnt z (ownd d)).
Definition bnd (be : list var) im P (z : var) : nat := cnt z be + pbv im P z.

(** variables the reducer may have to know about *)
Definition need (fe : var -> Prop) (sub : ctx_map) im P (w : var) : Prop :=
  fe w \/ (exists d, live im P d /\ fvd d w) \/ (exists c t ys, get c sub = Some (SVconstr t ys) /\ In w ys).

(** [R]: uses in the part of the program that is not looked at; [ue], [be],
    [fe]: used, bound and free variables of the current term *)
Record inv (R : var -> nat) (sig : subst) (count : c_map) (ue be : list var) (fe : var -> Prop)
       (sub : ctx_map) (im : b_map) (P : list fdef) : Prop := {
  i_cnt : forall z, R z + cnt z (apply_r_list sig ue) + pocc sig im P z <= get_c z count;
  i_uniq : forall z, bnd be im P z <= 1;
  i_need : forall w, need fe sub im P w -> bnd be im P w = 0 /\ bnd be im P (apply_r sig w) = 0;
  i_sub : forall z, bnd be im P z > 0 -> get z sub = None;
  i_sig : forall z, bnd be im P z > 0 -> apply_r sig z = z;
  i_R : forall z, bnd be im P z > 0 -> R z = 0;
  i_im : forall z, bnd be im P z > 0 -> get_b z im = false;
  i_args : forall c t ys y, get c sub = Some (SVconstr t ys) -> In y ys -> R (apply_r sig y) > 0;
  i_funs : forall f t xs m, get f sub = Some (SVfun t xs m) -> get_b f im = false -> In (f, t, xs, m) P;
  i_name : forall d, In d P -> bnd be im P (fname d) = 0;
  i_nd : NoDup (map fname P);
  i_uf : forall w, fe w -> In w ue;
  i_us : forall w, In w ue -> fe w \/ In w be
}.

Definition is_fun (o : option svalue) : Prop := exists t xs m, o = Some (SVfun t xs m).

Record post (R : var -> nat) (sig : subst) (be : list var) (fe : var -> Prop) (sub : ctx_map) (im : b_map) (P : list fdef)
       (ue' be' : list var) (fe' : var -> Prop) (count' : c_map) (im' : b_map) : Prop := {
  p_im : ble im im';
  p_new : forall f, get_b f im = false -> get_b f im' = true -> is_fun (get f sub) \/ (bnd be im P f > 0 /\ pbv im' P f = 0);
  p_dead : forall d, live im P d -> get_b (fname d) im' = true ->
             R (fname d) = 0 /\ cnt (fname d) ue' = 0 /\ pocc sig im' P (fname d) = 0;
  p_cnt : forall z, R z + cnt z ue' + pocc sig im' P z <= get_c z count';
  p_bv : forall z, cnt z be' + pbv im' P z <= bnd be im P z;
  p_free : forall z, fe' z -> exists w, need fe sub im P w /\ z = apply_r sig w
}.

Definition inve R sig count e sub im P := inv R sig count (uses e) (bv e) (fun w => free w e) sub im P.
Definition poste R sig e sub im P e' count' im' :=
  post R sig (bv e) (fun w => free w e) sub im P (uses e') (bv e') (fun w => free w e') count' im'.

(** ** Consequences *)
Lemma need_mono (fe fe' : var -> Prop) sub im im' P w : (forall z, fe' z -> fe z) -> ble im im' ->
  need fe' sub im' P w -> need fe sub im P w.
Proof.
  intros F B [H|[(d & L & V)|H]]; [left; auto|right; left; exists d; split; [eapply live_le; eauto|auto]|right; right; auto].
Qed.

Lemma pocc_sig sig sig' im P z : (forall w, (exists d, live im P d /\ In w (duses d)) -> apply_r sig' w = apply_r sig w) ->
  pocc sig' im P z = pocc sig im P z.
Proof. intro H. apply psum_ext. intros d L. f_equal. apply map_ext_in. intros w I. apply H. eauto. Qed.

Lemma pocc_le sig im im' P z : ble im im' -> pocc sig im' P z <= pocc sig im P z.
Proof. apply psum_le. Qed.
Lemma pbv_le im im' P z : ble im im' -> pbv im' P z <= pbv im P z.
Proof. apply psum_le. Qed.
Lemma bnd_le (be be' : list var) im im' P z : ble im im' -> cnt z be' <= cnt z be -> bnd be' im' P z <= bnd be im P z.
Proof. intros B L. unfold bnd. pose proof (pbv_le im im' P z B). lia. Qed.

Lemma live_uses sig count ue be fe sub im P R d w : inv R sig count ue be fe sub im P -> live im P d -> In w (duses d) ->
  need fe sub im P w \/ pbv im P w > 0.
Proof.
  intros I L U. destruct (duses_scope d w U) as [V|O].
  - left. right. left. eauto.
  - right. apply cnt_In in O. pose proof (psum_In im P (fun d => cnt w (ownd d)) d L). unfold pbv. lia.
Qed.

(** a variable that is not used anywhere stays so *)
Lemma dead_stays R sig count ue be fe sub im P ue' be' fe' count' im' z :
  inv R sig count ue be fe sub im P -> post R sig be fe sub im P ue' be' fe' count' im' ->
  (forall w, In w ue' -> fe' w \/ In w be') ->
  R z = 0 -> cnt z (apply_r_list sig ue) = 0 -> pocc sig im P z = 0 -> bnd be im P z = 0 -> cnt z ue' = 0.
Proof.
  intros I Q S R0 U0 P0 B0. apply cnt_notIn. intro J. destruct (S z J) as [F|B].
  - destruct (p_free _ _ _ _ _ _ _ _ _ _ _ _ Q z F) as (w & N & ->).
    destruct N as [N|[(d & L & V)|(c & t & ys & G & V)]].
    + apply (i_uf _ _ _ _ _ _ _ _ _ I) in N. apply cnt_notIn in U0. apply U0. apply in_map. auto.
    + apply fvd_uses in V. pose proof (psum_In im P (fun d => cnt (apply_r sig w) (apply_r_list sig (duses d))) d L) as K.
      cbn in K. unfold pocc in P0. assert (Z : cnt (apply_r sig w) (apply_r_list sig (duses d)) > 0) by (apply cnt_In, in_map; auto). lia.
    + pose proof (i_args _ _ _ _ _ _ _ _ _ I _ _ _ _ G V). lia.
  - apply cnt_In in B. pose proof (p_bv _ _ _ _ _ _ _ _ _ _ _ _ Q z). lia.
Qed.

(** ** Steps into a part of the program

    [N]: the variables bound on the way *)
Section Step.
  Variables (R : var -> nat) (sig : subst) (count : c_map) (ue be : list var) (fe : var -> Prop)
    (sub : ctx_map) (im : b_map) (P : list fdef).
  Hypothesis I : inv R sig count ue be fe sub im P.
  Notation nd := (need fe sub im P).

  Variables (N : list var) (R1 : var -> nat) (sig1 : subst) (count1 : c_map) (ue1 be1 : list var) (fe1 : var -> Prop)
    (sub1 : ctx_map) (im1 : b_map).
  Hypothesis Hb : forall z, bnd be1 im1 P z + cnt z N <= bnd be im P z.
  Hypothesis Hble : ble im im1.
  Hypothesis Hfe : forall w, fe1 w -> nd w \/ In w N.
  Hypothesis Hsub : forall z, get z sub1 = get z sub \/
    (In z N /\ exists t ys, get z sub1 = Some (SVconstr t ys) /\ forall y, In y ys -> nd y /\ R1 (apply_r sig y) > 0).
  Hypothesis Hsig : forall z, ~ In z N -> apply_r sig1 z = apply_r sig z.
  Hypothesis HsigN : forall z, In z N -> apply_r sig1 z = z \/ exists w, nd w /\ apply_r sig1 z = apply_r sig w.
  Hypothesis HRle : forall z, R z <= R1 z.

  Lemma nd_N w : nd w -> ~ In w N /\ ~ In (apply_r sig w) N.
  Proof.
    intro H. destruct (i_need _ _ _ _ _ _ _ _ _ I w H) as [A B]. pose proof (Hb w). pose proof (Hb (apply_r sig w)).
    split; rewrite cnt_notIn; lia.
  Qed.

  Lemma step_need w : need fe1 sub1 im1 P w -> nd w \/ In w N.
  Proof.
    intros [H|[(d & L & V)|(c & t & ys & G & Y)]]; [auto| |].
    - left. right. left. exists d. split; [eapply live_le; eauto|auto].
    - destruct (Hsub c) as [E|(_ & t' & ys' & E & H)].
      + rewrite E in G. left. right. right. eauto.
      + rewrite E in G. injection G as <- <-. left. apply H. auto.
  Qed.

  Lemma live_N d w : live im1 P d -> In w (duses d) -> ~ In w N.
  Proof.
    intros L U. destruct (duses_scope d w U) as [V|O].
    - apply nd_N. right. left. exists d. split; [eapply live_le; eauto|auto].
    - rewrite cnt_notIn. apply cnt_In in O. pose proof (psum_In im1 P (fun d => cnt w (ownd d)) d L).
      pose proof (Hb w). pose proof (i_uniq _ _ _ _ _ _ _ _ _ I w). unfold bnd, pbv in *. lia.
  Qed.

  Lemma step_pocc im' z : ble im1 im' -> pocc sig1 im' P z = pocc sig im' P z.
  Proof. intro B. apply pocc_sig. intros w (d & L & U). apply Hsig. eapply live_N; [eapply live_le; eauto|auto]. Qed.

  Lemma step_need' w : need fe1 sub1 im1 P w -> nd w \/ (In w N /\ fe1 w).
  Proof.
    intros Nw. destruct Nw as [Nw|Nw]; [destruct (Hfe w Nw); auto|].
    left. destruct (step_need w (or_intror Nw)) as [K|K]; [auto|]. exfalso.
    destruct Nw as [(d & L & V)|(c & t & ys & G & Y)].
    - apply (live_N d w L); [apply fvd_uses; auto|auto].
    - destruct (Hsub c) as [E|(_ & t' & ys' & E & H)].
      + rewrite E in G. apply (proj1 (nd_N w ltac:(right; right; eauto)) K).
      + rewrite E in G. injection G as <- <-. apply (proj1 (nd_N w (proj1 (H w Y))) K).
  Qed.

  Lemma inv_step :
    (forall z, R1 z + cnt z (apply_r_list sig1 ue1) + pocc sig im1 P z <= get_c z count1) ->
    (forall z, bnd be1 im1 P z > 0 -> R1 z = 0) ->
    (forall z, get_b z im1 = true -> get_b z im = true \/ bnd be1 im1 P z = 0) ->
    (forall w, fe1 w -> In w ue1) -> (forall w, In w ue1 -> fe1 w \/ In w be1) ->
    inv R1 sig1 count1 ue1 be1 fe1 sub1 im1 P.
  Proof.
    intros HC HR HI U1 U2.
    assert (B1 : forall z, bnd be1 im1 P z > 0 -> bnd be im P z > 0 /\ ~ In z N).
    { intros z K. pose proof (Hb z). pose proof (i_uniq _ _ _ _ _ _ _ _ _ I z). split; [lia|]. rewrite cnt_notIn. lia. }
    constructor; auto.
    - intro z. rewrite step_pocc by apply ble_refl. apply HC.
    - intro z. pose proof (Hb z). pose proof (i_uniq _ _ _ _ _ _ _ _ _ I z). lia.
    - intros w H. destruct (step_need w H) as [K|K].
      + destruct (i_need _ _ _ _ _ _ _ _ _ I w K) as [A B]. rewrite Hsig by (apply nd_N; auto).
        pose proof (Hb w). pose proof (Hb (apply_r sig w)). lia.
      + assert (Z : bnd be1 im1 P w = 0).
        { pose proof (Hb w). pose proof (i_uniq _ _ _ _ _ _ _ _ _ I w). apply cnt_In in K. lia. }
        split; [auto|]. destruct (HsigN w K) as [->|(w' & K' & ->)]; [auto|].
        destruct (i_need _ _ _ _ _ _ _ _ _ I w' K') as [A B]. pose proof (Hb (apply_r sig w')). lia.
    - intros z K. destruct (B1 z K) as [K1 K2]. destruct (Hsub z) as [->|(K3 & _)]; [|tauto].
      eapply i_sub; eauto.
    - intros z K. destruct (B1 z K) as [K1 K2]. rewrite Hsig by auto. eapply i_sig; eauto.
    - intros z K. destruct (get_b z im1) eqn:E; [|auto]. destruct (HI z E) as [E'|E']; [|lia].
      destruct (B1 z K) as [K1 _]. rewrite (i_im _ _ _ _ _ _ _ _ _ I z K1) in E'. discriminate.
    - intros c t ys y G Y. destruct (Hsub c) as [E|(_ & t' & ys' & E & H)].
      + rewrite E in G. assert (K : nd y) by (right; right; eauto).
        rewrite Hsig by (apply nd_N; auto). pose proof (i_args _ _ _ _ _ _ _ _ _ I c t ys y G Y).
        pose proof (HRle (apply_r sig y)). lia.
      + rewrite E in G. injection G as <- <-. destruct (H y Y) as [K1 K2]. rewrite Hsig by (apply nd_N; auto). auto.
    - intros f t xs m G L. destruct (Hsub f) as [E|(_ & t' & ys' & E & H)].
      + rewrite E in G. eapply i_funs; eauto. destruct (get_b f im) eqn:Ei; [|auto]. rewrite (Hble _ Ei) in L. discriminate.
      + rewrite E in G. discriminate.
    - intros d D. pose proof (Hb (fname d)). pose proof (i_name _ _ _ _ _ _ _ _ _ I d D). lia.
    - eapply i_nd; eauto.
  Qed.

  Variables (ue1' be1' : list var) (fe1' : var -> Prop) (count1' : c_map) (im' : b_map).
  Hypothesis Q : post R1 sig1 be1 fe1 sub1 im1 P ue1' be1' fe1' count1' im'.

  Lemma post_step (ue' be' : list var) (fe' : var -> Prop) (count' : c_map) :
    (forall f, get_b f im = false -> get_b f im1 = true -> is_fun (get f sub)) ->
    (forall d, live im P d -> get_b (fname d) im1 = true ->
       R (fname d) = 0 /\ cnt (fname d) ue' = 0 /\ pocc sig im' P (fname d) = 0) ->
    (forall z, R z + cnt z ue' <= R1 z + cnt z ue1') ->
    (forall z, R1 z + cnt z ue1' + pocc sig im' P z <= get_c z count1' -> R z + cnt z ue' + pocc sig im' P z <= get_c z count') ->
    (forall z, cnt z be' <= cnt z be1' + cnt z N) ->
    (forall z, fe' z -> (exists w, nd w /\ z = apply_r sig w) \/ (fe1' z /\ (In z N -> fe1 z -> apply_r sig1 z <> z))) ->
    post R sig be fe sub im P ue' be' fe' count' im'.
  Proof.
    intros H1 H2 H3 H4 H5 H6. pose proof (p_im _ _ _ _ _ _ _ _ _ _ _ _ Q) as B. constructor.
    - eapply ble_trans; eauto.
    - intros f E E'. destruct (get_b f im1) eqn:E1; [auto|].
      destruct (p_new _ _ _ _ _ _ _ _ _ _ _ _ Q f E1 E') as [K|[K1 K2]].
      + destruct (Hsub f) as [<-|(_ & t & ys & G & _)]; [auto|]. destruct K as (? & ? & ? & K). congruence.
      + right. split; [|auto]. pose proof (Hb f). lia.
    - intros d L E'. destruct (get_b (fname d) im1) eqn:E1; [auto|].
      destruct (p_dead _ _ _ _ _ _ _ _ _ _ _ _ Q d (conj (proj1 L) E1) E') as (K1 & K2 & K3).
      rewrite step_pocc in K3 by auto. pose proof (H3 (fname d)). split; [|split]; lia || auto.
    - intro z. apply H4. rewrite <- (step_pocc im') by auto. eapply p_cnt; eauto.
    - intro z. pose proof (p_bv _ _ _ _ _ _ _ _ _ _ _ _ Q z). pose proof (H5 z). pose proof (Hb z). lia.
    - intros z F. destruct (H6 z F) as [K|[K1 K2]]; [auto|].
      destruct (p_free _ _ _ _ _ _ _ _ _ _ _ _ Q z K1) as (w & Nw & ->).
      destruct (step_need' w Nw) as [K|[K F1]].
      + exists w. split; [auto|]. apply Hsig. apply nd_N. auto.
      + destruct (HsigN w K) as [E|(w' & K' & E)]; [|eauto].
        exfalso. rewrite E in K2. apply (K2 K F1 E).
  Qed.
End Step.

(** ** Two parts of the program, one after the other *)
Section Seq.
  Variables (R : var -> nat) (sig : subst) (count : c_map) (ueA beA ueB beB : list var) (feA feB : var -> Prop)
    (sub : ctx_map) (im : b_map) (P : list fdef).
  Hypothesis I : inv R sig count (ueA ++ ueB) (beA ++ beB) (fun w => feA w \/ feB w) sub im P.
  Hypothesis UA : forall w, (feA w -> In w ueA) /\ (In w ueA -> feA w \/ In w beA).
  Hypothesis UB : forall w, (feB w -> In w ueB) /\ (In w ueB -> feB w \/ In w beB).
  Definition RA z := R z + cnt z (apply_r_list sig ueB).

  Lemma seq_A : inv RA sig count ueA beA feA sub im P.
  Proof.
    apply (inv_step R sig count (ueA ++ ueB) (beA ++ beB) (fun w => feA w \/ feB w) sub im P I []); unfold RA; auto.
    - intro z. unfold bnd. rewrite cnt_app. cbn. lia.
    - apply ble_refl.
    - intros w F. left. left. auto.
    - intros z [].
    - intro z. lia.
    - intro z. pose proof (i_cnt _ _ _ _ _ _ _ _ _ I z) as C. rewrite arl_app, cnt_app in C. lia.
    - intros z K. destruct (Nat.eq_dec (cnt z (apply_r_list sig ueB)) 0) as [E|E].
      + rewrite E. rewrite (i_R _ _ _ _ _ _ _ _ _ I z); [auto|]. unfold bnd in *. rewrite cnt_app. lia.
      + exfalso. pose proof (i_uniq _ _ _ _ _ _ _ _ _ I z) as UQ. unfold bnd in *. rewrite cnt_app in UQ.
        assert (C : cnt z (apply_r_list sig ueB) > 0) by lia. apply cnt_In in C. apply in_map_iff in C as (w & <- & U).
        destruct (proj2 (UB w) U) as [F|F].
        * destruct (i_need _ _ _ _ _ _ _ _ _ I w) as [Z1 Z2]; [left; auto|]. unfold bnd in *. rewrite cnt_app in Z2. lia.
        * apply cnt_In in F. assert (E' : apply_r sig w = w).
          { apply (i_sig _ _ _ _ _ _ _ _ _ I). unfold bnd. rewrite cnt_app. lia. }
          rewrite E' in *. lia.
    - intro w. apply UA.
    - intro w. apply UA.
  Qed.

  Variables (ueA' beA' : list var) (feA' : var -> Prop) (count1 : c_map) (im1 : b_map).
  Hypothesis QA : post RA sig beA feA sub im P ueA' beA' feA' count1 im1.
  Hypothesis UA' : forall w, In w ueA' -> feA' w \/ In w beA'.
  Definition RB z := R z + cnt z ueA'.

  Lemma seq_B : inv RB sig count1 ueB beB feB sub im1 P.
  Proof.
    pose proof (p_im _ _ _ _ _ _ _ _ _ _ _ _ QA) as B.
    apply (inv_step R sig count (ueA ++ ueB) (beA ++ beB) (fun w => feA w \/ feB w) sub im P I []); unfold RB; auto.
    - intro z. unfold bnd. rewrite cnt_app. pose proof (pbv_le im im1 P z B). cbn. lia.
    - intros w F. left. left. auto.
    - intros z [].
    - intro z. lia.
    - intro z. pose proof (p_cnt _ _ _ _ _ _ _ _ _ _ _ _ QA z) as C. unfold RA in C. lia.
    - intros z K. assert (K' : bnd (beA ++ beB) im P z > 0).
      { unfold bnd in *. rewrite cnt_app. pose proof (pbv_le im im1 P z B). lia. }
      rewrite (i_R _ _ _ _ _ _ _ _ _ I z K'). destruct (Nat.eq_dec (cnt z ueA') 0) as [E|E]; [lia|exfalso].
      assert (C : In z ueA') by (apply cnt_In; lia). destruct (UA' z C) as [F|F].
      + destruct (p_free _ _ _ _ _ _ _ _ _ _ _ _ QA z F) as (w & Nw & ->).
        destruct (i_need _ _ _ _ _ _ _ _ _ I w) as [Z1 Z2]; [|lia].
        eapply need_mono; [| |exact Nw]; [cbn; auto|apply ble_refl].
      + apply cnt_In in F. pose proof (p_bv _ _ _ _ _ _ _ _ _ _ _ _ QA z) as PB.
        pose proof (i_uniq _ _ _ _ _ _ _ _ _ I z) as UQ. unfold bnd in *. rewrite cnt_app in UQ. lia.
    - intros z E1. destruct (get_b z im) eqn:E; [auto|right].
      destruct (p_new _ _ _ _ _ _ _ _ _ _ _ _ QA z E E1) as [(t & xs & m & K)|[K1 K2]].
      + destruct (Nat.eq_dec (bnd beB im1 P z) 0) as [|NZ]; [auto|exfalso].
        assert (K' : bnd (beA ++ beB) im P z > 0).
        { unfold bnd in *. rewrite cnt_app. pose proof (pbv_le im im1 P z B). lia. }
        rewrite (i_sub _ _ _ _ _ _ _ _ _ I z K') in K. discriminate.
      + pose proof (i_uniq _ _ _ _ _ _ _ _ _ I z) as UQ. unfold bnd in *. rewrite cnt_app in UQ. lia.
    - intro w. apply UB.
    - intro w. apply UB.
  Qed.

  Variables (ueB' beB' : list var) (feB' : var -> Prop) (count2 : c_map) (im2 : b_map).
  Hypothesis QB : post RB sig beB feB sub im1 P ueB' beB' feB' count2 im2.
  Hypothesis UB' : forall w, In w ueB' -> feB' w \/ In w beB'.

  Lemma seq_post : post R sig (beA ++ beB) (fun w => feA w \/ feB w) sub im P (ueA' ++ ueB') (beA' ++ beB')
                     (fun w => feA' w \/ feB' w) count2 im2.
  Proof.
    pose proof (p_im _ _ _ _ _ _ _ _ _ _ _ _ QA) as BA. pose proof (p_im _ _ _ _ _ _ _ _ _ _ _ _ QB) as BB.
    pose proof seq_B as IB. constructor.
    - eapply ble_trans; eauto.
    - intros f E E2. destruct (get_b f im1) eqn:E1.
      + destruct (p_new _ _ _ _ _ _ _ _ _ _ _ _ QA f E E1) as [K|[K1 K2]]; [auto|right].
        unfold bnd in *. rewrite cnt_app. pose proof (pbv_le im1 im2 P f BB). lia.
      + destruct (p_new _ _ _ _ _ _ _ _ _ _ _ _ QB f E1 E2) as [K|[K1 K2]]; [auto|right].
        unfold bnd in *. rewrite cnt_app. pose proof (pbv_le im im1 P f BA). lia.
    - intros d L E2. rewrite cnt_app. destruct (get_b (fname d) im1) eqn:E1.
      + destruct (p_dead _ _ _ _ _ _ _ _ _ _ _ _ QA d L E1) as (K1 & K2 & K3). unfold RA in K1.
        assert (Z : cnt (fname d) ueB' = 0).
        { apply (dead_stays _ _ _ _ _ _ _ _ _ _ _ _ _ _ _ IB QB UB').
          - unfold RB. lia.
          - lia.
          - exact K3.
          - eapply i_name; [exact IB|apply L]. }
        pose proof (pocc_le sig im1 im2 P (fname d) BB). lia.
      + destruct (p_dead _ _ _ _ _ _ _ _ _ _ _ _ QB d (conj (proj1 L) E1) E2) as (K1 & K2 & K3). unfold RB in K1. lia.
    - intro z. pose proof (p_cnt _ _ _ _ _ _ _ _ _ _ _ _ QB z) as C. unfold RB in C. rewrite cnt_app. lia.
    - intro z. pose proof (p_bv _ _ _ _ _ _ _ _ _ _ _ _ QA z) as A. pose proof (p_bv _ _ _ _ _ _ _ _ _ _ _ _ QB z) as C.
      unfold bnd in *. rewrite !cnt_app. lia.
    - intros z [F|F].
      + destruct (p_free _ _ _ _ _ _ _ _ _ _ _ _ QA z F) as (w & Nw & ->). exists w. split; [|auto].
        eapply need_mono; [| |exact Nw]; [cbn; auto|apply ble_refl].
      + destruct (p_free _ _ _ _ _ _ _ _ _ _ _ _ QB z F) as (w & Nw & ->). exists w. split; [|auto].
        eapply need_mono; [| |exact Nw]; [cbn; auto|auto].
  Qed.
End Seq.
