(* Proofs about the de Bruijn language. *)
From Coq Require Import List NArith ZArith String Bool Lia.
From Verif Require Import LB_Model LB_Spec.
Import ListNotations.
Local Open Scope N_scope.

Ltac ndes :=
  repeat match goal with
  | |- context [?a <? ?b] => destruct (N.ltb_spec a b)
  | |- context [?a =? ?b] => destruct (N.eqb_spec a b)
  | H : context [?a <? ?b] |- _ => destruct (N.ltb_spec a b)
  | H : context [?a =? ?b] |- _ => destruct (N.eqb_spec a b)
  end.

Lemma ind_eqb_eq : forall i j, ind_eqb i j = true <-> i = j.
Proof.
  intros [a n] [b m]; unfold ind_eqb; cbn [fst snd].
  rewrite andb_true_iff, String.eqb_eq, Nat.eqb_eq.
  split; [intros [-> ->]; reflexivity | intros H; inversion H; auto].
Qed.

Lemma dcon_eqb_eq : forall d d', dcon_eqb d d' = true <-> d = d'.
Proof.
  intros [a n] [b m]; unfold dcon_eqb; cbn [fst snd].
  rewrite andb_true_iff, ind_eqb_eq, N.eqb_eq.
  split; [intros [-> ->]; reflexivity | intros H; inversion H; auto].
Qed.

Lemma dcon_eqb_refl : forall d, dcon_eqb d d = true.
Proof. intros; apply dcon_eqb_eq; reflexivity. Qed.

(* ---- lengths ---- *)

Lemma len_shift : forall es n k, efnlst_length (shift_fns n k es) = efnlst_length es.
Proof. induction es; intros; cbn [shift_fns efnlst_length]; [reflexivity | rewrite IHes; reflexivity]. Qed.

Lemma len_subst : forall es v k, efnlst_length (subst_efnlst v k es) = efnlst_length es.
Proof. induction es; intros; cbn [subst_efnlst efnlst_length]; [reflexivity | rewrite IHes; reflexivity]. Qed.

Lemma len_sbst : forall es v k, efnlst_length (sbst_efnlst v k es) = efnlst_length es.
Proof. induction es; intros; cbn [sbst_efnlst efnlst_length]; [reflexivity | rewrite IHes; reflexivity]. Qed.

Lemma len_nat : forall es, N.of_nat (efnlength es) = efnlst_length es.
Proof. induction es; cbn [efnlength efnlst_length]; lia. Qed.

(* ---- well-formedness against occurrence and shape ---- *)

Ltac wuse :=
  repeat match goal with
  | IH : (forall i, exp_wf i ?e <-> _), A : exp_wf _ ?e |- _ => apply IH in A; destruct A
  | IH : (forall i, exps_wf i ?e <-> _), A : exps_wf _ ?e |- _ => apply IH in A; destruct A
  | IH : (forall i, efnlst_wf i ?e <-> _), A : efnlst_wf _ ?e |- _ => apply IH in A; destruct A
  | IH : (forall i, branches_wf i ?e <-> _), A : branches_wf _ ?e |- _ => apply IH in A; destruct A
  end.
Ltac ouse :=
  let x := fresh "x" in let Hx := fresh "Hx" in
  intros x Hx; repeat (destruct Hx as [Hx|Hx]);
  match goal with
  | B : _, A : (forall x, _ -> x < _) |- _ => specialize (A _ B); unfold nargs in *; lia
  end.
Ltac fwd := let H := fresh in intros H; inversion H; subst; wuse.

Lemma wf_iff :
  (forall e i, exp_wf i e <-> (forall x, occurs x e -> x < i) /\ shaped e) /\
  (forall es i, exps_wf i es <-> (forall x, occurs_es x es -> x < i) /\ shaped_es es) /\
  (forall es i, efnlst_wf i es <-> (forall x, occurs_fs x es -> x < i) /\ shaped_fs es) /\
  (forall bs i, branches_wf i bs <-> (forall x, occurs_bs x bs -> x < i) /\ shaped_bs bs).
Proof.
  apply my_exp_ind.
  - intros n i; cbn [occurs shaped]; split.
    + fwd; split; [intros; subst; auto | exact I].
    + intros [H _]; constructor; apply H; reflexivity.
  - intros n e IH i; cbn [occurs shaped]; split.
    + fwd; split; [ouse | auto].
    + intros [H1 H2]; constructor; apply IH; split; [| auto].
      intros x Hx. destruct (N.eq_dec x 0) as [->|Hn]; [lia |].
      assert (occurs (x - 1 + 1) e) by (replace (x - 1 + 1) with x by lia; auto).
      specialize (H1 _ H). lia.
  - intros e1 IH1 e2 IH2 i; cbn [occurs shaped]; split.
    + fwd; split; [ouse | auto].
    + intros [H1 [H2 H3]]; constructor; [apply IH1 | apply IH2]; split; auto.
  - intros d es IH i; cbn [occurs shaped]; split.
    + fwd; auto.
    + intros H; constructor; apply IH; auto.
  - intros e IH p bs IHb i; cbn [occurs shaped]; split.
    + fwd; split; [ouse | auto].
    + intros [H1 [H2 H3]]; constructor; [apply IH | apply IHb]; split; auto.
  - intros n e1 IH1 e2 IH2 i; cbn [occurs shaped]; split.
    + fwd; split; [ouse | auto].
    + intros [H1 [H2 H3]]; constructor; [apply IH1 | apply IH2]; split; auto.
      intros x Hx. destruct (N.eq_dec x 0) as [->|Hn]; [lia |].
      assert (occurs (x - 1 + 1) e2) by (replace (x - 1 + 1) with x by lia; auto).
      specialize (H1 _ (or_intror H)). lia.
  - intros es IH k i; cbn [occurs shaped]; split.
    + fwd; split; [ouse | auto].
    + intros [H1 [H2 H3]]; constructor; auto. apply IH; split; auto.
      intros x Hx. destruct (N.ltb_spec x (efnlst_length es)); [lia |].
      assert (occurs_fs (x - efnlst_length es + efnlst_length es) es)
        by (replace (x - efnlst_length es + efnlst_length es) with x by lia; auto).
      specialize (H1 _ H0). lia.
  - intros i; split; [intros; split; [intros x [] | exact I] | constructor].
  - intros p i; split; [intros; split; [intros x [] | exact I] | constructor].
  - intros p i; split; [intros H; inversion H | intros [_ []]].
  - intros i; split; [intros; split; [intros x [] | exact I] | constructor].
  - intros e IH es IHs i; cbn [occurs_es shaped_es]; split.
    + fwd; split; [ouse | auto].
    + intros [H1 [H2 H3]]; constructor; [apply IH | apply IHs]; split; auto.
  - intros i; split; [intros; split; [intros x [] | exact I] | constructor].
  - intros n e IH es IHs i; cbn [occurs_fs shaped_fs]; split.
    + fwd; split; [ouse |]. split; auto.
      destruct e; cbn [isLambda] in *; try contradiction; auto.
    + intros [H1 [H2 H3]].
      assert (L : isLambda e) by (destruct e; try contradiction; exact I).
      assert (SH : shaped e) by (destruct e; try contradiction; exact H2).
      constructor; auto; [apply IH | apply IHs]; split; auto.
  - intros i; split; [intros; split; [intros x [] | exact I] | constructor].
  - intros d n e IH bs IHs i; cbn [occurs_bs shaped_bs]; split.
    + fwd; split; [ouse | auto].
    + intros [H1 [H2 H3]]; constructor; [apply IH | apply IHs]; split; auto.
      intros x Hx. unfold nargs. destruct (N.ltb_spec x (fst n)); [lia |].
      assert (occurs (x - fst n + fst n) e)
        by (replace (x - fst n + fst n) with x by lia; auto).
      specialize (H1 _ (or_introl H0)). lia.
Qed.

(* ---- occurrences after shifting and substituting ---- *)

Lemma shift_occurs :
  (forall e n k x, occurs x (shift n k e) <->
     (x < k /\ occurs x e) \/ (k + n <= x /\ occurs (x - n) e)) /\
  (forall es n k x, occurs_es x (shifts n k es) <->
     (x < k /\ occurs_es x es) \/ (k + n <= x /\ occurs_es (x - n) es)) /\
  (forall es n k x, occurs_fs x (shift_fns n k es) <->
     (x < k /\ occurs_fs x es) \/ (k + n <= x /\ occurs_fs (x - n) es)) /\
  (forall bs n k x, occurs_bs x (shift_branches n k bs) <->
     (x < k /\ occurs_bs x bs) \/ (k + n <= x /\ occurs_bs (x - n) bs)).
Proof.
  apply my_exp_ind; intros;
    cbn [shift shifts shift_fns shift_branches occurs occurs_es occurs_fs occurs_bs];
    rewrite ?len_shift; try tauto.
  - ndes; intuition lia.
  - rewrite H. replace (1 + k) with (k + 1) by lia.
    split; intros [[A B]|[A B]].
    + left; split; [lia | auto].
    + right; split; [lia | replace (x - n0 + 1) with (x + 1 - n0) by lia; auto].
    + left; split; [lia | auto].
    + right; split; [lia | replace (x + 1 - n0) with (x - n0 + 1) by lia; auto].
  - rewrite H, H0; tauto.
  - rewrite H; tauto.
  - rewrite H, H0; tauto.
  - rewrite H, H0. split; [intros [[[A B]|[A B]]|[[A B]|[A B]]] | intros [[A [B|B]]|[A [B|B]]]].
    + left; tauto.
    + right; tauto.
    + left; split; [lia | auto].
    + right; split; [lia | right; replace (x - n0 + 1) with (x + 1 - n0) by lia; auto].
    + left; left; split; auto.
    + right; left; split; [lia | auto].
    + left; right; split; [lia | auto].
    + right; right; split; [lia | replace (x + 1 - n0) with (x - n0 + 1) by lia; auto].
  - rewrite H. split; intros [[A B]|[A B]].
    + left; split; [lia | auto].
    + right; split; [lia |].
      replace (x - n0 + efnlst_length e) with (x + efnlst_length e - n0) by lia; auto.
    + left; split; [lia | auto].
    + right; split; [lia |].
      replace (x + efnlst_length e - n0) with (x - n0 + efnlst_length e) by lia; auto.
  - rewrite H, H0; tauto.
  - rewrite H, H0; tauto.
  - rewrite H, H0. unfold nargs. split; [intros [[[A B]|[A B]]|[[A B]|[A B]]] | intros [[A [B|B]]|[A [B|B]]]].
    + left; split; [lia | auto].
    + right; split; [lia | left; replace (x - n + fst p) with (x + fst p - n) by lia; auto].
    + left; tauto.
    + right; tauto.
    + left; left; split; [lia | auto].
    + right; left; split; auto.
    + left; right; split; [lia | replace (x + fst p - n) with (x - n + fst p) by lia; auto].
    + right; right; split; auto.
Qed.

Definition so (o : N -> Prop) (v : lexp) (k x : N) : Prop :=
  (x < k /\ o x) \/ (k <= x /\ o (x + 1)) \/ (k <= x /\ o k /\ occurs (x - k) v).

Lemma so_up : forall o v k x m,
  so o v (m + k) (x + m) <-> so (fun y => o (y + m)) v k x.
Proof.
  intros; unfold so.
  replace (x + m - (m + k)) with (x - k) by lia.
  replace (m + k) with (k + m) by lia.
  replace (x + m + 1) with (x + 1 + m) by lia.
  split; intros [[A B]|[[A B]|[A [B C]]]].
  - left; split; [lia | auto].
  - right; left; split; [lia | auto].
  - right; right; split; [lia | auto].
  - left; split; [lia | auto].
  - right; left; split; [lia | auto].
  - right; right; split; [lia | auto].
Qed.

Lemma so_or : forall o1 o2 v k x,
  so (fun y => o1 y \/ o2 y) v k x <-> so o1 v k x \/ so o2 v k x.
Proof. intros; unfold so; tauto. Qed.

Lemma subst_occurs' : forall v,
  (forall e k x, occurs x (subst v k e) <-> so (fun y => occurs y e) v k x) /\
  (forall es k x, occurs_es x (substs v k es) <-> so (fun y => occurs_es y es) v k x) /\
  (forall es k x, occurs_fs x (subst_efnlst v k es) <-> so (fun y => occurs_fs y es) v k x) /\
  (forall bs k x, occurs_bs x (subst_branches v k bs) <-> so (fun y => occurs_bs y bs) v k x).
Proof.
  intros v. apply my_exp_ind; intros;
    cbn [subst substs subst_efnlst subst_branches occurs occurs_es occurs_fs occurs_bs];
    rewrite ?len_subst; try (unfold so; tauto).
  - unfold so. ndes; cbn [occurs]; try (intuition lia).
    subst. rewrite (proj1 shift_occurs). replace (0 + k) with k by lia.
    split.
    + intros [[A B]|[A B]]; [lia | right; right; auto].
    + intros [[A B]|[[A B]|[A [B C]]]]; try lia. right; auto.
  - rewrite H. apply so_up.
  - rewrite H, H0, so_or. tauto.
  - apply H.
  - rewrite H, H0, so_or. tauto.
  - rewrite H, H0, so_or, so_up. tauto.
  - rewrite H. apply so_up.
  - rewrite H, H0, so_or. tauto.
  - rewrite H, H0, so_or. tauto.
  - rewrite H, H0, so_or. unfold nargs. rewrite so_up. tauto.
Qed.

(* ---- shapes ---- *)

Lemma shift_shaped :
  (forall e n k, shaped e -> shaped (shift n k e)) /\
  (forall es n k, shaped_es es -> shaped_es (shifts n k es)) /\
  (forall es n k, shaped_fs es -> shaped_fs (shift_fns n k es)) /\
  (forall bs n k, shaped_bs bs -> shaped_bs (shift_branches n k bs)).
Proof.
  apply my_exp_ind; intros;
    cbn [shift shifts shift_fns shift_branches shaped shaped_es shaped_fs shaped_bs] in *;
    rewrite ?len_shift; try solve [intuition auto].
  destruct H1 as [A B]; split; auto.
  destruct l; try contradiction. cbn [shift]. apply (H n0 k). exact A.
Qed.

Lemma subst_shaped : forall v, shaped v ->
  (forall e k, shaped e -> shaped (subst v k e)) /\
  (forall es k, shaped_es es -> shaped_es (substs v k es)) /\
  (forall es k, shaped_fs es -> shaped_fs (subst_efnlst v k es)) /\
  (forall bs k, shaped_bs bs -> shaped_bs (subst_branches v k bs)).
Proof.
  intros v Hv. apply my_exp_ind; intros;
    cbn [subst substs subst_efnlst subst_branches shaped shaped_es shaped_fs shaped_bs] in *;
    rewrite ?len_subst; try solve [intuition auto].
  - ndes; cbn [shaped]; auto. apply shift_shaped; auto.
  - destruct H1 as [A B]; split; auto.
    destruct l; try contradiction. cbn [subst]. apply (H k). exact A.
Qed.

Lemma sbst_shaped : forall v, shaped v ->
  (forall e k, shaped e -> shaped (sbst v k e)) /\
  (forall es k, shaped_es es -> shaped_es (sbsts v k es)) /\
  (forall es k, shaped_fs es -> shaped_fs (sbst_efnlst v k es)) /\
  (forall bs k, shaped_bs bs -> shaped_bs (sbst_branches v k bs)).
Proof.
  intros v Hv. apply my_exp_ind; intros;
    cbn [sbst sbsts sbst_efnlst sbst_branches shaped shaped_es shaped_fs shaped_bs] in *;
    rewrite ?len_sbst; try solve [intuition auto].
  - ndes; cbn [shaped]; auto.
  - destruct H1 as [A B]; split; auto.
    destruct l; try contradiction. cbn [sbst]. apply (H k). exact A.
Qed.

(* ---- well-scoped substitution of an open term ---- *)

Lemma wf_occurs : forall i e, exp_wf i e -> forall x, occurs x e -> x < i.
Proof. intros i e H; apply (proj1 wf_iff) in H; tauto. Qed.

Lemma wf_shaped : forall i e, exp_wf i e -> shaped e.
Proof. intros i e H; apply (proj1 wf_iff) in H; tauto. Qed.

Lemma subst_wf : forall i k e v,
  k <= i -> exp_wf (1 + i) e -> exp_wf (i - k) v -> exp_wf i (subst v k e).
Proof.
  intros i k e v Hk He Hv.
  apply (proj1 wf_iff); split.
  - intros x Hx. apply (proj1 (subst_occurs' v)) in Hx. unfold so in Hx.
    destruct Hx as [[A B]|[[A B]|[A [B C]]]].
    + lia.
    + apply (wf_occurs _ _ He) in B. lia.
    + apply (wf_occurs _ _ Hv) in C. lia.
  - apply (subst_shaped v (wf_shaped _ _ Hv)). apply (wf_shaped _ _ He).
Qed.

Lemma shift_wf : forall i n k e, exp_wf i e -> exp_wf (i + n) (shift n k e).
Proof.
  intros i n k e He. apply (proj1 wf_iff); split.
  - intros x Hx. apply (proj1 shift_occurs) in Hx.
    destruct Hx as [[A B]|[A B]]; apply (wf_occurs _ _ He) in B; lia.
  - apply shift_shaped. apply (wf_shaped _ _ He).
Qed.

Lemma weaken_wf : forall i j e, exp_wf i e -> i <= j -> exp_wf j e.
Proof.
  intros i j e H L. apply (proj1 wf_iff) in H as [A B]. apply (proj1 wf_iff).
  split; auto. intros x Hx. specialize (A _ Hx). lia.
Qed.

(* ---- shifting a variable out of reach ---- *)

Lemma shift_id :
  (forall e n k, (forall x, occurs x e -> x < k) -> shift n k e = e) /\
  (forall es n k, (forall x, occurs_es x es -> x < k) -> shifts n k es = es) /\
  (forall es n k, (forall x, occurs_fs x es -> x < k) -> shift_fns n k es = es) /\
  (forall bs n k, (forall x, occurs_bs x bs -> x < k) -> shift_branches n k bs = bs).
Proof.
  apply my_exp_ind; intros;
    cbn [shift shifts shift_fns shift_branches occurs occurs_es occurs_fs occurs_bs] in *;
    try reflexivity; f_equal; auto; try (solve [match goal with IH : _ |- _ => apply IH; auto end]).
  - specialize (H n eq_refl). ndes; [reflexivity | lia].
  - apply H. intros x Hx. destruct (N.eq_dec x 0); [lia |].
    replace x with (x - 1 + 1) in Hx by lia. apply H0 in Hx. lia.
  - apply H0. intros x Hx. destruct (N.eq_dec x 0); [lia |].
    replace x with (x - 1 + 1) in Hx by lia. specialize (H1 _ (or_intror Hx)). lia.
  - apply H. intros x Hx. destruct (N.ltb_spec x (efnlst_length e)); [lia |].
    replace x with (x - efnlst_length e + efnlst_length e) in Hx by lia.
    apply H0 in Hx. lia.
  - apply H. intros x Hx. unfold nargs. destruct (N.ltb_spec x (fst p)); [lia |].
    replace x with (x - fst p + fst p) in Hx by lia.
    specialize (H1 _ (or_introl Hx)). lia.
Qed.

Lemma sbst_subst : forall v, closed v ->
  (forall e k, sbst v k e = subst v k e) /\
  (forall es k, sbsts v k es = substs v k es) /\
  (forall es k, sbst_efnlst v k es = subst_efnlst v k es) /\
  (forall bs k, sbst_branches v k bs = subst_branches v k bs).
Proof.
  intros v Hv. apply my_exp_ind; intros;
    cbn [sbst sbsts sbst_efnlst sbst_branches subst substs subst_efnlst subst_branches];
    try reflexivity; f_equal; auto.
  ndes; try reflexivity.
  symmetry. apply shift_id. intros x Hx. destruct (Hv x Hx).
Qed.

Lemma subst_id : forall v,
  (forall e k, (forall x, occurs x e -> x < k) -> subst v k e = e) /\
  (forall es k, (forall x, occurs_es x es -> x < k) -> substs v k es = es) /\
  (forall es k, (forall x, occurs_fs x es -> x < k) -> subst_efnlst v k es = es) /\
  (forall bs k, (forall x, occurs_bs x bs -> x < k) -> subst_branches v k bs = bs).
Proof.
  intros v; apply my_exp_ind; intros;
    cbn [subst substs subst_efnlst subst_branches occurs occurs_es occurs_fs occurs_bs] in *;
    try reflexivity; try (f_equal; auto; try (solve [match goal with IH : _ |- _ => apply IH; auto end])).
  - specialize (H n eq_refl). ndes; [reflexivity | lia | lia].
  - apply H. intros x Hx. destruct (N.eq_dec x 0); [lia |].
    replace x with (x - 1 + 1) in Hx by lia. apply H0 in Hx. lia.
  - apply H0. intros x Hx. destruct (N.eq_dec x 0); [lia |].
    replace x with (x - 1 + 1) in Hx by lia. specialize (H1 _ (or_intror Hx)). lia.
  - apply H. intros x Hx. destruct (N.ltb_spec x (efnlst_length e)); [lia |].
    replace x with (x - efnlst_length e + efnlst_length e) in Hx by lia.
    apply H0 in Hx. lia.
  - apply H. intros x Hx. unfold nargs. destruct (N.ltb_spec x (fst p)); [lia |].
    replace x with (x - fst p + fst p) in Hx by lia.
    specialize (H1 _ (or_introl Hx)). lia.
Qed.

(* ---- commutation ---- *)

Lemma shift_0 :
  (forall e k, shift 0 k e = e) /\ (forall es k, shifts 0 k es = es) /\
  (forall es k, shift_fns 0 k es = es) /\ (forall bs k, shift_branches 0 k bs = bs).
Proof.
  apply my_exp_ind; intros; cbn [shift shifts shift_fns shift_branches];
    try reflexivity; f_equal; auto.
  ndes; lia.
Qed.

Lemma shift_twice :
  (forall e i j m n, i <= j -> j <= i + m -> shift n j (shift m i e) = shift (m + n) i e) /\
  (forall e i j m n, i <= j -> j <= i + m -> shifts n j (shifts m i e) = shifts (m + n) i e) /\
  (forall e i j m n, i <= j -> j <= i + m -> shift_fns n j (shift_fns m i e) = shift_fns (m + n) i e) /\
  (forall e i j m n, i <= j -> j <= i + m ->
     shift_branches n j (shift_branches m i e) = shift_branches (m + n) i e).
Proof.
  apply my_exp_ind; intros; cbn [shift shifts shift_fns shift_branches];
    rewrite ?len_shift; try reflexivity; f_equal; auto;
    try (match goal with IH : _ |- _ => apply IH; lia end).
  ndes; lia.
Qed.

Lemma shift_subst :
  (forall e i k j v, k <= j -> shift i k (subst v j e) = subst v (j + i) (shift i k e)) /\
  (forall e i k j v, k <= j -> shifts i k (substs v j e) = substs v (j + i) (shifts i k e)) /\
  (forall e i k j v, k <= j ->
     shift_fns i k (subst_efnlst v j e) = subst_efnlst v (j + i) (shift_fns i k e)) /\
  (forall e i k j v, k <= j ->
     shift_branches i k (subst_branches v j e) = subst_branches v (j + i) (shift_branches i k e)).
Proof.
  apply my_exp_ind; intros;
    cbn [shift shifts shift_fns shift_branches subst substs subst_efnlst subst_branches];
    rewrite ?len_shift, ?len_subst; try reflexivity;
    try (f_equal; auto).
  - ndes; cbn [shift]; ndes; try lia; try (f_equal; lia).
    apply shift_twice; lia.
  - rewrite H by lia; f_equal; lia.
  - rewrite H0 by lia; f_equal; lia.
  - rewrite H by lia; f_equal; lia.
  - rewrite H by lia; f_equal; lia.
Qed.

Lemma shift_away_subst :
  (forall e k i j v, k <= i -> i < k + (j + 1) -> subst v i (shift (1 + j) k e) = shift j k e) /\
  (forall e k i j v, k <= i -> i < k + (j + 1) -> substs v i (shifts (1 + j) k e) = shifts j k e) /\
  (forall e k i j v, k <= i -> i < k + (j + 1) ->
     subst_efnlst v i (shift_fns (1 + j) k e) = shift_fns j k e) /\
  (forall e k i j v, k <= i -> i < k + (j + 1) ->
     subst_branches v i (shift_branches (1 + j) k e) = shift_branches j k e).
Proof.
  apply my_exp_ind; intros;
    cbn [shift shifts shift_fns shift_branches subst substs subst_efnlst subst_branches];
    rewrite ?len_shift; try reflexivity; try (f_equal; auto);
    try (match goal with IH : _ |- _ => apply IH; lia end).
  ndes; cbn [shift]; try lia; f_equal; lia.
Qed.

Lemma substitution :
  (forall e u v i j, i <= j ->
     subst v j (subst u i e) = subst (subst v (j - i) u) i (subst v (1 + j) e)) /\
  (forall e u v i j, i <= j ->
     substs v j (substs u i e) = substs (subst v (j - i) u) i (substs v (1 + j) e)) /\
  (forall e u v i j, i <= j ->
     subst_efnlst v j (subst_efnlst u i e)
     = subst_efnlst (subst v (j - i) u) i (subst_efnlst v (1 + j) e)) /\
  (forall e u v i j, i <= j ->
     subst_branches v j (subst_branches u i e)
     = subst_branches (subst v (j - i) u) i (subst_branches v (1 + j) e)).
Proof.
  apply my_exp_ind; intros;
    cbn [subst substs subst_efnlst subst_branches];
    rewrite ?len_subst; try reflexivity;
    lazymatch goal with |- context [N.ltb] => idtac | _ => try (f_equal; auto) end.
  - ndes; cbn [subst]; ndes; try lia; try reflexivity; try (f_equal; lia).
    + subst. rewrite (proj1 shift_subst) by lia. f_equal; lia.
    + subst. replace (shift (1 + j) 0 v) with (shift (1 + j) 0 v) by reflexivity.
      rewrite (proj1 shift_away_subst) by lia. f_equal; lia.
  - rewrite H by lia. f_equal; try (f_equal; lia); lia.
  - rewrite H0 by lia. f_equal; try (f_equal; lia); lia.
  - rewrite H by lia. f_equal; try (f_equal; lia); lia.
  - rewrite H by lia. f_equal; try (f_equal; lia); lia.
Qed.
