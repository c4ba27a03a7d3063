(** Proofs: one substitution after the other is simultaneous substitution, for closed terms. *)
From Coq Require Import NArith List Bool Lia.
From Verif Require Import LB_Model LB_Spec LB_Proofs SU_Model SU_Spec.
Import ListNotations.
Local Open Scope N_scope.

Lemma psub_closed l :
  (forall n e, exp_wf n e -> forall k, n <= k -> psub l k e = e) /\
  (forall n e, exps_wf n e -> forall k, n <= k -> psubs l k e = e) /\
  (forall n e, efnlst_wf n e -> forall k, n <= k -> psub_fns l k e = e) /\
  (forall n e, branches_wf n e -> forall k, n <= k -> psub_brs l k e = e).
Proof.
  apply my_exp_wf_ind; intros; cbn [psub psubs psub_fns psub_brs]; try reflexivity;
    try (f_equal; match goal with H : forall k, _ -> ?f l k ?e = ?e |- ?f l _ ?e = ?e => apply H; unfold nargs; lia end).
  destruct (N.ltb_spec j k); [reflexivity|lia].
Qed.

Lemma psub_cons v l : exp_wf 0 v ->
  (forall e k, psub (v :: l) k e = psub l k (sbst v k e)) /\
  (forall e k, psubs (v :: l) k e = psubs l k (sbsts v k e)) /\
  (forall e k, psub_fns (v :: l) k e = psub_fns l k (sbst_efnlst v k e)) /\
  (forall e k, psub_brs (v :: l) k e = psub_brs l k (sbst_branches v k e)).
Proof.
  intro C.
  assert (LEN : forall k es, efnlst_length (sbst_efnlst v k es) = efnlst_length es).
  { intros k. induction es as [|f e es IH]; cbn [sbst_efnlst efnlst_length]; [reflexivity|]. rewrite IH. reflexivity. }
  apply my_exp_ind; intros; cbn [psub psubs psub_fns psub_brs sbst sbsts sbst_efnlst sbst_branches];
    try reflexivity.
  - destruct (N.ltb_spec n k) as [L|L].
    + cbn [psub]. destruct (N.ltb_spec n k); [reflexivity|lia].
    + destruct (N.eqb_spec n k) as [->|D].
      * rewrite N.sub_diag. cbn. symmetry. apply (proj1 (psub_closed l) 0 v C). lia.
      * cbn [psub]. destruct (N.ltb_spec (n - 1) k); [lia|].
        replace (N.to_nat (n - k)) with (S (N.to_nat (n - 1 - k))) by lia. cbn [nth_error].
        destruct (nth_error l (N.to_nat (n - 1 - k))); [reflexivity|]. f_equal. cbn [length]. lia.
  - rewrite H, (N.add_comm k 1). reflexivity.
  - rewrite H, H0. reflexivity.
  - rewrite H. reflexivity.
  - rewrite H, H0. reflexivity.
  - rewrite H, H0, (N.add_comm k 1). reflexivity.
  - rewrite H, LEN, (N.add_comm k). reflexivity.
  - rewrite H, H0. reflexivity.
  - rewrite H, H0. reflexivity.
  - rewrite H, H0. unfold nargs. rewrite (N.add_comm k). reflexivity.
Qed.

Lemma psub_nil :
  (forall e k, psub [] k e = e) /\ (forall e k, psubs [] k e = e) /\
  (forall e k, psub_fns [] k e = e) /\ (forall e k, psub_brs [] k e = e).
Proof.
  apply my_exp_ind; intros; cbn [psub psubs psub_fns psub_brs]; try reflexivity; try congruence.
  destruct (n <? k); [reflexivity|]. destruct (N.to_nat (n - k)); cbn; f_equal; lia.
Qed.

Lemma psub_fold : forall l e, Forall (exp_wf 0) l ->
  psub l 0 e = fold_left (fun ee v => sbst v 0 ee) l e.
Proof.
  induction l as [|v l IH]; intros e F; [apply psub_nil|]. inversion F; subst.
  rewrite (proj1 (psub_cons v l H1)). cbn. apply IH. assumption.
Qed.

Lemma real_list_psub l e : Forall (exp_wf 0) l -> sbst_real_list e l = psub (rev l) 0 e.
Proof.
  intro F. rewrite psub_fold by (apply Forall_rev; exact F). unfold sbst_real_list.
  rewrite <- fold_left_rev_right, rev_involutive. reflexivity.
Qed.

Lemma list_real vs e : sbst_list e vs = sbst_real_list e (exps_as_list vs).
Proof. induction vs as [|v vs IH]; cbn; [reflexivity|]. rewrite IH. reflexivity. Qed.

Lemma to_zero_rev n : list_to_zero n = rev (seq 0 n).
Proof. induction n as [|n IH]; [reflexivity|]. rewrite seq_S, rev_app_distr. cbn. rewrite IH. reflexivity. Qed.

Lemma fold_left_map {A B C} (f : C -> B -> C) (g : A -> B) : forall l c,
  fold_left (fun c a => f c (g a)) l c = fold_left f (map g l) c.
Proof. induction l as [|a l IH]; intro c; [reflexivity|]. cbn. apply IH. Qed.

Lemma fix_real es e :
  sbst_fix es e = sbst_real_list e (map (fun n => Fix_e es (N.of_nat n)) (seq 0 (efnlength es))).
Proof.
  unfold sbst_fix, sbst_real_list. rewrite to_zero_rev.
  rewrite (fold_left_map (fun e v => sbst v 0 e) (fun n => Fix_e es (N.of_nat n))), map_rev.
  rewrite <- fold_left_rev_right, rev_involutive. reflexivity.
Qed.

Lemma efn_len es : N.of_nat (efnlength es) = efnlst_length es.
Proof. induction es; cbn [efnlength efnlst_length]; lia. Qed.

Lemma fixes_closed es : efnlst_wf (efnlst_length es) es ->
  Forall (exp_wf 0) (map (fun n => Fix_e es (N.of_nat n)) (seq 0 (efnlength es))).
Proof.
  intro W. apply Forall_forall. intros v I. apply in_map_iff in I as (n & <- & I). apply in_seq in I.
  constructor; [rewrite <- efn_len; lia|]. rewrite N.add_0_r. exact W.
Qed.

(** the variable of the source that is variable [x] of the result *)
Definition before (l : list lexp) (k x : N) : N := if x <? k then x else x + N.of_nat (length l).

Lemma before_add l k x m : before l (k + m) (x + m) = before l k x + m.
Proof. unfold before. destruct (N.ltb_spec (x + m) (k + m)), (N.ltb_spec x k); lia. Qed.

Lemma psub_occurs l : Forall (exp_wf 0) l ->
  (forall e k x, occurs x (psub l k e) <-> occurs (before l k x) e) /\
  (forall e k x, occurs_es x (psubs l k e) <-> occurs_es (before l k x) e) /\
  (forall e k x, occurs_fs x (psub_fns l k e) <-> occurs_fs (before l k x) e) /\
  (forall e k x, occurs_bs x (psub_brs l k e) <-> occurs_bs (before l k x) e).
Proof.
  intro C.
  assert (LEN : forall k es, efnlst_length (psub_fns l k es) = efnlst_length es).
  { intros k. induction es as [|f e es IH]; cbn [psub_fns efnlst_length]; [reflexivity|]. rewrite IH. reflexivity. }
  apply my_exp_ind; intros;
    cbn [psub psubs psub_fns psub_brs occurs occurs_es occurs_fs occurs_bs];
    rewrite ?LEN, ?H, ?H0, ?before_add; try reflexivity.
  unfold before. destruct (N.ltb_spec n k) as [L|L].
  - cbn. destruct (N.ltb_spec x k); lia.
  - destruct (nth_error l (N.to_nat (n - k))) as [v|] eqn:E.
    + assert (B : (N.to_nat (n - k) < length l)%nat) by (apply nth_error_Some; congruence).
      rewrite Forall_forall in C. apply nth_error_In, C in E. split.
      * intro O. apply (wf_occurs 0 v E) in O. lia.
      * destruct (N.ltb_spec x k); lia.
    + apply nth_error_None in E. cbn. destruct (N.ltb_spec x k); lia.
Qed.
