(** C98: repeated substitution is simultaneous substitution, and lists in programs are lists. *)
From Coq Require Import NArith List Bool String Lia.
From Verif Require Import LB_Model LB_Spec SU_Model SU_Spec SU_Proofs.
Import ListNotations.
Local Open Scope N_scope.

(** Lists in programs and lists of the language are the same: both ways round is the identity, and
    lengths, positions and the choice of a branch agree with those of lists. *)
Theorem C98_lists :
  (forall es, exps_from_list (exps_as_list es) = es) /\ (forall l, exps_as_list (exps_from_list l) = l) /\
  (forall es, efnlst_from_list (efnlst_as_list es) = es) /\ (forall l, efnlst_as_list (efnlst_from_list l) = l) /\
  (forall bs, branches_from_list (branches_as_list bs) = bs) /\
  (forall l, branches_as_list (branches_from_list l) = l) /\
  (forall es, exps_length es = N.of_nat (List.length (exps_as_list es))) /\
  (forall es, efnlst_length es = N.of_nat (List.length (fnames es)) /\ efnlength es = List.length (fnames es)) /\
  (forall l, fnames (efnlst_from_list l) = map fst l) /\
  (forall es n, enthopt n es = option_map snd (nth_error (efnlst_as_list es) n)) /\
  (forall d m bs, find_branch d m bs =
     match find (fun b => dcon_eqb d (fst (fst b))) (branches_as_list bs) with
     | Some (_, n, e) => if fst n =? m then Some e else None
     | None => None
     end).
Proof.
  split; [|split; [|split; [|split; [|split; [|split; [|split; [|split; [|split; [|split]]]]]]]]].
  - induction es; cbn; congruence.
  - induction l; cbn; congruence.
  - induction es; cbn; congruence.
  - induction l as [|[n e] l IH]; cbn; congruence.
  - induction bs; cbn; congruence.
  - induction l as [|[[d n] e] l IH]; cbn; congruence.
  - induction es as [|e es IH]; cbn [exps_length exps_as_list List.length]; lia.
  - intro es. unfold fnames. rewrite map_length.
    induction es as [|f e es [IH1 IH2]]; cbn [efnlst_length efnlength efnlst_as_list List.length]; [auto|lia].
  - induction l as [|[n e] l IH]; cbn; [reflexivity|]. f_equal. exact IH.
  - induction es as [|f e es IH]; intros [|n]; cbn; auto.
  - induction bs as [|d' n e bs IH]; cbn; [reflexivity|]. unfold nargs. destruct (dcon_eqb d d'); auto.
Qed.

(** two branches of the same constructor: the first is taken, and no other if its number of variables
    is wrong *)
Definition dS : dcon := (("nat"%string, 0%nat), 1).
Example C98_lists_example :
  let bs := brcons_e dS (1, [nAnon]) (Var_e 0) (brcons_e dS (2, [nAnon; nAnon]) (Var_e 1) brnil_e) in
  find_branch dS 1 bs = Some (Var_e 0) /\ find_branch dS 2 bs = None.
Proof. split; reflexivity. Qed.

(** Substituting closed terms one after the other, as a match does with the fields of a constructor,
    substitutes them at the same time, the last for variable 0. *)
Theorem C98_list : forall vs e,
  Forall (exp_wf 0) (exps_as_list vs) ->
  sbst_list e vs = sbst_real_list e (exps_as_list vs) /\
  sbst_list e vs = psub (rev (exps_as_list vs)) 0 e.
Proof.
  intros vs e F. split; [apply list_real|]. rewrite list_real. apply real_list_psub, F.
Qed.

Definition two : exps := econs Prf_e (econs (Lam_e nAnon (Var_e 0)) enil).
Example C98_list_example :
  Forall (exp_wf 0) (exps_as_list two) /\
  sbst_list (Lam_e nAnon (App_e (Var_e 0) (App_e (Var_e 1) (App_e (Var_e 2) (Var_e 3))))) two =
  Lam_e nAnon (App_e (Var_e 0) (App_e (Lam_e nAnon (Var_e 0)) (App_e Prf_e (Var_e 1)))).
Proof. split; [|reflexivity]. repeat constructor. Qed.

(** For open terms it does not: the variables of a term put in first are substituted again. *)
Theorem C98_open_refuted : exists vs e, sbst_list e vs <> psub (rev (exps_as_list vs)) 0 e.
Proof. exists (econs Prf_e (econs (Var_e 0) enil)), (Var_e 0). discriminate. Qed.

(** The lemma [sbst_fix_real] (expression.v:1584-1595, left open) holds: the functions of a fixpoint are
    substituted like the fields of a constructor; if they are closed, at the same time, the last for
    variable 0. *)
Theorem C98_fix :
  (forall n, list_to_zero n = rev (seq 0 n)) /\
  (forall es e, sbst_fix es e =
     sbst_real_list e (map (fun n => Fix_e es (N.of_nat n)) (seq 0 (efnlength es)))) /\
  (forall es e, efnlst_wf (efnlst_length es) es ->
     sbst_fix es e = psub (rev (map (fun n => Fix_e es (N.of_nat n)) (seq 0 (efnlength es)))) 0 e).
Proof.
  split; [exact to_zero_rev|]. split; [intros; apply fix_real|].
  intros es e W. rewrite fix_real. apply real_list_psub, fixes_closed, W.
Qed.

(** two functions that call each other *)
Definition evenodd : efnlst :=
  eflcons nAnon (Lam_e nAnon (App_e (Var_e 1) (Var_e 0))) (eflcons nAnon (Lam_e nAnon (App_e (Var_e 2) (Var_e 0))) eflnil).
Example C98_fix_example :
  efnlst_wf (efnlst_length evenodd) evenodd /\
  sbst_fix evenodd (App_e (Var_e 0) (App_e (Var_e 1) (Var_e 2))) =
  App_e (Fix_e evenodd 1) (App_e (Fix_e evenodd 0) (Var_e 0)).
Proof. split; [|reflexivity]. repeat constructor. Qed.

(** The free variables after the substitution of closed terms are those after the ones substituted. *)
Theorem C98_free : forall l e x, Forall (exp_wf 0) l ->
  (occurs x (sbst_real_list e l) <-> occurs (x + N.of_nat (List.length l)) e).
Proof.
  intros l e x F. rewrite (real_list_psub l e F).
  rewrite (proj1 (psub_occurs (rev l) (Forall_rev F))). unfold before. rewrite rev_length.
  destruct (N.ltb_spec x 0); [lia|reflexivity].
Qed.

Example C98_free_example :
  occurs 1 (sbst_real_list (Lam_e nAnon (App_e (Var_e 4) (Var_e 1))) [Prf_e; Lam_e nAnon (Var_e 0)]).
Proof. cbn. auto. Qed.

Print Assumptions C98_lists.
Print Assumptions C98_list.
Print Assumptions C98_open_refuted.
Print Assumptions C98_fix.
Print Assumptions C98_free.
