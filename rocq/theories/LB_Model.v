(* Model of the local de Bruijn language: theories/LambdaBoxLocal/expression.v.
   Terms, well-formedness, shifting, the two substitutions, the big-step
   semantics and the fuel interpreter.

   Simplifications: a kernel name is a string (the code only compares kernel
   names and prints them); a numeric decision procedure [lt_dec]/[eq_dec]
   is the boolean test of the same fact. *)
From Coq Require Import List NArith ZArith String Bool.
From Verif Require ANF_Syntax.
Import ListNotations.
Local Open Scope N_scope.

(* theories/common/AstCommon.v (imports BasicAst.name): binder annotations. *)
Inductive name : Type := nAnon | nNamed (s : string).

(* Kernames.kername; simplified to a string. *)
Definition kername := string.

(* Kernames.inductive: mutual block and position inside the block. *)
Definition inductive : Type := kername * nat.

(* expression.v:58 dcon := inductive * N. *)
Definition dcon : Type := inductive * N.

(* Decidable equality of [dcon] (expression.v:59 DconEq). *)
Definition ind_eqb (i j : inductive) : bool :=
  (String.eqb (fst i) (fst j) && Nat.eqb (snd i) (snd j))%bool.
Definition dcon_eqb (d d' : dcon) : bool :=
  (ind_eqb (fst d) (fst d') && N.eqb (snd d) (snd d'))%bool.

(* AstCommon.primitive_value, as in the A-normal language's model. *)
Definition primitive_value := ANF_Syntax.primitive_value.

(* expression.v:62-85 exp, exps, efnlst, branches_e. *)
Inductive lexp : Type :=
| Var_e : N -> lexp
| Lam_e : name -> lexp -> lexp
| App_e : lexp -> lexp -> lexp
| Con_e : dcon -> exps -> lexp
| Match_e : lexp -> N -> branches_e -> lexp
| Let_e : name -> lexp -> lexp -> lexp
| Fix_e : efnlst -> N -> lexp
| Prf_e : lexp
| Prim_val_e : primitive_value -> lexp
| Prim_e : positive -> lexp
with exps : Type :=
| enil : exps
| econs : lexp -> exps -> exps
with efnlst : Type :=
| eflnil : efnlst
| eflcons : name -> lexp -> efnlst -> efnlst
with branches_e : Type :=
| brnil_e : branches_e
| brcons_e : dcon -> N * list name -> lexp -> branches_e -> branches_e.

(* expression.v:89-94 my_exp_ind. *)
Scheme lexp_ind' := Induction for lexp Sort Prop
with exps_ind' := Induction for exps Sort Prop
with efnlst_ind' := Induction for efnlst Sort Prop
with branches_e_ind' := Induction for branches_e Sort Prop.
Combined Scheme my_exp_ind from lexp_ind', exps_ind', efnlst_ind', branches_e_ind'.

(* expression.v:107-111 exps_length. *)
Fixpoint exps_length (es : exps) : N :=
  match es with enil => 0 | econs _ es => 1 + exps_length es end.

(* expression.v:113-117 efnlst_length. *)
Fixpoint efnlst_length (es : efnlst) : N :=
  match es with eflnil => 0 | eflcons _ _ es => 1 + efnlst_length es end.

(* expression.v:120-125 enthopt. *)
Fixpoint enthopt (n : nat) (xs : efnlst) : option lexp :=
  match n, xs with
  | 0%nat, eflcons _ h _ => Some h
  | S n, eflcons _ _ t => enthopt n t
  | _, _ => None
  end.

(* expression.v:127 nargs. *)
Definition nargs (n : N * list name) : N := fst n.

(* expression.v:130-134 isLambda. *)
Definition isLambda (e : lexp) : Prop :=
  match e with Lam_e _ _ => True | _ => False end.

(* expression.v:137-171 exp_wf and companions.  There is no rule for
   [Prim_e]. *)
Inductive exp_wf : N -> lexp -> Prop :=
| var_e_wf : forall i j, j < i -> exp_wf i (Var_e j)
| lam_e_wf : forall i n e, exp_wf (1 + i) e -> exp_wf i (Lam_e n e)
| app_e_wf : forall i e1 e2, exp_wf i e1 -> exp_wf i e2 -> exp_wf i (App_e e1 e2)
| con_e_wf : forall i d es, exps_wf i es -> exp_wf i (Con_e d es)
| match_e_wf : forall i e n bs,
    exp_wf i e -> branches_wf i bs -> exp_wf i (Match_e e n bs)
| let_e_wf : forall i n e1 e2,
    exp_wf i e1 -> exp_wf (1 + i) e2 -> exp_wf i (Let_e n e1 e2)
| fix_e_wf : forall i es k,
    k < efnlst_length es -> efnlst_wf (efnlst_length es + i) es ->
    exp_wf i (Fix_e es k)
| prf_e_wf : forall i, exp_wf i Prf_e
| prim_e_wf : forall i p, exp_wf i (Prim_val_e p)
with exps_wf : N -> exps -> Prop :=
| enil_wf : forall i, exps_wf i enil
| econs_wf : forall i e es, exp_wf i e -> exps_wf i es -> exps_wf i (econs e es)
with efnlst_wf : N -> efnlst -> Prop :=
| flnil_wf_e : forall i, efnlst_wf i eflnil
| flcons_wf_e : forall i f e es,
    exp_wf i e -> isLambda e -> efnlst_wf i es -> efnlst_wf i (eflcons f e es)
with branches_wf : N -> branches_e -> Prop :=
| brnil_wf : forall i, branches_wf i brnil_e
| brcons_wf : forall i d n e bs,
    exp_wf (nargs n + i) e -> branches_wf i bs -> branches_wf i (brcons_e d n e bs).

(* expression.v:173-178 my_exp_wf_ind. *)
Scheme exp_wf_ind2 := Induction for exp_wf Sort Prop
with exps_wf_ind2 := Induction for exps_wf Sort Prop
with efnlst_wf_ind2 := Induction for efnlst_wf Sort Prop
with branches_wf_ind2 := Induction for branches_wf Sort Prop.
Combined Scheme my_exp_wf_ind from
  exp_wf_ind2, exps_wf_ind2, efnlst_wf_ind2, branches_wf_ind2.

(* expression.v:213-247 shift, shifts, shift_fns, shift_branches (written
   there as section functions over the recursive call). *)
Fixpoint shift (n k : N) (e : lexp) : lexp :=
  match e with
  | Var_e i => Var_e (if i <? k then i else i + n)
  | App_e e1 e2 => App_e (shift n k e1) (shift n k e2)
  | Lam_e na e' => Lam_e na (shift n (1 + k) e')
  | Con_e d es => Con_e d (shifts n k es)
  | Let_e na e1 e2 => Let_e na (shift n k e1) (shift n (1 + k) e2)
  | Match_e e p bs => Match_e (shift n k e) p (shift_branches n k bs)
  | Fix_e es k' => Fix_e (shift_fns n (efnlst_length es + k) es) k'
  | Prf_e => Prf_e
  | Prim_val_e p => Prim_val_e p
  | Prim_e p => Prim_e p
  end
with shifts (n k : N) (es : exps) : exps :=
  match es with
  | enil => enil
  | econs e es => econs (shift n k e) (shifts n k es)
  end
with shift_fns (n k : N) (es : efnlst) : efnlst :=
  match es with
  | eflnil => eflnil
  | eflcons f e es => eflcons f (shift n k e) (shift_fns n k es)
  end
with shift_branches (n k : N) (bs : branches_e) : branches_e :=
  match bs with
  | brnil_e => brnil_e
  | brcons_e d na e bs => brcons_e d na (shift n (k + nargs na) e) (shift_branches n k bs)
  end.

(* expression.v:305-340 subst: substitution that shifts the substitute. *)
Fixpoint subst (v : lexp) (k : N) (e : lexp) : lexp :=
  match e with
  | Var_e i => if i <? k then Var_e i
               else if i =? k then shift k 0 v else Var_e (i - 1)
  | App_e e1 e2 => App_e (subst v k e1) (subst v k e2)
  | Lam_e na e' => Lam_e na (subst v (1 + k) e')
  | Con_e d es => Con_e d (substs v k es)
  | Let_e na e1 e2 => Let_e na (subst v k e1) (subst v (1 + k) e2)
  | Match_e e p bs => Match_e (subst v k e) p (subst_branches v k bs)
  | Fix_e es k' => Fix_e (subst_efnlst v (efnlst_length es + k) es) k'
  | Prf_e => Prf_e
  | Prim_val_e p => Prim_val_e p
  | Prim_e p => Prim_e p
  end
with substs (v : lexp) (k : N) (es : exps) : exps :=
  match es with
  | enil => enil
  | econs f fs => econs (subst v k f) (substs v k fs)
  end
with subst_efnlst (v : lexp) (k : N) (es : efnlst) : efnlst :=
  match es with
  | eflnil => eflnil
  | eflcons fna f fs => eflcons fna (subst v k f) (subst_efnlst v k fs)
  end
with subst_branches (v : lexp) (k : N) (bs : branches_e) : branches_e :=
  match bs with
  | brnil_e => brnil_e
  | brcons_e d n e bs => brcons_e d n (subst v (nargs n + k) e) (subst_branches v k bs)
  end.

(* expression.v:342-378 sbst: substitution without shifting. *)
Fixpoint sbst (v : lexp) (k : N) (e : lexp) : lexp :=
  match e with
  | Var_e i => if i <? k then Var_e i
               else if i =? k then v else Var_e (i - 1)
  | App_e e1 e2 => App_e (sbst v k e1) (sbst v k e2)
  | Lam_e na e' => Lam_e na (sbst v (1 + k) e')
  | Con_e d es => Con_e d (sbsts v k es)
  | Let_e na e1 e2 => Let_e na (sbst v k e1) (sbst v (1 + k) e2)
  | Match_e e p bs => Match_e (sbst v k e) p (sbst_branches v k bs)
  | Fix_e es k' => Fix_e (sbst_efnlst v (efnlst_length es + k) es) k'
  | Prf_e => Prf_e
  | Prim_val_e p => Prim_val_e p
  | Prim_e p => Prim_e p
  end
with sbsts (v : lexp) (k : N) (es : exps) : exps :=
  match es with
  | enil => enil
  | econs f fs => econs (sbst v k f) (sbsts v k fs)
  end
with sbst_efnlst (v : lexp) (k : N) (es : efnlst) : efnlst :=
  match es with
  | eflnil => eflnil
  | eflcons fna f fs => eflcons fna (sbst v k f) (sbst_efnlst v k fs)
  end
with sbst_branches (v : lexp) (k : N) (bs : branches_e) : branches_e :=
  match bs with
  | brnil_e => brnil_e
  | brcons_e d n e bs => brcons_e d n (sbst v (nargs n + k) e) (sbst_branches v k bs)
  end.

(* expression.v:515-519 sbst_list. *)
Fixpoint sbst_list (e : lexp) (vs : exps) : lexp :=
  match vs with
  | enil => e
  | econs v vs => sbst v 0 (sbst_list e vs)
  end.

(* expression.v:523-529 find_branch. *)
Fixpoint find_branch (d : dcon) (m : N) (bs : branches_e) : option lexp :=
  match bs with
  | brnil_e => None
  | brcons_e d' n e bs =>
    if dcon_eqb d d' then (if nargs n =? m then Some e else None)
    else find_branch d m bs
  end.

(* expression.v:531-535 efnlength. *)
Fixpoint efnlength (es : efnlst) : nat :=
  match es with eflnil => 0%nat | eflcons _ _ l => S (efnlength l) end.

(* RandyPrelude list_to_zero: the numbers n-1, ..., 0. *)
Fixpoint list_to_zero (n : nat) : list nat :=
  match n with 0%nat => [] | S n => n :: list_to_zero n end.

(* expression.v:549-553 sbst_fix. *)
Definition sbst_fix (es : efnlst) (e : lexp) : lexp :=
  fold_left (fun e ndx => sbst (Fix_e es (N.of_nat ndx)) 0 e)
            (list_to_zero (efnlength es)) e.

(* expression.v:556-594 eval, evals. *)
Inductive eval : lexp -> lexp -> Prop :=
| eval_Lam_e : forall na e, eval (Lam_e na e) (Lam_e na e)
| eval_App_e : forall e1 na e1' e2 v2 v,
    eval e1 (Lam_e na e1') -> eval e2 v2 -> eval (sbst v2 0 e1') v ->
    eval (App_e e1 e2) v
| eval_Con_e : forall d es vs, evals es vs -> eval (Con_e d es) (Con_e d vs)
| eval_Let_e : forall na e1 v1 e2 v2,
    eval e1 v1 -> eval (sbst v1 0 e2) v2 -> eval (Let_e na e1 e2) v2
| eval_Match_e : forall e p bs d vs e' v,
    eval e (Con_e d vs) ->
    find_branch d (exps_length vs) bs = Some e' ->
    eval (sbst_list e' vs) v ->
    eval (Match_e e p bs) v
| eval_Fix_e : forall es k, eval (Fix_e es k) (Fix_e es k)
| eval_FixApp_e : forall e es n e2 v2 e' e'',
    eval e (Fix_e es n) -> eval e2 v2 ->
    enthopt (N.to_nat n) es = Some e' ->
    eval (App_e (sbst_fix es e') v2) e'' ->
    eval (App_e e e2) e''
| eval_ProofApp_e : forall f a a',
    eval f Prf_e -> eval a a' -> eval (App_e f a) Prf_e
| eval_Prf_e : eval Prf_e Prf_e
| eval_Prim_val_e : forall p, eval (Prim_val_e p) (Prim_val_e p)
with evals : exps -> exps -> Prop :=
| evals_nil : evals enil enil
| evals_cons : forall e es v vs,
    eval e v -> evals es vs -> evals (econs e es) (econs v vs).

(* expression.v:595-597 my_eval_ind. *)
Scheme eval_ind2 := Induction for eval Sort Prop
with evals_ind2 := Induction for evals Sort Prop.
Combined Scheme my_eval_ind from eval_ind2, evals_ind2.

(* expression.v:682-752 eval_n, evals_n. *)
Fixpoint eval_n (n : nat) (e : lexp) {struct n} : option lexp :=
  match n with
  | 0%nat => None
  | S n =>
    match e with
    | Lam_e na d => Some (Lam_e na d)
    | Fix_e es k => Some (Fix_e es k)
    | Prf_e => Some Prf_e
    | Con_e d es =>
      match evals_n n es with None => None | Some vs => Some (Con_e d vs) end
    | App_e e1 e2 =>
      match eval_n n e1 with
      | Some (Lam_e _ e1') =>
        match eval_n n e2 with
        | None => None
        | Some e2' => eval_n n (sbst e2' 0 e1')
        end
      | Some (Fix_e es k) =>
        match eval_n n e2 with
        | None => None
        | Some e2' =>
          match enthopt (N.to_nat k) es with
          | Some e' => eval_n n (App_e (sbst_fix es e') e2')
          | None => None
          end
        end
      | Some Prf_e =>
        match eval_n n e2 with None => None | Some _ => Some Prf_e end
      | _ => None
      end
    | Let_e _ e1 e2 =>
      match eval_n n e1 with
      | None => None
      | Some v1 => eval_n n (sbst v1 0 e2)
      end
    | Match_e e p bs =>
      match eval_n n e with
      | Some (Con_e d vs) =>
        match find_branch d (exps_length vs) bs with
        | None => None
        | Some e' => eval_n n (sbst_list e' vs)
        end
      | _ => None
      end
    | Prim_val_e p => Some (Prim_val_e p)
    | Var_e _ => None
    | Prim_e _ => None
    end
  end
with evals_n (n : nat) (es : exps) {struct n} : option exps :=
  match n with
  | 0%nat => None
  | S n =>
    match es with
    | enil => Some enil
    | econs e es =>
      match eval_n n e, evals_n n es with
      | Some v, Some vs => Some (econs v vs)
      | _, _ => None
      end
    end
  end.

(* expression.v:1296-1310 is_value, are_values. *)
Inductive is_value : lexp -> Prop :=
| var_is_value : forall i, is_value (Var_e i)
| lam_is_value : forall na e, is_value (Lam_e na e)
| con_is_value : forall d es, are_values es -> is_value (Con_e d es)
| fix_is_value : forall es k, is_value (Fix_e es k)
| prf_is_value : is_value Prf_e
| prim_is_value : forall p, is_value (Prim_val_e p)
with are_values : exps -> Prop :=
| enil_are_values : are_values enil
| econs_are_values : forall e es, is_value e -> are_values es -> are_values (econs e es).

(* expression.v:1311-1313 my_is_value_ind. *)
Scheme is_value_ind2 := Induction for is_value Sort Prop
with are_values_ind2 := Induction for are_values Sort Prop.
Combined Scheme my_is_value_ind from is_value_ind2, are_values_ind2.

(* expression.v:1326-1343 is_valueb, are_valuesb. *)
Fixpoint is_valueb (e : lexp) : bool :=
  match e with
  | Var_e _ => true
  | Lam_e _ _ => true
  | App_e _ _ => false
  | Con_e _ es => are_valuesb es
  | Match_e _ _ _ => false
  | Let_e _ _ _ => false
  | Fix_e _ _ => true
  | Prf_e => true
  | Prim_val_e _ => true
  | Prim_e _ => false
  end
with are_valuesb (es : exps) : bool :=
  match es with
  | enil => true
  | econs f fs => if is_valueb f then are_valuesb fs else false
  end.

(* expression.v:1598-1627 maxFree and companions. *)
Fixpoint maxFree (e : lexp) : Z :=
  (match e with
   | Var_e i => Z.of_N i
   | App_e e1 e2 => Z.max (maxFree e1) (maxFree e2)
   | Lam_e _ e' => maxFree e' - 1
   | Con_e _ es => maxFreeC es
   | Let_e na a f => Z.max (maxFree a) (maxFree f - 1)
   | Match_e e p bs => Z.max (maxFree e) (maxFreeB bs)
   | Fix_e es k' => maxFreeF es - Z.of_N (efnlst_length es)
   | Prf_e => -1
   | Prim_val_e _ => -1
   | Prim_e _ => -1
   end)%Z
with maxFreeC (es : exps) : Z :=
  (match es with
   | enil => -1
   | econs f fs => Z.max (maxFree f) (maxFreeC fs)
   end)%Z
with maxFreeF (es : efnlst) : Z :=
  (match es with
   | eflnil => -1
   | eflcons _ f fs => Z.max (maxFree f) (maxFreeF fs)
   end)%Z
with maxFreeB (bs : branches_e) : Z :=
  (match bs with
   | brnil_e => -1
   | brcons_e _ n b bs => Z.max (maxFree b - Z.of_N (nargs n)) (maxFreeB bs)
   end)%Z.
