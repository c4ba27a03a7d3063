(** Lists in programs of LambdaBoxLocal as lists, and repeated substitution.
    Source: /repo/theories/LambdaBoxLocal/expression.v:1521-1596. *)
From Coq Require Import NArith List Bool.
From Verif Require Import LB_Model.
Import ListNotations.
Local Open Scope N_scope.

(** expression.v:1521-1525 *)
Fixpoint exps_as_list (e : exps) : list lexp :=
  match e with
  | enil => []
  | econs h tl => h :: exps_as_list tl
  end.

(** expression.v:1527-1531 *)
Fixpoint exps_from_list (es : list lexp) : exps :=
  match es with
  | [] => enil
  | h :: tl => econs h (exps_from_list tl)
  end.

(** expression.v:1533-1537 *)
Fixpoint efnlst_as_list (e : efnlst) : list (name * lexp) :=
  match e with
  | eflnil => []
  | eflcons n e tl => (n, e) :: efnlst_as_list tl
  end.

(** expression.v:1539-1543 *)
Fixpoint efnlst_from_list (e : list (name * lexp)) : efnlst :=
  match e with
  | [] => eflnil
  | (n, e) :: tl => eflcons n e (efnlst_from_list tl)
  end.

(** expression.v:1546-1550 *)
Fixpoint branches_as_list (e : branches_e) : list (dcon * (N * list name) * lexp) :=
  match e with
  | brnil_e => []
  | brcons_e d ns e tl => (d, ns, e) :: branches_as_list tl
  end.

(** expression.v:1552-1556 *)
Fixpoint branches_from_list (e : list (dcon * (N * list name) * lexp)) : branches_e :=
  match e with
  | [] => brnil_e
  | (d, ns, e) :: tl => brcons_e d ns e (branches_from_list tl)
  end.

(** expression.v:1559-1560 *)
Definition sbst_real_list : lexp -> list lexp -> lexp := fold_right (fun v ee => sbst v 0 ee).

(** expression.v:1649-1650 *)
Definition fnames (e : efnlst) : list name := map fst (efnlst_as_list e).
