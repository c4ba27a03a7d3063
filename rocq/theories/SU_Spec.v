(** Simultaneous substitution: the variables [k, k + 1, ...] become the terms of a list, the variables
    after them are renumbered, the others stay. *)
From Coq Require Import NArith List Bool.
From Verif Require Import LB_Model.
Import ListNotations.
Local Open Scope N_scope.

Fixpoint psub (l : list lexp) (k : N) (e : lexp) : lexp :=
  match e with
  | Var_e i =>
      if i <? k then Var_e i
      else match nth_error l (N.to_nat (i - k)) with
           | Some v => v
           | None => Var_e (i - N.of_nat (length l))
           end
  | App_e e1 e2 => App_e (psub l k e1) (psub l k e2)
  | Lam_e na e => Lam_e na (psub l (k + 1) e)
  | Con_e d es => Con_e d (psubs l k es)
  | Let_e na e1 e2 => Let_e na (psub l k e1) (psub l (k + 1) e2)
  | Match_e e p bs => Match_e (psub l k e) p (psub_brs l k bs)
  | Fix_e es j => Fix_e (psub_fns l (k + efnlst_length es) es) j
  | Prf_e => Prf_e
  | Prim_val_e p => Prim_val_e p
  | Prim_e p => Prim_e p
  end
with psubs (l : list lexp) (k : N) (es : exps) : exps :=
  match es with
  | enil => enil
  | econs e es => econs (psub l k e) (psubs l k es)
  end
with psub_fns (l : list lexp) (k : N) (es : efnlst) : efnlst :=
  match es with
  | eflnil => eflnil
  | eflcons f e es => eflcons f (psub l k e) (psub_fns l k es)
  end
with psub_brs (l : list lexp) (k : N) (bs : branches_e) : branches_e :=
  match bs with
  | brnil_e => brnil_e
  | brcons_e d n e bs => brcons_e d n (psub l (k + fst n) e) (psub_brs l k bs)
  end.
