(* Independent notions for the de Bruijn language: which outer variables a
   term mentions, and which terms have the shape the later stages rely on. *)
From Coq Require Import List NArith ZArith String Bool.
From Verif Require Import LB_Model.
Import ListNotations.
Local Open Scope N_scope.

(* [occurs x e]: the x-th variable of the surrounding scope is mentioned. *)
Fixpoint occurs (x : N) (e : lexp) : Prop :=
  match e with
  | Var_e i => i = x
  | Lam_e _ e => occurs (x + 1) e
  | App_e e1 e2 => occurs x e1 \/ occurs x e2
  | Con_e _ es => occurs_es x es
  | Match_e e _ bs => occurs x e \/ occurs_bs x bs
  | Let_e _ e1 e2 => occurs x e1 \/ occurs (x + 1) e2
  | Fix_e es _ => occurs_fs (x + efnlst_length es) es
  | Prf_e => False
  | Prim_val_e _ => False
  | Prim_e _ => False
  end
with occurs_es (x : N) (es : exps) : Prop :=
  match es with enil => False | econs e es => occurs x e \/ occurs_es x es end
with occurs_fs (x : N) (es : efnlst) : Prop :=
  match es with eflnil => False | eflcons _ e es => occurs x e \/ occurs_fs x es end
with occurs_bs (x : N) (bs : branches_e) : Prop :=
  match bs with
  | brnil_e => False
  | brcons_e _ n e bs => occurs (x + fst n) e \/ occurs_bs x bs
  end.

(* Every fixpoint selects one of its functions, every function of a fixpoint is
   an abstraction, and there is no primitive operation. *)
Fixpoint shaped (e : lexp) : Prop :=
  match e with
  | Var_e _ | Prf_e | Prim_val_e _ => True
  | Prim_e _ => False
  | Lam_e _ e => shaped e
  | App_e e1 e2 => shaped e1 /\ shaped e2
  | Con_e _ es => shaped_es es
  | Match_e e _ bs => shaped e /\ shaped_bs bs
  | Let_e _ e1 e2 => shaped e1 /\ shaped e2
  | Fix_e es k => k < efnlst_length es /\ shaped_fs es
  end
with shaped_es (es : exps) : Prop :=
  match es with enil => True | econs e es => shaped e /\ shaped_es es end
with shaped_fs (es : efnlst) : Prop :=
  match es with
  | eflnil => True
  | eflcons _ e es =>
    match e with Lam_e _ _ => shaped e | _ => False end /\ shaped_fs es
  end
with shaped_bs (bs : branches_e) : Prop :=
  match bs with
  | brnil_e => True
  | brcons_e _ _ e bs => shaped e /\ shaped_bs bs
  end.

(* A closed term mentions no outer variable. *)
Definition closed (e : lexp) : Prop := forall x, ~ occurs x e.
