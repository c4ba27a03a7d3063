(* Independent notions for the translation of programs with globals to nested
   lets. *)
From Coq Require Import List Arith NArith String Bool.
From Verif Require Import LB_Model LM_Model.
Import ListNotations.
Local Open Scope nat_scope.

(* [scoped K n t]: the free variables of [t] are below [n] and its constants
   satisfy [K]. *)
Fixpoint scoped (K : kername -> Prop) (n : nat) (t : Term) : Prop :=
  match t with
  | TRel m => m < n
  | TProof | TPrim _ | TWrong _ => True
  | TLambda _ b => scoped K (S n) b
  | TLetIn _ d b => scoped K n d /\ scoped K (S n) b
  | TApp f a => scoped K n f /\ scoped K n a
  | TConst nm => K nm
  | TConstruct _ _ args => scopeds K n args
  | TCase _ m bs => scoped K n m /\ scopedBs K n bs
  | TFix ds m => scopedDs K (n + dlength ds) ds
  end
with scopeds (K : kername -> Prop) (n : nat) (ts : Terms) : Prop :=
  match ts with tnil => True | tcons t ts => scoped K n t /\ scopeds K n ts end
with scopedBs (K : kername -> Prop) (n : nat) (bs : Brs) : Prop :=
  match bs with
  | bnil => True
  | bcons m t bs => scoped K (List.length m + n) t /\ scopedBs K n bs
  end
with scopedDs (K : kername -> Prop) (n : nat) (ds : Defs) : Prop :=
  match ds with dnil => True | dcons _ b _ ds => scoped K n b /\ scopedDs K n ds end.

(* A constant is available if it is a primitive or has a definition. *)
Definition avail (prims : list (kername * positive)) (p : environ) (c : kername) : Prop :=
  (exists x, In (c, x) prims) \/ (exists d, In (c, ecTrm d) p).

(* Every definition is closed and uses only what comes after it in the list. *)
Fixpoint scopedEnv (prims : list (kername * positive)) (p : environ) : Prop :=
  match p with
  | [] => True
  | (_, ecTrm t) :: p => scoped (avail prims p) 0 t /\ scopedEnv prims p
  | (_, ecTyp _) :: p => scopedEnv prims p
  end.

(* The translation of a term in which every constant [c] stands for the closed
   term [g c]. *)
Fixpoint close (g : kername -> lexp) (t : Term) : lexp :=
  match t with
  | TWrong _ => Prf_e
  | TProof => Prf_e
  | TRel n => Var_e (N.of_nat n)
  | TLambda n t => Lam_e n (close g t)
  | TLetIn n t u => Let_e n (close g t) (close g u)
  | TApp t u => App_e (close g t) (close g u)
  | TConst s => g s
  | TConstruct ind c args => Con_e (ind, N.of_nat c) (close_args g args)
  | TCase ind t brs => Match_e (close g t) 0%N (close_brs g ind 0%N brs)
  | TFix d n => Fix_e (close_fixes g d) (N.of_nat n)
  | TPrim p => Prim_val_e p
  end
with close_args (g : kername -> lexp) (ts : Terms) : exps :=
  match ts with tnil => enil | tcons t ts => econs (close g t) (close_args g ts) end
with close_brs (g : kername -> lexp) (ind : inductive) (n : N) (l : Brs) : branches_e :=
  match l with
  | bnil => brnil_e
  | bcons ns t ts =>
    brcons_e (ind, n) (N.of_nat (List.length ns), ns) (close g t) (close_brs g ind (n + 1)%N ts)
  end
with close_fixes (g : kername -> lexp) (l : Defs) : efnlst :=
  match l with
  | dnil => eflnil
  | dcons na t _ l' => eflcons na (close g t) (close_fixes g l')
  end.

(* Every global has a value. *)
Definition globals_ok (p : environ) : Prop :=
  forall c d, lookupDfn c p = Some d -> exists s, WcbvEval p d s.

(* [g] maps every global to (the translation of) its value. *)
Definition globals_are (p : environ) (g : kername -> lexp) : Prop :=
  forall c d, lookupDfn c p = Some d -> exists s, WcbvEval p d s /\ g c = close g s.

(* The same first-order datum in the two languages. *)
Inductive same_data : Term -> lexp -> Prop :=
| sd_con : forall i n args args', same_datas args args' ->
    same_data (TConstruct i n args) (Con_e (i, N.of_nat n) args')
| sd_proof : same_data TProof Prf_e
| sd_prim : forall v, same_data (TPrim v) (Prim_val_e v)
with same_datas : Terms -> exps -> Prop :=
| sds_nil : same_datas tnil enil
| sds_cons : forall t ts e es, same_data t e -> same_datas ts es ->
    same_datas (tcons t ts) (econs e es).

Scheme same_data_ind2 := Minimality for same_data Sort Prop
  with same_datas_ind2 := Minimality for same_datas Sort Prop.
Combined Scheme my_same_data_ind from same_data_ind2, same_datas_ind2.
