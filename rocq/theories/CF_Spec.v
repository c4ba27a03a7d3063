(** What it means that a function needs nothing from its environment. *)
From Coq Require Import ZArith NArith List Bool.
From Verif Require Import ANF_Syntax ANF_Spec CF_Model.
Import ListNotations.

(** two values that differ at most in the environments of closed functions *)
Inductive same : val -> val -> Prop :=
| same_constr : forall t vs1 vs2, Forall2 same vs1 vs2 -> same (Vconstr t vs1) (Vconstr t vs2)
| same_fun : forall rho1 rho2 B f,
    closed_fundefs B -> closed_fundefs_in_fundefs B -> same (Vfun rho1 B f) (Vfun rho2 B f)
| same_int : forall z, same (Vint z) (Vint z)
| same_prim : forall p, same (Vprim p) (Vprim p).

(** two environments that differ at most so on the names of [S] bound in the first *)
Definition same_on (S : var -> Prop) (rho1 rho2 : env) : Prop :=
  forall x v1, S x -> get x rho1 = Some v1 -> exists v2, get x rho2 = Some v2 /\ same v1 v2.

(** a value without functions *)
Inductive data : val -> Prop :=
| data_constr : forall t vs, Forall data vs -> data (Vconstr t vs)
| data_int : forall z, data (Vint z)
| data_prim : forall p, data (Vprim p).

(** the blocks of functions written in a program, one by one *)
Fixpoint blocks_of (e : exp) : list fundefs :=
  match e with
  | Econstr _ _ _ e | Eproj _ _ _ _ e | Eletapp _ _ _ _ e | Eprim_val _ _ e | Eprim _ _ _ e => blocks_of e
  | Ecase _ l => (fix go l := match l with [] => [] | (_, e) :: l => blocks_of e ++ go l end) l
  | Efun B e => B :: blocks_in B ++ blocks_of e
  | Eapp _ _ _ | Ehalt _ => []
  end
with blocks_in (B : fundefs) : list fundefs :=
  match B with
  | Fcons _ _ _ e B => blocks_of e ++ blocks_in B
  | Fnil => []
  end.
