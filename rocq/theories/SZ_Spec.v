(** What sizes should say, without computing them by levels. *)
From Coq Require Import ZArith NArith List Bool.
From Verif Require Import ANF_Syntax.
Import ListNotations.

(** Every block of functions that can be reached from a value, through the fields of constructors and
    the visible bindings of closures to any depth, satisfies [P]. *)
Inductive blocks (P : fundefs -> Prop) : val -> Prop :=
| blocks_constr : forall t vs, Forall (blocks P) vs -> blocks P (Vconstr t vs)
| blocks_fun : forall rho B f,
    P B -> (forall x v, get x rho = Some v -> blocks P v) -> blocks P (Vfun rho B f)
| blocks_prim : forall p, blocks P (Vprim p)
| blocks_int : forall z, blocks P (Vint z).

(** the blocks of functions written in a program, at any depth *)
Fixpoint written (e : exp) : nat :=
  match e with
  | Econstr _ _ _ e => written e
  | Ecase _ l =>
      (fix go (l : list (ctor_tag * exp)) : nat :=
         match l with [] => 0 | p :: l => written (snd p) + go l end) l
  | Eproj _ _ _ _ e => written e
  | Eletapp _ _ _ _ e => written e
  | Efun B e => S (written_in B + written e)
  | Eapp _ _ _ => 0
  | Eprim_val _ _ e => written e
  | Eprim _ _ _ e => written e
  | Ehalt _ => 0
  end
with written_in (B : fundefs) : nat :=
  match B with
  | Fcons _ _ _ e B => written e + written_in B
  | Fnil => 0
  end.
