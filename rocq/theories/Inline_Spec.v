(** * What can be observed of values

    Nothing here is part of the compiler.  Two functions can only be told
    apart by programs that use them: [v] may be replaced by [v'] when every
    program reading it still finishes (with the same result if that is data)
    or still runs forever. *)
From Coq Require Import ZArith NArith List.
From Verif Require Import ANF_Syntax ANF_Eval ANF_Spec ANF_FreeProofs.

Definition refines (cenv : ctor_env) (v v' : val) : Prop := forall x rho e,
  (forall c u, bstep_fuel cenv (set x v rho) e c (Res u) ->
     exists c' u', bstep_fuel cenv (set x v' rho) e c' (Res u') /\ (data u -> u' = u)) /\
  (diverge cenv (set x v rho) e -> diverge cenv (set x v' rho) e).

(** same outcome: both out of fuel, or results that cannot be told apart *)
Definition same_outcome (cenv : ctor_env) (r r' : res val) : Prop :=
  match r, r' with
  | OOT, OOT => True
  | Res v, Res v' => refines cenv v v' /\ refines cenv v' v /\ (data v -> v' = v) /\ (data v' -> v = v')
  | _, _ => False
  end.

(** the path to the end of the program meets no branching *)
Fixpoint straight (e : exp) : Prop :=
  match e with
  | Econstr _ _ _ e | Eproj _ _ _ _ e | Eletapp _ _ _ _ e | Efun _ e | Eprim_val _ _ e | Eprim _ _ _ e => straight e
  | Ecase _ _ => False
  | Eapp _ _ _ | Ehalt _ => True
  end.
