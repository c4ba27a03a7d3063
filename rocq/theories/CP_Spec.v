(* Functions in continuation-passing style that take their arguments one at a
   time. *)
From Coq Require Import List PArith.
From Verif Require Import ANF_Syntax ANF_Eval WA_Spec.
Import ListNotations.

Section K.
  Variable cenv : ctor_env.
  Variable pr : tmap (list val -> option val).
  Variables func_tag kon_tag : positive.

  (* A call gives a value. *)
  Definition answers_with (f : val) (t : positive) (l : list val) (u : val) : Prop :=
    exists n, callf cenv pr n f t l = PVal u.

  (* Calling [g] with an argument and any continuation is calling the
     continuation with the next function; after all arguments, with [r]. *)
  Fixpoint kapplied (g : val) (vs : list val) (r : val) : Prop :=
    match vs with
    | [] => g = r
    | v :: vs => forall kv, exists w, kapplied w vs r /\
        forall u, answers_with g func_tag [kv; v] u <-> answers_with kv kon_tag [w] u
    end.
End K.
