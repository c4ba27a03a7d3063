(** * What the C code for programs in continuation-passing style must do: the collector's contract

    Independent of the code generator; values are represented as in CG_Spec.v. *)
From Coq Require Import ZArith NArith List Lia Bool.
Import ListNotations.
From Verif Require Import ANF_Syntax CG_Clight CG_Spec.
Set Implicit Arguments.
Local Open Scope Z_scope.

(** the live slots of the args array (runtime/gc.h:94-98; the comment there gives
    the last index as [fi[1]-2], the number of slots is [fi[1]]) *)
Definition roots (info : list Z) : list Z := firstn (Z.to_nat (nth 1 info 0)) (skipn 2 info).

(** runtime/gc.h:115-125: given live slots that hold values, the collector either
    aborts (heap exhausted) or returns with at least [fi[0]] free words, the live
    slots denoting the same values *)
Definition kgc_ok (kgc : list Z -> mem -> gres) : Prop :=
  forall info m a, m_lo m <= a <= m_hi m -> area m a -> 0 <= nth 0 info 0 ->
    (forall i, In i (roots info) -> 0 <= i < maxArgs /\ exists w v, m_args m i = Some w /\ hr m a v w) ->
    kgc info m = GAbort \/
    exists m' a', kgc info m = GOk m' /\ area m' a' /\ m_lo m' <= a' /\ a' + nth 0 info 0 <= m_hi m' /\
      (forall i w v, In i (roots info) -> m_args m i = Some w -> hr m a v w ->
         exists w', m_args m' i = Some w' /\ hr m' a' v w').

(** not part of the contract: the end of the free area never moves *)
Definition keeps_limit (kgc : list Z -> mem -> gres) : Prop :=
  forall info m m', kgc info m = GOk m' -> m_limit m' = m_limit m.
