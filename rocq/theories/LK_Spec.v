(** What correctness and separate compilation should mean, in terms of single runs. *)
From Coq Require Import List.
From Verif Require Import Comp_Model.

(** The pass succeeds on every accepted program from every state, and [post] holds of what it gives. *)
Definition succeeds {Src Trg} (ok : Src -> Prop) (t : CertiRocqTrans Src Trg) (post : Src -> Trg -> Prop) : Prop :=
  forall s r w, ok s -> exists x w', t s r w = (Ret x, w') /\ post s x.

(** Two programs compiled apart, each from its own state, and then linked: whatever the linked
    sources do, the linked results do. *)
Definition apart {Src Trg VS VT : Type} (ok : Src -> Prop) (ev_s : Src -> VS -> Prop) (ev_t : Trg -> VT -> Prop)
           (ls : Src -> Src -> Src) (lt : Trg -> Trg -> Trg) (rel : VS -> VT -> Prop) (t : CertiRocqTrans Src Trg) : Prop :=
  forall s1 s2 r w1 w2, ok s1 -> ok s2 ->
    exists x1 w1' x2 w2', t s1 r w1 = (Ret x1, w1') /\ t s2 r w2 = (Ret x2, w2') /\
      forall v, ev_s (ls s1 s2) v -> exists u, ev_t (lt x1 x2) u /\ rel v u.

(** The result, or failure, of a pass does not depend on the state it starts in. *)
Definition stateless {Src Trg} (ok : Src -> Prop) (t : CertiRocqTrans Src Trg) : Prop :=
  forall s r w1 w2, ok s -> fst (t s r w1) = fst (t s r w2).
