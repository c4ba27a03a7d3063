(** * Names with a number at the end, evaluation: what is expected *)
From Coq Require Import ZArith List Bool Arith Ascii String.
From Verif Require Import ANF_Syntax CG_Clight RF_Model RF_Spec SN_Model.
Import ListNotations.
Local Open Scope nat_scope.

(** ** Names *)

(** a decimal digit and its value *)
Definition digit (c : ascii) : Prop := 48 <= nat_of_ascii c <= 57.
Definition digit_value (c : ascii) : nat := nat_of_ascii c - 48.
Fixpoint number (acc : nat) (d : list ascii) : nat :=
  match d with [] => acc | c :: d' => number (10 * acc + digit_value c) d' end.

(** [s] is [p] followed by the digits [d]; [p] does not end in a digit *)
Definition numbered (s : string) (p d : list ascii) : Prop :=
  s = string_of_list_ascii (p ++ d) /\ Forall digit d /\ (p = [] \/ exists p' c, p = p' ++ [c] /\ ~ digit c).

(** A name that C reads as one word (letters, digits, underscores, not starting
    with a digit) and that OCaml takes for the name of a value (starting with a
    small letter or an underscore). *)
Definition small (c : ascii) : Prop := 97 <= nat_of_ascii c <= 122 \/ c = "_"%char.
Definition letter (c : ascii) : Prop := small c \/ 65 <= nat_of_ascii c <= 90.

(** ** Evaluation *)

(** What evaluating a program of type [ty] with code [r] gives under orders [im]. *)
Definition evaluated (E : genv) (fuel : nat) (im : mapping) (ty : cterm) (r : answer ((Z -> option cval) * cval)) : answer cterm :=
  andthen (check_reifyable ty) (fun _ => andthen r (fun r => reify_result fuel true E im (fst r) ty (snd r))).

(** Names of constants have a dot (they are qualified), file names given to a
    tactic have none. *)
Definition has_dot (s : string) : Prop := In "."%char (list_ascii_of_string s).
Definition named {T O} (c : command T O) : Prop :=
  match c with Define s _ _ => has_dot s | Eval_term f _ _ _ => ~ has_dot f | _ => True end.

(** commands that compile nothing, and commands that leave orders alone *)
Definition no_eval {T O} (c : command T O) : Prop :=
  match c with Eval _ _ | Eval_term _ _ _ _ => False | _ => True end.
Definition no_order {T O} (c : command T O) : Prop :=
  match c with Order _ _ => False | _ => True end.
