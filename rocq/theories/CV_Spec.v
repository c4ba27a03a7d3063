(** What the conversions should do, stated without the model. *)
From Coq Require Import List ZArith Bool.
Import ListNotations.
Local Open Scope Z_scope.

(** A machine integer of [w] bits, read as signed *)
Definition word (w n : Z) : Prop := - 2 ^ (w - 1) <= n < 2 ^ (w - 1).

(** [n] is the machine integer of [w] bits that stands for [z] *)
Definition stands_for (w n z : Z) : Prop := word w n /\ exists k, z = n + k * 2 ^ w.

(** The value of a digit: 0 to 9, then A to Z *)
Definition digit_value (c : Z) : option Z :=
  if (48 <=? c) && (c <=? 57) then Some (c - 48)
  else if (65 <=? c) && (c <=? 90) then Some (c - 55)
  else None.

(** Digits read from the left; all must be below the base *)
Fixpoint read_digits (base acc : Z) (t : list Z) : option Z :=
  match t with
  | [] => Some acc
  | c :: t =>
      match digit_value c with
      | Some d => if d <? base then read_digits base (acc * base + d) t else None
      | None => None
      end
  end.

(** A numeral, with or without a minus sign (45) *)
Definition read_number (base : Z) (t : list Z) : option Z :=
  match t with
  | [] => None
  | 45 :: [] => None
  | 45 :: t => option_map Z.opp (read_digits base 0 t)
  | t => read_digits base 0 t
  end.

(** No zero in front, and no minus in front of zero *)
Definition no_leading_zero (t : list Z) : Prop :=
  t = [48] \/ (exists c t', t = c :: t' /\ c <> 48 /\ c <> 45) \/
  (exists c t', t = 45 :: c :: t' /\ c <> 48).
