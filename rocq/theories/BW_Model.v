(** * Copying a result into OCaml's heap (bootstrap/certirocqc/certirocqc_wrapper.c)

    The compiler compiled by itself returns a value in its own heap; [copy_value] rebuilds
    it with OCaml's allocator before that heap is freed.  OCaml's collector may run in
    every allocation and move what it keeps.  The C stack is the recursion of [copy];
    overflowing it is not modelled. *)
From Coq Require Import ZArith List Bool Arith.
Import ListNotations.

(** words, certirocqc_wrapper.c:14-36: odd words, addresses in the heap of the compiled
    program, addresses in OCaml's heap, and even words that are no addresses of blocks
    (code, the contents of strings and floats) *)
Inductive word : Set := Imm (z : Z) | Src (a : nat) | Cml (a : nat) | Raw (z : Z).

(** tag and fields, certirocqc_wrapper.c:23-24 *)
Definition block : Set := (nat * list word)%type.

(** blocks by address *)
Definition heap : Set := nat -> option block.

(** the number of allocations so far, OCaml's heap, and the registered variables, newest
    first (CAMLparam, CAMLlocal, certirocqc_wrapper.c:15-16, 40-41) *)
Record world : Set := { tick : nat; ml : heap; roots : list word }.

(** the collector updates a word *)
Definition ren (f : nat -> nat) (w : word) : word := match w with Cml a => Cml (f a) | w => w end.

(** [Is_long], certirocqc_wrapper.c:18 *)
Definition is_long (w : word) : bool := match w with Imm _ => true | _ => false end.

(** certirocqc_wrapper.c:31, [Store_field] *)
Fixpoint set_nth (l : list word) (i : nat) (w : word) : list word :=
  match l, i with
  | [], _ => []
  | _ :: l, O => w :: l
  | x :: l, S i => x :: set_nth l i w
  end.

(** certirocqc_wrapper.c:31 *)
Definition upd (h : heap) (a : nat) (b : block) : heap := fun x => if x =? a then Some b else h x.

(** certirocqc_wrapper.c:31 *)
Definition store (h : heap) (a i : nat) (w : word) : option heap :=
  match h a with
  | Some (tag, ws) => if i <? length ws then Some (upd h a (tag, set_nth ws i w)) else None
  | None => None
  end.

Section COPY.

(** the heap of the compiled program; nothing changes it while copying *)
Variable src : heap.

(** [caml_alloc] (certirocqc_wrapper.c:27) with time, heap, registered variables, tag and
    size: the new heap, where blocks went, the new block *)
Variable alloc : nat -> heap -> list word -> nat -> nat -> heap * (nat -> nat) * nat.

(** following a word; [None]: not the address of a block, undefined *)
Definition lookup (st : world) (w : word) : option block :=
  match w with Src a => src a | Cml a => ml st a | _ => None end.

(** the loop at certirocqc_wrapper.c:28-32, [n] rounds from field [i] on; [v] is a plain C
    variable, the new block is read from its registered variable *)
Fixpoint fill (cp : word -> world -> option (world * word)) (v : word) (i n : nat) (st : world) : option world :=
  match n with
  | O => Some st
  | S n =>
      match lookup st v with
      | Some (_, ws) =>
          match nth_error ws i with
          | Some w =>
              match cp w st with
              | Some (st1, r) =>
                  match roots st1 with
                  | Cml a :: _ =>
                      match store (ml st1) a i r with
                      | Some h => fill cp v (S i) n {| tick := tick st1; ml := h; roots := roots st1 |}
                      | None => None
                      end
                  | _ => None
                  end
              | None => None
              end
          | None => None
          end
      | None => None
      end
  end.

(** certirocqc_wrapper.c:14-36; [None]: undefined, or more than [F] nested calls *)
Fixpoint copy (F : nat) (v : word) (st : world) : option (world * word) :=
  match F with
  | O => None
  | S F =>
      if is_long v then Some (st, v)
      else match lookup st v with
           | Some (tag, ws) =>
               let '(h, f, a) := alloc (tick st) (ml st) (roots st) tag (length ws) in
               match fill (copy F) v 0 (length ws)
                       {| tick := S (tick st); ml := h; roots := Cml a :: List.map (ren f) (roots st) |} with
               | Some st' =>
                   match roots st' with
                   | r :: R => Some ({| tick := tick st'; ml := ml st'; roots := R |}, r)
                   | [] => None
                   end
               | None => None
               end
           | None => None
           end
  end.

End COPY.
