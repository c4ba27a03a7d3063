(** * What a copy in OCaml's heap should be

    Values as trees, and what OCaml's allocator promises.  Nothing here mentions the
    copying function. *)
From Coq Require Import ZArith List Bool Arith.
From Verif Require Import BW_Model.
Import ListNotations.

Inductive tree : Set := TI (z : Z) | TN (tag : nat) (ts : list tree).

(** OCaml's No_scan_tag: from here on fields are not values *)
Definition no_scan : nat := 251.

(** the value at a word of the compiled program's heap *)
Inductive value_in (src : heap) : word -> tree -> Prop :=
| vi_imm : forall z, value_in src (Imm z) (TI z)
| vi_block : forall a tag ws ts, src a = Some (tag, ws) -> Forall2 (value_in src) ws ts ->
    value_in src (Src a) (TN tag ts).

(** the value at a word of OCaml's heap: all of it is in that heap *)
Inductive shows (h : heap) : word -> tree -> Prop :=
| sh_imm : forall z, shows h (Imm z) (TI z)
| sh_block : forall a tag ws ts, h a = Some (tag, ws) -> Forall2 (shows h) ws ts ->
    shows h (Cml a) (TN tag ts).

(** blocks have fields, and the fields are values *)
Inductive plain : tree -> Prop :=
| pl_imm : forall z, plain (TI z)
| pl_block : forall tag ts, tag < no_scan -> ts <> [] -> Forall plain ts -> plain (TN tag ts).

(** the number of blocks, each occurrence counted *)
Fixpoint blocks (t : tree) : nat :=
  match t with
  | TI _ => 0
  | TN _ ts => S (list_sum (List.map blocks ts))
  end.

(** what OCaml's collector keeps *)
Inductive reach (h : heap) (R : list word) : nat -> Prop :=
| re_root : forall a, In (Cml a) R -> reach h R a
| re_field : forall a b tag ws, reach h R a -> h a = Some (tag, ws) -> tag < no_scan ->
    In (Cml b) ws -> reach h R b.

(** a block after a collection *)
Definition moved (f : nat -> nat) (b : block) : block :=
  (fst b, if fst b <? no_scan then List.map (ren f) (snd b) else snd b).

(** what was reachable is kept, somewhere else perhaps *)
Definition keeps (h : heap) (R : list word) (h' : heap) (f : nat -> nat) : Prop :=
  (forall b, reach h R b -> h' (f b) = option_map (moved f) (h b)) /\
  (forall b c, reach h R b -> reach h R c -> f b = f c -> b = c).

(** allocating a block of values: a collection, and a new block filled with immediate
    words, in a place nothing else uses *)
Definition allocates (alloc : nat -> heap -> list word -> nat -> nat -> heap * (nat -> nat) * nat) : Prop :=
  forall t h R tag n, tag < no_scan -> 0 < n ->
  let '(h', f, a) := alloc t h R tag n in
  keeps h R h' f /\ (exists z, h' a = Some (tag, List.repeat (Imm z) n)) /\
  (forall b, reach h R b -> f b <> a).
