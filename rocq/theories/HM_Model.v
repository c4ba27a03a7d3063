(** * Interning (libraries/HashMap.v) and the order of tags (theories/LambdaANF/tags.v)

    A map is the list of its elements; that no element occurs twice is a field of the
    record in /repo (HashMap.v:39-43) and proved here instead. *)
From Coq Require Import PArith NArith List.
Import ListNotations.

Section HASHMAP.
Variable D : Type.
Variable eq_dec : forall x y : D, {x = y} + {x <> y}.

(** libraries/HashMap.v:43-44 *)
Definition hmap : Type := list D.

(** libraries/HashMap.v:49 *)
Definition empty : hmap := [].

(** libraries/HashMap.v:50-51 *)
Definition get (i : positive) (m : hmap) : option D := nth_error m (pred (Pos.to_nat i)).

(** libraries/HashMap.v:52-59 *)
Fixpoint find (i : positive) (v : D) (elems : list D) : positive + positive :=
  match elems with
  | w :: elems' => if eq_dec v w then inl i else find (Pos.succ i) v elems'
  | [] => inr i
  end.

(** libraries/HashMap.v:66-74 *)
Definition hash (v : D) (m : hmap) : positive * hmap :=
  match find 1%positive v m with
  | inl i => (i, m)
  | inr i => (i, m ++ [v])
  end.

(** libraries/HashMap.v:89-93 *)
Fixpoint elements' (i : positive) (el : list D) : list (positive * D) :=
  match el with
  | [] => []
  | v :: el' => (i, v) :: elements' (Pos.succ i) el'
  end.

(** libraries/HashMap.v:95-96 *)
Definition elements (m : hmap) : list (positive * D) := elements' 1%positive m.
End HASHMAP.

(** theories/LambdaANF/tags.v:17-26 *)
Inductive taginfo : Type :=
| Tag_record (n : N) | Tag_const (n : N) | Tag_lobit | Tag_floats | Tag_string
| Tag_fun (returncont : bool) (formals : list positive).

(** theories/LambdaANF/tags.v:29, with [class] of line 13 *)
Definition tag : Type := (positive * taginfo)%type.

(** theories/LambdaANF/tags.v:33-34 *)
Definition lexi {A B : Type} (f : A -> A -> comparison) a a' (g : B -> B -> comparison) b b' : comparison :=
  match f a a' with Lt => Lt | Eq => g b b' | Gt => Gt end.

(** theories/LambdaANF/tags.v:36-42 *)
Fixpoint compare_list {A : Type} (f : A -> A -> comparison) (al bl : list A) : comparison :=
  match al, bl with
  | a :: al', b :: bl' => lexi f a b (compare_list f) al' bl'
  | [], _ :: _ => Lt
  | _ :: _, [] => Gt
  | [], [] => Eq
  end.

(** theories/LambdaANF/tags.v:48-54 *)
Definition compare_bool (x y : bool) : comparison :=
  match x, y with
  | false, false => Eq
  | false, true => Lt
  | true, false => Gt
  | true, true => Eq
  end.

(** theories/LambdaANF/tags.v:56-82 *)
Definition compare (x y : tag) : comparison :=
  match x, y with
  | (n, x1), (n', y1) =>
      match Pos.compare n n' with
      | Lt => Lt | Gt => Gt
      | Eq =>
          match x1, y1 with
          | Tag_record n, Tag_record n' => N.compare n n'
          | Tag_record _, _ => Lt
          | _, Tag_record _ => Gt
          | Tag_const n, Tag_const n' => N.compare n n'
          | Tag_const _, _ => Lt
          | _, Tag_const _ => Gt
          | Tag_lobit, Tag_lobit => Eq
          | Tag_lobit, _ => Lt
          | _, Tag_lobit => Gt
          | Tag_floats, Tag_floats => Eq
          | Tag_floats, _ => Lt
          | _, Tag_floats => Gt
          | Tag_string, Tag_string => Eq
          | Tag_string, _ => Lt
          | _, Tag_string => Gt
          | Tag_fun ret fmls, Tag_fun ret' fmls' => lexi compare_bool ret ret' (compare_list Pos.compare) fmls fmls'
          end
      end
  end.
