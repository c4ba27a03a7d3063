(** * The census of the shrink reducer

    Source: theories/LambdaANF/shrink_cps.v.  The census says how often each variable is used; a
    binding whose count is zero is deleted and a function whose count is one is inlined. *)
From Coq Require Import ZArith NArith PArith List Lia Bool.
From Verif Require Import ANF_Syntax ANF_Subst.
Import ListNotations.

(** shrink_cps.v:31 *)
Definition c_map := tmap nat.

(** shrink_cps.v:36-40 and 48: [getd 0] *)
Definition get_c (v : var) (c : c_map) : nat :=
  match get v c with Some n => n | None => 0 end.

(** shrink_cps.v:545-551 *)
Fixpoint update_census_list (sig : subst) (ys : list var) (fun_delta : var -> c_map -> nat)
         (count : c_map) : c_map :=
  match ys with
  | [] => count
  | y :: ys' =>
      let y' := apply_r sig y in
      update_census_list sig ys' fun_delta (set y' (fun_delta y' count) count)
  end.

(** shrink_cps.v:555-589 *)
Fixpoint update_census (sig : subst) (e : exp) (fun_delta : var -> c_map -> nat)
         (count : c_map) : c_map :=
  match e with
  | Econstr x t ys e => update_census sig e fun_delta (update_census_list sig ys fun_delta count)
  | Eprim_val x p e => update_census sig e fun_delta count
  | Eprim x f ys e => update_census sig e fun_delta (update_census_list sig ys fun_delta count)
  | Ecase v cl =>
      fold_right (fun (p : ctor_tag * exp) c => let (k, e) := p in update_census sig e fun_delta c)
                 (update_census_list sig [v] fun_delta count) cl
  | Eproj v t n y e => update_census sig e fun_delta (update_census_list sig [y] fun_delta count)
  | Eletapp v f ft ys e =>
      update_census sig e fun_delta (update_census_list sig (f :: ys) fun_delta count)
  | Efun fl e => update_census sig e fun_delta (update_census_f sig fl fun_delta count)
  | Eapp f t ys => update_census_list sig (f :: ys) fun_delta count
  | Ehalt v => update_census_list sig [v] fun_delta count
  end
with update_census_f (sig : subst) (fds : fundefs) (fun_delta : var -> c_map -> nat)
     (count : c_map) : c_map :=
  match fds with
  | Fcons v t ys e fds' => update_census_f sig fds' fun_delta (update_census sig e fun_delta count)
  | Fnil => count
  end.

(** shrink_cps.v:592 *)
Definition init_census (e : exp) : c_map := update_census [] e (fun v c => get_c v c + 1) [].

(** shrink_cps.v:593 *)
Definition dec_census (sig : subst) (e : exp) (count : c_map) : c_map :=
  update_census sig e (fun v c => get_c v c - 1) count.

(** shrink_cps.v:594 *)
Definition dec_census_list (sig : subst) (ys : list var) (count : c_map) : c_map :=
  update_census_list sig ys (fun v c => get_c v c - 1) count.

(** shrink_cps.v:597-603 *)
Fixpoint dec_census_all_case (sig : subst) (cl : list (ctor_tag * exp)) (count : c_map) : c_map :=
  match cl with
  | [] => count
  | (k, e) :: cl' => dec_census sig e (dec_census_all_case sig cl' count)
  end.

(** shrink_cps.v:606-615 *)
Fixpoint dec_census_case (sig : subst) (cl : list (ctor_tag * exp)) (y : ctor_tag) (count : c_map)
  : c_map :=
  match cl with
  | [] => count
  | (k, e) :: cl' =>
      if Pos.eq_dec k y then dec_census_all_case sig cl' count
      else dec_census sig e (dec_census_case sig cl' y count)
  end.

(** shrink_cps.v:618-625 *)
Fixpoint update_count_inlined (ys xs : list var) (count : c_map) : c_map :=
  match ys, xs with
  | y :: ys', x :: xs' =>
      let cy := get_c y count in
      let cx := get_c x count in
      update_count_inlined ys' xs' (set y (cy + cx - 1) (set x 0 count))
  | _, _ => count
  end.

(** shrink_cps.v:627-634 *)
Definition update_count_letapp (x' x : var) (count : c_map) : c_map :=
  if Pos.eq_dec x x' then count
  else
    let count' := set x 0 count in
    let c_x := get_c x count in
    let c_x' := get_c x' count in
    set x' (c_x + c_x' - 1) count'.

(** shrink_cps.v:913-914 (inside [contract], folding a projection [v := y'.n] whose field is
    [yn']). *)
Definition update_count_proj (v y' yn' : var) (count : c_map) : c_map :=
  let count' := set y' (get_c y' count - 1) count in
  set v 0 (set yn' (get_c v count + get_c yn' count) count').

(** shrink_cps.v:652-663; the map of known values is left out: a function whose count is zero is
    dropped and its uses are taken out of the census. *)
Fixpoint precontractfun (sig : subst) (count : c_map) (fds : fundefs) : fundefs * c_map :=
  match fds with
  | Fcons f t ys e fds' =>
      match get_c f count with
      | O => precontractfun sig (dec_census sig e count) fds'
      | _ => let (fds'', count') := precontractfun sig count fds' in (Fcons f t ys e fds'', count')
      end
  | Fnil => (Fnil, count)
  end.
