(** The sizes of programs, values and environments, with which the cost of compiled programs is bounded.
    Source: /repo/theories/LambdaANF/size_cps.v.

    Simplified: maps are association lists (ANF_Syntax.v), so the bindings that [M.fold] visits are
    the newest ones of each name, in another order; the measures are maxima and do not depend on it. *)
From Coq Require Import ZArith NArith List Bool.
From Verif Require Import ANF_Syntax.
Import ListNotations.

(** size_cps.v:18-41 *)
Fixpoint sizeOf_exp (e : exp) : nat :=
  match e with
  | Econstr x _ ys e => length ys + sizeOf_exp e
  | Ecase x l =>
      1 + (fix sizeOf_l (l : list (ctor_tag * exp)) : nat :=
             match l with
             | [] => 0
             | (t, e) :: l => sizeOf_exp e + sizeOf_l l
             end) l
  | Eproj x _ _ y e => 1 + sizeOf_exp e
  | Eletapp x f _ ys e => 1 + length ys + sizeOf_exp e
  | Efun B e => 1 + sizeOf_fundefs B + sizeOf_exp e
  | Eapp x _ ys => 1 + length ys
  | Eprim_val x _ e => 1 + sizeOf_exp e
  | Eprim x _ ys e => 1 + length ys + sizeOf_exp e
  | Ehalt x => 1
  end
with sizeOf_fundefs (B : fundefs) : nat :=
  match B with
  | Fcons _ _ xs e B => 1 + sizeOf_exp e + sizeOf_fundefs B
  | Fnil => 0
  end.

(** size_cps.v:43-54; the list [fundefs_fv] is built without repetition *)
Definition cost_cc (e : exp) : nat :=
  match e with
  | Econstr x t ys e => 1 + length ys
  | Eproj x t n y e => 1
  | Ecase y cl => 1
  | Eapp f t ys => 1 + length ys
  | Eletapp x f t ys e => 1 + length ys
  | Efun B e => 1 + length (fundefs_fv B)
  | Eprim_val x p e => 1
  | Eprim x f ys e => 1 + length ys
  | Ehalt x => 1
  end.

(** [M.elements] of CompCert's Maps.v: the newest binding of each name *)
Fixpoint elements {A} (m : tmap A) : list (positive * A) :=
  match m with
  | [] => []
  | (x, v) :: m' => (x, v) :: filter (fun p => negb (Pos.eqb (fst p) x)) (elements m')
  end.

(** size_cps.v:81-82 *)
Definition max_ptree_with_measure {A} (f : A -> nat) (i : nat) (rho : tmap A) : nat :=
  fold_left (fun c p => max c (f (snd p))) (elements rho) i.

(** List_util.v:726-727 *)
Definition max_list_nat_with_measure {A} (f : A -> nat) (i : nat) (ls : list A) : nat :=
  fold_left (fun c v => max c (f v)) ls i.

(** size_cps.v:117-131 [sizeOf_val'] *)
Fixpoint sizeOf_val (i : nat) (v : val) : nat :=
  match i with
  | 0 => 0
  | S i' =>
      (fix aux (v : val) : nat :=
         match v with
         | Vconstr _ vs => max_list_nat_with_measure aux 0 vs
         | Vfun rho B f => max (sizeOf_fundefs B) (max_ptree_with_measure (sizeOf_val i') 0 rho)
         | Vprim _ => 0
         | Vint x => 0
         end) v
  end.

(** size_cps.v:135 *)
Definition sizeOf_env (i : nat) (rho : env) : nat := max_ptree_with_measure (sizeOf_val i) 0 rho.

(** size_cps.v:381-382 *)
Definition max_exp_env (k : nat) (e : exp) (rho : env) : nat := max (sizeOf_exp e) (sizeOf_env k rho).

(** cps_util.v:662-667 *)
Fixpoint numOf_fundefs (B : fundefs) : nat :=
  match B with
  | Fcons _ _ xs e B => 1 + numOf_fundefs B
  | Fnil => 0
  end.

(** size_cps.v:211-236 *)
Fixpoint num_fundefs_in_exp (e : exp) : nat :=
  match e with
  | Econstr x _ ys e => num_fundefs_in_exp e
  | Ecase x l =>
      1 + (fix num (l : list (ctor_tag * exp)) : nat :=
             match l with
             | [] => 0
             | (t, e) :: l => num_fundefs_in_exp e + num l
             end) l
  | Eproj x _ _ y e => 1 + num_fundefs_in_exp e
  | Eletapp x _ _ y e => num_fundefs_in_exp e
  | Efun B e => 1 + num_fundefs_in_fundefs B + num_fundefs_in_exp e
  | Eapp x _ ys => 0
  | Eprim_val x _ e => num_fundefs_in_exp e
  | Eprim x _ ys e => num_fundefs_in_exp e
  | Ehalt x => 0
  end
with num_fundefs_in_fundefs (B : fundefs) : nat :=
  match B with
  | Fcons _ _ xs e B => num_fundefs_in_exp e + num_fundefs_in_fundefs B
  | Fnil => 0
  end.
