(** * Specifications for LambdaANF: an interpreter and free occurrences

    Nothing here is part of the compiler.  The relation [bstep] of ANF_Eval is
    compared with a textbook interpreter that recurses on a depth bound, says
    "stuck" explicitly and counts steps; free variables are compared with the
    textbook definition of a free occurrence. *)
From Coq Require Import ZArith NArith List Lia Bool.
From Verif Require Import ANF_Syntax.
Import ListNotations.

Inductive outcome : Type :=
| Done (v : val) (steps : nat)   (* finished after that many steps *)
| Deep                           (* depth bound reached *)
| Stuck.                         (* no rule applies *)

(** Calling [v] with [vs] at calling convention [t]: body and environment. *)
Definition enter (v : val) (t : fun_tag) (vs : list val) : option (env * exp) :=
  match v with
  | Vfun rho fl f =>
      match find_def f fl with
      | Some (t', xs, e) =>
          if Pos.eqb t t' then
            match set_lists xs vs (def_funs fl fl rho rho) with
            | Some rho' => Some (rho', e)
            | None => None
            end
          else None
      | None => None
      end
  | _ => None
  end.

Definition bump (o : outcome) : outcome :=
  match o with Done v n => Done v (S n) | o => o end.

Fixpoint interp (cenv : ctor_env) (d : nat) (rho : env) (e : exp) : outcome :=
  match d with
  | O => Deep
  | S d =>
      match e with
      | Econstr x t ys e =>
          match get_list ys rho with
          | Some vs => bump (interp cenv d (set x (Vconstr t vs) rho) e)
          | None => Stuck
          end
      | Ecase y cl =>
          match get y rho with
          | Some (Vconstr t _) =>
              if caseConsistent_f cenv cl t then
                match findtag cl t with
                | Some e => bump (interp cenv d rho e)
                | None => Stuck
                end
              else Stuck
          | _ => Stuck
          end
      | Eproj x t n y e =>
          match get y rho with
          | Some (Vconstr t' vs) =>
              if Pos.eqb t t' then
                match nthN vs n with
                | Some v => bump (interp cenv d (set x v rho) e)
                | None => Stuck
                end
              else Stuck
          | _ => Stuck
          end
      | Eletapp x f t ys e =>
          match get f rho, get_list ys rho with
          | Some vf, Some vs =>
              match enter vf t vs with
              | Some (rho', e') =>
                  match interp cenv d rho' e' with
                  | Done v n =>
                      match interp cenv d (set x v rho) e with
                      | Done v' n' => Done v' (S (n + n'))
                      | o => o
                      end
                  | o => o
                  end
              | None => Stuck
              end
          | _, _ => Stuck
          end
      | Efun B e => bump (interp cenv d (def_funs B B rho rho) e)
      | Eapp f t ys =>
          match get f rho, get_list ys rho with
          | Some vf, Some vs =>
              match enter vf t vs with
              | Some (rho', e') => bump (interp cenv d rho' e')
              | None => Stuck
              end
          | _, _ => Stuck
          end
      | Eprim_val _ _ _ => Stuck
      | Eprim _ _ _ _ => Stuck
      | Ehalt x =>
          match get x rho with Some v => Done v 1 | None => Stuck end
      end
  end.

(** ** Free occurrences *)
Fixpoint fnames (B : fundefs) : list var :=
  match B with
  | Fcons f _ _ _ B' => f :: fnames B'
  | Fnil => []
  end.

Fixpoint free (x : var) (e : exp) : Prop :=
  match e with
  | Econstr y _ ys e => In x ys \/ (x <> y /\ free x e)
  | Ecase y cl =>
      x = y \/
      (fix go (cl : list (ctor_tag * exp)) : Prop :=
         match cl with [] => False | p :: cl' => free x (snd p) \/ go cl' end) cl
  | Eproj y _ _ z e => x = z \/ (x <> y /\ free x e)
  | Eletapp y f _ ys e => x = f \/ In x ys \/ (x <> y /\ free x e)
  | Efun B e => ~ In x (fnames B) /\ (free x e \/ free_body x B)
  | Eapp f _ ys => x = f \/ In x ys
  | Eprim_val y _ e => x <> y /\ free x e
  | Eprim y _ ys e => In x ys \/ (x <> y /\ free x e)
  | Ehalt y => x = y
  end
(** free in the body of some function of the bundle, parameters excluded *)
with free_body (x : var) (B : fundefs) : Prop :=
  match B with
  | Fcons _ _ ys e B' => (~ In x ys /\ free x e) \/ free_body x B'
  | Fnil => False
  end.

(** free in a bundle *)
Definition free_funs (x : var) (B : fundefs) : Prop :=
  ~ In x (fnames B) /\ free_body x B.

(** ** Equality of values up to what a program can observe:
    the environment of a closure matters only on its free variables. *)
Inductive veq : val -> val -> Prop :=
| veq_constr t vs1 vs2 :
    Forall2 veq vs1 vs2 -> veq (Vconstr t vs1) (Vconstr t vs2)
| veq_fun rho1 rho2 B f :
    (forall x, free_funs x B ->
       (get x rho1 = None /\ get x rho2 = None) \/
       (exists v1 v2, get x rho1 = Some v1 /\ get x rho2 = Some v2 /\ veq v1 v2)) ->
    veq (Vfun rho1 B f) (Vfun rho2 B f)
| veq_prim p : veq (Vprim p) (Vprim p)
| veq_int z : veq (Vint z) (Vint z).

Definition env_agree (S : var -> Prop) (rho1 rho2 : env) : Prop :=
  forall x, S x ->
    (get x rho1 = None /\ get x rho2 = None) \/
    (exists v1 v2, get x rho1 = Some v1 /\ get x rho2 = Some v2 /\ veq v1 v2).

(** Values that contain no closure. *)
Fixpoint data (v : val) : Prop :=
  match v with
  | Vconstr _ vs =>
      (fix go (vs : list val) : Prop :=
         match vs with [] => True | v :: vs' => data v /\ go vs' end) vs
  | Vfun _ _ _ => False
  | _ => True
  end.
