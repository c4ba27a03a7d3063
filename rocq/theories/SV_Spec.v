(** Which forms of expressions a program contains, in itself and in the closures of its environment.
    Nothing here is part of the compiler. *)
From Coq Require Import List.
From Verif Require Import ANF_Syntax.
Import ListNotations.

Section Forms.
(** Are calls whose result is used, literals, and primitive operations allowed? *)
Variables (letapp lit op : bool).

Fixpoint forms_e (e : exp) : Prop :=
  match e with
  | Econstr _ _ _ e => forms_e e
  | Ecase _ cl =>
      (fix go (cl : list (ctor_tag * exp)) : Prop :=
         match cl with [] => True | p :: cl => forms_e (snd p) /\ go cl end) cl
  | Eproj _ _ _ _ e => forms_e e
  | Eletapp _ _ _ _ e => letapp = true /\ forms_e e
  | Efun B e => forms_B B /\ forms_e e
  | Eapp _ _ _ => True
  | Eprim_val _ _ e => lit = true /\ forms_e e
  | Eprim _ _ _ e => op = true /\ forms_e e
  | Ehalt _ => True
  end
with forms_B (B : fundefs) : Prop :=
  match B with
  | Fcons _ _ _ e B => forms_e e /\ forms_B B
  | Fnil => True
  end.

Inductive forms_v : val -> Prop :=
| Fv_constr : forall t vs, Forall forms_v vs -> forms_v (Vconstr t vs)
| Fv_fun : forall rho B f, Forall (fun p => forms_v (snd p)) rho -> forms_B B ->
    forms_v (Vfun rho B f)
| Fv_prim : forall p, forms_v (Vprim p)
| Fv_int : forall z, forms_v (Vint z).

Definition forms_env (rho : env) : Prop := Forall (fun p => forms_v (snd p)) rho.

(** The primitive operations return no other forms than they are given. *)
Definition forms_prims (pr : tmap (list val -> option val)) : Prop :=
  forall f f' vs v, get f pr = Some f' -> f' vs = Some v -> Forall forms_v vs -> forms_v v.
End Forms.
