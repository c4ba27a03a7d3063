(** * Bound variables, bundles, unique binding (specification)

    Corresponds to [bound_var], [unique_bindings] (theories/LambdaANF/
    identifiers.v:1248-1320, 1746-1806), [funs_in_exp] (identifiers.v:1102),
    written as lists of binding occurrences so that unique binding is
    [NoDup]. *)
From Coq Require Import ZArith NArith List Lia Bool.
From Verif Require Import ANF_Syntax ANF_Spec.
Import ListNotations.

(** all binding occurrences *)
Fixpoint bv (e : exp) : list var :=
  match e with
  | Econstr x _ _ e => x :: bv e
  | Ecase _ cl => flat_map (fun p => bv (snd p)) cl
  | Eproj x _ _ _ e => x :: bv e
  | Eletapp x _ _ _ e => x :: bv e
  | Efun B e => bv_funs B ++ bv e
  | Eapp _ _ _ => []
  | Eprim_val x _ e => x :: bv e
  | Eprim x _ _ e => x :: bv e
  | Ehalt _ => []
  end
with bv_funs (B : fundefs) : list var :=
  match B with
  | Fcons f _ xs e B' => f :: xs ++ bv e ++ bv_funs B'
  | Fnil => []
  end.

(** binding occurrences that are not function names *)
Fixpoint bvl (e : exp) : list var :=
  match e with
  | Econstr x _ _ e => x :: bvl e
  | Ecase _ cl => flat_map (fun p => bvl (snd p)) cl
  | Eproj x _ _ _ e => x :: bvl e
  | Eletapp x _ _ _ e => x :: bvl e
  | Efun B e => bvl_funs B ++ bvl e
  | Eapp _ _ _ => []
  | Eprim_val x _ e => x :: bvl e
  | Eprim x _ _ e => x :: bvl e
  | Ehalt _ => []
  end
with bvl_funs (B : fundefs) : list var :=
  match B with
  | Fcons _ _ xs e B' => xs ++ bvl e ++ bvl_funs B'
  | Fnil => []
  end.

(** all function definitions, nested ones included *)
Definition fdef : Type := var * fun_tag * list var * exp.
Fixpoint defs_of (e : exp) : list fdef :=
  match e with
  | Econstr _ _ _ e => defs_of e
  | Ecase _ cl => flat_map (fun p => defs_of (snd p)) cl
  | Eproj _ _ _ _ e => defs_of e
  | Eletapp _ _ _ _ e => defs_of e
  | Efun B e => defs_of_funs B ++ defs_of e
  | Eapp _ _ _ => []
  | Eprim_val _ _ e => defs_of e
  | Eprim _ _ _ e => defs_of e
  | Ehalt _ => []
  end
with defs_of_funs (B : fundefs) : list fdef :=
  match B with
  | Fcons f t xs e B' => (f, t, xs, e) :: defs_of e ++ defs_of_funs B'
  | Fnil => []
  end.

(** the definitions directly in a bundle *)
Fixpoint flist (B : fundefs) : list fdef :=
  match B with
  | Fcons f t xs e B' => (f, t, xs, e) :: flist B'
  | Fnil => []
  end.

(** all bundles, nested ones included *)
Fixpoint bundles (e : exp) : list fundefs :=
  match e with
  | Econstr _ _ _ e => bundles e
  | Ecase _ cl => flat_map (fun p => bundles (snd p)) cl
  | Eproj _ _ _ _ e => bundles e
  | Eletapp _ _ _ _ e => bundles e
  | Efun B e => B :: bundles_funs B ++ bundles e
  | Eapp _ _ _ => []
  | Eprim_val _ _ e => bundles e
  | Eprim _ _ _ e => bundles e
  | Ehalt _ => []
  end
with bundles_funs (B : fundefs) : list fundefs :=
  match B with
  | Fcons _ _ _ e B' => bundles e ++ bundles_funs B'
  | Fnil => []
  end.

(** no function definition inside *)
Fixpoint nofun (e : exp) : Prop :=
  match e with
  | Econstr _ _ _ e => nofun e
  | Ecase _ cl =>
      (fix go (cl : list (ctor_tag * exp)) : Prop :=
         match cl with [] => True | p :: cl' => nofun (snd p) /\ go cl' end) cl
  | Eproj _ _ _ _ e => nofun e
  | Eletapp _ _ _ _ e => nofun e
  | Efun _ _ => False
  | Eapp _ _ _ => True
  | Eprim_val _ _ e => nofun e
  | Eprim _ _ _ e => nofun e
  | Ehalt _ => True
  end.

Definition fname (d : fdef) : var := let '(f, _, _, _) := d in f.
