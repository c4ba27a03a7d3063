(** * What compiling a program with the LambdaANF pipeline must keep *)
From Coq Require Import ZArith NArith PArith List Bool.
From Verif Require Import ANF_Syntax ANF_Eval ANF_Spec ANF_Scope.
Import ListNotations.

(** no free names, every name bound once *)
Definition whole (e : exp) : Prop := NoDup (bv e) /\ (forall x, ~ free x e).

(** all names are smaller than [n] *)
Definition names_below (n : positive) (e : exp) : Prop := forall x, In x (bv e) -> (x < n)%positive.

(** The same constructor tree, with functions at the same places. *)
Inductive tree_like : val -> val -> Prop :=
| tl_constr t vs vs' : Forall2 tree_like vs vs' -> tree_like (Vconstr t vs) (Vconstr t vs')
| tl_prim p : tree_like (Vprim p) (Vprim p)
| tl_int z : tree_like (Vint z) (Vint z)
| tl_fun rho B f rho' B' f' : tree_like (Vfun rho B f) (Vfun rho' B' f').

(** The same constructor tree, with closures at the places of functions: a
    closure is a block with tag [clo_tag] of a function and an environment. *)
Inductive compiled (clo_tag : ctor_tag) : val -> val -> Prop :=
| cp_constr t vs vs' : Forall2 (compiled clo_tag) vs vs' -> compiled clo_tag (Vconstr t vs) (Vconstr t vs')
| cp_prim p : compiled clo_tag (Vprim p) (Vprim p)
| cp_int z : compiled clo_tag (Vint z) (Vint z)
| cp_fun rho B f rho' B' f' w : compiled clo_tag (Vfun rho B f) (Vconstr clo_tag [Vfun rho' B' f'; w]).

(** The program [e'] with table [cenv'] does what [e] with table [cenv] does,
    with results related by [R]. *)
Definition implements (R : val -> val -> Prop) (cenv : ctor_env) (e : exp) (cenv' : ctor_env) (e' : exp) : Prop :=
  (forall c v, bstep_fuel cenv [] e c (Res v) -> exists c' v', bstep_fuel cenv' [] e' c' (Res v') /\ R v v') /\
  (diverge cenv [] e -> diverge cenv' [] e') /\
  (* nothing else, if the source does not get stuck *)
  (not_stuck cenv [] e ->
     not_stuck cenv' [] e' /\
     (forall c' v', bstep_fuel cenv' [] e' c' (Res v') -> exists c v, bstep_fuel cenv [] e c (Res v) /\ R v v') /\
     (diverge cenv' [] e' -> diverge cenv [] e)).
