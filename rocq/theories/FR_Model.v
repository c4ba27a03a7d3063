(** * Giving all bound variables new names (theories/LambdaANF/freshen.v)

    The compiler state is reduced to the next unused variable: the other fields only
    record what variables are called ([get_name], theories/LambdaANF/state.v:46-51;
    modelled in full in Comp_Model.v). *)
From Coq Require Import ZArith NArith List.
From Verif Require Import ANF_Syntax ANF_Subst.
Import ListNotations.

(** [get_names_lst], theories/LambdaANF/state.v:75-76 *)
Fixpoint get_names_lst (xs : list var) (n : var) : list var * var :=
  match xs with
  | [] => ([], n)
  | _ :: xs => let '(ys, m) := get_names_lst xs (n + 1)%positive in (n :: ys, m)
  end.

(** theories/LambdaANF/freshen.v:36-107 *)
Fixpoint freshen_term (e : exp) (sigma : subst) (n : var) {struct e} : exp * var :=
  match e with
  | Econstr x t ys e =>
      let ys' := apply_r_list sigma ys in
      let '(e', m) := freshen_term e (set x n sigma) (n + 1)%positive in
      (Econstr n t ys' e', m)
  | Ecase v cl =>
      let '(cl', m) :=
        (fix alpha_list (pats : list (ctor_tag * exp)) (n : var) : list (ctor_tag * exp) * var :=
           match pats with
           | [] => ([], n)
           | (t, e) :: pats =>
               let '(e', n1) := freshen_term e sigma n in
               let '(pats', n2) := alpha_list pats n1 in
               ((t, e') :: pats', n2)
           end) cl n in
      (Ecase (apply_r sigma v) cl', m)
  | Eproj x t k y e =>
      let y' := apply_r sigma y in
      let '(e', m) := freshen_term e (set x n sigma) (n + 1)%positive in
      (Eproj n t k y' e', m)
  | Eletapp x f ft ys e =>
      let f' := apply_r sigma f in
      let ys' := apply_r_list sigma ys in
      let '(e', m) := freshen_term e (set x n sigma) (n + 1)%positive in
      (Eletapp n f' ft ys' e', m)
  | Efun fds e =>
      let f_names := all_fun_name fds in
      let '(f_names', n1) := get_names_lst f_names n in
      match set_lists f_names f_names' sigma with
      | Some sigma' =>
          let '(fds', n2) := freshen_fun fds sigma' n1 in
          let '(e', n3) := freshen_term e sigma' n2 in
          (Efun fds' e', n3)
      | None => (Efun Fnil e, n1)
      end
  | Eapp f t ys => (Eapp (apply_r sigma f) t (apply_r_list sigma ys), n)
  | Eprim_val x p e =>
      let '(e', m) := freshen_term e (set x n sigma) (n + 1)%positive in
      (Eprim_val n p e', m)
  | Eprim x t ys e =>
      let ys' := apply_r_list sigma ys in
      let '(e', m) := freshen_term e (set x n sigma) (n + 1)%positive in
      (Eprim n t ys' e', m)
  | Ehalt x => (Ehalt (apply_r sigma x), n)
  end
with freshen_fun (fds : fundefs) (sigma : subst) (n : var) {struct fds} : fundefs * var :=
  match fds with
  | Fcons f t xs e fds =>
      let f' := apply_r sigma f in
      let '(xs', n1) := get_names_lst xs n in
      match set_lists xs xs' sigma with
      | Some sigma' =>
          let '(e', n2) := freshen_term e sigma' n1 in
          let '(fds', n3) := freshen_fun fds sigma n2 in
          (Fcons f' t xs' e' fds', n3)
      | None => (Fnil, n1)
      end
  | Fnil => (Fnil, n)
  end.

(** theories/LambdaANF/freshen.v:110-112: the program and the next unused variable *)
Definition freshen_top (e : exp) (n : var) : exp * var := freshen_term e [] n.
