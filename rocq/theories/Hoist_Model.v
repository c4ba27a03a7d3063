(** * Function hoisting

    Source: theories/LambdaANF/hoisting.v:16-91. *)
From Coq Require Import ZArith NArith List Lia Bool.
From Verif Require Import ANF_Syntax.
Import ListNotations.

(** theories/LambdaANF/hoisting.v:23-82, in the continuation-passing form of
    the source. *)
Fixpoint erase_fundefs (e : exp) (defs : fundefs)
         (f : exp * fundefs * nat -> exp * fundefs * nat) {struct e}
  : exp * fundefs * nat :=
  match e with
  | Econstr x tag ys e' =>
      erase_fundefs e' defs
        (fun p => let '(e, defs, n) := p in f (Econstr x tag ys e, defs, n))
  | Ecase x tes =>
      fold_left
        (fun (f : exp * fundefs * nat -> exp * fundefs * nat)
             (te : ctor_tag * exp) =>
           fun p =>
             let (c, e) := te in
             let '(e1, defs1, n1) := p in
             erase_fundefs e defs1
               (fun p2 =>
                  let '(e2, defs2, n2) := p2 in
                  match e1 with
                  | Ecase x' tes' =>
                      f (Ecase x' ((c, e2) :: tes'), defs2, max n1 n2)
                  | _ => f (Ecase x [(c, e2)], defs2, max n1 n2)
                  end)) tes f (Ecase x [], defs, 0)
  | Eproj x tag n y e' =>
      erase_fundefs e' defs
        (fun p => let '(e, defs, m) := p in f (Eproj x tag n y e, defs, m))
  | Eletapp x g ft ys e' =>
      erase_fundefs e' defs
        (fun p => let '(e, defs, n) := p in f (Eletapp x g ft ys e, defs, n))
  | Efun fdefs e' =>
      erase_fundefs e' defs
        (fun p =>
           let '(e'', defs'', n) := p in
           erase_nested_fundefs fdefs e'' defs''
             (fun p => let '(e, defs, m) := p in f (e, defs, 1 + max n m)))
  | Eapp g ft xs => f (Eapp g ft xs, defs, 0)
  | Eprim_val x pv e' =>
      erase_fundefs e' defs
        (fun p => let '(e', defs', n) := p in f (Eprim_val x pv e', defs', n))
  | Eprim x prim ys e' =>
      erase_fundefs e' defs
        (fun p => let '(e', defs', n) := p in f (Eprim x prim ys e', defs', n))
  | Ehalt x => f (Ehalt x, defs, 0)
  end
with erase_nested_fundefs (defs : fundefs) (e : exp) (hdefs : fundefs)
       (f : exp * fundefs * nat -> exp * fundefs * nat) {struct defs}
  : exp * fundefs * nat :=
  match defs with
  | Fcons g t xs e' defs =>
      erase_nested_fundefs defs e hdefs
        (fun p1 =>
           let '(e1, defs1, n1) := p1 in
           erase_fundefs e' defs1
             (fun p2 =>
                let '(e2, defs2, n2) := p2 in
                f (e1, Fcons g t xs e2 defs2, max n1 n2)))
  | Fnil => f (e, hdefs, 0)
  end.

(** theories/LambdaANF/hoisting.v:85-90 *)
Definition exp_hoist (e : exp) : exp * nat :=
  let '(e, defs, n) := erase_fundefs e Fnil (fun p => p) in
  match defs with
  | Fnil => (e, n)
  | _ => (Efun defs e, n)
  end.
