(* Notions for stating that A-normalisation preserves evaluation: an evaluator
   for the de Bruijn language that tells running out of time from being stuck,
   and correspondence of results. *)
From Coq Require Import List Arith NArith PArith String Bool.
From Verif Require Import ANF_Syntax LB_Model LB_Env AN_Model.
Import ListNotations.

Inductive eres (A : Type) : Type := EVal (a : A) | ETime | EStuck.
Arguments EVal {A} a.
Arguments ETime {A}.
Arguments EStuck {A}.

Section Ev.
  (* does applying an erased proof give a proof (as in expression.v), or is it
     stuck *)
  Variable papp : bool.
  (* what evaluates bodies of functions and branches *)
  Variable body : venv -> lexp -> eres value.

  Definition apply_fun (f v2 : value) : eres value :=
    match f with
    | Clos_v rho' _ b => body (v2 :: rho') b
    | ClosFix_v rho' fnl n =>
      match enthopt (N.to_nat n) fnl with
      | Some (Lam_e _ b) => body (v2 :: make_rec_env fnl rho') b
      | _ => EStuck
      end
    | Prf_v => if papp then EVal Prf_v else EStuck
    | _ => EStuck
    end.

  Fixpoint es (rho : venv) (e : lexp) : eres value :=
    match e with
    | Var_e x => match nth_error rho (N.to_nat x) with Some v => EVal v | None => EStuck end
    | Lam_e na b => EVal (Clos_v rho na b)
    | Fix_e fnl n => EVal (ClosFix_v rho fnl n)
    | Con_e d l =>
      match ess rho l with EVal vs => EVal (Con_v d vs) | ETime => ETime | EStuck => EStuck end
    | App_e e1 e2 =>
      match es rho e1 with
      | EVal f => match es rho e2 with EVal v2 => apply_fun f v2 | r => r end
      | r => r
      end
    | Let_e _ e1 e2 => match es rho e1 with EVal v => es (v :: rho) e2 | r => r end
    | Match_e e1 _ bs =>
      match es rho e1 with
      | EVal (Con_v d vs) =>
        match find_branch d (N.of_nat (List.length vs)) bs with
        | Some b => body (rev vs ++ rho) b
        | None => EStuck
        end
      | EVal _ => EStuck
      | r => r
      end
    | Prf_e => EVal Prf_v
    | Prim_val_e p => EVal (Prim_v p)
    | Prim_e _ => EStuck
    end
  with ess (rho : venv) (l : exps) : eres (list value) :=
    match l with
    | enil => EVal []
    | econs e l =>
      match es rho e with
      | EVal v => match ess rho l with EVal vs => EVal (v :: vs) | r => r end
      | ETime => ETime
      | EStuck => EStuck
      end
    end.
End Ev.

(* Evaluation in which function bodies and branches are nested at most [n]
   deep. *)
Fixpoint eeval (papp : bool) (n : nat) (rho : venv) (e : lexp) : eres value :=
  es papp (match n with 0 => fun _ _ => ETime | S m => eeval papp m end) rho e.

(* The program runs for ever. *)
Definition ediverges (papp : bool) (e : lexp) : Prop := forall n, eeval papp n [] e = ETime.
(* The program never gets stuck. *)
Definition esafe (papp : bool) (e : lexp) : Prop := forall n, eeval papp n [] e <> EStuck.

(* Results that correspond.  In the A-normal language a constructor is its tag,
   and a proof is the nullary constructor with the default tag; functions
   correspond to functions.  (What a function does is observed by applying it in
   the program.) *)
Inductive same_tree (default_tag : positive) (tgm : conId_map) : lexp -> val -> Prop :=
| st_con : forall d es vs, same_trees default_tag tgm es vs ->
    same_tree default_tag tgm (Con_e d es) (Vconstr (dcon_to_tag default_tag d tgm) vs)
| st_prf : same_tree default_tag tgm Prf_e (Vconstr default_tag [])
| st_prim : forall p, same_tree default_tag tgm (Prim_val_e p) (Vprim p)
| st_lam : forall na b rho B f, same_tree default_tag tgm (Lam_e na b) (Vfun rho B f)
| st_fix : forall fs n rho B f, same_tree default_tag tgm (Fix_e fs n) (Vfun rho B f)
with same_trees (default_tag : positive) (tgm : conId_map) : exps -> list val -> Prop :=
| st_nil : same_trees default_tag tgm enil []
| st_cons : forall e es v vs, same_tree default_tag tgm e v -> same_trees default_tag tgm es vs ->
    same_trees default_tag tgm (econs e es) (v :: vs).

(* Constructors the tag table knows. *)
Definition known (tgm : conId_map) (d : dcon) : Prop := In d (map fst tgm).

(* The tag table tells known constructors apart, and constructors of one type
   are recorded with one type in the constructor environment. *)
Definition good_sig (default_tag : positive) (tgm : conId_map) (cenv : ctor_env) : Prop :=
  (forall d d', known tgm d -> known tgm d' ->
     dcon_to_tag default_tag d tgm = dcon_to_tag default_tag d' tgm -> d = d') /\
  (forall d d', known tgm d -> known tgm d' -> fst d = fst d' ->
     exists i i', get (dcon_to_tag default_tag d tgm) cenv = Some i /\
                  get (dcon_to_tag default_tag d' tgm) cenv = Some i' /\
                  ctor_ind_tag i = ctor_ind_tag i').

(* All constructors of the term are known, the branches of a match are about
   one type, and a fixpoint selects one of its functions. *)
Fixpoint brs_of (i : inductive) (bs : branches_e) : Prop :=
  match bs with brnil_e => True | brcons_e d _ _ bs => fst d = i /\ brs_of i bs end.
Fixpoint uses (tgm : conId_map) (e : lexp) : Prop :=
  match e with
  | Var_e _ | Prf_e | Prim_val_e _ | Prim_e _ => True
  | Lam_e _ e => uses tgm e
  | App_e e1 e2 => uses tgm e1 /\ uses tgm e2
  | Con_e d es => known tgm d /\ uses_es tgm es
  | Match_e e _ bs => uses tgm e /\ (exists i, brs_of i bs) /\ uses_bs tgm bs
  | Let_e _ e1 e2 => uses tgm e1 /\ uses tgm e2
  | Fix_e fs i => (i < efnlst_length fs)%N /\ uses_fs tgm fs
  end
with uses_es (tgm : conId_map) (es : exps) : Prop :=
  match es with enil => True | econs e es => uses tgm e /\ uses_es tgm es end
with uses_fs (tgm : conId_map) (es : efnlst) : Prop :=
  match es with eflnil => True | eflcons _ e es => uses tgm e /\ uses_fs tgm es end
with uses_bs (tgm : conId_map) (bs : branches_e) : Prop :=
  match bs with
  | brnil_e => True
  | brcons_e d _ e bs => known tgm d /\ uses tgm e /\ uses_bs tgm bs
  end.

(* Giving a function value its arguments one at a time. *)
Inductive applied (call : val -> fun_tag -> list val -> val -> Prop) (t : fun_tag) : val -> list val -> val -> Prop :=
| ap_nil : forall v, applied call t v [] v
| ap_cons : forall f v vs w r, call f t [v] w -> applied call t w vs r -> applied call t f (v :: vs) r.
