(** * Preparing a quoted program for the compiled compiler
    (bootstrap/certirocqc/certirocqc_plugin_wrapper.ml and
    bootstrap/certirocqchk/certirocqchk_plugin_wrapper.ml)

    OCaml values are taken as they are in memory, because the code changes their
    representation with Obj.  Constructors with arguments are blocks tagged in the order of
    declaration in MetaRocq's Ast and BasicAst (not in /repo; trusted), records and pairs
    have tag 0, constant constructors are integers.  [None] is Match_failure. *)
From Coq Require Import ZArith List Bool.
Import ListNotations.

(** OCaml values: integers and blocks, certirocqc_plugin_wrapper.ml:35-41 *)
Inductive obj : Set := I (z : Z) | B (tag : nat) (fs : list obj).

(** sequencing of results that may be Match_failure *)
Definition bind {A C : Type} (x : option A) (f : A -> option C) : option C :=
  match x with Some a => f a | None => None end.

Notation "'do' x <- e ; r" := (bind e (fun x => r)) (at level 200, x name, e at level 100, r at level 200).

(** List.map, on lists in memory, certirocqc_plugin_wrapper.ml:65, 102 *)
Fixpoint map_list (f : obj -> option obj) (l : obj) : option obj :=
  match l with
  | I 0 => Some (I 0)
  | B 0 [x; r] => do x' <- f x; do r' <- map_list f r; Some (B 0 [x'; r'])
  | _ => None
  end.

(** certirocqc_plugin_wrapper.ml:35-41 *)
Definition fix_set (u : obj) : obj := B 0 [u; I 1].

(** certirocqc_plugin_wrapper.ml:43-62; the constant constructors are sProp and sSProp *)
Definition fix_universe (u : obj) : option obj :=
  match u with
  | I 0 => Some (I 0)
  | I 1 => Some (I 1)
  | B 0 [neues] => Some (B 0 [B 0 [B 0 [neues; I 1]; I 1]])
  | _ => None
  end.

(** [fix_term], certirocqc_plugin_wrapper.ml:64-90.  [lits]: the cases of lines 80-82 are
    there, as in certirocqc; they are missing in certirocqchk_plugin_wrapper.ml:64-87 *)
Fixpoint fix_term (lits : bool) (p : obj) {struct p} : option obj :=
  let map_term := (fix map_term (l : obj) : option obj :=
    match l with
    | I 0 => Some (I 0)
    | B 0 [x; r] => do x' <- fix_term lits x; do r' <- map_term r; Some (B 0 [x'; r'])
    | _ => None
    end) in
  let map_branch := (fix map_branch (l : obj) : option obj :=
    match l with
    | I 0 => Some (I 0)
    | B 0 [B 0 [bcontext; bbody]; r] =>
        do b <- fix_term lits bbody; do r' <- map_branch r; Some (B 0 [B 0 [bcontext; b]; r'])
    | _ => None
    end) in
  let map_def := (fix map_def (l : obj) : option obj :=
    match l with
    | I 0 => Some (I 0)
    | B 0 [B 0 [dname; dtype; dbody; rarg]; r] =>
        do t <- fix_term lits dtype; do b <- fix_term lits dbody;
        do r' <- map_def r; Some (B 0 [B 0 [dname; t; b; rarg]; r'])
    | _ => None
    end) in
  match p with
  | B 0 _ | B 1 _ | B 9 _ | B 10 _ | B 11 _ => Some p
  | B 2 [k; l] => do l' <- map_term l; Some (B 2 [k; l'])
  | B 3 [u] => do u' <- fix_universe u; Some (B 3 [u'])
  | B 4 [t; k; t'] => do a <- fix_term lits t; do b <- fix_term lits t'; Some (B 4 [a; k; b])
  | B 5 [na; t; t'] => do a <- fix_term lits t; do b <- fix_term lits t'; Some (B 5 [na; a; b])
  | B 6 [na; t; t'] => do a <- fix_term lits t; do b <- fix_term lits t'; Some (B 6 [na; a; b])
  | B 7 [na; t; b; t'] =>
      do x <- fix_term lits t; do y <- fix_term lits b; do z <- fix_term lits t'; Some (B 7 [na; x; y; z])
  | B 8 [t; l] => do a <- fix_term lits t; do l' <- map_term l; Some (B 8 [a; l'])
  | B 12 [ci; B 0 [puinst; pparams; pcontext; preturn]; c; brs] =>
      do ps <- map_term pparams; do r <- fix_term lits preturn; do d <- fix_term lits c;
      do bs <- map_branch brs; Some (B 12 [ci; B 0 [puinst; ps; pcontext; r]; d; bs])
  | B 13 [q; t] => do a <- fix_term lits t; Some (B 13 [q; a])
  | B 14 [mfix; i] => do m <- map_def mfix; Some (B 14 [m; i])
  | B 15 [mfix; i] => do m <- map_def mfix; Some (B 15 [m; i])
  | B 16 [i] => if lits then Some (B 16 [i]) else None
  | B 17 [f] => if lits then Some (B 17 [f]) else None
  | B 18 [f] => if lits then Some (B 18 [f]) else None
  | B 19 [u; v; def; ty] =>
      do vs <- map_term v; do d <- fix_term lits def; do t <- fix_term lits ty; Some (B 19 [u; vs; d; t])
  | _ => None
  end.

(** [option_map], certirocqc_plugin_wrapper.ml:92-95 *)
Definition fix_option (f : obj -> option obj) (x : obj) : option obj :=
  match x with
  | I 0 => Some (I 0)
  | B 0 [y] => do z <- f y; Some (B 0 [z])
  | _ => None
  end.

(** certirocqc_plugin_wrapper.ml:99-101 *)
Definition fix_ctx_decl (lits : bool) (d : obj) : option obj :=
  match d with
  | B 0 [decl_name; decl_body; decl_type] =>
      do b <- fix_option (fix_term lits) decl_body; do t <- fix_term lits decl_type; Some (B 0 [decl_name; b; t])
  | _ => None
  end.

(** certirocqc_plugin_wrapper.ml:97-102 *)
Definition fix_rel_context (lits : bool) (ctx : obj) : option obj := map_list (fix_ctx_decl lits) ctx.

(** certirocqc_plugin_wrapper.ml:104-106 *)
Definition fix_universes_decl (u : obj) : option obj :=
  match u with
  | I 0 => Some (I 0)
  | B 0 [B 0 [names; set]] => Some (B 0 [B 0 [names; fix_set set]])
  | _ => None
  end.

(** certirocqc_plugin_wrapper.ml:108-109 *)
Definition fix_universes (u : obj) : option obj :=
  match u with B 0 [levels; cstrs] => Some (B 0 [fix_set levels; fix_set cstrs]) | _ => None end.

(** certirocqc_plugin_wrapper.ml:113-118 *)
Definition fix_constructor (lits : bool) (c : obj) : option obj :=
  match c with
  | B 0 [cstr_name; cstr_args; cstr_indices; cstr_type; cstr_arity] =>
      do a <- fix_rel_context lits cstr_args; do i <- map_list (fix_term lits) cstr_indices;
      do t <- fix_term lits cstr_type; Some (B 0 [cstr_name; a; i; t; cstr_arity])
  | _ => None
  end.

(** certirocqc_plugin_wrapper.ml:119-121 *)
Definition fix_projection (lits : bool) (c : obj) : option obj :=
  match c with
  | B 0 [proj_name; proj_relevance; proj_type] =>
      do t <- fix_term lits proj_type; Some (B 0 [proj_name; proj_relevance; t])
  | _ => None
  end.

(** certirocqc_plugin_wrapper.ml:122-128 *)
Definition fix_ind_body (lits : bool) (c : obj) : option obj :=
  match c with
  | B 0 [ind_name; ind_indices; ind_sort; ind_type; ind_kelim; ind_ctors; ind_projs; ind_relevance] =>
      do i <- fix_rel_context lits ind_indices; do s <- fix_universe ind_sort; do t <- fix_term lits ind_type;
      do cs <- map_list (fix_constructor lits) ind_ctors; do ps <- map_list (fix_projection lits) ind_projs;
      Some (B 0 [ind_name; i; s; t; ind_kelim; cs; ps; ind_relevance])
  | _ => None
  end.

(** certirocqc_plugin_wrapper.ml:129-140 *)
Definition fix_decl (lits : bool) (d : obj) : option obj :=
  match d with
  | B 0 [kn; B 0 [B 0 [cst_type; cst_body; cst_universes; cst_relevance]]] =>
      do t <- fix_term lits cst_type; do b <- fix_option (fix_term lits) cst_body;
      do u <- fix_universes_decl cst_universes; Some (B 0 [kn; B 0 [B 0 [t; b; u; cst_relevance]]])
  | B 0 [kn; B 1 [B 0 [ind_finite; ind_npars; ind_params; ind_bodies; ind_universes; ind_variance]]] =>
      do p <- fix_rel_context lits ind_params; do bs <- map_list (fix_ind_body lits) ind_bodies;
      do u <- fix_universes_decl ind_universes;
      Some (B 0 [kn; B 1 [B 0 [ind_finite; ind_npars; p; bs; u; ind_variance]]])
  | _ => None
  end.

(** certirocqc_plugin_wrapper.ml:143-148 *)
Definition fix_quoted_program (lits : bool) (p : obj) : option obj :=
  match p with
  | B 0 [B 0 [universes; declarations; retro]; term] =>
      do t <- fix_term lits term; do u <- fix_universes universes;
      do ds <- map_list (fix_decl lits) declarations; Some (B 0 [B 0 [u; ds; retro]; t])
  | _ => None
  end.
