(** * The C back end: from closed, hoisted LambdaANF programs to Clight

    Source: theories/Codegen/LambdaANF_to_Clight_stack.v (the direct-style
    back end with a shadow stack of roots).

    Simplified: [error] is [option]; names and C types are dropped; the
    [fundef_info] arrays (not read by the runtime of this back end) are dropped;
    [PS.elements] is some duplicate-free enumeration of the set (here the order
    in which [exp_fv] finds the variables); [tinf], the first argument of every
    call, is implicit. *)
From Coq Require Import ZArith NArith List Lia Bool.
Import ListNotations.
From Verif Require Import ANF_Syntax CG_Clight.
From Verif Require RT_String Names_Model.
Set Implicit Arguments.

(** reserved identifiers: theories/Codegen/toplevel.v:41-60 *)
Notation allocIdent := Names_Model.allocIdent (only parsing).
Notation limitIdent := Names_Model.limitIdent (only parsing).
Notation argsIdent := Names_Model.argsIdent (only parsing).
Notation caseIdent := Names_Model.caseIdent (only parsing).
Notation resultIdent := Names_Model.resultIdent (only parsing).
Notation mainIdent := Names_Model.mainIdent (only parsing).
Notation bodyIdent := Names_Model.bodyIdent (only parsing).
Notation gcIdent := Names_Model.gcIdent (only parsing).

(** theories/LambdaANF/cps.v:380-385: arity and slots in the args array, per function tag *)
Notation fun_env := (tmap (N * list N)) (only parsing).

(** LambdaANF_to_Clight_stack.v:145 *)
Notation fun_info_env := (tmap (positive * positive)) (only parsing).

Notation "'do' X <- A ;; B" := (match A with Some X => B | None => None end)
  (at level 200, X pattern, A at level 100, B at level 200).

(** LambdaANF_to_Clight_stack.v:133-137 *)
Fixpoint makeArgList' (vs : list positive) : list N :=
  match vs with
  | [] => []
  | x :: vs' => N.of_nat (length vs') :: makeArgList' vs'
  end.

(** LambdaANF_to_Clight_stack.v:139-140 *)
Definition makeArgList (vs : list positive) : list N := rev (makeArgList' vs).

(** LambdaANF_to_Clight_stack.v:147-189 *)
Fixpoint compute_fun_env' (n : nat) (fenv : fun_env) (e : exp) {struct n} : fun_env :=
  match n with
  | 0 => fenv
  | S n' =>
      match e with
      | Econstr x t vs e' => compute_fun_env' n' fenv e'
      | Ecase x cs => fold_left (fun p e => compute_fun_env' n' p e) (map snd cs) fenv
      | Eproj x t _ v e' => compute_fun_env' n' fenv e'
      | Eletapp x f t vs e' =>
          compute_fun_env' n' (set t (N.of_nat (length vs), makeArgList vs) fenv) e'
      | Efun fnd e' => compute_fun_env' n' (compute_fun_env_fundefs n' fnd fenv) e'
      | Eapp x t vs => set t (N.of_nat (length vs), makeArgList vs) fenv
      | Eprim_val x p e' => compute_fun_env' n' fenv e'
      | Eprim x p vs e' => compute_fun_env' n' fenv e'
      | Ehalt x => fenv
      end
  end
with compute_fun_env_fundefs (n : nat) (fnd : fundefs) (fenv : fun_env) {struct n} : fun_env :=
  match n with
  | 0 => fenv
  | S n' =>
      match fnd with
      | Fnil => fenv
      | Fcons f t vs e fnd' =>
          let fenv' := set t (N.of_nat (length vs), makeArgList vs) fenv in
          let fenv'' := compute_fun_env' n' fenv' e in
          compute_fun_env_fundefs n' fnd' fenv''
      end
  end.

(** LambdaANF_to_Clight_stack.v:191-208 *)
Fixpoint max_depth (e : exp) : nat :=
  match e with
  | Econstr x t vs e' => S (max_depth e')
  | Ecase x cs => S (fold_left Nat.max (map (fun p => max_depth (snd p)) cs) 1)
  | Eproj x t n v e' => S (max_depth e')
  | Eletapp x f t ys e' => S (max_depth e')
  | Efun fnd e' => S (Nat.max (max_depth_fundefs fnd) (max_depth e'))
  | Eapp x t vs => 1
  | Eprim_val x p e' => S (max_depth e')
  | Eprim x p vs e' => S (max_depth e')
  | Ehalt x => 1
  end
with max_depth_fundefs (fnd : fundefs) : nat :=
  match fnd with
  | Fnil => 1
  | Fcons _ _ _ e fnd' => S (Nat.max (max_depth e) (max_depth_fundefs fnd'))
  end.

(** LambdaANF_to_Clight_stack.v:210-212 *)
Definition compute_fun_env (e : exp) : fun_env := compute_fun_env' (max_depth e) [] e.

(** LambdaANF_to_Clight_stack.v:214-238 *)
Fixpoint get_locals (e : exp) : list positive :=
  match e with
  | Econstr x t vs e' => x :: get_locals e'
  | Ecase x cs => flat_map (fun p => get_locals (snd p)) cs
  | Eproj x t n v e' => x :: get_locals e'
  | Eletapp x f t xs e' => x :: get_locals e'
  | Efun fnd e' => get_locals_fundefs fnd ++ get_locals e'
  | Eapp x t vs => []
  | Eprim_val x p e' => x :: get_locals e'
  | Eprim x p vs e' => x :: get_locals e'
  | Ehalt x => []
  end
with get_locals_fundefs (fnd : fundefs) : list positive :=
  match fnd with
  | Fnil => []
  | Fcons f t vs e fnd' => vs ++ get_locals e ++ get_locals_fundefs fnd'
  end.

(** LambdaANF_to_Clight_stack.v:240-268: words allocated until the next call *)
Fixpoint max_allocs (e : exp) : nat :=
  match e with
  | Econstr x t vs e' =>
      match vs with
      | [] => max_allocs e'
      | _ => S (max_allocs e' + length vs)
      end
  | Ecase x cs => fold_right (fun p r => Nat.max (max_allocs (snd p)) r) 0 cs
  | Eproj x t n v e' => max_allocs e'
  | Eletapp x f t ys e' => 0
  | Efun fnd e' => Nat.max (max_allocs_fundefs fnd) (max_allocs e')
  | Eapp x t vs => 0
  | Eprim_val x p e' => max_allocs e'
  | Eprim x p vs e' => max_allocs e'
  | Ehalt x => 0
  end
with max_allocs_fundefs (fnd : fundefs) : nat :=
  match fnd with
  | Fnil => 0
  | Fcons f t vs e fnd' => Nat.max (length vs + max_allocs e) (max_allocs_fundefs fnd')
  end.

(** LambdaANF_to_Clight_stack.v:319-323 *)
Inductive ctor_rep : Set := enum (t : N) | boxed (t a : N).

(** LambdaANF_to_Clight_stack.v:326-333 *)
Definition make_ctor_rep (cenv : ctor_env) (ct : ctor_tag) : option ctor_rep :=
  match get ct cenv with
  | Some p => if N.eqb (ctor_arity p) 0 then Some (enum (ctor_ordinal p))
              else Some (boxed (ctor_ordinal p) (ctor_arity p))
  | None => None
  end.

(** LambdaANF_to_Clight_stack.v:465 *)
Definition Field (x : cexpr) (n : Z) : cexpr := Xderef (Xbin Oadd (Xcast x) (Xconst n)).

(** LambdaANF_to_Clight_stack.v:468-469 *)
Definition argsE (n : Z) : cexpr := Xderef (Xbin Oadd (Xtemp argsIdent) (Xconst n)).

(** LambdaANF_to_Clight_stack.v:502 *)
Definition rootsE (n : Z) : cexpr := Xderef (Xbin Oadd Xroots (Xconst n)).

(** ** Shadow stack *)

(** LambdaANF_to_Clight_stack.v:505-511 *)
Definition init_stack : stmt :=
  Sseq (Sseq (Sassign (Xframe Fnext) Xroots) (Sassign (Xframe Froot) Xroots))
       (Sassign (Xframe Fprev) (Xtinfo Tfp)).

(** LambdaANF_to_Clight_stack.v:514-519 *)
Definition set_stack (sp : N) (b : bool) : stmt :=
  if (N.eqb sp 0 || b)%bool then Sskip else Sassign (Xtinfo Tfp) Xframe_addr.

(** LambdaANF_to_Clight_stack.v:522-525 *)
Definition update_stack (sp : N) : stmt :=
  if N.eqb sp 0 then Sskip else Sassign (Xframe Fnext) (Xbin Oadd Xroots (Xconst (Z.of_N sp))).

(** LambdaANF_to_Clight_stack.v:528-532 *)
Definition reset_stack (sp : N) (b : bool) : stmt :=
  if (N.eqb sp 0 || b)%bool then Sskip else Sassign (Xtinfo Tfp) (Xframe Fprev).

(** LambdaANF_to_Clight_stack.v:535-540 *)
Definition push_var (sp : N) (x : positive) : stmt := Sassign (rootsE (Z.of_N sp)) (Xtemp x).
Definition pop_var (sp : N) (x : positive) : stmt := Sset x (rootsE (Z.of_N sp)).

(** LambdaANF_to_Clight_stack.v:542-547 *)
Fixpoint push_aux (xs : list positive) (n : N) (s : stmt) : stmt * N :=
  match xs with
  | [] => (s, n)
  | x :: xs' => push_aux xs' (n + 1)%N (Sseq (push_var n x) s)
  end.
Definition push_live_vars_offset (off : N) (xs : list positive) : stmt * N := push_aux xs off Sskip.

(** LambdaANF_to_Clight_stack.v:549-554 *)
Fixpoint pop_aux (xs : list positive) (n : N) (s : stmt) : stmt :=
  match xs with
  | [] => s
  | x :: xs' => pop_aux xs' (n + 1)%N (Sseq (pop_var n x) s)
  end.
Definition pop_live_vars_offset (off : N) (xs : list positive) : stmt := pop_aux xs off Sskip.

(** LambdaANF_to_Clight_stack.v:556-558 *)
Definition push_live_vars xs := push_live_vars_offset 0 xs.
Definition pop_live_vars xs := pop_live_vars_offset 0 xs.

(** ** Constructors *)

(** LambdaANF_to_Clight_stack.v:563-568 *)
Definition makeTagZ (cenv : ctor_env) (ct : ctor_tag) : option Z :=
  match make_ctor_rep cenv ct with
  | Some (enum t) => Some (Z.shiftl (Z.of_N t) 1 + 1)%Z
  | Some (boxed t a) => Some (Z.shiftl (Z.of_N a) 10 + Z.of_N t)%Z
  | None => None
  end.

(** LambdaANF_to_Clight_stack.v:576-584 *)
Definition makeVar (x : positive) (fenv : fun_env) (fmap : fun_info_env) : cexpr :=
  match get x fmap with
  | None => Xtemp x
  | Some (_, t) => match get t fenv with None => Xtemp x | Some _ => Xfun x end
  end.

(** LambdaANF_to_Clight_stack.v:587-605 *)
Fixpoint assignConstructorS' (fenv : fun_env) (fmap : fun_info_env) (x : positive) (cur : nat) (vs : list positive) : stmt :=
  match vs with
  | [] => Sskip
  | [v] => Sassign (Field (Xtemp x) (Z.of_nat cur)) (makeVar v fenv fmap)
  | v :: vs' =>
      Sseq (Sassign (Field (Xtemp x) (Z.of_nat cur)) (makeVar v fenv fmap))
           (assignConstructorS' fenv fmap x (cur + 1) vs')
  end.

(** LambdaANF_to_Clight_stack.v:607-627 *)
Definition assignConstructorS (cenv : ctor_env) (fenv : fun_env) (fmap : fun_info_env)
    (x : positive) (t : ctor_tag) (vs : list positive) : option stmt :=
  do tag <- makeTagZ cenv t ;;
  do rep <- make_ctor_rep cenv t ;;
  match rep with
  | enum _ => Some (Sset x (Xconst tag))
  | boxed _ a =>
      Some (Sseq (Sseq (Sseq (Sset x (Xcast (Xbin Oadd (Xtemp allocIdent) (Xconst 1))))
                             (Sset allocIdent (Xbin Oadd (Xtemp allocIdent) (Xconst (Z.of_N (a + 1))))))
                       (Sassign (Field (Xtemp x) (-1)) (Xconst tag)))
                 (assignConstructorS' fenv fmap x 0 vs))
  end.

(** LambdaANF_to_Clight_stack.v:630-634 *)
Definition isPtr (v : positive) : cexpr := Xbin Oeq (Xbin Oand (Xtemp v) (Xconst 1)) (Xconst 0).

(** ** Calls *)

(** LambdaANF_to_Clight_stack.v:637-649 *)
Fixpoint mkCallVars (fenv : fun_env) (fmap : fun_info_env) (n : nat) (vs : list positive) : option (list cexpr) :=
  match n, vs with
  | 0, [] => Some []
  | S n', v :: vs' => do rest <- mkCallVars fenv fmap n' vs' ;; Some (makeVar v fenv fmap :: rest)
  | _, _ => None
  end.

Section Params.
  (** LambdaANF_to_Clight_stack.v:119: number of C parameters *)
  Variable nParam : nat.

  (** LambdaANF_to_Clight_stack.v:651-659 *)
  Definition mkCall (loc : option positive) (fenv : fun_env) (fmap : fun_info_env)
      (f : cexpr) (n : nat) (vs : list positive) : option stmt :=
    do v <- mkCallVars fenv fmap n (firstn nParam vs) ;; Some (Scall loc f v).

  (** LambdaANF_to_Clight_stack.v:681-698 *)
  Fixpoint asgnFunVars' (vs : list positive) (ind : list N) : option stmt :=
    match vs, ind with
    | [], [] => Some Sskip
    | v :: vs', i :: ind' =>
        do rest <- asgnFunVars' vs' ind' ;; Some (Sseq (Sset v (argsE (Z.of_N i))) rest)
    | _, _ => None
    end.
  Definition asgnFunVars (vs : list positive) (ind : list N) : option stmt :=
    asgnFunVars' (skipn nParam vs) (skipn nParam ind).

  (** LambdaANF_to_Clight_stack.v:701-722 *)
  Fixpoint asgnAppVars'' (vs : list positive) (ind : list N) (fenv : fun_env) (fmap : fun_info_env) : option stmt :=
    match vs, ind with
    | [], [] => Some Sskip
    | v :: vs', i :: ind' =>
        do rest <- asgnAppVars'' vs' ind' fenv fmap ;;
        Some (Sseq rest (Sassign (argsE (Z.of_N i)) (makeVar v fenv fmap)))
    | _, _ => None
    end.
  Definition asgnAppVars' vs ind fenv fmap := asgnAppVars'' (skipn nParam vs) (skipn nParam ind) fenv fmap.

  (** LambdaANF_to_Clight_stack.v:724-734 *)
  Fixpoint get_ind (l : list positive) (a : positive) : option nat :=
    match l with
    | [] => None
    | x :: l' => if Pos.eqb a x then Some 0 else do n <- get_ind l' a ;; Some (S n)
    end.

  (** LambdaANF_to_Clight_stack.v:736-753 *)
  Fixpoint remove_AppVars (myvs vs : list positive) (myind ind : list N) : option (list positive * list N) :=
    match vs, ind with
    | [], [] => Some ([], [])
    | v :: vs', i :: ind' =>
        do r <- remove_AppVars myvs vs' myind ind' ;;
        do n <- get_ind myvs v ;;
        match nth_error myind n with
        | Some i' => if N.eqb i i' then Some r else Some (v :: fst r, i :: snd r)
        | None => Some (v :: fst r, i :: snd r)
        end
    | _, _ => None
    end.

  (** LambdaANF_to_Clight_stack.v:755-757 *)
  Definition asgnAppVars_fast' (myvs vs : list positive) (myind ind : list N) fenv fmap : option stmt :=
    do r <- remove_AppVars myvs (skipn nParam vs) myind (skipn nParam ind) ;;
    asgnAppVars'' (fst r) (snd r) fenv fmap.

  (** LambdaANF_to_Clight_stack.v:760-766 *)
  Definition asgnAppVars vs ind fenv fmap : option stmt :=
    do s <- asgnAppVars' vs ind fenv fmap ;; Some (Sseq (Sset argsIdent (Xtinfo Targs)) s).
  Definition asgnAppVars_fast myvs vs myind ind fenv fmap : option stmt :=
    do s <- asgnAppVars_fast' myvs vs myind ind fenv fmap ;; Some (Sseq (Sset argsIdent (Xtinfo Targs)) s).

  (** LambdaANF_to_Clight_stack.v:772-788 ([make_GC_call]) *)
  Definition make_GC_call (num_allocs : nat) (stack_vars : list positive) (off : N) : stmt * N :=
    let after_call := negb (N.eqb off 0) in
    let (push, slots) := push_live_vars_offset off stack_vars in
    let make_gc_stack := Sseq (Sseq push (update_stack slots)) (set_stack slots after_call) in
    let discard_stack := Sseq (pop_live_vars_offset off stack_vars) (reset_stack slots after_call) in
    let nallocs := Xconst (Z.of_nat num_allocs) in
    if Nat.eqb num_allocs 0 then (Sskip, off) else
      (Sif (Xnot (Xbin Ole nallocs (Xbin Osub (Xtemp limitIdent) (Xtemp allocIdent))))
         (Sseq (Sseq (Sseq (Sseq (Sseq make_gc_stack (Sassign (Xtinfo Tnalloc) nallocs))
                                 (Scall None (Xfun gcIdent) []))
                           discard_stack)
                     (Sset allocIdent (Xtinfo Talloc)))
               (Sset limitIdent (Xtinfo Tlimit)))
         Sskip, slots).

  (** LambdaANF_to_Clight_stack.v:790-798 *)
  Definition make_case_switch (x : positive) (ls ls' : lstmts) : stmt :=
    Sif (isPtr x)
        (Sswitch (Xbin Oand (Field (Xtemp x) (-1)) (Xconst 255)) ls)
        (Sswitch (Xbin Oshr (Xtemp x) (Xconst 1)) ls').

  (** LambdaANF_to_Clight_stack.v:853-859; the float is its 64 bits *)
  Definition compile_float (x : positive) (bits : Z) : stmt :=
    Sseq (Sseq (Sseq (Sset x (Xcast (Xbin Oadd (Xtemp allocIdent) (Xconst 1))))
                     (Sset allocIdent (Xbin Oadd (Xtemp allocIdent) (Xconst 2))))
               (Sassign (Field (Xtemp x) (-1)) (Xconst 1277)))
         (Sassign (Xderef (Xcast (Xtemp x))) (Xconst bits)).

  (** LambdaANF_to_Clight_stack.v:861-876 *)
  Definition compile_string (x : positive) (bytes : list Z) : stmt :=
    let words := (Z.of_nat (length bytes) / 8 + 1)%Z in
    Sseq (Sset x (Xcast (Xbin Oadd (Xtemp allocIdent) (Xconst 1))))
   (Sseq (Sset allocIdent (Xbin Oadd (Xtemp allocIdent) (Xconst (words + 1))))
         (fst (fold_left
            (fun (p : stmt * nat) ch => let (acc, i) := p in
               (Sseq acc (Sassign (Field (Xtemp x) (Z.of_nat i)) (Xconst ch)), S i))
            (RT_String.encode_list bytes)
            (Sassign (Field (Xtemp x) (-1)) (Xconst (words * 1024 + 252)), 0)))).

  (** LambdaANF_to_Clight_stack.v:825-833, 878-883 *)
  Definition compile_primitive (x : positive) (p : primitive_value) : stmt :=
    match p with
    | PVint i => Sset x (Xconst (i * 2 + 1))
    | PVfloat bits => compile_float x bits
    | PVstring bytes => compile_string x bytes
    end.

  (** [PS.inter], [PS.remove] *)
  Definition inter (s1 s2 : list positive) : list positive := filter (fun x => ANF_Syntax.mem x s2) s1.
  Definition remove1 (x : positive) (s : list positive) : list positive := filter (fun y => negb (Pos.eqb y x)) s.

  (** parameters of one translation: which argument-passing variant, the
      primitives that take thread_info (LambdaANF_to_Clight_stack.v:121, [prims]) *)
  Variable args_opt : bool.
  Variable prims : tmap bool.
  Variable fenv : fun_env.
  Variable cenv : ctor_env.
  Variable fmap : fun_info_env.

  (** LambdaANF_to_Clight_stack.v:660-679 *)
  Definition mkPrimCall (res pr : positive) (ar : nat) (vs : list positive) : option stmt :=
    do a <- mkCallVars fenv fmap ar vs ;; Some (Scall (Some res) (Xfun pr) a).

  (** LambdaANF_to_Clight_stack.v:888-1055 *)
  Section Body.
    Variable fun_vars : list positive.
    Variable loc_vars : list positive.
    Variable locs : list N.

    (** one case of the loop building the switches, LambdaANF_to_Clight_stack.v:913-938 *)
    Definition add_case (t : ctor_tag) (prog : stmt) (n : N) (pn : lstmts * lstmts * N) : option (lstmts * lstmts * N) :=
      let '(ls, ls', n') := pn in
      do r <- make_ctor_rep cenv t ;;
      match r with
      | boxed t a =>
          let tag := (Z.shiftl (Z.of_N a) 10 + Z.of_N t)%Z in
          match ls with
          | LSnil => Some (LScons None (Sseq prog Sbreak) ls, ls', N.max n n')
          | LScons _ _ _ => Some (LScons (Some (Z.land tag 255)) (Sseq prog Sbreak) ls, ls', N.max n n')
          end
      | enum t =>
          let tag := (Z.shiftl (Z.of_N t) 1 + 1)%Z in
          match ls' with
          | LSnil => Some (ls, LScons None (Sseq prog Sbreak) ls', N.max n n')
          | LScons _ _ _ => Some (ls, LScons (Some (Z.shiftr tag 1)) (Sseq prog Sbreak) ls', N.max n n')
          end
      end.

    (** code of a call with the shadow stack set up around it,
        LambdaANF_to_Clight_stack.v:945-985 and 1025-1048 (the same text twice);
        [asgn] and [c] are the argument passing and the call *)
    Definition call_with_stack (asgn : list stmt) (c : stmt) (x : positive) (e' : exp) (slots : N)
        : (stmt -> stmt) * N :=
      let fvs_post_call := inter (ANF_Syntax.exp_fv e') loc_vars in
      let fvs := remove1 x fvs_post_call in
      let fv_gc := if ANF_Syntax.mem x fvs_post_call then [x] else [] in
      let (push, slots_call) := push_live_vars fvs in
      let make_stack := Sseq (Sseq push (update_stack slots_call)) (set_stack slots_call false) in
      let (gc_call, slots_gc) := make_GC_call (max_allocs e') fv_gc slots_call in
      let discard_stack := Sseq (pop_live_vars fvs) (reset_stack slots_call false) in
      (fun prog =>
         fold_right Sseq prog
           (asgn ++ [Sassign (Xtinfo Talloc) (Xtemp allocIdent); Sassign (Xtinfo Tlimit) (Xtemp limitIdent);
                     make_stack; c;
                     Sset allocIdent (Xtinfo Talloc); Sset limitIdent (Xtinfo Tlimit);
                     gc_call; discard_stack]),
       N.max slots slots_gc).

    Fixpoint translate_body (e : exp) (slots : N) {struct e} : option (stmt * N) :=
      match e with
      | Econstr x t vs e' =>
          do prog <- assignConstructorS cenv fenv fmap x t vs ;;
          do progn <- translate_body e' slots ;;
          Some (Sseq prog (fst progn), snd progn)
      | Ecase x cs =>
          do p <- (fix makeCases (l : list (ctor_tag * exp)) : option (lstmts * lstmts * N) :=
                     match l with
                     | [] => Some (LSnil, LSnil, slots)
                     | p :: l' =>
                         do progn <- translate_body (snd p) slots ;;
                         do pn <- makeCases l' ;;
                         add_case (fst p) (fst progn) (snd progn) pn
                     end) cs ;;
          let '(ls, ls', slots') := p in
          Some (make_case_switch x ls ls', slots')
      | Eletapp x f t vs e' =>
          do inf <- get t fenv ;;
          do asgn <- (if args_opt then asgnAppVars_fast fun_vars vs locs (snd inf) fenv fmap
                      else asgnAppVars vs (snd inf) fenv fmap) ;;
          let pnum := Nat.min (N.to_nat (fst inf)) nParam in
          do c <- mkCall (Some x) fenv fmap (Xcast (makeVar f fenv fmap)) pnum vs ;;
          let (k, slots') := call_with_stack [asgn] c x e' slots in
          do progn <- translate_body e' slots' ;;
          Some (k (fst progn), snd progn)
      | Eproj x t n v e' =>
          do progn <- translate_body e' slots ;;
          Some (Sseq (Sset x (Field (Xtemp v) (Z.of_N n))) (fst progn), snd progn)
      | Efun fnd e => None
      | Eapp x t vs =>
          do inf <- get t fenv ;;
          do asgn <- (if args_opt then asgnAppVars_fast fun_vars vs locs (snd inf) fenv fmap
                      else asgnAppVars vs (snd inf) fenv fmap) ;;
          let pnum := Nat.min (N.to_nat (fst inf)) nParam in
          do c <- mkCall (Some resultIdent) fenv fmap (Xcast (makeVar x fenv fmap)) pnum vs ;;
          Some (fold_right Sseq (Sreturn (makeVar resultIdent fenv fmap))
                  [asgn; Sassign (Xtinfo Talloc) (Xtemp allocIdent); Sassign (Xtinfo Tlimit) (Xtemp limitIdent); c],
                slots)
      | Eprim_val x p e' =>
          do progn <- translate_body e' slots ;;
          Some (Sseq (compile_primitive x p) (fst progn), snd progn)
      | Eprim x p vs e' =>
          do takes_tinfo <- get p prims ;;
          do c <- mkPrimCall x p (length vs) vs ;;
          if (takes_tinfo : bool) then
            let (k, slots') := call_with_stack [] c x e' slots in
            do progn <- translate_body e' slots' ;;
            Some (k (fst progn), snd progn)
          else
            do progn <- translate_body e' slots ;;
            Some (Sseq c (fst progn), snd progn)
      | Ehalt x =>
          Some (fold_right Sseq (Sreturn (makeVar x fenv fmap))
                  [Sassign (Xtinfo Talloc) (Xtemp allocIdent); Sassign (Xtinfo Tlimit) (Xtemp limitIdent)],
                slots)
      end.
  End Body.

  (** LambdaANF_to_Clight_stack.v:1095-1134 *)
  Fixpoint translate_fundefs (fnd : fundefs) : option cprog :=
    match fnd with
    | Fnil => Some []
    | Fcons f t vs e fnd' =>
        do rest <- translate_fundefs fnd' ;;
        do inf <- get t fenv ;;
        do asgn <- asgnFunVars vs (snd inf) ;;
        let loc_vars := get_locals e in
        let var_set := union_list [] vs in
        let loc_ids := union_list var_set loc_vars in
        let live_vars := inter (ANF_Syntax.exp_fv e) var_set in
        let gc := fst (make_GC_call (max_allocs e) live_vars 0) in
        do bs <- translate_body vs loc_ids (snd inf) e 0 ;;
        let stack_slots := N.max (N.of_nat (length live_vars)) (snd bs) in
        Some ((f, {| cf_params := firstn nParam vs;
                     cf_temps := (skipn nParam vs ++ loc_vars) ++ [allocIdent; limitIdent; argsIdent; caseIdent; resultIdent];
                     cf_slots := Z.of_N stack_slots;
                     cf_body := fold_right Sseq (fst bs)
                       [Sset allocIdent (Xtinfo Talloc); Sset limitIdent (Xtinfo Tlimit);
                        Sset argsIdent (Xtinfo Targs); asgn; init_stack; gc] |}) :: rest)
    end.

  (** LambdaANF_to_Clight_stack.v:1183-1225; no [resultIdent] among the temporaries *)
  Definition translate_program (e : exp) : option cprog :=
    match e with
    | Efun fnd e =>
        let localVars := get_locals e in
        do funs <- translate_fundefs fnd ;;
        let gc_call := fst (make_GC_call (max_allocs e) [] 0) in
        do bs <- translate_body [] (union_list [] localVars) [] e 0 ;;
        Some ((bodyIdent, {| cf_params := [];
                             cf_temps := localVars ++ [allocIdent; limitIdent; argsIdent];
                             cf_slots := Z.of_N (snd bs);
                             cf_body := fold_right Sseq (fst bs)
                               [Sset allocIdent (Xtinfo Talloc); Sset limitIdent (Xtinfo Tlimit);
                                Sset argsIdent (Xtinfo Targs); init_stack; gc_call] |}) :: funs)
    | _ => None
    end.
End Params.

(** LambdaANF_to_Clight_stack.v:1250-1276 ([make_fundef_info]), only the map
    from function names to their tags; the info identifiers are successive fresh
    numbers, starting with the last function *)
Fixpoint make_fundef_info (fnd : fundefs) (fenv : fun_env) (n : positive) : option (fun_info_env * positive) :=
  match fnd with
  | Fnil => Some ([], n)
  | Fcons x t vs e fnd' =>
      do _ <- get t fenv ;;
      do r <- make_fundef_info fnd' fenv n ;;
      Some (set x (snd r, t) (fst r), Pos.succ (snd r))
  end.

(** LambdaANF_to_Clight_stack.v:1280-1305 ([add_bodyinfo], [make_funinfo]) *)
Definition make_funinfo (e : exp) (fenv : fun_env) (n : positive) : option fun_info_env :=
  match e with
  | Efun fnd e' => do r <- make_fundef_info fnd fenv n ;; Some (set mainIdent (snd r, 1%positive) (fst r))
  | _ => None
  end.

(** LambdaANF_to_Clight_stack.v:1364-1370 *)
Definition wrap_in_fun (e : exp) : exp := match e with Efun fds e' => e | _ => Efun Fnil e end.

(** LambdaANF_to_Clight_stack.v:1319-1330, 1473-1492; [n] is the first fresh identifier *)
Definition compile (nParam : nat) (args_opt : bool) (prims : tmap bool) (cenv : ctor_env) (n : positive) (e : exp)
    : option cprog :=
  let e := wrap_in_fun e in
  let fenv := compute_fun_env e in
  do fmap <- make_funinfo e fenv n ;;
  translate_program nParam args_opt prims fenv cenv fmap e.
