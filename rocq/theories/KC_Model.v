(** * The C back end for programs in continuation-passing style

    Source: theories/Codegen/LambdaANF_to_Clight.v, used by [compile_Clight]
    (theories/Codegen/toplevel.v:39-51, 85-95) when [direct] is off.  There is no
    shadow stack: functions return nothing, every call is the last thing a
    function does, and the collector is called only on entry, with the
    parameters saved in the args array and a static array ([fundef_info]) saying
    which slots of it are live.

    The syntax of C and its execution are those of CG_Clight.v; definitions that
    are textually the same in both back ends are those of CG_Model.v (argument
    lists, function tables, tags, constructors, argument passing).

    Simplified, besides what CG_Clight.v and CG_Model.v say:
    - the [fundef_info] array of a function is a component of the function
      ([kf_info]); reading its first word is a constant (the arrays are
      read-only globals, [mkglobvar ... true false]);
    - [is_ptr] (runtime/gc_stack.c:39-41) is built in. *)
From Coq Require Import ZArith NArith List Lia Bool.
Import ListNotations.
From Verif Require Import ANF_Syntax CG_Clight CG_Model.
From Verif Require Names_Model RT_String.
Set Implicit Arguments.

(** theories/Codegen/toplevel.v:21 *)
Notation isptrIdent := Names_Model.isptrIdent (only parsing).

(** LambdaANF_to_Clight.v:214-243: words allocated by a body; unlike in the
    other back end, what follows a call is counted *)
Fixpoint kmax_allocs (e : exp) : nat :=
  match e with
  | Econstr x t vs e' =>
      match vs with
      | [] => kmax_allocs e'
      | _ => S (kmax_allocs e' + length vs)
      end
  | Ecase x cs => fold_right (fun p r => Nat.max (kmax_allocs (snd p)) r) 0 cs
  | Eproj x t n v e' => kmax_allocs e'
  | Eletapp x f t ys e' => kmax_allocs e'
  | Efun fnd e' => Nat.max (kmax_allocs_fundefs fnd) (kmax_allocs e')
  | Eapp x t vs => 0
  | Eprim_val x p e' => kmax_allocs e'
  | Eprim x p vs e' => kmax_allocs e'
  | Ehalt x => 0
  end
with kmax_allocs_fundefs (fnd : fundefs) : nat :=
  match fnd with
  | Fnil => 0
  | Fcons f t vs e fnd' => Nat.max (length vs + kmax_allocs e) (kmax_allocs_fundefs fnd')
  end.

(** LambdaANF_to_Clight.v:547-548 *)
Definition kisPtr (retId v : positive) : stmt := Scall (Some retId) (Xfun isptrIdent) [Xcast (Xtemp v)].

(** LambdaANF_to_Clight.v:741-749 *)
Definition kmake_case_switch (x : positive) (ls ls' : lstmts) : stmt :=
  Sseq (kisPtr caseIdent x)
       (Sif (Xtemp caseIdent)
          (Sswitch (Xbin Oand (Field (Xtemp x) (-1)) (Xconst 255)) ls)
          (Sswitch (Xbin Oshr (Xtemp x) (Xconst 1)) ls')).

(** The right-hand side of the assignment of a double to an lvalue of type
    [val], that is [void *]: C has no such conversion, so it has no value. *)
Definition ill_typed : cexpr := Xderef (Xconst 0).

(** LambdaANF_to_Clight.v:776-782: [Field(var x, 0) :::= Econst_float f ...] *)
Definition kcompile_float (x : positive) (bits : Z) : stmt :=
  Sseq (Sseq (Sseq (Sset x (Xcast (Xbin Oadd (Xtemp allocIdent) (Xconst 1))))
                   (Sset allocIdent (Xbin Oadd (Xtemp allocIdent) (Xconst 2))))
             (Sassign (Field (Xtemp x) (-1)) (Xconst 1277)))
       (Sassign (Field (Xtemp x) 0) ill_typed).

(** LambdaANF_to_Clight.v:784-802; strings and integers as in CG_Model.v *)
Definition kcompile_primitive (x : positive) (p : primitive_value) : stmt :=
  match p with
  | PVfloat bits => kcompile_float x bits
  | _ => compile_primitive x p
  end.

(** a C function: parameters, declared temporaries, the [fundef_info] array it
    passes to the collector, body *)
Record kfun : Set := { kf_params : list positive; kf_temps : list positive; kf_info : list Z; kf_body : stmt }.
Definition kprog := list (positive * kfun).

Section Params.
  (** LambdaANF_to_Clight.v:102: number of C parameters; 104: primitives *)
  Variable nParam : nat.
  Variable prims : tmap bool.
  Variable fenv : tmap (N * list N).
  Variable cenv : ctor_env.
  Variable fmap : tmap (positive * positive).

  (** LambdaANF_to_Clight.v:573-582 *)
  Definition kmkCall (f : cexpr) (n : nat) (vs : list positive) : option stmt :=
    do v <- mkCallVars fenv fmap n (firstn nParam vs) ;; Some (Scall None f v).

  (** LambdaANF_to_Clight.v:445-452: test for room in the main function *)
  Definition kreserve_body (info : list Z) : stmt :=
    Sif (Xnot (Xbin Ole (Xconst (nth 0 info 0%Z)) (Xbin Osub (Xtemp limitIdent) (Xtemp allocIdent))))
        (Sseq (Scall None (Xfun gcIdent) []) (Sset allocIdent (Xtinfo Talloc)))
        Sskip.

  (** LambdaANF_to_Clight.v:701-719: the same on entry to a function, with its C
      parameters saved in the args array; [limit] is not reloaded *)
  Definition kreserve (info : list Z) (vs : list positive) (ind : list N) : option stmt :=
    do bef <- asgnAppVars'' (firstn nParam vs) (firstn nParam ind) fenv fmap ;;
    do aft <- asgnFunVars' (firstn nParam vs) (firstn nParam ind) ;;
    Some (Sif (Xnot (Xbin Ole (Xconst (nth 0 info 0%Z)) (Xbin Osub (Xtemp limitIdent) (Xtemp allocIdent))))
            (Sseq (Sseq (Sseq bef (Scall None (Xfun gcIdent) [])) (Sset allocIdent (Xtinfo Talloc))) aft)
            Sskip).

  (** one case of the loop building the switches, LambdaANF_to_Clight.v:822-848 *)
  Definition kadd_case (t : ctor_tag) (prog : stmt) (p : lstmts * lstmts) : option (lstmts * lstmts) :=
    let (ls, ls') := p in
    do r <- make_ctor_rep cenv t ;;
    match r with
    | boxed t a =>
        let tag := (Z.shiftl (Z.of_N a) 10 + Z.of_N t)%Z in
        match ls with
        | LSnil => Some (LScons None (Sseq prog Sbreak) ls, ls')
        | LScons _ _ _ => Some (LScons (Some (Z.land tag 255)) (Sseq prog Sbreak) ls, ls')
        end
    | enum t =>
        let tag := (Z.shiftl (Z.of_N t) 1 + 1)%Z in
        match ls' with
        | LSnil => Some (ls, LScons None (Sseq prog Sbreak) ls')
        | LScons _ _ _ => Some (ls, LScons (Some (Z.shiftr tag 1)) (Sseq prog Sbreak) ls')
        end
    end.

  (** storing the allocation pointers, LambdaANF_to_Clight.v:861, 871-872, 883-884, 893-894 *)
  Definition sync (s : stmt) : stmt :=
    Sseq (Sassign (Xtinfo Talloc) (Xtemp allocIdent)) (Sseq (Sassign (Xtinfo Tlimit) (Xtemp limitIdent)) s).

  (** LambdaANF_to_Clight.v:804-897 *)
  Fixpoint ktranslate_body (e : exp) {struct e} : option stmt :=
    match e with
    | Econstr x t vs e' =>
        do prog <- assignConstructorS cenv fenv fmap x t vs ;;
        do prog' <- ktranslate_body e' ;;
        Some (Sseq prog prog')
    | Ecase x cs =>
        do p <- (fix makeCases (l : list (ctor_tag * exp)) : option (lstmts * lstmts) :=
                   match l with
                   | [] => Some (LSnil, LSnil)
                   | p :: l' =>
                       do prog <- ktranslate_body (snd p) ;;
                       do p' <- makeCases l' ;;
                       kadd_case (fst p) prog p'
                   end) cs ;;
        Some (kmake_case_switch x (fst p) (snd p))
    | Eletapp x f t vs e' =>
        do prog <- ktranslate_body e' ;;
        do inf <- get t fenv ;;
        do asgn <- asgnAppVars nParam vs (snd inf) fenv fmap ;;
        let pnum := Nat.min (N.to_nat (fst inf)) nParam in
        do c <- kmkCall (Xcast (makeVar f fenv fmap)) pnum vs ;;
        Some (Sseq asgn (sync (Sseq c (Sseq (Sset allocIdent (Xtinfo Talloc))
               (Sseq (Sset x (Field (Xtemp argsIdent) 1)) prog)))))
    | Eproj x t n v e' =>
        do prog <- ktranslate_body e' ;;
        Some (Sseq (Sset x (Field (Xtemp v) (Z.of_N n))) prog)
    | Efun fnd e => None
    | Eapp x t vs =>
        do inf <- get t fenv ;;
        do asgn <- asgnAppVars nParam vs (snd inf) fenv fmap ;;
        let pnum := Nat.min (N.to_nat (fst inf)) nParam in
        do c <- kmkCall (Xcast (makeVar x fenv fmap)) pnum vs ;;
        Some (Sseq asgn (sync c))
    | Eprim_val x p e' =>
        do prog <- ktranslate_body e' ;;
        Some (Sseq (kcompile_primitive x p) prog)
    | Eprim x p vs e' =>
        do takes_tinfo <- get p prims ;;
        do prog <- ktranslate_body e' ;;
        do c <- mkPrimCall fenv fmap x p (length vs) vs ;;
        if (takes_tinfo : bool)
        then Some (sync (Sseq c (Sseq (Sset allocIdent (Xtinfo Talloc)) (Sseq (Sset limitIdent (Xtinfo Tlimit)) prog))))
        else Some (Sseq c prog)
    | Ehalt x => Some (sync (Sassign (argsE 1) (makeVar x fenv fmap)))
    end.

  (** the arrays, by identifier *)
  Variable infos : tmap (list Z).

  (** LambdaANF_to_Clight.v:999-1055 ([mkFun], [translate_fundefs]) *)
  Fixpoint ktranslate_fundefs (fnd : fundefs) : option kprog :=
    match fnd with
    | Fnil => Some []
    | Fcons f t vs e fnd' =>
        do rest <- ktranslate_fundefs fnd' ;;
        do body <- ktranslate_body e ;;
        do inf <- get t fenv ;;
        do asgn <- asgnFunVars nParam vs (snd inf) ;;
        do gcArrIdent <- get f fmap ;;
        do info <- get (fst gcArrIdent) infos ;;
        do res <- kreserve info vs (snd inf) ;;
        Some ((f, {| kf_params := firstn nParam vs;
                     kf_temps := (skipn nParam vs ++ get_locals e) ++ [allocIdent; limitIdent; argsIdent; caseIdent];
                     kf_info := info;
                     kf_body := Sseq (Sseq (Sset allocIdent (Xtinfo Talloc)) (Sseq (Sset limitIdent (Xtinfo Tlimit))
                                       (Sseq (Sset argsIdent (Xtinfo Targs)) res)))
                                     (Sseq asgn body) |}) :: rest)
    end.

  (** LambdaANF_to_Clight.v:1150-1179; [caseIdent] is not declared in the main function *)
  Definition ktranslate_funs (e : exp) : option kprog :=
    match e with
    | Efun fnd e =>
        do funs <- ktranslate_fundefs fnd ;;
        do body <- ktranslate_body e ;;
        do gcArrIdent <- get mainIdent fmap ;;
        do info <- get (fst gcArrIdent) infos ;;
        Some ((bodyIdent, {| kf_params := [];
                             kf_temps := get_locals e ++ [allocIdent; limitIdent; argsIdent];
                             kf_info := info;
                             kf_body := fold_right Sseq (Sreturn (Field (Xtinfo Targs) 1))
                               [Sset allocIdent (Xtinfo Talloc); Sset limitIdent (Xtinfo Tlimit);
                                Sset argsIdent (Xtinfo Targs); kreserve_body info; body] |}) :: funs)
    | _ => None
    end.
End Params.

(** LambdaANF_to_Clight.v:1255-1287: [fi[0]] is the number of words the function
    allocates, [fi[1]] the number of live slots of the args array, the rest their
    indices *)
Fixpoint kmake_fundef_info (fnd : fundefs) (fenv : tmap (N * list N)) (n : positive)
    : option (tmap (list Z) * tmap (positive * positive) * positive) :=
  match fnd with
  | Fnil => Some ([], [], n)
  | Fcons x t vs e fnd' =>
      do inf <- get t fenv ;;
      do r <- kmake_fundef_info fnd' fenv n ;;
      let '(defs, fmap, info_name) := r in
      Some ((info_name, Z.of_nat (kmax_allocs e) :: Z.of_nat (length (snd inf)) :: map Z.of_N (snd inf)) :: defs,
            set x (info_name, t) fmap, Pos.succ info_name)
  end.

(** LambdaANF_to_Clight.v:1290-1330 ([add_bodyinfo], [make_funinfo]) *)
Definition kmake_funinfo (e : exp) (fenv : tmap (N * list N)) (n : positive)
    : option (tmap (list Z) * tmap (positive * positive)) :=
  match e with
  | Efun fnd e' =>
      do r <- kmake_fundef_info fnd fenv n ;;
      let '(defs, fmap, info_name) := r in
      Some ((info_name, [Z.of_nat (kmax_allocs e'); 0%Z]) :: defs, set mainIdent (info_name, 1%positive) fmap)
  | _ => None
  end.

(** LambdaANF_to_Clight.v:1351-1369, 1898-1926 ([make_defs], [compile]); [n] is
    the first fresh identifier *)
Definition kcompile (nParam : nat) (prims : tmap bool) (cenv : ctor_env) (n : positive) (e : exp) : option kprog :=
  let e := wrap_in_fun e in
  let fenv := compute_fun_env e in
  do r <- kmake_funinfo e fenv n ;;
  ktranslate_funs nParam prims fenv cenv (snd r) (fst r) e.

(** ** Running the code *)

(** runtime/gc_stack.c:39-41 *)
Definition is_ptr (vs : list cval) (m : mem) : rres :=
  match vs with
  | [VZ z] => COk (b2v (Z.even z)) m
  | [VP _ _] => COk (VZ 1) m
  | _ => CUB
  end.

Section Run.
  (** the collector, given the caller's [fundef_info] array (runtime/gc.h:117, [garbage_collect]) *)
  Variable kgc : list Z -> mem -> gres.
  Variable prog : kprog.

  (** a call of [f]; one unit of fuel per nested call; a function without
      [return] yields a value nobody uses *)
  Fixpoint krun (n : nat) (f : positive) (vs : list cval) (m : mem) {struct n} : rres :=
    if Pos.eqb f isptrIdent then is_ptr vs m else
    match n with
    | O => CTime
    | S n' =>
        match get f prog with
        | None => CUB
        | Some cf =>
            match set_lists (kf_params cf) vs [] with
            | None => CUB
            | Some t =>
                match exec (kgc (kf_info cf)) (krun n') (kf_params cf ++ kf_temps cf) gcIdent 1%positive (kf_body cf) t m with
                | ROk (Oret v) _ m' => COk v m'
                | ROk Onormal _ m' => COk (VZ 0) m'
                | ROk Obreak _ _ => CUB
                | RUB => CUB | RAbort => CAbort | RTime => CTime
                end
            end
        end
    end.
End Run.
