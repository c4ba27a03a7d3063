(** * Names of the emitted C program

    Source: theories/Codegen/LambdaANF_to_Clight_stack.v:1205-1250, 1339-1372,
    1465-1491, theories/Codegen/toplevel.v:9-66, theories/LambdaANF/toplevel.v:85-118,
    theories/Compiler/pipeline.v:27-39, cplugin/static/printClight.ml:34-38, and
    [add_name], [remove_primes] at the end of that file.

    Simplified: a byte string is a Rocq [string]; [show_pos] is the decimal
    notation of the standard library. *)
From Coq Require Import ZArith NArith List Lia Bool Ascii String DecimalString DecimalPos.
Import ListNotations.
From Verif Require Import ANF_Syntax.
Set Implicit Arguments.
Local Open Scope string_scope.

(** theories/common/BasicAst [name] *)
Inductive name : Set := nAnon | nNamed (s : string).

(** theories/LambdaANF/cps_show.v:31: decimal digits *)
Definition show_pos (x : positive) : string := NilEmpty.string_of_uint (Pos.to_uint x).

(** theories/LambdaANF/cps_util.v: [name_env] *)
Definition name_env := tmap name.

(** [PTree.map], with the key *)
Definition tmap_map {A B} (f : positive -> A -> B) (m : tmap A) : tmap B :=
  map (fun p => (fst p, f (fst p) (snd p))) m.

(** theories/LambdaANF/toplevel.v:85-91 *)
Definition update_var (names : name_env) (x : var) : name_env :=
  match get x names with
  | Some (nNamed _) => names
  | Some nAnon => set x (nNamed "x") names
  | None => set x (nNamed "x") names
  end.

(** theories/LambdaANF/toplevel.v:93-94 *)
Definition update_vars (names : name_env) (xs : list var) : name_env := fold_left update_var xs names.

(** theories/LambdaANF/toplevel.v:97-118 *)
Fixpoint add_binders_exp (names : name_env) (e : exp) {struct e} : name_env :=
  match e with
  | Econstr x _ _ e | Eprim_val x _ e | Eprim x _ _ e
  | Eletapp x _ _ _ e | Eproj x _ _ _ e => add_binders_exp (update_var names x) e
  | Ecase _ pats =>
      (fix go (l : list (ctor_tag * exp)) (names : name_env) {struct l} : name_env :=
         match l with
         | [] => names
         | (_, e) :: l' => go l' (add_binders_exp names e)
         end) pats names
  | Eapp _ _ _ | Ehalt _ => names
  | Efun B e => add_binders_exp (add_binders_fundefs names B) e
  end
with add_binders_fundefs (names : name_env) (B : fundefs) {struct B} : name_env :=
  match B with
  | Fcons f _ xs e1 B1 => add_binders_fundefs (add_binders_exp (update_vars (update_var names f) xs) e1) B1
  | Fnil => names
  end.

(** theories/Codegen/LambdaANF_to_Clight_stack.v:1208-1215 *)
Definition update_name_env_fun_info (f f_inf : positive) (nenv : name_env) : name_env :=
  match get f nenv with
  | None => set f_inf (nNamed (show_pos f ++ "_info")) nenv
  | Some nAnon => set f_inf (nNamed (("x" ++ show_pos f) ++ "_info")) nenv
  | Some (nNamed s) => set f_inf (nNamed (s ++ "_info")) nenv
  end.

(** theories/Codegen/LambdaANF_to_Clight_stack.v:1366-1372 *)
Definition ensure_unique (l : name_env) : name_env :=
  tmap_map (fun x n => match n with
                       | nAnon => nAnon
                       | nNamed s => nNamed (s ++ ("_" ++ show_pos x))
                       end) l.

(** theories/Codegen/toplevel.v:9-36, with the arguments as [Clight_trans_ANF]
    (toplevel.v:66-76) passes them: the field [rootFld] receives [rootIdent]. *)
Definition argsIdent : positive := 26.
Definition allocIdent : positive := 28.
Definition nallocIdent : positive := 92.
Definition limitIdent : positive := 29.
Definition gcIdent : positive := 80.
Definition mainIdent : positive := 81.
Definition bodyIdent : positive := 90.
Definition threadInfIdent : positive := 31.
Definition tinfIdent : positive := 91.
Definition heapInfIdent : positive := 95.
Definition numArgsIdent : positive := 97.
Definition isptrIdent : positive := 82.
Definition caseIdent : positive := 83.
Definition resultIdent : positive := 93.
Definition stackframeTIdent : positive := 78.
Definition frameIdent : positive := 79.
Definition rootIdent : positive := 84.
Definition fpIdent : positive := 86.
Definition nextFld : positive := 87.
Definition rootFld : positive := rootIdent.
Definition prevFld : positive := 89.

(** theories/Codegen/LambdaANF_to_Clight_stack.v:1464 *)
Definition make_tinfoIdent : positive := 20.

(** theories/Codegen/LambdaANF_to_Clight_stack.v:1339-1360 *)
Definition inf_vars (bodyName : string) : list (positive * name) :=
  [(isptrIdent, nNamed "is_ptr"); (argsIdent, nNamed "args"); (allocIdent, nNamed "alloc");
   (nallocIdent, nNamed "nalloc"); (limitIdent, nNamed "limit"); (gcIdent, nNamed "garbage_collect");
   (mainIdent, nNamed "main"); (bodyIdent, nNamed bodyName); (threadInfIdent, nNamed "thread_info");
   (tinfIdent, nNamed "tinfo"); (heapInfIdent, nNamed "heap"); (caseIdent, nNamed "arg");
   (numArgsIdent, nNamed "num_args"); (stackframeTIdent, nNamed "stack_frame");
   (frameIdent, nNamed "frame"); (rootIdent, nNamed "roots"); (fpIdent, nNamed "fp");
   (nextFld, nNamed "next"); (rootFld, nNamed "root"); (prevFld, nNamed "prev");
   (resultIdent, nNamed "result")].

(** theories/Codegen/LambdaANF_to_Clight_stack.v:1363-1364 *)
Definition add_inf_vars (bodyName : string) (nenv : name_env) : name_env :=
  fold_left (fun nenv inf => set (fst inf) (snd inf) nenv) (inf_vars bodyName) nenv.

(** theories/Compiler/pipeline.v:27-35; a primitive is its [prim_target] *)
Fixpoint pick_prim_ident (id : positive) (prs : list string) : list (string * positive) * positive :=
  match prs with
  | [] => ([], id)
  | pr :: prs =>
      let next_id := (id + 1)%positive in
      let (prs', id') := pick_prim_ident next_id prs in
      ((pr, id) :: prs', id')
  end.

(** theories/Codegen/toplevel.v:40-41 *)
Definition add_prim_names (prims : list (string * positive)) (nenv : name_env) : name_env :=
  fold_left (fun m pp => set (snd pp) (nNamed (fst pp)) m) prims nenv.

(** theories/Codegen/LambdaANF_to_Clight_stack.v:1487-1491 and
    theories/Codegen/toplevel.v:78-80: the table handed to the printer *)
Definition final_names (bodyName : string) (prims : list (string * positive)) (nenv : name_env) : name_env :=
  add_prim_names prims
    (set make_tinfoIdent (nNamed "make_tinfo") (add_inf_vars bodyName (ensure_unique nenv))).

(** cplugin/static/printClight.ml, [remove_primes]: quotes and dots are replaced *)
Definition fix_char (c : ascii) : ascii :=
  if Ascii.eqb c "'" then "p"%char else if Ascii.eqb c "." then "d"%char else c.

(** cplugin/static/printClight.ml, [remove_primes] *)
Fixpoint remove_primes (s : string) : string :=
  match s with
  | EmptyString => EmptyString
  | String c s' => String (fix_char c) (remove_primes s')
  end.

(** cplugin/static/printClight.ml, [add_name]: the C name of an identifier in
    the table; [None] when it has no entry or is anonymous (the printer then
    writes a dollar sign and the number) *)
Definition c_name (names : name_env) (x : positive) : option string :=
  match get x names with
  | Some (nNamed s) => Some (remove_primes s)
  | _ => None
  end.
