(** * The glue code generator: constructors, tag readers, name tables, calls

    Source: theories/Glue/glue.v and glue_utils.v.  The generator emits Clight
    that is printed as a C file and linked with the compiled program.  The
    functions are modelled with the syntax of [CG_Clight].

    Simplified:
    - types are dropped, as in [CG_Clight] ([tinfo], where it is a parameter, is
      implicit); so are the C names recorded for the generated identifiers
      (C40 is about names); identifiers are successive numbers as in [gensym];
    - a type is the list of its constructors (name and number of arguments
      without parameters, [cstr_name], [cstr_arity]); types of sort [Prop] are
      already dropped (glue.v:519-551);
    - the printers (glue.v:553-878) are not modelled, only that they take some
      number of identifiers;
    - assignment to a temporary ([Sassign] of [Etempvar], glue.v:1122; printed as
      a C assignment) is [Sset];
    - a [void] function returns the word 0, which its callers ignore;
    - the address of the static array [halt_clo] is an additional first
      parameter of [call] in continuation-passing style. *)
From Coq Require Import ZArith NArith List Lia Bool.
Import ListNotations.
From Verif Require Import ANF_Syntax CG_Clight.
Set Implicit Arguments.
Local Open Scope Z_scope.

(** MetaRocq [constructor_body]: the fields the generator reads
    (glue.v:905, 1057; glue_utils.v:303-330) *)
Record ctor : Set := { cstr_name : list Z; cstr_arity : nat }.

(** glue.v:172-176 [gensym]: [k] successive identifiers from [n] on, and the next one *)
Fixpoint ids (n : positive) (k : nat) : list positive :=
  match k with O => [] | S k' => n :: ids (Pos.succ n) k' end.
Fixpoint after (n : positive) (k : nat) : positive :=
  match k with O => n | S k' => after (Pos.succ n) k' end.

(** ** Name tables (glue.v:881-939) *)

(** CompCert [init_data]: a byte, or unspecified space *)
Inductive init : Set := Init_int8 (z : Z) | Init_space (z : Z).

(** glue.v:252-257 *)
Fixpoint string_as_array (s : list Z) : list init :=
  match s with
  | [] => [Init_int8 0]
  | c :: s' => Init_int8 c :: string_as_array s'
  end.

(** glue.v:884-885 *)
Definition pad_char_init (l : list init) (n : nat) : list init :=
  l ++ repeat (Init_int8 0) (n - length l).

(** glue.v:887-902 *)
Fixpoint normalized_names_array (ctors : list ctor) (n : nat) : nat * list init :=
  match ctors with
  | [] => (n, [Init_space 0])
  | c :: ctors' =>
      let s := cstr_name c in
      let (max_len, init_l) := normalized_names_array ctors' (Nat.max n (length s + 1)) in
      let i := pad_char_init (string_as_array s) max_len in
      (max_len, i ++ init_l)
  end.

(** glue.v:904-917: array type (rows of [nt_width] characters, [nt_rows] rows)
    and initialiser *)
Record name_table : Set := { nt_width : nat; nt_rows : nat; nt_init : list init }.
Definition make_name_array (ctors : list ctor) : name_table :=
  let (max_len, init_l) := normalized_names_array ctors 1 in
  {| nt_width := max_len; nt_rows := length ctors; nt_init := init_l |}.

(** glue.v:919-928; the last type gets the first identifier *)
Fixpoint make_name_arrays (tys : list (list ctor)) (n : positive) : list (positive * name_table) * positive :=
  match tys with
  | [] => ([], n)
  | b :: tys' =>
      let (rest, n1) := make_name_arrays tys' n in
      ((n1, make_name_array b) :: rest, Pos.succ n1)
  end.

(** ** Functions common to all types (glue.v:272-316) *)

(** glue.v:1 and LambdaANF_to_Clight.v:401-428 ([add], [c_int], Field) *)
Definition fld (x : cexpr) (i : Z) : cexpr := Xderef (Xbin Oadd x (Xconst i)).

(** a CompCert [int] constant, 32 bits, printed as a signed number *)
Definition int32 (z : Z) : Z := let r := z mod 2 ^ 32 in if r <? 2 ^ 31 then r else r - 2 ^ 32.

(** glue.v:272-284 *)
Definition get_unboxed_ordinal (v : positive) : cfun :=
  {| cf_params := [v]; cf_temps := []; cf_slots := 0;
     cf_body := Sreturn (Xbin Oshr (Xcast (Xtemp v)) (Xconst 1)) |}.

(** glue.v:286-302 *)
Definition get_boxed_ordinal (v : positive) : cfun :=
  {| cf_params := [v]; cf_temps := []; cf_slots := 0;
     cf_body := Sreturn (Xbin Oand (Xcast (fld (Xcast (Xtemp v)) (-1))) (Xconst 255)) |}.

(** glue.v:304-316 *)
Definition get_args (v : positive) : cfun :=
  {| cf_params := [v]; cf_temps := []; cf_slots := 0; cf_body := Sreturn (Xcast (Xtemp v)) |}.

(** runtime/gc_stack.c:39-41 [is_ptr], external for the glue file *)
Definition is_ptr (x : positive) : cfun :=
  {| cf_params := [x]; cf_temps := []; cf_slots := 0;
     cf_body := Sreturn (Xbin Oeq (Xbin Oand (Xcast (Xtemp x)) (Xconst 1)) (Xconst 0)) |}.

(** glue.v:130-142: the identifiers used below *)
Record toolbox : Set := { is_ptr_info : positive; guo_info : positive; gbo_info : positive; halt_clo_info : positive }.

(** glue.v:347-462: seven literals, printf, is_ptr, the three functions above with
    their parameters, and fifteen field and structure names *)
Definition make_externs (n : positive) : cprog * toolbox * positive :=
  let p := after n 8 in
  let g := after n 9 in
  let b := after n 11 in
  let a := after n 13 in
  ([(p, is_ptr 1); (g, get_unboxed_ordinal (after n 10)); (b, get_boxed_ordinal (after n 12)); (a, get_args (after n 14))],
   {| is_ptr_info := p; guo_info := g; gbo_info := b; halt_clo_info := after n 29 |},
   after n 30).

(** ** Constructor functions (glue.v:1045-1156) *)

(** glue_utils.v:303-330 *)
Fixpoint process_ctors (unboxed_count boxed_count : nat) (ctors : list ctor) : list (nat * nat) :=
  match ctors with
  | [] => []
  | c :: ctors' =>
      match cstr_arity c with
      | O => (O, unboxed_count) :: process_ctors (S unboxed_count) boxed_count ctors'
      | S a => (S a, boxed_count) :: process_ctors unboxed_count (S boxed_count) ctors'
      end
  end.

(** glue.v:1028-1044: the identifiers of the parameters, first parameter first *)
Definition make_arg_list (n : positive) (k : nat) : list positive := rev (ids n k).

(** glue.v:47-57 *)
Fixpoint make_constrAsgn' (argv : positive) (args : list positive) (n : nat) : stmt :=
  match args with
  | [] => Sskip
  | x :: args' => Sseq (Sassign (fld (Xtemp argv) (Z.of_nat n)) (Xtemp x)) (make_constrAsgn' argv args' (S n))
  end.
Definition make_constrAsgn (argv : positive) (args : list positive) : stmt := make_constrAsgn' argv args 1.

(** glue.v:1062-1074 *)
Definition make_enum (ord : nat) : cfun :=
  {| cf_params := []; cf_temps := []; cf_slots := 0;
     cf_body := Sreturn (Xcast (Xconst (int32 (Z.shiftl (Z.of_nat ord) 1 + 1)))) |}.

(** glue.v:1086 *)
Definition header (ar ord : nat) : cexpr := Xconst (Z.shiftl (Z.of_nat ar) 10 + Z.of_nat ord).

(** glue.v:1082-1103 *)
Definition make_boxed (argv : positive) (args : list positive) (ar ord : nat) : cfun :=
  {| cf_params := args ++ [argv]; cf_temps := []; cf_slots := 0;
     cf_body := Sseq (Sassign (fld (Xtemp argv) 0) (Xcast (header ar ord)))
               (Sseq (make_constrAsgn argv args)
                     (Sreturn (Xbin Oadd (Xtemp argv) (Xconst 1)))) |}.

(** glue.v:1105-1143 *)
Definition alloc_make_boxed (argv : positive) (args : list positive) (ar ord : nat) : cfun :=
  {| cf_params := args; cf_temps := [argv]; cf_slots := 0;
     cf_body := Sseq (Sset argv (Xtinfo Talloc))
               (Sseq (Sassign (fld (Xtemp argv) 0) (header ar ord))
               (Sseq (make_constrAsgn argv args)
               (Sseq (Sassign (Xtinfo Talloc) (Xbin Oadd (Xtinfo Talloc) (Xconst (Z.of_nat (S ar)))))
                     (Sreturn (Xbin Oadd (Xtemp argv) (Xconst 1)))))) |}.

(** glue.v:1050-1146: functions, and for each constructor the name of its
    function and, if it has arguments, of the allocating one *)
Fixpoint constructors_from_ctors (ctors : list (nat * nat)) (n : positive)
    : cprog * list (positive * option positive) * positive :=
  match ctors with
  | [] => ([], [], n)
  | (O, ord) :: ctors' =>
      let '(fs, names, n') := constructors_from_ctors ctors' (after n 1) in
      ((n, make_enum ord) :: fs, (n, None) :: names, n')
  | (S a, ord) :: ctors' =>
      let ar := S a in
      let argv := after n 1 in
      let args := make_arg_list (after n 2) ar in
      let alloc := after (after n 2) ar in
      let '(fs, names, n') := constructors_from_ctors ctors' (after alloc 2) in
      ((n, make_boxed argv args ar ord) :: (alloc, alloc_make_boxed argv args ar ord) :: fs, (n, Some alloc) :: names, n')
  end.

(** glue.v:1148-1166 *)
Fixpoint constructors_for_tys (tys : list (list ctor)) (n : positive)
    : cprog * list (list (positive * option positive)) * positive :=
  match tys with
  | [] => ([], [], n)
  | ty :: tys' =>
      let '(fs, names, n1) := constructors_from_ctors (process_ctors 0 0 ty) n in
      let '(fs', names', n2) := constructors_for_tys tys' n1 in
      (fs ++ fs', names :: names', n2)
  end.

(** ** Tag readers (glue.v:941-1026) *)

(** glue.v:944-959 *)
Fixpoint match_ordinals_with_tag (ctors : list ctor) (boxed unboxed total : nat) : list (nat * nat) * list (nat * nat) :=
  match ctors with
  | [] => ([], [])
  | c :: ctors' =>
      match cstr_arity c with
      | O => let (bs, us) := match_ordinals_with_tag ctors' boxed (S unboxed) (S total) in
             (bs, (unboxed, total) :: us)
      | S _ => let (bs, us) := match_ordinals_with_tag ctors' (S boxed) unboxed (S total) in
               ((boxed, total) :: bs, us)
      end
  end.

(** glue.v:961-969 *)
Fixpoint matches_to_LS (pairs : list (nat * nat)) : lstmts :=
  match pairs with
  | [] => LSnil
  | (ordinal, tag) :: pairs' =>
      LScons (Some (Z.of_nat ordinal)) (Sreturn (Xconst (int32 (Z.of_nat tag)))) (matches_to_LS pairs')
  end.

(** glue.v:983-1007 *)
Definition get_tag (tb : toolbox) (b t v : positive) (ctors : list ctor) : cfun :=
  let (boxed, unboxed) := match_ordinals_with_tag ctors 0 0 0 in
  let (vars, body) :=
    match boxed, unboxed with
    | [], [] => ([], Sreturn (Xconst (int32 0)))
    | [], _ => ([t], Sseq (Scall (Some t) (Xfun (guo_info tb)) [Xtemp v]) (Sreturn (Xtemp t)))
    | _, [] => ([t], Sseq (Scall (Some t) (Xfun (gbo_info tb)) [Xtemp v]) (Sreturn (Xtemp t)))
    | _, _ =>
        ([b; t],
         Sseq (Scall (Some b) (Xfun (is_ptr_info tb)) [Xtemp v])
              (Sif (Xtemp b)
                 (Sseq (Scall (Some t) (Xfun (gbo_info tb)) [Xtemp v]) (Sswitch (Xtemp t) (matches_to_LS boxed)))
                 (Sseq (Scall (Some t) (Xfun (guo_info tb)) [Xtemp v]) (Sswitch (Xtemp t) (matches_to_LS unboxed)))))
    end in
  {| cf_params := [v]; cf_temps := vars; cf_slots := 0; cf_body := body |}.

(** glue.v:971-1024: functions and, per type, the name of its tag reader *)
Fixpoint get_enum_tag_from_types (tb : toolbox) (tys : list (list ctor)) (n : positive) : cprog * list positive * positive :=
  match tys with
  | [] => ([], [], n)
  | ty :: tys' =>
      let '(fs, names, n') := get_enum_tag_from_types tb tys' (after n 4) in
      ((after n 3, get_tag tb n (after n 1) (after n 2) ty) :: fs, after n 3 :: names, n')
  end.

(** ** Calls (glue.v:1170-1338) *)

(** glue_utils.v:50-51 *)
Definition multiple (xs : list stmt) : stmt := fold_right Sseq Sskip xs.

(** glue.v:1191-1226: only in continuation-passing style *)
Definition make_halt (c_args : nat) (env arg : positive) : cfun :=
  {| cf_params := firstn c_args [env; arg]; cf_temps := []; cf_slots := 0;
     cf_body := if (2 <=? c_args)%nat
                then Sseq (Sassign (fld (Xtinfo Targs) 1) (Xtemp arg)) (Sreturn (Xconst 0))
                else Sreturn (Xconst 0) |}.

(** glue.v:1252-1336; [direct] is the ANF back end *)
Definition make_call (direct : bool) (c_args : nat) (halt_clo clo f env arg tmp : positive) : cfun :=
  let argsE (i : Z) := fld (Xtinfo Targs) i in
  let fargs := if direct then [Xtemp env; Xtemp arg] else [Xtemp env; Xtemp halt_clo; Xtemp arg] in
  let stores :=
    if direct then [Sassign (argsE 0) (Xtemp env); Sassign (argsE 1) (Xtemp arg)]
    else [Sassign (argsE 0) (Xtemp env); Sassign (argsE 1) (Xtemp halt_clo); Sassign (argsE 2) (Xtemp arg)] in
  {| cf_params := (if direct then [] else [halt_clo]) ++ [clo; arg];
     cf_temps := [f; env] ++ (if direct then [tmp] else []);
     cf_slots := 0;
     cf_body := Sseq (Sset f (fld (Xcast (Xtemp clo)) 0))
               (Sseq (Sset env (fld (Xcast (Xtemp clo)) 1))
               (Sseq (multiple (skipn c_args stores))
                     (if direct
                      then Sseq (Scall (Some tmp) (Xcast (Xtemp f)) (firstn c_args fargs)) (Sreturn (Xtemp tmp))
                      else Sseq (Scall None (Xcast (Xtemp f)) (firstn c_args fargs)) (Sreturn (argsE 1))))) |}.

(** ** The whole file (glue.v:1340-1363) *)

Record glue : Set := {
  g_funs : cprog;
  g_names : list (positive * name_table);
  g_make : list (list (positive * option positive));
  g_tag : list positive;
  g_halt : positive;
  g_call : positive;
  g_next : positive }.

(** [n] is the first identifier (2 in glue.v:1370; the numbers only index the
    file's own table of names), [np] the number of identifiers the printers take *)
Definition make_glue_program (direct : bool) (c_args np : nat) (n : positive) (tys : list (list ctor)) : glue :=
  let '(externs, tb, n1) := make_externs n in
  let '(name_defs, n2) := make_name_arrays tys n1 in
  let '(ctor_defs, makes, n3) := constructors_for_tys tys n2 in
  let '(tag_defs, tags, n4) := get_enum_tag_from_types tb tys n3 in
  let n5 := after n4 np in
  (* env, arg, tinfo, halt *)
  let halt := after n5 3 in
  let halt_defs := if direct then [] else [(halt, make_halt c_args n5 (after n5 1))] in
  (* clo, f, envi, arg, tinfo, tmp, call *)
  let n6 := after n5 4 in
  let call := after n6 6 in
  {| g_funs := externs ++ ctor_defs ++ tag_defs ++ halt_defs ++
       [(call, make_call direct c_args (halt_clo_info tb) n6 (after n6 1) (after n6 2) (after n6 3) (after n6 5))];
     g_names := name_defs; g_make := makes; g_tag := tags;
     g_halt := halt; g_call := call; g_next := after n6 7 |}.
