(** * Evaluation commands of a session

    Source: plugin/certirocq.ml:34-57 (names), 104-131 (registered orders),
    160-193 (table of compiled programs), 478-499 and 802-892 (building one),
    894-938 (evaluation); plugin/g_certirocq.mlg:67-68, 214-242 (the commands).

    Simplified:
    - compiling, linking, loading and running a program is one function
      [result]: what the code built with given options and orders returns.  It
      returns the same each time it is run;
    - of the environment there are the constants defined so far, with their
      types; types of inductives ([genv]) do not change in a session;
    - Rocq's [Summary] (restored when the user goes back) is a record that is
      saved at each command; plain references are not restored. *)
From Coq Require Import ZArith List Bool Arith Ascii String.
From Verif Require Import ANF_Syntax CG_Clight RF_Model.
Import ListNotations.
Local Open Scope nat_scope.

(** ** Names *)

(** Util.is_digit of Rocq's library *)
Definition is_digit (c : ascii) : bool :=
  let n := nat_of_ascii c in (48 <=? n) && (n <=? 57).

(** Bytes.fill of OCaml's library, within bounds *)
Definition fill (l : list ascii) (pos n : nat) (c : ascii) : list ascii :=
  firstn pos l ++ repeat c n ++ skipn (pos + n) l.

(** Bytes.set of OCaml's library, within bounds *)
Definition set_at (l : list ascii) (pos : nat) (c : ascii) : list ascii :=
  firstn pos l ++ [c] ++ skipn (S pos) l.

(** plugin/certirocq.ml:37-56, [add] *)
Fixpoint add_at (id : list ascii) (carrypos : nat) : answer (list ascii) :=
  let len := List.length id in
  match nth_error id carrypos with
  | None => Exception                      (* index out of bounds *)
  | Some c =>
      if is_digit c then
        if Ascii.eqb c "9" then
          match carrypos with
          | O => Exception                 (* the assertion *)
          | S p => add_at id p
          end
        else
          Done (set_at (fill id (carrypos + 1) (len - 1 - carrypos) "0") carrypos
                  (ascii_of_nat (nat_of_ascii c + 1)))
      else
        let newid := (id ++ ["0"%char])%list in
        if carrypos <? len - 1 then
          Done (set_at (fill newid (carrypos + 1) (len - 1 - carrypos) "0") (carrypos + 1) "1")
        else Done newid
  end.

(** plugin/certirocq.ml:34-57 *)
Definition increment_subscript (id : string) : answer string :=
  let l := list_ascii_of_string id in
  match l with
  | [] => Exception                        (* id.[-1] *)
  | _ => andthen (add_at l (List.length l - 1)) (fun l' => Done (string_of_list_ascii l'))
  end.

(** plugin/certirocq.ml:894-896 *)
Fixpoint next_string_away_from (fuel : nat) (s : string) (bad : string -> bool) : answer string :=
  match fuel with
  | O => Unfinished
  | S fuel => if bad s then andthen (increment_subscript s) (fun s' => next_string_away_from fuel s' bad) else Done s
  end.

(** CString.Set.mem *)
Definition mem (s : string) (l : list string) : bool := existsb (String.eqb s) l.

(** plugin/certirocq.ml:898-899.  One step per element and one more are enough
    (proved below as part of C86). *)
Definition find_fresh (s : string) (used : list string) : answer string :=
  next_string_away_from (List.length used + 2) s (fun s => mem s used).

(** CString.split_on_char of OCaml's library: [cur] is the piece begun *)
Fixpoint split_from (c : ascii) (cur : string) (s : string) : list string :=
  match s with
  | EmptyString => [cur]
  | String a s' => if Ascii.eqb a c then cur :: split_from c "" s' else split_from c (cur ++ String a "") s'
  end.

(** Char.lowercase_ascii and String.uncapitalize_ascii of OCaml's library *)
Definition uncapitalize (s : string) : string :=
  match s with
  | EmptyString => EmptyString
  | String c s' => let n := nat_of_ascii c in
      String (if (65 <=? n) && (n <=? 90) then ascii_of_nat (n + 32) else c) s'
  end.

(** plugin/certirocq.ml:901-903 *)
Definition toplevel_name_of_filename (s : string) : string :=
  uncapitalize (String.concat "_" (split_from "." "" s)).

(** ** Building a program *)

(** pieces of the files written: the program, and the function that allocates
    the memory and calls it (plugin/certirocq.ml:802-806) *)
Inductive piece : Set := Program (body : string) | Driver (name body : string).

(** the two run-time systems: gc.h, gc_stack.h *)
Inductive runtime : Set := GC | GC_stack.

(** What is built.  [b_unit]: contents of the C file that is compiled;
    [b_included]: the run-time system the program is compiled for; [b_linked]:
    the one it is linked with; [b_symbol]: the C function the OCaml side calls. *)
Record build : Set := { b_unit : list piece; b_included : runtime; b_linked : runtime; b_symbol : string }.

(** plugin/certirocq.ml:831-891: [compile] writes the file
    [filename ^ ext ^ ".c"] (lines 493-499), [write_c_driver] appends to
    [filename ^ ".c"] (lines 807-818), which is compiled (lines 849-852); the
    linker is given gc_stack.o (line 869).  A file that was not there before is
    empty: file names are fresh. *)
Definition build_named (filename ext : string) (cps : bool) : build :=
  let id := toplevel_name_of_filename filename in
  let program := (filename ++ ext ++ ".c")%string in
  let driver := (filename ++ ".c")%string in
  {| b_unit := (if String.eqb program driver then [Program (id ++ "_body")] else []) ++ [Driver id (id ++ "_body")];
     b_included := if cps then GC else GC_stack;
     b_linked := GC_stack;
     b_symbol := id |}.

(** ** Sessions *)

Section Session.
(** programs, options, and what the code built from a program returns *)
Variables (T O : Type) (result : O -> mapping -> T -> answer ((Z -> option cval) * cval)).
Variables (E : genv) (fuel : nat).

(** What going back restores: definitions, the table of compiled programs
    (plugin/certirocq.ml:162-164) and the orders (112-113). *)
Record summary : Type := mksum {
  s_consts : list (string * (cterm * T));
  s_table : list (string * ((Z -> option cval) * cval));
  s_orders : mapping }.

(** What it does not restore: names used (plugin/certirocq.ml:168).  [past]:
    the states to go back to; [files]: files written so far (for the statement
    of properties). *)
Record state : Type := mkst { cur : summary; used : list string; past : list summary; files : list string }.

(** CString.Map.find_opt *)
Fixpoint look {A} (s : string) (l : list (string * A)) : option A :=
  match l with
  | [] => None
  | (s', a) :: l' => if String.eqb s s' then Some a else look s l'
  end.

(** plugin/certirocq.ml:170-173 *)
Definition register_run (s s' : string) (fn : (Z -> option cval) * cval) (st : state) : state :=
  {| cur := {| s_consts := s_consts (cur st); s_table := (s, fn) :: s_table (cur st); s_orders := s_orders (cur st) |};
     used := s :: s' :: used st; past := past st; files := s' :: files st |}.

(** plugin/certirocq.ml:797-800 *)
Definition reify_run (st : state) (ty : cterm) (r : (Z -> option cval) * cval) : answer cterm :=
  reify_result fuel true E (s_orders (cur st)) (fst r) ty (snd r).

(** plugin/certirocq.ml:831-892, 905-909: compile under a fresh name, register
    the code under the name given, run it *)
Definition certirocq_eval (st : state) (filename : string) (ty : cterm) (t : T) (o : O) : state * answer cterm :=
  match find_fresh filename (used st) with
  | Done fresh =>
      match check_reifyable ty with
      | Done _ =>
          match result o (s_orders (cur st)) t with
          | Done r => let st' := register_run filename fresh r st in (st', reify_run st' ty r)
          | a => (st, andthen a (fun _ => Exception))
          end
      | a => (st, andthen a (fun _ => Exception))
      end
  | a => (st, andthen a (fun _ => Exception))
  end.

(** plugin/certirocq.ml:911-928 *)
Definition eval (st : state) (filename : string) (ty : cterm) (t : T) (o : O) : state * answer cterm :=
  match look filename (s_table (cur st)) with
  | None => certirocq_eval st filename ty t o
  | Some run => (st, reify_run st ty run)
  end.

(** Commands: a definition (Rocq's own; a name is defined once), an order of
    constructors (plugin/g_certirocq.mlg:152-154), an evaluation of a constant
    (214-227), an evaluation of a term in a tactic, with the file name given by
    [-file] or the number of the goal (229-242), going back [n] commands. *)
Inductive command : Type :=
| Define (s : string) (ty : cterm) (t : T)
| Order (i : inductive) (tags : list nat)
| Eval (s : string) (o : O)
| Eval_term (file : string) (ty : cterm) (t : T) (o : O)
| Back (n : nat).

(** The summary of the state before is kept. *)
Definition save (st : state) (st' : state) : state :=
  {| cur := cur st'; used := used st'; past := cur st :: past st; files := files st' |}.

(** A command that fails leaves the summary as it was (Rocq's toplevel). *)
Definition finish (st : state) (r : state * answer cterm) : state * option (answer cterm) :=
  let '(st', a) := r in
  (match a with
   | Done _ => save st st'
   | _ => {| cur := cur st; used := used st'; past := past st; files := files st' |}
   end, Some a).

(** one command; the answer is that of an evaluation *)
Definition step (c : command) (st : state) : state * option (answer cterm) :=
  match c with
  | Define s ty t =>
      match look s (s_consts (cur st)) with
      | Some _ => (st, None)
      | None => (save st {| cur := {| s_consts := (s, (ty, t)) :: s_consts (cur st); s_table := s_table (cur st); s_orders := s_orders (cur st) |};
                            used := used st; past := past st; files := files st |}, None)
      end
  | Order i tags =>
      (save st {| cur := {| s_consts := s_consts (cur st); s_table := s_table (cur st); s_orders := (i, tags) :: s_orders (cur st) |};
                  used := used st; past := past st; files := files st |}, None)
  | Eval s o =>
      match look s (s_consts (cur st)) with
      | Some (ty, t) => finish st (eval st s ty t o)
      | None => (st, None)
      end
  | Eval_term file ty t o => finish st (eval st file ty t o)
  | Back n =>
      match nth_error (past st) n with
      | Some s => ({| cur := s; used := used st; past := skipn (S n) (past st); files := files st |}, None)
      | None => (st, None)
      end
  end.

(** a whole session: the last state and the answers *)
Fixpoint session (cs : list command) (st : state) : state * list (option (answer cterm)) :=
  match cs with
  | [] => (st, [])
  | c :: cs' => let '(st1, a) := step c st in let '(st2, l) := session cs' st1 in (st2, a :: l)
  end.

(** a new process: nothing defined, compiled or registered (the order that
    plugin/Loader.v:3 registers is an [Order] command) *)
Definition start : state :=
  {| cur := {| s_consts := []; s_table := []; s_orders := [] |}; used := []; past := []; files := [] |}.
End Session.
Arguments s_consts {T}. Arguments s_table {T}. Arguments s_orders {T}. Arguments mksum {T}.
Arguments cur {T}. Arguments used {T}. Arguments past {T}. Arguments files {T}. Arguments start {T}.
Arguments Define {T O}. Arguments Order {T O}. Arguments Eval {T O}. Arguments Eval_term {T O}. Arguments Back {T O}.
