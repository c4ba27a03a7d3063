(** * How a C compiler reads a whole file

    The preprocessor (C11 6.10, include guards only), external declarations (6.9, 6.7),
    initialisers (6.7.9), string literals (6.4.5), and what a Clight program is meant to
    be as C.  Expressions, declarators, statements and functions are read by PR_Spec.v.
    Nothing here mentions the printer. *)
From Coq Require Import ZArith NArith List String Ascii Bool.
From Coq.Floats Require Import SpecFloat.
From Verif Require Import PR_Model PR_Spec PP_Model.
Import ListNotations.
Local Open Scope string_scope.

(** ** External declarations *)

Inductive cinit : Set :=
| COne (e : cexp)            (* = e *)
| CMany (l : list cexp).     (* = { e, ..., e } *)

Inductive cext : Set :=
| XComp (union : bool) (s : string)                                  (* struct s; *)
| XCompDef (union : bool) (s : string) (ms : list (string * cty))    (* struct s { ... }; *)
| XDecl (ext const : bool) (x : string) (t : cty)                    (* T x; *)
| XVar (const : bool) (x : string) (t : cty) (i : cinit)             (* T x = i; *)
| XFun (f : cfundef).

(** the first of the tokens that tell declarations apart *)
Fixpoint first_of (ts : list token) : option string :=
  match ts with
  | [] => None
  | TOp s :: r => if mem s [";"; "="; "{"] then Some s else first_of r
  | _ :: r => first_of r
  end.

(** [const] right before the declared name qualifies the variable (or its elements):
    the name and the tokens without [const] *)
Fixpoint unconst (ts : list token) : option (string * list token) :=
  match ts with
  | TId s :: r =>
      if String.eqb s "const" then
        match r with TId x :: _ => Some (x, r) | _ => None end
      else match unconst r with Some (x, r') => Some (x, TId s :: r') | None => None end
  | TOp s :: r =>
      if mem s [";"; "="; "{"] then None
      else match unconst r with Some (x, r') => Some (x, TOp s :: r') | None => None end
  | t :: r => match unconst r with Some (x, r') => Some (x, t :: r') | None => None end
  | [] => None
  end.

(** a declared variable or function: [const], name, type *)
Definition pvar (F : nat) (ts : list token) : option (bool * string * cty * list token) :=
  match unconst ts with
  | Some (x, ts1) =>
      match ptype F ts1 with
      | Some (Some y, t, r) => if String.eqb x y then Some (true, y, t, r) else None
      | _ => None
      end
  | None =>
      match ptype F ts with
      | Some (Some y, t, r) => Some (false, y, t, r)
      | _ => None
      end
  end.

(** after the opening brace; a comma may precede the closing one *)
Fixpoint pinits (F : nat) (ts : list token) : option (list cexp * list token) :=
  match F with
  | O => None
  | S F =>
      match pexp F 6 ts with
      | Some (e, ts1) =>
          match eats [TOp ","; TOp "}"] ts1 with
          | Some ts2 => Some ([e], ts2)
          | None =>
              match eat (TOp ",") ts1 with
              | Some ts2 =>
                  match pinits F ts2 with Some (l, ts3) => Some (e :: l, ts3) | None => None end
              | None =>
                  match eat (TOp "}") ts1 with Some ts2 => Some ([e], ts2) | None => None end
              end
          end
      | None => None
      end
  end.

Definition pinit (F : nat) (ts : list token) : option (cinit * list token) :=
  match eat (TOp "{") ts with
  | Some ts1 => match pinits F ts1 with Some (l, r) => Some (CMany l, r) | None => None end
  | None => match pexp F 6 ts with Some (e, r) => Some (COne e, r) | None => None end
  end.

(** members up to and including the closing brace *)
Fixpoint pmembers (F : nat) (ts : list token) : option (list (string * cty) * list token) :=
  match F with
  | O => None
  | S F =>
      match eat (TOp "}") ts with
      | Some r => Some ([], r)
      | None =>
          match ptype F ts with
          | Some (Some x, t, ts1) =>
              match eat (TOp ";") ts1 with
              | Some ts2 =>
                  match pmembers F ts2 with Some (l, r) => Some ((x, t) :: l, r) | None => None end
              | None => None
              end
          | _ => None
          end
      end
  end.

(** [struct s] or [union s] *)
Definition ptag (ts : list token) : option (bool * string * list token) :=
  match ts with
  | TId w :: TId s :: r =>
      if keyword s then None
      else if String.eqb w "struct" then Some (false, s, r)
      else if String.eqb w "union" then Some (true, s, r)
      else None
  | _ => None
  end.

Definition pcomp (F : nat) (ts : list token) : option (cext * list token) :=
  match ptag ts with
  | Some (u, s, r) =>
      match eat (TOp ";") r with
      | Some r' => Some (XComp u s, r')
      | None =>
          match eat (TOp "{") r with
          | Some r1 =>
              match pmembers F r1 with
              | Some (ms, r2) =>
                  match eat (TOp ";") r2 with Some r3 => Some (XCompDef u s ms, r3) | None => None end
              | None => None
              end
          | None => None
          end
      end
  | None => None
  end.

(** is it [struct s;] or [struct s {]? *)
Definition comp_head (ts : list token) : bool :=
  match ptag ts with
  | Some (_, _, TOp s :: _) => mem s [";"; "{"]
  | _ => false
  end.

Definition pdeclaration (F : nat) (ts : list token) : option (cext * list token) :=
  let '(ext, ts1) := match eat (TId "extern") ts with Some r => (true, r) | None => (false, ts) end in
  match pvar F ts1 with
  | Some (c, x, t, ts2) =>
      match eat (TOp ";") ts2 with Some r => Some (XDecl ext c x t, r) | None => None end
  | None => None
  end.

Definition pdefinition (F : nat) (ts : list token) : option (cext * list token) :=
  match pvar F ts with
  | Some (c, x, t, ts1) =>
      match eat (TOp "=") ts1 with
      | Some ts2 =>
          match pinit F ts2 with
          | Some (i, ts3) =>
              match eat (TOp ";") ts3 with Some r => Some (XVar c x t i, r) | None => None end
          | None => None
          end
      | None => None
      end
  | None => None
  end.

Definition pext (F : nat) (ts : list token) : option (cext * list token) :=
  if comp_head ts then pcomp F ts
  else match first_of ts with
       | None => None
       | Some s =>
           if String.eqb s ";" then pdeclaration F ts
           else if String.eqb s "=" then pdefinition F ts
           else match pfundef F ts with Some (f, r) => Some (XFun f, r) | None => None end
       end.

Fixpoint punit (F : nat) (ts : list token) : option (list cext) :=
  match F with
  | O => None
  | S F =>
      match ts with
      | [] => Some []
      | _ =>
          match pext F ts with
          | Some (x, r) => match punit F r with Some l => Some (x :: l) | None => None end
          | None => None
          end
      end
  end.

(** the text is a translation unit *)
Definition reads_unit (s : string) (l : list cext) : Prop :=
  eventually (fun F => punit F (lex s) = Some l).

(** ** What a Clight program means as C *)

Section MEANS.

Variable nm tn : positive -> string.

Definition is_space_init (i : init_data) : bool := match i with Init_space _ => true | _ => false end.

(** [void *] and [char *] of the casts around an address with an offset *)
Definition void_ptr : cty := CPtr (CBase BVoid noat) noat.
Definition char_ptr : cty := CPtr (CBase BChar noat) noat.

(** an address, [ofs] bytes into the variable *)
Definition caddr (x : string) (ofs : Z) : cexp :=
  if (ofs =? 0)%Z then CAddr (CVar x)
  else CCast void_ptr (CBin Oadd (CCast char_ptr (CAddr (CVar x))) (cint ofs "")).

(** floats are treated in the properties about floats *)
Definition ciexp (i : init_data) : cexp :=
  match i with
  | Init_int8 n | Init_int16 n | Init_int32 n => cint (signed 32 n) ""
  | Init_int64 n => cint (signed 64 n) "LL"
  | Init_addrof x ofs => caddr (nm x) (signed 32 ofs)
  | Init_float32 _ | Init_float64 _ | Init_space _ => CVar ""
  end.

Definition scalar (t : type) : bool :=
  match t with Tint _ _ _ | Tlong _ _ | Tfloat _ _ | Tpointer _ _ | Tfunction _ _ _ _ => true | _ => false end.

(** space is not initialised *)
Definition cinit_of (v : globvar) : cinit :=
  match scalar (gvar_info v), gvar_init v with
  | true, [i] => COne (ciexp i)
  | _, il => CMany (List.map ciexp (List.filter (fun i => negb (is_space_init i)) il))
  end.

Definition cvar_of (id : positive) (v : globvar) : cext :=
  match gvar_init v with
  | [] => XDecl true (gvar_readonly v) (nm id) (ctype nm (gvar_info v))
  | [Init_space _] => XDecl false (gvar_readonly v) (nm id) (ctype nm (gvar_info v))
  | _ => XVar (gvar_readonly v) (nm id) (ctype nm (gvar_info v)) (cinit_of v)
  end.

Definition cfun_of (ft : spec_float -> string) (id : positive) (f : function) : cfundef :=
  {| cf_name := nm id; cf_ret := ctype nm (fn_return f);
     cf_params := List.map (fun d => (tn (fst d), ctype nm (snd d))) (fn_params f);
     cf_vararg := fn_vararg f;
     cf_locals := (List.map (fun d => (false, nm (fst d), ctype nm (snd d))) (fn_vars f)
                   ++ List.map (fun d => (true, tn (fst d), ctype nm (snd d))) (fn_temps f))%list;
     cf_body := flatten nm tn ft (fn_body f) |}.

Definition is_union (c : composite) : bool := match co_su c with Union => true | Struct => false end.

(** composites are announced, then defined *)
Definition ccomp (c : composite) : cext := XComp (is_union c) (nm (co_id c)).
Definition ccompdef (c : composite) : cext :=
  XCompDef (is_union c) (nm (co_id c))
    (List.map (fun d => (nm (fst d), ctype nm (snd d))) (co_members c)).

Definition fun_type (f : function) : type :=
  Tfunction (List.map snd (fn_params f)) (fn_return f) (fn_vararg f) (fn_unproto f).

(** every function is declared: [extern] when it is defined elsewhere, not at all when it
    is built into the compiler *)
Definition cdecls (d : positive * globdef) : list cext :=
  match snd d with
  | Gfun (Internal f) => [XDecl false false (nm (fst d)) (ctype nm (fun_type f))]
  | Gfun (External true args res va un) =>
      [XDecl true false (nm (fst d)) (ctype nm (Tfunction args res va un))]
  | Gfun (External false _ _ _ _) | Gvar _ => []
  end.

Definition cdefs (ft : spec_float -> string) (d : positive * globdef) : list cext :=
  match snd d with
  | Gfun (Internal f) => [XFun (cfun_of ft (fst d) f)]
  | Gfun (External _ _ _ _ _) => []
  | Gvar v => [cvar_of (fst d) v]
  end.

Definition cunit (ft : spec_float -> string) (p : program) : list cext :=
  (List.map ccomp (prog_types p) ++ List.map ccompdef (prog_types p) ++
   flat_map cdecls (prog_defs p) ++ flat_map (cdefs ft) (prog_defs p))%list.

(** ** Programs that can be printed: the conditions *)

(** floats have properties of their own *)
Definition init_ok (i : init_data) : bool :=
  match i with
  | Init_int8 _ | Init_int16 _ | Init_int32 _ | Init_int64 _ => true
  | Init_space n => true
  | Init_addrof x ofs => ident (nm x)
  | Init_float32 _ | Init_float64 _ => false
  end.

(** something to initialise, unless there is only space *)
Definition inits_ok (il : list init_data) : bool :=
  forallb init_ok il &&
  match il with
  | [] | [Init_space _] => true
  | _ => existsb (fun i => negb (is_space_init i)) il
  end.

(** not printed as a string literal (those have properties of their own) *)
Definition stringlit (id : positive) : bool := String.prefix "__stringlit_" (nm id).

Definition var_ok (id : positive) (v : globvar) : bool :=
  ident (nm id) && type_ok nm (gvar_info v) && inits_ok (gvar_init v) && negb (stringlit id).

Definition fun_ok (id : positive) (f : function) : bool :=
  ident (nm id) && type_ok nm (fun_type f) && result_ok (fn_return f) &&
  decls_ok nm tn (fn_params f) && decls_ok nm nm (fn_vars f) && decls_ok nm tn (fn_temps f) &&
  stmt_ok nm tn (fn_body f).

Definition def_ok (d : positive * globdef) : bool :=
  match snd d with
  | Gfun (Internal f) => fun_ok (fst d) f
  | Gfun (External true args res va un) => ident (nm (fst d)) && type_ok nm (Tfunction args res va un)
  | Gfun (External false _ _ _ _) => true
  | Gvar v => var_ok (fst d) v
  end.

(** no attributes of the whole composite *)
Definition comp_ok (c : composite) : bool :=
  ident (nm (co_id c)) && decls_ok nm nm (co_members c) &&
  match attr_alignas (co_attr c) with Some _ => false | None => negb (attr_volatile (co_attr c)) end.

Definition prog_ok (p : program) : bool :=
  forallb comp_ok (prog_types p) && forallb def_ok (prog_defs p).

End MEANS.

(** two external declarations that differ at most in the way C84 allows for bodies *)
Definition same (x y : cext) : Prop :=
  match x, y with
  | XFun f, XFun g =>
      cf_name f = cf_name g /\ cf_ret f = cf_ret g /\ cf_params f = cf_params g /\
      cf_vararg f = cf_vararg g /\ cf_locals f = cf_locals g /\ tidies (cf_body f) = tidies (cf_body g)
  | _, _ => x = y
  end.

(** ** Memory images of initialisers (64-bit) *)

Inductive content : Set := CNum (z : Z) | CAdr (x : string) (ofs : Z).

(** offset, size, content *)
Definition cell : Set := (Z * Z * content)%type.

(** the size of a scalar type that integers and addresses can initialise *)
Definition scalar_size (t : type) : option Z :=
  match t with
  | Tint I8 _ _ => Some 1 | Tint I16 _ _ => Some 2 | Tint I32 _ _ => Some 4
  | Tlong _ _ => Some 8 | Tpointer _ _ => Some 8
  | _ => None
  end%Z.

(** the scalar elements of nested arrays: their size and how many *)
Fixpoint elements (t : type) : option (Z * Z) :=
  match t with
  | Tarray t n _ => match elements t with Some (s, k) => Some (s, n * k)%Z | None => None end
  | _ => match scalar_size t with Some s => Some (s, 1%Z) | None => None end
  end.

(** the value of a constant expression of the form found in initialisers *)
Fixpoint const_value (e : cexp) : option content :=
  match e with
  | CLit n _ => Some (CNum (Z.of_N n))
  | CNeg e => match const_value e with Some (CNum z) => Some (CNum (- z)) | _ => None end
  | CAddr (CVar x) => Some (CAdr x 0)
  | CCast _ e => const_value e
  | CBin Oadd a b =>
      match const_value a, const_value b with
      | Some (CAdr x o), Some (CNum z) => Some (CAdr x (o + z))
      | _, _ => None
      end
  | _ => None
  end.

(** what remains of a value in [s] bytes *)
Definition fit (s : Z) (c : content) : content :=
  match c with CNum z => CNum (z mod 2 ^ (8 * s)) | CAdr x o => CAdr x o end.

(** C11 6.7.9: the elements are initialised one after the other *)
Fixpoint c_image (s : Z) (ofs : Z) (l : list cexp) : option (list cell) :=
  match l with
  | [] => Some []
  | e :: l =>
      match const_value e, c_image s (ofs + s) l with
      | Some c, Some r => Some ((ofs, s, fit s c) :: r)
      | _, _ => None
      end
  end.

(** Clight: each initialiser has its own size *)
Definition init_size (i : init_data) : Z :=
  match i with
  | Init_int8 _ => 1 | Init_int16 _ => 2 | Init_int32 _ => 4 | Init_int64 _ => 8
  | Init_float32 _ => 4 | Init_float64 _ => 8
  | Init_space n => Z.max 0 n
  | Init_addrof _ _ => 8
  end%Z.

Definition init_content (nm : positive -> string) (i : init_data) : option content :=
  match i with
  | Init_int8 n | Init_int16 n | Init_int32 n | Init_int64 n => Some (CNum (n mod 2 ^ (8 * init_size i)))
  | Init_addrof x ofs => Some (CAdr (nm x) (signed 64 ofs))
  | _ => None
  end.

Fixpoint clight_image (nm : positive -> string) (ofs : Z) (il : list init_data) : list cell :=
  match il with
  | [] => []
  | i :: il =>
      match init_content nm i with
      | Some c => (ofs, init_size i, c) :: clight_image nm (ofs + init_size i) il
      | None => clight_image nm (ofs + init_size i) il
      end
  end.

(** every initialiser has the size of an element, and space comes last *)
Fixpoint uniform (s : Z) (il : list init_data) : bool :=
  match il with
  | [] => true
  | Init_space _ :: il => forallb is_space_init il
  | Init_addrof _ ofs :: il =>
      (s =? 8)%Z && (- 2 ^ 31 <=? ofs)%Z && (ofs <? 2 ^ 31)%Z && uniform s il
  | Init_float32 _ :: _ | Init_float64 _ :: _ => false
  | i :: il => (init_size i =? s)%Z && uniform s il
  end.

(** ** The preprocessor *)

Definition newline : ascii := "010"%char.

Fixpoint lines (s : string) : list string :=
  match s with
  | EmptyString => [""]
  | String c s =>
      if (c =? newline)%char then "" :: lines s
      else match lines s with l :: r => String c l :: r | [] => [String c ""] end
  end.

Fixpoint unlines (l : list string) : string :=
  match l with [] => "" | s :: l => s ++ String newline (unlines l) end.

Definition macro_name (s : string) : bool :=
  match s with String c _ => id_start c && all_chars id_char s | _ => false end.

Fixpoint drops (n : nat) (s : string) : string :=
  match n, s with S n, String _ s => drops n s | _, _ => s end.

(** the text after [p], if [s] starts with [p] *)
Definition after (p s : string) : option string :=
  if String.prefix p s then Some (drops (String.length p) s) else None.

Inductive directive : Set := DIfndef (x : string) | DDefine (x : string) | DEndif | DInclude (x : string) | DBad | DText.

Fixpoint skip_space (s : string) : string :=
  match s with String c r => if is_space c then skip_space r else s | _ => s end.

Definition directive_of (l : string) : directive :=
  match skip_space l with
  | String "#" _ =>
      match after "#ifndef " l, after "#define " l, after "#include " l, after "#endif " l with
      | Some x, _, _, _ => if macro_name x then DIfndef x else DBad
      | _, Some x, _, _ => if macro_name x then DDefine x else DBad
      | _, _, Some x, _ => DInclude x
      | _, _, _, Some _ => DEndif
      | _, _, _, _ => DBad
      end
  | _ => DText
  end.

(** what is left of a file: the headers included and the lines of text *)
Inductive kept : Set := KInclude (x : string) | KText (l : string).

(** [st]: for each open [#ifndef], whether it was taken *)
Fixpoint preprocess (macros : list string) (st : list bool) (ls : list string)
    : option (list string * list kept) :=
  let on := forallb (fun b => b) st in
  match ls with
  | [] => match st with [] => Some (macros, []) | _ => None end
  | l :: ls =>
      match directive_of l with
      | DIfndef x => preprocess macros (negb (mem x macros) :: st) ls
      | DDefine x => preprocess (if on then x :: macros else macros) st ls
      | DEndif => match st with [] => None | _ :: st => preprocess macros st ls end
      | DInclude x =>
          match preprocess macros st ls with
          | Some (m, k) => Some (m, if on then KInclude x :: k else k)
          | None => None
          end
      | DBad => None
      | DText =>
          match preprocess macros st ls with
          | Some (m, k) => Some (m, if on then KText l :: k else k)
          | None => None
          end
      end
  end.

(** reading a file when [macros] are defined *)
Definition include_file (macros : list string) (s : string) : option (list string * list kept) :=
  preprocess macros [] (lines s).

(** the text left, line by line *)
Fixpoint text_of (k : list kept) : list string :=
  match k with [] => [] | KText l :: k => l :: text_of k | KInclude _ :: k => text_of k end.
Fixpoint includes_of (k : list kept) : list string :=
  match k with [] => [] | KInclude x :: k => x :: includes_of k | KText _ :: k => includes_of k end.

Definition no_char (c : ascii) (s : string) : bool := all_chars (fun d => negb (d =? c)%char) s.

Definition import_ok (i : import) : bool :=
  match i with FromRelativePath s | FromLibrary s => no_char newline s end.

(** the header a directive names *)
Definition header (i : import) : string :=
  match i with
  | FromRelativePath s => String """" (s ++ """")
  | FromLibrary s => "<" ++ s ++ ">"
  end.

(** ** String literals (C11 6.4.5) *)

Definition octal_digit (c : ascii) : option Z :=
  if between "0" "7" c then Some (Z.of_nat (nat_of_ascii c - 48)) else None.

(** an octal escape has up to three digits *)
Fixpoint octal_escape (k : nat) (acc : Z) (s : string) : Z * string :=
  match k, s with
  | S k, String c r =>
      match octal_digit c with Some d => octal_escape k (8 * acc + d) r | None => (acc, s) end
  | _, _ => (acc, s)
  end%Z.

(** the bytes up to the closing quote; other escapes do not occur *)
Fixpoint string_bytes (F : nat) (s : string) : option (list Z * string) :=
  match F, s with
  | S F, String c r =>
      if (c =? """")%char then Some ([], r)
      else if (c =? newline)%char then None
      else if (c =? "\")%char then
        match r with
        | String d _ =>
            match octal_digit d with
            | Some _ =>
                let '(z, r') := octal_escape 3 0 r in
                if (z <? 256)%Z then
                  match string_bytes F r' with Some (l, q) => Some (z :: l, q) | None => None end
                else None
            | None => None
            end
        | _ => None
        end
      else match string_bytes F r with
           | Some (l, q) => Some (Z.of_nat (nat_of_ascii c) :: l, q)
           | None => None
           end
  | _, _ => None
  end.

(** an array of [n] characters initialised by a literal: the rest, which includes the
    character that ends the literal, is zero *)
Definition filled (n : nat) (l : list Z) : list Z := (l ++ List.repeat 0%Z (n - List.length l))%list.
