(** * The printer that turns Clight syntax into the text of the C file

    plugin/static/printClight.ml (cplugin/static/printClight.ml is the same),
    plugin/static/printCsyntax.ml (types and declarators) and the conversions of
    plugin/static/camlrocq.ml it uses.

    Simplified:
    - a line break hint of the OCaml formatter is the string [sp] where the
      formatter puts white space and [cut] where it may put nothing; both are
      parameters (any white space, [sp] not empty);
    - names are given by two functions, [nm] for [extern_atom] and [tn] for
      [temp_name] (the tables are modelled at the end);
    - left out: [Sbuiltin], [Sloop] with a continue part ([print_stmt_for]),
      [Econst_single], initialisers of global variables. *)
From Coq Require Import ZArith NArith List String Ascii Bool.
From Coq Require Import DecimalString.
From Coq.Floats Require Import SpecFloat.
Import ListNotations.
Local Open Scope string_scope.

(** ** Clight syntax (CompCert cfrontend/Ctypes.v, Cop.v, Clight.v: the types the
    printer matches on, printCsyntax.ml:27-68, printClight.ml:43-63, 128-199) *)

(** printCsyntax.ml:51-59 *)
Inductive signedness : Set := Signed | Unsigned.
(** printCsyntax.ml:51-59 *)
Inductive intsize : Set := I8 | I16 | I32 | IBool.
(** printCsyntax.ml:61-64 *)
Inductive floatsize : Set := F32 | F64.

(** printCsyntax.ml:72-79: [attr_volatile], [attr_alignas] (a power of two) *)
Record attr : Set := { attr_volatile : bool; attr_alignas : option N }.
(** no attributes *)
Definition noattr : attr := {| attr_volatile := false; attr_alignas := None |}.

(** printCsyntax.ml:92-144; of the calling convention the printer uses
    [cc_vararg <> None] and [cc_unproto] *)
Inductive type : Set :=
| Tvoid
| Tint (sz : intsize) (sg : signedness) (a : attr)
| Tlong (sg : signedness) (a : attr)
| Tfloat (sz : floatsize) (a : attr)
| Tpointer (t : type) (a : attr)
| Tarray (t : type) (n : Z) (a : attr)
| Tfunction (args : list type) (res : type) (vararg unproto : bool)
| Tstruct (id : positive) (a : attr)
| Tunion (id : positive) (a : attr).

(** printCsyntax.ml:27-31 *)
Inductive unop : Set := Onotbool | Onotint | Oneg | Oabsfloat.
(** printCsyntax.ml:33-49 *)
Inductive binop : Set :=
| Oadd | Osub | Omul | Odiv | Omod | Oand | Oor | Oxor | Oshl | Oshr
| Oeq | One | Olt | Ogt | Ole | Oge.

(** printClight.ml:79-114 *)
Inductive expr : Set :=
| Evar (id : positive) (t : type)
| Etempvar (id : positive) (t : type)
| Ederef (a : expr) (t : type)
| Efield (a : expr) (f : positive) (t : type)
| Econst_int (n : Z) (t : type)
| Econst_float (f : spec_float) (t : type)
| Econst_long (n : Z) (t : type)
| Eunop (o : unop) (a : expr) (t : type)
| Eaddrof (a : expr) (t : type)
| Ebinop (o : binop) (a b : expr) (t : type)
| Ecast (a : expr) (t : type)
| Esizeof (t t' : type)
| Ealignof (t t' : type).

(** printClight.ml:131-199 *)
Inductive stmt : Set :=
| Sskip
| Sassign (e1 e2 : expr)
| Sset (id : positive) (e : expr)
| Scall (id : option positive) (e : expr) (el : list expr)
| Ssequence (s1 s2 : stmt)
| Sifthenelse (e : expr) (s1 s2 : stmt)
| Sloop (s : stmt)
| Sbreak
| Scontinue
| Sswitch (e : expr) (ls : lstmts)
| Sreturn (e : option expr)
| Slabel (l : positive) (s : stmt)
| Sgoto (l : positive)
with lstmts : Set :=
| LSnil
| LScons (l : option Z) (s : stmt) (ls : lstmts).

(** ** Numbers *)

(** OCaml's native integers: 63 bits, two's complement *)
Definition wrap63 (z : Z) : Z := ((z + 2 ^ 62) mod 2 ^ 63 - 2 ^ 62)%Z.
(** OCaml's [int64] *)
Definition wrap64 (z : Z) : Z := ((z + 2 ^ 63) mod 2 ^ 64 - 2 ^ 63)%Z.
(** OCaml's [int32] *)
Definition wrap32 (z : Z) : Z := ((z + 2 ^ 31) mod 2 ^ 32 - 2 ^ 31)%Z.

(** camlrocq.ml:54-57 [P.to_int] *)
Fixpoint P_to_int (p : positive) : Z :=
  match p with
  | xI p => let n := P_to_int p in wrap63 (wrap63 (n + n) + 1)
  | xO p => let n := P_to_int p in wrap63 (n + n)
  | xH => 1
  end%Z.

(** camlrocq.ml:59-62 [P.to_int64] *)
Fixpoint P_to_int64 (p : positive) : Z :=
  match p with
  | xI p => let n := P_to_int64 p in wrap64 (n + wrap64 (n + 1))
  | xO p => let n := P_to_int64 p in wrap64 (n + n)
  | xH => 1
  end%Z.

(** camlrocq.ml:63-65 [P.of_int], on the arguments for which it terminates *)
Fixpoint P_of_int (x : nat) : positive :=
  match x with O => xH | S x => Pos.succ (P_of_int x) end.

(** camlrocq.ml:162-168 *)
Definition N_of_int (i : nat) : N :=
  match i with O => N0 | S _ => Npos (P_of_int i) end.

(** camlrocq.ml:68-71 [Z.to_int] *)
Definition Z_to_int (z : Z) : Z :=
  match z with Z0 => 0 | Zpos p => P_to_int p | Zneg p => wrap63 (- P_to_int p) end%Z.

(** camlrocq.ml:73-76 [Z.to_int64] *)
Definition Z_to_int64 (z : Z) : Z :=
  match z with Z0 => 0 | Zpos p => P_to_int64 p | Zneg p => wrap64 (- P_to_int64 p) end%Z.

(** camlrocq.ml:358 *)
Definition camlint_of_coqint (z : Z) : Z := wrap32 (Z_to_int z).
(** camlrocq.ml:359 *)
Definition camlint64_of_coqint (z : Z) : Z := Z_to_int64 z.

(** the decimal digits of a natural number, as [%lu] and [%Lu] print them *)
Definition dec (n : N) : string := NilEmpty.string_of_uint (N.to_uint n).
(** [%ld], [%Ld] and [string_of_int] *)
Definition sdec (z : Z) : string :=
  match z with
  | Z0 => "0" | Zpos p => dec (Npos p) | Zneg p => "-" ++ dec (Npos p)
  end.

(** [%lu] of an [int32] *)
Definition udec32 (z : Z) : string := dec (Z.to_N (z mod 2 ^ 32)).
(** [%Lu] of an [int64] *)
Definition udec64 (z : Z) : string := dec (Z.to_N (z mod 2 ^ 64)).

(** ** Floats: [%.18g] (printClight.ml:92) as the C library and OCaml define it *)

(** the number of decimal digits of [q > 0] *)
Fixpoint ndig (fuel : nat) (q : Z) : Z :=
  match fuel with
  | O => 1
  | S fuel => if (q <? 10)%Z then 1 else 1 + ndig fuel (q / 10)
  end%Z.

(** printClight.ml:92, the digits of [%.18g] *)
Definition ndigits (q : Z) : Z := ndig (Z.to_nat (Z.log2 q)) q.

(** the decimal exponent of [n / d]: 10^X <= n/d < 10^(X+1) *)
Definition exp10 (n d : Z) : Z :=
  (if d <=? n then ndigits (n / d) - 1 else - ndigits ((d - 1) / n))%Z.

(** rounding [n / d] to an integer, ties to even *)
Definition round_div (n d : Z) : Z :=
  (let q := n / d in
   let r := n mod d in
   if 2 * r <? d then q
   else if d <? 2 * r then q + 1
   else if Z.even q then q else q + 1)%Z.

(** numerator and denominator of [m * 2^e] *)
Definition frac2 (m : positive) (e : Z) : Z * Z :=
  (if 0 <=? e then (Zpos m * 2 ^ e, 1) else (Zpos m, 2 ^ (- e)))%Z.

(** the 18 significant digits (as an integer of 18 digits) and the decimal exponent *)
Definition digits18 (m : positive) (e : Z) : Z * Z :=
  (let '(n, d) := frac2 m e in
   let X := exp10 n d in
   let s := 17 - X in
   let D := if 0 <=? s then round_div (n * 10 ^ s) d else round_div n (d * 10 ^ (- s)) in
   if D =? 10 ^ 18 then (10 ^ 17, X + 1) else (D, X))%Z.

(** trailing zeros are dropped *)
Fixpoint strip0 (s : string) : string :=
  match s with
  | EmptyString => EmptyString
  | String c s =>
      match strip0 s with
      | EmptyString => if (c =? "0")%char then EmptyString else String c EmptyString
      | r => String c r
      end
  end.

(** the first characters of a text (for printClight.ml:92) *)
Fixpoint take (n : nat) (s : string) : string :=
  match n, s with S n, String c s => String c (take n s) | _, _ => EmptyString end.
(** the other characters (for printClight.ml:92) *)
Fixpoint drop (n : nat) (s : string) : string :=
  match n, s with S n, String c s => drop n s | _, _ => s end.
(** leading zeros (for printClight.ml:92) *)
Fixpoint zeros (n : nat) : string :=
  match n with O => EmptyString | S n => String "0" (zeros n) end.

(** the point is left out when nothing follows it (for printClight.ml:92) *)
Definition point (s : string) : string :=
  match s with EmptyString => EmptyString | _ => "." ++ s end.

(** at least two digits of exponent *)
Definition expo (x : Z) : string :=
  (if (x <? 0)%Z then "-" else "+") ++
  (if (Z.abs x <? 10)%Z then "0" else "") ++ dec (Z.abs_N x).

(** the digits [ds] (18 of them) of a number with decimal exponent [X] *)
Definition layout18 (ds : string) (X : Z) : string :=
  if (X <? -4)%Z || (18 <=? X)%Z then
    take 1 ds ++ point (strip0 (drop 1 ds)) ++ "e" ++ expo X
  else if (0 <=? X)%Z then
    take (Z.to_nat (X + 1)) ds ++ point (strip0 (drop (Z.to_nat (X + 1)) ds))
  else "0." ++ zeros (Z.to_nat (- X - 1)) ++ strip0 ds.

(** a finite positive number *)
Definition pos18g (m : positive) (e : Z) : string :=
  let '(D, X) := digits18 m e in layout18 (dec (Z.to_N D)) X.

(** the sign (for printClight.ml:92) *)
Definition sign_str (s : bool) : string := if s then "-" else "".

(** printClight.ml:92 *)
Definition print_float (f : spec_float) : string :=
  match f with
  | S754_zero s => sign_str s ++ "0"
  | S754_infinity s => sign_str s ++ "inf"
  | S754_nan => "nan"
  | S754_finite s m e => sign_str s ++ pos18g m e
  end.

(** ** Names of operators and types (printCsyntax.ml:27-68) *)

(** printCsyntax.ml:27-31 *)
Definition name_unop (o : unop) : string :=
  match o with Onotbool => "!" | Onotint => "~" | Oneg => "-" | Oabsfloat => "__builtin_fabs" end.

(** printCsyntax.ml:33-49 *)
Definition name_binop (o : binop) : string :=
  match o with
  | Oadd => "+" | Osub => "-" | Omul => "*" | Odiv => "/" | Omod => "%"
  | Oand => "&" | Oor => "|" | Oxor => "^" | Oshl => "<<" | Oshr => ">>"
  | Oeq => "==" | One => "!=" | Olt => "<" | Ogt => ">" | Ole => "<=" | Oge => ">="
  end.

(** printCsyntax.ml:51-59 *)
Definition name_inttype (sz : intsize) (sg : signedness) : string :=
  match sz, sg with
  | I8, Signed => "signed char" | I8, Unsigned => "unsigned char"
  | I16, Signed => "short" | I16, Unsigned => "unsigned short"
  | I32, Signed => "int" | I32, Unsigned => "unsigned int"
  | IBool, _ => "_Bool"
  end.

(** printCsyntax.ml:61-64 *)
Definition name_floattype (sz : floatsize) : string :=
  match sz with F32 => "float" | F64 => "double" end.

(** printCsyntax.ml:66-69 *)
Definition name_longtype (sg : signedness) : string :=
  match sg with Signed => "long long" | Unsigned => "unsigned long long" end.

(** printCsyntax.ml:72-79; [Int64.shift_left 1L l] for [l < 64] *)
Definition attributes (a : attr) : string :=
  let s1 := if attr_volatile a then " volatile" else "" in
  match attr_alignas a with
  | None => s1
  | Some l => " __attribute((aligned(" ++ sdec (wrap64 (2 ^ Z.of_N l)) ++ ")))" ++ s1
  end.

(** printCsyntax.ml:81-83 *)
Definition attributes_space (a : attr) : string :=
  match attributes a with EmptyString => EmptyString | s => s ++ " " end.

(** printCsyntax.ml:85-86 *)
Definition name_optid (id : string) : string :=
  match id with EmptyString => "" | _ => " " ++ id end.

(** printCsyntax.ml:88-92 *)
Definition is_int_or_ptr_attr (a : attr) (n : N) : bool :=
  match attr_alignas a with Some l => (l =? n)%N | None => false end.

(** printCsyntax.ml:96-101: the type printed as [value] *)
Definition is_value (t : type) : bool :=
  match t with
  | Tpointer Tvoid a => is_int_or_ptr_attr a 2 || is_int_or_ptr_attr a 3
  | _ => false
  end.

(** printCsyntax.ml:113 *)
Definition fun_or_array (t : type) : bool :=
  match t with Tfunction _ _ _ _ | Tarray _ _ _ => true | _ => false end.

(** printCsyntax.ml:133-135, printClight.ml:120-126: a separator between the elements *)
Definition sep (l : list string) (s : string) : string := String.concat s l.

Section PRINT.

Variable sp cut : string.
Variable nm tn : positive -> string.

(** printCsyntax.ml:94-144 *)
Fixpoint name_cdecl (id : string) (ty : type) {struct ty} : string :=
  match ty with
  | Tvoid => "void" ++ name_optid id
  | Tint sz sg a => name_inttype sz sg ++ attributes a ++ name_optid id
  | Tfloat sz a => name_floattype sz ++ attributes a ++ name_optid id
  | Tlong sg a => name_longtype sg ++ attributes a ++ name_optid id
  | Tpointer t a =>
      if is_value ty then "value" ++ name_optid id
      else name_cdecl (if fun_or_array t then "(*" ++ attributes_space a ++ id ++ ")"
                       else "*" ++ attributes_space a ++ id) t
  | Tarray t n a => name_cdecl (id ++ "[" ++ sdec (camlint_of_coqint n) ++ "]") t
  | Tfunction args res va un =>
      let id1 := match id with EmptyString => "(*)" | _ => id end in
      let argstr :=
        if un then ""
        else match args with
             | [] => if va then "..." else "void"
             | _ => sep (List.map (name_cdecl "") args) ", " ++ (if va then ", ..." else "")
             end in
      name_cdecl (id1 ++ "(" ++ argstr ++ ")") res
  | Tstruct i a => "struct " ++ nm i ++ attributes a ++ name_optid id
  | Tunion i a => "union " ++ nm i ++ attributes a ++ name_optid id
  end.

(** printCsyntax.ml:148 *)
Definition name_type (ty : type) : string := name_cdecl "" ty.

(** printClight.ml:43-63; the second component is true for [LtoR] *)
Definition precedence (e : expr) : nat * bool :=
  match e with
  | Evar _ _ | Etempvar _ _ => (16, false)
  | Ederef _ _ => (15, false)
  | Efield _ _ _ => (16, true)
  | Econst_int _ _ | Econst_float _ _ | Econst_long _ _ => (16, false)
  | Esizeof _ _ | Ealignof _ _ | Eunop _ _ _ | Eaddrof _ _ => (15, false)
  | Ecast _ _ => (14, false)
  | Ebinop o _ _ _ =>
      match o with
      | Omul | Odiv | Omod => (13, true)
      | Oadd | Osub => (12, true)
      | Oshl | Oshr => (11, true)
      | Olt | Ogt | Ole | Oge => (10, true)
      | Oeq | One => (9, true)
      | Oand => (8, true)
      | Oxor => (7, true)
      | Oor => (6, true)
      end
  end.

(** printClight.ml:67-116 *)
Fixpoint expr_str (prec : nat) (e : expr) {struct e} : string :=
  let '(prec', ltor) := precedence e in
  let '(prec1, prec2) := if ltor then (prec', S prec') else (S prec', prec') in
  let body :=
    match e with
    | Evar id _ => nm id
    | Etempvar id _ => tn id
    | Ederef a1 _ => "*" ++ expr_str prec' a1
    | Efield a1 f _ => expr_str prec' a1 ++ "." ++ nm f
    | Econst_int n t =>
        match t with
        | Tint I32 Unsigned _ => udec32 (camlint_of_coqint n) ++ "U"
        | _ => sdec (camlint_of_coqint n)
        end
    | Econst_float f _ => print_float f
    | Econst_long n t =>
        match t with
        | Tlong Unsigned _ => udec64 (camlint64_of_coqint n) ++ "LLU"
        | _ => sdec (camlint64_of_coqint n) ++ "LL"
        end
    | Eunop o a1 _ =>
        match o with
        | Oabsfloat => "__builtin_fabs(" ++ expr_str 2 a1 ++ ")"
        | _ => name_unop o ++ expr_str prec' a1
        end
    | Eaddrof a1 _ => "&" ++ expr_str prec' a1
    | Ebinop o a1 a2 _ =>
        expr_str prec1 a1 ++ sp ++ name_binop o ++ " " ++ expr_str prec2 a2
    | Ecast a1 ty => "(" ++ name_type ty ++ ") " ++ expr_str prec' a1
    | Esizeof ty _ => "sizeof(" ++ name_type ty ++ ")"
    | Ealignof ty _ => "__alignof__(" ++ name_type ty ++ ")"
    end in
  if Nat.ltb prec' prec then "(" ++ body ++ ")" else body.

(** printClight.ml:118 *)
Definition print_expr (e : expr) : string := expr_str 0 e.

(** printClight.ml:120-126 *)
Definition print_expr_list (l : list expr) : string :=
  sep (List.map (expr_str 2) l) ("," ++ sp).

(** printClight.ml:210-212, and camlrocq.ml:79 [Z.to_string] *)
Definition print_case_label (l : option Z) : string :=
  match l with None => "default" | Some z => "case " ++ sdec (Z_to_int z) end.

(** printClight.ml:130-197 and 199-208 *)
Fixpoint print_stmt (s : stmt) : string :=
  match s with
  | Sskip => "/*skip*/;"
  | Sassign e1 e2 => print_expr e1 ++ " =" ++ sp ++ print_expr e2 ++ ";"
  | Sset id e2 => tn id ++ " =" ++ sp ++ print_expr e2 ++ ";"
  | Scall None e1 el => expr_str 15 e1 ++ cut ++ "(" ++ print_expr_list el ++ ");"
  | Scall (Some id) e1 el =>
      tn id ++ " =" ++ sp ++ expr_str 15 e1 ++ cut ++ "(" ++ print_expr_list el ++ ");"
  | Ssequence s1 s2 =>
      match s1 with
      | Sskip => print_stmt s2
      | _ => match s2 with
             | Sskip => print_stmt s1
             | _ => print_stmt s1 ++ sp ++ print_stmt s2
             end
      end
  | Sifthenelse e s1 s2 =>
      match s2 with
      | Sskip => "if (" ++ print_expr e ++ ") {" ++ sp ++ print_stmt s1 ++ cut ++ "}"
      | _ => match s1 with
             | Sskip => "if (! " ++ expr_str 15 e ++ ") {" ++ sp ++ print_stmt s2 ++ cut ++ "}"
             | _ => "if (" ++ print_expr e ++ ") {" ++ sp ++ print_stmt s1 ++ cut ++ "} else {"
                    ++ sp ++ print_stmt s2 ++ cut ++ "}"
             end
      end
  | Sloop s1 => "while (1) {" ++ sp ++ print_stmt s1 ++ cut ++ "}"
  | Sbreak => "break;"
  | Scontinue => "continue;"
  | Sswitch e ls => "switch (" ++ print_expr e ++ ") {" ++ sp ++ print_cases ls ++ cut ++ "}"
  | Sreturn None => "return;"
  | Sreturn (Some e) => "return " ++ print_expr e ++ ";"
  | Slabel l s1 => nm l ++ ":" ++ sp ++ print_stmt s1
  | Sgoto l => "goto " ++ nm l ++ ";"
  end
with print_cases (ls : lstmts) : string :=
  match ls with
  | LSnil => ""
  | LScons l s rem =>
      match s with
      | Sskip => print_case_label l ++ ":" ++ sp ++ print_cases rem
      | _ => print_case_label l ++ ":" ++ sp ++ print_stmt s ++ sp ++ print_cases rem
      end
  end.

(** printCsyntax.ml:411-429 [name_function_parameters]: parameters with their names *)
Definition name_params (name : positive -> string) (fun_name : string)
    (params : list (positive * type)) (vararg : bool) : string :=
  fun_name ++ "(" ++
  match params with
  | [] => if vararg then "..." else "void"
  | _ => sep (List.map (fun '(id, ty) => name_cdecl (name id) ty) params) ", "
         ++ (if vararg then ",..." else "")
  end ++ ")".

(** printClight.ml:254-273, Clight2: parameters are temporaries *)
Definition print_function (id : positive) (params : list (positive * type))
    (vararg : bool) (ret : type)
    (vars temps : list (positive * type)) (body : stmt) : string :=
  name_cdecl (name_params tn (nm id) params vararg) ret ++ sp ++ "{" ++ sp ++
  String.concat "" (List.map (fun '(id, ty) => name_cdecl (nm id) ty ++ ";" ++ sp) vars) ++
  String.concat "" (List.map (fun '(id, ty) => "register " ++ name_cdecl (tn id) ty ++ ";" ++ sp) temps) ++
  print_stmt body ++ cut ++ "}" ++ sp ++ sp.

End PRINT.

(** ** Name tables (camlrocq.ml:363-386, printClight.ml:34-38, 330-346) *)

(** camlrocq.ml:363-366: [string_of_atom] *)
Definition tbl := list (Z * string).

(** [Hashtbl.find]: the binding added last *)
Fixpoint find (t : tbl) (k : Z) : option string :=
  match t with
  | [] => None
  | (k', s) :: t => if (k' =? k)%Z then Some s else find t k
  end.

(** camlrocq.ml:379-384 *)
Definition extern_atom (t : tbl) (a : positive) : string :=
  match find t (P_to_int a) with Some s => s | None => "x" ++ sdec (P_to_int a) end.

(** printClight.ml:34-38 *)
Definition temp_name (t : tbl) (a : positive) : string :=
  match find t (P_to_int a) with Some s => "$" ++ s | None => "$" ++ sdec (P_to_int a) end.

(** printClight.ml:340-346 *)
Fixpoint remove_primes (s : string) : string :=
  match s with
  | EmptyString => EmptyString
  | String c s =>
      String (if (c =? "'")%char then "p"%char else if (c =? ".")%char then "d"%char else c)
        (remove_primes s)
  end.

(** printClight.ml:330-338 after [remove_primes] (line 364): one entry of the name
    environment, [None] for an anonymous name *)
Definition add_name (t : tbl) (an : positive * option string) : tbl :=
  match snd an with None => t | Some s => (P_to_int (fst an), remove_primes s) :: t end.

(** camlrocq.ml:392-394 *)
Definition ascii_of_char (c : ascii) : ascii := ascii_of_N (N_of_int (nat_of_ascii c)).
(** camlrocq.ml:388-390 *)
Definition char_of_ascii (a : ascii) : ascii := ascii_of_N (N_of_ascii a).
(** camlrocq.ml:405-409 *)
Fixpoint coqstring_of_camlstring (s : string) : string :=
  match s with
  | EmptyString => EmptyString
  | String c s => String (ascii_of_char c) (coqstring_of_camlstring s)
  end.
