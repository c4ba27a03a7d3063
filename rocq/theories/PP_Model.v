(** * Printing a whole C file

    [print_program] and [print_dest_names_imports] of plugin/static/printClight.ml
    with the initialisers, variables and composites of printCsyntax.ml.  Expressions,
    types, statements and functions are printed by PR_Model.v; as there, [sp] stands for
    a break hint that prints as white space and [cut] for one that may print as nothing. *)
From Coq Require Import ZArith NArith List String Ascii Bool.
From Coq.Floats Require Import SpecFloat.
From Verif Require Import PR_Model.
Import ListNotations.
Local Open Scope string_scope.

(** ** Programs (the parts of Clight.program that are printed) *)

(** printCsyntax.ml:482-495; CompCert's AST.init_data *)
Inductive init_data : Set :=
| Init_int8 (n : Z) | Init_int16 (n : Z) | Init_int32 (n : Z) | Init_int64 (n : Z)
| Init_float32 (f : spec_float) | Init_float64 (f : spec_float)
| Init_space (n : Z)
| Init_addrof (symb : positive) (ofs : Z).

(** printCsyntax.ml:508-510; [gvar_volatile] is not printed *)
Record globvar : Set := {
  gvar_info : type;
  gvar_init : list init_data;
  gvar_readonly : bool }.

(** printClight.ml:254-273; of [fn_callconv] the printer uses what Tfunction has *)
Record function : Set := {
  fn_return : type;
  fn_vararg : bool; fn_unproto : bool;
  fn_params : list (positive * type);
  fn_vars : list (positive * type);
  fn_temps : list (positive * type);
  fn_body : stmt }.

(** printClight.ml:277-294; [named] is true for EF_external, EF_runtime, EF_malloc
    and EF_free *)
Inductive fundef : Set :=
| Internal (f : function)
| External (named : bool) (args : list type) (res : type) (vararg unproto : bool).

(** printClight.ml:296-304 *)
Inductive globdef : Set := Gfun (f : fundef) | Gvar (v : globvar).

(** printCsyntax.ml:546 *)
Inductive struct_or_union : Set := Struct | Union.

(** printCsyntax.ml:548-559; only [Member_plain] (bit fields fail the assertion at 557) *)
Record composite : Set := {
  co_id : positive;
  co_su : struct_or_union;
  co_members : list (positive * type);
  co_attr : attr }.

(** printClight.ml:306-312 *)
Record program : Set := {
  prog_types : list composite;
  prog_defs : list (positive * globdef) }.

(** Clight.type_of_function (printClight.ml:294) *)
Definition type_of_function (f : function) : type :=
  Tfunction (List.map snd (fn_params f)) (fn_return f) (fn_vararg f) (fn_unproto f).

(** ** Floats: [%.15F] (printCsyntax.ml:487-488) *)

(** the [k] significant digits and the decimal exponent; like [digits18] of PR_Model.v *)
Definition digits_of (k : Z) (m : positive) (e : Z) : Z * Z :=
  (let '(n, d) := frac2 m e in
   let X := exp10 n d in
   let s := k - 1 - X in
   let D := if 0 <=? s then round_div (n * 10 ^ s) d else round_div n (d * 10 ^ (- s)) in
   if D =? 10 ^ k then (10 ^ (k - 1), X + 1) else (D, X))%Z.

(** the layout of [%.{k}g] *)
Definition layout (k : Z) (ds : string) (X : Z) : string :=
  if (X <? -4)%Z || (k <=? X)%Z then
    take 1 ds ++ point (strip0 (drop 1 ds)) ++ "e" ++ expo X
  else if (0 <=? X)%Z then
    take (Z.to_nat (X + 1)) ds ++ point (strip0 (drop (Z.to_nat (X + 1)) ds))
  else "0." ++ zeros (Z.to_nat (- X - 1)) ++ strip0 ds.

(** OCaml's [%F] adds a point when the text has neither a point nor an exponent
    (printCsyntax.ml:487) *)
Fixpoint has_point (s : string) : bool :=
  match s with
  | EmptyString => false
  | String c s => (c =? ".")%char || (c =? "e")%char || has_point s
  end.

(** printCsyntax.ml:487-488 *)
Definition print_float15 (f : spec_float) : string :=
  match f with
  | S754_zero s => sign_str s ++ "0."
  | S754_infinity s => if s then "neg_infinity" else "infinity"
  | S754_nan => "nan"
  | S754_finite s m e =>
      let '(D, X) := digits_of 15 m e in
      let t := layout 15 (dec (Z.to_N D)) X in
      sign_str s ++ (if has_point t then t else t ++ ".")
  end.

Section PRINT.

Variable sp cut : string.
Variable nm tn : positive -> string.

(** ** Initialisers *)

(** printCsyntax.ml:482-495 *)
Definition print_init (i : init_data) : string :=
  match i with
  | Init_int8 n | Init_int16 n | Init_int32 n => sdec (camlint_of_coqint n)
  | Init_int64 n => sdec (camlint64_of_coqint n) ++ "LL"
  | Init_float32 f | Init_float64 f => print_float15 f
  | Init_space n => "/* skip " ++ sdec (Z_to_int n) ++ " */" ++ sp
  | Init_addrof symb ofs =>
      let ofs := camlint_of_coqint ofs in
      if (ofs =? 0)%Z then "&" ++ nm symb
      else "(void *)((char *)&" ++ nm symb ++ " + " ++ sdec ofs ++ ")"
  end.

(** printCsyntax.ml:497-504 *)
Definition print_composite_init (il : list init_data) : string :=
  "{" ++ sp ++
  String.concat "" (List.map (fun i =>
    print_init i ++ match i with Init_space _ => "" | _ => "," ++ sp end) il) ++
  "}".

(** octal digits, at least [k] of them: [%03o] (printCsyntax.ml:470) *)
Fixpoint octal (fuel : nat) (k : nat) (n : Z) : string :=
  match fuel with
  | O => ""
  | S fuel =>
      if (n =? 0)%Z && Nat.eqb k 0 then ""
      else octal fuel (Nat.pred k) (n / 8) ++ String (ascii_of_nat (48 + Z.to_nat (n mod 8))) ""
  end.

(** printCsyntax.ml:464-471: one character of a string literal; a negative code is
    printed by [%03o] as an unsigned 63-bit number *)
Definition string_char (n : Z) : string :=
  let c := camlint_of_coqint n in
  if (32 <=? c)%Z && (c <=? 126)%Z && negb (c =? 34)%Z && negb (c =? 92)%Z
  then String (ascii_of_nat (Z.to_nat c)) ""
  else String (ascii_of_nat 92) (octal 22 3 (c mod 2 ^ 63)).

(** printCsyntax.ml:462-474; [None] is the failing assertion at 473 *)
Fixpoint string_of_init (il : list init_data) : option string :=
  match il with
  | [] => Some ""
  | Init_int8 n :: il => option_map (String.append (string_char n)) (string_of_init il)
  | _ => None
  end.

(** printCsyntax.ml:476-479 *)
Definition chop_last_nul (il : list init_data) : list init_data :=
  match List.rev il with
  | Init_int8 0%Z :: tl => List.rev tl
  | _ => il
  end.

(** printCsyntax.ml:506 and 526: [Str.string_match] of __stringlit_[0-9]+ at position 0 *)
Definition string_name (s : string) : bool :=
  String.prefix "__stringlit_" s &&
  match drop 12 s with
  | String c _ => Nat.leb 48 (nat_of_ascii c) && Nat.leb (nat_of_ascii c) 57
  | _ => false
  end.

(** printCsyntax.ml:527 *)
Definition all_int8 (il : list init_data) : bool :=
  forallb (fun i => match i with Init_int8 _ => true | _ => false end) il.

(** printCsyntax.ml:522-523 *)
Definition is_scalar (ty : type) : bool :=
  match ty with
  | Tint _ _ _ | Tlong _ _ | Tfloat _ _ | Tpointer _ _ | Tfunction _ _ _ _ => true
  | _ => false
  end.

(** printCsyntax.ml:521-531 *)
Definition print_value (id : positive) (v : globvar) : string :=
  match is_scalar (gvar_info v), gvar_init v with
  | true, [i1] => print_init i1
  | _, il =>
      if string_name (nm id) && all_int8 il
      then match string_of_init (chop_last_nul il) with
           | Some s => String (ascii_of_nat 34) (s ++ String (ascii_of_nat 34) "")
           | None => ""
           end
      else print_composite_init il
  end.

(** printCsyntax.ml:508-532 *)
Definition print_globvar (id : positive) (v : globvar) : string :=
  let name2 := if gvar_readonly v then "const " ++ nm id else nm id in
  match gvar_init v with
  | [] => "extern " ++ name_cdecl nm name2 (gvar_info v) ++ ";" ++ sp ++ sp
  | [Init_space _] => name_cdecl nm name2 (gvar_info v) ++ ";" ++ sp ++ sp
  | _ => name_cdecl nm name2 (gvar_info v) ++ " = " ++ print_value id v ++ ";" ++ sp ++ sp
  end.

(** ** Functions *)

(** printClight.ml:277-282 *)
Definition print_fundef (id : positive) (fd : fundef) : string :=
  match fd with
  | External _ _ _ _ _ => ""
  | Internal f =>
      print_function sp cut nm tn id (fn_params f) (fn_vararg f) (fn_return f)
        (fn_vars f) (fn_temps f) (fn_body f)
  end.

(** printClight.ml:284-294 *)
Definition print_fundecl (id : positive) (fd : fundef) : string :=
  match fd with
  | External true args res va un =>
      "extern " ++ name_cdecl nm (nm id) (Tfunction args res va un) ++ ";" ++ sp
  | External false _ _ _ _ => ""
  | Internal f => name_cdecl nm (nm id) (type_of_function f) ++ ";" ++ sp
  end.

(** printClight.ml:296-299 *)
Definition print_globdef (d : positive * globdef) : string :=
  match snd d with Gfun f => print_fundef (fst d) f | Gvar v => print_globvar (fst d) v end.

(** printClight.ml:301-304: variables are not declared beforehand *)
Definition print_globdecl (d : positive * globdef) : string :=
  match snd d with Gfun f => print_fundecl (fst d) f | Gvar _ => "" end.

(** ** Composites *)

(** printCsyntax.ml:546 *)
Definition name_su (su : struct_or_union) : string :=
  match su with Struct => "struct" | Union => "union" end.

(** printCsyntax.ml:548-549 *)
Definition declare_composite (c : composite) : string :=
  name_su (co_su c) ++ " " ++ nm (co_id c) ++ ";" ++ sp.

(** printCsyntax.ml:551-559 *)
Definition define_composite (c : composite) : string :=
  name_su (co_su c) ++ " " ++ nm (co_id c) ++ attributes (co_attr c) ++ " {" ++
  String.concat "" (List.map (fun '(fid, fty) => sp ++ name_cdecl nm (nm fid) fty ++ ";") (co_members c)) ++
  cut ++ "};" ++ sp ++ sp.

(** printClight.ml:306-312, without the final line end *)
Definition print_program (p : program) : string :=
  String.concat "" (List.map declare_composite (prog_types p)) ++
  String.concat "" (List.map define_composite (prog_types p)) ++
  String.concat "" (List.map print_globdecl (prog_defs p)) ++
  String.concat "" (List.map print_globdef (prog_defs p)).

End PRINT.

(** ** Files *)

(** a line end: [pp_print_newline] and [@.] (printClight.ml:312, 369) *)
Definition nl : string := String (ascii_of_nat 10) "".

(** printClight.ml:367: the part after the last slash *)
Fixpoint last_part (s : string) (acc : string) : string :=
  match s with
  | EmptyString => acc
  | String c s => if (c =? "/")%char then last_part s "" else last_part s (acc ++ String c "")
  end.

(** printClight.ml:359-360: letters to upper case, digits kept, anything else to an
    underscore *)
Definition guard_char (c : ascii) : ascii :=
  let n := nat_of_ascii c in
  if Nat.leb 97 n && Nat.leb n 122 then ascii_of_nat (n - 32)
  else if (Nat.leb 65 n && Nat.leb n 90) || (Nat.leb 48 n && Nat.leb n 57) then c
  else "_"%char.

(** printClight.ml:359-360 *)
Fixpoint guardify (s : string) : string :=
  match s with
  | EmptyString => EmptyString
  | String c s => String (guard_char c) (guardify s)
  end.

(** certirocq.ml:412-419: the lines passed as [imports]; library paths and objects to
    link add nothing *)
Inductive import : Set := FromRelativePath (s : string) | FromLibrary (s : string).

(** certirocq.ml:414-415 *)
Definition import_line (i : import) : string :=
  match i with
  | FromRelativePath s => "#include " ++ String (ascii_of_nat 34) (s ++ String (ascii_of_nat 34) "")
  | FromLibrary s => "#include <" ++ s ++ ">"
  end.

(** printClight.ml:362-378 around the text [body] of the program *)
Definition print_file (dest : string) (imports : list import) (body : string) : string :=
  let guard_name := guardify (last_part dest "") in
  "#ifndef " ++ guard_name ++ nl ++
  "#define " ++ guard_name ++ nl ++
  String.concat "" (List.map (fun i => import_line i ++ nl) imports) ++
  body ++ nl ++
  "#endif /* " ++ guard_name ++ " */" ++ nl.
