(** * How a C compiler reads the printed text

    A lexer with the longest-match rule (C11 6.4), a recursive-descent parser for
    the declarators (6.7.6, 6.7.7), expressions (6.5.1-6.5.12) and statements (6.8)
    that occur in generated files, and the syntax tree each Clight construct is
    meant to be.  Nothing here mentions the printer. *)
From Coq Require Import ZArith NArith List String Ascii Bool.
From Coq Require Import DecimalString.
From Coq.Floats Require Import SpecFloat.
From Coq Require Import QArith.
From Verif Require Import PR_Model.
Import ListNotations.
Local Open Scope string_scope.
Local Close Scope Q_scope.

(** ** Characters *)

Definition between (lo hi : ascii) (c : ascii) : bool :=
  Nat.leb (nat_of_ascii lo) (nat_of_ascii c) && Nat.leb (nat_of_ascii c) (nat_of_ascii hi).

Definition is_digit (c : ascii) : bool := between "0" "9" c.
(** letters, underscore, and the dollar sign (accepted by gcc, clang and ccomp) *)
Definition id_start (c : ascii) : bool :=
  between "a" "z" c || between "A" "Z" c || (c =? "_")%char || (c =? "$")%char.
Definition id_char (c : ascii) : bool := id_start c || is_digit c.
(** space, tab, newline, return *)
Definition is_space (c : ascii) : bool :=
  (c =? " ")%char || (c =? "009")%char || (c =? "010")%char || (c =? "013")%char.

Definition mem (s : string) (l : list string) : bool := existsb (String.eqb s) l.

(** the punctuators of C11 6.4.6 (without digraphs); ".." is a prefix of "..." *)
Definition puncts : list string :=
  ["["; "]"; "("; ")"; "{"; "}"; "."; "->"; "++"; "--"; "&"; "*"; "+"; "-"; "~"; "!";
   "/"; "%"; "<<"; ">>"; "<"; ">"; "<="; ">="; "=="; "!="; "^"; "|"; "&&"; "||"; "?"; ":";
   ";"; "..."; ".."; "="; "*="; "/="; "%="; "+="; "-="; "<<="; ">>="; "&="; "^="; "|="; ","].

(** ** Lexer *)

Inductive token : Set :=
| TId (s : string)     (* identifier or keyword *)
| TNum (s : string)    (* preprocessing number *)
| TOp (s : string)     (* punctuator *)
| TBad (c : ascii).

Inductive lstate : Set :=
| LStart
| LId (s : string) | LNum (s : string) | LOp (s : string)
| LComment | LCommentStar | LLine.

Definition snoc (s : string) (c : ascii) : string := s ++ String c "".

Fixpoint last_char (s : string) : ascii :=
  match s with EmptyString => " "%char | String c EmptyString => c | String _ s => last_char s end.

Definition is_exp_letter (c : ascii) : bool :=
  (c =? "e")%char || (c =? "E")%char || (c =? "p")%char || (c =? "P")%char.

Definition start (c : ascii) : list token * lstate :=
  if id_start c then ([], LId (String c ""))
  else if is_digit c then ([], LNum (String c ""))
  else if is_space c then ([], LStart)
  else if mem (String c "") puncts then ([], LOp (String c ""))
  else ([TBad c], LStart).

Definition emit (t : token) (r : list token * lstate) : list token * lstate :=
  (t :: fst r, snd r).

Definition step (st : lstate) (c : ascii) : list token * lstate :=
  match st with
  | LStart => start c
  | LId s => if id_char c then ([], LId (snoc s c)) else emit (TId s) (start c)
  | LNum s =>
      if id_char c || (c =? ".")%char
         || (is_exp_letter (last_char s) && ((c =? "+")%char || (c =? "-")%char))
      then ([], LNum (snoc s c))
      else emit (TNum s) (start c)
  | LOp s =>
      if mem (snoc s c) puncts then ([], LOp (snoc s c))
      else if String.eqb s "." && is_digit c then ([], LNum (snoc s c))
      else if String.eqb s "/" && (c =? "*")%char then ([], LComment)
      else if String.eqb s "/" && (c =? "/")%char then ([], LLine)
      else emit (TOp s) (start c)
  | LComment => if (c =? "*")%char then ([], LCommentStar) else ([], LComment)
  | LCommentStar =>
      if (c =? "/")%char then ([], LStart)
      else if (c =? "*")%char then ([], LCommentStar) else ([], LComment)
  | LLine => if (c =? "010")%char then ([], LStart) else ([], LLine)
  end.

Fixpoint scan (st : lstate) (s : string) : list token * lstate :=
  match s with
  | EmptyString => ([], st)
  | String c s =>
      let '(o1, st1) := step st c in
      let '(o2, st2) := scan st1 s in
      ((o1 ++ o2)%list, st2)
  end.

Definition flush (st : lstate) : list token :=
  match st with LId s => [TId s] | LNum s => [TNum s] | LOp s => [TOp s] | _ => [] end.

Definition lex (s : string) : list token :=
  let '(o, st) := scan LStart s in (o ++ flush st)%list.

(** ** C syntax trees *)

(** type specifiers *)
Inductive base : Set :=
| BVoid | BInt (sz : intsize) (sg : signedness) | BLong (sg : signedness)
| BFloat (sz : floatsize) | BStruct (s : string) | BUnion (s : string)
| BChar
| BValue.   (* the typedef [value] of runtime/values.h *)

(** alignment in bytes, volatile *)
Record cattr : Set := { ca_align : option Z; ca_vol : bool }.

Inductive cty : Set :=
| CBase (b : base) (a : cattr)
| CPtr (t : cty) (a : cattr)
| CArr (t : cty) (n : Z)
| CFun (args : option (list cty * bool)) (res : cty).  (* [None]: no prototype *)

Inductive cexp : Set :=
| CVar (s : string)
| CLit (n : N) (suffix : string)     (* integer constant *)
| CFloat (s : string)                (* floating constant *)
| CNot (a : cexp) | CCompl (a : cexp) | CNeg (a : cexp)
| CDeref (a : cexp) | CAddr (a : cexp)
| CDot (a : cexp) (f : string)
| CBin (o : binop) (a b : cexp)
| CCast (t : cty) (a : cexp)
| CSizeof (t : cty) | CAlignof (t : cty)
| CCall (f : cexp) (args : list cexp).

Inductive cstmt : Set :=
| CEmpty
| CAssign (a b : cexp)
| CExpr (a : cexp)
| CIf (e : cexp) (s1 s2 : list cstmt)
| CWhile (e : cexp) (s : list cstmt)
| CBreak | CContinue
| CSwitch (e : cexp) (s : list cstmt)
| CCase (z : Z) | CDefault          (* labels, as items of a block *)
| CReturn (e : option cexp)
| CLabel (l : string)
| CGoto (l : string).

(** ** Keywords *)

Definition type_words : list string :=
  ["void"; "signed"; "unsigned"; "char"; "short"; "int"; "long"; "float"; "double"; "_Bool";
   "struct"; "union"; "value"].
Definition other_words : list string :=
  ["sizeof"; "__alignof__"; "volatile"; "__attribute"; "if"; "else"; "while"; "for"; "switch"; "case";
   "default"; "break"; "continue"; "return"; "goto"; "register"; "extern"; "const"; "static";
   "typedef"; "do"; "enum"; "auto"; "inline"; "restrict"].

Definition keyword (s : string) : bool := mem s type_words || mem s other_words.

(** an identifier that is not a keyword *)
Fixpoint all_chars (f : ascii -> bool) (s : string) : bool :=
  match s with EmptyString => true | String c s => f c && all_chars f s end.

Definition ident (s : string) : bool :=
  match s with
  | EmptyString => false
  | String c _ => id_start c && all_chars id_char s && negb (keyword s)
  end.

(** ** Constants *)

Fixpoint split_digits (s : string) : string * string :=
  match s with
  | EmptyString => ("", "")
  | String c s' =>
      if is_digit c then let '(a, b) := split_digits s' in (String c a, b) else ("", s)
  end.

Definition read_nat (s : string) : option N :=
  match NilEmpty.uint_of_string s with Some u => Some (N.of_uint u) | None => None end.

(** the reading of a preprocessing number (decimal) *)
Definition literal (s : string) : option cexp :=
  match split_digits s with
  | (EmptyString, _) => None
  | (ds, suf) =>
      if mem suf [""; "U"; "LL"; "LLU"] then
        match read_nat ds with Some n => Some (CLit n suf) | None => None end
      else Some (CFloat s)
  end.

Definition read_int (s : string) : option Z :=
  match split_digits s with
  | (EmptyString, _) => None
  | (ds, EmptyString) => match read_nat ds with Some n => Some (Z.of_N n) | None => None end
  | _ => None
  end.

(** ** Declarators *)

Definition teq (a b : token) : bool :=
  match a, b with
  | TId s, TId s' | TNum s, TNum s' | TOp s, TOp s' => String.eqb s s'
  | _, _ => false
  end.

(** the tokens after [t], if [ts] starts with [t] *)
Definition eat (t : token) (ts : list token) : option (list token) :=
  match ts with t' :: r => if teq t t' then Some r else None | [] => None end.

Fixpoint eats (l : list token) (ts : list token) : option (list token) :=
  match l with
  | [] => Some ts
  | t :: l => match eat t ts with Some r => eats l r | None => None end
  end.

Definition noat : cattr := {| ca_align := None; ca_vol := false |}.

Definition pvol (al : option Z) (ts : list token) : cattr * list token :=
  match eat (TId "volatile") ts with
  | Some r => ({| ca_align := al; ca_vol := true |}, r)
  | None => ({| ca_align := al; ca_vol := false |}, ts)
  end.

Definition pattrs (ts : list token) : cattr * list token :=
  match eats [TId "__attribute"; TOp "("; TOp "("; TId "aligned"; TOp "("] ts with
  | Some (TNum n :: r) =>
      match eats [TOp ")"; TOp ")"; TOp ")"] r, read_int n with
      | Some r, Some z => pvol (Some z) r
      | _, _ => (noat, ts)
      end
  | _ => pvol None ts
  end.

Definition base_words : list (list string * base) :=
  [(["void"], BVoid); (["signed"; "char"], BInt I8 Signed); (["unsigned"; "char"], BInt I8 Unsigned);
   (["short"], BInt I16 Signed); (["unsigned"; "short"], BInt I16 Unsigned);
   (["int"], BInt I32 Signed); (["unsigned"; "int"], BInt I32 Unsigned);
   (["long"; "long"], BLong Signed); (["unsigned"; "long"; "long"], BLong Unsigned);
   (["_Bool"], BInt IBool Signed); (["char"], BChar); (["float"], BFloat F32); (["double"], BFloat F64);
   (["value"], BValue)].

Fixpoint first_base (l : list (list string * base)) (ts : list token) : option (base * list token) :=
  match l with
  | [] => None
  | (ws, b) :: l =>
      match eats (List.map TId ws) ts with Some r => Some (b, r) | None => first_base l ts end
  end.

Definition pbase (ts : list token) : option (base * list token) :=
  match eat (TId "struct") ts with
  | Some (TId s :: r) => Some (BStruct s, r)
  | Some _ => None
  | None =>
      match eat (TId "union") ts with
      | Some (TId s :: r) => Some (BUnion s, r)
      | Some _ => None
      | None => first_base base_words ts
      end
  end.

Inductive dmod : Set :=
| MPtr (a : cattr) | MArr (n : Z) | MFun (args : option (list cty * bool)).

Definition apply_mod (m : dmod) (t : cty) : cty :=
  match m with MPtr a => CPtr t a | MArr n => CArr t n | MFun args => CFun args t end.

(** the first modifier is the outermost type constructor *)
Definition build (b : cty) (ms : list dmod) : cty := fold_right apply_mod b ms.

Definition starts (t : token) (ts : list token) : bool :=
  match eat t ts with Some _ => true | None => false end.

(** [pdecl]: pointers, then a name, a parenthesised declarator or nothing, then
    suffixes; [pparams] starts after the opening parenthesis *)
Fixpoint pdecl (F : nat) (ts : list token) : option (option string * list dmod * list token) :=
  match F with
  | O => None
  | S F =>
      match eat (TOp "*") ts with
      | Some ts1 =>
          let '(a, ts2) := pattrs ts1 in
          match pdecl F ts2 with
          | Some (n, ms, ts3) => Some (n, (ms ++ [MPtr a])%list, ts3)
          | None => None
          end
      | None =>
          match eat (TOp "(") ts with
          | Some ts1 =>
              if starts (TOp "*") ts1 || starts (TOp "(") ts1 then
                match pdecl F ts1 with
                | Some (n, ms, ts2) =>
                    match eat (TOp ")") ts2 with Some ts3 => psuf F n ms ts3 | None => None end
                | None => None
                end
              else psuf F None [] ts
          | None =>
              match ts with
              | TId s :: ts1 => if keyword s then None else psuf F (Some s) [] ts1
              | _ => psuf F None [] ts
              end
          end
      end
  end
with psuf (F : nat) (n : option string) (ms : list dmod) (ts : list token)
    : option (option string * list dmod * list token) :=
  match F with
  | O => None
  | S F =>
      match eat (TOp "[") ts with
      | Some (TNum k :: ts1) =>
          match eat (TOp "]") ts1, read_int k with
          | Some ts2, Some z => psuf F n (ms ++ [MArr z])%list ts2
          | _, _ => None
          end
      | Some _ => None
      | None =>
          match eat (TOp "(") ts with
          | Some ts1 =>
              match eat (TOp ")") ts1 with
              | Some ts2 => psuf F n (ms ++ [MFun None])%list ts2
              | None =>
                  match eats [TId "void"; TOp ")"] ts1 with
                  | Some ts2 => psuf F n (ms ++ [MFun (Some ([], false))])%list ts2
                  | None =>
                      match pparams F ts1 with
                      | Some (args, ts2) => psuf F n (ms ++ [MFun (Some args)])%list ts2
                      | None => None
                      end
                  end
              end
          | None => Some (n, ms, ts)
          end
      end
  end
with pparams (F : nat) (ts : list token) : option ((list cty * bool) * list token) :=
  match F with
  | O => None
  | S F =>
      match eats [TOp "..."; TOp ")"] ts with
      | Some ts1 => Some (([], true), ts1)
      | None =>
          match ptype F ts with
          | Some (_, t, ts1) =>
              match eat (TOp ",") ts1 with
              | Some ts2 =>
                  match pparams F ts2 with
                  | Some ((args, va), ts3) => Some ((t :: args, va), ts3)
                  | None => None
                  end
              | None =>
                  match eat (TOp ")") ts1 with
                  | Some ts2 => Some (([t], false), ts2)
                  | None => None
                  end
              end
          | None => None
          end
      end
  end
with ptype (F : nat) (ts : list token) : option (option string * cty * list token) :=
  match F with
  | O => None
  | S F =>
      match pbase ts with
      | Some (b, ts1) =>
          let '(a, ts2) := pattrs ts1 in
          match pdecl F ts2 with
          | Some (n, ms, ts3) => Some (n, build (CBase b a) ms, ts3)
          | None => None
          end
      | None => None
      end
  end.

(** ** Expressions *)

Definition binop_table : list (string * (binop * nat)) :=
  [("*", (Omul, 13)); ("/", (Odiv, 13)); ("%", (Omod, 13)); ("+", (Oadd, 12)); ("-", (Osub, 12));
   ("<<", (Oshl, 11)); (">>", (Oshr, 11)); ("<", (Olt, 10)); (">", (Ogt, 10)); ("<=", (Ole, 10));
   (">=", (Oge, 10)); ("==", (Oeq, 9)); ("!=", (One, 9)); ("&", (Oand, 8)); ("^", (Oxor, 7));
   ("|", (Oor, 6))]%nat.

(** the binary operator a token is, and its binding strength *)
Definition binop_of (t : token) : option (binop * nat) :=
  match t with
  | TOp s => option_map snd (List.find (fun x => String.eqb (fst x) s) binop_table)
  | _ => None
  end.

Definition starts_type (ts : list token) : bool :=
  match ts with TId s :: _ => mem s type_words | _ => false end.

(** a type name in parentheses, after the opening one *)
Definition ptname (F : nat) (ts : list token) : option (cty * list token) :=
  match ptype F ts with
  | Some (None, t, ts1) =>
      match eat (TOp ")") ts1 with Some ts2 => Some (t, ts2) | None => None end
  | _ => None
  end.

(** prefix operators *)
Definition prefix_table : list (string * (cexp -> cexp)) :=
  [("*", CDeref); ("&", CAddr); ("-", CNeg); ("~", CCompl); ("!", CNot)].

Definition prefix_of (ts : list token) : option ((cexp -> cexp) * list token) :=
  match ts with
  | TOp s :: r =>
      match List.find (fun x => String.eqb (fst x) s) prefix_table with
      | Some (_, f) => Some (f, r)
      | None => None
      end
  | _ => None
  end.

Definition of_type (ts : list token) : option ((cty -> cexp) * list token) :=
  match eats [TId "sizeof"; TOp "("] ts with
  | Some r => Some (CSizeof, r)
  | None =>
      match eats [TId "__alignof__"; TOp "("] ts with
      | Some r => Some (CAlignof, r)
      | None => None
      end
  end.

(** after an opening parenthesis: a type name follows *)
Definition cast_start (ts : list token) : option (list token) :=
  match eat (TOp "(") ts with
  | Some r => if starts_type r then Some r else None
  | None => None
  end.

(** [pexp F k]: the grammar's nonterminal of binding strength [k]: 6 inclusive-or ...
    13 multiplicative, 14 cast *)
Fixpoint pexp (F : nat) (k : nat) (ts : list token) : option (cexp * list token) :=
  match F with
  | O => None
  | S F =>
      if Nat.leb 14 k then pcast F ts
      else match pexp F (S k) ts with
           | Some (a, ts1) => ploop F k a ts1
           | None => None
           end
  end
with ploop (F : nat) (k : nat) (a : cexp) (ts : list token) : option (cexp * list token) :=
  match F with
  | O => None
  | S F =>
      match ts with
      | t :: ts1 =>
          match binop_of t with
          | Some (op, k') =>
              if Nat.eqb k' k then
                match pexp F (S k) ts1 with
                | Some (b, ts2) => ploop F k (CBin op a b) ts2
                | None => None
                end
              else Some (a, ts)
          | None => Some (a, ts)
          end
      | [] => Some (a, ts)
      end
  end
with pcast (F : nat) (ts : list token) : option (cexp * list token) :=
  match F with
  | O => None
  | S F =>
      match cast_start ts with
      | Some ts1 =>
          match ptname F ts1 with
          | Some (t, ts2) =>
              match pcast F ts2 with Some (a, ts3) => Some (CCast t a, ts3) | None => None end
          | None => None
          end
      | None =>
          match prefix_of ts with
          | Some (f, ts1) =>
              match pcast F ts1 with Some (a, r) => Some (f a, r) | None => None end
          | None =>
              match of_type ts with
              | Some (f, ts1) =>
                  match ptname F ts1 with Some (t, r) => Some (f t, r) | None => None end
              | None => ppost F ts
              end
          end
      end
  end
with ppost (F : nat) (ts : list token) : option (cexp * list token) :=
  match F with
  | O => None
  | S F =>
      match ts with
      | TId s :: ts1 => if keyword s then None else ppsuf F (CVar s) ts1
      | TNum s :: ts1 => match literal s with Some a => ppsuf F a ts1 | None => None end
      | _ =>
          match eat (TOp "(") ts with
          | Some ts1 =>
              match pexp F 6 ts1 with
              | Some (a, ts2) =>
                  match eat (TOp ")") ts2 with Some ts3 => ppsuf F a ts3 | None => None end
              | None => None
              end
          | None => None
          end
      end
  end
with ppsuf (F : nat) (a : cexp) (ts : list token) : option (cexp * list token) :=
  match F with
  | O => None
  | S F =>
      match eat (TOp ".") ts with
      | Some (TId f :: ts1) => ppsuf F (CDot a f) ts1
      | Some _ => None
      | None =>
          match eat (TOp "(") ts with
          | Some ts1 =>
              match pargs F ts1 with
              | Some (l, ts2) => ppsuf F (CCall a l) ts2
              | None => None
              end
          | None => Some (a, ts)
          end
      end
  end
with pargs (F : nat) (ts : list token) : option (list cexp * list token) :=
  match F with
  | O => None
  | S F =>
      match eat (TOp ")") ts with
      | Some ts1 => Some ([], ts1)
      | None => pmore F ts
      end
  end
with pmore (F : nat) (ts : list token) : option (list cexp * list token) :=
  match F with
  | O => None
  | S F =>
      match pexp F 6 ts with
      | Some (a, ts1) =>
          match eat (TOp ",") ts1 with
          | Some ts2 =>
              match pmore F ts2 with Some (l, ts3) => Some (a :: l, ts3) | None => None end
          | None =>
              match eat (TOp ")") ts1 with Some ts2 => Some ([a], ts2) | None => None end
          end
      | None => None
      end
  end.

(** ** Statements *)

(** statements that consist of fixed tokens *)
Definition fixed : list (list token * cstmt) :=
  [([TOp ";"], CEmpty); ([TId "break"; TOp ";"], CBreak); ([TId "continue"; TOp ";"], CContinue);
   ([TId "default"; TOp ":"], CDefault); ([TId "return"; TOp ";"], CReturn None)].

Fixpoint pfixed (l : list (list token * cstmt)) (ts : list token) : option (cstmt * list token) :=
  match l with
  | [] => None
  | (ws, s) :: l => match eats ws ts with Some r => Some (s, r) | None => pfixed l ts end
  end.

(** after [case] *)
Definition pcase (ts : list token) : option (cstmt * list token) :=
  match eat (TOp "-") ts with
  | Some (TNum n :: ts1) =>
      match read_int n, eat (TOp ":") ts1 with
      | Some z, Some ts2 => Some (CCase (- z), ts2)
      | _, _ => None
      end
  | Some _ => None
  | None =>
      match ts with
      | TNum n :: ts1 =>
          match read_int n, eat (TOp ":") ts1 with
          | Some z, Some ts2 => Some (CCase z, ts2)
          | _, _ => None
          end
      | _ => None
      end
  end.

(** a label *)
Definition plabel (ts : list token) : option (cstmt * list token) :=
  match ts with
  | TId l :: ts1 =>
      match eat (TOp ":") ts1 with
      | Some ts2 => if keyword l then None else Some (CLabel l, ts2)
      | None => None
      end
  | _ => None
  end.

(** a parenthesised condition and an opening brace *)
Definition phead (F : nat) (ts : list token) : option (cexp * list token) :=
  match eat (TOp "(") ts with
  | Some ts1 =>
      match pexp F 6 ts1 with
      | Some (e, ts2) =>
          match eats [TOp ")"; TOp "{"] ts2 with Some ts3 => Some (e, ts3) | None => None end
      | None => None
      end
  | None => None
  end.

(** an expression statement or an assignment *)
Definition psimple (F : nat) (ts : list token) : option (cstmt * list token) :=
  match pexp F 6 ts with
  | Some (a, ts1) =>
      match eat (TOp ";") ts1 with
      | Some ts2 => Some (CExpr a, ts2)
      | None =>
          match eat (TOp "=") ts1 with
          | Some ts2 =>
              match pexp F 6 ts2 with
              | Some (b, ts3) =>
                  match eat (TOp ";") ts3 with Some ts4 => Some (CAssign a b, ts4) | None => None end
              | None => None
              end
          | None => None
          end
      end
  | None => None
  end.

(** after [return] *)
Definition preturn (F : nat) (ts : list token) : option (cstmt * list token) :=
  match pexp F 6 ts with
  | Some (e, ts1) =>
      match eat (TOp ";") ts1 with Some ts2 => Some (CReturn (Some e), ts2) | None => None end
  | None => None
  end.

(** after [goto] *)
Definition pgoto (ts : list token) : option (cstmt * list token) :=
  match ts with
  | TId l :: ts1 => match eat (TOp ";") ts1 with Some ts2 => Some (CGoto l, ts2) | None => None end
  | _ => None
  end.

(** [pblock] reads items up to and including the closing brace *)
Fixpoint pstmt (F : nat) (ts : list token) : option (cstmt * list token) :=
  match F with
  | O => None
  | S F =>
      match pfixed fixed ts with
      | Some r => Some r
      | None =>
      match eat (TId "if") ts with
      | Some ts1 =>
          match phead F ts1 with
          | Some (e, ts2) =>
              match pblock F ts2 with
              | Some (s1, ts3) =>
                  match eats [TId "else"; TOp "{"] ts3 with
                  | Some ts4 =>
                      match pblock F ts4 with
                      | Some (s2, ts5) => Some (CIf e s1 s2, ts5)
                      | None => None
                      end
                  | None => Some (CIf e s1 [], ts3)
                  end
              | None => None
              end
          | None => None
          end
      | None =>
      match eat (TId "while") ts with
      | Some ts1 =>
          match phead F ts1 with
          | Some (e, ts2) =>
              match pblock F ts2 with Some (s, ts3) => Some (CWhile e s, ts3) | None => None end
          | None => None
          end
      | None =>
      match eat (TId "switch") ts with
      | Some ts1 =>
          match phead F ts1 with
          | Some (e, ts2) =>
              match pblock F ts2 with Some (s, ts3) => Some (CSwitch e s, ts3) | None => None end
          | None => None
          end
      | None =>
      match eat (TId "case") ts with
      | Some ts1 => pcase ts1
      | None =>
      match eat (TId "return") ts with
      | Some ts1 => preturn F ts1
      | None =>
      match eat (TId "goto") ts with
      | Some ts1 => pgoto ts1
      | None =>
      match plabel ts with
      | Some r => Some r
      | None => psimple F ts
      end end end end end end end end
  end
with pblock (F : nat) (ts : list token) : option (list cstmt * list token) :=
  match F with
  | O => None
  | S F =>
      match eat (TOp "}") ts with
      | Some ts1 => Some ([], ts1)
      | None =>
          match pstmt F ts with
          | Some (s, ts1) =>
              match pblock F ts1 with Some (l, ts2) => Some (s :: l, ts2) | None => None end
          | None => None
          end
      end
  end.

(** ** Function definitions *)

(** pointer signs before a name *)
Fixpoint pstars (F : nat) (ts : list token) : option (list dmod * list token) :=
  match F with
  | O => None
  | S F =>
      match eat (TOp "*") ts with
      | Some ts1 =>
          let '(a, ts2) := pattrs ts1 in
          match pstars F ts2 with
          | Some (ms, ts3) => Some ((ms ++ [MPtr a])%list, ts3)
          | None => None
          end
      | None => Some ([], ts)
      end
  end.

(** parameters with names, after the opening parenthesis *)
Fixpoint pnamed (F : nat) (ts : list token) : option ((list (string * cty) * bool) * list token) :=
  match F with
  | O => None
  | S F =>
      match eats [TOp "..."; TOp ")"] ts with
      | Some ts1 => Some (([], true), ts1)
      | None =>
          match ptype F ts with
          | Some (Some x, t, ts1) =>
              match eat (TOp ",") ts1 with
              | Some ts2 =>
                  match pnamed F ts2 with
                  | Some ((args, va), ts3) => Some (((x, t) :: args, va), ts3)
                  | None => None
                  end
              | None =>
                  match eat (TOp ")") ts1 with
                  | Some ts2 => Some (([(x, t)], false), ts2)
                  | None => None
                  end
              end
          | _ => None
          end
      end
  end.

(** declarations of locals, with or without [register] *)
Fixpoint plocals (F : nat) (ts : list token) : option (list (bool * string * cty) * list token) :=
  match F with
  | O => None
  | S F =>
      let '(rg, ts1) := match eat (TId "register") ts with Some r => (true, r) | None => (false, ts) end in
      if starts_type ts1 then
        match ptype F ts1 with
        | Some (Some x, t, ts2) =>
            match eat (TOp ";") ts2 with
            | Some ts3 =>
                match plocals F ts3 with
                | Some (l, ts4) => Some ((rg, x, t) :: l, ts4)
                | None => None
                end
            | None => None
            end
        | _ => None
        end
      else if rg then None else Some ([], ts)
  end.

Record cfundef : Set := {
  cf_name : string;
  cf_ret : cty;
  cf_params : list (string * cty);
  cf_vararg : bool;
  cf_locals : list (bool * string * cty);
  cf_body : list cstmt }.

(** a function whose result is a base type or a pointer *)
Definition pfundef (F : nat) (ts : list token) : option (cfundef * list token) :=
  match pbase ts with
  | Some (b, ts1) =>
      let '(a, ts2) := pattrs ts1 in
      match pstars F ts2 with
      | Some (ms, TId f :: ts3) =>
          if keyword f then None
          else match eat (TOp "(") ts3 with
          | Some ts4 =>
              match match eats [TId "void"; TOp ")"] ts4 with
                    | Some ts5 => Some (([], false), ts5)
                    | None => pnamed F ts4
                    end with
              | Some ((ps, va), ts6) =>
                  match eat (TOp "{") ts6 with
                  | Some ts7 =>
                      match plocals F ts7 with
                      | Some (ls, ts8) =>
                          match pblock F ts8 with
                          | Some (body, ts9) =>
                              Some ({| cf_name := f; cf_ret := build (CBase b a) ms; cf_params := ps;
                                       cf_vararg := va; cf_locals := ls; cf_body := body |}, ts9)
                          | None => None
                          end
                      | None => None
                      end
                  | None => None
                  end
              | None => None
              end
          | None => None
          end
      | _ => None
      end
  | None => None
  end.

(** ** Reading a whole text *)

(** with enough fuel *)
Definition eventually (P : nat -> Prop) : Prop := exists n, forall F, (n <= F)%nat -> P F.

Definition reads_expr (s : string) (e : cexp) : Prop :=
  eventually (fun F => pexp F 6 (lex s) = Some (e, [])).
Definition reads_type (s : string) (n : option string) (t : cty) : Prop :=
  eventually (fun F => ptype F (lex s) = Some (n, t, [])).
(** a block, closing brace included *)
Definition reads_block (s : string) (l : list cstmt) : Prop :=
  eventually (fun F => pblock F (lex s) = Some (l, [])).
Definition reads_function (s : string) (f : cfundef) : Prop :=
  eventually (fun F => pfundef F (lex s) = Some (f, [])).

(** ** What the Clight constructs mean as C *)

Section MEANS.

Variable nm tn : positive -> string.

Definition meta (a : attr) : cattr :=
  {| ca_align := match attr_alignas a with Some l => Some (2 ^ Z.of_N l)%Z | None => None end;
     ca_vol := attr_volatile a |}.

(** [void *] with the alignment of a word is [value] *)
Fixpoint ctype (t : type) : cty :=
  match t with
  | Tvoid => CBase BVoid noat
  | Tint IBool _ a => CBase (BInt IBool Signed) (meta a)
  | Tint sz sg a => CBase (BInt sz sg) (meta a)
  | Tlong sg a => CBase (BLong sg) (meta a)
  | Tfloat sz a => CBase (BFloat sz) (meta a)
  | Tpointer Tvoid a =>
      match attr_alignas a with
      | Some 2%N | Some 3%N =>
          CBase BValue {| ca_align := None; ca_vol := attr_volatile a |}
      | _ => CPtr (CBase BVoid noat) (meta a)
      end
  | Tpointer t a => CPtr (ctype t) (meta a)
  | Tarray t n _ => CArr (ctype t) n
  | Tfunction args res va un =>
      CFun (if un then None else Some (List.map ctype args, va)) (ctype res)
  | Tstruct i a => CBase (BStruct (nm i)) (meta a)
  | Tunion i a => CBase (BUnion (nm i)) (meta a)
  end.

(** a constant: its magnitude, negated when negative *)
Definition cint (z : Z) (suffix : string) : cexp :=
  if (z <? 0)%Z then CNeg (CLit (Z.abs_N z) suffix) else CLit (Z.to_N z) suffix.

(** the signed reading of a machine integer *)
Definition signed (bits : Z) (z : Z) : Z :=
  (let u := z mod 2 ^ bits in if u <? 2 ^ (bits - 1) then u else u - 2 ^ bits)%Z.

(** the sign and the text of the magnitude of a finite float are treated in the
    properties about floats; here the text is a parameter *)
Variable ftext : spec_float -> string.

Definition fsign (f : spec_float) : bool :=
  match f with S754_zero s | S754_infinity s | S754_finite s _ _ => s | S754_nan => false end.

Definition cfloat (f : spec_float) : cexp :=
  let m := match literal (ftext f) with Some e => e | None => CVar "" end in
  if fsign f then CNeg m else m.

Fixpoint means (e : expr) : cexp :=
  match e with
  | Evar id _ => CVar (nm id)
  | Etempvar id _ => CVar (tn id)
  | Ederef a _ => CDeref (means a)
  | Efield a f _ => CDot (means a) (nm f)
  | Econst_int n (Tint I32 Unsigned _) => CLit (Z.to_N (n mod 2 ^ 32)) "U"
  | Econst_int n _ => cint (signed 32 n) ""
  | Econst_float f _ => cfloat f
  | Econst_long n (Tlong Unsigned _) => CLit (Z.to_N (n mod 2 ^ 64)) "LLU"
  | Econst_long n _ => cint (signed 64 n) "LL"
  | Eunop Onotbool a _ => CNot (means a)
  | Eunop Onotint a _ => CCompl (means a)
  | Eunop Oneg a _ => CNeg (means a)
  | Eunop Oabsfloat a _ => CCall (CVar "__builtin_fabs") [means a]
  | Eaddrof a _ => CAddr (means a)
  | Ebinop o a b _ => CBin o (means a) (means b)
  | Ecast a t => CCast (ctype t) (means a)
  | Esizeof t _ => CSizeof (ctype t)
  | Ealignof t _ => CAlignof (ctype t)
  end.

(** statements: sequences are flattened, nothing remains of [Sskip] *)
Fixpoint flatten (s : stmt) : list cstmt :=
  match s with
  | Sskip => []
  | Sassign a b => [CAssign (means a) (means b)]
  | Sset id e => [CAssign (CVar (tn id)) (means e)]
  | Scall None f l => [CExpr (CCall (means f) (List.map means l))]
  | Scall (Some id) f l => [CAssign (CVar (tn id)) (CCall (means f) (List.map means l))]
  | Ssequence s1 s2 => (flatten s1 ++ flatten s2)%list
  | Sifthenelse e s1 s2 => [CIf (means e) (flatten s1) (flatten s2)]
  | Sloop s => [CWhile (CLit 1 "") (flatten s)]
  | Sbreak => [CBreak]
  | Scontinue => [CContinue]
  | Sswitch e ls => [CSwitch (means e) (flattens ls)]
  | Sreturn None => [CReturn None]
  | Sreturn (Some e) => [CReturn (Some (means e))]
  | Slabel l s => CLabel (nm l) :: flatten s
  | Sgoto l => [CGoto (nm l)]
  end
with flattens (ls : lstmts) : list cstmt :=
  match ls with
  | LSnil => []
  | LScons None s ls => (CDefault :: flatten s ++ flattens ls)%list
  | LScons (Some z) s ls => (CCase z :: flatten s ++ flattens ls)%list
  end.

End MEANS.

(** two C blocks that differ only in empty statements and in
    [if (!e) a else b] against [if (e) b else a] *)
Fixpoint cond (e : cexp) : cexp * bool :=
  match e with CNot e => let '(e', n) := cond e in (e', negb n) | _ => (e, false) end.

Fixpoint tidy (s : cstmt) : list cstmt :=
  let tidies := fix tidies (l : list cstmt) : list cstmt :=
    match l with [] => [] | s :: l => (tidy s ++ tidies l)%list end in
  match s with
  | CEmpty => []
  | CIf e a b =>
      let '(e', n) := cond e in
      [if n then CIf e' (tidies b) (tidies a) else CIf e' (tidies a) (tidies b)]
  | CWhile e a => [CWhile e (tidies a)]
  | CSwitch e a => [CSwitch e (tidies a)]
  | s => [s]
  end.

Definition tidies (l : list cstmt) : list cstmt := flat_map tidy l.

(** ** Texts C reads as intended: the conditions *)

(** a constant that starts with a minus sign, or a negation *)
Definition leading_minus (e : expr) : bool :=
  match e with
  | Eunop Oneg _ _ => true
  | Econst_int n (Tint I32 Unsigned _) => false
  | Econst_int n _ => (signed 32 n <? 0)%Z
  | Econst_long n (Tlong Unsigned _) => false
  | Econst_long n _ => (signed 64 n <? 0)%Z
  | Econst_float f _ => fsign f
  | _ => false
  end.

Definition is_const (e : expr) : bool :=
  match e with Econst_int _ _ | Econst_float _ _ | Econst_long _ _ => true | _ => false end.

Definition is_addr (e : expr) : bool :=
  match e with Eaddrof _ _ => true | _ => false end.

Definition finite (f : spec_float) : bool :=
  match f with S754_finite _ _ _ | S754_zero false => true | _ => false end.

Definition is_fun (t : type) : bool := match t with Tfunction _ _ _ _ => true | _ => false end.
Definition is_void (t : type) : bool := match t with Tvoid => true | _ => false end.

Section PRINTABLE.

Variable nm tn : positive -> string.

Definition attr_ok (a : attr) : bool :=
  match attr_alignas a with Some l => (l <? 63)%N | None => true end.

(** struct names are identifiers, alignments and array sizes are in range, [value] is
    not volatile, parameters are neither [void] nor functions *)
Fixpoint type_ok (t : type) : bool :=
  match t with
  | Tvoid => true
  | Tint _ _ a | Tlong _ a | Tfloat _ a => attr_ok a
  | Tpointer t a => attr_ok a && type_ok t && negb (is_value (Tpointer t a) && attr_volatile a)
  | Tarray t n _ => type_ok t && (0 <=? n)%Z && (n <? 2 ^ 31)%Z
  | Tfunction args res va un =>
      type_ok res && forallb (fun t => type_ok t && negb (is_fun t) && negb (is_void t)) args
  | Tstruct i a | Tunion i a => attr_ok a && ident (nm i)
  end.

(** a type name that is not a function type *)
Definition tname_ok (t : type) : bool := type_ok t && negb (is_fun t).

(** no [-] next to a [-], no [&] next to a [&], no field of a constant, floats finite
    and not minus zero *)
Fixpoint expr_ok (e : expr) : bool :=
  match e with
  | Evar id _ => ident (nm id)
  | Etempvar id _ => ident (tn id)
  | Ederef a _ => expr_ok a
  | Efield a f _ => expr_ok a && negb (is_const a) && ident (nm f)
  | Econst_int _ _ | Econst_long _ _ => true
  | Econst_float f _ => finite f
  | Eunop Oneg a _ => expr_ok a && negb (leading_minus a)
  | Eunop _ a _ => expr_ok a
  | Eaddrof a _ => expr_ok a && negb (is_addr a)
  | Ebinop _ a b _ => expr_ok a && expr_ok b
  | Ecast a t => expr_ok a && tname_ok t
  | Esizeof t _ | Ealignof t _ => tname_ok t
  end.

(** callees bind at least as tightly as a call *)
Definition callee_ok (e : expr) : bool :=
  match e with
  | Evar _ _ | Etempvar _ _ | Efield _ _ _ | Ecast _ _ | Ebinop _ _ _ _ => true
  | _ => false
  end.

Fixpoint stmt_ok (s : stmt) : bool :=
  match s with
  | Sskip | Sbreak | Scontinue | Sreturn None => true
  | Sassign a b => expr_ok a && expr_ok b
  | Sset id e => ident (tn id) && expr_ok e
  | Scall id f l =>
      match id with Some id => ident (tn id) | None => true end &&
      expr_ok f && callee_ok f && forallb expr_ok l
  | Ssequence a b => stmt_ok a && stmt_ok b
  | Sifthenelse e a b => expr_ok e && stmt_ok a && stmt_ok b
  | Sloop a => stmt_ok a
  | Sswitch e ls => expr_ok e && lstmts_ok ls
  | Sreturn (Some e) => expr_ok e
  | Slabel l s => ident (nm l) && stmt_ok s
  | Sgoto l => ident (nm l)
  end
with lstmts_ok (ls : lstmts) : bool :=
  match ls with
  | LSnil => true
  | LScons l s ls =>
      match l with Some z => (- 2 ^ 62 <=? z)%Z && (z <? 2 ^ 62)%Z | None => true end &&
      stmt_ok s && lstmts_ok ls
  end.

(** a result type C allows: not a function, not an array, here not a pointer to one either *)
Fixpoint result_ok (t : type) : bool :=
  match t with
  | Tfunction _ _ _ _ | Tarray _ _ _ => false
  | Tpointer t' _ => is_value t || result_ok t'
  | _ => true
  end.

Definition decls_ok (name : positive -> string) (l : list (positive * type)) : bool :=
  forallb (fun '(id, t) => ident (name id) && type_ok t) l.

End PRINTABLE.

(** ** Decimal numbers (C11 6.4.4.2) *)

(** a run of digits: the number with the digits appended to [acc], how many, the rest *)
Fixpoint digit_run (s : string) (acc n : Z) : Z * Z * string :=
  match s with
  | String c r =>
      if is_digit c then digit_run r (10 * acc + Z.of_nat (nat_of_ascii c - 48))%Z (n + 1)%Z
      else (acc, n, s)
  | EmptyString => (acc, n, s)
  end.

Definition exponent_part (s : string) : option Z :=
  match s with
  | EmptyString => Some 0%Z
  | String e (String sg r) =>
      if (e =? "e")%char then
        match digit_run r 0 0 with
        | (x, n, EmptyString) =>
            if (n =? 0)%Z then None
            else if (sg =? "+")%char then Some x
            else if (sg =? "-")%char then Some (- x)%Z
            else None
        | _ => None
        end
      else None
  | _ => None
  end.

(** [Some (d, k)]: the text denotes d * 10^k *)
Definition decimal (s : string) : option (Z * Z) :=
  let '(a, n, r) := digit_run s 0 0 in
  if (n =? 0)%Z then None
  else
    let '(b, k, r2) :=
      match r with
      | String c r1 => if (c =? ".")%char then digit_run r1 a 0 else (a, 0%Z, r)
      | EmptyString => (a, 0%Z, r)
      end in
    match exponent_part r2 with Some x => Some (b, x - k)%Z | None => None end.

Definition dec_value (d k : Z) : Q := (inject_Z d * (10 # 1) ^ k)%Q.
(** the value of a float m * 2^e *)
Definition bin_value (m : positive) (e : Z) : Q := (inject_Z (Zpos m) * (2 # 1) ^ e)%Q.

(** doubles: 53 bits of precision, exponents below 1024 (the standard library's [bounded]) *)
Definition double (m : positive) (e : Z) : Prop := bounded 53 1024 m e = true.
