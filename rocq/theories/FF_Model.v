(** * Glue code for foreign functions ([CertiRocq FFI])

    Source: theories/Glue/ffi.v, with the notations of theories/Glue/glue_utils.v.

    For a class whose fields are foreign functions, C functions are generated
    that collect the arguments of a field one by one in closures and call the
    foreign function when the last one has arrived.

    Simplified:
    - types, casts and calling conventions of the generated Clight are left out;
    - [tinfo->alloc] and [tinfo->args] are constructs of their own: in the source
      the field names are made anew for each function, and mean the fields of the
      struct only because they are printed alike (comment at ffi.v:150-153);
    - the continuation is not run: calling it is the result of a run;
    - types of fields are those parts [type_to_args] looks at. *)
From Coq Require Import ZArith List Bool Arith Ascii String.
From Verif Require Import ANF_Syntax CG_Clight.
From Verif Require PR_Model.
Import ListNotations.
Local Open Scope nat_scope.

(** ** Types of fields *)

(** Ast.term of MetaRocq, the cases of ffi.v:87-90: a product, an application of
    a constant with the given base name, anything else *)
Inductive ftype : Type :=
| TProd (a b : ftype)
| TAppConst (base : string) (args : list ftype)
| TOther (n : nat).

(** ffi.v:84-91 *)
Fixpoint type_to_args (e : ftype) : nat * bool :=
  match e with
  | TProd _ e' => let (n, b) := type_to_args e' in (S n, b)
  | TAppConst base _ => (0, String.eqb base "IO")
  | _ => (0, false)
  end.

(** ffi.v:96-102 *)
Fixpoint skip_params (params : nat) (e : ftype) : ftype :=
  match params, e with
  | S params', TProd _ e' => skip_params params' e'
  | _, _ => e
  end.

(** ** Generated code *)

(** expressions: ffi.v uses variables, constants, names of functions,
    [tinfo->alloc], [tinfo->args], sums and dereferences *)
Inductive fexp : Set :=
| Xvar (x : positive)
| Xint (z : Z)
| Xfun (f : positive)
| Xalloc
| Xargs
| Xadd (e : fexp) (n : Z)
| Xderef (e : fexp).

(** [Field(t, n)]: glue_utils.v:44-45 *)
Definition Field (t : fexp) (n : Z) : fexp := Xderef (Xadd t n).

(** statements: assignment ([Sassign]; the left side is a variable, a
    dereference or [tinfo->alloc]), call of the foreign function, call of a
    continuation, return *)
Inductive fstm : Set :=
| Fassign (l r : fexp)
| Fcall (res : positive) (f : positive) (args : list fexp)
| Fjump (f : fexp) (args : list fexp)
| Fseq (a b : fstm)
| Fskip
| Freturn.

(** glue_utils.v:47-48 *)
Definition multiple (xs : list fstm) : fstm := fold_right Fseq Fskip xs.

(** AST.v and Clight.v of CompCert: parameters after [tinfo], local variables, body *)
Record ffun : Set := mkffun { ff_params : list positive; ff_vars : list positive; ff_body : fstm }.

(** ffi.v:111 *)
Inductive backend : Set := ANF | CPS.

(** definitions: the foreign function with its arity (ffi.v:359-363), a
    function, a static closure (ffi.v:368-370) *)
Inductive fdef : Set :=
| Extern (arity : nat)
| Fun (f : ffun)
| Closure (entry : positive).

(** ** The generator *)

(** ffi.v:52-57: next identifier, names *)
Record fstate : Set := mkfs { fs_gensym : positive; fs_nenv : list (positive * string) }.

(** ffi.v:66-70 *)
Definition gensym (s : string) (st : fstate) : positive * fstate :=
  (fs_gensym st, mkfs (fs_gensym st + 1) ((fs_gensym st, s) :: fs_nenv st)).

(** bind of the monad *)
Notation "'do' x <- a ;; b" := (fun st => let (x, st') := a st in b st') (at level 200, x name, a at level 100, b at level 200).

(** RandyPrelude.v:377-381 *)
Fixpoint list_to_zero (n : nat) : list nat :=
  match n with O => [] | S n => n :: list_to_zero n end.

(** show_nat of LambdaANF/cps_show.v: decimal *)
Definition show_nat (n : nat) : string := PR_Model.dec (N.of_nat n).

(** ffi.v:120-127 *)
Fixpoint env_proj (i : nat) (env : fexp) : fexp :=
  match i with O => Xderef env | S i' => env_proj i' (Field env 1) end.

(** ffi.v:213-216, [mapM make_arg] *)
Fixpoint make_args (env : positive) (l : list nat) (st : fstate) : list (positive * fstm) * fstate :=
  match l with
  | [] => ([], st)
  | n :: l' =>
      let (x, st) := gensym ("arg" ++ show_nat n) st in
      let (r, st) := make_args env l' st in
      ((x, Fassign (Xvar x) (env_proj n (Xvar env))) :: r, st)
  end.

(** ffi.v:186-190, 238-242: [e += n] on [tinfo->alloc] and on a variable *)
Definition incr (e : fexp) (n : Z) : fstm := Fassign e (Xadd e n).

(** A block of two words: ffi.v:236-242, 254-260, 262-267. *)
Definition make_pair (x : positive) (a b : fexp) : fstm :=
  Fseq (Fassign (Xvar x) Xalloc)
  (Fseq (Fassign (Field (Xvar x) 0) (Xint 2048))
  (Fseq (Fassign (Field (Xvar x) 1) a)
  (Fseq (Fassign (Field (Xvar x) 2) b)
  (Fseq (incr Xalloc 3) (incr (Xvar x) 1))))).

(** ffi.v:157-180: where the arguments are read from; [all] are the variables for
    environment, continuation (in continuation-passing style) and argument *)
Fixpoint inputs (i : nat) (all : list positive) : list fstm :=
  match all with [] => [] | x :: r => Fassign (Xvar x) (Field Xargs (Z.of_nat i)) :: inputs (S i) r end.

(** ffi.v:276-305, [final] *)
Definition final (be : backend) (c_args : nat) (k ret : positive) : fstm :=
  match be with
  | ANF => Fseq (Fassign (Field Xargs 1) (Xvar ret)) Freturn
  | CPS =>
      Fseq (multiple (skipn c_args [Fassign (Field Xargs 0) (Field (Xvar k) 1); Fassign (Field Xargs 1) (Xvar ret)]))
      (Fseq (Fjump (Field (Xvar k) 0) (firstn c_args [Field (Xvar k) 1; Xvar ret])) Freturn)
  end.

(** ffi.v:131-318 *)
Definition make_curried_fn (be : backend) (c_args : nat) (kn : string) (num arity : nat) (is_io : bool) (next_fn : positive)
    (st : fstate) : (positive * fdef) * fstate :=
  let (curried, st) := gensym (match num with S _ => kn ++ "_" ++ show_nat num | O => kn ++ "_world" end) st in
  let (_, st) := gensym "thread_info" st in
  let (_, st) := gensym "alloc" st in
  let (_, st) := gensym "args" st in
  let (_, st) := gensym "tinfo" st in
  let (env, st) := gensym "env" st in
  let (k, st) := gensym "k" st in
  let (arg, st) := gensym "arg" st in
  let (_, st) := gensym "call" st in
  let all := match be with ANF => [env; arg] | CPS => [env; k; arg] end in
  let handle_input := multiple (skipn c_args (inputs 0 all)) in
  let '((ret, vars', rest), st) :=
    match num, is_io with
    | 0, _ | 1, false =>
        let args_to_extract := if is_io then arity else pred arity in
        let (res, st) := make_args env (list_to_zero args_to_extract) st in
        let '(args, ss) := List.split res in
        let all_args := if is_io then args else args ++ [arg] in
        let (r, st) := gensym "result" st in
        let call := Fcall r next_fn (map Xvar all_args) in
        if is_io then
          let (pair, st) := gensym "pair" st in
          ((pair, r :: pair :: args, Fseq (multiple ss) (Fseq call (make_pair pair (Xvar r) (Xvar arg)))), st)
        else ((r, r :: args, Fseq (multiple ss) call), st)
    | S _, _ =>
        let (new_env, st) := gensym "new_env" st in
        let (new_clo, st) := gensym "new_clo" st in
        ((new_clo, [new_env; new_clo],
          Fseq (make_pair new_env (Xvar arg) (Xvar env)) (make_pair new_clo (Xfun next_fn) (Xvar new_env))), st)
    end in
  ((curried, Fun (mkffun (firstn c_args all) (skipn c_args all ++ vars') (Fseq handle_input (Fseq rest (final be c_args k ret))))), st).

(** ffi.v:320-350 *)
Fixpoint make_curried_fns (be : backend) (c_args : nat) (kn : string) (num arity : nat) (is_io : bool) (final_fn : positive)
    (st : fstate) : list (positive * fdef) * fstate :=
  let last st := let (x, st) := make_curried_fn be c_args kn num arity is_io final_fn st in ([x], st) in
  match num with
  | O => last st
  | S num' =>
      if (num =? 1) && negb is_io then last st
      else
        let (rest, st) := make_curried_fns be c_args kn num' arity is_io final_fn st in
        match rest with
        | [] => ([], st)   (* impossible *)
        | (prev, _) :: _ =>
            let (d, st) := make_curried_fn be c_args kn num arity is_io prev st in (d :: rest, st)
        end
  end.

(** ffi.v:356-374 *)
Definition make_one_field (be : backend) (c_args : nat) (kn : string) (t : ftype) (st : fstate) : list (positive * fdef) * fstate :=
  let (arity, is_io) := type_to_args t in
  let (ext, st) := gensym kn st in
  let (_, st) := gensym "thread_info" st in
  let (rest, st) := make_curried_fns be c_args kn arity arity is_io ext st in
  match rest with
  | [] => ([], st)   (* "No curried functions!" *)
  | (entry, _) :: _ =>
      let (clo, st) := gensym (kn ++ "_clo") st in
      ((ext, Extern arity) :: rev rest ++ [(clo, Closure entry)], st)
  end.

(** ffi.v:376-385 *)
Fixpoint make_all_fields (be : backend) (c_args : nat) (fields : list (string * ftype)) (st : fstate) : list (positive * fdef) * fstate :=
  match fields with
  | [] => ([], st)
  | (kn, t) :: fs =>
      let (d, st) := make_one_field be c_args kn t st in
      let (ds, st) := make_all_fields be c_args fs st in
      (d ++ ds, st)
  end.

(** ** Running generated code *)

(** the foreign functions: undefined, or a word and a new memory; they may
    collect garbage *)
Definition foreign : Type := positive -> list cval -> mem -> option (cval * mem).

(** values of expressions; the args array starts at offset 0 of its block *)
Fixpoint fval (vars : positive -> option cval) (m : mem) (e : fexp) : option cval :=
  match e with
  | Xvar x => vars x
  | Xint z => Some (VZ z)
  | Xfun f => Some (VF f)
  | Xalloc => Some (m_alloc m)
  | Xargs => Some (VP BArgs 0)
  | Xadd e n => match fval vars m e with Some (VP b o) => Some (VP b (o + n)) | _ => None end
  | Xderef e => match fval vars m e with Some (VP b o) => load m b o | _ => None end
  end.

(** several *)
Fixpoint fvals (vars : positive -> option cval) (m : mem) (es : list fexp) : option (list cval) :=
  match es with
  | [] => Some []
  | e :: r => match fval vars m e, fvals vars m r with Some v, Some vs => Some (v :: vs) | _, _ => None end
  end.

(** how a run goes on or ends: next statement, return (with or without a value),
    call of a continuation, undefined *)
Inductive outcome : Type :=
| Next (vars : positive -> option cval) (m : mem)
| Returned (w : option cval) (m : mem)
| Jumped (f : cval) (args : list cval) (m : mem)
| Undefined.

(** setting a variable *)
Definition setv (vars : positive -> option cval) (x : positive) (v : cval) : positive -> option cval :=
  fun y => if Pos.eqb y x then Some v else vars y.

(** assignment *)
Definition assign (vars : positive -> option cval) (m : mem) (l : fexp) (v : cval) : outcome :=
  match l with
  | Xvar x => Next (setv vars x v) m
  | Xalloc => match set_tinfo m Talloc v with Some m' => Next vars m' | None => Undefined end
  | Xderef e => match fval vars m e with
                | Some (VP b o) => match store m b o v with Some m' => Next vars m' | None => Undefined end
                | _ => Undefined
                end
  | _ => Undefined
  end.

(** statements *)
Fixpoint frun (ext : foreign) (s : fstm) (vars : positive -> option cval) (m : mem) : outcome :=
  match s with
  | Fassign l r => match fval vars m r with Some v => assign vars m l v | None => Undefined end
  | Fcall res f args =>
      match fvals vars m args with
      | Some vs => match ext f vs m with Some (w, m') => assign vars m' (Xvar res) w | None => Undefined end
      | None => Undefined
      end
  | Fjump f args => match fval vars m f, fvals vars m args with Some w, Some vs => Jumped w vs m | _, _ => Undefined end
  | Fseq a b => match frun ext a vars m with Next vars' m' => frun ext b vars' m' | o => o end
  | Fskip => Next vars m
  | Freturn => Returned None m
  end.

(** parameters get the arguments; local variables are not initialised *)
Fixpoint bind_params (xs : list positive) (vs : list cval) : option (positive -> option cval) :=
  match xs, vs with
  | [], [] => Some (fun _ => None)
  | x :: xs', v :: vs' => option_map (fun g => setv g x v) (bind_params xs' vs')
  | _, _ => None
  end.

(** a call *)
Definition fcall (ext : foreign) (f : ffun) (args : list cval) (m : mem) : outcome :=
  match bind_params (ff_params f) args with Some vars => frun ext (ff_body f) vars m | None => Undefined end.
