(** * The fragment of WebAssembly that the Wasm back end emits, and its execution

    The back end (theories/CodegenWasm/LambdaANF_to_Wasm.v,
    theories/CodegenWasm/LambdaANF_to_Wasm_primitives.v) produces abstract syntax
    of WasmCert-Coq.  This file models the instructions it uses, following the
    execution rules of the WebAssembly specification (sections 4.3 Numerics,
    4.4 Instructions).

    Simplified:
    - numbers are integers in [0, 2^32) and [0, 2^64); there are no floats;
    - one memory, one table whose entry [i] is function [i] (what
      [table_element_mapping], LambdaANF_to_Wasm.v:517-524, sets up);
    - no function returns a value;
    - validation is not modelled; executing an ill-typed instruction is an
      outcome of its own ([Rstuck]);
    - whether growing the memory succeeds is decided by a parameter (the
      specification allows failure at any time). *)
From Coq Require Import ZArith NArith List Lia Bool.
Import ListNotations.
From Verif Require Import ANF_Syntax.
Set Implicit Arguments.
Local Open Scope Z_scope.

(** ** Values and instructions *)

(** value types (WebAssembly specification 2.3.1; LambdaANF_to_Wasm.v uses i32, i64) *)
Inductive vt : Set := T32 | T64.

(** values *)
Inductive wval : Set := I32 (z : Z) | I64 (z : Z).

(** binary operators used in LambdaANF_to_Wasm.v and LambdaANF_to_Wasm_primitives.v *)
Inductive wbin : Set := Wadd | Wsub | Wmul | Wdivu | Wdivs | Wremu | Wand | Wor | Wxor | Wshl | Wshru.

(** comparisons used there *)
Inductive wrel : Set := Weq | Wltu | Wleu | Wgtu | Wgeu | Wges.

(** unary operators used there *)
Inductive wun : Set := Wclz | Wctz.

(** instructions; a block type is [None] or [Some] type (no parameters) *)
Inductive instr : Set :=
| Iconst (v : wval)
| Ilget (i : N)
| Ilset (i : N)
| Igget (i : nat)
| Igset (i : nat)
| Ibin (t : vt) (o : wbin)
| Irel (t : vt) (o : wrel)
| Iun (t : vt) (o : wun)
| Ieqz (t : vt)
| Iload (t : vt) (off : Z)
| Istore (t : vt) (off : Z)
| Iif (bt : option vt) (a b : list instr)
| Iloop (a : list instr)
| Ibr (n : nat)
| Ireturn
| Iunreachable
| Imemsize
| Imemgrow
| Icall_ind (ty : nat)
| Iretcall_ind (ty : nat).

(** ** Numerics (WebAssembly specification 4.3.2) *)

Definition width (t : vt) : Z := match t with T32 => 32 | T64 => 64 end.
Definition modulus (t : vt) : Z := match t with T32 => 4294967296 | T64 => 18446744073709551616 end.
Definition mk (t : vt) (z : Z) : wval := match t with T32 => I32 z | T64 => I64 z end.
Definition has (t : vt) (v : wval) : option Z :=
  match t, v with T32, I32 z => Some z | T64, I64 z => Some z | _, _ => None end.
Definition sgn (t : vt) (z : Z) : Z := if z <? modulus t / 2 then z else z - modulus t.

(** [None] is a trap *)
Definition wbin_eval (t : vt) (o : wbin) (x y : Z) : option Z :=
  match o with
  | Wadd => Some ((x + y) mod modulus t)
  | Wsub => Some ((x - y) mod modulus t)
  | Wmul => Some ((x * y) mod modulus t)
  | Wdivu => if y =? 0 then None else Some (x / y)
  | Wdivs =>
      if y =? 0 then None
      else let q := Z.quot (sgn t x) (sgn t y) in
           if q =? modulus t / 2 then None else Some (q mod modulus t)
  | Wremu => if y =? 0 then None else Some (x mod y)
  | Wand => Some (Z.land x y)
  | Wor => Some (Z.lor x y)
  | Wxor => Some (Z.lxor x y)
  | Wshl => Some (Z.shiftl x (y mod width t) mod modulus t)
  | Wshru => Some (Z.shiftr x (y mod width t))
  end.

Definition wrel_eval (t : vt) (o : wrel) (x y : Z) : bool :=
  match o with
  | Weq => x =? y
  | Wltu => x <? y
  | Wleu => x <=? y
  | Wgtu => y <? x
  | Wgeu => y <=? x
  | Wges => sgn t y <=? sgn t x
  end.

(** number of leading (trailing) zero bits; all of them for zero *)
Fixpoint ctz_from (n : nat) (z : Z) : Z :=
  match n with
  | O => 0
  | S n' => if Z.odd z then 0 else 1 + ctz_from n' (z / 2)
  end.
Definition wun_eval (t : vt) (o : wun) (x : Z) : Z :=
  match o with
  | Wclz => if x =? 0 then width t else width t - 1 - Z.log2 x
  | Wctz => ctz_from (Z.to_nat (width t)) x
  end.

Definition b2i (b : bool) : wval := I32 (if b then 1 else 0).

(** ** Memory: bytes, little endian (WebAssembly specification 4.4.7) *)

Definition bytes := Z -> Z.

Fixpoint rd (n : nat) (m : bytes) (a : Z) : Z :=
  match n with
  | O => 0
  | S n' => m a mod 256 + 256 * rd n' m (a + 1)
  end.

Fixpoint wr (n : nat) (m : bytes) (a : Z) (z : Z) : bytes :=
  match n with
  | O => m
  | S n' => wr n' (fun x => if x =? a then z mod 256 else m x) (a + 1) (z / 256)
  end.

Definition nbytes (t : vt) : nat := match t with T32 => 4%nat | T64 => 8%nat end.

(** bytes per page: LambdaANF_to_Wasm.v:269, [page_size] of WasmCert-Coq *)
Definition page : Z := 65536.

(** ** State *)

(** what calls share: globals, memory and its size in pages *)
Record store : Type := { s_glob : list wval; s_mem : bytes; s_pages : Z }.

Definition set_glob (s : store) g := {| s_glob := g; s_mem := s_mem s; s_pages := s_pages s |}.
Definition set_mem (s : store) m := {| s_glob := s_glob s; s_mem := m; s_pages := s_pages s |}.
Definition set_pages (s : store) p := {| s_glob := s_glob s; s_mem := s_mem s; s_pages := p |}.

Fixpoint replace {A} (n : nat) (x : A) (l : list A) : option (list A) :=
  match n, l with
  | _, [] => None
  | O, _ :: l' => Some (x :: l')
  | S n', y :: l' => match replace n' x l' with Some r => Some (y :: r) | None => None end
  end.

Definition same_type (v w : wval) : bool :=
  match v, w with I32 _, I32 _ | I64 _, I64 _ => true | _, _ => false end.

(** outcome of a piece of code: locals, store, value stack; branch to the n-th
    enclosing label; return from the function; tail call; trap; ill-typed; not
    enough fuel *)
Inductive wres : Type :=
| Rnorm (l : list wval) (s : store) (k : list wval)
| Rbr (n : nat) (l : list wval) (s : store) (k : list wval)
| Rret (s : store)
| Rtail (f : Z) (ty : nat) (args : list wval) (s : store)
| Rtrap | Rstuck | Rtime.

(** outcome of a call *)
Inductive fres : Type := FOk (s : store) | FTrap | FStuck | FTime.

(** the end of a block whose result has [n] values (WebAssembly specification 4.4.8, 4.4.9) *)
Definition end_block (n : nat) (k : list wval) (r : wres) : wres :=
  match r with
  | Rnorm l s k' => if Nat.eqb (length k') n then Rnorm l s (k' ++ k) else Rstuck
  | Rbr O l s k' => if Nat.leb n (length k') then Rnorm l s (firstn n k' ++ k) else Rstuck
  | Rbr (S j) l s k' => Rbr j l s k'
  | r => r
  end.

Definition bt_len (bt : option vt) : nat := match bt with None => 0%nat | Some _ => 1%nat end.

Definition bindr (r : wres) (f : list wval -> store -> list wval -> wres) : wres :=
  match r with Rnorm l s k => f l s k | r => r end.

Section Seq.
  Variable f : instr -> list wval -> store -> list wval -> wres.
  Fixpoint seqr (is : list instr) (l : list wval) (s : store) (k : list wval) : wres :=
    match is with
    | [] => Rnorm l s k
    | i :: is' => bindr (f i l s k) (seqr is')
    end.
End Seq.

(** a loop runs its body again when the body branches to it *)
Fixpoint iter (n : nat) (body : list wval -> store -> wres) (k : list wval) (l : list wval) (s : store) : wres :=
  match n with
  | O => Rtime
  | S n' =>
      match body l s with
      | Rnorm l' s' [] => Rnorm l' s' k
      | Rnorm _ _ _ => Rstuck
      | Rbr O l' s' _ => iter n' body k l' s'
      | Rbr (S j) l' s' k' => Rbr j l' s' k'
      | r => r
      end
  end.

Section Exec.
  (** does growing from the given number of pages succeed *)
  Variable grow : Z -> bool.
  (** upper limit of the memory, in pages *)
  Variable max_pages : Z.
  (** bound on loop iterations, counted like fuel *)
  Variable lf : nat.
  (** calls by table index and type *)
  Variable call : Z -> nat -> list wval -> store -> fres.

  Fixpoint exec1 (i : instr) (l : list wval) (s : store) (k : list wval) {struct i} : wres :=
    match i with
    | Iconst v => Rnorm l s (v :: k)
    | Ilget x => match nthN l x with Some v => Rnorm l s (v :: k) | None => Rstuck end
    | Ilset x =>
        match k with
        | v :: k' =>
            match nthN l x with
            | Some w =>
                if same_type v w then
                  match replace (N.to_nat x) v l with Some l' => Rnorm l' s k' | None => Rstuck end
                else Rstuck
            | None => Rstuck
            end
        | [] => Rstuck
        end
    | Igget x => match nth_error (s_glob s) x with Some v => Rnorm l s (v :: k) | None => Rstuck end
    | Igset x =>
        match k with
        | v :: k' =>
            match nth_error (s_glob s) x with
            | Some w =>
                if same_type v w then
                  match replace x v (s_glob s) with Some g => Rnorm l (set_glob s g) k' | None => Rstuck end
                else Rstuck
            | None => Rstuck
            end
        | [] => Rstuck
        end
    | Ibin t o =>
        match k with
        | v2 :: v1 :: k' =>
            match has t v1, has t v2 with
            | Some x, Some y => match wbin_eval t o x y with Some z => Rnorm l s (mk t z :: k') | None => Rtrap end
            | _, _ => Rstuck
            end
        | _ => Rstuck
        end
    | Irel t o =>
        match k with
        | v2 :: v1 :: k' =>
            match has t v1, has t v2 with
            | Some x, Some y => Rnorm l s (b2i (wrel_eval t o x y) :: k')
            | _, _ => Rstuck
            end
        | _ => Rstuck
        end
    | Iun t o =>
        match k with
        | v :: k' => match has t v with Some x => Rnorm l s (mk t (wun_eval t o x) :: k') | None => Rstuck end
        | _ => Rstuck
        end
    | Ieqz t =>
        match k with
        | v :: k' => match has t v with Some x => Rnorm l s (b2i (x =? 0) :: k') | None => Rstuck end
        | _ => Rstuck
        end
    | Iload t off =>
        match k with
        | I32 a :: k' =>
            if a + off + Z.of_nat (nbytes t) <=? page * s_pages s
            then Rnorm l s (mk t (rd (nbytes t) (s_mem s) (a + off)) :: k') else Rtrap
        | _ => Rstuck
        end
    | Istore t off =>
        match k with
        | v :: I32 a :: k' =>
            match has t v with
            | Some z =>
                if a + off + Z.of_nat (nbytes t) <=? page * s_pages s
                then Rnorm l (set_mem s (wr (nbytes t) (s_mem s) (a + off) z)) k' else Rtrap
            | None => Rstuck
            end
        | _ => Rstuck
        end
    | Iif bt a b =>
        match k with
        | I32 c :: k' =>
            end_block (bt_len bt) k' (if c =? 0 then seqr exec1 b l s [] else seqr exec1 a l s [])
        | _ => Rstuck
        end
    | Iloop a => iter lf (fun l s => seqr exec1 a l s []) k l s
    | Ibr n => Rbr n l s k
    | Ireturn => Rret s
    | Iunreachable => Rtrap
    | Imemsize => Rnorm l s (I32 (s_pages s) :: k)
    | Imemgrow =>
        match k with
        | I32 n :: k' =>
            if (s_pages s + n <=? max_pages) && grow (s_pages s)
            then Rnorm l (set_pages s (s_pages s + n)) (I32 (s_pages s) :: k')
            else Rnorm l s (I32 4294967295 :: k')
        | _ => Rstuck
        end
    | Icall_ind ty =>
        match k with
        | I32 f :: k' =>
            if Nat.leb ty (length k') then
              match call f ty (rev (firstn ty k')) s with
              | FOk s' => Rnorm l s' (skipn ty k')
              | FTrap => Rtrap | FStuck => Rstuck | FTime => Rtime
              end
            else Rstuck
        | _ => Rstuck
        end
    | Iretcall_ind ty =>
        match k with
        | I32 f :: k' =>
            if Nat.leb ty (length k') then Rtail f ty (rev (firstn ty k')) s else Rstuck
        | _ => Rstuck
        end
    end.

  Definition exec : list instr -> list wval -> store -> list wval -> wres := seqr exec1.
End Exec.

(** ** Functions *)

(** LambdaANF_to_Wasm.v:67-74 ([wasm_function]): number of i32 parameters (its
    type index), number of further i32 locals, body *)
Record wfun : Set := { wf_params : nat; wf_locals : nat; wf_body : list instr }.

Section Run.
  Variable grow : Z -> bool.
  Variable max_pages : Z.
  Variable lf : nat.
  Variable funs : list wfun.

  (** an indirect call through the table: traps if there is no such entry or its
      type differs; one unit of fuel per (nested or tail) call *)
  Fixpoint run (n : nat) (f : Z) (ty : nat) (args : list wval) (s : store) {struct n} : fres :=
    match n with
    | O => FTime
    | S n' =>
        if (f <? 0) || (Z.of_nat (length funs) <=? f) then FTrap else
        match nth_error funs (Z.to_nat f) with
        | None => FTrap
        | Some fn =>
            if Nat.eqb (wf_params fn) ty then
              match exec grow max_pages lf (run n') (wf_body fn) (args ++ repeat (I32 0) (wf_locals fn)) s [] with
              | Rnorm _ s' [] => FOk s'
              | Rnorm _ _ _ => FStuck
              | Rret s' => FOk s'
              | Rtail g ty' args' s' => run n' g ty' args' s'
              | Rbr _ _ _ _ => FStuck
              | Rtrap => FTrap | Rstuck => FStuck | Rtime => FTime
              end
            else FTrap
        end
    end.
End Run.
