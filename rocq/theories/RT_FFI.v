(** The foreign-function helpers of the runtime: constructor ordinals and coq strings.

    Models: /repo/runtime/get_ordinal.c:4-12, /repo/runtime/rocq_c_ffi.c:7-62 (the same text is
    in /repo/cplugin).  Memory is a partial map from addresses to 64-bit words; reading an
    address that is not mapped is undefined behaviour. *)
From Coq Require Import ZArith Lia Bool List.
From Verif Require Import RT_Word RT_Values.
Import ListNotations.
Open Scope Z_scope.
Open Scope c_scope.

(** The words that can be read; C memory (no particular source line). *)
Definition wmem := Z -> option Z.

(** A load of an [unsigned long long] (C language). *)
Definition load (m : wmem) (a : Z) : cres Z :=
  match m a with Some w => Ok w | None => UB end.

(** get_ordinal.c:4-7: [return Val_long($v)]. *)
Definition get_unboxed_ordinal (v : Z) : Z := Val_long v.

(** get_ordinal.c:9-12: the index 2^64-1 on a pointer to 8-byte words, i.e. the word at
    [v - 8] after reduction modulo 2^64. *)
Definition get_boxed_ordinal (m : wmem) (v : Z) : cres Z :=
  h <- load m (u64 (v + 8 * 18446744073709551615)) ;;
  Ok (Z.land h 255).

(** rocq_c_ffi.c:7-15.  Fuel bounds the number of iterations; running out is reported as
    [Abort], which no theorem accepts. *)
Fixpoint length_of_coq_string (fuel : nat) (m : wmem) (ptr len : Z) : cres Z :=
  match fuel with
  | O => Abort
  | S fuel =>
      if Is_block ptr
      then p <- load m (ptr + 8) ;; length_of_coq_string fuel m p (u64 (len + 1))
      else Ok len
  end.

(** A [malloc]ed buffer: its bytes, [None] while not written. *)
Definition buffer := list (option Z).

(** Writing byte [i] of a buffer; outside the buffer it is undefined behaviour (C language). *)
Definition put (b : buffer) (i : nat) (c : Z) : cres buffer :=
  if (i <? length b)%nat then Ok (firstn i b ++ Some c :: skipn (S i) b) else UB.

(** The loop rocq_c_ffi.c:26-31; [(char) (chr >> 1)] is the low byte of the shifted word,
    recorded as an unsigned byte. *)
Fixpoint copy_coq_string (fuel : nat) (m : wmem) (ptr : Z) (len : nat) (str : buffer)
  : cres (nat * buffer) :=
  match fuel with
  | O => Abort
  | S fuel =>
      if Is_block ptr
      then chr <- load m ptr ;;
           str <- put str len (u64 chr / 2 mod 256) ;;
           p <- load m (ptr + 8) ;;
           copy_coq_string fuel m p (S len) str
      else Ok (len, str)
  end.

(** rocq_c_ffi.c:17-34.  [malloc_ok] says whether [malloc] returned a buffer; after a failure the
    code prints a message and goes on with the null pointer, so any write is undefined. *)
Definition string_of_coq_string (fuel : nat) (malloc_ok : bool) (m : wmem) (s : Z) : cres buffer :=
  n <- length_of_coq_string fuel m s 0 ;;
  let size := Z.to_nat (u64 (n + 1)) in
  let str := if malloc_ok then repeat None size else [] in
  r <- copy_coq_string fuel m s 0 str ;;
  put (snd r) (fst r) 0.

(** What a message function leaves behind: the text printed, if the process ends, and the value
    returned. *)
Inductive ffi_end : Type := Returned (v : Z) | Exited (code : Z).

(** The C string in a buffer: the bytes before the first zero ([puts], [fputs]). *)
Fixpoint c_text (b : buffer) : cres (list Z) :=
  match b with
  | Some c :: b => if c =? 0 then Ok [] else r <- c_text b ;; Ok (c :: r)
  | _ => UB
  end.

(** rocq_c_ffi.c:36-41 ([puts] appends a newline), and :50-62 ([fputs]). *)
Definition rocq_msg (newline : bool) fuel mok m s : cres (list Z * ffi_end) :=
  str <- string_of_coq_string fuel mok m s ;;
  t <- c_text str ;;
  Ok (if newline then t ++ [10] else t, Returned 1).

(** rocq_c_ffi.c:36-41 *)
Definition rocq_msg_info := rocq_msg true.
(** rocq_c_ffi.c:50-55 *)
Definition rocq_msg_debug := rocq_msg false.
(** rocq_c_ffi.c:57-62 *)
Definition rocq_msg_notice := rocq_msg false.
(** rocq_c_ffi.c:43-48 *)
Definition rocq_user_error fuel mok m s : cres (list Z * ffi_end) :=
  str <- string_of_coq_string fuel mok m s ;;
  t <- c_text str ;;
  Ok (t, Exited 1).
