(** * Model of the runtime strings

    Models: /repo/runtime/prim_string.c (whole file except [trace], which
    expands to nothing), /repo/runtime/values.h:150-212 and the string
    literals of the C back end,
    /repo/theories/Codegen/LambdaANF_to_Clight_stack.v:17-65, 864-877.

    Memory is byte addressed; an address may hold nothing, and reading it is
    undefined behaviour.  The machine is little endian and [char] is signed
    (x86-64), as the encoding of literals presumes. *)
From Coq Require Import ZArith Lia Bool List.
From Verif Require Import RT_Word RT_Values.
Import ListNotations.
Open Scope Z_scope.
Open Scope c_scope.

Definition bmem := Z -> option Z.

(** The part of [struct thread_info] (gc_stack.h:131-139) that is used. *)
Record sinfo := { si_alloc : Z; si_limit : Z; si_mem : bmem }.

(** ** Loads and stores *)

(** An [unsigned char] at an address. *)
Definition load8 (m : bmem) (a : Z) : cres Z :=
  match m a with Some b => Ok b | None => UB end.

(** Conversion to a [signed char] *)
Definition s8 (b : Z) : Z := if b mod 256 <? 128 then b mod 256 else b mod 256 - 256.

(** Conversion to [unsigned int] and [int] *)
Definition u32 (x : Z) : Z := x mod 4294967296.
Definition fits_s32 (x : Z) : bool := (-2147483648 <=? x) && (x <? 2147483648).

(** Little-endian word made of [n] bytes *)
Fixpoint load_n (n : nat) (m : bmem) (a : Z) : cres Z :=
  match n with
  | O => Ok 0
  | S n => b <- load8 m a ;; r <- load_n n m (a + 1) ;; Ok (b + 256 * r)
  end.
Definition load64 (m : bmem) (a : Z) : cres Z := load_n 8 m a.

(** Storing a byte: an address outside the allocation area between [alloc] and
    [limit] is memory the thread does not own, writing there is undefined
    behaviour. *)
Definition store8 (s : sinfo) (a v : Z) : cres sinfo :=
  if (si_alloc s <=? a) && (a <? si_limit s)
  then Ok {| si_alloc := si_alloc s; si_limit := si_limit s;
             si_mem := fun b => if b =? a then Some (v mod 256) else si_mem s b |}
  else UB.
Fixpoint store_n (n : nat) (s : sinfo) (a v : Z) : cres sinfo :=
  match n with
  | O => Ok s
  | S n => s <- store8 s a (v mod 256) ;; store_n n s (a + 1) (v / 256)
  end.
Definition store64 (s : sinfo) (a v : Z) : cres sinfo := store_n 8 s a v.

(** Advancing [tinfo->alloc] by [n] values (prim_string.c:79, 111, 143, 175) *)
Definition sbump (s : sinfo) (n : Z) : sinfo :=
  {| si_alloc := si_alloc s + 8 * n; si_limit := si_limit s; si_mem := si_mem s |}.

(** ** Reading *)

(** values.h:137-176: [Bosize_val]. *)
Definition Bosize_val (m : bmem) (v : Z) : cres Z :=
  hd <- load64 m (v - 8) ;; Ok (u64 (Wosize_hd hd * 8)).

(** prim_string.c:14-20; [Byte] is a signed [char]. *)
Definition prim_strlen (m : bmem) (s : Z) : cres Z :=
  bs <- Bosize_val m s ;;
  let temp := s64 (u64 (bs - 1)) in
  b <- load8 m (s + temp) ;;
  sub_s temp (s8 b).

(** prim_string.c:29-33: the loop, [n] iterations left, at index [i]. *)
Fixpoint cmp_loop (n : nat) (m : bmem) (x y i : Z) : cres Z :=
  match n with
  | O => Ok (u64 0)
  | S n =>
      bx <- load8 m (x + i) ;;
      by_ <- load8 m (y + i) ;;
      let cmp := s8 bx - s8 by_ in
      if cmp =? 0 then cmp_loop n m x y (i + 1) else Ok (u64 cmp)
  end.

(** prim_string.c:22-36: returns a word *)
Definition prim_string_compare (m : bmem) (x y : Z) : cres Z :=
  lenx <- prim_strlen m x ;;
  leny <- prim_strlen m y ;;
  if lenx =? leny then cmp_loop (Z.to_nat lenx) m x y 0
  else d <- sub_s lenx leny ;; Ok (Val_long d).

(** prim_string.c:38-41 *)
Definition prim_string_get (m : bmem) (x i : Z) : cres Z :=
  b <- load8 m (x + Long_val i) ;; Ok (Val_long (s8 b)).

(** prim_string.c:43-46 *)
Definition prim_string_length (m : bmem) (x : Z) : cres Z :=
  l <- prim_strlen m x ;; Ok (Val_long l).

(** prim_string.c:48-50 *)
Definition prim_string_max_length : cres Z := Ok (Val_long 1048575).

(** ** Building *)

(** [for (i = i0; n more; i++) strp[i] = f(memory, i)], the loops of
    prim_string.c:71-73, 102-104, 134-136 *)
Fixpoint fill (n : nat) (f : bmem -> Z -> cres Z) (s : sinfo) (strp i : Z) : cres sinfo :=
  match n with
  | O => Ok s
  | S n => b <- f (si_mem s) i ;; s <- store8 s (strp + i) b ;; fill n f s strp (i + 1)
  end.

(** [memcpy]; the two ranges must not overlap *)
Definition memcpy (s : sinfo) (dst src n : Z) : cres sinfo :=
  if (0 <? n) && (dst <? src + n) && (src <? dst + n) then UB
  else fill (Z.to_nat n) (fun m i => load8 m (src + i)) s dst 0.

(** prim_string.c:75-78, 107-110, 139-142, 171-174: the final loop from [j] on
    and the last byte; [words * 8 - 1 - j] iterations when that is not negative *)
Definition finish_string (s : sinfo) (strp words i : Z) : cres sinfo :=
  let j := Z.max i (8 * words - 1) in
  s <- fill (Z.to_nat (8 * words - 1 - i)) (fun _ _ => Ok 0) s strp i ;;
  store8 s (strp + j) (j - i).

Section Alloc.
  (** [garbage_collect] (gc_stack.c), called with [nalloc]; abstract here. *)
  Variable gc : sinfo -> Z -> cres sinfo.

  (** prim_string.c:57-67, 87-98, 119-130, 150-163: make sure that there are
      [n] words; the [assert] is kept *)
  Definition reserve (s : sinfo) (n : Z) : cres sinfo :=
    s <- (if n <=? (si_limit s - si_alloc s) / 8 then Ok s else gc s n) ;;
    if n <=? (si_limit s - si_alloc s) / 8 then Ok s else Abort.

  (** prim_string.c:52-81, on a C string given by its bytes before the
      terminating zero.  [words] is an [unsigned int], so the header is computed
      in 32 bits.  [int i] overflows for more than [2^31 - 1] bytes. *)
  Definition mk_ocaml_string (s : sinfo) (str : list Z) : cres (sinfo * Z) :=
    let len := Z.of_nat (length str) in
    let words := u32 (len / 8 + 1) in
    s <- reserve s (u32 (words + 1)) ;;
    let alloc := si_alloc s in
    s <- store64 s alloc (Z.lor 252 (u32 (words * 1024))) ;;
    let strp := alloc + 8 in
    if negb (fits_s32 (len + 8)) then UB else
    s <- fill (length str) (fun _ i => Ok (nth (Z.to_nat i) str 0)) s strp 0 ;;
    s <- finish_string s strp words len ;;
    Ok (sbump s (words + 1), alloc + 8).

  (** prim_string.c:83-113: [bytes] and [d] are used as they are, tagged;
      [i] is an [int] *)
  Definition prim_string_make (s : sinfo) (bytes d : Z) : cres (sinfo * Z) :=
    let ch := d mod 256 in
    let words := u64 (Z.quot (s64 bytes) 8 + 1) in
    s <- reserve s words ;;
    let alloc := si_alloc s in
    s <- store64 s alloc (Z.lor 252 (u64 (words * 1024))) ;;
    let strp := alloc + 8 in
    if negb (fits_s32 (s64 bytes + 8)) then UB else
    s <- fill (Z.to_nat (s64 bytes)) (fun _ _ => Ok ch) s strp 0 ;;
    s <- finish_string s strp words (Z.max 0 (s64 bytes)) ;;
    Ok (sbump s words, alloc + 8).

  (** prim_string.c:115-145: [from] and [len] are used as they are, tagged *)
  Definition prim_string_sub (s : sinfo) (x from len : Z) : cres (sinfo * Z) :=
    let words := u64 (Z.quot (s64 len) 8 + 1) in
    s <- reserve s words ;;
    let alloc := si_alloc s in
    s <- store64 s alloc (Z.lor 252 (u64 (words * 1024))) ;;
    let strp := alloc + 8 in
    if negb (fits_s32 (s64 len + 8)) then UB else
    s <- fill (Z.to_nat (s64 len)) (fun m i => load8 m (x + (s64 from + i))) s strp 0 ;;
    s <- finish_string s strp words (Z.max 0 (s64 len)) ;;
    Ok (sbump s words, alloc + 8).

  (** prim_string.c:147-177; the lengths are read before the collection, the
      bytes after it *)
  Definition prim_string_cat (s : sinfo) (x y : Z) : cres (sinfo * Z) :=
    lenx <- prim_strlen (si_mem s) x ;;
    leny <- prim_strlen (si_mem s) y ;;
    let words := u64 ((lenx + leny) / 8 + 1) in
    s <- reserve s words ;;
    let alloc := si_alloc s in
    s <- store64 s alloc (Z.lor 252 (u64 (words * 1024))) ;;
    let strp := alloc + 8 in
    if negb (fits_s32 (lenx + leny + 8)) then UB else
    s <- memcpy s strp x lenx ;;
    s <- memcpy s (strp + lenx) y leny ;;
    s <- finish_string s strp words (lenx + leny) ;;
    Ok (sbump s words, alloc + 8).
End Alloc.

(** ** String literals of the C back end *)

(** LambdaANF_to_Clight_stack.v:17-65: the characters packed eight to a word,
    the last byte of the last word holding the number of bytes to trim *)
Fixpoint encode_list (l : list Z) : list Z :=
  match l with
  | [] => [7 * 2 ^ 56]
  | [x] => [6 * 2 ^ 56 + x]
  | [x; y] => [5 * 2 ^ 56 + x + 2 ^ 8 * y]
  | [x; y; z] => [4 * 2 ^ 56 + x + 2 ^ 8 * y + 2 ^ 16 * z]
  | [x; y; z; w] => [3 * 2 ^ 56 + x + 2 ^ 8 * y + 2 ^ 16 * z + 2 ^ 24 * w]
  | [x; y; z; w; lx] =>
      [2 * 2 ^ 56 + x + 2 ^ 8 * y + 2 ^ 16 * z + 2 ^ 24 * w + 2 ^ 32 * lx]
  | [x; y; z; w; lx; ly] =>
      [1 * 2 ^ 56 + x + 2 ^ 8 * y + 2 ^ 16 * z + 2 ^ 24 * w + 2 ^ 32 * lx + 2 ^ 40 * ly]
  | [x; y; z; w; lx; ly; lz] =>
      [x + 2 ^ 8 * y + 2 ^ 16 * z + 2 ^ 24 * w + 2 ^ 32 * lx + 2 ^ 40 * ly + 2 ^ 48 * lz]
  | x :: y :: z :: w :: lx :: ly :: lz :: lw :: l =>
      (x + 2 ^ 8 * y + 2 ^ 16 * z + 2 ^ 24 * w + 2 ^ 32 * lx + 2 ^ 40 * ly + 2 ^ 48 * lz + 2 ^ 56 * lw)
        :: encode_list l
  end.

(** storing consecutive words from address [a] on: the assignments
    [Field(x, i) = w_i] of LambdaANF_to_Clight_stack.v:873-877 *)
Fixpoint store_words (s : sinfo) (a : Z) (ws : list Z) : cres sinfo :=
  match ws with
  | [] => Ok s
  | w :: ws => s <- store64 s a (w mod W64) ;; store_words s (a + 8) ws
  end.

(** LambdaANF_to_Clight_stack.v:864-877: executing the statement for the
    literal; [alloc] is advanced first, so the stores are below it.  No check of
    the room here: the enclosing function reserves it (see C36). *)
Definition compile_string (s : sinfo) (str : list Z) : cres (sinfo * Z) :=
  let len := Z.of_nat (length str) in
  let words := len / 8 + 1 in
  let tag := words * 1024 + 252 in
  let x := si_alloc s + 8 in
  s' <- store64 s (x - 8) (tag mod W64) ;;
  s' <- store_words s' x (encode_list str) ;;
  Ok (sbump s' (words + 1), x).
