(** Model of the primitive 63-bit integer operations of the C runtime.

    Models: /repo/runtime/prim_int63.c (whole file, except the [trace] macro, which
    expands to nothing, and the two unused constructors [..._carry_C0/_C1/_pair] that
    write to a caller-supplied array, lines 200-205, 229-234, 265-271).

    Values are words (unsigned view).  Local C variables of type [unsigned long long]
    are words; locals of type [signed long long]/[value] used in comparisons are taken
    through [s64]. *)
From Coq Require Import ZArith Lia Bool.
From Verif Require Import RT_Word RT_Values.
Open Scope Z_scope.
Open Scope c_scope.

(** prim_int63.c:12 *)
Definition maxuint63 : Z := 9223372036854775807.

(** prim_int63.c:14-18 *)
Definition prim_int63_add (x y : Z) : cres Z :=
  Ok (Val_long (u64 (Unsigned_long_val x + Unsigned_long_val y))).

(** prim_int63.c:20-26 *)
Definition prim_int63_sub (x y : Z) : cres Z :=
  let xr := Unsigned_long_val x in
  let yr := Unsigned_long_val y in
  Ok (Val_long (u64 (xr - yr))).

(** prim_int63.c:28-32 *)
Definition prim_int63_mul (x y : Z) : cres Z :=
  Ok (Val_long (u64 (Unsigned_long_val x * Unsigned_long_val y))).

(** prim_int63.c:34-40 *)
Definition prim_int63_mod (x y : Z) : cres Z :=
  let yr := Unsigned_long_val y in
  if yr =? 0 then Ok x
  else r <- rem_u (Unsigned_long_val x) (Unsigned_long_val y) ;; Ok (Val_long r).

(** prim_int63.c:42-48 *)
Definition prim_int63_div (x y : Z) : cres Z :=
  let yr := Unsigned_long_val y in
  if yr =? 0 then Ok (Val_long 0)
  else r <- div_u (Unsigned_long_val x) (Unsigned_long_val y) ;; Ok (Val_long r).

(** prim_int63.c:50-56 *)
Definition prim_int63_mods (x y : Z) : cres Z :=
  let yr := Long_val y in
  if yr =? 0 then Ok x
  else r <- rem_u (Unsigned_long_val x) (Unsigned_long_val y) ;; Ok (Val_long r).

(** prim_int63.c:58-64 *)
Definition prim_int63_divs (x y : Z) : cres Z :=
  let yr := Long_val y in
  if yr =? 0 then Ok (Val_long 0)
  else r <- div_s (Long_val x) yr ;; Ok (Val_long r).

(** prim_int63.c:66-72 *)
Definition prim_int63_land (x y : Z) : cres Z :=
  Ok (Val_long (Z.land (Unsigned_long_val x) (Unsigned_long_val y))).

(** prim_int63.c:73-80 *)
Definition prim_int63_lsl (x y : Z) : cres Z :=
  let xr := Unsigned_long_val x in
  let yr := Unsigned_long_val y in
  if (0 <=? yr) && (yr <? 63) then r <- shl_u xr yr ;; Ok (Val_long r)
  else Ok (Val_long 0).

(** prim_int63.c:82-89 *)
Definition prim_int63_lsr (x y : Z) : cres Z :=
  let xr := Unsigned_long_val x in
  let yr := Unsigned_long_val y in
  if (0 <=? yr) && (yr <? 63) then r <- shr_u xr yr ;; Ok (Val_long r)
  else Ok (Val_long 0).

(** prim_int63.c:91-98: [xr] is declared signed but initialised with the unsigned
    value of [x]. *)
Definition prim_int63_asr (x y : Z) : cres Z :=
  let xr := s64 (Unsigned_long_val x) in
  let yr := Unsigned_long_val y in
  if (0 <=? yr) && (yr <? 63) then r <- shr_s xr yr ;; Ok (Val_long r)
  else Ok (Val_long 0).

(** prim_int63.c:100-107 *)
Definition prim_int63_lor (x y : Z) : cres Z :=
  Ok (Val_long (Z.lor (Unsigned_long_val x) (Unsigned_long_val y))).
Definition prim_int63_lxor (x y : Z) : cres Z :=
  Ok (Val_long (Z.lxor (Unsigned_long_val x) (Unsigned_long_val y))).

(** One line [if ((x & mask) == 0) { x = (x << sh) & maxuint63; r = r + sh; }] of
    prim_int63.c:115-119. *)
Definition head0_step (mask sh : Z) (xr : Z * Z) : cres (Z * Z) :=
  let '(x, r) := xr in
  if Z.land x mask =? 0
  then x' <- shl_u x sh ;; Ok (Z.land x' maxuint63, u64 (r + sh))
  else Ok (x, r).

(** prim_int63.c:109-123 *)
Definition prim_int63_head0 (init : Z) : cres Z :=
  let x := Unsigned_long_val init in
  p <- (if Z.land x 9223372032559808512 (* 0x7FFFFFFF00000000 *) =? 0
        then Ok (x, 31) else x' <- shr_u x 31 ;; Ok (x', 0)) ;;
  p <- head0_step 4294901760 (* 0xFFFF0000 *) 16 p ;;
  p <- head0_step 4278190080 (* 0xFF000000 *) 8 p ;;
  p <- head0_step 4026531840 (* 0xF0000000 *) 4 p ;;
  p <- head0_step 3221225472 (* 0xC0000000 *) 2 p ;;
  '(x, r) <- head0_step 2147483648 (* 0x80000000 *) 1 p ;;
  let r := if Z.land x 2147483648 =? 0 then u64 (r + 1) else r in
  Ok (Val_long r).

(** One line [if ((x & mask) == 0) { x = x >> sh; r = r + sh; }] of
    prim_int63.c:130-134. *)
Definition tail0_step (mask sh : Z) (xr : Z * Z) : cres (Z * Z) :=
  let '(x, r) := xr in
  if Z.land x mask =? 0
  then x' <- shr_u x sh ;; Ok (x', u64 (r + sh))
  else Ok (x, r).

(** prim_int63.c:125-137 *)
Definition prim_int63_tail0 (init : Z) : cres Z :=
  let x := Unsigned_long_val init in
  p <- tail0_step 4294967295 (* 0xFFFFFFFF *) 32 (x, 0) ;;
  p <- tail0_step 65535 (* 0xFFFF *) 16 p ;;
  p <- tail0_step 255 (* 0xFF *) 8 p ;;
  p <- tail0_step 15 (* 0xF *) 4 p ;;
  '(x, r) <- tail0_step 3 (* 0x3 *) 2 p ;;
  let r := if Z.land x 1 =? 0 then u64 (r + 1) else r in
  Ok (Val_long r).

(** prim_int63.c:139-143 *)
Definition mk_bool (b : bool) : Z := if b then 3 else 1.

(** prim_int63.c:145-151 *)
Definition prim_int63_eqb (x y : Z) : cres Z :=
  Ok (mk_bool (Unsigned_long_val x =? Unsigned_long_val y)).

(** prim_int63.c:152-156: compares the tagged words as signed [value]s. *)
Definition prim_int63_leb (x y : Z) : cres Z := Ok (mk_bool (s64 x <=? s64 y)).

(** prim_int63.c:158-164 *)
Definition SLong_val (x : Z) : cres Z := shr_s (s64 x) 1.
Definition prim_int63_lesb (x y : Z) : cres Z :=
  xr <- SLong_val x ;; yr <- SLong_val y ;; Ok (mk_bool (xr <=? yr)).

(** prim_int63.c:165-169 *)
Definition prim_int63_ltb (x y : Z) : cres Z := Ok (mk_bool (s64 x <? s64 y)).

(** prim_int63.c:170-174 *)
Definition prim_int63_ltsb (x y : Z) : cres Z :=
  xr <- SLong_val x ;; yr <- SLong_val y ;; Ok (mk_bool (xr <? yr)).

(** prim_int63.c:176-186 *)
Definition prim_int63_compare (x y : Z) : cres Z :=
  let xr := s64 (Unsigned_long_val x) in
  let yr := s64 (Unsigned_long_val y) in
  result <- sub_s xr yr ;;
  Ok (if result =? 0 then 1 else if result <? 0 then 3 else 5).

(** prim_int63.c:188-198 *)
Definition prim_int63_compares (x y : Z) : cres Z :=
  xr <- SLong_val x ;; yr <- SLong_val y ;;
  result <- sub_s xr yr ;;
  Ok (if result =? 0 then 1 else if result <? 0 then 3 else 5).

(** ** Allocation of results

    The part of [struct thread_info] (gc_stack.h:131-139) that the primitives touch:
    allocation pointer, limit (byte addresses of aligned words) and memory (byte address
    of an aligned word to its contents). *)
Record tinfo : Type := { ti_alloc : Z; ti_limit : Z; ti_mem : Z -> Z }.

(** Storing a word: an address outside the allocation area between [alloc] and [limit]
    is memory the thread does not own, writing there is undefined behaviour. *)
Definition store_fresh (ti : tinfo) (a v : Z) : cres tinfo :=
  if (ti_alloc ti <=? a) && (a + 8 <=? ti_limit ti)
  then Ok {| ti_alloc := ti_alloc ti; ti_limit := ti_limit ti;
             ti_mem := fun b => if b =? a then v else ti_mem ti b |}
  else UB.

(** [$tinfo->alloc = $tinfo->alloc + n]: pointer arithmetic on [value *]. *)
Definition bump (ti : tinfo) (n : Z) : tinfo :=
  {| ti_alloc := ti_alloc ti + 8 * n; ti_limit := ti_limit ti; ti_mem := ti_mem ti |}.

Section Alloc.
(** [garbage_collect] (gc_stack.c), called with [nalloc]; abstract here. *)
Variable gc : tinfo -> Z -> cres tinfo.

(** The shared body of prim_int63.c:207-227 ([hdr] = 1024) and 236-253 ([hdr] = 1025). *)
Definition alloc_carry (hdr : Z) (ti : tinfo) (arg0 : Z) : cres (tinfo * Z) :=
  ti <- (if 2 <=? (ti_limit ti - ti_alloc ti) / 8 then Ok ti else gc ti 2) ;;
  let alloc := ti_alloc ti in
  ti <- store_fresh ti (alloc + 0) hdr ;;
  ti <- store_fresh ti (alloc + 8) arg0 ;;
  Ok (bump ti 2, alloc + 8).

(** prim_int63.c:255-263 *)
Definition mk_C0 := alloc_carry 1024.
Definition mk_C1 := alloc_carry 1025.

(** prim_int63.c:273-288: no check of the remaining space. *)
Definition mk_pair (ti : tinfo) (arg0 arg1 : Z) : cres (tinfo * Z) :=
  let argv := ti_alloc ti in
  ti <- store_fresh ti (argv + 0) 2048 ;;
  ti <- store_fresh ti (argv + 8) arg0 ;;
  ti <- store_fresh ti (argv + 16) arg1 ;;
  Ok (bump ti 3, argv + 8).

(** prim_int63.c:290-299 *)
Definition prim_int63_addc (ti : tinfo) (x y : Z) : cres (tinfo * Z) :=
  let xr := Unsigned_long_val x in
  let yr := Unsigned_long_val y in
  let r := u64 (xr + yr) in
  if r <? xr then mk_C1 ti (Val_long r) else mk_C0 ti (Val_long r).

(** prim_int63.c:301-307: [r] has type [value], the comparison is signed and against
    the tagged [x]. *)
Definition prim_int63_addcarryc (ti : tinfo) (x y : Z) : cres (tinfo * Z) :=
  let r := u64 (Unsigned_long_val x + Unsigned_long_val y + 1) in
  if s64 r <=? s64 x then mk_C1 ti (Val_long r) else mk_C0 ti (Val_long r).

(** prim_int63.c:309-317 *)
Definition prim_int63_subc (ti : tinfo) (x y : Z) : cres (tinfo * Z) :=
  let r := u64 (Unsigned_long_val x - Unsigned_long_val y) in
  if s64 y <=? s64 x then mk_C0 ti (Val_long r) else mk_C1 ti (Val_long r).

(** prim_int63.c:319-325 *)
Definition prim_int63_subcarryc (ti : tinfo) (x y : Z) : cres (tinfo * Z) :=
  let r := u64 (Unsigned_long_val x - Unsigned_long_val y - 1) in
  if s64 y <? s64 x then mk_C0 ti (Val_long r) else mk_C1 ti (Val_long r).

(** prim_int63.c:327-349: the two halves computed by [mulc_aux]. *)
Definition mulc_aux_words (x y : Z) : cres (Z * Z) :=
  let lx := Z.land x 2147483647 in
  let ly := Z.land y 2147483647 in
  hx <- shr_u x 31 ;;
  hy <- shr_u y 31 ;;
  let hxy := u64 (hx * hy) in
  let hxly := u64 (hx * ly) in
  let lxhy := u64 (lx * hy) in
  let lxy := u64 (lx * ly) in
  hxy62 <- shl_u hxy 62 ;;
  let l := Z.lor lxy hxy62 in
  h <- shr_u hxy 1 ;;
  let hl := Z.land (u64 (hxly + lxhy)) maxuint63 in
  let h := if hl <? hxly then u64 (h + 2147483648) else h in
  hl31 <- shl_u hl 31 ;;
  let hl2 := Z.land hl31 maxuint63 in
  let l := Z.land (u64 (l + hl2)) maxuint63 in
  let h := if l <? hl2 then u64 (h + 1) else h in
  hl32 <- shr_u hl 32 ;;
  let h := u64 (h + hl32) in
  Ok (h, l).

(** prim_int63.c:350 *)
Definition mulc_aux (ti : tinfo) (x y : Z) : cres (tinfo * Z) :=
  '(h, l) <- mulc_aux_words x y ;;
  mk_pair ti (Val_long h) (Val_long l).

(** prim_int63.c:353-373 *)
Definition prim_int63_mulc (ti : tinfo) (xp yp : Z) : cres (tinfo * Z) :=
  let x := Unsigned_long_val xp in
  let y := Unsigned_long_val yp in
  x62 <- shr_u x 62 ;;
  y62 <- shr_u y 62 ;;
  if (x62 =? 0) || (y62 =? 0) then mulc_aux ti x y
  else
    let yl := Z.lxor y 4611686018427387904 in
    '(ti, p) <- mulc_aux ti x yl ;;
    let h := Unsigned_long_val (ti_mem ti (p + 0)) in
    let l := Unsigned_long_val (ti_mem ti (p + 8)) in
    x62 <- shl_u x 62 ;;
    let l2 := u64 (l + x62) in
    let h := if l2 <? l then u64 (h + 1) else h in
    x1 <- shr_u x 1 ;;
    let h := u64 (h + x1) in
    mk_pair ti (Val_long h) (Val_long l2).

(** The body of the loop prim_int63.c:397-400. *)
Definition diveucl_21_step (y : Z) (s : Z * Z * Z) : cres (Z * Z * Z) :=
  let '(nh, nl, q) := s in
  nh1 <- shl_u nh 1 ;;
  nl62 <- shr_u nl 62 ;;
  let nh := Z.lor nh1 nl62 in
  nl1 <- shl_u nl 1 ;;
  let nl := Z.land nl1 maxuint63 in
  q <- shl_u q 1 ;;
  if y <=? nh then Ok (u64 (nh - y), nl, Z.lor q 1) else Ok (nh, nl, q).

(** The loop prim_int63.c:394-401. *)
Fixpoint diveucl_21_loop (n : nat) (y : Z) (s : Z * Z * Z) : cres (Z * Z * Z) :=
  match n with
  | O => Ok s
  | S n => s <- diveucl_21_step y s ;; diveucl_21_loop n y s
  end.

(** prim_int63.c:383-404 *)
Definition prim_int63_diveucl_21_long (ti : tinfo) (xh xl y : Z) : cres (tinfo * Z) :=
  let nh := Z.land xh maxuint63 in
  let nl := Z.land xl maxuint63 in
  '(nh, nl, q) <- diveucl_21_loop 63 y (nh, nl, 0) ;;
  mk_pair ti (Val_long q) (Val_long (Z.land nh 18446744073709551615)).

(** prim_int63.c:406-413 *)
Definition prim_int63_diveucl_21 (ti : tinfo) (xh xl y : Z) : cres (tinfo * Z) :=
  let xhl := Unsigned_long_val xh in
  let xll := Unsigned_long_val xl in
  let yl := Unsigned_long_val y in
  if yl <=? xhl then mk_pair ti (Val_long 0) (Val_long 0)
  else prim_int63_diveucl_21_long ti xhl xll yl.

(** prim_int63.c:415-423 *)
Definition prim_int63_diveucl (ti : tinfo) (xp yp : Z) : cres (tinfo * Z) :=
  let x := Unsigned_long_val xp in
  let y := Unsigned_long_val yp in
  if y =? 0 then mk_pair ti (Val_long 0) (Val_long x)
  else q <- div_u x y ;; r <- rem_u x y ;; mk_pair ti (Val_long q) (Val_long r).
End Alloc.

(** prim_int63.c:425-439 *)
Definition prim_int63_addmuldiv (pp xp yp : Z) : cres Z :=
  let p := Unsigned_long_val pp in
  let x := Unsigned_long_val xp in
  let y := Unsigned_long_val yp in
  if 63 <? p then Ok (Val_long 0)
  else xs <- shl_u x p ;; ys <- shr_u y (u64 (63 - p)) ;;
       Ok (Val_long (Z.lor (Z.land xs maxuint63) ys)).
