(** Unbounded integers of the runtime.

    Models: /repo/runtime/certirocq_gmp.c, all functions called from compiled programs
    (/repo/plugin/GMP.v:65-103).  Simplified: a [gmp_int] is either an immediate word or a block
    that points to a GMP number, and the block is represented by that number; the block itself is
    modelled by [mk_gmp_int_block] below.  The GMP functions are trusted to be the integer functions
    of the GMP manual; an [mpz_t] that has not been initialised is [None] and using it is
    undefined.  [z_to_string] (printf) is not modelled. *)
From Coq Require Import ZArith Lia Bool List.
From Verif Require Import RT_Word RT_Values RT_Int63Model.
Import ListNotations.
Open Scope Z_scope.
Open Scope c_scope.

(** certirocq_gmp.c:12: a tagged word or a boxed GMP number. *)
Inductive gmp_int : Type :=
| Imm (w : Z)
| Big (z : Z).

(** An [mpz_ptr] fresh from [malloc] holds nothing until one of the [mpz_init] functions is called. *)
Definition mpz := option Z.

(** [malloc(sizeof(__mpz_struct))] *)
Definition fresh_mpz : mpz := None.
(** [mpz_init] of the GMP manual, section 5.1. *)
Definition mpz_init (_ : mpz) : mpz := Some 0.

(** The arithmetic functions [mpz_f(rop, op1, op2)] need an initialised [rop]. *)
Definition mpz_op2 (f : Z -> Z -> Z) (rop : mpz) (x y : Z) : cres mpz :=
  match rop with Some _ => Ok (Some (f x y)) | None => UB end.
Definition mpz_op1 (f : Z -> Z) (rop : mpz) (x : Z) : cres mpz :=
  match rop with Some _ => Ok (Some (f x)) | None => UB end.

(** certirocq_gmp.c:55-78, the number seen through the block (the block: [mk_gmp_int_block]).  Line
    59 prints the number, so an uninitialised one is undefined already there. *)
Definition mk_gmp_int (x : mpz) : cres gmp_int :=
  match x with Some z => Ok (Big z) | None => UB end.

(** certirocq_gmp.c:22-31: [mpz_init_set_ui] takes an [unsigned long]. *)
Definition mpz_of_value (x : gmp_int) : Z :=
  match x with Imm w => u64 (Long_val w) | Big z => z end.

(** certirocq_gmp.c:80-86 *)
Definition z_zero : gmp_int := Imm (Val_long 0).
Definition z_one : gmp_int := Imm (Val_long 1).

(** certirocq_gmp.c:88-93 *)
Definition gmp_succ (x : Z) : cres gmp_int :=
  r <- mpz_op1 (fun x => x + 1) (mpz_init fresh_mpz) x ;; mk_gmp_int r.

(** certirocq_gmp.c:95-106 *)
Definition z_succ (x : gmp_int) : cres gmp_int :=
  match x with
  | Imm w =>
      let y := Long_val w in
      if y <? Max_long then y1 <- add_s y 1 ;; Ok (Imm (Val_long y1)) else gmp_succ (mpz_of_value x)
  | Big z => gmp_succ z
  end.

(** certirocq_gmp.c:108-113 *)
Definition gmp_pred (x : Z) : cres mpz := mpz_op1 (fun x => x - 1) (mpz_init fresh_mpz) x.

(** certirocq_gmp.c:115-123 *)
Definition z_pred (x : gmp_int) : cres gmp_int :=
  match x with
  | Imm w =>
      let y := Long_val w in
      if y >? Min_long then y1 <- sub_s y 1 ;; Ok (Imm (Val_long y1))
      else r <- gmp_pred (mpz_of_value x) ;; mk_gmp_int r
  | Big _ => r <- gmp_pred (mpz_of_value x) ;; mk_gmp_int r
  end.

(** certirocq_gmp.c:125-133 *)
Definition z_is_zero (x : gmp_int) : bool :=
  match x with Imm w => Long_val w =? 0 | Big z => z =? 0 end.

(** certirocq_gmp.c:135-141 *)
Definition gmp_nat_pred (x : Z) : cres mpz := if x =? 0 then Ok (Some x) else gmp_pred x.

(** certirocq_gmp.c:143-152 *)
Definition z_nat_pred (x : gmp_int) : cres gmp_int :=
  match x with
  | Imm w =>
      let y := Unsigned_long_val w in
      if y =? 0 then Ok x else Ok (Imm (Val_long (u64 (y - 1))))
  | Big z => r <- gmp_nat_pred z ;; mk_gmp_int r
  end.

(** certirocq_gmp.c:154-164 and 166-176: which closure is called and on what. *)
Inductive called : Type := CallZero (x : gmp_int) | CallSucc (x : gmp_int).
Definition z_nat_case (discr : gmp_int) : cres called :=
  if z_is_zero discr then Ok (CallZero discr)
  else p <- z_nat_pred discr ;; Ok (CallSucc p).

(** [labs] of the C library, undefined on [LONG_MIN]. *)
Definition labs (x : Z) : cres Z := if fits_s64 (Z.abs x) then Ok (Z.abs x) else UB.

(** certirocq_gmp.c:177-182 *)
Definition gmp_abs (x : Z) : cres gmp_int :=
  r <- mpz_op1 Z.abs (mpz_init fresh_mpz) x ;; mk_gmp_int r.

(** certirocq_gmp.c:184-189: [Long_val (labs (Val_long(x)))]. *)
Definition z_abs (x : gmp_int) : cres gmp_int :=
  match x with
  | Imm w => r <- labs (s64 (Val_long w)) ;; Ok (Imm (u64 (Long_val r)))
  | Big z => gmp_abs z
  end.

(** certirocq_gmp.c:191-196 *)
Definition gmp_neg (x : Z) : cres gmp_int :=
  r <- mpz_op1 Z.opp (mpz_init fresh_mpz) x ;; mk_gmp_int r.

(** certirocq_gmp.c:198-207 ([mpz_init_set_si] takes a [signed long]). *)
Definition z_neg (x : gmp_int) : cres gmp_int :=
  match x with
  | Imm w =>
      let y := Long_val w in
      if y <? Max_long then y1 <- neg_s y ;; Ok (Imm (Val_long y1)) else gmp_neg y
  | Big z => gmp_neg z
  end.

(** certirocq_gmp.c:209-213: no [mpz_init]. *)
Definition gmp_add (x y : Z) : cres gmp_int :=
  r <- mpz_op2 Z.add fresh_mpz x y ;; mk_gmp_int r.

(** certirocq_gmp.c:215-229 *)
Definition z_add (x y : gmp_int) : cres gmp_int :=
  match x, y with
  | Imm v, Imm w =>
      s <- add_s (Long_val v) (Long_val w) ;;
      let z := u64 s in
      top <- shl_u 1 63 ;;
      if Z.land top z =? 0 then Ok (Imm (Val_long z)) else gmp_add (mpz_of_value x) (mpz_of_value y)
  | _, _ => gmp_add (mpz_of_value x) (mpz_of_value y)
  end.

(** The functions of the form [mpz_init(res); mpz_f(res, x, y); return mk_gmp_int(tinfo, res)]:
    certirocq_gmp.c:231-236, 247-252, 302-307, 317-322, 332-337. *)
Definition gmp_op2 (f : Z -> Z -> Z) (x y : Z) : cres gmp_int :=
  r <- mpz_op2 f (mpz_init fresh_mpz) x y ;; mk_gmp_int r.

(** certirocq_gmp.c:238-245 *)
Definition z_sub (x y : gmp_int) : cres gmp_int :=
  match x, y with
  | Imm v, Imm w => s <- sub_s (Long_val v) (Long_val w) ;; Ok (Imm (Val_long s))
  | _, _ => gmp_op2 Z.sub (mpz_of_value x) (mpz_of_value y)
  end.

(** certirocq_gmp.c:254-260 *)
Definition z_mul (x y : gmp_int) : cres gmp_int := gmp_op2 Z.mul (mpz_of_value x) (mpz_of_value y).

(** Division rounding towards plus infinity, [mpz_cdiv_q] of the GMP manual, section 5.6. *)
Definition cdiv (x y : Z) : Z := - (- x / y).

(** certirocq_gmp.c:262-267; GMP raises a division-by-zero trap. *)
Definition gmp_div (x y : Z) : cres gmp_int :=
  if y =? 0 then Abort else gmp_op2 cdiv x y.

(** certirocq_gmp.c:269-274 *)
Definition z_div (x y : gmp_int) : cres gmp_int :=
  match x, y with
  | Imm v, Imm w => s <- div_s (Long_val v) (Long_val w) ;; Ok (Imm (Val_long s))
  | _, _ => gmp_div (mpz_of_value x) (mpz_of_value y)
  end.

(** certirocq_gmp.c:283-288: the last line calls [gmp_add]. *)
Definition z_rem (x y : gmp_int) : cres gmp_int :=
  match x, y with
  | Imm v, Imm w => s <- rem_s (Long_val v) (Long_val w) ;; Ok (Imm (Val_long s))
  | _, _ => gmp_add (mpz_of_value x) (mpz_of_value y)
  end.

(** certirocq_gmp.c:290-300; [mpz_get_ui] returns the low bits of the absolute value. *)
Definition z_pow (x y : gmp_int) : cres gmp_int :=
  gmp_op2 (fun x y => x ^ (u64 (Z.abs y))) (mpz_of_value x) (mpz_of_value y).

(** certirocq_gmp.c:309-315 *)
Definition z_logand (x y : gmp_int) : cres gmp_int :=
  match x, y with
  | Imm v, Imm w => Ok (Imm (Val_long (Z.land (Long_val v) (Long_val w))))
  | _, _ => gmp_op2 Z.land (mpz_of_value x) (mpz_of_value y)
  end.

(** certirocq_gmp.c:324-330 *)
Definition z_logor (x y : gmp_int) : cres gmp_int :=
  match x, y with
  | Imm v, Imm w => Ok (Imm (Val_long (Z.lor (Long_val v) (Long_val w))))
  | _, _ => gmp_op2 Z.lor (mpz_of_value x) (mpz_of_value y)
  end.

(** certirocq_gmp.c:339-345 *)
Definition z_logxor (x y : gmp_int) : cres gmp_int :=
  match x, y with
  | Imm v, Imm w => Ok (Imm (Val_long (Z.lxor (Long_val v) (Long_val w))))
  | _, _ => gmp_op2 Z.lxor (mpz_of_value x) (mpz_of_value y)
  end.

(** certirocq_gmp.c:347-360 *)
Definition z_lognot (x : gmp_int) : cres gmp_int :=
  match x with
  | Imm w => Ok (Imm (Val_long (Z.lnot (Long_val w))))
  | Big z => r <- mpz_op1 Z.lnot (mpz_init fresh_mpz) z ;; mk_gmp_int r
  end.

Section Compare.
(** [mpz_cmp]: only the sign of its result is specified by the GMP manual, section 5.10. *)
Variable mpz_cmp : Z -> Z -> Z.

(** certirocq_gmp.c:362-372 *)
Definition z_compare (x y : gmp_int) : cres Z :=
  match x, y with
  | Imm v, Imm w => prim_int63_compares v w
  | _, _ => Ok (Val_long (mpz_cmp (mpz_of_value x) (mpz_of_value y)))
  end.

(** certirocq_gmp.c:374-384 *)
Definition z_equal (x y : gmp_int) : cres Z :=
  match x, y with
  | Imm v, Imm w => Ok (mk_bool (v =? w))
  | _, _ => Ok (mk_bool (mpz_cmp (mpz_of_value x) (mpz_of_value y) =? 0))
  end.

(** certirocq_gmp.c:386-396: [mk_bool (mpz_cmp (x, y) ? 0 : 1)]. *)
Definition z_leq (x y : gmp_int) : cres Z :=
  match x, y with
  | Imm v, Imm w => prim_int63_lesb v w
  | _, _ => Ok (mk_bool (if negb (mpz_cmp (mpz_of_value x) (mpz_of_value y) =? 0) then false else true))
  end.

(** certirocq_gmp.c:398-409 *)
Definition z_geq (x y : gmp_int) : cres Z :=
  match x, y with
  | Imm v, Imm w => prim_int63_lesb w v
  | _, _ => Ok (mk_bool (mpz_cmp (mpz_of_value x) (mpz_of_value y) >=? 0))
  end.

(** certirocq_gmp.c:411-420 *)
Definition z_gt (x y : gmp_int) : cres Z :=
  match x, y with
  | Imm v, Imm w => prim_int63_ltsb w v
  | _, _ => Ok (mk_bool (mpz_cmp (mpz_of_value x) (mpz_of_value y) >? 0))
  end.

(** certirocq_gmp.c:422-432: the immediates are compared as (signed) words. *)
Definition z_lt (x y : gmp_int) : cres Z :=
  match x, y with
  | Imm v, Imm w => Ok (mk_bool (s64 v <? s64 w))
  | _, _ => Ok (mk_bool (mpz_cmp (mpz_of_value x) (mpz_of_value y) <? 0))
  end.

(** certirocq_gmp.c:434-440 *)
Definition z_max (x y : gmp_int) : cres gmp_int :=
  match x, y with
  | Imm v, Imm w => Ok (if Long_val v >? Long_val w then x else y)
  | _, _ => Ok (if negb (mpz_cmp (mpz_of_value x) (mpz_of_value y) =? 0) then x else y)
  end.

(** certirocq_gmp.c:442-448 *)
Definition z_min (x y : gmp_int) : cres gmp_int :=
  match x, y with
  | Imm v, Imm w => Ok (if Long_val v <? Long_val w then x else y)
  | _, _ => Ok (if negb (mpz_cmp (mpz_of_value x) (mpz_of_value y) =? 0) then y else x)
  end.
End Compare.

(** certirocq_gmp.c:454-456 *)
Definition z_of_int (x : Z) : gmp_int := Imm x.

(** certirocq_gmp.c:458-476.  [parse] is what [mpz_set_str] reads; it needs an initialised number,
    and line 460 only calls [malloc].  [assert] and the copying loop do not matter for that. *)
Definition z_of_string (parse : list Z -> option Z) (bytes : list Z) : cres gmp_int :=
  match fresh_mpz with
  | None => UB
  | Some _ => match parse bytes with Some z => mk_gmp_int (Some z) | None => Abort end
  end.

Section Alloc.
Variable gc : tinfo -> Z -> cres tinfo.

(** certirocq_gmp.c:55-78: the block around the [mpz_ptr] [x]. *)
Definition mk_gmp_int_block (ti : tinfo) (x : Z) : cres (tinfo * Z) :=
  ti <- (if 2 <=? (ti_limit ti - ti_alloc ti) / 8 then Ok ti else gc ti 2) ;;
  let alloc := ti_alloc ti in
  ti <- store_fresh ti (alloc + 0) (Z.lor No_scan_tag (1 * 2 ^ 10)) ;;
  ti <- store_fresh ti (alloc + 8) x ;;
  Ok (bump ti 2, alloc + 8).

(** [memset] of whole words (C library). *)
Fixpoint zero_words (ti : tinfo) (a : Z) (n : nat) : cres tinfo :=
  match n with
  | O => Ok ti
  | S n => ti <- store_fresh ti a 0 ;; zero_words ti (a + 8) n
  end.

(** certirocq_gmp.c:500-530, the allocator given to GMP by [init_gmp_alloc]; [tinfo->alloc] is not
    advanced. *)
Definition allocate_function (ti : tinfo) (alloc_size : Z) : cres (tinfo * Z) :=
  let words := if alloc_size mod 8 =? 0 then alloc_size / 8 + 1 else alloc_size / 8 + 2 in
  ti <- (if words <=? (ti_limit ti - ti_alloc ti) / 8 then Ok ti else gc ti words) ;;
  let alloc := ti_alloc ti in
  if words <=? (ti_limit ti - ti_alloc ti) / 8 then
    ti <- store_fresh ti alloc (Z.lor No_scan_tag (u64 ((words - 1) * 2 ^ 10))) ;;
    ti <- zero_words ti (alloc + 8) (Z.to_nat (words - 1)) ;;
    Ok (ti, alloc + 8)
  else Abort.
End Alloc.
