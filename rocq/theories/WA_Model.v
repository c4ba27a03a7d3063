(** * The Wasm back end: primitive operations and translation of programs

    Source: theories/CodegenWasm/LambdaANF_to_Wasm_primitives.v (primitives),
    theories/CodegenWasm/LambdaANF_to_Wasm.v, theories/CodegenWasm/toplevel.v,
    theories/CodegenWasm/LambdaANF_to_Wasm_restrictions.v.

    Simplified: [error] is [option]; names are only modelled where exports are
    (end of the file); a primitive is given by its constructor of [primop]
    rather than by its kernel name; indices into tables and of globals are
    constants. *)
From Coq Require Import ZArith NArith List Lia Bool String Ascii.
Import ListNotations.
From Verif Require Import ANF_Syntax WA_Wasm.
From Verif Require Names_Model.
Set Implicit Arguments.
Local Open Scope Z_scope.
Local Open Scope list_scope.

Notation "'do' X <- A ;; B" := (match A with Some X => B | None => None end)
  (at level 200, X pattern, A at level 100, B at level 200).

(** LambdaANF_to_Wasm.v:29 *)
Definition max_mem_pages : Z := 30000.

(** LambdaANF_to_Wasm.v:44-53: indices of the globals *)
Notation glob_mem_ptr := 0%nat (only parsing).
Notation glob_cap := 1%nat (only parsing).
Notation glob_result := 2%nat (only parsing).
Notation glob_out_of_mem := 3%nat (only parsing).
Notation glob_tmp1 := 4%nat (only parsing).
Notation glob_tmp2 := 5%nat (only parsing).
Notation glob_tmp3 := 6%nat (only parsing).
Notation glob_tmp4 := 7%nat (only parsing).

(** LambdaANF_to_Wasm.v:255: the loop counter handed to the ternary primitives *)
Notation loop_counter := glob_cap (only parsing).

(** ** Primitive operations: LambdaANF_to_Wasm_primitives.v *)

(** LambdaANF_to_Wasm_primitives.v:49-73 *)
Inductive primop : Set :=
| PrimInt63add | PrimInt63sub | PrimInt63mul | PrimInt63div | PrimInt63mod | PrimInt63lsl | PrimInt63lsr
| PrimInt63land | PrimInt63lor | PrimInt63lxor | PrimInt63eqb | PrimInt63ltb | PrimInt63leb | PrimInt63compare
| PrimInt63addc | PrimInt63addcarryc | PrimInt63subc | PrimInt63subcarryc | PrimInt63mulc
| PrimInt63head0 | PrimInt63tail0 | PrimInt63diveucl | PrimInt63diveucl_21 | PrimInt63addmuldiv.

(** LambdaANF_to_Wasm_primitives.v:26 *)
Definition maxuint63 : Z := 9223372036854775807.

(** LambdaANF_to_Wasm_primitives.v:30-40: ordinals of constructors *)
Definition true_ord : Z := 1.
Definition false_ord : Z := 0.
Definition Eq_ord : Z := 0.
Definition Lt_ord : Z := 1.
Definition Gt_ord : Z := 2.
Definition C0_ord : Z := 0.
Definition C1_ord : Z := 1.
Definition pair_ord : Z := 0.

(** literals of both types: [Int32.repr], [Int64.repr] *)
Definition c32 (z : Z) : instr := Iconst (I32 (z mod 4294967296)).
Definition c64 (z : Z) : instr := Iconst (I64 (z mod 18446744073709551616)).

(** LambdaANF_to_Wasm_primitives.v:103-104 *)
Definition load_local_i64 (i : N) : list instr := [Ilget i; Iload T64 0].

(** LambdaANF_to_Wasm_primitives.v:106-111 *)
Definition increment_glob_mem_ptr (i : Z) : list instr := [Igget glob_mem_ptr; c32 i; Ibin T32 Wadd; Igset glob_mem_ptr].

(** LambdaANF_to_Wasm_primitives.v:113 *)
Definition bitmask_instrs : list instr := [c64 maxuint63; Ibin T64 Wand].

(** LambdaANF_to_Wasm_primitives.v:115-124 *)
Definition apply_binop_and_store_i64 (op : wbin) (x y : N) (apply_bitmask : bool) : list instr :=
  Igget glob_mem_ptr :: load_local_i64 x ++ load_local_i64 y ++ [Ibin T64 op] ++
  (if apply_bitmask then bitmask_instrs else []) ++
  [Istore T64 0; Igget glob_mem_ptr] ++ increment_glob_mem_ptr 8.

(** LambdaANF_to_Wasm_primitives.v:127-140 *)
Definition make_carry (ord : Z) (gidx : nat) : list instr :=
  [Igget glob_mem_ptr; Igget gidx; Istore T64 0;
   Igget glob_mem_ptr; c32 ord; Istore T32 8;
   Igget glob_mem_ptr; Igget glob_mem_ptr; Istore T32 12;
   Igget glob_mem_ptr; c32 8; Ibin T32 Wadd] ++ increment_glob_mem_ptr 16.

(** LambdaANF_to_Wasm_primitives.v:142-153 *)
Definition apply_add_carry_operation (x y : N) (addone : bool) : list instr :=
  load_local_i64 x ++ load_local_i64 y ++ [Ibin T64 Wadd] ++
  (if addone then [c64 1; Ibin T64 Wadd] else []) ++
  bitmask_instrs ++ [Igset glob_tmp1; Igget glob_tmp1] ++ load_local_i64 x ++
  [Irel T64 (if addone then Wleu else Wltu);
   Iif (Some T32) (make_carry C1_ord glob_tmp1) (make_carry C0_ord glob_tmp1)].

(** LambdaANF_to_Wasm_primitives.v:155-167 *)
Definition apply_sub_carry_operation (x y : N) (subone : bool) : list instr :=
  load_local_i64 x ++ load_local_i64 y ++ [Ibin T64 Wsub] ++
  (if subone then [c64 1; Ibin T64 Wsub] else []) ++
  bitmask_instrs ++ [Igset glob_tmp1] ++ load_local_i64 y ++ load_local_i64 x ++
  [Irel T64 (if subone then Wltu else Wleu);
   Iif (Some T32) (make_carry C0_ord glob_tmp1) (make_carry C1_ord glob_tmp1)].

(** LambdaANF_to_Wasm_primitives.v:170-191 *)
Definition make_product (gidx1 gidx2 : nat) : list instr :=
  [Igget glob_mem_ptr; Igget gidx1; Istore T64 0;
   Igget glob_mem_ptr; Igget gidx2; Istore T64 8;
   Igget glob_mem_ptr; c32 pair_ord; Istore T32 16;
   Igget glob_mem_ptr; Igget glob_mem_ptr; Istore T32 20;
   Igget glob_mem_ptr; Igget glob_mem_ptr; c32 8; Ibin T32 Wadd; Istore T32 24;
   Igget glob_mem_ptr; c32 16; Ibin T32 Wadd] ++ increment_glob_mem_ptr 28.

(** LambdaANF_to_Wasm_primitives.v:193-200 *)
Definition make_boolean_valued_comparison (x y : N) (relop : wrel) : list instr :=
  load_local_i64 x ++ load_local_i64 y ++
  [Irel T64 relop; Iif (Some T32) [c32 (2 * true_ord + 1)] [c32 (2 * false_ord + 1)]].

(** LambdaANF_to_Wasm_primitives.v:202-217 *)
Definition compare_instrs (x y : N) : list instr :=
  [Ilget x; Iload T64 0; Ilget y; Iload T64 0; Irel T64 Wltu;
   Iif (Some T32) [c32 (2 * Lt_ord + 1)]
     (load_local_i64 x ++ load_local_i64 y ++
      [Irel T64 Weq; Iif (Some T32) [c32 (2 * Eq_ord + 1)] [c32 (2 * Gt_ord + 1)]])].

(** LambdaANF_to_Wasm_primitives.v:219-228 *)
Definition div_instrs (x y : N) : list instr :=
  Igget glob_mem_ptr :: load_local_i64 y ++
  [Ieqz T64; Iif (Some T64) [c64 0] (load_local_i64 x ++ load_local_i64 y ++ [Ibin T64 Wdivu]);
   Istore T64 0; Igget glob_mem_ptr] ++ increment_glob_mem_ptr 8.

(** LambdaANF_to_Wasm_primitives.v:231-240 *)
Definition mod_instrs (x y : N) : list instr :=
  Igget glob_mem_ptr :: load_local_i64 y ++
  [Ieqz T64; Iif (Some T64) (load_local_i64 x) (load_local_i64 x ++ load_local_i64 y ++ [Ibin T64 Wremu]);
   Istore T64 0; Igget glob_mem_ptr] ++ increment_glob_mem_ptr 8.

(** LambdaANF_to_Wasm_primitives.v:242-255 *)
Definition shift_instrs (x y : N) (shiftop : wbin) (mask : bool) : list instr :=
  Igget glob_mem_ptr :: load_local_i64 y ++
  [c64 63; Irel T64 Wltu;
   Iif (Some T64) (load_local_i64 x ++ load_local_i64 y ++ Ibin T64 shiftop :: (if mask then bitmask_instrs else []))
     [c64 0];
   Istore T64 0; Igget glob_mem_ptr] ++ increment_glob_mem_ptr 8.

(** LambdaANF_to_Wasm_primitives.v:257-258 *)
Definition low32 : list instr := [c64 4294967295; Ibin T64 Wand].
Definition high32 : list instr := [c64 32; Ibin T64 Wshru].

(** LambdaANF_to_Wasm_primitives.v:260-313 *)
Definition mulc_instrs (x y : N) : list instr :=
  load_local_i64 x ++ low32 ++ load_local_i64 y ++ low32 ++ [Ibin T64 Wmul; Igset glob_tmp1] ++
  load_local_i64 x ++ high32 ++ load_local_i64 y ++ low32 ++ [Ibin T64 Wmul; Igset glob_tmp2] ++
  load_local_i64 x ++ low32 ++ load_local_i64 y ++ high32 ++ [Ibin T64 Wmul; Igset glob_tmp3] ++
  load_local_i64 x ++ high32 ++ load_local_i64 y ++ high32 ++ [Ibin T64 Wmul; Igset glob_tmp4] ++
  [Igget glob_tmp1] ++ high32 ++ [Igget glob_tmp2] ++ low32 ++
  [Ibin T64 Wadd; Igget glob_tmp3; Ibin T64 Wadd; Igset glob_tmp3] ++
  [Igget glob_tmp2] ++ high32 ++ [Igget glob_tmp3] ++ high32 ++ [Ibin T64 Wadd] ++
  [Igget glob_tmp4; Ibin T64 Wadd; Igset glob_tmp2] ++
  [Igget glob_tmp3; c64 32; Ibin T64 Wshl] ++ [Igget glob_tmp1] ++ low32 ++
  [Ibin T64 Wor; Igset glob_tmp1] ++
  [Igget glob_tmp2; c64 1; Ibin T64 Wshl; Igget glob_tmp1; c64 63; Ibin T64 Wshru; Ibin T64 Wadd; Igset glob_tmp2] ++
  [Igget glob_tmp1; c64 maxuint63; Ibin T64 Wand; Igset glob_tmp1] ++ make_product glob_tmp2 glob_tmp1.

(** LambdaANF_to_Wasm_primitives.v:316-343 *)
Definition diveucl_instrs (x y : N) : list instr :=
  [Ilget x; Iload T64 0; Ieqz T64;
   Iif None
     [c64 0; Igset glob_tmp1; c64 0; Igset glob_tmp2]
     [Ilget y; Iload T64 0; Ieqz T64;
      Iif None
        [c64 0; Igset glob_tmp1; Ilget x; Iload T64 0; Igset glob_tmp2]
        (load_local_i64 x ++ load_local_i64 y ++ [Ibin T64 Wdivu; Igset glob_tmp1] ++
         load_local_i64 x ++ load_local_i64 y ++ [Ibin T64 Wremu; Igset glob_tmp2])]]
  ++ make_product glob_tmp1 glob_tmp2.

(** LambdaANF_to_Wasm_primitives.v:345-368 *)
Definition translate_primitive_binary_op (op : primop) (x y : N) : option (list instr) :=
  match op with
  | PrimInt63add => Some (apply_binop_and_store_i64 Wadd x y true)
  | PrimInt63sub => Some (apply_binop_and_store_i64 Wsub x y true)
  | PrimInt63mul => Some (apply_binop_and_store_i64 Wmul x y true)
  | PrimInt63div => Some (div_instrs x y)
  | PrimInt63mod => Some (mod_instrs x y)
  | PrimInt63lsl => Some (shift_instrs x y Wshl true)
  | PrimInt63lsr => Some (shift_instrs x y Wshru false)
  | PrimInt63land => Some (apply_binop_and_store_i64 Wand x y false)
  | PrimInt63lor => Some (apply_binop_and_store_i64 Wor x y false)
  | PrimInt63lxor => Some (apply_binop_and_store_i64 Wxor x y false)
  | PrimInt63eqb => Some (make_boolean_valued_comparison x y Weq)
  | PrimInt63ltb => Some (make_boolean_valued_comparison x y Wltu)
  | PrimInt63leb => Some (make_boolean_valued_comparison x y Wleu)
  | PrimInt63compare => Some (compare_instrs x y)
  | PrimInt63addc => Some (apply_add_carry_operation x y false)
  | PrimInt63addcarryc => Some (apply_add_carry_operation x y true)
  | PrimInt63subc => Some (apply_sub_carry_operation x y false)
  | PrimInt63subcarryc => Some (apply_sub_carry_operation x y true)
  | PrimInt63mulc => Some (mulc_instrs x y)
  | PrimInt63diveucl => Some (diveucl_instrs x y)
  | _ => None
  end.

(** LambdaANF_to_Wasm_primitives.v:372-380 *)
Definition head0_instrs (x : N) : list instr :=
  Igget glob_mem_ptr :: load_local_i64 x ++
  [Iun T64 Wclz; c64 1; Ibin T64 Wsub; Istore T64 0; Igget glob_mem_ptr] ++ increment_glob_mem_ptr 8.

(** LambdaANF_to_Wasm_primitives.v:384-393 *)
Definition tail0_instrs (x : N) : list instr :=
  Igget glob_mem_ptr :: load_local_i64 x ++
  [Ieqz T64; Iif (Some T64) [c64 63] (load_local_i64 x ++ [Iun T64 Wctz]);
   Istore T64 0; Igget glob_mem_ptr] ++ increment_glob_mem_ptr 8.

(** LambdaANF_to_Wasm_primitives.v:395-400 *)
Definition translate_primitive_unary_op (op : primop) (x : N) : option (list instr) :=
  match op with
  | PrimInt63head0 => Some (head0_instrs x)
  | PrimInt63tail0 => Some (tail0_instrs x)
  | _ => None
  end.

(** LambdaANF_to_Wasm_primitives.v:402-443 *)
Definition diveucl_21_loop_body (glob_xh glob_xl glob_y glob_q : nat) : list instr :=
  [Igget glob_xl; c64 1; Ibin T64 Wshl; Igset glob_xl;
   Igget glob_xh; c64 1; Ibin T64 Wshl; Igget glob_xl; c64 63; Ibin T64 Wshru; Ibin T64 Wor; Igset glob_xh;
   Igget glob_q; c64 1; Ibin T64 Wshl; Igset glob_q;
   Igget glob_xh; Igget glob_y; Irel T64 Wgeu;
   Iif None
     ([Igget glob_q; c64 1; Ibin T64 Wor; Igset glob_q] ++
      [Igget glob_xh; Igget glob_y; Ibin T64 Wsub; Igset glob_xh])
     []].

(** LambdaANF_to_Wasm_primitives.v:445-458 *)
Definition diveucl_21_loop (glob_xh glob_xl glob_y glob_q : nat) (iterations : Z) : list instr :=
  [Igget loop_counter; c32 iterations; Irel T32 Wltu;
   Iif None
     (diveucl_21_loop_body glob_xh glob_xl glob_y glob_q ++
      [Igget loop_counter; c32 1; Ibin T32 Wadd; Igset loop_counter; Ibr 1])
     []].

(** LambdaANF_to_Wasm_primitives.v:460-483 *)
Definition diveucl_21_instrs (xh xl y : N) : list instr :=
  load_local_i64 y ++ load_local_i64 xh ++
  [Irel T64 Wleu;
   Iif (Some T32)
     ([c64 0; Igset glob_tmp1] ++ make_product glob_tmp1 glob_tmp1)
     (load_local_i64 xh ++ [Igset glob_tmp1] ++
      load_local_i64 xl ++ [Igset glob_tmp2] ++
      load_local_i64 y ++ [Igset glob_tmp3] ++
      [c64 0; Igset glob_tmp4; c32 0; Igset loop_counter;
       Iloop (diveucl_21_loop glob_tmp1 glob_tmp2 glob_tmp3 glob_tmp4 63)] ++
      make_product glob_tmp4 glob_tmp1)].

(** LambdaANF_to_Wasm_primitives.v:486-511 *)
Definition addmuldiv_instrs (p x y : N) : list instr :=
  Igget glob_mem_ptr :: load_local_i64 p ++
  [c64 63; Irel T64 Wgtu;
   Iif (Some T64) [c64 0]
     (load_local_i64 x ++ load_local_i64 p ++ [Ibin T64 Wshl] ++ load_local_i64 y ++ [c64 63] ++ load_local_i64 p ++
      [Ibin T64 Wsub; Ibin T64 Wshru; Ibin T64 Wor; c64 maxuint63; Ibin T64 Wand]);
   Istore T64 0; Igget glob_mem_ptr] ++ increment_glob_mem_ptr 8.

(** LambdaANF_to_Wasm_primitives.v:513-518 *)
Definition translate_primitive_ternary_op (op : primop) (x y z : N) : option (list instr) :=
  match op with
  | PrimInt63diveucl_21 => Some (diveucl_21_instrs x y z)
  | PrimInt63addmuldiv => Some (addmuldiv_instrs x y z)
  | _ => None
  end.

(** ** Expressions: LambdaANF_to_Wasm.v *)

(** LambdaANF_to_Wasm.v:56-57 *)
Notation localvar_env := (tmap N) (only parsing).
Notation fname_env := (tmap N) (only parsing).

(** LambdaANF_to_Wasm.v:115-122 *)
Definition instr_local_var_read (lenv : localvar_env) (fenv : fname_env) (v : var) : option instr :=
  match get v fenv with
  | Some fidx => Some (c32 (Z.of_N fidx))
  | None => do i <- get v lenv ;; Some (Ilget i)
  end.

(** LambdaANF_to_Wasm_restrictions.v:33-37 *)
Definition get_ctor_ord (cenv : ctor_env) (t : ctor_tag) : option N :=
  do c <- get t cenv ;; Some (ctor_ordinal c).

(** LambdaANF_to_Wasm.v:124-128 *)
Definition get_ctor_arity (cenv : ctor_env) (t : ctor_tag) : option nat :=
  do c <- get t cenv ;; Some (N.to_nat (ctor_arity c)).

(** LambdaANF_to_Wasm.v:130-132 *)
Definition get_ctor_size (cenv : ctor_env) (t : ctor_tag) : option N :=
  do arity <- get_ctor_arity cenv t ;;
  Some (if Nat.eqb arity 0 then 0%N else N.of_nat (4 * (arity + 1) + 24)).

(** LambdaANF_to_Wasm.v:138-145 *)
Fixpoint pass_function_args (lenv : localvar_env) (fenv : fname_env) (args : list var) : option (list instr) :=
  match args with
  | [] => Some []
  | a0 :: args' =>
      do a0' <- instr_local_var_read lenv fenv a0 ;;
      do args'' <- pass_function_args lenv fenv args' ;;
      Some (a0' :: args'')
  end.

(** LambdaANF_to_Wasm.v:147-154 *)
Definition translate_call (lenv : localvar_env) (fenv : fname_env) (f : var) (args : list var) (tailcall : bool)
    : option (list instr) :=
  do ps <- pass_function_args lenv fenv args ;;
  do fi <- instr_local_var_read lenv fenv f ;;
  Some (ps ++ [fi] ++ [if tailcall then Iretcall_ind (List.length args) else Icall_ind (List.length args)]).

(** LambdaANF_to_Wasm.v:173-193 *)
Fixpoint store_constructor_args (lenv : localvar_env) (fenv : fname_env) (args : list var) (current : nat) : option (list instr) :=
  match args with
  | [] => Some []
  | y :: ys =>
      do read_y <- instr_local_var_read lenv fenv y ;;
      do remaining <- store_constructor_args lenv fenv ys (1 + current) ;;
      Some ([Igget glob_cap; c32 (Z.of_nat (4 * (1 + current))); Ibin T32 Wadd; read_y; Istore T32 0;
             Igget glob_mem_ptr; c32 4; Ibin T32 Wadd; Igset glob_mem_ptr] ++ remaining)
  end.

(** LambdaANF_to_Wasm.v:196-212 *)
Definition store_constructor (cenv : ctor_env) (lenv : localvar_env) (fenv : fname_env) (c : ctor_tag) (ys : list var)
    : option (list instr) :=
  do ord <- get_ctor_ord cenv c ;;
  do rest <- store_constructor_args lenv fenv ys 0 ;;
  Some ([Igget glob_mem_ptr; Igset glob_cap; Igget glob_cap; c32 (Z.of_N ord); Istore T32 0;
         Igget glob_mem_ptr; c32 4; Ibin T32 Wadd; Igset glob_mem_ptr] ++ rest).

(** LambdaANF_to_Wasm.v:214-233 *)
Fixpoint create_case_nested_if_chain (boxed : bool) (v : N) (es : list (N * list instr)) : list instr :=
  match es with
  | [] => [Iunreachable]
  | (ord, instrs) :: tl =>
      Ilget v ::
      (if boxed then [Iload T32 0; c32 (Z.of_N ord)] else [c32 (Z.of_N (2 * ord + 1))]) ++
      [Irel T32 Weq; Iif None instrs (create_case_nested_if_chain boxed v tl)]
  end.

(** LambdaANF_to_Wasm.v:238-243; floats and strings are rejected *)
Definition translate_primitive_value (p : primitive_value) : option Z :=
  match p with
  | PVint i => Some (i mod 18446744073709551616)
  | PVfloat _ => None
  | PVstring _ => None
  end.

(** LambdaANF_to_Wasm.v:249-269 *)
Definition translate_primitive_operation (lenv : localvar_env) (op : option primop) (args : list var) : option (list instr) :=
  do op <- op ;;
  match args with
  | [x] => do x' <- get x lenv ;; translate_primitive_unary_op op x'
  | [x; y] => do x' <- get x lenv ;; do y' <- get y lenv ;; translate_primitive_binary_op op x' y'
  | [x; y; z] =>
      do x' <- get x lenv ;; do y' <- get y lenv ;; do z' <- get z lenv ;; translate_primitive_ternary_op op x' y' z'
  | _ => None
  end.

(** LambdaANF_to_Wasm.v:274-297 *)
Definition grow_memory_if_necessary : list instr :=
  [Igget glob_mem_ptr; c32 page; Ibin T32 Wadd; c32 (2 ^ 16); Ibin T32 Wdivs;
   Imemsize; Irel T32 Wges;
   Iif None
     [c32 1; Imemgrow; c32 (-1); Irel T32 Weq;
      Iif None [c32 1; Igset glob_out_of_mem; Ireturn] []]
     []].

(** LambdaANF_to_Wasm.v:301-304 *)
Definition call_grow_mem_if_necessary (mem required_bytes : N) : list instr * N :=
  if N.leb required_bytes mem then ([], (mem - required_bytes)%N)
  else (grow_memory_if_necessary, (65536 - required_bytes)%N).

Section Translate.
  Variable cenv : ctor_env.
  Variable fenv : fname_env.
  (** primitives by identifier; [None] for a name that is not in [primop_map] *)
  Variable penv : tmap (option primop).
  Variable lenv : localvar_env.

  (** LambdaANF_to_Wasm.v:309-419 *)
  Fixpoint translate_body (e : exp) (mem : N) {struct e} : option (list instr) :=
    match e with
    | Efun _ _ => None
    | Econstr x tg ys e' =>
        do x_var <- get x lenv ;;
        match ys with
        | [] =>
            do ord <- get_ctor_ord cenv tg ;;
            do following <- translate_body e' mem ;;
            Some ([c32 (Z.of_N (2 * ord + 1)); Ilset x_var] ++ following)
        | _ =>
            do store_constr <- store_constructor cenv lenv fenv tg ys ;;
            do constr_size <- get_ctor_size cenv tg ;;
            let p := call_grow_mem_if_necessary mem constr_size in
            do following <- translate_body e' (snd p) ;;
            Some (fst p ++ store_constr ++ [Igget glob_cap; Ilset x_var] ++ following)
        end
    | Ecase x arms =>
        do x_var <- get x lenv ;;
        do p <- (fix branches (arms : list (ctor_tag * exp)) : option (list (N * list instr) * list (N * list instr)) :=
                   match arms with
                   | [] => Some ([], [])
                   | p :: tl =>
                       do instrs <- translate_body (snd p) mem ;;
                       do r <- branches tl ;;
                       do ord <- get_ctor_ord cenv (fst p) ;;
                       do arity <- get_ctor_arity cenv (fst p) ;;
                       if Nat.eqb arity 0 then Some (fst r, (ord, instrs) :: snd r)
                       else Some ((ord, instrs) :: fst r, snd r)
                   end) arms ;;
        Some [Ilget x_var; c32 1; Ibin T32 Wand; Ieqz T32;
              Iif None (create_case_nested_if_chain true x_var (fst p))
                       (create_case_nested_if_chain false x_var (snd p))]
    | Eproj x tg n y e' =>
        do following <- translate_body e' mem ;;
        do y_var <- get y lenv ;;
        do x_var <- get x lenv ;;
        Some ([Ilget y_var; c32 (Z.of_nat ((N.to_nat n + 1) * 4)); Ibin T32 Wadd; Iload T32 0; Ilset x_var] ++ following)
    | Eletapp x f ft ys e' =>
        do x_var <- get x lenv ;;
        do following <- translate_body e' 0%N ;;
        do instr_call <- translate_call lenv fenv f ys false ;;
        Some (instr_call ++ [Igget glob_out_of_mem; Iif None [Ireturn] []; Igget glob_result; Ilset x_var] ++ following)
    | Eapp f ft ys => translate_call lenv fenv f ys true
    | Eprim_val x p e' =>
        do x_var <- get x lenv ;;
        do val <- translate_primitive_value p ;;
        let instrs := [Igget glob_mem_ptr; Iconst (I64 val); Istore T64 0; Igget glob_mem_ptr; Ilset x_var;
                       Igget glob_mem_ptr; c32 8; Ibin T32 Wadd; Igset glob_mem_ptr] in
        let p := call_grow_mem_if_necessary mem 32%N in
        do following <- translate_body e' (snd p) ;;
        Some (fst p ++ instrs ++ following)
    | Eprim x p ys e' =>
        do p' <- get p penv ;;
        do x_var <- get x lenv ;;
        do prim_op_instrs <- translate_primitive_operation lenv p' ys ;;
        let p := call_grow_mem_if_necessary mem 52%N in
        do following <- translate_body e' (snd p) ;;
        Some (fst p ++ prim_op_instrs ++ [Ilset x_var] ++ following)
    | Ehalt x =>
        do x_var <- get x lenv ;;
        Some [Ilget x_var; Igset glob_result; Ireturn]
    end.
End Translate.

(** ** Functions *)

(** LambdaANF_to_Wasm.v:425-436 *)
Fixpoint collect_local_variables (e : exp) : list var :=
  match e with
  | Efun _ e' => collect_local_variables e'
  | Econstr x _ _ e' => x :: collect_local_variables e'
  | Ecase _ arms => flat_map (fun a => collect_local_variables (snd a)) arms
  | Eproj x _ _ _ e' => x :: collect_local_variables e'
  | Eletapp x _ _ _ e' => x :: collect_local_variables e'
  | Eprim x _ _ e' => x :: collect_local_variables e'
  | Eprim_val x _ e' => x :: collect_local_variables e'
  | Eapp _ _ _ => []
  | Ehalt _ => []
  end.

(** LambdaANF_to_Wasm.v:439-444 *)
Fixpoint create_var_mapping (start_id : N) (vars : list var) (env : tmap N) : tmap N :=
  match vars with
  | [] => env
  | v :: l' => set v start_id (create_var_mapping (N.succ start_id) l' env)
  end.

(** LambdaANF_to_Wasm.v:446-447 *)
Definition create_local_variable_mapping (vars : list var) : localvar_env := create_var_mapping 0%N vars [].

(** LambdaANF_to_Wasm.v:449-461, without the names; the function's index is returned separately *)
Definition translate_function (cenv : ctor_env) (fenv : fname_env) (penv : tmap (option primop))
    (f : var) (args : list var) (body : exp) : option (N * wfun) :=
  let locals := collect_local_variables body in
  let lenv := create_local_variable_mapping (args ++ locals) in
  do fn_idx <- get f fenv ;;
  do body_res <- translate_body cenv fenv penv lenv body 0%N ;;
  Some (fn_idx, {| wf_params := List.length args; wf_locals := List.length locals; wf_body := body_res |}).

(** LambdaANF_to_Wasm.v:463-471 *)
Fixpoint translate_functions (cenv : ctor_env) (fenv : fname_env) (penv : tmap (option primop)) (fds : fundefs)
    : option (list (N * wfun)) :=
  match fds with
  | Fnil => Some []
  | Fcons x tg xs e fds' =>
      do fn <- translate_function cenv fenv penv x xs e ;;
      do following <- translate_functions cenv fenv penv fds' ;;
      Some (fn :: following)
  end.

(** LambdaANF_to_Wasm.v:492-501 *)
Fixpoint collect_function_vars (fds : fundefs) : list var :=
  match fds with
  | Fnil => []
  | Fcons x _ _ e' fds' => x :: collect_function_vars fds'
  end.

(** LambdaANF_to_Wasm.v:504-506; [num_custom_funs] is 1 (line 41) *)
Definition create_fname_mapping (fds : fundefs) : fname_env := create_var_mapping 1%N (collect_function_vars fds) [].

(** LambdaANF_to_Wasm.v:508-512: parameters (all i32) of the types *)
Fixpoint list_function_types (n : nat) : list nat :=
  match n with
  | O => [O]
  | S n' => O :: map S (list_function_types n')
  end.

(** LambdaANF_to_Wasm.v:515-521: table position and function of each element *)
Fixpoint table_element_mapping (len startidx : nat) : list (Z * N) :=
  match len with
  | O => []
  | S len' => (Z.of_nat startidx mod 4294967296, N.of_nat startidx) :: table_element_mapping len' (S startidx)
  end.

(** ** Restrictions: LambdaANF_to_Wasm_restrictions.v:24-26 *)
Definition max_function_args : Z := 100.
Definition max_num_functions : Z := 1000000.
Definition max_constr_args : Z := 1024.

(** theories/LambdaANF/cps_util.v ([numOf_fundefs]) *)
Fixpoint numOf_fundefs (fds : fundefs) : nat :=
  match fds with Fnil => O | Fcons _ _ _ _ fds' => S (numOf_fundefs fds') end.

(** LambdaANF_to_Wasm_restrictions.v:41-77; [true] is [Ret tt] *)
Fixpoint check_restrictions (cenv : ctor_env) (e : exp) : bool :=
  match e with
  | Econstr _ t ys e' =>
      match get_ctor_ord cenv t with
      | None => false
      | Some ord => (Z.of_N ord <? 2147483648) && (Z.of_nat (List.length ys) <=? max_constr_args) && check_restrictions cenv e'
      end
  | Ecase x ms =>
      (fix go (ms : list (ctor_tag * exp)) : bool :=
         match ms with
         | [] => true
         | p :: ms' =>
             match get_ctor_ord cenv (fst p) with
             | None => false
             | Some ord => (Z.of_N ord <? 2147483648) && check_restrictions cenv (snd p) && go ms'
             end
         end) ms
  | Eproj _ _ _ _ e' => check_restrictions cenv e'
  | Eletapp _ _ _ ys e' => (Z.of_nat (List.length ys) <=? max_function_args) && check_restrictions cenv e'
  | Efun fds e' =>
      (Z.of_nat (numOf_fundefs fds) <=? max_num_functions) && check_restrictions_fundefs cenv fds && check_restrictions cenv e'
  | Eapp _ _ ys => Z.of_nat (List.length ys) <=? max_function_args
  | Eprim_val _ _ e' => check_restrictions cenv e'
  | Eprim _ _ _ e' => check_restrictions cenv e'
  | Ehalt _ => true
  end
with check_restrictions_fundefs (cenv : ctor_env) (fds : fundefs) : bool :=
  match fds with
  | Fnil => true
  | Fcons _ _ ys e' fds' =>
      (Z.of_nat (List.length ys) <=? max_function_args) && check_restrictions_fundefs cenv fds' && check_restrictions cenv e'
  end.

(** ** Modules *)

(** CodegenWasm/toplevel.v:13-17 *)
Definition ensure_top_level_Efun (prog : exp) : exp := match prog with Efun _ _ => prog | _ => Efun Fnil prog end.

(** LambdaANF_to_Wasm.v:528-628: the functions (main first), their types, the
    table; [fst] of a function is its index *)
Record wmodule : Set := { wm_funs : list (N * wfun); wm_types : list nat; wm_elems : list (Z * N) }.

Definition LambdaANF_to_Wasm (cenv : ctor_env) (penv : tmap (option primop)) (e : exp) : option wmodule :=
  if check_restrictions cenv e then
    match e with
    | Efun fds main_expr =>
        let fenv := create_fname_mapping fds in
        do fns <- translate_functions cenv fenv penv fds ;;
        let main_vars := collect_local_variables main_expr in
        let main_lenv := create_local_variable_mapping main_vars in
        do main_instr <- translate_body cenv fenv penv main_lenv main_expr 0%N ;;
        Some {| wm_funs := (0%N, {| wf_params := 0; wf_locals := List.length main_vars; wf_body := main_instr |}) :: fns;
                wm_types := list_function_types (Z.to_nat max_function_args);
                wm_elems := table_element_mapping (List.length fns + 1) 0 |}
    | _ => None
    end
  else None.

(** LambdaANF_to_Wasm.v:590-626: memory of one page, globals *)
Definition init_store : store :=
  {| s_glob := [I32 0; I32 0; I32 0; I32 0; I64 0; I64 0; I64 0; I64 0]; s_mem := fun _ => 0; s_pages := 1 |}.

(** ** Export names *)

(** LambdaANF_to_Wasm.v:473-478 *)
Fixpoint undot (s : string) : string :=
  match s with
  | EmptyString => EmptyString
  | String c s' => String (if Ascii.eqb c "." then "_"%char else c) (undot s')
  end.

(** decimal digits, MetaRocq's [string_of_nat] *)
Definition string_of_nat (n : nat) : string :=
  match n with O => "0"%string | _ => Names_Model.show_pos (Pos.of_nat n) end.

(** LambdaANF_to_Wasm.v:473-478 *)
Definition sanitize_function_name (s : string) (prefix_id : nat) : string :=
  String "_" (string_of_nat prefix_id ++ "__" ++ undot s).

(** LambdaANF_to_Wasm.v:481-488; [mapi] *)
Fixpoint unique_export_names (i : nat) (names : list string) : list string :=
  match names with
  | [] => []
  | s :: names' => sanitize_function_name s i :: unique_export_names (S i) names'
  end.

(** LambdaANF_to_Wasm.v:560-575 *)
Definition export_names (names : list string) : list string :=
  ("main_function" :: unique_export_names 0 names ++ ["out_of_mem"; "mem_ptr"; "result"; "memory"])%string.
