(** * What the glue code must do *)
From Coq Require Import ZArith NArith List Lia Bool.
Import ListNotations.
From Verif Require Import ANF_Syntax CG_Clight Layout_Proofs GL_Model.
Set Implicit Arguments.
Local Open Scope Z_scope.

(** A call that leaves memory, thread_info and the frames of its callers as they were. *)
Record untouched (m m' : mem) : Prop := {
  u_heap : m_heap m' = m_heap m; u_lo : m_lo m' = m_lo m; u_hi : m_hi m' = m_hi m; u_args : m_args m' = m_args m;
  u_alloc : m_alloc m' = m_alloc m; u_limit : m_limit m' = m_limit m; u_fp : m_fp m' = m_fp m; u_nalloc : m_nalloc m' = m_nalloc m;
  u_frames : forall id, (id < m_next m)%positive -> get id (m_frames m') = get id (m_frames m);
  u_next : (m_next m <= m_next m')%positive }.

(** as before, for everything but the heap and the allocation pointer *)
Record untouched_but_heap (m m' : mem) : Prop := {
  h_lo : m_lo m' = m_lo m; h_hi : m_hi m' = m_hi m; h_args : m_args m' = m_args m;
  h_limit : m_limit m' = m_limit m; h_fp : m_fp m' = m_fp m; h_nalloc : m_nalloc m' = m_nalloc m;
  h_frames : forall id, (id < m_next m)%positive -> get id (m_frames m') = get id (m_frames m);
  h_next : (m_next m <= m_next m')%positive }.

(** numbers of arguments *)
Definition arities (cs : list ctor) : list nat := map cstr_arity cs.

(** The number that identifies constructor [k] among those of its type that,
    like it, have arguments or, like it, have none. *)
Definition ordinal (cs : list ctor) (k : nat) (c : ctor) : Z := Z.of_N (rank (arities cs) k (cstr_arity c)).

(** The word [w] is (or points to) constructor [k] of the type: odd immediates
    for constructors without arguments, blocks with the ordinal in the low byte
    of the header for the others. *)
Definition built (h : Z -> option cval) (cs : list ctor) (k : nat) (w : cval) : Prop :=
  exists c, nth_error cs k = Some c /\
  match cstr_arity c with
  | O => w = VZ (2 * ordinal cs k c + 1)
  | S _ => exists p hdr, w = VP BHeap p /\ h (p - 1) = Some (VZ hdr) /\ Z.land hdr 255 = ordinal cs k c
  end.

(** constructors with arguments *)
Definition boxed_count (cs : list ctor) : Z := Z.of_nat (length (filter (fun a => negb (Nat.eqb a 0)) (arities cs))).

(** The block of constructor [k] with fields [ws] at [p], header before it:
    size above bit 10, ordinal in the low byte, the two bits between clear. *)
Definition block_at (h : Z -> option cval) (p : Z) (cs : list ctor) (k : nat) (ws : list cval) : Prop :=
  exists c hdr, nth_error cs k = Some c /\ cstr_arity c = length ws /\
    h (p - 1) = Some (VZ hdr) /\ Z.land hdr 255 = ordinal cs k c /\ Z.shiftr hdr 10 = Z.of_nat (length ws) /\ 0 <= hdr < 2 ^ 64 /\
    Z.land hdr 768 = 0 /\
    forall i w, nth_error ws i = Some w -> h (p + Z.of_nat i) = Some w.

(** The file is linked into the program. *)
Definition linked (fs prog : cprog) : Prop := forall f cf, get f fs = Some cf -> get f prog = Some cf.

(** The characters of a C string stored at the start of [l]. *)
Fixpoint c_string (l : list init) : option (list Z) :=
  match l with
  | Init_int8 0 :: _ => Some []
  | Init_int8 z :: l' => option_map (cons z) (c_string l')
  | _ => None
  end.

(** The calling convention (LambdaANF_to_Clight_stack.v): of [items], the first
    [c_args] are C arguments, the others are in the args array at their
    position.  [m1] is [m] with the array set so. *)
Record passed (c_args : nat) (items : list cval) (m m1 : mem) : Prop := {
  pa_in : forall i w, nth_error items i = Some w -> (c_args <= i)%nat -> m_args m1 (Z.of_nat i) = Some w;
  pa_out : forall o, o < Z.of_nat c_args \/ Z.of_nat (length items) <= o -> m_args m1 o = m_args m o;
  pa_rest : untouched (set_args m (m_args m1)) m1 }.

(** Row [k] of a table of names. *)
Definition name_row (t : name_table) (k : nat) : list init := firstn (nt_width t) (skipn (k * nt_width t) (nt_init t)).

(** bytes of an initialiser (CompCert [init_data_size]) *)
Definition init_size (i : init) : Z := match i with Init_int8 _ => 1 | Init_space z => Z.max z 0 end.

(** The state [m'] after a C function with frame [id] returned in state [m2]:
    the frame is gone, everything else is as it was. *)
Record returned (id : positive) (m2 m' : mem) : Prop := {
  rt_heap : m_heap m' = m_heap m2; rt_lo : m_lo m' = m_lo m2; rt_hi : m_hi m' = m_hi m2; rt_args : m_args m' = m_args m2;
  rt_alloc : m_alloc m' = m_alloc m2; rt_limit : m_limit m' = m_limit m2; rt_fp : m_fp m' = m_fp m2; rt_nalloc : m_nalloc m' = m_nalloc m2;
  rt_next : m_next m' = m_next m2;
  rt_frames : forall i, get i (m_frames m') = if Pos.eq_dec i id then None else get i (m_frames m2) }.
