(** * What the generated C must do: representation of values, the collector's contract

    Independent of the code generator.  [hval] is what a word denotes when one
    reads the heap through the documented value representation (runtime/values.h,
    runtime/gc_stack.h): an immediate, a function, or a block with a header and
    fields.  [hrepr] says that a word denotes a given [hval], all of it outside
    the free part of the allocation area. *)
From Coq Require Import ZArith NArith List Lia Bool.
Import ListNotations.
From Verif Require Import ANF_Syntax CG_Clight.
Set Implicit Arguments.
Local Open Scope Z_scope.

Inductive hval : Set :=
| HInt (z : Z)
| HFun (f : positive)
| HBlock (hdr : Z) (fields : list hval).

Definition outside (lo hi x : Z) : Prop := x < lo \/ hi <= x.

(** A block pointer points just after the header; the header's upper bits are
    the number of fields; blocks whose low byte is 251 or more are not scanned
    by the collector (runtime/gc_stack.h, [No_scan_tag]) so they cannot hold
    values. *)
Inductive hrepr (h : Z -> option cval) (lo hi : Z) : hval -> cval -> Prop :=
| HR_int z : hrepr h lo hi (HInt z) (VZ z)
| HR_fun f : hrepr h lo hi (HFun f) (VF f)
| HR_block hdr vs p ws :
    h (p - 1) = Some (VZ hdr) -> outside lo hi (p - 1) ->
    Z.shiftr hdr 10 = Z.of_nat (length vs) ->
    Z.land hdr 255 < 251 ->
    (forall i v, nth_error vs i = Some v ->
       outside lo hi (p + Z.of_nat i) /\ h (p + Z.of_nat i) = Some (ws i)) ->
    (forall i v, nth_error vs i = Some v -> hrepr h lo hi v (ws i)) ->
    hrepr h lo hi (HBlock hdr vs) (VP BHeap p).

(** a word of memory [m] whose free area starts at [a] *)
Definition hr (m : mem) (a : Z) (v : hval) (w : cval) : Prop := hrepr (m_heap m) a (m_hi m) v w.

(** ** Values of the source language *)

(** enumeration constructors are odd immediates, other constructors blocks
    whose header is arity and ordinal, functions their address *)
Fixpoint enc (cenv : ctor_env) (v : val) : hval :=
  match v with
  | Vconstr t vs =>
      match get t cenv with
      | Some i => if N.eqb (ctor_arity i) 0 then HInt (2 * Z.of_N (ctor_ordinal i) + 1)
                  else HBlock (1024 * Z.of_N (ctor_arity i) + Z.of_N (ctor_ordinal i)) (map (enc cenv) vs)
      | None => HInt 0
      end
  | Vfun _ _ f => HFun f
  | _ => HInt 0
  end.

(** ** The shadow stack *)

(** the frames linked from a frame pointer, innermost first *)
Inductive chain (fs : tmap frame) : cval -> list positive -> Prop :=
| Ch_nil : chain fs (VZ 0) []
| Ch_cons id fr n p ids :
    get id fs = Some fr ->
    f_root fr = Some (VP (BRoots id) 0) ->
    f_next fr = Some (VP (BRoots id) n) -> 0 <= n <= f_size fr ->
    f_prev fr = Some p ->
    chain fs p ids ->
    chain fs (VP (BFrame id) 0) (id :: ids).

(** slot [o] of frame [id] is in use (below the frame's [next]) *)
Definition used (fr : frame) (id : positive) (o : Z) : Prop :=
  exists n, f_next fr = Some (VP (BRoots id) n) /\ 0 <= o < n.

(** memory with free area from [a]: the linked frames exist and every slot in
    use holds a value *)
Record wfm (m : mem) (a : Z) (ids : list positive) : Prop := {
  wf_area : m_lo m <= a <= m_hi m;
  wf_chain : chain (m_frames m) (m_fp m) ids;
  wf_ids : forall id, In id ids -> (id < m_next m)%positive;
  wf_slots : forall id fr o, In id ids -> get id (m_frames m) = Some fr -> used fr id o ->
    exists w v, f_arr fr o = Some w /\ hr m a v w }.

(** frames below [b] still exist with the same links, and the slots in use of
    those in [ids] denote the same values as before *)
Definition keepf (m : mem) (a : Z) (ids : list positive) (b : positive) (m' : mem) (a' : Z) : Prop :=
  (m_next m <= m_next m')%positive /\
  forall id, (id < b)%positive ->
  match get id (m_frames m), get id (m_frames m') with
  | Some fr, Some fr' =>
      f_next fr' = f_next fr /\ f_root fr' = f_root fr /\ f_prev fr' = f_prev fr /\ f_size fr' = f_size fr /\
      (In id ids -> forall o w v, used fr id o -> f_arr fr o = Some w -> hr m a v w ->
         exists w', f_arr fr' o = Some w' /\ hr m' a' v w')
  | None, None => True
  | _, _ => False
  end.

(** thread_info holds the free area *)
Definition area (m : mem) (a : Z) : Prop :=
  m_alloc m = VP BHeap a /\ m_limit m = VP BHeap (m_hi m).

(** ** The collector

    Given linked frames whose slots in use hold values, it either aborts (heap
    exhausted) or returns with at least [nalloc] free words, the frames intact
    and their slots denoting the same values. *)
Definition gc_ok (gc : mem -> gres) : Prop :=
  forall m a ids n, wfm m a ids -> area m a -> m_nalloc m = VZ n -> 0 <= n ->
    gc m = GAbort \/
    exists m' a', gc m = GOk m' /\ area m' a' /\ m_lo m' <= a' /\ a' + n <= m_hi m' /\
      m_fp m' = m_fp m /\ keepf m a ids (m_next m) m' a'.

(** ** Conditions on the source program *)

(** what constructor tables must satisfy (compare C34): ordinals and arities
    fit their bit fields, and constructors of one type and kind have different
    ordinals *)
Record cenv_ok (cenv : ctor_env) : Prop := {
  ce_boxed : forall t i, get t cenv = Some i -> ctor_arity i <> 0%N ->
    Z.of_N (ctor_ordinal i) < 251 /\ Z.of_N (ctor_arity i) < 2 ^ 53;
  ce_enum : forall t i, get t cenv = Some i -> ctor_arity i = 0%N -> Z.of_N (ctor_ordinal i) < 2 ^ 62;
  ce_inj : forall t1 t2 i1 i2, get t1 cenv = Some i1 -> get t2 cenv = Some i2 ->
    ctor_ind_tag i1 = ctor_ind_tag i2 -> ctor_ordinal i1 = ctor_ordinal i2 ->
    (ctor_arity i1 = 0%N <-> ctor_arity i2 = 0%N) -> t1 = t2 }.
