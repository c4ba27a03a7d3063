(** Model of the copying collector /repo/runtime/gc_stack.c (64-bit, DEPTH = 0, RATIO = 2,
    assertions enabled).

    Memory maps the byte address of an aligned word to its contents; words are integers,
    odd words are immediates, even words are addresses.  Pointers to words move in steps of 8
    bytes.  Descriptors ([struct space], [struct heap], [struct thread_info]) are kept apart
    from this memory (in C they are separately allocated structures). *)
From Coq Require Import ZArith Bool List.
From Verif Require Import RT_Word RT_Values.
Import ListNotations.
Open Scope Z_scope.

(** Contents of memory. *)
Definition mem := Z -> Z.
(** One store. *)
Definition upd (m : mem) (a v : Z) : mem := fun b => if b =? a then v else m b.

(** gc_stack.c:19-21, 39-41 [test_int_or_ptr], [is_ptr]. *)
Definition is_ptr (x : Z) : bool := Z.land x 1 =? 0.

(** gc_stack.h:117 [struct space]. *)
Record space := { sp_start : Z; sp_next : Z; sp_limit : Z; sp_rem : Z }.

(** gc_stack.h:124-128 [struct stack_frame]: [root] and the number of live slots
    [next - root].  The chain of [prev] pointers is a list, innermost frame first. *)
Definition frames := list (Z * nat).

(** gc_stack.c:158-160 [Is_from]. *)
Definition Is_from (from_start from_limit v : Z) : bool :=
  (from_start <=? v) && (v <? from_limit).

(** gc_stack.c:200-203: the copying loop [for(i = 0; i < sz; i++) Field(newv,i) = Field(v,i)];
    [n] iterations starting at index [i]. *)
Fixpoint copy_fields (n : nat) (i : Z) (newv v : Z) (m : mem) : mem :=
  match n with
  | O => m
  | S n => copy_fields n (i + 1) newv v (upd m (newv + 8 * i) (m (v + 8 * i)))
  end.

(** gc_stack.c:164-216 [forward] with depth 0.  The state is memory and [*next]. *)
Definition forward (from_start from_limit : Z) (st : mem * Z) (p : Z) : mem * Z :=
  let '(m, next) := st in
  let va := m p in
  if is_ptr va then
    let v := va in
    if Is_from from_start from_limit v then
      let hd := m (v - 8) in
      if hd =? 0 then (upd m p (m v), next)
      else
        let sz := Wosize_hd hd in
        let newv := next + 8 in
        let next := newv + 8 * sz in
        let m := upd m (newv - 8) hd in
        let m := copy_fields (Z.to_nat sz) 0 newv v m in
        let m := upd m (v - 8) 0 in
        let m := upd m v newv in
        (upd m p newv, next)
    else (m, next)
  else (m, next).

(** gc_stack.c:224-234: the loop of [forward_remset], [n] iterations starting at [q].  The
    state is memory, [*next] and [to->limit]. *)
Fixpoint forward_remset_loop (n : nat) (from_start from_limit : Z) (q : Z) (st : mem * Z * Z)
  : mem * Z * Z :=
  match n with
  | O => st
  | S n =>
      let '(m, next, to_limit) := st in
      let p := m q in
      let st :=
        if negb ((from_start <=? p) && (p <? from_limit)) then
          let oldp := m p in
          let '(m, next) := forward from_start from_limit (m, next) p in
          let newp := m p in
          if negb (oldp =? newp) then (upd m (to_limit - 8) p, next, to_limit - 8)
          else (m, next, to_limit)
        else st in
      forward_remset_loop n from_start from_limit (q + 8) st
  end.

(** gc_stack.c:217-235 [forward_remset] with its assertion. *)
Definition forward_remset (from to : space) (m : mem) : cres (mem * Z * Z) :=
  if ((sp_rem from - sp_limit from) / 8 <=? (sp_limit to - sp_start to) / 8) then
    Ok (forward_remset_loop (Z.to_nat ((sp_rem from - sp_limit from) / 8))
          (sp_start from) (sp_limit from) (sp_limit from) (m, sp_next to, sp_limit to))
  else Abort.

(** gc_stack.c:251-252: [for (i=0; i<limit; i++) forward(..., start+i, ...)]. *)
Fixpoint forward_frame (n : nat) (from_start from_limit start : Z) (st : mem * Z) : mem * Z :=
  match n with
  | O => st
  | S n => forward_frame n from_start from_limit (start + 8) (forward from_start from_limit st start)
  end.

(** gc_stack.c:237-254 [forward_roots]. *)
Fixpoint forward_roots (from_start from_limit : Z) (fr : frames) (st : mem * Z) : mem * Z :=
  match fr with
  | [] => st
  | (start, n) :: fr =>
      forward_roots from_start from_limit fr (forward_frame n from_start from_limit start st)
  end.

(** gc_stack.c:274-277: [for(j = 1; j <= sz; j++) forward(..., &Field(s,j), ...)]; [n]
    iterations starting at index [j]. *)
Fixpoint scan_fields (n : nat) (j : Z) (from_start from_limit s : Z) (st : mem * Z) : mem * Z :=
  match n with
  | O => st
  | S n => scan_fields n (j + 1) from_start from_limit s (forward from_start from_limit st (s + 8 * j))
  end.

(** gc_stack.c:256-281 [do_scan].  Each iteration of the while loop advances the scan pointer
    by at least one word inside the to-space, so [do_generation] below runs it with the number
    of words of the to-space; running out means the scan pointer left the to-space, which is
    undefined behaviour. *)
Fixpoint do_scan (fuel : nat) (from_start from_limit s : Z) (st : mem * Z) : cres (mem * Z) :=
  match fuel with
  | O => UB
  | S fuel =>
      let '(m, next) := st in
      if s <? next then
        let hd := m s in
        let sz := Wosize_hd hd in
        let tag := Tag_hd hd in
        let st := if No_scan tag then (m, next)
                  else scan_fields (Z.to_nat sz) 1 from_start from_limit s (m, next) in
        do_scan fuel from_start from_limit (s + 8 * (1 + sz)) st
      else Ok (m, next)
  end.

Open Scope c_scope.

(** gc_stack.c:283-300 [do_generation]; returns the new descriptors and memory. *)
Definition do_generation (from to : space) (fr : frames) (m : mem) : cres (space * space * mem) :=
  let p := sp_next to in
  '(m, next, to_limit) <- forward_remset from to m ;;
  let st := forward_roots (sp_start from) (sp_limit from) fr (m, next) in
  '(m, next) <- do_scan (S (Z.to_nat ((sp_limit to - sp_start to) / 8)))
                  (sp_start from) (sp_limit from) p st ;;
  Ok ({| sp_start := sp_start from; sp_next := sp_start from; sp_limit := sp_rem from; sp_rem := sp_rem from |},
      {| sp_start := sp_start to; sp_next := next; sp_limit := to_limit; sp_rem := sp_rem to |}, m).

(** gc_stack.h:113-115: [NURSERY_SIZE] in words, [MAX_SPACES] = 64 - (2 + 3 + 16). *)
Definition NURSERY_SIZE : Z := 65536.
Definition MAX_SPACES : nat := 43.

(** gc_stack.h:118 [struct heap]: the array of spaces. *)
Definition heap := nat -> space.
(** [h->spaces[i] = s] *)
Definition set_space (h : heap) (i : nat) (s : space) : heap := fun j => if Nat.eqb j i then s else h j.
(** A space that has not been created: all pointers NULL (gc_stack.c:351-356). *)
Definition null_space : space := {| sp_start := 0; sp_next := 0; sp_limit := 0; sp_rem := 0 |}.

(** gc_stack.h:131-139: the part of [struct thread_info] the collector uses. *)
Record thread := { th_alloc : Z; th_limit : Z; th_heap : heap; th_fp : frames; th_nalloc : Z }.

Section WithMalloc.
(** The address [malloc] returns for the array of generation [i] when [n] words are asked for;
    [None] is a NULL result.  Each generation is created at most once in the life of a heap, so
    the generation number identifies the call. *)
Variable malloc : nat -> Z -> option Z.

(** gc_stack.c:324-340 [create_space]. *)
Definition create_space (i : nat) (n : Z) : cres space :=
  match malloc i n with
  | None => Abort
  | Some p => Ok {| sp_start := p; sp_next := p; sp_limit := p + 8 * n; sp_rem := p + 8 * n |}
  end.

(** gc_stack.c:342-358 [create_heap]. *)
Definition create_heap : cres heap :=
  s <- create_space 0 NURSERY_SIZE ;; Ok (set_space (fun _ => null_space) 0 s).

(** gc_stack.c:360-375 [make_tinfo]. *)
Definition make_tinfo : cres thread :=
  h <- create_heap ;;
  Ok {| th_alloc := sp_start (h 0%nat); th_limit := sp_limit (h 0%nat); th_heap := h;
        th_fp := []; th_nalloc := 0 |}.

(** gc_stack.c:377-394 [resume]. *)
Definition resume (ti : thread) (h : heap) : cres thread :=
  let lo := sp_start (h 0%nat) in
  let hi := sp_limit (h 0%nat) in
  if u64 ((hi - lo) / 8) <? th_nalloc ti then Abort
  else Ok {| th_alloc := lo; th_limit := hi; th_heap := h; th_fp := th_fp ti; th_nalloc := th_nalloc ti |}.

(** gc_stack.c:404-435: the loop of [garbage_collect], [n] iterations left, now at [i].
    The last case is "Ran out of generations". *)
Fixpoint gc_loop (n : nat) (i : nat) (ti : thread) (h : heap) (m : mem) : cres (thread * mem) :=
  match n with
  | O => Abort
  | S n =>
      h <- (if sp_start (h (S i)) =? 0 then
              let w := (sp_rem (h i) - sp_start (h i)) / 8 in
              s <- create_space (S i) (2 * w) ;; Ok (set_space h (S i) s)
            else Ok h) ;;
      '(from, to, m) <- do_generation (h i) (h (S i)) (th_fp ti) m ;;
      let h := set_space (set_space h i from) (S i) to in
      if (sp_rem (h i) - sp_start (h i)) / 8 <=? (sp_limit (h (S i)) - sp_next (h (S i))) / 8 then
        ti <- resume ti h ;; Ok (ti, m)
      else gc_loop n (S i) ti h m
  end.

(** gc_stack.c:402-403 and 474-475: the mutator's pointers are put in the nursery descriptor. *)
Definition sync_nursery (ti : thread) : heap :=
  let s := th_heap ti 0%nat in
  set_space (th_heap ti) 0
    {| sp_start := sp_start s; sp_next := th_alloc ti; sp_limit := th_limit ti; sp_rem := sp_rem s |}.

(** gc_stack.c:396-436 [garbage_collect]. *)
Definition garbage_collect (ti : thread) (m : mem) : cres (thread * mem) :=
  gc_loop (MAX_SPACES - 1) 0 ti (sync_nursery ti) m.

(** gc_stack.c:476-477: the loop of [garbage_collect_all]; returns the last index, heap and
    memory. *)
Fixpoint gc_all_loop (n : nat) (i : nat) (fr : frames) (h : heap) (m : mem) : cres (nat * heap * mem) :=
  match n with
  | O => Ok (i, h, m)
  | S n =>
      if sp_start (h (S i)) =? 0 then Ok (i, h, m)
      else
        '(from, to, m) <- do_generation (h i) (h (S i)) fr m ;;
        gc_all_loop n (S i) fr (set_space (set_space h i from) (S i) to) m
  end.

(** gc_stack.c:466-480 [garbage_collect_all] (heap not NULL). *)
Definition garbage_collect_all (ti : thread) (m : mem) : cres (nat * thread * mem) :=
  '(i, h, m) <- gc_all_loop (MAX_SPACES - 1) 0 (th_fp ti) (sync_nursery ti) m ;;
  Ok (i, {| th_alloc := th_alloc ti; th_limit := th_limit ti; th_heap := h;
            th_fp := th_fp ti; th_nalloc := th_nalloc ti |}, m).

End WithMalloc.

(** gc_stack.c:522-528 [certirocq_modify]. *)
Definition certirocq_modify (ti : thread) (m : mem) (p_cell p_val : Z) : cres (thread * mem) :=
  if th_alloc ti <? th_limit ti then
    let m := upd m p_cell p_val in
    if is_ptr p_val then
      let limit := th_limit ti - 8 in
      Ok ({| th_alloc := th_alloc ti; th_limit := limit; th_heap := th_heap ti;
             th_fp := th_fp ti; th_nalloc := th_nalloc ti |}, upd m limit p_cell)
    else Ok (ti, m)
  else Abort.

(** gc_stack.c:483-519 [export_heap] for a boxed root: [slot] is the address of [roots[0]] in
    the C frame of [export_heap]; [a1], [a2] are the addresses malloc returns for [fake_sp] and
    [value_sp] (NULL is an abort, gc_stack.c:333-334). *)
Definition export_heap (ti : thread) (m : mem) (root slot a1 a2 : Z) : cres (Z * mem) :=
  let m := upd m slot root in
  let ti := {| th_alloc := th_alloc ti; th_limit := th_limit ti; th_heap := th_heap ti;
               th_fp := [(slot, 1%nat)]; th_nalloc := th_nalloc ti |} in
  if negb (is_ptr root) then Ok (root, m)
  else
    '(lvl, ti, m) <- garbage_collect_all ti m ;;
    let sp := th_heap ti lvl in
    let n1 := (sp_next sp - sp_start sp) / 8 in
    let fake := {| sp_start := a1; sp_next := a1; sp_limit := a1 + 8 * n1; sp_rem := a1 + 8 * n1 |} in
    '(sp, fake, m) <- do_generation sp fake (th_fp ti) m ;;
    let n2 := (sp_next fake - sp_start fake) / 8 in
    let val := {| sp_start := a2; sp_next := a2; sp_limit := a2 + 8 * n2; sp_rem := a2 + 8 * n2 |} in
    '(fake, val, m) <- do_generation fake val (th_fp ti) m ;;
    Ok (sp_start val + 8, m).
