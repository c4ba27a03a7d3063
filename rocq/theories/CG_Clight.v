(** * The fragment of Clight that the C back end emits, and its execution

    The C back end (theories/Codegen/LambdaANF_to_Clight_stack.v) produces
    CompCert Clight syntax that is printed as C.  This file models the statement
    and expression forms it uses and gives them an executable semantics with
    explicit undefined behaviour.

    Simplified:
    - types are dropped; a memory word is an integer, a pointer into one of the
      blocks below (word offsets) or a function;
    - [tinf], the first argument of every call, is left out: there is one
      thread_info and its fields are state components;
    - the heap is one block whose writable part is the interval the collector
      last handed out ([m_lo], [m_hi]); writing elsewhere is undefined;
    - each activation has its own stack frame and root array, which cease to
      exist when it returns;
    - the collector is a parameter ([gc]);
    - calling a function that is not part of the program is undefined (external
      primitives are not executed). *)
From Coq Require Import ZArith NArith List Lia Bool.
Import ListNotations.
From Verif Require Import ANF_Syntax.
Set Implicit Arguments.
Local Open Scope Z_scope.

(** ** Values *)

(** heap; the args array of thread_info (runtime/gc_stack.h, [struct thread_info]);
    the root array and the frame record of an activation
    (LambdaANF_to_Clight_stack.v:493-495, [stack_decl]) *)
Inductive block : Set := BHeap | BArgs | BRoots (id : positive) | BFrame (id : positive).

(** a word *)
Inductive cval : Set :=
| VZ (z : Z)
| VP (b : block) (o : Z)
| VF (f : positive).

(** ** Syntax *)

(** fields of thread_info used by the generated code (runtime/gc_stack.h) *)
Inductive tfield : Set := Talloc | Tlimit | Targs | Tfp | Tnalloc.

(** fields of struct stack_frame (runtime/gc_stack.h) *)
Inductive ffield : Set := Fnext | Froot | Fprev.

(** operators used: LambdaANF_to_Clight_stack.v:425-440, 595-601, 766-789 *)
Inductive binop : Set := Oadd | Osub | Oand | Oshr | Oeq | Ole.

(** expressions: [Etempvar], [Evar] of a function, constants, operators, [Ederef],
    [Efield] of thread_info and of the local frame, [Evar rootIdent] (the array,
    that is its address), the address of the frame, casts *)
Inductive cexpr : Set :=
| Xtemp (x : positive)
| Xfun (f : positive)
| Xconst (z : Z)
| Xbin (o : binop) (a b : cexpr)
| Xnot (a : cexpr)
| Xderef (a : cexpr)
| Xtinfo (f : tfield)
| Xframe (f : ffield)
| Xroots
| Xframe_addr
| Xcast (a : cexpr).

(** statements and labelled statements of Clight *)
Inductive stmt : Set :=
| Sskip
| Sset (x : positive) (e : cexpr)
| Sassign (l e : cexpr)
| Scall (x : option positive) (f : cexpr) (args : list cexpr)
| Sseq (s1 s2 : stmt)
| Sif (e : cexpr) (s1 s2 : stmt)
| Sswitch (e : cexpr) (ls : lstmts)
| Sreturn (e : cexpr)
| Sbreak
with lstmts : Set :=
| LSnil
| LScons (l : option Z) (s : stmt) (ls : lstmts).

(** ** State *)

(** struct stack_frame together with its root array: [f_size] words *)
Record frame : Type := {
  f_next : option cval; f_root : option cval; f_prev : option cval;
  f_arr : Z -> option cval; f_size : Z }.

(** memory and thread_info *)
Record mem : Type := {
  m_heap : Z -> option cval;
  m_lo : Z; m_hi : Z;
  m_args : Z -> option cval;
  m_alloc : cval; m_limit : cval; m_fp : cval; m_nalloc : cval;
  m_frames : tmap frame;
  m_next : positive }.

Definition upd (h : Z -> option cval) (a : Z) (v : cval) : Z -> option cval :=
  fun x => if x =? a then Some v else h x.

Definition set_heap m h := {| m_heap := h; m_lo := m_lo m; m_hi := m_hi m; m_args := m_args m;
  m_alloc := m_alloc m; m_limit := m_limit m; m_fp := m_fp m; m_nalloc := m_nalloc m;
  m_frames := m_frames m; m_next := m_next m |}.
Definition set_args m h := {| m_heap := m_heap m; m_lo := m_lo m; m_hi := m_hi m; m_args := h;
  m_alloc := m_alloc m; m_limit := m_limit m; m_fp := m_fp m; m_nalloc := m_nalloc m;
  m_frames := m_frames m; m_next := m_next m |}.
Definition set_frames m fs := {| m_heap := m_heap m; m_lo := m_lo m; m_hi := m_hi m; m_args := m_args m;
  m_alloc := m_alloc m; m_limit := m_limit m; m_fp := m_fp m; m_nalloc := m_nalloc m;
  m_frames := fs; m_next := m_next m |}.
Definition set_tinfo m (f : tfield) (v : cval) : option mem :=
  let mk a l p n := Some {| m_heap := m_heap m; m_lo := m_lo m; m_hi := m_hi m; m_args := m_args m;
    m_alloc := a; m_limit := l; m_fp := p; m_nalloc := n;
    m_frames := m_frames m; m_next := m_next m |} in
  match f with
  | Talloc => mk v (m_limit m) (m_fp m) (m_nalloc m)
  | Tlimit => mk (m_alloc m) v (m_fp m) (m_nalloc m)
  | Tfp => mk (m_alloc m) (m_limit m) v (m_nalloc m)
  | Tnalloc => mk (m_alloc m) (m_limit m) (m_fp m) v
  | Targs => None
  end.

Definition set_ffield (fr : frame) (f : ffield) (v : cval) : frame :=
  match f with
  | Fnext => {| f_next := Some v; f_root := f_root fr; f_prev := f_prev fr; f_arr := f_arr fr; f_size := f_size fr |}
  | Froot => {| f_next := f_next fr; f_root := Some v; f_prev := f_prev fr; f_arr := f_arr fr; f_size := f_size fr |}
  | Fprev => {| f_next := f_next fr; f_root := f_root fr; f_prev := Some v; f_arr := f_arr fr; f_size := f_size fr |}
  end.

Definition set_arr (fr : frame) (h : Z -> option cval) : frame :=
  {| f_next := f_next fr; f_root := f_root fr; f_prev := f_prev fr; f_arr := h; f_size := f_size fr |}.

(** LambdaANF_to_Clight_stack.v:123 and runtime/gc_stack.h ([MAX_ARGS]) *)
Definition maxArgs : Z := 1024.

(** reading a word *)
Definition load (m : mem) (b : block) (o : Z) : option cval :=
  match b with
  | BHeap => m_heap m o
  | BArgs => if (0 <=? o) && (o <? maxArgs) then m_args m o else None
  | BRoots id =>
      match get id (m_frames m) with
      | Some fr => if (0 <=? o) && (o <? f_size fr) then f_arr fr o else None
      | None => None
      end
  | BFrame _ => None
  end.

(** writing a word; heap words only inside the interval handed out *)
Definition store (m : mem) (b : block) (o : Z) (v : cval) : option mem :=
  match b with
  | BHeap => if (m_lo m <=? o) && (o <? m_hi m) then Some (set_heap m (upd (m_heap m) o v)) else None
  | BArgs => if (0 <=? o) && (o <? maxArgs) then Some (set_args m (upd (m_args m) o v)) else None
  | BRoots id =>
      match get id (m_frames m) with
      | Some fr =>
          if (0 <=? o) && (o <? f_size fr)
          then Some (set_frames m (set id (set_arr fr (upd (f_arr fr) o v)) (m_frames m)))
          else None
      | None => None
      end
  | BFrame _ => None
  end.

Definition tinfo_get (m : mem) (f : tfield) : cval :=
  match f with
  | Talloc => m_alloc m | Tlimit => m_limit m | Targs => VP BArgs 0 | Tfp => m_fp m | Tnalloc => m_nalloc m
  end.

Definition frame_get (m : mem) (id : positive) (f : ffield) : option cval :=
  match get id (m_frames m) with
  | Some fr => match f with Fnext => f_next fr | Froot => f_root fr | Fprev => f_prev fr end
  | None => None
  end.

(** ** Expressions *)

Definition b2v (b : bool) : cval := VZ (if b then 1 else 0).

(** pointer arithmetic in words; a pointer is even, so its lowest bit is zero *)
Definition binop_eval (o : binop) (a b : cval) : option cval :=
  match o, a, b with
  | Oadd, VP bl x, VZ n => Some (VP bl (x + n))
  | Osub, VP BHeap x, VP BHeap y => Some (VZ (x - y))
  | Oand, VZ x, VZ y => Some (VZ (Z.land x y))
  | Oand, VP _ _, VZ 1 => Some (VZ 0)
  | Oshr, VZ x, VZ y => Some (VZ (Z.shiftr x y))
  | Oeq, VZ x, VZ y => Some (b2v (x =? y))
  | Ole, VZ x, VZ y => Some (b2v (x <=? y))
  | _, _, _ => None
  end.

(** [id] is the activation's frame; a literal must fit in 64 bits *)
Fixpoint eval (id : positive) (t : tmap cval) (m : mem) (e : cexpr) : option cval :=
  match e with
  | Xtemp x => get x t
  | Xfun f => Some (VF f)
  | Xconst z => if (- 2 ^ 63 <=? z) && (z <? 2 ^ 64) then Some (VZ z) else None
  | Xbin o a b =>
      match eval id t m a, eval id t m b with
      | Some x, Some y => binop_eval o x y
      | _, _ => None
      end
  | Xnot a => match eval id t m a with Some (VZ z) => Some (b2v (z =? 0)) | _ => None end
  | Xderef a => match eval id t m a with Some (VP b o) => load m b o | _ => None end
  | Xtinfo f => Some (tinfo_get m f)
  | Xframe f => frame_get m id f
  | Xroots => Some (VP (BRoots id) 0)
  | Xframe_addr => Some (VP (BFrame id) 0)
  | Xcast a => eval id t m a
  end.

Fixpoint eval_list (id : positive) (t : tmap cval) (m : mem) (es : list cexpr) : option (list cval) :=
  match es with
  | [] => Some []
  | e :: es' =>
      match eval id t m e, eval_list id t m es' with
      | Some v, Some vs => Some (v :: vs)
      | _, _ => None
      end
  end.

(** assignment *)
Definition assign (id : positive) (t : tmap cval) (m : mem) (l : cexpr) (v : cval) : option mem :=
  match l with
  | Xderef a => match eval id t m a with Some (VP b o) => store m b o v | _ => None end
  | Xtinfo f => set_tinfo m f v
  | Xframe f =>
      match get id (m_frames m) with
      | Some fr => Some (set_frames m (set id (set_ffield fr f v) (m_frames m)))
      | None => None
      end
  | _ => None
  end.

(** ** Statements *)

Inductive out : Type := Onormal | Obreak | Oret (v : cval).

(** result of a statement: state, undefined behaviour, abort (heap exhausted),
    or not enough fuel *)
Inductive sres : Type :=
| ROk (o : out) (t : tmap cval) (m : mem)
| RUB | RAbort | RTime.

(** result of a call *)
Inductive rres : Type :=
| COk (v : cval) (m : mem)
| CUB | CAbort | CTime.

(** result of the collector *)
Inductive gres : Type := GOk (m : mem) | GAbort.

Fixpoint has_label (z : Z) (ls : lstmts) : bool :=
  match ls with
  | LSnil => false
  | LScons (Some c) _ ls' => (c =? z) || has_label z ls'
  | LScons None _ ls' => has_label z ls'
  end.

Definition lab_eqb (a b : option Z) : bool :=
  match a, b with
  | Some x, Some y => x =? y
  | None, None => true
  | _, _ => false
  end.

Section Exec.
  (** the collector called by the generated code (runtime/gc_stack.c, [garbage_collect]) *)
  Variable gc : mem -> gres.
  (** calls *)
  Variable call : positive -> list cval -> mem -> rres.
  (** declared temporaries and parameters, identifier of the collector, own frame *)
  Variable decl : list positive.
  Variable gcId : positive.
  Variable id : positive.

  Definition andthen (r : sres) (k : tmap cval -> mem -> sres) : sres :=
    match r with ROk Onormal t m => k t m | _ => r end.

  Definition unbreak (r : sres) : sres :=
    match r with ROk Obreak t m => ROk Onormal t m | _ => r end.

  Definition assign_temp (x : positive) (v : cval) (t : tmap cval) (m : mem) : sres :=
    if ANF_Syntax.mem x decl then ROk Onormal (set x v t) m else RUB.

  (** Clight's big-step rules; [exec_sel l] runs from the label [l] on, falling through *)
  Fixpoint exec (s : stmt) (t : tmap cval) (m : mem) {struct s} : sres :=
    match s with
    | Sskip => ROk Onormal t m
    | Sset x e => match eval id t m e with Some v => assign_temp x v t m | None => RUB end
    | Sassign l e =>
        match eval id t m e with
        | Some v => match assign id t m l v with Some m' => ROk Onormal t m' | None => RUB end
        | None => RUB
        end
    | Scall x f args =>
        match eval id t m f, eval_list id t m args with
        | Some (VF g), Some vs =>
            if Pos.eqb g gcId then
              match gc m with GOk m' => ROk Onormal t m' | GAbort => RAbort end
            else
              match call g vs m with
              | COk v m' =>
                  match x with Some y => assign_temp y v t m' | None => ROk Onormal t m' end
              | CUB => RUB | CAbort => RAbort | CTime => RTime
              end
        | _, _ => RUB
        end
    | Sseq s1 s2 => andthen (exec s1 t m) (exec s2)
    | Sif e s1 s2 =>
        match eval id t m e with
        | Some (VZ z) => if z =? 0 then exec s2 t m else exec s1 t m
        | _ => RUB
        end
    | Sswitch e ls =>
        match eval id t m e with
        | Some (VZ z) => unbreak (exec_sel (if has_label z ls then Some z else None) ls t m)
        | _ => RUB
        end
    | Sreturn e => match eval id t m e with Some v => ROk (Oret v) t m | None => RUB end
    | Sbreak => ROk Obreak t m
    end
  with exec_sel (l : option Z) (ls : lstmts) (t : tmap cval) (m : mem) {struct ls} : sres :=
    match ls with
    | LSnil => ROk Onormal t m
    | LScons c s ls' =>
        if lab_eqb c l then andthen (exec s t m) (exec_all ls') else exec_sel l ls' t m
    end
  with exec_all (ls : lstmts) (t : tmap cval) (m : mem) {struct ls} : sres :=
    match ls with
    | LSnil => ROk Onormal t m
    | LScons _ s ls' => andthen (exec s t m) (exec_all ls')
    end.
End Exec.

(** ** Functions *)

(** LambdaANF_to_Clight_stack.v:1079-1093 ([mkFun]): parameters, declared
    temporaries, size of the root array, body *)
Record cfun : Set := { cf_params : list positive; cf_temps : list positive; cf_slots : Z; cf_body : stmt }.

Definition cprog := list (positive * cfun).

Definition no_frame (size : Z) : frame :=
  {| f_next := None; f_root := None; f_prev := None; f_arr := fun _ => None; f_size := size |}.

Definition enter (size : Z) (m : mem) : mem :=
  {| m_heap := m_heap m; m_lo := m_lo m; m_hi := m_hi m; m_args := m_args m;
     m_alloc := m_alloc m; m_limit := m_limit m; m_fp := m_fp m; m_nalloc := m_nalloc m;
     m_frames := set (m_next m) (no_frame size) (m_frames m); m_next := Pos.succ (m_next m) |}.

Definition leave (id : positive) (m : mem) : mem :=
  set_frames m (filter (fun p => negb (Pos.eqb (fst p) id)) (m_frames m)).

Section Run.
  Variable gc : mem -> gres.
  Variable gcId : positive.
  Variable prog : cprog.

  (** a call of [f]; one unit of fuel per nested call *)
  Fixpoint run (n : nat) (f : positive) (vs : list cval) (m : mem) {struct n} : rres :=
    match n with
    | O => CTime
    | S n' =>
        match get f prog with
        | None => CUB
        | Some cf =>
            match set_lists (cf_params cf) vs [] with
            | None => CUB
            | Some t =>
                match exec gc (run n') (cf_params cf ++ cf_temps cf) gcId (m_next m) (cf_body cf) t (enter (cf_slots cf) m) with
                | ROk (Oret v) _ m' => COk v (leave (m_next m) m')
                | ROk _ _ _ => CUB
                | RUB => CUB | RAbort => CAbort | RTime => CTime
                end
            end
        end
    end.
End Run.
