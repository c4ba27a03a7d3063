(** * What foreign-function glue has to do

    The calling convention of compiled code, and the shape of closures and
    environments, stated without the generator. *)
From Coq Require Import ZArith List Bool Arith String.
From Verif Require Import ANF_Syntax CG_Clight FF_Model.
Import ListNotations.
Local Open Scope nat_scope.

(** Words [ws] passed to a C function: the first [c] as its arguments, the others
    in the args array of the thread at their own positions
    (LambdaANF_to_Clight.v:579, 612, 633, 1006 and
    LambdaANF_to_Clight_stack.v:658, 699, 722, 1065; [c] is the option [c_args]). *)
Definition passed (c : nat) (ws cargs : list cval) (m : mem) : Prop :=
  cargs = firstn c ws /\ forall i w, c <= i -> nth_error ws i = Some w -> m_args m (Z.of_nat i) = Some w.

(** What a function of one argument is called with: its environment, in
    continuation-passing style the continuation, the argument. *)
Definition words_in (be : backend) (env k v : cval) : list cval :=
  match be with ANF => [env; v] | CPS => [env; k; v] end.

(** a block does not overlap the free part of the heap *)
Definition used (m : mem) (o : Z) : Prop := forall a, m_alloc m = VP BHeap a -> (o + 2 <= a \/ m_hi m <= o)%Z.

(** [w] is the address of the two words [x] and [y] *)
Definition pair_at (m : mem) (w x y : cval) : Prop :=
  exists o, w = VP BHeap o /\ used m o /\ m_heap m o = Some x /\ m_heap m (o + 1)%Z = Some y.

(** the header of [w] says: two words, tag 0 (2048 = 2 * 1024) *)
Definition headed (m : mem) (w : cval) : Prop := exists o, w = VP BHeap o /\ m_heap m (o - 1)%Z = Some (VZ 2048).

(** [n] words are left *)
Definition room (m : mem) (n : Z) : Prop :=
  exists a, m_alloc m = VP BHeap a /\ (m_lo m <= a)%Z /\ (a + n <= m_hi m)%Z.

(** [n] words were allocated, nothing else in the heap changed *)
Definition allocated (n : Z) (m m' : mem) : Prop :=
  exists a, m_alloc m = VP BHeap a /\ m_alloc m' = VP BHeap (a + n) /\
    (forall o, (o < a \/ a + n <= o)%Z -> m_heap m' o = m_heap m o) /\
    m_lo m' = m_lo m /\ m_hi m' = m_hi m /\ m_limit m' = m_limit m /\ m_fp m' = m_fp m /\ m_frames m' = m_frames m.

(** The function answers [w]: in continuation-passing style it calls the
    continuation with its environment and [w], in direct style the answer is
    left in the args array. *)
Definition answers (be : backend) (c : nat) (k w : cval) (o : outcome) (m' : mem) : Prop :=
  match be with
  | ANF => o = Returned None m' /\ m_args m' 1%Z = Some w
  | CPS => exists kf kenv cargs, pair_at m' k kf kenv /\ o = Jumped kf cargs m' /\ passed c [kenv; w] cargs m'
  end.

(** arguments collected so far, the latest first *)
Fixpoint env_holds (m : mem) (w : cval) (l : list cval) : Prop :=
  match l with [] => True | v :: r => exists w', pair_at m w v w' /\ env_holds m w' r end.

(** the functions among the definitions, the one called first first *)
Definition functions (defs : list (positive * fdef)) : list positive :=
  flat_map (fun d => match snd d with Fun _ => [fst d] | _ => [] end) (rev defs).

(** the code of a function *)
Definition code (defs : list (positive * fdef)) (f : positive) (fn : ffun) : Prop := In (f, Fun fn) defs.

(** [w] is the foreign function applied to [vs] *)
Definition stage (defs : list (positive * fdef)) (m : mem) (w : cval) (vs : list cval) : Prop :=
  exists f env, pair_at m w (VF f) env /\ env_holds m env (rev vs) /\ nth_error (functions defs) (List.length vs) = Some f.

(** a static closure in memory: the function and the number 1 *)
Definition laid_out (m : mem) (w : cval) (entry : positive) : Prop := pair_at m w (VF entry) (VZ 1).

(** the block of a closure, and those of its environment *)
Inductive in_chain (m : mem) (w : cval) : cval -> Prop :=
| ic_self : in_chain m w w
| ic_next x y z : in_chain m w x -> pair_at m x y z -> in_chain m w z.

(** the blocks of a closure are kept, perhaps elsewhere (a collection, or other
    code running) *)
Definition moved (ren : cval -> cval) (m m' : mem) (w : cval) : Prop :=
  (forall f, ren (VF f) = VF f) /\
  forall x y z, in_chain m w x -> pair_at m x y z -> pair_at m' (ren x) (ren y) (ren z).

(** [w] is a result of applying the static closure to [vs], one after the other,
    by calling the functions found in the closures, with other code running and
    collecting garbage in between. *)
Inductive applied (be : backend) (c : nat) (ext : foreign) (defs : list (positive * fdef)) : list cval -> mem -> cval -> Prop :=
| ap_start clo entry m w : In (clo, Closure entry) defs -> laid_out m w entry -> applied be c ext defs [] m w
| ap_step vs m w f env k v cargs fn m' w' :
    applied be c ext defs vs m w -> pair_at m w (VF f) env -> code defs f fn ->
    room m 6 -> (be = CPS -> exists kf kenv, pair_at m k kf kenv) ->
    passed c (words_in be env k v) cargs m ->
    answers be c k w' (fcall ext fn cargs m) m' ->
    applied be c ext defs (vs ++ [v]) m' w'
| ap_move vs m w ren m' : applied be c ext defs vs m w -> moved ren m m' w -> applied be c ext defs (map ren vs) m' (ren w).

(** the number of arguments before the foreign function is called: those of the
    type, and the world for a type in IO *)
Definition total (arity : nat) (is_io : bool) : nat := if is_io then S arity else arity.
