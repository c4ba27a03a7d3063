(** * A collector that meets the contract [gc_ok]

    Used in examples only: it makes room by moving every block below the free
    area (those allocated by the program), so that any word the generated code failed to save as a root, or
    failed to reload, would be stale afterwards.  It stands for
    runtime/gc_stack.c, [garbage_collect], which is modelled in full in GC_*.v. *)
From Coq Require Import ZArith NArith List Lia Bool.
Import ListNotations.
From Verif Require Import ANF_Syntax CG_Clight CG_Spec CG_Stack.
Set Implicit Arguments.
Local Open Scope Z_scope.

Definition reloc (a n : Z) (w : cval) : cval :=
  match w with VP BHeap p => VP BHeap (if p <=? a then p - n else p) | _ => w end.

Definition shift_heap (a hi n : Z) (h : Z -> option cval) : Z -> option cval :=
  fun x => if x <? a - n then option_map (reloc a n) (h (x + n))
           else if x <? hi then None
           else option_map (reloc a n) (h x).

Definition shift_frame (a n : Z) (fr : frame) : frame :=
  {| f_next := f_next fr; f_root := f_root fr; f_prev := f_prev fr;
     f_arr := fun o => option_map (reloc a n) (f_arr fr o); f_size := f_size fr |}.

(** moves everything below the free area down by the number of words wanted;
    the args array is clobbered *)
Definition shift_gc (m : mem) : gres :=
  match m_alloc m, m_nalloc m with
  | VP BHeap a, VZ n =>
      if a <? m_hi m then
        GOk {| m_heap := shift_heap a (m_hi m) n (m_heap m); m_lo := a - n; m_hi := m_hi m;
               m_args := fun _ => None;
               m_alloc := VP BHeap (a - n); m_limit := VP BHeap (m_hi m); m_fp := m_fp m; m_nalloc := m_nalloc m;
               m_frames := map (fun p => (fst p, shift_frame a n (snd p))) (m_frames m);
               m_next := m_next m |}
      else GAbort
  | _, _ => GAbort
  end.

Lemma get_map A B (f : A -> B) i : forall fs : tmap A,
  get i (map (fun p => (fst p, f (snd p))) fs) = option_map f (get i fs).
Proof.
  induction fs as [|[j x] fs IH]; [reflexivity|]. cbn [map get fst snd].
  destruct (Pos.eq_dec i j); [reflexivity|exact IH].
Qed.

Lemma shift_repr h a hi n v w : a < hi -> 0 <= n -> hrepr h a hi v w ->
  hrepr (shift_heap a hi n h) (a - n) hi v (reloc a n w).
Proof.
  intros Ha Hn. induction 1 as [z|f|hdr vs p ws Hh Ho Hl Hs Hf Hr IH]; cbn [reloc]; [constructor|constructor|].
  assert (K : forall x w, h x = Some w -> outside a hi x ->
            shift_heap a hi n h (if x <? a then x - n else x) = Some (reloc a n w) /\
            outside (a - n) hi (if x <? a then x - n else x)).
  { intros x w Hx [O|O]; unfold shift_heap.
    - destruct (Z.ltb_spec x a); [|lia]. destruct (Z.ltb_spec (x - n) (a - n)); [|lia].
      replace (x - n + n) with x by lia. rewrite Hx. split; [reflexivity|left; lia].
    - destruct (Z.ltb_spec x a); [lia|]. destruct (Z.ltb_spec x (a - n)); [lia|].
      destruct (Z.ltb_spec x hi); [lia|]. rewrite Hx.
      split; [reflexivity|right; lia]. }
  destruct (K _ _ Hh Ho) as [K1 K2].
  assert (E : (if p - 1 <? a then p - 1 - n else p - 1) = (if p <=? a then p - n else p) - 1).
  { destruct (Z.ltb_spec (p - 1) a), (Z.leb_spec p a); lia. }
  rewrite E in K1, K2.
  apply (@HR_block _ _ _ _ _ _ (fun i => reloc a n (ws i))); auto.
  intros i v' N. destruct (Hf _ _ N) as [F1 F2].
  destruct (K _ _ F2 F1) as [K3 K4].
  assert (E' : (if p + Z.of_nat i <? a then p + Z.of_nat i - n else p + Z.of_nat i) = (if p <=? a then p - n else p) + Z.of_nat i).
  { destruct (Z.ltb_spec (p + Z.of_nat i) a), (Z.leb_spec p a); try lia.
    (* header below the free area, field above: the fields in between would lie in it *)
    exfalso. destruct F1 as [F1|F1]; [lia|].
    destruct (nth_error vs (Z.to_nat (a - p))) as [v0|] eqn:N0.
    + destruct (Hf _ _ N0) as [[F|F] _]; rewrite Z2Nat.id in F by lia; lia.
    + apply nth_error_None in N0. assert (H1 : nth_error vs i <> None) by congruence. apply nth_error_Some in H1. lia. }
  rewrite E' in K3, K4. split; assumption.
Qed.

Theorem shift_gc_ok : gc_ok shift_gc.
Proof.
  intros m a ids n W [A1 A2] Hn Pn. unfold shift_gc. rewrite A1, Hn.
  destruct (Z.ltb_spec a (m_hi m)) as [L|L]; [right|left; reflexivity].
  eexists. exists (a - n). split; [reflexivity|]. split; [split; reflexivity|].
  cbn [m_lo m_hi m_fp]. split; [lia|]. split; [lia|]. split; [reflexivity|].
  split; [cbn; lia|]. intros id _. cbn [m_frames]. rewrite get_map.
  destruct (get id (m_frames m)) as [fr|]; cbn [option_map]; [|exact I].
  repeat split. intros I o w v U G R. cbn [shift_frame f_arr]. rewrite G. exists (reloc a n w).
  split; [reflexivity|]. apply shift_repr; assumption.
Qed.
