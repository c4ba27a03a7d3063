(** * C89: the result of the compiled compiler is copied faithfully into OCaml's heap *)
From Coq Require Import ZArith List Bool Arith Lia.
From Verif Require Import BW_Model BW_Spec BW_Proofs.
Import ListNotations.

(** whatever OCaml's collector does during the copy, the copy is the value, all of it in
    OCaml's heap; everything registered keeps its value; one block is allocated for every
    occurrence of a block in the value *)
Theorem C89_copy : forall src alloc v t, allocates alloc -> value_in src v t -> plain t ->
  exists F0, forall F, F0 <= F -> forall st, exists st' f r, copy src alloc F v st = Some (st', r) /\
    shows (ml st') r t /\ roots st' = map (ren f) (roots st) /\
    (forall w u, In w (roots st) -> shows (ml st) w u -> plain u -> shows (ml st') (ren f w) u) /\
    tick st' = tick st + blocks t.
Proof.
  intros src alloc v t HA V P. destruct (copy_ok src alloc HA t v V P) as [F0 H]. exists F0. intros F HF st.
  destruct (H F HF st) as (st' & f & r & A & E & ER & K & O & _ & T). exists st', f, r.
  split; [exact E|]. split; [now apply (own_shows (ml st')) in O|]. split; [exact ER|]. split; [|exact T].
  intros w u I S0 PU. destruct (shows_own _ _ _ S0) as [B OB].
  pose proof (proj1 (own_moved _ _ _ _ K) w u B OB PU) as M. apply (own_shows (ml st')) in M; [exact M|].
  intros b ->. now constructor.
Qed.

(** a collector that moves everything in every allocation *)
Definition mover (t : nat) (h : heap) (R : list word) (tag n : nat) : heap * (nat -> nat) * nat :=
  (fun x => match x with O => Some (tag, repeat (Imm 0%Z) n) | S x => option_map (moved S) (h x) end, S, O).

Lemma mover_allocates : allocates mover.
Proof.
  intros t h R tag n _ _. cbn. split; [split|split].
  - reflexivity.
  - intros b c _ _ E. now injection E.
  - now exists 0%Z.
  - intros b _ E. discriminate E.
Qed.

(** a pair of a list of two elements and the same list; the options are registered *)
Definition ex_src : heap := fun a =>
  match a with
  | 0 => Some (0, [Imm 5%Z; Imm 0%Z]) | 1 => Some (0, [Imm 3%Z; Src 0]) | 2 => Some (1, [Src 1; Src 1])
  | _ => None
  end.
Definition ex_list : tree := TN 0 [TI 3%Z; TN 0 [TI 5%Z; TI 0%Z]].
Definition ex_tree : tree := TN 1 [ex_list; ex_list].
Definition ex_world : world :=
  {| tick := 0; ml := fun a => match a with 0 => Some (0, [Cml 4; Imm 1%Z]) | 4 => Some (2, [Imm 9%Z]) | _ => None end; roots := [Cml 0] |}.

Example C89_copy_example :
  allocates mover /\ value_in ex_src (Src 2) ex_tree /\ plain ex_tree /\ blocks ex_tree = 5 /\
  exists st' r, copy ex_src mover 9 (Src 2) ex_world = Some (st', r) /\
    r = Cml 4 /\ roots st' = [Cml 5] /\ tick st' = 5 /\
    List.map (ml st') [4; 3; 2; 1; 0; 5; 9] =
      [Some (1, [Cml 3; Cml 1]); Some (0, [Imm 3%Z; Cml 2]); Some (0, [Imm 5%Z; Imm 0%Z]);
       Some (0, [Imm 3%Z; Cml 0]); Some (0, [Imm 5%Z; Imm 0%Z]); Some (0, [Cml 9; Imm 1%Z]); Some (2, [Imm 9%Z])].
Proof.
  assert (V0 : value_in ex_src (Src 0) (TN 0 [TI 5%Z; TI 0%Z])) by (econstructor; [reflexivity|]; repeat constructor).
  assert (V1 : value_in ex_src (Src 1) ex_list) by (econstructor; [reflexivity|]; constructor; [constructor|]; constructor; [exact V0|constructor]).
  split; [exact mover_allocates|]. split; [econstructor; [reflexivity|]; constructor; [exact V1|]; constructor; [exact V1|constructor]|].
  split.
  { assert (PL : plain ex_list).
    { apply pl_block; [unfold no_scan; lia|discriminate|]. constructor; [constructor|]. constructor; [|constructor].
      apply pl_block; [unfold no_scan; lia|discriminate|]. repeat constructor. }
    apply pl_block; [unfold no_scan; lia|discriminate|]. constructor; [exact PL|]. constructor; [exact PL|constructor]. }
  split; [reflexivity|]. vm_compute. eexists. eexists. split; [reflexivity|]. repeat split; reflexivity.
Qed.

(** ** Where the copy is not the value *)

(** a field that is no value, the code of a closure (tag 0), the contents of a float (253)
    or a string (252), is followed like an address *)
Theorem C89_raw_refuted : forall tag z, exists src, src 0 = Some (tag, [Raw z; Imm 1%Z]) /\
  forall alloc F st, copy src alloc F (Src 0) st = None.
Proof.
  intros tag z. exists (fun a => match a with 0 => Some (tag, [Raw z; Imm 1%Z]) | _ => None end). split; [reflexivity|].
  intros alloc [|F] st; [reflexivity|]. cbn [copy is_long lookup length].
  destruct (alloc (tick st) (ml st) (roots st) tag 2) as [[h f] a]. cbn [fill lookup nth_error].
  destruct F as [|F]; reflexivity.
Qed.

(** a result that contains part of the argument, which is in OCaml's heap: that part is
    registered with the argument, but the words of the result are not, and after a
    collection they point somewhere else *)
Theorem C89_shared_with_argument_refuted : exists src alloc st st' r, allocates alloc /\
  src 0 = Some (0, [Cml 0]) /\ roots st = [Cml 0] /\ ml st 0 = Some (0, [Imm 7%Z]) /\
  (forall F, copy src alloc (4 + F) (Src 0) st = Some (st', r)) /\
  shows (ml st') r (TN 0 [TN 0 [TI 0%Z]]) /\ ~ shows (ml st') r (TN 0 [TN 0 [TI 7%Z]]).
Proof.
  exists (fun a => match a with 0 => Some (0, [Cml 0]) | _ => None end), mover,
    {| tick := 0; ml := fun a => match a with 0 => Some (0, [Imm 7%Z]) | _ => None end; roots := [Cml 0] |}.
  eexists. eexists. split; [exact mover_allocates|]. split; [reflexivity|]. split; [reflexivity|]. split; [reflexivity|].
  split; [intros F; cbn; reflexivity|]. cbn [ml]. split.
  - econstructor; [reflexivity|]. constructor; [|constructor]. econstructor; [reflexivity|]. repeat constructor.
  - intros H. inversion H as [|a tag ws ts E FV]; subst. vm_compute in E. injection E as <-.
    inversion FV as [|w t ws' ts' S1 _]; subst. inversion S1 as [|a tag ws ts E FV2]; subst. vm_compute in E. injection E as <-.
    inversion FV2 as [|w t ws' ts' S2 _]; subst. inversion S2.
Qed.

(** sharing is lost: a value of [n + 1] blocks takes [2 ^ (n + 1) - 1] allocations *)
Definition full_src (n : nat) : heap := fun a =>
  if n <? a then None else match a with O => Some (0, [Imm 0%Z; Imm 0%Z]) | S a => Some (0, [Src a; Src a]) end.
Fixpoint full (n : nat) : tree := match n with O => TN 0 [TI 0%Z; TI 0%Z] | S n => TN 0 [full n; full n] end.

Theorem C89_sharing_refuted : forall n, exists src t, (forall a, src a <> None <-> a <= n) /\
  value_in src (Src n) t /\ plain t /\
  forall alloc, allocates alloc -> exists F0, forall F, F0 <= F -> forall st, exists st' r,
    copy src alloc F (Src n) st = Some (st', r) /\ shows (ml st') r t /\ tick st' + 1 = tick st + 2 ^ (n + 1).
Proof.
  intros n. exists (full_src n), (full n).
  assert (V : forall m, m <= n -> value_in (full_src n) (Src m) (full m)).
  { induction m as [|m IH]; intros H; cbn [full]; econstructor; try (unfold full_src; rewrite (proj2 (Nat.ltb_ge _ _) H); reflexivity).
    - repeat constructor.
    - specialize (IH ltac:(lia)). repeat constructor; exact IH. }
  assert (P : forall m, plain (full m)).
  { induction m as [|m IH]; cbn [full]; (apply pl_block; [unfold no_scan; lia|discriminate|]); repeat constructor; exact IH. }
  assert (B : forall m, blocks (full m) + 1 = 2 ^ (m + 1)).
  { induction m as [|m IH]; [reflexivity|]. cbn [full blocks map]. unfold list_sum. cbn [fold_right].
    replace (S m + 1) with (S (m + 1)) by lia. rewrite Nat.pow_succ_r'. lia. }
  split; [|split; [apply V; lia|split; [apply P|]]].
  - intros a. unfold full_src. destruct (Nat.ltb_spec n a).
    + split; [congruence|lia].
    + split; [lia|]. intros _. destruct a; discriminate.
  - intros alloc HA. destruct (C89_copy _ _ _ _ HA (V n ltac:(lia)) (P n)) as [F0 H]. exists F0. intros F HF st.
    destruct (H F HF st) as (st' & f & r & E & S0 & _ & _ & T). exists st', r. split; [exact E|]. split; [exact S0|].
    rewrite T. specialize (B n). lia.
Qed.

Print Assumptions C89_copy.
Print Assumptions C89_raw_refuted.
Print Assumptions C89_shared_with_argument_refuted.
Print Assumptions C89_sharing_refuted.
