(** C95: sizes of programs, values and environments bound what they are meant to bound. *)
From Coq Require Import ZArith NArith List Bool Lia.
From Verif Require Import ANF_Syntax ANF_Spec SV_Model SZ_Model SZ_Spec SZ_Proofs.
Import ListNotations.

(** A program has at most as many free variables as its size; a block of functions as well. *)
Theorem C95_free :
  (forall e xs, NoDup xs -> (forall x, In x xs -> free x e) -> length xs <= sizeOf_exp e) /\
  (forall B xs, NoDup xs -> (forall x, In x xs -> free_funs x B) -> length xs <= sizeOf_fundefs B).
Proof. split; [exact free_count|exact free_funs_count]. Qed.

(** the free variables of [let z = C(x, y) in case z of _ => w]; the bound is reached up to one *)
Example C95_free_example :
  let e := (Econstr 4 1 [1; 2] (Ecase 4 [(1, Ehalt 3)]))%positive in
  (forall x, In x [1; 2; 3]%positive -> free x e) /\ NoDup [1; 2; 3]%positive /\ sizeOf_exp e = 4.
Proof.
  cbn. split; [|split; [|reflexivity]].
  - intros x [<-|[<-|[<-|[]]]]; intuition; right; split; try discriminate; intuition.
  - repeat constructor; cbn; intuition discriminate.
Qed.

(** The cost of one step of closure-converted code is at most the size of the program that takes it. *)
Theorem C95_cost : forall e, 1 <= cost_cc e /\ cost_cc e <= sizeOf_exp e.
Proof. intro e. split; [destruct e; cbn; lia|apply cost_le_size]. Qed.

(** a block whose closure has two free variables *)
Example C95_cost_example :
  let e := (Efun (Fcons 10 1 [11] (Eapp 2 1 [3; 11]) Fnil) (Ehalt 10))%positive in
  cost_cc e = 3 /\ sizeOf_exp e = 6.
Proof. split; reflexivity. Qed.

(** Sizes by levels: they grow with the level, from some level on they do not change, and a number
    bounds all of them exactly if it bounds every block of functions that can be reached. *)
Theorem C95_levels :
  (forall v k k', k <= k' -> sizeOf_val k v <= sizeOf_val k' v) /\
  (forall v, exists k0, forall k, k0 <= k -> sizeOf_val k v = sizeOf_val k0 v) /\
  (forall v n, (forall k, sizeOf_val k v <= n) <-> blocks (fun B => sizeOf_fundefs B <= n) v) /\
  (forall rho k n, sizeOf_env k rho <= n <-> forall x v, get x rho = Some v -> sizeOf_val k v <= n).
Proof.
  split; [exact val_mono|]. split; [|split; [exact blocks_size|intros; apply env_le]].
  intro v. destruct (val_stable v) as (k0 & H). exists k0. intros k L.
  apply Nat.le_antisymm; [apply H|apply val_mono, L].
Qed.

(** a closure whose environment holds a closure with a larger block; an older binding of the same
    name is not visible and does not count *)
Definition inner : val := (Vfun [] (Fcons 5 1 [6] (Eapp 6 1 [6; 6; 6]) Fnil) 5)%positive.
Definition hidden : val := (Vfun [] (Fcons 7 1 [8] (Eapp 8 1 [8; 8; 8; 8; 8; 8]) Fnil) 7)%positive.
Definition outer : val := (Vfun [(1, inner); (1, hidden)] (Fcons 2 1 [3] (Ehalt 1) Fnil) 2)%positive.
Example C95_levels_example :
  map (fun k => sizeOf_val k outer) [0; 1; 2; 3] = [0; 2; 5; 5] /\ sizeOf_val 1 hidden = 8.
Proof. split; reflexivity. Qed.

(** Binding names: the size is at most the larger of the two, and equal to it if nothing larger is
    overwritten. *)
Theorem C95_set :
  (forall k rho x v,
     sizeOf_val k v <= sizeOf_env k (set x v rho) /\
     sizeOf_env k (set x v rho) <= max (sizeOf_val k v) (sizeOf_env k rho) /\
     ((forall w, get x rho = Some w -> sizeOf_val k w <= sizeOf_val k v) ->
      sizeOf_env k (set x v rho) = max (sizeOf_val k v) (sizeOf_env k rho))) /\
  (forall k xs vs rho rho', set_lists xs vs rho = Some rho' ->
     sizeOf_env k rho' <= max (max_list_nat_with_measure (sizeOf_val k) 0 vs) (sizeOf_env k rho) /\
     (NoDup xs -> (forall x, In x xs -> get x rho = None) ->
      sizeOf_env k rho' = max (max_list_nat_with_measure (sizeOf_val k) 0 vs) (sizeOf_env k rho))).
Proof.
  split.
  - intros k rho x v.
    assert (L : sizeOf_val k v <= sizeOf_env k (set x v rho))
      by (apply (env_get k _ x), get_set_same).
    split; [exact L|]. split; [apply env_set_le|].
    intros H. apply env_set_eq. intros w G. specialize (H w G). lia.
  - intros k xs vs rho rho' H. split; [apply (env_set_lists_le k xs); exact H|].
    intros N F. apply (env_set_lists_eq k xs); assumption.
Qed.

Example C95_set_example :
  let rho := set 1%positive inner [] in
  get 2%positive rho = None /\ sizeOf_env 1 (set 2%positive hidden rho) = 8 /\ sizeOf_env 1 (set 2%positive inner (set 3%positive hidden rho)) = 8 /\
  exists rho', set_lists [2; 3]%positive [inner; hidden] rho = Some rho' /\ sizeOf_env 1 rho' = 8.
Proof. repeat split. eexists. split; reflexivity. Qed.

(** The two equations that size_cps.v:259-288 states and leaves open are false: binding a name again
    can make an environment smaller. *)
Theorem C95_set_refuted :
  (exists k rho x v, sizeOf_env k (set x v rho) <> max (sizeOf_val k v) (sizeOf_env k rho)) /\
  (exists k rho rho' xs vs, set_lists xs vs rho = Some rho' /\
     sizeOf_env k rho' <> max (max_list_nat_with_measure (sizeOf_val k) 0 vs) (sizeOf_env k rho)).
Proof.
  split.
  - exists 1, (set 1%positive hidden []), 1%positive, inner. vm_compute. discriminate.
  - exists 1, (set 1%positive hidden []), (set 1%positive inner (set 1%positive hidden [])), [1%positive], [inner].
    split; [reflexivity|]. vm_compute. discriminate.
Qed.

(** Running a program makes no function larger than those written in it or already in its
    environment: the bound of the sizes of program and environment also bounds the result, if
    primitive operations respect it. *)
Theorem C95_run : forall pr cenv n rho e v c,
  (forall f g vs w, get f pr = Some g -> g vs = Some w ->
     (forall k, Forall (fun u => sizeOf_val k u <= n) vs) -> forall k, sizeOf_val k w <= n) ->
  (forall k, max_exp_env k e rho <= n) ->
  bstep_e pr cenv rho e v c -> forall k, sizeOf_val k v <= n.
Proof.
  intros pr cenv n rho e v c PR M H. apply blocks_size.
  refine (run_small pr cenv n _ rho e v c H _ _).
  - intros f g vs w G A F. apply blocks_size. apply (PR f g vs w G A). intro k.
    eapply Forall_impl; [|exact F]. intros u Hu. apply blocks_size. exact Hu.
  - intros x w G. apply blocks_size. intro k. specialize (M k). unfold max_exp_env in M.
    pose proof (env_get k rho x w G). lia.
  - specialize (M 0). unfold max_exp_env in M. lia.
Qed.

(** calling [outer] gives the closure in its environment; the level at which the bound is taken
    matters: at level 1 the result is larger than program and environment *)
Example C95_run_example :
  let rho := set 4%positive outer (set 9%positive (Vint 0%Z) []) in
  let e := (Eapp 4 1 [9])%positive in
  bstep_e [] [] rho e inner 1 /\ (forall k, max_exp_env k e rho <= 5) /\
  sizeOf_val 1 inner = 5 /\ max_exp_env 1 e rho = 2.
Proof.
  split; [|split; [|split; reflexivity]].
  - cbv zeta. change 1 with (0 + 1).
    apply (BStep_app _ _ [(1%positive, inner); (1%positive, hidden)] (Fcons 2 1 [3] (Ehalt 1) Fnil)%positive 2%positive
      [Vint 0%Z] [3%positive] (Ehalt 1%positive)
      (set 3%positive (Vint 0%Z) (set 2%positive outer [(1%positive, inner); (1%positive, hidden)]))); try reflexivity.
    constructor. reflexivity.
  - intros [|[|[|k]]]; vm_compute; lia.
Qed.

(** The count of function definitions is at least the number of blocks written in the program, *)
Theorem C95_count :
  (forall e, written e <= num_fundefs_in_exp e) /\
  (forall B, numOf_fundefs B <= sizeOf_fundefs B).
Proof.
  split; [apply written_le_num|]. induction B as [f t xs e B IH|]; cbn; lia.
Qed.

Example C95_count_example :
  let e := (Efun (Fcons 1 1 [] (Efun (Fcons 2 1 [] (Ehalt 2) Fnil) (Ehalt 2)) Fnil) (Ehalt 1))%positive in
  written e = 2 /\ num_fundefs_in_exp e = 2.
Proof. split; reflexivity. Qed.

(** but it is not the number of function definitions, as its comment says: it counts projections and
    case expressions as well, and a block of two functions once. *)
Theorem C95_count_refuted :
  (exists e, written e = 0 /\ num_fundefs_in_exp e > 0) /\
  (exists B e, numOf_fundefs B = 2 /\ written e = 0 /\ num_fundefs_in_exp (Efun B e) = 1).
Proof.
  split.
  - exists (Eproj 1 1 0%N 2 (Ehalt 1))%positive. split; [reflexivity|cbn; lia].
  - exists (Fcons 1 1 [] (Ehalt 2) (Fcons 2 1 [] (Ehalt 1) Fnil))%positive, (Ehalt 1%positive). repeat split.
Qed.

Print Assumptions C95_free.
Print Assumptions C95_cost.
Print Assumptions C95_levels.
Print Assumptions C95_set.
Print Assumptions C95_set_refuted.
Print Assumptions C95_run.
Print Assumptions C95_count.
Print Assumptions C95_count_refuted.
