(** * C33: the census counts the uses of every variable, and stays right when the program is cut *)
From Coq Require Import ZArith NArith PArith List Lia Bool.
From Verif Require Import ANF_Syntax ANF_Subst ANF_Spec Shrink_Census Shrink_CensusProofs.
Import ListNotations.

Notation "C |[ e ]|" := (app_ctx_f C e) (at level 28, e at next level, right associativity).


(** C33: the census of a program gives for every variable the number of its uses. *)
Theorem C33_init : forall e, counts (init_census e) e.
Proof.
  intros e v. unfold init_census. rewrite inc_exp, (proj1 rename_nil). reflexivity.
Qed.

(** [f 1 = let x2 := C1(x1, x1) in case x2 of C1 -> x1 | C2 -> f x1; halt f]: four uses of 1, one
    of 2, two of the function 9. *)
Definition ex_prog : exp :=
  (Efun (Fcons 9 1 [1]
          (Econstr 2 1 [1; 1] (Ecase 2 [(1, Ehalt 1); (2, Eapp 9 1 [1])])) Fnil)
        (Ehalt 9))%positive.
Example C33_init_ex :
  (get_c 1 (init_census ex_prog) = 4%nat /\ get_c 2 (init_census ex_prog) = 1%nat /\
  get_c 9 (init_census ex_prog) = 2%nat /\ get_c 5 (init_census ex_prog) = 0%nat)%positive.
Proof. vm_compute. auto. Qed.

(** C33: adding and removing a subterm under a renaming changes each count by exactly the number of
    uses in the renamed subterm. *)
Theorem C33_delta : forall sig e c v,
  get_c v (update_census sig e (fun v c => get_c v c + 1) c)
    = get_c v c + occ (uses (rename_all_ns sig e)) v /\
  get_c v (dec_census sig e c) = get_c v c - occ (uses (rename_all_ns sig e)) v.
Proof. intros. split; [apply inc_exp | apply dec_exp]. Qed.

Example C33_delta_ex :
  (let c := init_census (Econstr 3 1 [1; 2; 1] (Ehalt 1)) in
  get_c 1 c = 3%nat /\ get_c 1 (dec_census [(7, 1)] (Econstr 4 1 [7; 2] (Ehalt 7)) c) = 1%nat)%positive.
Proof. vm_compute. auto. Qed.

(** C33: a binding is deleted (its arguments [ys], still to be renamed by [sig]): the census is then
    that of the program without it. *)
Theorem C33_delete_constr : forall C x t sig ys e c,
  counts c (C |[ Econstr x t (apply_r_list sig ys) e ]|) ->
  counts (dec_census_list sig ys c) (C |[ e ]|).
Proof.
  intros C x t sig ys e c H v. rewrite dec_list, H. destruct (proj1 uses_ctx C) as [l E].
  rewrite !E. cbn [uses]. rewrite count_occ_app. lia.
Qed.

Theorem C33_delete_proj : forall C x t n sig y e c,
  counts c (C |[ Eproj x t n (apply_r sig y) e ]|) ->
  counts (dec_census_list sig [y] c) (C |[ e ]|).
Proof.
  intros C x t n sig y e c H v. rewrite dec_list, H. destruct (proj1 uses_ctx C) as [l E].
  rewrite !E. cbn [uses]. rewrite occ_cons.
  change (apply_r_list sig [y]) with [apply_r sig y]. lia.
Qed.

Example C33_delete_ex :
  (let C := Econstr_c 1 1 [] (Ecase_c 1 [(1, Ehalt 1)] 2 Hole_c []) in
  let c := init_census (C |[ Econstr 3 1 (apply_r_list [(7, 1)] [7; 7]) (Ehalt 1) ]|) in
  get_c 1 c = 5%nat /\ get_c 1 (dec_census_list [(7, 1)] [7; 7] c) = 3%nat)%positive.
Proof. vm_compute. auto. Qed.

(** C33: when the constructor is known the [case] is replaced by the branch taken; the census is then
    that of the program with that branch alone. *)
Theorem C33_fold_case : forall C sig y cl t e c,
  counts c (C |[ rename_all_ns sig (Ecase y cl) ]|) ->
  findtag cl t = Some e ->
  counts (dec_census_case sig cl t (dec_census_list sig [y] c)) (C |[ rename_all_ns sig e ]|).
Proof.
  intros C sig y cl t e c H F v. destruct (proj1 uses_ctx C) as [l E]. rewrite E.
  eapply dec_case; eauto. rewrite dec_list, H, E. cbn [rename_all_ns uses]. rewrite occ_cons.
  change (apply_r_list sig [y]) with [apply_r sig y].
  replace (flat_map (fun p => uses (snd p))
             (map (fun p : ctor_tag * exp => let (k, e0) := p in (k, rename_all_ns sig e0)) cl))
    with (flat_map (fun p : ctor_tag * exp => uses (rename_all_ns sig (snd p))) cl).
  - lia.
  - clear. induction cl as [ | [k b] cl IH]; cbn [map flat_map snd]; [reflexivity|]. rewrite IH. reflexivity.
Qed.

Example C33_fold_case_ex :
  (let e := Ecase 2 [(1, Ehalt 7); (2, Eapp 9 1 [7]); (2, Ehalt 9)] in
  let c := init_census (rename_all_ns [(7, 1)] e) in
  let c' := dec_census_case [(7, 1)]
              [(1, Ehalt 7); (2, Eapp 9 1 [7]); (2, Ehalt 9)]
              2 (dec_census_list [(7, 1)] [2] c) in
  (get_c 1 c, get_c 2 c, get_c 9 c) = (2%nat, 1%nat, 2%nat) /\ (get_c 1 c', get_c 2 c', get_c 9 c') = (1%nat, 0%nat, 1%nat))%positive.
Proof. vm_compute. auto. Qed.

(** C33: functions whose count is zero are dropped from a bundle.  The census afterwards is that of the
    smaller program, a dropped function is used nowhere in it, and the functions kept are unchanged. *)
Theorem C33_dead_functions : forall C sig B e c B' c',
  counts c (C |[ Efun (rename_all_fun_ns sig B) e ]|) ->
  precontractfun sig c B = (B', c') ->
  counts c' (C |[ Efun (rename_all_fun_ns sig B') e ]|) /\
  (forall f, In f (fnames B) -> ~ In f (fnames B') ->
     ~ In f (uses (C |[ Efun (rename_all_fun_ns sig B') e ]|))) /\
  (NoDup (fnames B) -> forall f d, find_def f B' = Some d -> find_def f B = Some d).
Proof.
  intros C sig B e c B' c' H E. destruct (proj1 uses_ctx C) as [l EC].
  assert (H' : counts c' (C |[ Efun (rename_all_fun_ns sig B') e ]|)).
  { intro v. pose proof (H v) as Hv. rewrite EC in *. cbn [uses] in *. rewrite count_occ_app in *.
    rewrite (precontract_counts sig B c B' c' (occ l v + occ (uses e) v) v E).
    - lia.
    - intro w. rewrite (H w), EC. cbn [uses]. rewrite count_occ_app. lia.
    - lia. }
  split; [exact H'|split].
  - intros f I N U. pose proof (precontract_drops _ _ _ _ _ _ E I N) as Z.
    rewrite H' in Z. apply (proj2 (@count_occ_not_In var Pos.eq_dec _ f)) in Z. contradiction.
  - intros ND f d F. eapply precontract_kept; eauto.
Qed.

(** 7 is dead; once it is gone 8, which only 7 used, is dead too. *)
Example C33_dead_functions_ex :
  (let B := Fcons 7 1 [1] (Eapp 8 1 [1])
          (Fcons 8 1 [2] (Ehalt 2) (Fcons 9 1 [3] (Eapp 9 1 [3]) Fnil)) in
  let e := Eapp 9 1 [5] in
  let r := precontractfun [] (init_census (Efun B e)) B in
  fst r = Fcons 9 1 [3] (Eapp 9 1 [3]) Fnil /\
  (get_c 8 (snd r), get_c 9 (snd r), get_c 1 (snd r)) = (0%nat, 2%nat, 0%nat))%positive.
Proof. vm_compute. auto. Qed.

(** C33: the projection [v := y.n] from a known constructor is replaced by its field [z]. *)
Theorem C33_fold_proj : forall C v t n y z e c,
  counts c (C |[ Eproj v t n y e ]|) ->
  ~ In v (uses (C |[ Ehalt y ]|)) -> v <> z -> z <> y ->
  counts (update_count_proj v y z c) (C |[ rename_all_ns [(v, z)] e ]|).
Proof.
  intros C v t n y z e c H N Nz Ny w. destruct (proj1 uses_ctx C) as [l EC].
  unfold update_count_proj. rewrite !get_c_set, !H, !EC. cbn [uses]. rewrite !(occ_cons y (uses e)).
  rewrite (proj1 (uses_rename [(v, z)])).
  replace (map (apply_r [(v, z)]) (uses e)) with (map (mv v z) (uses e))
    by (apply map_ext; intro a; unfold mv, apply_r; cbn [get]; destruct (Pos.eq_dec a v); reflexivity).
  rewrite (occ_mv v z (uses e) w Nz).
  apply (proj1 (@count_occ_not_In var Pos.eq_dec _ v)) in N. rewrite EC in N. cbn [uses] in N.
  assert (Oyy : occ [y] y = 1) by (cbn; destruct (Pos.eq_dec y y); congruence).
  assert (Oyz : occ [y] z = 0) by (cbn; destruct (Pos.eq_dec y z); congruence).
  destruct (Pos.eq_dec w v) as [->|Nv].
  - destruct (Pos.eq_dec v z); [congruence|]. lia.
  - destruct (Pos.eq_dec w z) as [->|Nwz]; [lia|].
    destruct (Pos.eq_dec w y) as [->|Nwy]; [lia|].
    assert (Oyw : occ [y] w = 0) by (cbn; destruct (Pos.eq_dec y w); congruence). lia.
Qed.

Example C33_fold_proj_ex :
  (let C := Econstr_c 1 1 [] (Econstr_c 2 1 [1] Hole_c) in
  let e := Econstr 4 2 [3; 3; 2] (Ehalt 4) in
  let c := init_census (C |[ Eproj 3 1 0%N 2 e ]|) in
  let c' := update_count_proj 3 2 1 c in
  ~ In 3 (uses (C |[ Ehalt 2 ]|)) /\
  (get_c 1 c, get_c 2 c, get_c 3 c) = (1%nat, 2%nat, 2%nat) /\ (get_c 1 c', get_c 2 c', get_c 3 c') = (3%nat, 1%nat, 0%nat))%positive.
Proof. vm_compute. intuition discriminate. Qed.

(** C33: the only call of [f] is replaced by the body of [f] with the arguments for the parameters,
    and [f] is dropped: the updated census is that of the new program.  [C2] may be the rest of the
    program or, through [C1], the call may be anywhere in the scope of [f]. *)
Theorem C33_inline : forall C1 C2 B f t ys xs b c,
  counts c (C1 |[ Efun B (C2 |[ Eapp f t ys ]|) ]|) ->
  get_c f c = 1 ->
  find_def f B = Some (t, xs, b) ->
  length ys = length xs -> NoDup xs -> ~ In f xs ->
  (forall x, In x xs -> ~ In x (uses (C1 |[ Efun (drop_fun f B) (C2 |[ Eapp f t ys ]|) ]|))) ->
  counts (update_count_inlined ys xs (set f 0 c))
         (C1 |[ Efun (drop_fun f B) (C2 |[ rename_all_ns (bind_args xs ys) b ]|) ]|).
Proof.
  intros C1 C2 B f t ys xs b c H One F L ND Nf D v.
  destruct (proj1 uses_ctx C1) as [l1 E1]. destruct (proj1 uses_ctx C2) as [l2 E2].
  rewrite E1. cbn [uses]. rewrite count_occ_app, E2, (proj1 (uses_rename _)).
  assert (Ef : occ l1 f + occ (uses_funs B) f + occ l2 f + occ (f :: ys) f = 1).
  { rewrite <- One, H, E1. cbn [uses]. rewrite count_occ_app, E2. cbn [uses]. lia. }
  rewrite (drop_fun_uses f B t xs b f F) in Ef. cbn [count_occ] in Ef.
  destruct (Pos.eq_dec f f); [|congruence].
  rewrite (inlined_counts xs ys (l1 ++ uses_funs (drop_fun f B) ++ l2) (uses b)); auto.
  - rewrite !count_occ_app. lia.
  - intros x I. specialize (D x I).
    apply (proj1 (@count_occ_not_In var Pos.eq_dec _ x)) in D. rewrite E1 in D. cbn [uses] in D.
    rewrite count_occ_app, E2 in D. cbn [uses] in D. rewrite occ_cons in D.
    split; apply (proj2 (@count_occ_not_In var Pos.eq_dec _ x)); rewrite ?count_occ_app; lia.
  - intro w. rewrite get_c_set, !count_occ_app. destruct (Pos.eq_dec w f) as [->|N].
    + lia.
    + rewrite H, E1. cbn [uses]. rewrite count_occ_app, E2, (drop_fun_uses f B t xs b w F).
      cbn [uses count_occ]. destruct (Pos.eq_dec f w); [congruence|]. lia.
Qed.

(** [f(x, y) = C(x, x, y, g)], called once as [f(a, a)]. *)
Example C33_inline_ex :
  (let B := Fcons 9 1 [1; 2] (Econstr 3 1 [1; 1; 2; 8] (Ehalt 3))
          (Fcons 8 1 [4] (Ehalt 4) Fnil) in
  let c := init_census (Econstr 5 1 [] (Efun B (Eapp 9 1 [5; 5]))) in
  let c' := update_count_inlined [5; 5] [1; 2] (set 9 0%nat c) in
  find_def 9 B = Some (1, [1; 2], Econstr 3 1 [1; 1; 2; 8] (Ehalt 3)) /\
  get_c 9 c = 1%nat /\ get_c 5 c = 2%nat /\
  (forall x, In x [1; 2] ->
     ~ In x (uses (Econstr 5 1 [] (Efun (drop_fun 9 B) (Eapp 9 1 [5; 5]))))) /\
  (get_c 5 c', get_c 9 c', get_c 1 c', get_c 8 c') = (3%nat, 0%nat, 0%nat, 1%nat))%positive.
Proof.
  cbn zeta. split; [reflexivity|]. split; [reflexivity|]. split; [reflexivity|]. split; [|reflexivity].
  intros x [<- | [<- | []]]; vm_compute; intuition discriminate.
Qed.

(** C33: after the body [b] of the function is put in place of [f ys] in [let x := f ys in e], its
    final result [x'] takes the place of [x] in [e]; until then the census counts the uses in [b] and
    those in [e]. *)
Theorem C33_letapp : forall C1 b x C x' e c,
  inline_letapp b x = Some (C, x') ->
  ~ In x (uses (C1 |[ b ]|)) ->
  (forall v, get_c v c = occ (uses (C1 |[ b ]|)) v + occ (uses e) v) ->
  counts (update_count_letapp x' x c) (C1 |[ C |[ rename_all_ns [(x, x')] e ]| ]|).
Proof.
  intros C1 b x C x' e c I N H v.
  destruct (proj1 uses_ctx C1) as [l1 E1].
  apply (proj1 (@count_occ_not_In var Pos.eq_dec _ x)) in N. rewrite E1 in N.
  rewrite E1. unfold update_count_letapp. destruct (letapp_uses _ _ _ _ I) as [U | [-> U]].
  - specialize (U (rename_all_ns [(x, x')] e)). rewrite (proj1 (uses_rename [(x, x')])) in U.
    replace (map (apply_r [(x, x')]) (uses e)) with (map (mv x x') (uses e)) in U
      by (apply map_ext; intro a; unfold mv, apply_r; cbn [get]; destruct (Pos.eq_dec a x); reflexivity).
    assert (O1 : occ [x'] x' = 1) by (cbn; destruct (Pos.eq_dec x' x'); congruence).
    assert (Nx : x <> x').
    { intros <-. pose proof (U x) as Ux. pose proof (proj1 uses_ctx C) as [l2 E2].
      rewrite E2, (proj1 (uses_rename [(x, x)])) in Ux.
      replace (map (apply_r [(x, x)]) (uses e)) with (map (mv x x) (uses e)) in Ux
        by (apply map_ext; intro a; unfold mv, apply_r; cbn [get]; destruct (Pos.eq_dec a x); reflexivity).
      lia. }
    destruct (Pos.eq_dec x x'); [congruence|].
    specialize (U v). rewrite (occ_mv x x' (uses e) v Nx) in U.
    rewrite !get_c_set, !H, !E1.
    destruct (Pos.eq_dec v x') as [->|Nv].
    + lia.
    + assert (O3 : occ [x'] v = 0) by (cbn; destruct (Pos.eq_dec x' v); congruence).
      destruct (Pos.eq_dec v x) as [->|Nvx]; lia.
  - destruct (Pos.eq_dec x x); [|congruence]. rewrite U, H, E1, (proj1 (uses_rename [(x, x)])).
    replace (map (apply_r [(x, x)]) (uses e)) with (uses e); [lia|].
    rewrite <- (map_id (uses e)) at 1. apply map_ext. intro a. unfold apply_r. cbn [get].
    destruct (Pos.eq_dec a x); congruence.
Qed.

(** the body [C(1, 1)] named 2 in place of the call, the rest uses 3 twice *)
Example C33_letapp_ex :
  (let b := Econstr 2 1 [1; 1] (Ehalt 2) in
  let e := Econstr 4 1 [3; 3] (Ehalt 4) in
  let c := [(1, 2); (2, 1); (3, 2); (4, 1)] in
  let c' := update_count_letapp 2 3 (map (fun p => (fst p, Pos.to_nat (snd p))) c) in
  inline_letapp b 3 = Some (Econstr_c 2 1 [1; 1] Hole_c, 2) /\
  (get_c 1 c', get_c 2 c', get_c 3 c', get_c 4 c') = (2%nat, 2%nat, 0%nat, 1%nat))%positive.
Proof. vm_compute. auto. Qed.

Print Assumptions C33_init.
Print Assumptions C33_delta.
Print Assumptions C33_delete_constr.
Print Assumptions C33_delete_proj.
Print Assumptions C33_fold_case.
Print Assumptions C33_dead_functions.
Print Assumptions C33_fold_proj.
Print Assumptions C33_inline.
Print Assumptions C33_letapp.
