(** * C41, C42, C44, C64: what generated Wasm code does *)
From Coq Require Import ZArith NArith List Lia Bool.
Import ListNotations.
From Verif Require Import ANF_Syntax ANF_FreeProofs RT_Int63Spec RT_Int63Proofs CG_Proofs WA_Wasm WA_Model WA_Spec WA_Eval WA_Exec WA_Prim WA_Proofs.
Set Implicit Arguments.
Local Open Scope Z_scope.
Ltac Zify.zify_post_hook ::= idtac.

(** ** Specification *)

(** the exported globals: memory pointer, result, out-of-memory flag.  The
    others (current object and four scratch integers) are internal. *)
Definition exports_are (s : store) (mem_ptr result out_of_mem : Z) : Prop :=
  exists cap t1 t2 t3 t4,
    s_glob s = [I32 mem_ptr; I32 cap; I32 result; I32 out_of_mem; I64 t1; I64 t2; I64 t3; I64 t4].

(** the module finished with a word for [v] *)
Definition answers (cenv : ctor_env) (B : fundefs) (s : store) (v : val) : Prop :=
  exists g w, exports_are s g w 0 /\ 0 <= g <= 65536 * s_pages s /\ s_pages s <= 30000 /\
    wrep cenv B (fun f => option_map Z.of_N (get f (create_fname_mapping B))) (s_mem s) g v w.

(** the module stopped because memory ran out: the flag is set, at most one page
    is free, and the limit of 30000 pages is reached or the host refused *)
Definition exhausted (grow : Z -> bool) (s : store) : Prop :=
  exists g w, exports_are s g w 1 /\ g <= 65536 * s_pages s <= g + 65536 /\
    (30000 < s_pages s + 1 \/ grow (s_pages s) = false).

(** call of the exported [main_function], with a bound on the number of calls *)
Definition run_main (grow : Z -> bool) (lf : nat) (M : wmodule) (n : nat) : fres :=
  run grow 30000 lf (map snd (wm_funs M)) n 0 0 [] init_store.

(** ** C41 *)

(** The code for a primitive operation leaves on the stack a word representing
    Rocq's result; it writes only above the memory pointer and leaves the
    locals, the result and the flag alone. *)
Theorem C41_primitives : forall grow maxp lf call lenv op ys code zs r l s k g res oom,
  (64 <= lf)%nat ->
  translate_primitive_operation lenv (Some op) ys = Some code -> prim_rel op zs r ->
  Forall2 (fun y z => forall i, get y lenv = Some i -> exists p, nthN l i = Some (I32 p) /\ int_at (s_mem s) g z p) ys zs ->
  exports_are s g res oom -> 0 <= g -> g mod 4 = 0 -> g + 28 <= 65536 * s_pages s -> s_pages s <= 32767 ->
  exists w g' s', exec grow maxp lf call code l s k = Rnorm l s' (I32 w :: k) /\
    exports_are s' g' res oom /\ g <= g' <= g + 28 /\ g' mod 4 = 0 /\ s_pages s' = s_pages s /\
    (forall x, x < g -> s_mem s' x = s_mem s x) /\ res_at (s_mem s') g' r w.
Proof.
  intros grow maxp lf call lenv op ys code zs r l s k g res oom Hlf T R F (cap & t1 & t2 & t3 & t4 & G) G0 G4 Room Pg.
  destruct s as [gl m p]. cbn [s_glob s_mem s_pages] in *. subst gl.
  destruct (@prim_all grow maxp lf call lenv op ys code zs r l g cap res oom t1 t2 t3 t4 m p k Hlf T R F G0 G4 Room Pg)
    as (w & g' & cap' & a & b & d & e & m' & E & H1 & H2 & H3 & H4 & H5).
  exists w, g', (st g' cap' res oom a b d e m' p). split; [exact E|]. split; [exists cap', a, b, d, e; reflexivity|]. auto.
Qed.

(** two operands: 2^62 + 5 at address 0, 2^63 - 1 at address 8 *)
Definition ex_mem : bytes := wr 8 (wr 8 (fun _ => 0) 0 4611686018427387909) 8 9223372036854775807.
Definition ex_store : store :=
  {| s_glob := [I32 16; I32 0; I32 0; I32 0; I64 0; I64 0; I64 0; I64 0]; s_mem := ex_mem; s_pages := 1 |}.
Definition ex_binop (op : primop) : option (Z * Z * Z * Z) :=
  match translate_primitive_operation [(1%positive, 0%N); (2%positive, 1%N)] (Some op) [1; 2]%positive with
  | Some code =>
      match exec (fun _ => true) 30000 64 (fun _ _ _ _ => FStuck) code [I32 0; I32 8] ex_store [] with
      | Rnorm _ s [I32 w] => Some (w, rd 4 (s_mem s) w, rd 8 (s_mem s) (rd 4 (s_mem s) (w + 4)), rd 8 (s_mem s) (rd 4 (s_mem s) (w + 8)))
      | _ => None
      end
  | None => None
  end.
Example C41_primitives_ex :
  ex_binop PrimInt63mulc = Some (32, 0, 4611686018427387908, 4611686018427387899) /\
  4611686018427387908 * 2 ^ 63 + 4611686018427387899 = 4611686018427387909 * 9223372036854775807 /\
  ex_binop PrimInt63diveucl = Some (32, 0, 0, 4611686018427387909) /\
  int_at ex_mem 16 4611686018427387909 0 /\ int_at ex_mem 16 9223372036854775807 8.
Proof. vm_compute. intuition discriminate. Qed.
Print Assumptions C41_primitives.

(** Every operation is translated when it is given its number of arguments. *)
Theorem C41_all_translated : forall op, exists n, (1 <= n <= 3)%nat /\
  forall lenv ys, length ys = n -> (forall y, In y ys -> get y lenv <> None) ->
  translate_primitive_operation lenv (Some op) ys <> None.
Proof.
  intro op.
  assert (H : forall n, (1 <= n <= 3)%nat -> (forall x y z, match n with 1%nat => translate_primitive_unary_op op x | 2%nat => translate_primitive_binary_op op x y
      | _ => translate_primitive_ternary_op op x y z end <> None) ->
    forall lenv ys, length ys = n -> (forall y, In y ys -> get y lenv <> None) -> translate_primitive_operation lenv (Some op) ys <> None).
  { intros n Hn T lenv ys Ly Hy. unfold translate_primitive_operation.
    destruct ys as [|x [|y [|z [|]]]]; cbn [length] in Ly; subst n; try lia;
      repeat match goal with |- context [match get ?v lenv with _ => _ end] =>
        let E := fresh in destruct (get v lenv) eqn:E; [|exfalso; apply (Hy v); [cbn; tauto|exact E]] end.
    - apply (T n 0%N 0%N).
    - apply (T n n0 0%N).
    - apply (T n n0 n1). }
  destruct op;
    first [exists 2%nat; split; [lia|]; apply H; [lia|intros; discriminate] | exists 1%nat; split; [lia|]; apply H; [lia|intros; discriminate]
          | exists 3%nat; split; [lia|]; apply H; [lia|intros; discriminate]].
Qed.
Example C41_all_translated_ex :
  translate_primitive_operation [(1%positive, 0%N)] (Some PrimInt63head0) [1%positive] <> None /\
  translate_primitive_operation [(1%positive, 0%N)] (Some PrimInt63head0) [1; 1]%positive = None.
Proof. split; [discriminate|reflexivity]. Qed.
Print Assumptions C41_all_translated.

(** ** C44 *)

(** code that neither falls through nor branches out, as the code of a branch *)
Definition leaves (r : wres) : Prop :=
  match r with Rnorm _ _ _ | Rbr _ _ _ _ => False | _ => True end.

Section Case.
  Variable grow : Z -> bool.
  Variable mp : Z.
  Variable lf : nat.
  Variable call : Z -> nat -> list wval -> store -> fres.
  Notation ex := (exec grow mp lf call).

  Lemma end_leaves n k f r : leaves r -> bindr (end_block n k r) f = r.
  Proof. destruct r; cbn [leaves]; intro H; try destruct H; reflexivity. Qed.

  Lemma chain_test boxed xv o is' l s w ord : nthN l xv = Some (I32 w) -> scrut boxed s ord w -> Z.of_N o < 2147483648 ->
    ex (Ilget xv :: (if boxed then [Iload T32 0; c32 (Z.of_N o)] else [c32 (Z.of_N (2 * o + 1))]) ++ [Irel T32 Weq; is']) l s [] =
    ex [is'] l s [b2i (N.eqb o ord)].
  Proof.
    intros Nx [Ho Hs] Hr. rewrite (@ex_lget _ _ _ _ _ _ _ _ _ _ Nx). destruct boxed; cbn [app].
    - destruct Hs as [Hb Hv]. rewrite ex_load32 by lia. rewrite Z.add_0_r, Hv, k32 by lia. rewrite ex_rel32. cbn [wrel_eval].
      do 3 f_equal. destruct (N.eqb_spec o ord) as [->|N]; [apply Z.eqb_refl|apply Z.eqb_neq; lia].
    - rewrite k32 by lia. rewrite ex_rel32. cbn [wrel_eval].
      do 3 f_equal. destruct (N.eqb_spec o ord) as [->|N]; [apply Z.eqb_eq; lia|apply Z.eqb_neq; lia].
  Qed.

  Lemma chain_result boxed xv l s w ord : nthN l xv = Some (I32 w) -> scrut boxed s ord w ->
    forall es, (forall o is', In (o, is') es -> Z.of_N o < 2147483648) ->
    forall r, leaves r -> r = match pick ord es with Some is => ex is l s [] | None => Rtrap end ->
    ex (create_case_nested_if_chain boxed xv es) l s [] = r.
  Proof.
    intros Nx Sc. induction es as [|[o is] es IH]; intros Hr r Lr E; cbn [create_case_nested_if_chain pick] in *; [subst r; reflexivity|].
    rewrite (@chain_test boxed xv o _ l s w ord Nx Sc) by (apply (Hr o is); left; reflexivity).
    rewrite ex_if. destruct (N.eqb o ord); cbn [b2i]; cbn [Z.eqb].
    - rewrite <- E. apply end_leaves. exact Lr.
    - rewrite (IH (fun o' is' I => Hr o' is' (or_intror I)) r Lr E). apply end_leaves. exact Lr.
  Qed.
End Case.

Lemma pick_none cenv penv fenv lenv mem t i : ordinals_ok cenv -> get t cenv = Some i -> forall arms p,
  branches cenv penv fenv lenv mem arms = Some p -> caseConsistent_f cenv arms t = true -> findtag arms t = None ->
  pick (ctor_ordinal i) (if N.eqb (ctor_arity i) 0 then snd p else fst p) = None.
Proof.
  intros Ford Gi. induction arms as [|[c b] arms IH]; intros p Eb CC F.
  - cbn in Eb. apply Some_inj in Eb. subst p. destruct (N.eqb (ctor_arity i) 0); reflexivity.
  - cbn [branches fst snd] in Eb. fold (branches cenv penv fenv lenv mem) in Eb.
    destruct (translate_body cenv fenv penv lenv b mem) as [is0|]; [|discriminate].
    destruct (branches cenv penv fenv lenv mem arms) as [q|]; [|discriminate].
    cbn [caseConsistent_f] in CC. rewrite Gi in CC. unfold get_ctor_ord, get_ctor_arity in Eb. destruct (get c cenv) as [i'|] eqn:Gc; [|discriminate].
    apply andb_true_iff in CC. destruct CC as [CC Ci]. apply Pos.eqb_eq in Ci.
    cbn [findtag] in F. destruct (Pos.eq_dec c t) as [|Nc]; [discriminate|]. specialize (IH q eq_refl CC F).
    assert (Az : Nat.eqb (N.to_nat (ctor_arity i')) 0 = N.eqb (ctor_arity i') 0).
    { destruct (N.eqb_spec (ctor_arity i') 0) as [->|N]; [reflexivity|]. apply Nat.eqb_neq. lia. }
    rewrite Az in Eb.
    destruct (N.eqb (ctor_arity i') 0) eqn:Z1; destruct (N.eqb (ctor_arity i) 0) eqn:Z2; apply Some_inj in Eb; subst p; cbn [fst snd pick]; try exact IH;
      (destruct (N.eqb_spec (ctor_ordinal i') (ctor_ordinal i)) as [Eo|_]; [|exact IH]);
      exfalso; apply Nc; apply (@Ford c t i' i Gc Gi); auto; apply N.eqb_eq in Z1 || apply N.eqb_neq in Z1; apply N.eqb_eq in Z2 || apply N.eqb_neq in Z2; tauto.
Qed.

(** On a word that represents a constructor value the code of a case distinction
    behaves like the code of the branch of that constructor, and traps when there
    is none. *)
Theorem C44_case : forall grow maxp lf call cenv penv fenv lenv x arms mem code xv l s B fnum hi t vs w,
  ordinals_ok cenv -> check_restrictions cenv (Ecase x arms) = true ->
  translate_body cenv fenv penv lenv (Ecase x arms) mem = Some code ->
  caseConsistent_f cenv arms t = true ->
  get x lenv = Some xv -> nthN l xv = Some (I32 w) ->
  wrep cenv B fnum (s_mem s) hi (Vconstr t vs) w -> hi <= 65536 * s_pages s ->
  match findtag arms t with
  | Some e => exists branch, translate_body cenv fenv penv lenv e mem = Some branch /\
      (leaves (exec grow maxp lf call branch l s []) ->
       exec grow maxp lf call code l s [] = exec grow maxp lf call branch l s [])
  | None => exec grow maxp lf call code l s [] = Rtrap
  end.
Proof.
  intros grow maxp lf call cenv penv fenv lenv x arms mem code xv l s B fnum hi t vs w Ford CR T CC Gx Nx W Hi.
  rewrite translate_case, Gx in T. destruct (branches cenv penv fenv lenv mem arms) as [q|] eqn:Eb; [|discriminate].
  apply Some_inj in T. subst code.
  assert (X : exists i, get t cenv = Some i /\ Z.of_N (ctor_ordinal i) < 2147483648 /\
    (if N.eqb (ctor_arity i) 0 then w mod 2 = 1 /\ scrut false s (ctor_ordinal i) w else w mod 2 = 0 /\ scrut true s (ctor_ordinal i) w)).
  { inversion W as [t0 i Gi Ar Ho E1 E2|t0 i vs0 p0 ws Gi Ar Nv Ho P0 P2 Ph Pr Lw _ _ E1 E2| |]; subst; exists i; split; auto; split; auto.
    - rewrite Ar. cbn [N.eqb]. split; [clear; dlia|]. split; [exact Ho|reflexivity].
    - replace (ctor_arity i =? 0)%N with false by (symmetry; apply N.eqb_neq; rewrite Ar; destruct vs; [contradiction|cbn [length]; lia]).
      split; [exact P2|]. split; [exact Ho|]. unfold page. split; [lia|exact Pr]. }
  destruct X as (i & Gi & Ho & Sc). destruct (@branches_ok 64 (le_n 64) cenv penv fenv Ford lenv x mem t i Gi arms q Eb CC CR) as (R1 & R2 & R3).
  assert (K : forall r, leaves r -> r = match pick (ctor_ordinal i) (if N.eqb (ctor_arity i) 0 then snd q else fst q) with
                               | Some is => exec grow maxp lf call is l s [] | None => Rtrap end ->
    exec grow maxp lf call [Ilget xv; c32 1; Ibin T32 Wand; Ieqz T32; Iif None (create_case_nested_if_chain true xv (fst q)) (create_case_nested_if_chain false xv (snd q))] l s [] = r).
  { intros r Lr Er. rewrite (@ex_lget _ _ _ _ _ _ _ _ _ _ Nx). rewrite k32 by lia. rewrite (@ex_bin32 _ _ _ _ Wand w 1 (Z.land w 1)) by reflexivity.
    rewrite ex_eqz32. rewrite ex_if. change 1 with (Z.ones 1). rewrite Z.land_ones by lia. change (2 ^ 1) with 2.
    destruct (N.eqb (ctor_arity i) 0); destruct Sc as [Hw Sc]; rewrite Hw.
    - change (1 =? 0) with false. cbn iota. rewrite (@chain_result grow maxp lf call false xv l s w _ Nx Sc (snd q) R2 r Lr Er). apply end_leaves. exact Lr.
    - change (0 =? 0) with true. cbn iota. rewrite (@chain_result grow maxp lf call true xv l s w _ Nx Sc (fst q) R1 r Lr Er). apply end_leaves. exact Lr. }
  destruct (findtag arms t) as [e|] eqn:Ft.
  - destruct (R3 e eq_refl) as (is & T1 & _ & _ & T4). exists is. split; [exact T1|]. intro Lv. apply K; [exact Lv|]. rewrite T4. reflexivity.
  - apply K; [exact I|]. rewrite (@pick_none cenv penv fenv lenv mem t i Ford Gi arms q Eb CC Ft). reflexivity.
Qed.

(** a type with two constant constructors and two others *)
Definition ex_wcenv2 : ctor_env :=
  [(1%positive, {| ctor_ind_tag := 1%positive; ctor_arity := 0; ctor_ordinal := 0 |});
   (2%positive, {| ctor_ind_tag := 1%positive; ctor_arity := 2; ctor_ordinal := 0 |});
   (3%positive, {| ctor_ind_tag := 1%positive; ctor_arity := 0; ctor_ordinal := 1 |});
   (4%positive, {| ctor_ind_tag := 1%positive; ctor_arity := 1; ctor_ordinal := 1 |})].
(** constructor 4 applied to constructor 3, at address 8 *)
Definition ex_store2 : store :=
  {| s_glob := [I32 16; I32 0; I32 0; I32 0; I64 0; I64 0; I64 0; I64 0]; s_mem := wr 4 (wr 4 (fun _ => 0) 8 1) 12 3; s_pages := 1 |}.
(** the code of a case with these branches on word [w], result of variable 2 or 3 *)
Definition ex_case (arms : list (ctor_tag * exp)) (w : Z) : option Z :=
  match translate_body ex_wcenv2 [] [] [(1%positive, 0%N); (2%positive, 1%N); (3%positive, 2%N)] (Ecase 1%positive arms) 0 with
  | Some code =>
      match exec (fun _ => true) 30000 64 (fun _ _ _ _ => FStuck) code [I32 w; I32 7; I32 9] ex_store2 [] with
      | Rret s => match nth_error (s_glob s) 2 with Some (I32 r) => Some r | _ => None end
      | Rtrap => Some (-1)
      | _ => None
      end
  | None => None
  end.
Example C44_case_ex : (
  ex_case [(1, Ehalt 2); (2, Ehalt 2); (4, Ehalt 3)] 8 = Some 9%Z /\ ex_case [(4, Ehalt 3); (3, Ehalt 2)] 3 = Some 7%Z /\
  ex_case [(1, Ehalt 2); (2, Ehalt 2)] 8 = Some (-1)%Z)%positive.
Proof. vm_compute. auto. Qed.
Print Assumptions C44_case.

(** ** C42 *)

(** The check before an allocation of [size] bytes: either there is room for them
    afterwards (and nothing but the number of pages changed), or the function
    returns with the flag set, memory unchanged, because the limit is reached or
    the host refused to grow. *)
Theorem C42_check : forall grow lf call size l s k g res,
  exports_are s g res 0 -> 0 <= g <= 65536 * s_pages s -> s_pages s <= 30000 -> (size <= 65536)%N ->
  (exists p, g + Z.of_N size <= 65536 * p /\ s_pages s <= p <= 30000 /\ (p = s_pages s \/ grow (s_pages s) = true) /\
     forall rest, exec grow 30000 lf call (grow_memory_if_necessary ++ rest) l s k =
                  exec grow 30000 lf call rest l (set_pages s p) k) \/
  (exists s', (forall rest, exec grow 30000 lf call (grow_memory_if_necessary ++ rest) l s k = Rret s') /\
     exports_are s' g res 1 /\ s_mem s' = s_mem s /\ s_pages s' = s_pages s /\
     (30000 < s_pages s + 1 \/ grow (s_pages s) = false)).
Proof.
  intros grow lf call size l s k g res (cap & t1 & t2 & t3 & t4 & G) [G0 Gp] Pg Sz.
  destruct s as [gl m p]. cbn [s_glob s_mem s_pages set_pages] in *. subst gl.
  pose proof (@grow_exec grow lf call l g cap res t1 t2 t3 t4 m p k G0 ltac:(lia) Gp Pg) as E. unfold st in E.
  assert (D : 65536 * (g / 65536) <= g < 65536 * (g / 65536) + 65536).
  { pose proof (Z.div_mod g 65536 ltac:(lia)). pose proof (Z.mod_pos_bound g 65536 ltac:(lia)). lia. }
  destruct (Z.leb_spec p (g / 65536 + 1)) as [P|P].
  - destruct ((p + 1 <=? 30000) && grow p) eqn:Gr.
    + left. apply andb_true_iff in Gr. destruct Gr as [Gr1 Gr2]. apply Z.leb_le in Gr1. exists (p + 1).
      split; [lia|]. split; [lia|]. split; [right; exact Gr2|]. exact E.
    + right. eexists. split; [exact E|]. split; [exists cap, t1, t2, t3, t4; reflexivity|]. split; [reflexivity|]. split; [reflexivity|].
      apply andb_false_iff in Gr. destruct Gr as [Gr|Gr]; [apply Z.leb_gt in Gr; left; lia|right; exact Gr].
  - left. exists p. split; [lia|]. split; [lia|]. split; [left; reflexivity|]. exact E.
Qed.
Example C42_check_ex :
  let go ok := match exec (fun _ => ok) 30000 64 (fun _ _ _ _ => FStuck) (grow_memory_if_necessary ++ [Iconst (I32 5)]) [] ex_store [] with
               | Rnorm _ s [I32 5] => Some (s_pages s, 0)
               | Rret s => match nth_error (s_glob s) 3 with Some (I32 f) => Some (s_pages s, f) | _ => None end
               | _ => None
               end in
  go true = Some (2, 0) /\ go false = Some (1, 1).
Proof. vm_compute. auto. Qed.
Print Assumptions C42_check.

Lemma exports_st g c r o a b d e m p : exports_are (st g c r o a b d e m p) g r o.
Proof. exists c, a, b, d, e. reflexivity. Qed.

Lemma exhausted_oom grow fr : oom grow fr -> exists s, fr = FOk s /\ exhausted grow s.
Proof.
  intros (g & c & r & a & b & d & e & m & p & -> & H1 & H2 & H3). unfold page in *. eexists. split; [reflexivity|].
  exists g, r. split; [apply exports_st|]. cbn [st s_pages]. split; [lia|]. destruct (Z.le_gt_cases (p + 1) 30000) as [L|L]; [right; auto|left; lia].
Qed.


(** an example: sum the integers of a list.
<<
  let rec sum l = match l with nil => 0 | cons a l' => a + sum l' in
  sum (cons (2^63 - 1) (cons 5 nil))
>> *)
Definition ex_ct (ty : positive) (ar ord : N) : ctor_ty_info := {| ctor_ind_tag := ty; ctor_arity := ar; ctor_ordinal := ord |}.
Definition ex_tenv : ctor_env := (
  [(1, ex_ct 1 0 0); (2, ex_ct 1 2 0); (3, ex_ct 2 0 1); (4, ex_ct 2 0 0); (5, ex_ct 3 0 0); (6, ex_ct 3 0 1); (7, ex_ct 3 0 2);
   (8, ex_ct 4 1 0); (9, ex_ct 4 1 1); (10, ex_ct 5 2 0)])%positive.
Definition ex_tags : ptags := (
  {| t_true := 3; t_false := 4; t_Eq := 5; t_Lt := 6; t_Gt := 7; t_C0 := 8; t_C1 := 9; t_pair := 10 |})%positive.
Definition ex_penv : tmap (option primop) := [(1%positive, Some PrimInt63add)].
Definition ex_pr : tmap (list val -> option val) :=
  [(1%positive, fun vs => match vs with [Vprim (PVint a); Vprim (PVint b)] => Some (Vprim (PVint (spec_add a b))) | _ => None end)].
Definition ex_sumB : fundefs := (
  Fcons 10 1 [11] (Ecase 11 [(1, Eprim_val 12 (PVint 0) (Ehalt 12));
                             (2, Eproj 13 2 0 11 (Eproj 14 2 1 11 (Eletapp 15 10 1 [14] (Eprim 16 1 [13; 15] (Ehalt 16)))))]) Fnil)%positive.
Definition ex_sumE : exp := (
  Eprim_val 20 (PVint 9223372036854775807) (Eprim_val 21 (PVint 5) (Econstr 22 1 [] (Econstr 23 2 [21; 22] (Econstr 24 2 [20; 23] (Eapp 10 1 [24]))))))%positive.

Lemma ex_sum_ok : ordinals_ok ex_tenv /\ prims_ok ex_tenv ex_penv ex_pr /\ wprog_ok ex_tenv ex_sumB ex_sumE.
Proof.
  split; [|split].
  - assert (F : forallb (fun p1 => forallb (fun p2 =>
        negb (Pos.eqb (ctor_ind_tag (snd p1)) (ctor_ind_tag (snd p2)) && N.eqb (ctor_ordinal (snd p1)) (ctor_ordinal (snd p2)) &&
              Bool.eqb (N.eqb (ctor_arity (snd p1)) 0) (N.eqb (ctor_arity (snd p2)) 0)) || Pos.eqb (fst p1) (fst p2)) ex_tenv) ex_tenv = true) by reflexivity.
    intros t1 t2 i1 i2 G1 G2 H1 H2 H3. rewrite forallb_forall in F.
    assert (GI : forall (m : ctor_env) t i, get t m = Some i -> In (t, i) m).
    { clear. induction m as [|[k v] m IH]; intros t i G; cbn [get] in G; [discriminate|]. destruct (Pos.eq_dec t k) as [->|]; [left; congruence|right; auto]. }
    pose proof (F _ (GI _ _ _ G1)) as F1. rewrite forallb_forall in F1. pose proof (F1 _ (GI _ _ _ G2)) as F2. cbn [fst snd] in F2.
    rewrite H1, H2, Pos.eqb_refl, N.eqb_refl in F2. apply orb_true_iff in F2. destruct F2 as [F2|F2]; [|apply Pos.eqb_eq; exact F2].
    destruct (N.eqb_spec (ctor_arity i1) 0) as [E1|E1]; destruct (N.eqb_spec (ctor_arity i2) 0) as [E2|E2]; try discriminate; tauto.
  - intros p op f vs v. unfold ex_penv, ex_pr. cbn [get]. destruct (Pos.eq_dec p 1) as [->|]; [|discriminate].
    intros E1 E2. apply Some_inj in E1. apply Some_inj in E1. apply Some_inj in E2. subst op f.
    destruct vs as [|v1 vs]; [discriminate|]. destruct v1 as [| |[a| |]|]; try discriminate. destruct vs as [|v2 vs]; [discriminate|].
    destruct v2 as [| |[b| |]|]; try discriminate. destruct vs; [|discriminate]. intro E. apply Some_inj in E. subst v.
    exists ex_tags, [a; b], (RInt (spec_add a b)). split; [|split; [reflexivity|split; [constructor|reflexivity]]].
    unfold ptags_ok, ctor_is. repeat split; (eexists; split; [reflexivity|split; reflexivity]).
  - split.
    + cbn. unfold u63. repeat split; try lia; try (intros [E|[]]; discriminate); intros i E; apply Some_inj in E; subst i; reflexivity.
    + intros f t xs b. unfold ex_sumB at 1. cbn [find_def]. destruct (Pos.eq_dec f 10) as [->|]; [|discriminate].
      intro E. apply Some_inj in E. assert (xs = [11%positive]) by congruence. subst xs.
      match type of E with (_, _, ?bb) = _ => assert (b = bb) by congruence end. subst b. clear E. split.
      * cbn. unfold u63. repeat split; try lia; intros [E|[]]; discriminate.
      * intros x [<-|[]]. cbn. intuition discriminate.
Qed.

Lemma ex_sum_peval : peval ex_tenv ex_pr 3 [] (Efun ex_sumB ex_sumE) = PVal (Vprim (PVint 4)).
Proof. vm_compute. reflexivity. Qed.

Lemma ex_sum_safe : psafe ex_tenv ex_pr [] (Efun ex_sumB ex_sumE).
Proof.
  intros n H. pose proof (@peval_mono ex_tenv ex_pr n (Nat.max n 3) _ _ _ (Nat.le_max_l n 3) H ltac:(discriminate)) as H1.
  pose proof (@peval_mono ex_tenv ex_pr 3 (Nat.max n 3) _ _ _ (Nat.le_max_r n 3) ex_sum_peval ltac:(discriminate)) as H2. congruence.
Qed.

(** the word at the result and the flag *)
Definition ex_observe (B : fundefs) (e : exp) (ok : bool) (n : nat) : option (Z * Z) :=
  match LambdaANF_to_Wasm ex_tenv ex_penv (Efun B e) with
  | Some M =>
      match run_main (fun _ => ok) 64 M n with
      | FOk s => match nth_error (s_glob s) 2, nth_error (s_glob s) 3 with
                 | Some (I32 w), Some (I32 f) => Some (rd 8 (s_mem s) w, f)
                 | _, _ => None
                 end
      | FTime => Some (-1, -1)
      | _ => None
      end
  | None => None
  end.

(** No generated program reads or writes outside linear memory: if the source
    program does not get stuck, [main_function] never traps, and its code never
    meets an operand of the wrong type, whatever the host does when asked for
    memory. *)
Theorem C42_never_traps : forall cenv penv pr B e M grow lf n,
  LambdaANF_to_Wasm cenv penv (Efun B e) = Some M ->
  ordinals_ok cenv -> prims_ok cenv penv pr -> wprog_ok cenv B e -> (64 <= lf)%nat ->
  psafe cenv pr [] (Efun B e) ->
  run_main grow lf M (S n) <> FTrap /\ run_main grow lf M (S n) <> FStuck.
Proof.
  intros cenv penv pr B e M grow lf n C Ford Fp OK Hlf Sf.
  destruct (@main_sim grow lf Hlf cenv penv pr B e M Ford Fp OK C n) as [H|[H|H]]; unfold run_main.
  - destruct (Sf n H).
  - destruct H as (? & ? & ? & ? & ? & ? & ? & ? & ? & -> & _). split; discriminate.
  - pose proof (Sf n) as S0. destruct (peval cenv pr n [] (Efun B e)).
    + destruct H as (? & ? & ? & ? & ? & ? & ? & ? & ? & -> & _). split; discriminate.
    + rewrite H. split; discriminate.
    + contradiction.
Qed.
Example C42_never_traps_ex :
  (exists M, LambdaANF_to_Wasm ex_tenv ex_penv (Efun ex_sumB ex_sumE) = Some M) /\
  ordinals_ok ex_tenv /\ prims_ok ex_tenv ex_penv ex_pr /\ wprog_ok ex_tenv ex_sumB ex_sumE /\
  psafe ex_tenv ex_pr [] (Efun ex_sumB ex_sumE) /\ ex_observe ex_sumB ex_sumE false 4 = Some (0, 1).
Proof.
  split; [eexists; vm_compute; reflexivity|]. destruct ex_sum_ok as (H1 & H2 & H3). repeat (split; [assumption|]).
  split; [exact ex_sum_safe|]. vm_compute. reflexivity.
Qed.
Print Assumptions C42_never_traps.

(** The machine in which the programs run is strict: a load or store that
    reaches beyond the end of memory traps, so "never traps" above means that
    there is none. *)
Theorem C42_access_outside_traps : forall grow mp lf call rest l s k t off a v,
  page * s_pages s < a + off + Z.of_nat (nbytes t) ->
  (forall z, has t v = Some z -> exec grow mp lf call (Istore t off :: rest) l s (v :: I32 a :: k) = Rtrap) /\
  exec grow mp lf call (Iload t off :: rest) l s (I32 a :: k) = Rtrap.
Proof.
  intros grow mp lf call rest l s k t off a v H.
  assert (E : (a + off + Z.of_nat (nbytes t) <=? page * s_pages s) = false) by (apply Z.leb_gt; exact H).
  split; [intros z Hz; unfold exec; cbn [seqr exec1]; rewrite Hz, E | unfold exec; cbn [seqr exec1]; rewrite E]; reflexivity.
Qed.
Example C42_access_outside_traps_ex :
  page * s_pages ex_store < 65535 + 0 + Z.of_nat (nbytes T32) /\ has T32 (I32 7) = Some 7 /\
  (match exec (fun _ => true) 30000 64 (fun _ _ _ _ => FStuck) [Istore T32 0] [] ex_store [I32 7; I32 65532] with
   | Rnorm _ _ [] => true | _ => false end) = true.
Proof. vm_compute. auto. Qed.
Print Assumptions C42_access_outside_traps.

(** ** C64 *)

(** A program with value [v] compiles to a module whose [main_function] returns
    with a representation of [v], or runs out of memory. *)
Theorem C64_value : forall cenv penv pr B e M grow lf v c,
  LambdaANF_to_Wasm cenv penv (Efun B e) = Some M ->
  ordinals_ok cenv -> prims_ok cenv penv pr -> wprog_ok cenv B e -> (64 <= lf)%nat ->
  bstep_e cenv pr [] (Efun B e) v c ->
  exists s, run_main grow lf M (S c) = FOk s /\ (answers cenv B s v \/ exhausted grow s).
Proof.
  intros cenv penv pr B e M grow lf v c C Ford Fp OK Hlf E.
  apply bstep_e_peval in E. pose proof (@main_sim grow lf Hlf cenv penv pr B e M Ford Fp OK C c) as H. unfold run_main. rewrite E in H. destruct H as [H|[H|H]].
  - discriminate.
  - destruct (exhausted_oom H) as (s & Es & X). exists s. auto.
  - destruct H as (g & c' & w & a & b & d & t & m & p & Es & H0 & (I1 & I2 & I3 & I4) & _ & W). eexists. split; [exact Es|]. left.
    exists g, w. split; [apply exports_st|]. cbn [st s_pages s_mem]. unfold page in I3. split; [lia|]. split; [exact I4|exact W].
Qed.
Example C64_value_ex :
  (exists c, bstep_e ex_tenv ex_pr [] (Efun ex_sumB ex_sumE) (Vprim (PVint 4)) c) /\
  ex_observe ex_sumB ex_sumE true 4 = Some (4, 0).
Proof. split; [eapply peval_bstep_e; exact ex_sum_peval|vm_compute; reflexivity]. Qed.
Print Assumptions C64_value.

(** Conversely, an answer of the module without the flag is the value of the
    program. *)
Theorem C64_answer : forall cenv penv pr B e M grow lf n s,
  LambdaANF_to_Wasm cenv penv (Efun B e) = Some M ->
  ordinals_ok cenv -> prims_ok cenv penv pr -> wprog_ok cenv B e -> (64 <= lf)%nat ->
  psafe cenv pr [] (Efun B e) ->
  run_main grow lf M (S n) = FOk s ->
  exhausted grow s \/ exists v c, bstep_e cenv pr [] (Efun B e) v c /\ answers cenv B s v.
Proof.
  intros cenv penv pr B e M grow lf n s C Ford Fp OK Hlf Sf E. unfold run_main in E.
  destruct (@main_sim grow lf Hlf cenv penv pr B e M Ford Fp OK C n) as [H|[H|H]].
  - destruct (Sf n H).
  - destruct (exhausted_oom H) as (s' & Es & X). left. assert (s' = s) by congruence. subst s'. exact X.
  - right. destruct (peval cenv pr n [] (Efun B e)) as [v| |] eqn:Ev; [|congruence|destruct (Sf n Ev)].
    destruct (@peval_bstep_e _ _ _ _ _ _ Ev) as [c Hc].
    exists v, c. split; [exact Hc|].
    destruct H as (g & c' & w & a & b & d & t & m & p & Es & H0 & (I1 & I2 & I3 & I4) & _ & W). assert (s = st g c' w 0 a b d t m p) by congruence. subst s.
    exists g, w. split; [apply exports_st|]. cbn [st s_pages s_mem]. unfold page in I3. split; [lia|]. split; [exact I4|exact W].
Qed.
Example C64_answer_ex :
  psafe ex_tenv ex_pr [] (Efun ex_sumB ex_sumE) /\ ex_observe ex_sumB ex_sumE true 10 = Some (4, 0) /\
  ex_observe ex_sumB ex_sumE true 3 = Some (-1, -1).
Proof. split; [exact ex_sum_safe|vm_compute; auto]. Qed.
Print Assumptions C64_answer.

(** A program that runs forever compiles to a module that runs forever or runs out
    of memory. *)
Theorem C64_divergence : forall cenv penv pr B e M grow lf,
  LambdaANF_to_Wasm cenv penv (Efun B e) = Some M ->
  ordinals_ok cenv -> prims_ok cenv penv pr -> wprog_ok cenv B e -> (64 <= lf)%nat ->
  psafe cenv pr [] (Efun B e) -> (forall v c, ~ bstep_e cenv pr [] (Efun B e) v c) ->
  forall n, run_main grow lf M (S n) = FTime \/ exists s, run_main grow lf M (S n) = FOk s /\ exhausted grow s.
Proof.
  intros cenv penv pr B e M grow lf C Ford Fp OK Hlf Sf Dv n. unfold run_main.
  destruct (@main_sim grow lf Hlf cenv penv pr B e M Ford Fp OK C n) as [H|[H|H]].
  - destruct (Sf n H).
  - right. apply exhausted_oom. exact H.
  - destruct (peval cenv pr n [] (Efun B e)) as [v| |] eqn:Ev; [|left; exact H|destruct (Sf n Ev)].
    destruct (@peval_bstep_e _ _ _ _ _ _ Ev) as [c Hc]. destruct (Dv v c Hc).
Qed.

(** <<let rec loop x = loop x in loop nil>>; its own stack is constant, as the call
    is a tail call *)
Definition ex_loopB : fundefs := (Fcons 10 1 [11] (Eapp 10 1 [11]) Fnil)%positive.
Definition ex_loopE : exp := (Econstr 20 1 [] (Eapp 10 1 [20]))%positive.
Lemma ex_loop_time n : peval ex_tenv ex_pr n [] (Efun ex_loopB ex_loopE) = PTime.
Proof.
  assert (H : forall n, callf ex_tenv ex_pr n (Vfun [] ex_loopB 10%positive) 1%positive [Vconstr 1%positive []] = PTime).
  { clear. induction n as [|n IH]; [reflexivity|]. cbn in IH |- *. exact IH. }
  exact (H n).
Qed.
Example C64_divergence_ex :
  psafe ex_tenv ex_pr [] (Efun ex_loopB ex_loopE) /\ (forall v c, ~ bstep_e ex_tenv ex_pr [] (Efun ex_loopB ex_loopE) v c) /\
  ex_observe ex_loopB ex_loopE true 100 = Some (-1, -1).
Proof.
  split; [intros n H; rewrite ex_loop_time in H; discriminate|]. split; [|vm_compute; reflexivity].
  intros v c H. apply bstep_e_peval in H. rewrite ex_loop_time in H. discriminate.
Qed.
Print Assumptions C64_divergence.
