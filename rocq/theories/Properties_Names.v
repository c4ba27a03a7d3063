(** * C40: distinct variables get distinct C names *)
From Coq Require Import ZArith NArith List Lia Bool Ascii String DecimalString DecimalPos.
Import ListNotations.
From Verif Require Import ANF_Syntax Names_Model.
Set Implicit Arguments.
Local Open Scope string_scope.

(** ** Specification *)

(** decimal digit *)
Definition digit (c : ascii) : bool := (48 <=? nat_of_ascii c)%nat && (nat_of_ascii c <=? 57)%nat.

(** [s] ends with an underscore followed by digits only *)
Definition numbered (s : string) : Prop :=
  exists a d, s = a ++ ("_" ++ d) /\ forallb digit (list_ascii_of_string d) = true.

(** the identifiers the back end reserves *)
Definition reserved (x : positive) : Prop := x = make_tinfoIdent \/ In x (map fst (inf_vars "")).

(** names of the reserved identifiers other than the body's *)
Definition fixed_names : list string :=
  ["make_tinfo"; "is_ptr"; "args"; "alloc"; "nalloc"; "limit"; "garbage_collect"; "main";
   "thread_info"; "tinfo"; "heap"; "arg"; "num_args"; "stack_frame"; "frame"; "root"; "fp";
   "next"; "prev"; "result"].

(** ** Lemmas *)
Notation chars := list_ascii_of_string.

Lemma chars_app a b : chars (a ++ b) = (chars a ++ chars b)%list.
Proof. induction a as [|c a IH]; cbn; congruence. Qed.

Lemma chars_inj a b : chars a = chars b -> a = b.
Proof. intro H. rewrite <- (string_of_list_ascii_of_string a), H. apply string_of_list_ascii_of_string. Qed.

Lemma split_first (p : ascii -> bool) x : p x = false -> forall l m l' m',
  forallb p l = true -> forallb p l' = true -> (l ++ x :: m = l' ++ x :: m')%list -> l = l'.
Proof.
  intros Px l. induction l as [|a l IH]; intros m [|b l'] m' H H' E; cbn in *.
  - reflexivity.
  - injection E as -> _. rewrite Px in H'. discriminate.
  - injection E as <- _. rewrite Px in H. discriminate.
  - injection E as <- E. apply andb_prop in H, H'. f_equal. apply (IH m l' m'); tauto.
Qed.

Lemma forallb_rev A (p : A -> bool) l : forallb p (rev l) = forallb p l.
Proof.
  induction l as [|a l IH]; cbn; [reflexivity|]. rewrite forallb_app, IH. cbn. rewrite andb_true_r. apply andb_comm.
Qed.

Lemma suffix_unique a d a' d' :
  forallb digit (chars d) = true -> forallb digit (chars d') = true ->
  a ++ ("_" ++ d) = a' ++ ("_" ++ d') -> d = d'.
Proof.
  intros H H' E. apply (f_equal chars) in E. rewrite !chars_app in E. cbn in E.
  apply (f_equal (@rev _)) in E. rewrite !rev_app_distr in E. cbn [rev] in E. rewrite <- !app_assoc in E. cbn [app] in E.
  apply chars_inj. rewrite <- (rev_involutive (chars d)), <- (rev_involutive (chars d')). f_equal.
  refine (@split_first digit "_"%char _ _ _ _ _ _ _ E); [reflexivity| |]; rewrite forallb_rev; assumption.
Qed.

Lemma digits_uint u : forallb digit (chars (NilEmpty.string_of_uint u)) = true.
Proof. induction u; cbn in *; auto. Qed.

Lemma show_pos_digits x : forallb digit (chars (show_pos x)) = true.
Proof. apply digits_uint. Qed.

Lemma show_pos_inj x y : show_pos x = show_pos y -> x = y.
Proof.
  unfold show_pos. intro H. apply (f_equal NilEmpty.uint_of_string) in H. rewrite !NilEmpty.usu in H.
  injection H as H. apply (f_equal Pos.of_uint) in H. rewrite !Unsigned.of_to in H. congruence.
Qed.

Lemma fix_digit c : digit c = true -> fix_char c = c.
Proof.
  unfold fix_char. intro H.
  destruct (Ascii.eqb_spec c "'") as [->|_]; [discriminate|].
  destruct (Ascii.eqb_spec c ".") as [->|_]; [discriminate|reflexivity].
Qed.

Lemma remove_primes_app a b : remove_primes (a ++ b) = remove_primes a ++ remove_primes b.
Proof. induction a as [|c a IH]; cbn; congruence. Qed.

Lemma remove_primes_digits d : forallb digit (chars d) = true -> remove_primes d = d.
Proof.
  induction d as [|c d IH]; cbn; [reflexivity|]. intro H. apply andb_prop in H. destruct H as [A B].
  rewrite IH by exact B. rewrite fix_digit by exact A. reflexivity.
Qed.

Lemma get_map A B (f : positive -> A -> B) m x : get x (tmap_map f m) = option_map (f x) (get x m).
Proof.
  induction m as [|[y v] m IH]; cbn; [reflexivity|]. destruct (Pos.eq_dec x y) as [->|]; [reflexivity|exact IH].
Qed.

Lemma get_prims l : forall m x, ~ In x (map snd l) -> get x (add_prim_names l m) = get x m.
Proof.
  induction l as [|[s p] l IH]; intros m x H; cbn in *; [reflexivity|].
  unfold add_prim_names in IH. rewrite IH by tauto. apply get_set_other. intros ->. tauto.
Qed.

Lemma get_prims_in l : NoDup (map snd l) -> forall m s p, In (s, p) l ->
  get p (add_prim_names l m) = Some (nNamed s).
Proof.
  induction l as [|[s p] l IH]; intros ND m s' p' H; [destruct H|]. cbn in ND. inversion ND as [|? ? N1 N2]; subst.
  cbn [add_prim_names fold_left fst snd]. destruct H as [E|H].
  - injection E as <- <-. change (fold_left _ l ?m) with (add_prim_names l m). rewrite get_prims by exact N1. apply get_set_same.
  - apply (IH N2). exact H.
Qed.

Lemma pick_ok l : forall id, let r := pick_prim_ident id l in
  map fst (fst r) = l /\ NoDup (map snd (fst r)) /\
  (forall p, In p (map snd (fst r)) -> (id <= p /\ p < snd r)%positive) /\ (id <= snd r)%positive.
Proof.
  induction l as [|s l IH]; intro id; cbn [pick_prim_ident].
  - cbn. repeat split; try (intros ? []); try lia. constructor.
  - specialize (IH (id + 1)%positive). cbn zeta in IH. destruct (pick_prim_ident (id + 1) l) as [l' id'].
    cbn [fst snd map] in *. destruct IH as (A & B & C & D). split; [congruence|]. split; [|split].
    + constructor; [|exact B]. intro Q. apply C in Q. lia.
    + intros p [<-|Q]; [lia|]. apply C in Q. lia.
    + lia.
Qed.

Lemma get_inf b l m x : ~ In x (map fst (inf_vars "")) -> l = inf_vars b ->
  get x (fold_left (fun nenv inf => set (fst inf) (snd inf) nenv) l m) = get x m.
Proof.
  intros H ->. assert (H' : ~ In x (map fst (inf_vars b))) by exact H. clear H. revert m H'.
  induction (inf_vars b) as [|[y v] l IH]; intros m H; cbn [fold_left fst snd map] in *; [reflexivity|].
  rewrite IH by (intro Q; apply H; right; exact Q). apply get_set_other. intros ->. apply H. left. reflexivity.
Qed.

(** the name of an ordinary variable ends with its own number *)
Lemma c_name_var b prims m x s :
  ~ reserved x -> ~ In x (map snd prims) -> c_name (final_names b prims m) x = Some s ->
  exists a, s = a ++ ("_" ++ show_pos x).
Proof.
  intros R P. unfold c_name, final_names. rewrite get_prims by exact P.
  rewrite get_set_other by (intros ->; apply R; left; reflexivity).
  unfold add_inf_vars. rewrite (@get_inf b (inf_vars b)); [|intro Q; apply R; right; exact Q|reflexivity].
  unfold ensure_unique. rewrite get_map. destruct (get x m) as [[|a]|]; try discriminate.
  intro E. exists (remove_primes a).
  assert (E' : s = remove_primes (a ++ ("_" ++ show_pos x))) by (cbn [option_map] in E; congruence).
  rewrite E', remove_primes_app. f_equal. cbn [append remove_primes]. f_equal.
  apply remove_primes_digits, show_pos_digits.
Qed.

(** ** Properties *)

Definition ex_names : name_env :=
  [(101, nNamed "x"); (102, nNamed "x"); (103, nNamed "x_10"); (104, nNamed "f'"); (105, nNamed "f.");
   (106, nNamed "fp"); (13, nNamed "x_10")]%positive.

(** Ordinary variables: whatever names the environment proposes. *)
Theorem C40_variables_distinct : forall bodyName prims nenv x y s,
  ~ reserved x -> ~ reserved y -> ~ In x (map snd prims) -> ~ In y (map snd prims) ->
  c_name (final_names bodyName prims nenv) x = Some s ->
  c_name (final_names bodyName prims nenv) y = Some s -> x = y.
Proof.
  intros b prims m x y s Rx Ry Px Py Ex Ey.
  destruct (c_name_var b prims m Rx Px Ex) as [a Ha]. destruct (c_name_var b prims m Ry Py Ey) as [a' Ha'].
  apply show_pos_inj. apply (@suffix_unique a (show_pos x) a' (show_pos y)); try apply show_pos_digits. congruence.
Qed.
Example C40_variables_distinct_ex :
  map (c_name (final_names "body" [("int63_add", 100%positive)] ex_names)) [101; 102; 103; 104; 105; 106; 13]%positive =
  [Some "x_101"; Some "x_102"; Some "x_10_103"; Some "fp_104"; Some "fd_105"; Some "fp_106"; Some "x_10_13"] /\
  ~ reserved 101 /\ ~ In 101%positive (map snd [("int63_add", 100%positive)]).
Proof.
  split; [reflexivity|]. split; [|cbn; intuition discriminate].
  intros [H|H]; [discriminate|]. cbn in H. intuition discriminate.
Qed.
Print Assumptions C40_variables_distinct.

(** Every binder of the program gets a name, so the printer never falls back on
    a number. *)
Fixpoint binders (e : exp) : list var :=
  match e with
  | Econstr x _ _ e | Eprim_val x _ e | Eprim x _ _ e
  | Eletapp x _ _ _ e | Eproj x _ _ _ e => x :: binders e
  | Ecase _ pats => flat_map (fun p => binders (snd p)) pats
  | Eapp _ _ _ | Ehalt _ => []
  | Efun B e => binders_funs B ++ binders e
  end%list
with binders_funs (B : fundefs) : list var :=
  match B with
  | Fcons f _ xs e B => f :: xs ++ binders e ++ binders_funs B
  | Fnil => []
  end%list.

Definition named (m : name_env) (x : var) : Prop := exists s, get x m = Some (nNamed s).

Lemma update_var_named m x y : named m y \/ y = x -> named (update_var m x) y.
Proof.
  unfold update_var, named. intro H.
  destruct (get x m) as [[|s0]|] eqn:E.
  - rewrite get_set. destruct (Pos.eq_dec y x); [eauto|]. destruct H; [assumption|contradiction].
  - destruct H as [H| ->]; eauto.
  - rewrite get_set. destruct (Pos.eq_dec y x); [eauto|]. destruct H; [assumption|contradiction].
Qed.

Lemma update_vars_named xs : forall m y, named m y \/ In y xs -> named (update_vars m xs) y.
Proof.
  induction xs as [|x xs IH]; intros m y H; cbn in *; [tauto|].
  apply IH. destruct H as [H|[H|H]]; [left|left|right; exact H]; apply update_var_named; auto.
Qed.

Lemma add_binders_named : forall e m y, named m y \/ In y (binders e) -> named (add_binders_exp m e) y.
Proof.
  apply (exp_ind2 (fun e => forall m y, named m y \/ In y (binders e) -> named (add_binders_exp m e) y)
                  (fun B => forall m y, named m y \/ In y (binders_funs B) -> named (add_binders_fundefs m B) y)).
  all: try (intros; cbn [add_binders_exp binders add_binders_fundefs binders_funs In] in *;
    match goal with IH : forall m y, _ -> named (add_binders_exp m ?e) y |- named (add_binders_exp (update_var ?m ?x) ?e) ?y =>
      apply IH; match goal with H : _ \/ (_ \/ _) |- _ => destruct H as [H|[H|H]] end;
      [left; apply update_var_named; auto|left; apply update_var_named; auto|auto] end).
  - intros x l F m y H. cbn [add_binders_exp binders] in *. revert m H.
    induction F as [|[t e] l F1 F2 IH]; intros m H; cbn in *; [tauto|].
    apply IH. rewrite in_app_iff in H. destruct H as [H|[H|H]].
    + left. apply F1. auto.
    + left. apply F1. auto.
    + auto.
  - intros B e HB He m y H. cbn [add_binders_exp binders] in *. rewrite in_app_iff in H.
    apply He. destruct H as [H|[H|H]]; [left|left|right; exact H]; apply HB; auto.
  - intros f t ys m y H. cbn in *. tauto.
  - intros x m y H. cbn in *. tauto.
  - intros f t xs e B He HB m y H. cbn [add_binders_fundefs binders_funs] in *.
    cbn [In] in H. rewrite !in_app_iff in H. apply HB. destruct H as [H|[H|[H|[H|H]]]].
    + left. apply He. left. apply update_vars_named. left. apply update_var_named. auto.
    + left. apply He. left. apply update_vars_named. left. apply update_var_named. auto.
    + left. apply He. left. apply update_vars_named. auto.
    + left. apply He. auto.
    + auto.
  - intros m y H. cbn in *. tauto.
Qed.

Theorem C40_binders_named : forall bodyName prims nenv e x,
  In x (binders e) -> ~ reserved x -> ~ In x (map snd prims) ->
  exists a, c_name (final_names bodyName prims (add_binders_exp nenv e)) x = Some (a ++ ("_" ++ show_pos x)).
Proof.
  intros b prims m e x B R P.
  destruct (@add_binders_named e m x (or_intror B)) as [s Hs].
  assert (E : exists r, c_name (final_names b prims (add_binders_exp m e)) x = Some r).
  { unfold c_name, final_names. rewrite get_prims by exact P.
    rewrite get_set_other by (intros ->; apply R; left; reflexivity).
    unfold add_inf_vars. rewrite (@get_inf b (inf_vars b)); [|intro Q; apply R; right; exact Q|reflexivity].
    unfold ensure_unique. rewrite get_map, Hs. cbn. eauto. }
  destruct E as [r E]. destruct (c_name_var b prims _ R P E) as [a ->]. eauto.
Qed.
Example C40_binders_named_ex : (
  let e := Efun (Fcons 101 1 [102] (Eproj 103 5 0%N 102 (Ehalt 103)) Fnil) (Eletapp 104 101 1 [101] (Ehalt 104)) in
  binders e = [101; 102; 103; 104] /\
  map (c_name (final_names "body" [] (add_binders_exp [(101, nNamed "id"); (102, nAnon)] e))) (binders e) =
  [Some "id_101"; Some "x_102"; Some "x_103"; Some "x_104"]%string)%positive.
Proof. split; reflexivity. Qed.
Print Assumptions C40_binders_named.

(** Reserved identifiers keep their runtime names, which are pairwise distinct. *)
Definition fixed_table : list (positive * string) :=
  [(20, "make_tinfo"); (82, "is_ptr"); (26, "args"); (28, "alloc"); (92, "nalloc"); (29, "limit");
   (80, "garbage_collect"); (81, "main"); (31, "thread_info"); (91, "tinfo"); (95, "heap"); (83, "arg");
   (97, "num_args"); (78, "stack_frame"); (79, "frame"); (84, "root"); (86, "fp"); (87, "next");
   (89, "prev"); (93, "result")]%positive.

Lemma reserved_table b m x : reserved x ->
  exists s, get x (set make_tinfoIdent (nNamed "make_tinfo") (add_inf_vars b m)) = Some (nNamed s) /\
    In (x, s) ((90%positive, b) :: fixed_table).
Proof.
  unfold reserved. intro R. cbn in R.
  repeat (destruct R as [R|R]; [subst x; eexists; split; [cbn; reflexivity|cbn; tauto]|]).
  destruct R.
Qed.

Lemma In_snd_inj (A : Type) (f : string -> A) l : NoDup (map f (map snd l)) ->
  forall (x y : positive) s s', In (x, s) l -> In (y, s') l -> f s = f s' -> x = y.
Proof.
  induction l as [|[u z] l IH]; intros ND x y s s' H H' E; [destruct H|]. cbn in ND. inversion ND as [|? ? N1 N2]; subst.
  assert (Q : forall v w, In (v, w) l -> f w <> f z).
  { intros v w Iv Ew. apply N1. rewrite map_map, <- Ew. apply in_map_iff. exists (v, w). auto. }
  destruct H as [Eq|H], H' as [Eq'|H'].
  - congruence.
  - injection Eq as -> ->. exfalso. apply (Q _ _ H'). congruence.
  - injection Eq' as -> ->. exfalso. apply (Q _ _ H). congruence.
  - eapply IH; eauto.
Qed.

Theorem C40_reserved_distinct : forall bodyName prims nenv x y s,
  reserved x -> reserved y -> ~ In x (map snd prims) -> ~ In y (map snd prims) ->
  ~ In (remove_primes bodyName) fixed_names ->
  c_name (final_names bodyName prims nenv) x = Some s ->
  c_name (final_names bodyName prims nenv) y = Some s -> x = y.
Proof.
  intros b prims m x y s Rx Ry Px Py NB Ex Ey. unfold c_name, final_names in Ex, Ey.
  rewrite get_prims in Ex, Ey by assumption.
  destruct (reserved_table b (ensure_unique m) Rx) as (sx & Gx & Ix).
  destruct (reserved_table b (ensure_unique m) Ry) as (sy & Gy & Iy).
  rewrite Gx in Ex. rewrite Gy in Ey.
  apply (@In_snd_inj string remove_primes ((90%positive, b) :: fixed_table)) with (s := sx) (s' := sy); auto; [|congruence].
  change (map remove_primes (map snd ((90%positive, b) :: fixed_table))) with (remove_primes b :: fixed_names).
  constructor; [exact NB|]. clear. unfold fixed_names. repeat (constructor; [cbn; intuition discriminate|]). constructor.
Qed.
Example C40_reserved_distinct_ex :
  map (c_name (final_names "body" [] ex_names)) [28; 84; 90; 20]%positive =
  [Some "alloc"; Some "root"; Some "body"; Some "make_tinfo"] /\ ~ In (remove_primes "body") fixed_names.
Proof. split; [reflexivity|]. cbn. intuition discriminate. Qed.
Print Assumptions C40_reserved_distinct.

(** Each reserved identifier is emitted under the name chosen for it: no other
    entry takes its number.  The one exception is the field [root], which shares
    its number with the local array [roots], so both are called [root] (a field
    and a variable are in different C name spaces). *)
Theorem C40_reserved_named : forall bodyName prims nenv x s,
  In (x, nNamed s) (inf_vars bodyName) -> ~ In x (map snd prims) ->
  c_name (final_names bodyName prims nenv) x =
  Some (if Pos.eqb x rootIdent then "root" else remove_primes s).
Proof.
  intros b prims m x s H P. unfold c_name, final_names. rewrite get_prims by exact P. cbn in H.
  repeat (destruct H as [H|H]; [injection H as <- <-; reflexivity|]). destruct H.
Qed.
Example C40_reserved_named_ex :
  In (fpIdent, nNamed "fp") (inf_vars "body") /\ ~ In fpIdent (map snd [("int63_add", 100%positive)]) /\
  c_name (final_names "body" [("int63_add", 100%positive)] ex_names) fpIdent = Some "fp".
Proof. split; [cbn; tauto|]. split; [cbn; intuition discriminate|reflexivity]. Qed.
Print Assumptions C40_reserved_named.

(** All identifiers together, when the two user-chosen kinds of names (the body's
    and the primitives' targets) stay out of the way. *)
Definition well_chosen (bodyName : string) (targets : list string) : Prop :=
  ~ In (remove_primes bodyName) fixed_names /\ ~ numbered (remove_primes bodyName) /\
  NoDup (map remove_primes targets) /\
  (forall s, In s (map remove_primes targets) ->
     ~ In s (remove_primes bodyName :: fixed_names) /\ ~ numbered s).

Lemma not_numbered_fixed s : In s fixed_names -> ~ numbered s.
Proof.
  intros H (a & d & E & D).
  assert (Q : forall s0, In s0 fixed_names ->
    existsb (fun c => negb (digit c)) ((fix seg (l acc : list ascii) : list ascii :=
      match l with [] => acc | c :: l' => seg l' (if Ascii.eqb c "_" then [] else (acc ++ [c])%list) end) (chars s0) []) = true).
  { intros s0 H0. cbn in H0. repeat (destruct H0 as [<-|H0]; [reflexivity|]). destruct H0. }
  specialize (Q s H). rewrite E, chars_app in Q. cbn [append chars] in Q.
  assert (G : forall l acc, existsb (fun c => negb (digit c)) ((fix seg (l acc : list ascii) : list ascii :=
      match l with [] => acc | c :: l' => seg l' (if Ascii.eqb c "_" then [] else (acc ++ [c])%list) end) (l ++ "_"%char :: chars d)%list acc) = false).
  { induction l as [|c l IH]; intro acc; cbn [app].
    - change (Ascii.eqb "_" "_") with true. cbn [Ascii.eqb].
      assert (G2 : forall k acc, forallb digit k = true -> forallb digit acc = true ->
        existsb (fun c => negb (digit c)) ((fix seg (l acc : list ascii) : list ascii :=
          match l with [] => acc | c :: l' => seg l' (if Ascii.eqb c "_" then [] else (acc ++ [c])%list) end) k acc) = false).
      { induction k as [|c k IHk]; intros ac Hk Ha.
        - clear - Ha. induction ac as [|c ac IH]; [reflexivity|]. cbn in *. apply andb_prop in Ha. destruct Ha as [-> Ha]. cbn. auto.
        - cbn in Hk. apply andb_prop in Hk. destruct Hk as [Hc Hk].
          destruct (Ascii.eqb_spec c "_") as [->|_]; [discriminate|].
          apply IHk; [exact Hk|]. rewrite forallb_app, Ha. cbn. rewrite Hc. reflexivity. }
      apply (G2 (chars d) []); [exact D|reflexivity].
    - destruct (Ascii.eqb c "_"); apply IH. }
  rewrite G in Q. discriminate.
Qed.

Lemma reserved_name b m x : reserved x ->
  exists s, get x (set make_tinfoIdent (nNamed "make_tinfo") (add_inf_vars b m)) = Some (nNamed s) /\
    (s = b \/ In s fixed_names).
Proof.
  intro R. destruct (reserved_table b m R) as (s & G & I). exists s. split; [exact G|].
  destruct I as [E|I]; [left; congruence|right]. change fixed_names with (map snd fixed_table).
  change s with (snd (x, s)). apply in_map. exact I.
Qed.

Lemma fixed_primes s : In s fixed_names -> remove_primes s = s.
Proof. intro H. cbn in H. repeat (destruct H as [<-|H]; [reflexivity|]). destruct H. Qed.

Theorem C40_all_distinct : forall bodyName targets id nenv x y s,
  let prims := fst (pick_prim_ident id targets) in
  well_chosen bodyName targets -> (97 < id)%positive ->
  c_name (final_names bodyName prims nenv) x = Some s ->
  c_name (final_names bodyName prims nenv) y = Some s -> x = y.
Proof.
  intros b targets id m x y s prims (W1 & W2 & W3 & W4) Lid Ex Ey.
  destruct (pick_ok targets id) as (P1 & P2 & P3 & _). fold prims in P1, P2, P3.
  assert (RP : forall z, reserved z -> ~ In z (map snd prims)).
  { intros z R Q. apply P3 in Q. unfold reserved in R. cbn in R.
    repeat (destruct R as [R|R]; [subst z; unfold make_tinfoIdent, isptrIdent, argsIdent, allocIdent, nallocIdent,
      limitIdent, gcIdent, mainIdent, bodyIdent, threadInfIdent, tinfIdent, heapInfIdent, caseIdent, numArgsIdent,
      stackframeTIdent, frameIdent, rootFld, rootIdent, fpIdent, nextFld, prevFld, resultIdent in Q; lia|]). destruct R. }
  (* what kind of name an identifier has *)
  assert (K : forall z, c_name (final_names b prims m) z = Some s ->
    (In z (map snd prims) /\ exists t, In (t, z) prims /\ s = remove_primes t) \/
    (~ In z (map snd prims) /\ reserved z /\ In s (remove_primes b :: fixed_names)) \/
    (~ In z (map snd prims) /\ ~ reserved z /\ numbered s)).
  { intros z Ez. destruct (in_dec Pos.eq_dec z (map snd prims)) as [Iz|Iz].
    - left. split; [exact Iz|]. apply in_map_iff in Iz. destruct Iz as ([t z'] & Q & It). cbn in Q. subst z'.
      exists t. split; [exact It|]. unfold c_name, final_names in Ez. rewrite (get_prims_in _ P2 _ _ _ It) in Ez. congruence.
    - right. assert (DR : reserved z \/ ~ reserved z).
      { unfold reserved. destruct (Pos.eq_dec z make_tinfoIdent); [auto|].
        destruct (in_dec Pos.eq_dec z (map fst (inf_vars ""))); tauto. }
      destruct DR as [R|R].
      + left. split; [exact Iz|]. split; [exact R|]. unfold c_name, final_names in Ez. rewrite get_prims in Ez by exact Iz.
        destruct (reserved_name b (ensure_unique m) R) as (s' & E & D). rewrite E in Ez. injection Ez as Ez.
        destruct D as [-> |D]; [left; congruence|right]. rewrite <- Ez, fixed_primes by exact D. exact D.
      + right. split; [exact Iz|]. split; [exact R|]. destruct (c_name_var b prims m R Iz Ez) as [a ->].
        exists a, (show_pos z). split; [reflexivity|apply show_pos_digits]. }
  assert (RN : In s (remove_primes b :: fixed_names) -> ~ numbered s).
  { intros [<-|Q]; [exact W2|apply not_numbered_fixed; exact Q]. }
  assert (TI : forall t z, In (t, z) prims -> In (remove_primes t) (map remove_primes targets)).
  { intros t z It. apply in_map. rewrite <- P1. change t with (fst (t, z)). apply in_map. exact It. }
  destruct (K x Ex) as [(Ix & t & It & St)|[(Ix & Rx & Nx)|(Ix & Rx & Nx)]];
  destruct (K y Ey) as [(Iy & t' & It' & St')|[(Iy & Ry & Ny)|(Iy & Ry & Ny)]].
  - (* two primitives *)
    apply (@In_snd_inj string remove_primes (map (fun p => (snd p, fst p)) prims)) with (s := t) (s' := t').
    + rewrite <- P1 in W3. rewrite (map_map _ snd). exact W3.
    + apply in_map_iff. exists (t, x). auto.
    + apply in_map_iff. exists (t', y). auto.
    + congruence.
  - exfalso. subst s. apply (proj1 (W4 _ (TI _ _ It))). exact Ny.
  - exfalso. subst s. apply (proj2 (W4 _ (TI _ _ It))). exact Ny.
  - exfalso. subst s. apply (proj1 (W4 _ (TI _ _ It'))). exact Nx.
  - apply (@C40_reserved_distinct b prims m x y s); auto.
  - exfalso. apply RN; assumption.
  - exfalso. subst s. apply (proj2 (W4 _ (TI _ _ It'))). exact Nx.
  - exfalso. apply RN; assumption.
  - apply (@C40_variables_distinct b prims m x y s); auto.
Qed.
Example C40_all_distinct_ex : well_chosen "body" ["int63_add"; "prim_string_get"].
Proof.
  assert (N : forall s, In s ["body"; "int63_add"; "prim_string_get"] -> ~ numbered s).
  { intros s H (a & d & E & D).
    apply (f_equal (fun s => rev (chars s))) in E. rewrite chars_app in E. cbn [append chars] in E.
    rewrite rev_app_distr in E. cbn [rev] in E. rewrite <- app_assoc in E. cbn [app] in E.
    rewrite <- forallb_rev in D. destruct (rev (chars d)) as [|c k]; cbn in H.
    - repeat (destruct H as [<-|H]; [discriminate|]). destruct H.
    - repeat (destruct H as [<-|H]; [cbn in E; injection E as <- _; cbn in D; discriminate|]). destruct H. }
  split; [cbn; intuition discriminate|]. split; [apply N; cbn; auto|]. split.
  - cbn. repeat constructor; cbn; intuition discriminate.
  - intros s H. cbn in H. split.
    + destruct H as [<-|[<-|[]]]; cbn; intuition discriminate.
    + apply N. cbn. tauto.
Qed.
Print Assumptions C40_all_distinct.

(** The names of the per-function information records, added before the
    name-fixing pass, are therefore covered too. *)
Theorem C40_info_names : forall bodyName prims nenv f f_inf,
  ~ reserved f_inf -> ~ In f_inf (map snd prims) ->
  exists a, c_name (final_names bodyName prims (update_name_env_fun_info f f_inf nenv)) f_inf =
    Some (a ++ "_info" ++ ("_" ++ show_pos f_inf)).
Proof.
  intros b prims m f fi R P.
  assert (E : exists a, get fi (update_name_env_fun_info f fi m) = Some (nNamed (a ++ "_info"))).
  { unfold update_name_env_fun_info. destruct (get f m) as [[|s]|]; rewrite get_set_same; eauto. }
  destruct E as [a E]. exists (remove_primes a). unfold c_name, final_names. rewrite get_prims by exact P.
  rewrite get_set_other by (intros ->; apply R; left; reflexivity).
  unfold add_inf_vars. rewrite (@get_inf b (inf_vars b)); [|intro Q; apply R; right; exact Q|reflexivity].
  unfold ensure_unique. rewrite get_map, E. cbn [option_map]. f_equal.
  assert (A : forall u v w : string, (u ++ v) ++ w = u ++ (v ++ w)).
  { intros u v w. apply chars_inj. rewrite !chars_app. symmetry. apply app_assoc. }
  rewrite A, remove_primes_app. f_equal.
  change (remove_primes ("_info" ++ ("_" ++ show_pos fi))) with ("_info_" ++ remove_primes (show_pos fi)).
  rewrite (remove_primes_digits _ (show_pos_digits fi)). reflexivity.
Qed.
Example C40_info_names_ex :
  c_name (final_names "body" [] (update_name_env_fun_info 104 107 ex_names)) 107%positive = Some "fp_info_107".
Proof. reflexivity. Qed.
Print Assumptions C40_info_names.

(** ** What does not hold *)

(** The target of a primitive is emitted as given, so it can be the name of a
    variable: nothing checks it. *)
Theorem C40_primitive_clash_refuted : exists targets nenv x y s,
  x <> y /\ ~ reserved x /\ ~ In x (map snd (fst (pick_prim_ident 100 targets))) /\
  c_name (final_names "body" (fst (pick_prim_ident 100 targets)) nenv) x = Some s /\
  c_name (final_names "body" (fst (pick_prim_ident 100 targets)) nenv) y = Some s.
Proof.
  exists ["x_101"], [(101%positive, nNamed "x")], 101%positive, 100%positive, "x_101".
  split; [discriminate|]. split; [|split; [cbn; intuition discriminate|split; reflexivity]].
  intros [H|H]; [discriminate|]. cbn in H. intuition discriminate.
Qed.
Print Assumptions C40_primitive_clash_refuted.

(** The name of the body is a user option and is not checked either. *)
Theorem C40_body_clash_refuted : exists bodyName nenv x y s,
  x <> y /\ c_name (final_names bodyName [] nenv) x = Some s /\ c_name (final_names bodyName [] nenv) y = Some s.
Proof. exists "main", [], mainIdent, bodyIdent, "main". repeat split; discriminate. Qed.
Print Assumptions C40_body_clash_refuted.

(** The printer only rewrites quotes and dots; any other character Rocq allows
    in a name reaches the C file, so the emitted name need not be a C
    identifier (here the two bytes of an e with an acute accent). *)
Definition c_ident_char (c : ascii) : bool :=
  let n := nat_of_ascii c in
  digit c || ((65 <=? n)%nat && (n <=? 90)%nat) || ((97 <=? n)%nat && (n <=? 122)%nat) || (n =? 95)%nat || (n =? 36)%nat.

Theorem C40_identifier_characters_refuted : exists nenv x s,
  c_name (final_names "body" [] nenv) x = Some s /\ forallb c_ident_char (chars s) = false.
Proof.
  exists [(101%positive, nNamed (String (ascii_of_nat 195) (String (ascii_of_nat 169) "")))], 101%positive.
  eexists. split; [reflexivity|reflexivity].
Qed.
Print Assumptions C40_identifier_characters_refuted.

(** It is one for names made of letters, digits, underscores, quotes and dots. *)
Theorem C40_identifier_characters_partial : forall bodyName prims nenv x a s,
  ~ reserved x -> ~ In x (map snd prims) -> get x nenv = Some (nNamed a) ->
  forallb (fun c => c_ident_char c || Ascii.eqb c "'" || Ascii.eqb c ".") (chars a) = true ->
  c_name (final_names bodyName prims nenv) x = Some s -> forallb c_ident_char (chars s) = true.
Proof.
  intros b prims m x a s R P G Ha. unfold c_name, final_names. rewrite get_prims by exact P.
  rewrite get_set_other by (intros ->; apply R; left; reflexivity).
  unfold add_inf_vars. rewrite (@get_inf b (inf_vars b)); [|intro Q; apply R; right; exact Q|reflexivity].
  unfold ensure_unique. rewrite get_map, G. intro E.
  assert (E' : s = remove_primes (a ++ ("_" ++ show_pos x))) by (cbn [option_map] in E; congruence).
  rewrite E', remove_primes_app, chars_app, forallb_app. apply andb_true_intro. split.
  - clear - Ha. induction a as [|c a IH]; [reflexivity|]. cbn [chars forallb remove_primes] in *.
    apply andb_prop in Ha. destruct Ha as [Hc Ha]. rewrite IH by exact Ha. rewrite andb_true_r.
    unfold fix_char. destruct (Ascii.eqb c "'"); [reflexivity|]. destruct (Ascii.eqb c "."); [reflexivity|].
    rewrite !orb_false_r in Hc. exact Hc.
  - cbn [append remove_primes chars forallb]. rewrite (remove_primes_digits _ (show_pos_digits x)).
    change (c_ident_char (fix_char "_")) with true. cbn [andb].
    pose proof (show_pos_digits x) as D. revert D. generalize (chars (show_pos x)). clear. intros l.
    induction l as [|c l IH]; cbn [forallb]; [reflexivity|]. intro H. apply andb_prop in H. destruct H as [H1 H2].
    unfold c_ident_char at 1. rewrite H1, IH by exact H2. reflexivity.
Qed.
Example C40_identifier_characters_ex : c_name (final_names "body" [] ex_names) 104%positive = Some "fp_104".
Proof. reflexivity. Qed.
Print Assumptions C40_identifier_characters_partial.
