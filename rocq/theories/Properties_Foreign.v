(** * C87: glue code for foreign functions *)
From Coq Require Import ZArith PArith NArith List Bool Arith Lia Ascii String.
From Verif Require Import ANF_Syntax CG_Clight FF_Model FF_Spec FF_Proofs FF_Names.
Import ListNotations.
Local Open Scope nat_scope.

Lemma get_fn be c kn t arity io st defs st' n f : type_to_args t = (arity, io) -> make_one_field be c kn t st = (defs, st') ->
  1 <= total arity io -> nth_error (functions defs) n = Some f ->
  (S n < total arity io -> exists fn g, code defs f fn /\ builds be c fn g /\ nth_error (functions defs) (S n) = Some g) /\
  (S n = total arity io -> exists fn, code defs f fn /\ calls be c arity io (fs_gensym st) fn).
Proof.
  intros T M P N. destruct (field_defs _ _ _ _ _ _ _ _ _ T M) as (rest & clo & entry & D & CH & EN & LE & FU & ND & _).
  rewrite FU in N. assert (LT : List.length rest = total arity io) by (unfold total in *; destruct io; [exact LE|destruct arity; [lia|exact LE]]).
  rewrite nth_error_map in N. destruct (nth_error rest n) as [[f' d]|] eqn:Nr; [|discriminate]. injection N as N. cbn in N. subst f'.
  assert (IN : forall d, nth_error rest n = Some (f, d) -> In (f, d) defs).
  { intros d0 I. rewrite D. right. apply in_app_iff. left. apply in_rev. rewrite rev_involutive. eapply nth_error_In. exact I. }
  destruct (chain_get _ _ _ _ _ _ _ _ _ CH Nr) as (X & Y). rewrite LT in X, Y. split.
  - intro L. destruct (Y L) as (fn & g & d' & -> & Ng & B). exists fn, g. split; [exact (IN _ Nr)|]. split; [exact B|].
    rewrite FU, nth_error_map, Ng. reflexivity.
  - intro L. destruct (X L) as (fn & -> & C). exists fn. split; [exact (IN _ Nr)|exact C].
Qed.

(** The static closure is the foreign function applied to nothing. *)
Theorem C87_closure be c kn t arity io st defs st' clo entry m w :
  type_to_args t = (arity, io) -> make_one_field be c kn t st = (defs, st') ->
  In (clo, Closure entry) defs -> laid_out m w entry -> stage defs m w [].
Proof.
  intros T M I L. destruct (field_defs _ _ _ _ _ _ _ _ _ T M) as (rest & clo' & entry' & D & CH & EN & LE & FU & ND & _).
  exists entry, (VZ 1). split; [exact L|]. split; [exact Logic.I|]. cbn [List.length]. rewrite FU.
  assert (E : entry = entry'); [|congruence]. rewrite D in I. destruct I as [Q|I]; [discriminate|].
  apply in_app_iff in I as [I|[Q|[]]]; [|congruence]. exfalso. apply in_rev in I.
  clear -CH I. induction rest as [|[f d] r IH]; [contradiction|]. cbn [chained] in CH. destruct r as [|[g dg] r'].
  - destruct CH as (fn & -> & _). destruct I as [I|[]]. discriminate.
  - destruct CH as ((fn & -> & _) & CH). destruct I as [I|I]; [discriminate|]. exact (IH I CH).
Qed.

(** Applied to one more argument, but not the last one, it answers a closure for
    the arguments so far; it writes six words, two blocks with headers the
    collector reads as two words each. *)
Theorem C87_apply be c kn t arity io st defs st' ext m w vs f env k v cargs fn :
  type_to_args t = (arity, io) -> make_one_field be c kn t st = (defs, st') ->
  stage defs m w vs -> S (List.length vs) < total arity io ->
  pair_at m w (VF f) env -> code defs f fn -> passed c (words_in be env k v) cargs m ->
  room m 6 -> (be = CPS -> exists kf kenv, pair_at m k kf kenv) ->
  exists w' m', answers be c k w' (fcall ext fn cargs m) m' /\ stage defs m' w' (vs ++ [v]) /\ headed m' w' /\ allocated 6 m m'.
Proof.
  intros T M (f0 & env0 & P & E & N) L P' C PA R K. destruct (pair_det _ _ _ _ _ _ P P') as (Ef & ->). injection Ef as ->.
  destruct (get_fn _ _ _ _ _ _ _ _ _ _ _ T M ltac:(lia) N) as (X & _). destruct (X L) as (fn' & g & C' & B & Ng).
  destruct (field_defs _ _ _ _ _ _ _ _ _ T M) as (_ & _ & _ & _ & _ & _ & _ & _ & ND & _).
  rewrite (code_unique _ _ _ _ ND C C') in B.
  destruct (B ext env k v cargs m PA R K) as (env' & w' & m' & AN & AL & P1 & P2 & H1 & H2).
  exists w', m'. split; [exact AN|]. split; [|split; [exact H1|exact AL]]. exists g, env'. split; [exact P1|].
  rewrite rev_app_distr, app_length, Nat.add_comm. cbn [rev app env_holds List.length plus]. split; [|exact Ng].
  exists env. split; [exact P2|]. exact (env_kept 6 m m' _ ltac:(lia) R AL env E).
Qed.

(** Applied to its last argument (for a type in IO: to the world), it calls the
    foreign function once, with all arguments in order and without the world,
    and answers its result (for IO: the pair of the result and the world). What
    it does depends on no other call: where the foreign function fails, so does
    the glue. *)
Theorem C87_call be c kn t arity io st defs st' ext m w vs f env k v cargs fn ws :
  type_to_args t = (arity, io) -> make_one_field be c kn t st = (defs, st') ->
  stage defs m w vs -> S (List.length vs) = total arity io ->
  pair_at m w (VF f) env -> code defs f fn -> passed c (words_in be env k v) cargs m ->
  ws = (if io then vs else vs ++ [v]) ->
  List.length ws = arity /\
  exists symbol, In (symbol, Extern arity) defs /\ forall d, In (symbol, d) defs -> d = Extern arity /\
  match ext symbol ws m with
  | None => fcall ext fn cargs m = Undefined
  | Some (r, m2) =>
      (exists a, m_alloc m2 = VP BHeap a) -> (be = CPS -> exists kf kenv, pair_at m2 k kf kenv) ->
      if io then room m2 3 -> exists p m', answers be c k p (fcall ext fn cargs m) m' /\ pair_at m' p r v /\ headed m' p /\ allocated 3 m2 m'
      else exists m', answers be c k r (fcall ext fn cargs m) m' /\ allocated 0 m2 m'
  end.
Proof.
  intros T M (f0 & env0 & P & E & N) L P' C PA ->. destruct (pair_det _ _ _ _ _ _ P P') as (Ef & ->). injection Ef as ->.
  destruct (get_fn _ _ _ _ _ _ _ _ _ _ _ T M ltac:(lia) N) as (_ & X). destruct (X L) as (fn' & C' & B).
  destruct (field_defs _ _ _ _ _ _ _ _ _ T M) as (rest & clo & entry & D & _ & _ & _ & _ & ND & _).
  rewrite (code_unique _ _ _ _ ND C C') in B. unfold total in L.
  split; [destruct io; [lia|rewrite app_length; cbn; lia]|].
  exists (fs_gensym st). split; [rewrite D; now left|]. intros d I. split.
  - rewrite D in I, ND. destruct I as [I|I]; [congruence|]. exfalso. cbn [map fst] in ND. inversion ND as [|? ? NI _]; subst. apply NI.
    change (fs_gensym st) with (fst (fs_gensym st, d)). now apply in_map.
  - apply (B ext env k v cargs m vs PA E). destruct io; lia.
Qed.

Lemma answers_det be c k w w' o m m' : answers be c k w o m -> answers be c k w' o m' -> w = w' /\ m = m'.
Proof.
  destruct be; cbn [answers].
  - intros (E & A) (E' & A'). rewrite E in E'. injection E' as <-. split; congruence.
  - intros (kf & ke & ca & P & E & A) (kf' & ke' & ca' & P' & E' & A'). rewrite E in E'. injection E' as <- <- <-.
    destruct (pair_det _ _ _ _ _ _ P P') as (_ & <-). split; [|reflexivity]. destruct A as (C1 & A1), A' as (C2 & A2).
    destruct (le_lt_dec c 1) as [L|L].
    + pose proof (A1 1 w L eq_refl) as B1. pose proof (A2 1 w' L eq_refl) as B2. congruence.
    + destruct c as [|[|c]]; [lia|lia|]. rewrite C1 in C2. cbn in C2. destruct c; cbn in C2; congruence.
Qed.

(** Whatever happens between the applications: after fewer arguments than the
    function takes, the closure holds exactly the arguments given, in order,
    moved by the collections since. *)
Theorem C87_history be c kn t arity io st defs st' ext vs m w :
  type_to_args t = (arity, io) -> make_one_field be c kn t st = (defs, st') ->
  applied be c ext defs vs m w -> List.length vs < total arity io -> stage defs m w vs.
Proof.
  intros T M A. induction A as [clo entry m w I L|vs m w f env k v cargs fn m' w' A IH P C R K PA AN|vs m w ren m' A IH MV]; intro LT.
  - exact (C87_closure _ _ _ _ _ _ _ _ _ _ _ _ _ T M I L).
  - rewrite app_length in LT. cbn in LT. specialize (IH ltac:(lia)).
    destruct (C87_apply _ _ _ _ _ _ _ _ _ ext m w vs f env k v cargs fn T M IH ltac:(lia) P C PA R K) as (w2 & m2 & AN2 & ST & _ & _).
    destruct (answers_det _ _ _ _ _ _ _ _ AN AN2) as (-> & ->). exact ST.
  - rewrite map_length in LT. exact (stage_moved _ _ _ _ _ _ MV (IH LT)).
Qed.

(** In the printed program all functions and closures have names of their own,
    if no field is called like a function generated for another field. *)
Theorem C87_names be c fields st defs st' x y s :
  good st -> apart (map fst fields) -> make_all_fields be c fields st = (defs, st') ->
  In x (map fst defs) -> In y (map fst defs) -> In (x, s) (fs_nenv st') -> In (y, s) (fs_nenv st') -> x = y.
Proof.
  intros G AP M. destruct (all_grows _ _ _ _ _ _ G M) as ((GD & _) & F). apply (named_once _ _ _ (proj2 GD) (all_names_nodup _ AP) F).
Qed.

Definition t_print' : ftype := TProd (TOther 1) (TAppConst "IO" [TOther 2]).

(** What counts as an argument and as IO: the domains of the type, and its final
    result being [IO] applied. *)
Theorem C87_types args r : (forall a b, r <> TProd a b) ->
  type_to_args (fold_right TProd r args) = (List.length args, match r with TAppConst s _ => if string_dec s "IO" then true else false | _ => false end).
Proof.
  intro NP. induction args as [|a args IH]; cbn [fold_right type_to_args List.length].
  - destruct r as [a b|s l|n]; [destruct (NP a b eq_refl)| |reflexivity]. cbn. destruct (String.eqb_spec s "IO"), (string_dec s "IO"); congruence.
  - now rewrite IH.
Qed.
Example C87_example_types : type_to_args t_print' = (1, true).
Proof. exact (C87_types [TOther 1] (TAppConst "IO" [TOther 2]) ltac:(discriminate)). Qed.

(** ** Examples: add : nat -> nat -> nat, and print : string -> IO unit *)
Definition t_add : ftype := TProd (TOther 0) (TProd (TOther 0) (TOther 0)).
Definition t_print : ftype := TProd (TOther 1) (TAppConst "IO" [TOther 2]).
Definition st0 : fstate := mkfs 2 [].
Definition d_add be c := fst (make_one_field be c "add" t_add st0).
Definition d_print be c := fst (make_one_field be c "print" t_print st0).
Definition fn_of (defs : list (positive * fdef)) (f : positive) : ffun :=
  match find (fun d => Pos.eqb (fst d) f) defs with Some (_, Fun fn) => fn | _ => mkffun [] [] Fskip end.
Definition entry_of (defs : list (positive * fdef)) : positive := match functions defs with f :: _ => f | _ => 1%positive end.
Definition second_of (defs : list (positive * fdef)) : positive := match functions defs with _ :: f :: _ => f | _ => 1%positive end.
Definition after (o : outcome) (m : mem) : mem := match o with Jumped _ _ m' => m' | Returned _ m' => m' | _ => m end.

(** heap: static closure at 0, continuation at 10 with code 900 and environment
    77, room from [a] to 200; args array as given *)
Definition m0 (entry : positive) (a : Z) (args : list cval) : mem :=
  {| m_heap := fun o => if Z.eqb o 0 then Some (VF entry) else if Z.eqb o 1 then Some (VZ 1)
       else if Z.eqb o 10 then Some (VF 900) else if Z.eqb o 11 then Some (VZ 77) else None;
     m_lo := 50; m_hi := 200; m_args := fun i => nth_error args (Z.to_nat i); m_alloc := VP BHeap a; m_limit := VP BHeap 200; m_fp := VZ 0;
     m_nalloc := VZ 0; m_frames := []; m_next := 1%positive |}.
Definition with_args (m : mem) (args : list cval) : mem := set_args m (fun i => nth_error args (Z.to_nat i)).

(** numbers with the lowest bit set *)
Definition ext_add : foreign := fun _ ws m => match ws with [VZ a; VZ b] => Some (VZ (a + b - 1), m) | _ => None end.
Definition ext_print : foreign := fun _ ws m => match ws with [VZ 5] => Some (VZ 1, m) | _ => None end.
Definition kont : cval := VP BHeap 10.

Definition add_m0 := m0 (entry_of (d_add CPS 1)) 100 [VZ 0; kont; VZ 11].
Definition add_m1 := after (fcall ext_add (fn_of (d_add CPS 1) (entry_of (d_add CPS 1))) [VZ 1] add_m0) add_m0.
Definition add_m2 := with_args add_m1 [VZ 0; kont; VZ 15].

Lemma pair_at_intro m o x y a : m_alloc m = VP BHeap a -> (o + 2 <= a \/ m_hi m <= o)%Z -> m_heap m o = Some x -> m_heap m (o + 1)%Z = Some y ->
  pair_at m (VP BHeap o) x y.
Proof. intros A U X Y. exists o. split; [reflexivity|]. split; [|auto]. intros b B. rewrite A in B. injection B as <-. exact U. Qed.
Ltac pr := eapply pair_at_intro; [vm_compute; reflexivity|vm_compute; first [left; discriminate|right; discriminate]|vm_compute; reflexivity|vm_compute; reflexivity].

(** add applied to 5 and then 7 (11 and 15 as words), in continuation-passing
    style with one C argument: the continuation gets 12 (25) *)
Example C87_example :
  applied CPS 1 ext_add (d_add CPS 1) [VZ 11] add_m2 (VP BHeap 104) /\ stage (d_add CPS 1) add_m2 (VP BHeap 104) [VZ 11] /\
  pair_at add_m2 (VP BHeap 104) (VF (second_of (d_add CPS 1))) (VP BHeap 101) /\
  code (d_add CPS 1) (second_of (d_add CPS 1)) (fn_of (d_add CPS 1) (second_of (d_add CPS 1))) /\
  passed 1 (words_in CPS (VP BHeap 101) kont (VZ 15)) [VP BHeap 101] add_m2 /\
  exists m', answers CPS 1 kont (VZ 25) (fcall ext_add (fn_of (d_add CPS 1) (second_of (d_add CPS 1))) [VP BHeap 101] add_m2) m'.
Proof.
  assert (A : applied CPS 1 ext_add (d_add CPS 1) [VZ 11] add_m2 (VP BHeap 104)).
  { apply (ap_move CPS 1 ext_add (d_add CPS 1) [VZ 11] add_m1 (VP BHeap 104) (fun x => x)).
    - apply (ap_step CPS 1 ext_add (d_add CPS 1) [] add_m0 (VP BHeap 0) (entry_of (d_add CPS 1)) (VZ 1) kont (VZ 11) [VZ 1]
        (fn_of (d_add CPS 1) (entry_of (d_add CPS 1)))).
      + apply (ap_start CPS 1 ext_add (d_add CPS 1) 26%positive (entry_of (d_add CPS 1))); [vm_compute; tauto|]. unfold laid_out, add_m0. pr.
      + unfold add_m0. pr.
      + vm_compute; tauto.
      + exists 100%Z. split; [reflexivity|]. vm_compute. split; discriminate.
      + intros _. exists (VF 900), (VZ 77). unfold kont. pr.
      + split; [reflexivity|]. intros [|[|[|i]]] w L N; try lia; cbn in N; [injection N as <-; reflexivity|injection N as <-; reflexivity|destruct i; discriminate].
      + exists (VF 900), (VZ 77), [VZ 77]. split; [unfold kont; pr|]. split; [vm_compute; reflexivity|]. split; [reflexivity|].
        intros [|[|i]] w L N; [lia| |destruct i; discriminate]. cbn in N. injection N as <-. vm_compute. reflexivity.
    - split; [auto|]. intros x y z _ P. exact P. }
  split; [exact A|]. split.
  - refine (C87_history CPS 1 "add" t_add 2 false st0 (d_add CPS 1) (snd (make_one_field CPS 1 "add" t_add st0)) ext_add _ _ _ eq_refl _ A _).
    + unfold d_add. destruct (make_one_field CPS 1 "add" t_add st0). reflexivity.
    + cbn. lia.
  - split; [pr|]. split; [vm_compute; tauto|]. split.
    + split; [reflexivity|]. intros [|[|[|i]]] w L N; try lia; cbn in N; [injection N as <-; reflexivity|injection N as <-; reflexivity|destruct i; discriminate].
    + eexists. exists (VF 900), (VZ 77), [VZ 77]. split; [|split; [vm_compute; reflexivity|split; [reflexivity|]]].
      * unfold kont. eapply pair_at_intro; [vm_compute; reflexivity|left; discriminate|vm_compute; reflexivity|vm_compute; reflexivity].
      * intros [|[|i]] w L N; [lia| |destruct i; discriminate]. cbn in N. injection N as <-. vm_compute. reflexivity.
Qed.

(** print applied to a string (5) and the world (3), all arguments in the args
    array: the foreign function gets the string only, the continuation the pair
    of its result and the world *)
Definition io_m0 := m0 (entry_of (d_print CPS 0)) 100 [VZ 1; kont; VZ 5].
Definition io_m1 := after (fcall ext_print (fn_of (d_print CPS 0) (entry_of (d_print CPS 0))) [] io_m0) io_m0.
Definition io_m2 := with_args io_m1 [VP BHeap 101; kont; VZ 3].
Example C87_example_io :
  stage (d_print CPS 0) io_m2 (VP BHeap 104) [VZ 5] /\ total 1 true = 2 /\
  exists m', answers CPS 0 kont (VP BHeap 107) (fcall ext_print (fn_of (d_print CPS 0) (second_of (d_print CPS 0))) [] io_m2) m' /\
    pair_at m' (VP BHeap 107) (VZ 1) (VZ 3).
Proof.
  split; [|split; [reflexivity|]].
  - exists (second_of (d_print CPS 0)), (VP BHeap 101). split; [pr|]. split; [|reflexivity]. cbn [rev app env_holds]. eexists. split; [pr|exact I].
  - eexists. split.
    + exists (VF 900), (VZ 77), []. split; [|split; [vm_compute; reflexivity|split; [reflexivity|]]].
      * unfold kont. eapply pair_at_intro; [vm_compute; reflexivity|left; discriminate|vm_compute; reflexivity|vm_compute; reflexivity].
      * intros [|[|i]] w L N; [| |destruct i; discriminate]; cbn in N; injection N as <-; vm_compute; reflexivity.
    + eapply pair_at_intro; [vm_compute; reflexivity|left; discriminate|vm_compute; reflexivity|vm_compute; reflexivity].
Qed.

(** direct style: the hypotheses of C87_apply can be met *)
Definition dir_m0 := m0 (entry_of (d_add ANF 2)) 100 [].
Example C87_example_direct :
  stage (d_add ANF 2) dir_m0 (VP BHeap 0) [] /\ room dir_m0 6 /\ passed 2 (words_in ANF (VZ 1) kont (VZ 11)) [VZ 1; VZ 11] dir_m0 /\
  exists m', answers ANF 2 kont (VP BHeap 104) (fcall ext_add (fn_of (d_add ANF 2) (entry_of (d_add ANF 2))) [VZ 1; VZ 11] dir_m0) m'.
Proof.
  split; [exists (entry_of (d_add ANF 2)), (VZ 1); split; [pr|split; [exact I|reflexivity]]|].
  split; [exists 100%Z; split; [reflexivity|vm_compute; split; discriminate]|].
  split; [split; [reflexivity|intros [|[|i]] w L N; [lia|lia|destruct i; discriminate]]|].
  eexists. split; vm_compute; reflexivity.
Qed.

(** two fields with names apart *)
Example C87_example_names : good st0 /\ apart ["add"; "print"]%string.
Proof.
  split; [split; [intros x s []|constructor]|]. split.
  - constructor; [intros [E|[]]; discriminate|constructor; [intros []|constructor]].
  - intros kn kn' [<-|[<-|[]]] [<-|[<-|[]]]; repeat split; try discriminate; intros n E; cbn in E; discriminate.
Qed.

(** ** Where it fails *)

(** A field that is not a function (a pure type without arguments): its foreign
    function, declared without arguments, is called with one. *)
Theorem C87_constant_refuted : exists kn t defs st' symbol entry fn m w k v ext,
  type_to_args t = (0, false) /\ make_one_field CPS 3 kn t st0 = (defs, st') /\ In (symbol, Extern 0) defs /\
  stage defs m w [] /\ pair_at m w (VF entry) (VZ 1) /\ code defs entry fn /\ (exists kf kenv, pair_at m k kf kenv) /\
  (exists r, ext symbol [] m = Some (r, m)) /\
  (forall ws, ws <> [] -> ext symbol ws m = None) /\
  fcall ext fn [VZ 1; k; v] m = Undefined.
Proof.
  set (defs := fst (make_one_field CPS 3 "pi" (TOther 0) st0)).
  exists "pi"%string, (TOther 0), defs, (snd (make_one_field CPS 3 "pi" (TOther 0) st0)), 2%positive, (entry_of defs), (fn_of defs (entry_of defs)),
    (m0 (entry_of defs) 100 []), (VP BHeap 0), kont, (VZ 1), (fun _ ws m => match ws with [] => Some (VZ 1, m) | _ => None end).
  split; [reflexivity|]. split; [unfold defs; apply surjective_pairing|]. split; [vm_compute; tauto|].
  split; [exists (entry_of defs), (VZ 1); split; [pr|split; [exact I|reflexivity]]|]. split; [pr|]. split; [vm_compute; tauto|].
  split; [exists (VF 900), (VZ 77); unfold kont; pr|]. split; [eauto|]. split; [intros [|] N; [contradiction|reflexivity]|].
  vm_compute. reflexivity.
Qed.

(** No generated function checks that there is room for what it allocates. *)
Theorem C87_no_check_refuted : exists ext m w f env k v cargs fn,
  stage (d_add CPS 3) m w [] /\ pair_at m w (VF f) env /\ code (d_add CPS 3) f fn /\
  passed 3 (words_in CPS env k v) cargs m /\ (exists kf kenv, pair_at m k kf kenv) /\ room m 0 /\
  fcall ext fn cargs m = Undefined.
Proof.
  set (e := entry_of (d_add CPS 3)). exists ext_add, (m0 e 200 []), (VP BHeap 0), e, (VZ 1), kont, (VZ 11), [VZ 1; kont; VZ 11], (fn_of (d_add CPS 3) e).
  split; [exists e, (VZ 1); split; [pr|split; [exact I|reflexivity]]|]. split; [pr|]. split; [vm_compute; tauto|].
  split; [split; [reflexivity|intros [|[|[|i]]] w L N; [lia|lia|lia|destruct i; discriminate]]|].
  split; [exists (VF 900), (VZ 77); unfold kont; pr|]. split; [exists 200%Z; split; [reflexivity|vm_compute; split; discriminate]|].
  vm_compute. reflexivity.
Qed.

(** In direct style the generated functions return no value, where compiled code
    uses the value a call returns. *)
Theorem C87_direct_refuted : exists m w f env v cargs fn,
  stage (d_add ANF 2) m w [] /\ pair_at m w (VF f) env /\ code (d_add ANF 2) f fn /\
  passed 2 (words_in ANF env (VZ 1) v) cargs m /\ room m 6 /\
  forall ext, exists m', fcall ext fn cargs m = Returned None m'.
Proof.
  set (e := entry_of (d_add ANF 2)). exists (m0 e 100 []), (VP BHeap 0), e, (VZ 1), (VZ 11), [VZ 1; VZ 11], (fn_of (d_add ANF 2) e).
  split; [exists e, (VZ 1); split; [pr|split; [exact I|reflexivity]]|]. split; [pr|]. split; [vm_compute; tauto|].
  split; [split; [reflexivity|intros [|[|i]] w L N; [lia|lia|destruct i; discriminate]]|].
  split; [exists 100%Z; split; [reflexivity|vm_compute; split; discriminate]|].
  intro ext. eexists. vm_compute. reflexivity.
Qed.

(** The continuation is kept in a C variable while the foreign function runs: if
    that collects garbage, and the continuation moves, it is not called. *)
Theorem C87_collecting_refuted : exists ext symbol m m2 w f env k v cargs fn ren kf kenv,
  stage (d_add CPS 3) m w [VZ 11] /\ pair_at m w (VF f) env /\ code (d_add CPS 3) f fn /\
  passed 3 (words_in CPS env k v) cargs m /\ pair_at m k kf kenv /\
  In (symbol, Extern 2) (d_add CPS 3) /\ ext symbol [VZ 11; v] m = Some (VZ 25, m2) /\ moved ren m m2 k /\ pair_at m2 (ren k) kf kenv /\
  fcall ext fn cargs m = Undefined.
Proof.
  set (d := d_add CPS 3). set (e := entry_of d). set (f := second_of d).
  set (h := fun o : Z => if Z.eqb o 30 then Some (VF f) else if Z.eqb o 31 then Some (VP BHeap 20) else if Z.eqb o 20 then Some (VZ 11)
    else if Z.eqb o 21 then Some (VZ 1) else m_heap (m0 e 100 []) o).
  set (m := set_heap (m0 e 100 []) h).
  set (m2 := set_heap m (fun o => if Z.eqb o 40 then Some (VF 900) else if Z.eqb o 41 then Some (VZ 77) else None)).
  set (ren := fun w => match w with VP BHeap 10 => VP BHeap 40 | _ => w end).
  exists (fun _ _ _ => Some (VZ 25, m2)), 2%positive, m, m2, (VP BHeap 30), f, (VP BHeap 20), kont, (VZ 15), [VP BHeap 20; kont; VZ 15], (fn_of d f), ren, (VF 900), (VZ 77).
  split; [exists f, (VP BHeap 20); split; [pr|split; [cbn [rev app env_holds]; eexists; split; [pr|exact I]|reflexivity]]|].
  split; [pr|]. split; [vm_compute; tauto|].
  split; [split; [reflexivity|intros [|[|[|i]]] w L N; [lia|lia|lia|destruct i; discriminate]]|].
  assert (PK : pair_at m kont (VF 900) (VZ 77)) by (unfold kont; pr).
  split; [exact PK|]. split; [vm_compute; tauto|]. split; [reflexivity|].
  assert (PK2 : pair_at m2 (ren kont) (VF 900) (VZ 77)) by (change (ren kont) with (VP BHeap 40); pr).
  split; [|split; [exact PK2|vm_compute; reflexivity]]. split; [reflexivity|].
  assert (IC : forall x, in_chain m kont x -> x = kont \/ x = VZ 77).
  { induction 1 as [|x y z C IH P]; [now left|]. right. destruct IH as [->| ->].
    - exact (proj2 (pair_det _ _ _ _ _ _ P PK)).
    - destruct P as (o & Q & _). discriminate. }
  intros x y z C P. destruct (IC x C) as [->| ->].
  - destruct (pair_det _ _ _ _ _ _ P PK) as (-> & ->). exact PK2.
  - destruct P as (o & Q & _). discriminate.
Qed.

(** Fields may have names such that two generated functions get the same one. *)
Theorem C87_names_refuted : exists fields defs st' x y s,
  NoDup (map fst fields) /\ make_all_fields CPS 1 fields st0 = (defs, st') /\
  In x (map fst defs) /\ In y (map fst defs) /\ In (x, s) (fs_nenv st') /\ In (y, s) (fs_nenv st') /\ x <> y.
Proof.
  set (fs := [("f", t_print); ("f_1", t_print)]%string).
  exists fs, (fst (make_all_fields CPS 1 fs st0)), (snd (make_all_fields CPS 1 fs st0)).
  set (nm := filter (fun p => String.eqb (snd p) "f_1") (fs_nenv (snd (make_all_fields CPS 1 fs st0)))).
  exists (fst (nth 0 nm (1%positive, ""%string))), (fst (nth 1 nm (1%positive, ""%string))), "f_1"%string.
  split; [constructor; [intros [E|[]]; discriminate|constructor; [intros []|constructor]]|].
  split; [apply surjective_pairing|]. vm_compute. repeat split; try tauto. discriminate.
Qed.

Print Assumptions C87_closure.
Print Assumptions C87_apply.
Print Assumptions C87_call.
Print Assumptions C87_history.
Print Assumptions C87_names.
Print Assumptions C87_types.
Print Assumptions C87_constant_refuted.
Print Assumptions C87_no_check_refuted.
Print Assumptions C87_direct_refuted.
Print Assumptions C87_collecting_refuted.
Print Assumptions C87_names_refuted.
