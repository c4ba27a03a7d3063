(** * C86: evaluation commands of a session *)
From Coq Require Import ZArith List Lia Bool Arith Ascii String.
From Verif Require Import ANF_Syntax CG_Clight CG_Spec RF_Model RF_Spec SN_Model SN_Spec SN_Proofs Properties_Reify.
From Verif Require Import RF_Spec.
From Verif Require PR_Spec PR_Lex LB_Model.
Import ListNotations.
Local Open Scope nat_scope.

(** ** Names *)

(** The next name has the same beginning and the next number; it gets longer only
    when the digits run out. *)
Theorem C86_next_name : forall s p d, numbered s p d -> p <> [] \/ (d <> [] /\ exists c, In c d /\ c <> "9"%char) ->
  exists s' d', increment_subscript s = Done s' /\ numbered s' p d' /\ d' <> [] /\
    number 0 d' = match d with [] => 0 | _ => S (number 0 d) end /\
    List.length d' = if forallb (Ascii.eqb "9") d then S (List.length d) else List.length d.
Proof. exact increment_spec. Qed.
Print Assumptions C86_next_name.
Example C86_example_names :
  numbered "Top.f" (list_ascii_of_string "Top.f") [] /\ numbered "Top.f199" (list_ascii_of_string "Top.f") (list_ascii_of_string "199") /\
  map increment_subscript ["Top.f"; "Top.f0"; "Top.f09"; "Top.f199"; "Top.f99"; "19"]%string =
  map Done ["Top.f0"; "Top.f1"; "Top.f10"; "Top.f200"; "Top.f100"; "20"]%string.
Proof.
  assert (X : unit -> list_ascii_of_string "Top.f" = [] \/ exists p' c, list_ascii_of_string "Top.f" = p' ++ [c] /\ ~ digit c).
  { intros _. right. exists (list_ascii_of_string "Top."), "f"%char. split; [reflexivity|]. unfold digit. cbn. lia. }
  split; [split; [reflexivity|split; [constructor|exact (X tt)]]|]. split; [|reflexivity].
  split; [reflexivity|]. split; [|exact (X tt)]. repeat constructor; unfold digit; cbn; lia.
Qed.

(** A fresh name is found for every name that is not a number: it is not in use
    and has the same beginning; a name not in use is kept. *)
Theorem C86_fresh_name : forall s p d used, numbered s p d -> p <> [] ->
  exists s' d', find_fresh s used = Done s' /\ ~ In s' used /\ numbered s' p d' /\ (~ In s used -> s' = s).
Proof.
  intros s p d used N NP. destruct (fresh_ok s p d used N NP) as (s' & d' & F & A & B & _). exists s', d'. do 3 (split; [assumption|]).
  intro NI. apply mem_out in NI. unfold find_fresh in F. rewrite Nat.add_comm in F. cbn [Nat.add next_string_away_from] in F. rewrite NI in F. congruence.
Qed.
Print Assumptions C86_fresh_name.
Example C86_example_fresh :
  find_fresh "Top.f" ["Top.f1"; "Top.f"; "Top.f0"; "Top.g"]%string = Done "Top.f2"%string /\ find_fresh "goal9" ["goal9"]%string = Done "goal10"%string.
Proof. split; reflexivity. Qed.

(** Names of digits only: the assertion fails. *)
Theorem C86_numbers_refuted : exists s used, s <> ""%string /\ find_fresh s used = Exception.
Proof. exists "9"%string, ["9"%string]. split; [discriminate|reflexivity]. Qed.
Print Assumptions C86_numbers_refuted.

(** *** The C function *)
Fixpoint undot (s : string) : string :=
  match s with EmptyString => EmptyString | String c s' => String (if Ascii.eqb c "." then "_" else c)%char (undot s') end.
Lemma concat_cons (x : string) l : l <> [] -> String.concat "_" (x :: l) = (x ++ "_" ++ String.concat "_" l)%string.
Proof. destruct l; [contradiction|reflexivity]. Qed.
Lemma split_ne c s : forall cur, split_from c cur s <> [].
Proof. induction s as [|a s IH]; intro cur; cbn [split_from]; [discriminate|]. destruct (Ascii.eqb a c); [discriminate|apply IH]. Qed.
Lemma split_undot s : forall cur, String.concat "_" (split_from "." cur s) = (cur ++ undot s)%string.
Proof.
  induction s as [|a s IH]; intro cur; cbn [split_from undot].
  - cbn [String.concat]. symmetry. apply PR_Lex.sapp_nil.
  - destruct (Ascii.eqb a ".") eqn:Q.
    + rewrite concat_cons by apply split_ne. rewrite IH. reflexivity.
    + rewrite IH, PR_Lex.sapp_assoc. reflexivity.
Qed.

Lemma between_spec lo hi c : PR_Spec.between lo hi c = true <-> nat_of_ascii lo <= nat_of_ascii c <= nat_of_ascii hi.
Proof. unfold PR_Spec.between. rewrite andb_true_iff, !Nat.leb_le. tauto. Qed.
Lemma letter_start c : letter c -> PR_Spec.id_start c = true.
Proof.
  unfold letter, small, PR_Spec.id_start. rewrite !orb_true_iff, !between_spec, !Ascii.eqb_eq.
  change (nat_of_ascii "a") with 97. change (nat_of_ascii "z") with 122. change (nat_of_ascii "A") with 65. change (nat_of_ascii "Z") with 90. tauto.
Qed.
Lemma digit_spec c : digit c -> PR_Spec.is_digit c = true.
Proof. intro D. unfold PR_Spec.is_digit. apply between_spec. exact D. Qed.

Lemma undot_ids s : Forall (fun c => letter c \/ digit c \/ c = "."%char) (list_ascii_of_string s) -> PR_Spec.all_chars PR_Spec.id_char (undot s) = true.
Proof.
  induction s as [|c s IH]; cbn [list_ascii_of_string undot PR_Spec.all_chars]; [reflexivity|]. intro F. inversion F as [|x l H1 H2]. subst.
  rewrite (IH H2), andb_true_r. destruct (Ascii.eqb_spec c ".") as [->|NE]; [reflexivity|]. unfold PR_Spec.id_char.
  destruct H1 as [H|[H| ->]]; [rewrite (letter_start c H); reflexivity|rewrite (digit_spec c H); apply orb_true_r|congruence].
Qed.

(** A name made of letters, digits, underscores and dots gives a function name
    that C reads as one word and OCaml accepts. *)
Theorem C86_symbols : forall s, Forall (fun c => letter c \/ digit c \/ c = "."%char) (list_ascii_of_string s) ->
  forall c s', s = String c s' -> letter c ->
  PR_Spec.lex (toplevel_name_of_filename s) = [PR_Spec.TId (toplevel_name_of_filename s)] /\
  exists c' t, toplevel_name_of_filename s = String c' t /\ small c'.
Proof.
  intros s F c s' -> L. unfold toplevel_name_of_filename. rewrite split_undot. cbn [String.append undot].
  assert (ND : Ascii.eqb c "." = false).
  { destruct (Ascii.eqb_spec c ".") as [->|]; [|reflexivity]. destruct L as [[L|L]|L]; [cbn in L; lia|discriminate|cbn in L; lia]. }
  rewrite ND. cbn [uncapitalize]. set (c' := if (65 <=? nat_of_ascii c) && (nat_of_ascii c <=? 90) then ascii_of_nat (nat_of_ascii c + 32) else c). cbn [list_ascii_of_string] in F. inversion F as [|x l F1 F2]. subst x l.
  assert (SM : small c').
  { subst c'. destruct ((65 <=? nat_of_ascii c) && (nat_of_ascii c <=? 90)) eqn:Q.
    - apply andb_true_iff in Q as [Q1 Q2]. apply Nat.leb_le in Q1, Q2. left. rewrite nat_ascii_embedding by lia. lia.
    - destruct L as [L|L]; [exact L|]. apply andb_false_iff in Q. rewrite !Nat.leb_gt in Q. lia. }
  split; [|exists c', (undot s'); auto].
  unfold PR_Spec.lex. cbn [PR_Spec.scan PR_Spec.step]. unfold PR_Spec.start. rewrite (letter_start c' (or_introl SM)).
  rewrite (PR_Lex.scan_id (undot s') _ (undot_ids s' F2)). reflexivity.
Qed.
Print Assumptions C86_symbols.
Example C86_example_symbols : toplevel_name_of_filename "Top.M.f_1" = "top_M_f_1"%string /\
  Forall (fun c => letter c \/ digit c \/ c = "."%char) (list_ascii_of_string "Top.M.f_1").
Proof. split; [reflexivity|]. repeat (constructor; [unfold letter, small, digit; cbn; first [lia|tauto|left; lia]|]). constructor. Qed.

(** Names with a quote are legal in Rocq and not in C. *)
Theorem C86_quote_refuted : exists s, has_dot s /\ forall t, PR_Spec.lex (toplevel_name_of_filename s) <> [t].
Proof. exists "Top.f'"%string. split; [cbn; tauto|]. intros t. vm_compute. discriminate. Qed.
Print Assumptions C86_quote_refuted.

(** Different names can give the same function. *)
Theorem C86_collision_refuted : exists s s', s <> s' /\ has_dot s /\ has_dot s' /\ toplevel_name_of_filename s = toplevel_name_of_filename s'.
Proof. exists "Top.a_b"%string, "Top.a.b"%string. split; [discriminate|]. split; [cbn; tauto|]. split; [cbn; tauto|reflexivity]. Qed.
Print Assumptions C86_collision_refuted.

(** ** Building *)

Lemma length_sapp (a b : string) : String.length (a ++ b) = String.length a + String.length b.
Proof. induction a as [|c a IH]; [reflexivity|]. cbn [String.append String.length]. rewrite IH. reflexivity. Qed.

(** Without a suffix and in direct style, the file compiled is the program and
    the function that calls it, for the run-time system it is linked with. *)
Theorem C86_build : forall filename ext cps, let b := build_named filename ext cps in
  (b_unit b = [Program (b_symbol b ++ "_body"); Driver (b_symbol b) (b_symbol b ++ "_body")] <-> ext = ""%string) /\
  (b_included b = b_linked b <-> cps = false).
Proof.
  intros f ext cps b. split.
  - subst b. unfold build_named. cbn [b_unit b_symbol]. destruct (String.eqb_spec (f ++ ext ++ ".c") (f ++ ".c")) as [Q|Q].
    + split; [intros _|reflexivity]. apply (f_equal String.length) in Q. rewrite !length_sapp in Q. cbn [String.length] in Q. destruct ext; [reflexivity|cbn in Q; lia].
    + split; [intro H; discriminate|]. intros ->. contradiction.
  - subst b. destruct cps; cbn; split; congruence.
Qed.
Print Assumptions C86_build.

(** ** Sessions *)

(** No file is written twice, whatever the user does and however often they go
    back. *)
Theorem C86_files : forall T O result E fuel (cs : list (command T O)), NoDup (files (fst (session T O result E fuel cs start))).
Proof. intros. apply session_files. split; [constructor|intros x []]. Qed.
Print Assumptions C86_files.

(** An evaluation of a constant is one of the definition it has now: built with
    the options and orders of now, or of an earlier evaluation of it. *)
Theorem C86_same_program : forall T O result E fuel (cs : list (command T O)) s o ty t, Forall named cs ->
  let st := fst (session T O result E fuel cs start) in
  look s (s_consts (cur st)) = Some (ty, t) ->
  exists o' im', (o' = o /\ im' = s_orders (cur st) \/ In (Eval s o') cs /\ exists r, result o' im' t = Done r) /\
  snd (step T O result E fuel (Eval s o) st) = Some (evaluated E fuel (s_orders (cur st)) ty (result o' im' t)).
Proof.
  intros T O result E fuel cs s o ty t N st L.
  destruct (eval_answer T O result E fuel (fun _ _ => True) (fun s o => In (Eval s o) cs) st s o ty t) as (o' & im' & Q & A); [|exact L|].
  - apply session_ok; [auto|exact N| |apply idle_ok; split; [reflexivity|split; [discriminate|constructor]]].
    apply Forall_forall. intros c I. destruct c; cbn [keeps]; auto.
  - exists o', im'. split; [|exact A]. destruct Q as [Q|(Q1 & _ & Q2)]; auto.
Qed.
Print Assumptions C86_same_program.

(** If orders are registered before the first evaluation and options do not
    change results, every evaluation gives what a new compilation would give. *)
Theorem C86_eval : forall T O result E fuel (cs1 cs2 : list (command T O)) s o ty t,
  Forall named (cs1 ++ cs2) -> Forall no_eval cs1 -> Forall no_order cs2 ->
  (forall o', In (Eval s o') cs2 -> forall im t, result o' im t = result o im t) ->
  let st := fst (session T O result E fuel (cs1 ++ cs2) start) in
  look s (s_consts (cur st)) = Some (ty, t) ->
  snd (step T O result E fuel (Eval s o) st) = Some (evaluated E fuel (s_orders (cur st)) ty (result o (s_orders (cur st)) t)).
Proof.
  intros T O result E fuel cs1 cs2 s o ty t N NE NO SO st L. apply Forall_app in N as [N1 N2].
  destruct (eval_answer T O result E fuel eq (fun s o => In (Eval s o) cs2) st s o ty t) as (o' & im' & Q & A); [|exact L|].
  - subst st. rewrite session_app. pose proof (session_idle result E fuel cs1 N1 NE start) as I.
    destruct (session T O result E fuel cs1 start) as [st1 l1]. cbn [fst] in I.
    assert (OK : all_ok T O result eq (fun s o => In (Eval s o) cs2) st1).
    { apply idle_ok, I. split; [reflexivity|split; [discriminate|constructor]]. }
    pose proof (session_ok T O result E fuel eq (fun s o => In (Eval s o) cs2) (fun _ => eq_refl) cs2 N2) as X.
    destruct (session T O result E fuel cs2 st1) as [st2 l2] eqn:S2. cbn [fst]. change st2 with (fst (st2, l2)). rewrite <- S2. apply X; [|exact OK].
    apply Forall_forall. intros c I'. destruct c; cbn [keeps]; auto. pose proof (proj1 (Forall_forall _ _) NO _ I') as Z. destruct Z.
  - rewrite A. f_equal. destruct Q as [[-> ->]|(Q1 & Q2 & _)]; [reflexivity|]. subst im'. rewrite (SO o' Q1). reflexivity.
Qed.
Print Assumptions C86_eval.

(** With C85: in such a session, if the code of the constant returns the
    representation of [c], every evaluation answers [c]. *)
Theorem C86_values : forall T O result E (cs1 cs2 : list (command T O)) s o ty t c,
  Forall named (cs1 ++ cs2) -> Forall no_eval cs1 -> Forall no_order cs2 ->
  (forall o', In (Eval s o') cs2 -> forall im t, result o' im t = result o im t) ->
  closed ty -> value E ty c -> relevant E c ->
  (forall im, readable E im -> exists h w lo hi hv, result o im t = Done (h, w) /\ shown E im c hv /\ hrepr h lo hi hv w) ->
  forall im, readable E im -> exists n, forall fuel, n <= fuel ->
  let st := fst (session T O result E fuel (cs1 ++ cs2) start) in
  look s (s_consts (cur st)) = Some (ty, t) -> s_orders (cur st) = im ->
  snd (step T O result E fuel (Eval s o) st) = Some (Done c).
Proof.
  intros T O result E cs1 cs2 s o ty t c N NE NO SO C V R HR im RD. destruct (HR im RD) as (h & w & lo & hi & hv & Q1 & Q2 & Q3).
  destruct (C85_reads_back E im true h lo hi ty c hv w RD C V R Q2 Q3) as [n X]. exists n. intros fuel F st L <-.
  etransitivity; [exact (C86_eval T O result E fuel cs1 cs2 s o ty t N NE NO SO L)|]. f_equal. fold st. unfold evaluated. rewrite Q1. cbn [andthen fst snd].
  rewrite (X fuel F). specialize (X fuel F). unfold reify_result in X. destruct (check_reifyable ty); cbn [andthen] in *; congruence.
Qed.
Print Assumptions C86_values.

(** *** Examples: booleans, with the code the compiler makes for them *)
Definition b_sig : genv := fun i => if LB_Model.ind_eqb i i_bool then Some d_bool else None.
Definition no_heap : Z -> option cval := fun _ => None.
(** constants are 0, 1: constructors of bool; the code returns twice the rank
    plus one (options are ignored) *)
Definition b_result (o : unit) (im : mapping) (k : nat) : answer ((Z -> option cval) * cval) :=
  let place := match entry i_bool im with Some tags => index0 k tags | None => Some k end in
  match place with Some j => Done (no_heap, VZ (2 * Z.of_nat j + 1)) | None => Exception end.
Definition b_session (cs : list (command nat unit)) := session nat unit b_result b_sig 5 cs start.

Lemma b_readable im : match entry i_bool im with Some tags => tags = [0; 1] \/ tags = [1; 0] | None => True end -> readable b_sig im.
Proof.
  intro H. assert (B : forall i d, b_sig i = Some d -> i = i_bool /\ d = d_bool).
  { intros i d. unfold b_sig. destruct (LB_Model.ind_eqb i i_bool) eqn:Q; [|discriminate]. intro X. injection X as <-. split; [|reflexivity].
    unfold LB_Model.ind_eqb in Q. apply andb_true_iff in Q as [Q1 Q2]. apply String.eqb_eq in Q1. apply Nat.eqb_eq in Q2. destruct i; cbn [fst snd] in *. subst. reflexivity. }
  constructor.
  - intros i d c j ty Ei I N. apply B in Ei as [-> ->]. cbn in I. destruct I as [<-|[<-|[]]]; destruct j; discriminate.
  - intros i d c Ei I A. apply B in Ei as [-> ->]. cbn in I. destruct I as [<-|[<-|[]]]; reflexivity.
  - intros i d tags Ei En. apply B in Ei as [-> ->]. rewrite En in H. split; [destruct H as [-> | ->]; reflexivity|].
    destruct H as [-> | ->]; intros [|[|[|j]]] k N; cbn in N; try discriminate; injection N as <-; reflexivity.
  - intros i d Ei. apply B in Ei as [-> ->]. cbn. lia.
Qed.
Lemma readable_bool im : readable b_sig im -> match entry i_bool im with Some tags => tags = [0; 1] \/ tags = [1; 0] | None => True end.
Proof.
  intro RD. pose proof (rd_order _ _ RD i_bool d_bool) as X. destruct (entry i_bool im) as [tags|]; [|exact I].
  destruct (X tags eq_refl eq_refl) as [L Y]. cbn in L. destruct tags as [|a [|b [|c l]]]; try discriminate.
  pose proof (Y 0 a eq_refl) as Y0. pose proof (Y 1 b eq_refl) as Y1.
  destruct a as [|[|a]]; cbn in Y0; [|injection Y0 as ->; right; reflexivity|destruct a; discriminate].
  destruct b as [|[|b]]; cbn in Y1; [discriminate|left; reflexivity|destruct b; discriminate].
Qed.
Lemma b_result_right k im : k < 2 -> readable b_sig im -> exists h w lo hi hv,
  b_result tt im k = Done (h, w) /\ shown b_sig im (cConstruct i_bool k) hv /\ hrepr h lo hi hv w.
Proof.
  intros K RD. pose proof (readable_bool im RD) as X. unfold b_result.
  assert (S0 : forall k k', k < 2 -> placed im i_bool k k' -> rank (arities_of im i_bool d_bool) k' = Z.of_nat k' ->
    shown b_sig im (cConstruct i_bool k) (HInt (2 * Z.of_nat k' + 1))).
  { intros k0 k' K0 PL R. rewrite <- R. apply (sh_const b_sig im i_bool d_bool k0 (mkctor [] []) [] k' eq_refl eq_refl); [|reflexivity|reflexivity|exact PL].
    destruct k0 as [|[|k0]]; [reflexivity|reflexivity|lia]. }
  unfold placed, arities_of in S0. destruct (entry i_bool im) as [tags|].
  - destruct X as [-> | ->]; destruct k as [|[|k]]; try lia; cbn [index0 Nat.eqb option_map]; exists no_heap; eexists; exists 0%Z, 0%Z; eexists; (split; [reflexivity|]); (split; [|apply HR_int]); apply S0; try lia; reflexivity.
  - destruct k as [|[|k]]; try lia; exists no_heap; eexists; exists 0%Z, 0%Z; eexists; (split; [reflexivity|]); (split; [|apply HR_int]); apply S0; try lia; reflexivity.
Qed.

(** true, evaluated twice, after going back and a second definition too *)
Definition x_cs1 : list (command nat unit) := [Order i_bool [1; 0]].
Definition x_cs2 : list (command nat unit) :=
  [Define "Top.b" t_bool 0; Eval "Top.b" tt; Eval "Top.b" tt; Back 2; Define "Top.b" t_bool 1; Eval "Top.b" tt; Eval_term "goal0" t_bool 0 tt].
Example C86_example :
  (Forall named (x_cs1 ++ x_cs2) /\ Forall no_eval x_cs1 /\ Forall no_order x_cs2 /\
   (forall o', In (Eval "Top.b"%string o') x_cs2 -> forall im t, b_result o' im t = b_result tt im t) /\
   (forall im, readable b_sig im -> exists h w lo hi hv, b_result tt im 1 = Done (h, w) /\ shown b_sig im (cConstruct i_bool 1) hv /\ hrepr h lo hi hv w) /\
   readable b_sig [(i_bool, [1; 0])]) /\
  let '(st, answers) := b_session (x_cs1 ++ x_cs2) in
  look "Top.b" (s_consts (cur st)) = Some (t_bool, 1) /\ s_orders (cur st) = [(i_bool, [1; 0])] /\
  answers = [None; None; Some (Done t_true); Some (Done t_true); None; None; Some (Done t_false); Some (Done t_true)] /\
  files st = ["goal0"; "Top.b0"; "Top.b"]%string.
Proof.
  split.
  - split; [repeat (constructor; [cbn [named]; first [exact I|cbn; tauto|cbn; intuition discriminate]|]); constructor|].
    split; [repeat constructor|]. split; [repeat constructor|]. split; [intros [] _ im t; reflexivity|].
    split; [intros im RD; apply b_result_right; [lia|exact RD]|]. apply b_readable. cbn. auto.
  - vm_compute. repeat split; reflexivity.
Qed.

(** *** Where sessions go wrong *)

(** An order registered between two evaluations: the code compiled before is kept
    and read with the new order.  [true] evaluates to [false]. *)
Theorem C86_new_order_refuted : exists (result : unit -> mapping -> nat -> answer ((Z -> option cval) * cval)) E k c,
  (forall im, readable E im -> exists h w lo hi hv, result tt im k = Done (h, w) /\ shown E im c hv /\ hrepr h lo hi hv w) /\
  exists cs ty c', Forall named cs /\ closed ty /\ value E ty c /\ relevant E c /\ c' <> c /\
  (forall m, m <= List.length cs -> readable E (s_orders (cur (fst (session nat unit result E 5 (firstn m cs) start))))) /\
  snd (session nat unit result E 5 cs start) = [None; Some (Done c); None; Some (Done c')] /\
  nth_error cs 0 = Some (Define "Top.b"%string ty k) /\ nth_error cs 1 = Some (Eval "Top.b"%string tt) /\ nth_error cs 3 = Some (Eval "Top.b"%string tt).
Proof.
  exists b_result, b_sig, 0, t_true. split; [intros im RD; apply b_result_right; [lia|exact RD]|].
  exists [Define "Top.b"%string t_bool 0; Eval "Top.b"%string tt; Order i_bool [1; 0]; Eval "Top.b"%string tt], t_bool, t_false.
  split; [repeat (constructor; [cbn; tauto|]); constructor|]. split; [exact I|].
  split; [exact (v_ctor b_sig i_bool d_bool 0 (mkctor [] []) [] [] [] eq_refl eq_refl eq_refl (vs_nil _ _))|].
  split; [exact (rl_ctor b_sig i_bool d_bool 0 [] [] eq_refl eq_refl eq_refl (Forall_nil _))|]. split; [discriminate|].
  split; [|split; [vm_compute; reflexivity|split; [reflexivity|split; reflexivity]]].
  intros m L. apply b_readable. destruct m as [|[|[|[|[|m]]]]]; vm_compute; auto.
Qed.
Print Assumptions C86_new_order_refuted.

(** A file name used for two terms: the second evaluates to the value of the
    first. *)
Theorem C86_same_file_refuted : exists (cs : list (command nat unit)) f ty c c',
  c' <> c /\ cs = [Eval_term f ty 0 tt; Eval_term f ty 1 tt] /\
  snd (b_session cs) = [Some (Done c); Some (Done c)] /\ snd (b_session [Eval_term f ty 1 tt]) = [Some (Done c')].
Proof.
  exists [Eval_term "f"%string t_bool 0 tt; Eval_term "f"%string t_bool 1 tt], "f"%string, t_bool, t_true, t_false.
  split; [discriminate|]. split; [reflexivity|]. split; vm_compute; reflexivity.
Qed.
Print Assumptions C86_same_file_refuted.

(** Options that replace a constant (Extract Constants): those of the second
    evaluation have no effect. *)
Definition o_result (o : option nat) (im : mapping) (k : nat) : answer ((Z -> option cval) * cval) :=
  b_result tt im (match o with Some k' => k' | None => k end).
Theorem C86_options_refuted : exists s ty k o1 o2 c c', c' <> c /\
  snd (session nat (option nat) o_result b_sig 5 [Define s ty k; Eval s o1; Eval s o2] start) = [None; Some (Done c); Some (Done c)] /\
  snd (session nat (option nat) o_result b_sig 5 [Define s ty k; Eval s o2] start) = [None; Some (Done c')].
Proof.
  exists "Top.b"%string, t_bool, 0, None, (Some 1), t_true, t_false. split; [discriminate|]. split; vm_compute; reflexivity.
Qed.
Print Assumptions C86_options_refuted.

(** A suffix for the file: the program is not in the file that is compiled.  In
    continuation-passing style the program is linked with the other run-time
    system. *)
Theorem C86_suffix_refuted : exists f ext, let b := build_named f ext false in ~ In (Program (b_symbol b ++ "_body")) (b_unit b).
Proof. exists "Top.f"%string, "_x"%string. cbn. intros [H|[]]. discriminate. Qed.
Theorem C86_cps_refuted : exists f, b_included (build_named f "" true) <> b_linked (build_named f "" true).
Proof. exists "Top.f"%string. discriminate. Qed.
Print Assumptions C86_suffix_refuted.
Print Assumptions C86_cps_refuted.
