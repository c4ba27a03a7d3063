(** * Proofs about names and sessions *)
From Coq Require Import ZArith List Lia Bool Arith Ascii String.
From Verif Require Import ANF_Syntax CG_Clight RF_Model RF_Spec SN_Model SN_Spec.
Import ListNotations.
Local Open Scope nat_scope.

(** ** Numbers at the end of a name *)

Lemma is_digit_spec c : is_digit c = true <-> digit c.
Proof. unfold is_digit, digit. rewrite andb_true_iff, !Nat.leb_le. lia. Qed.
Lemma not_digit c : ~ digit c -> is_digit c = false.
Proof. intro H. destruct (is_digit c) eqn:E; [|reflexivity]. apply is_digit_spec in E. contradiction. Qed.

Lemma list_of_string l : list_ascii_of_string (string_of_list_ascii l) = l.
Proof. apply list_ascii_of_string_of_list_ascii. Qed.

Lemma number_acc : forall d a, number a d = a * 10 ^ List.length d + number 0 d.
Proof.
  induction d as [|c d IH]; intro a; cbn [number List.length Nat.pow]; [lia|].
  rewrite IH, (IH (10 * 0 + digit_value c)). lia.
Qed.
Lemma number_app a b : number 0 (a ++ b) = number 0 a * 10 ^ List.length b + number 0 b.
Proof.
  assert (H : forall a n, number n (a ++ b) = number (number n a) b) by (induction a0 as [|c a0 IH]; intro n; cbn [number app]; auto).
  rewrite H. apply number_acc.
Qed.
Lemma number_zeros n : number 0 (repeat "0"%char n) = 0.
Proof. induction n as [|n IH]; [reflexivity|]. cbn [repeat number]. exact IH. Qed.
Lemma number_nines n : S (number 0 (repeat "9"%char n)) = 10 ^ n.
Proof.
  induction n as [|n IH]; [reflexivity|]. cbn [repeat number]. change (10 * 0 + digit_value "9") with 9.
  rewrite number_acc, repeat_length. cbn [Nat.pow]. lia.
Qed.
Lemma number_one c : number 0 [c] = digit_value c.
Proof. reflexivity. Qed.

Lemma fill_mid a n (x c : ascii) b : fill (a ++ repeat x n ++ b) (List.length a) n c = a ++ repeat c n ++ b.
Proof.
  unfold fill. rewrite firstn_app, firstn_all, Nat.sub_diag. cbn [firstn]. rewrite app_nil_r. f_equal. f_equal.
  rewrite app_assoc, skipn_app, app_length, repeat_length, Nat.sub_diag.
  rewrite skipn_all2 by (rewrite app_length, repeat_length; lia). reflexivity.
Qed.
Lemma set_mid a (x c : ascii) b : set_at (a ++ x :: b) (List.length a) c = a ++ c :: b.
Proof.
  unfold set_at. rewrite firstn_app, firstn_all, Nat.sub_diag. cbn [firstn]. rewrite app_nil_r. f_equal. cbn [app]. f_equal.
  change (x :: b) with ([x] ++ b). rewrite app_assoc, skipn_app, app_length. cbn [List.length].
  rewrite skipn_all2 by (rewrite app_length; cbn; lia). replace (S (List.length a) - (List.length a + 1)) with 0 by lia. reflexivity.
Qed.

(** the loop, from a position followed by nines only *)
Lemma add_at_eq id k : add_at id k =
  match nth_error id k with
  | None => Exception
  | Some c =>
      if is_digit c then
        if Ascii.eqb c "9" then match k with O => Exception | S p => add_at id p end
        else Done (set_at (fill id (k + 1) (List.length id - 1 - k) "0") k (ascii_of_nat (nat_of_ascii c + 1)))
      else if k <? List.length id - 1 then
          Done (set_at (fill (id ++ ["0"%char]) (k + 1) (List.length id - 1 - k) "0") (k + 1) "1")
        else Done (id ++ ["0"%char])
  end.
Proof. destruct k; reflexivity. Qed.

Lemma nth_mid {A} (a : list A) x b : nth_error (a ++ x :: b) (List.length a) = Some x.
Proof. rewrite nth_error_app2, Nat.sub_diag by lia. reflexivity. Qed.

Lemma add_digit a c n : digit c -> c <> "9"%char ->
  add_at (a ++ c :: repeat "9"%char n) (List.length a) = Done (a ++ ascii_of_nat (nat_of_ascii c + 1) :: repeat "0"%char n).
Proof.
  intros D N. rewrite add_at_eq, nth_mid, (proj2 (is_digit_spec c) D).
  destruct (Ascii.eqb_spec c "9") as [|_]; [contradiction|]. f_equal.
  replace (List.length (a ++ c :: repeat "9"%char n) - 1 - List.length a) with n by (rewrite app_length; cbn [List.length]; rewrite repeat_length; lia).
  replace (List.length a + 1) with (List.length (a ++ [c])) by (rewrite app_length; reflexivity).
  replace (a ++ c :: repeat "9"%char n) with ((a ++ [c]) ++ repeat "9"%char n ++ []) by (rewrite app_nil_r, <- app_assoc; reflexivity).
  rewrite fill_mid, app_nil_r, <- app_assoc. cbn [app]. apply set_mid.
Qed.

Lemma add_other a c n : ~ digit c ->
  add_at (a ++ c :: repeat "9"%char n) (List.length a) =
  Done (a ++ c :: match n with O => ["0"%char] | S _ => "1"%char :: repeat "0"%char n end).
Proof.
  intros D. rewrite add_at_eq, nth_mid, (not_digit c D).
  replace (List.length (a ++ c :: repeat "9"%char n) - 1) with (List.length a + n) by (rewrite app_length; cbn [List.length]; rewrite repeat_length; lia).
  destruct n as [|n].
  - rewrite (proj2 (Nat.ltb_ge _ _)) by lia. f_equal. rewrite <- app_assoc. reflexivity.
  - rewrite (proj2 (Nat.ltb_lt _ _)) by lia. f_equal.
    replace (List.length a + S n - List.length a) with (S n) by lia.
    replace (List.length a + 1) with (List.length (a ++ [c])) by (rewrite app_length; reflexivity).
    replace ((a ++ c :: repeat "9"%char (S n)) ++ ["0"%char]) with ((a ++ [c]) ++ repeat "9"%char (S n) ++ ["0"%char]) by (rewrite <- !app_assoc; reflexivity).
    rewrite fill_mid. cbn [repeat app]. rewrite set_mid, <- app_assoc. cbn [app]. do 3 f_equal. symmetry. apply repeat_cons.
Qed.

Lemma nines_snoc n : repeat "9"%char (S n) = repeat "9"%char n ++ ["9"%char].
Proof. apply repeat_cons. Qed.

Lemma add_nines n : forall a x b, add_at (a ++ x :: repeat "9"%char n ++ b) (List.length a + n) = add_at (a ++ x :: repeat "9"%char n ++ b) (List.length a).
Proof.
  induction n as [|n IH]; intros a x b; [f_equal; lia|].
  rewrite add_at_eq.
  assert (NE : nth_error (a ++ x :: repeat "9"%char (S n) ++ b) (List.length a + S n) = Some "9"%char).
  { rewrite nines_snoc, <- app_assoc. cbn [app]. replace (a ++ x :: repeat "9"%char n ++ "9"%char :: b) with ((a ++ x :: repeat "9"%char n) ++ "9"%char :: b) by (rewrite <- app_assoc; reflexivity).
    replace (List.length a + S n) with (List.length (a ++ x :: repeat "9"%char n)) by (rewrite app_length; cbn [List.length]; rewrite repeat_length; lia). apply nth_mid. }
  rewrite NE. change (is_digit "9") with true. cbn [Ascii.eqb Bool.eqb]. replace (List.length a + S n) with (S (List.length a + n)) by lia. cbv iota.
  rewrite nines_snoc, <- app_assoc. cbn [app]. apply IH.
Qed.

Lemma nines_end (d : list ascii) : (exists n, d = repeat "9"%char n) \/ exists a c n, d = a ++ c :: repeat "9"%char n /\ c <> "9"%char.
Proof.
  induction d as [|x d IH] using rev_ind; [left; exists 0; reflexivity|].
  destruct (Ascii.eqb_spec x "9") as [->|N].
  - destruct IH as [[n ->]|(a & c & n & -> & N)].
    + left. exists (S n). symmetry. apply nines_snoc.
    + right. exists a, c, (S n). split; [|exact N]. rewrite nines_snoc, <- app_assoc. reflexivity.
  - right. exists d, x, 0. auto.
Qed.

Lemma digit_succ c : digit c -> c <> "9"%char ->
  digit (ascii_of_nat (nat_of_ascii c + 1)) /\ digit_value (ascii_of_nat (nat_of_ascii c + 1)) = S (digit_value c).
Proof.
  intros D N. assert (L : nat_of_ascii c < 57).
  { unfold digit in D. destruct (Nat.eq_dec (nat_of_ascii c) 57) as [Q|Q]; [|lia]. exfalso. apply N. rewrite <- (ascii_nat_embedding c), Q. reflexivity. }
  unfold digit, digit_value in *. rewrite nat_ascii_embedding by lia. lia.
Qed.

Lemma forall_zeros n : Forall digit (repeat "0"%char n).
Proof. apply Forall_forall. intros x I. apply repeat_spec in I as ->. unfold digit. cbn. lia. Qed.

Lemma increment_of l : l <> [] -> increment_subscript (string_of_list_ascii l) =
  andthen (add_at l (List.length l - 1)) (fun l' => Done (string_of_list_ascii l')).
Proof. intro H. unfold increment_subscript. rewrite list_of_string. destruct l; [contradiction|reflexivity]. Qed.

Theorem increment_spec s p d : numbered s p d -> p <> [] \/ (d <> [] /\ exists c, In c d /\ c <> "9"%char) ->
  exists s' d', increment_subscript s = Done s' /\ numbered s' p d' /\ d' <> [] /\
    number 0 d' = match d with [] => 0 | _ => S (number 0 d) end /\
    List.length d' = if forallb (Ascii.eqb "9") d then S (List.length d) else List.length d.
Proof.
  intros (-> & D & P) H.
  destruct (nines_end d) as [[n ->]|(a & c & n & -> & N)].
  - destruct P as [->|(p' & c & -> & NC)].
    { destruct H as [H|(_ & c & I & N)]; [contradiction|]. apply repeat_spec in I. contradiction. }
    set (d' := match n with O => ["0"%char] | S _ => "1"%char :: repeat "0"%char n end).
    exists (string_of_list_ascii ((p' ++ [c]) ++ d')), d'. split; [|split; [|split; [|split]]].
    + rewrite increment_of by (destruct p'; discriminate).
      replace ((p' ++ [c]) ++ repeat "9"%char n) with (p' ++ c :: repeat "9"%char n) by (rewrite <- app_assoc; reflexivity).
      replace (List.length (p' ++ c :: repeat "9"%char n) - 1) with (List.length p' + n) by (rewrite app_length; cbn [List.length]; rewrite repeat_length; lia).
      pose proof (add_nines n p' c []) as A. rewrite app_nil_r in A. rewrite A, (add_other _ _ _ NC). cbn [andthen]. rewrite <- app_assoc. reflexivity.
    + split; [reflexivity|]. split; [|right; exists p', c; auto]. subst d'. destruct n; (constructor; [unfold digit; cbn; lia|]); [constructor|apply forall_zeros].
    + subst d'. destruct n; discriminate.
    + subst d'. destruct n as [|n]; [reflexivity|]. cbn [number]. rewrite number_acc, number_zeros, repeat_length.
      change (repeat "9"%char (S n)) with (repeat "9"%char (S n)) at 1. rewrite number_nines. change (digit_value "1") with 1. cbn. lia.
    + assert (F : forallb (Ascii.eqb "9") (repeat "9"%char n) = true) by (apply forallb_forall; intros x I; apply repeat_spec in I as ->; reflexivity).
      rewrite F, repeat_length. subst d'. destruct n; [reflexivity|]. cbn [List.length]. rewrite repeat_length. reflexivity.
  - apply Forall_app in D as [D1 D2]. inversion D2 as [|x l D3 D4]. subst x l.
    destruct (digit_succ c D3 N) as [S1 S2]. set (c' := ascii_of_nat (nat_of_ascii c + 1)) in *.
    exists (string_of_list_ascii (p ++ a ++ c' :: repeat "0"%char n)), (a ++ c' :: repeat "0"%char n). split; [|split; [|split; [|split]]].
    + rewrite increment_of by (destruct p, a; discriminate).
      replace (List.length (p ++ a ++ c :: repeat "9"%char n) - 1) with (List.length (p ++ a) + n) by (rewrite !app_length; cbn [List.length]; rewrite repeat_length; lia).
      rewrite app_assoc. pose proof (add_nines n (p ++ a) c []) as A. rewrite app_nil_r in A. rewrite A, (add_digit _ _ _ D3 N). cbn [andthen].
      fold c'. rewrite <- app_assoc. reflexivity.
    + split; [reflexivity|]. split; [|exact P]. apply Forall_app. split; [exact D1|]. constructor; [exact S1|apply forall_zeros].
    + destruct a; discriminate.
    + destruct (a ++ c :: repeat "9"%char n) as [|y l] eqn:Q; [destruct a; discriminate|]. rewrite <- Q. clear Q.
      rewrite !number_app. cbn [number List.length]. rewrite (number_acc (repeat "0"%char n)), (number_acc (repeat "9"%char n)), number_zeros, !repeat_length.
      pose proof (number_nines n). change (10 * 0 + digit_value c') with (digit_value c'). change (10 * 0 + digit_value c) with (digit_value c). rewrite S2. cbn [Nat.mul]. lia.
    + assert (F : forallb (Ascii.eqb "9") (a ++ c :: repeat "9"%char n) = false).
      { rewrite forallb_app. cbn [forallb]. destruct (Ascii.eqb_spec "9" c) as [Q|_]; [congruence|]. apply andb_false_r. }
      rewrite F, !app_length. cbn [List.length]. rewrite !repeat_length. reflexivity.
Qed.

(** ** Fresh names *)

Fixpoint digits_end (l : list ascii) : list ascii * list ascii :=
  match l with
  | [] => ([], [])
  | c :: l' => let '(p, d) := digits_end l' in
      match p with [] => if is_digit c then ([], c :: d) else ([c], d) | _ => (c :: p, d) end
  end.
Definition rank (s : string) : nat :=
  match snd (digits_end (list_ascii_of_string s)) with [] => 0 | d => S (number 0 d) end.

Lemma digits_end_app p c d : ~ digit c -> Forall digit d -> digits_end (p ++ c :: d) = (p ++ [c], d).
Proof.
  intros N D. assert (A : digits_end d = ([], d)).
  { induction D as [|x d X D IH]; [reflexivity|]. cbn [digits_end]. rewrite IH, (proj2 (is_digit_spec x) X). reflexivity. }
  induction p as [|x p IH]; cbn [app digits_end].
  - rewrite A, (not_digit c N). reflexivity.
  - rewrite IH. destruct p; reflexivity.
Qed.
Lemma rank_of s p d : numbered s p d -> p <> [] -> rank s = match d with [] => 0 | _ => S (number 0 d) end.
Proof.
  intros (-> & D & [->|(p' & c & -> & N)]) H; [contradiction|]. unfold rank. rewrite list_of_string, <- app_assoc. cbn [app].
  rewrite (digits_end_app _ _ _ N D). destruct d; reflexivity.
Qed.

Lemma mem_in s l : mem s l = true <-> In s l.
Proof.
  unfold mem. rewrite existsb_exists. split.
  - intros (x & I & Q). apply String.eqb_eq in Q. subst. exact I.
  - intro I. exists s. split; [exact I|apply String.eqb_refl].
Qed.
Lemma mem_out s l : mem s l = false <-> ~ In s l.
Proof. rewrite <- mem_in. destruct (mem s l); intuition congruence. Qed.

Lemma filter_le (f g : string -> bool) l : (forall x, g x = true -> f x = true) -> List.length (filter g l) <= List.length (filter f l).
Proof.
  intro H. induction l as [|x l IH]; [apply le_n|]. cbn [filter]. specialize (H x). destruct (g x); [rewrite (H eq_refl); cbn [List.length]; lia|].
  destruct (f x); cbn [List.length]; lia.
Qed.
Lemma filter_lt (f g : string -> bool) l x : (forall x, g x = true -> f x = true) -> In x l -> f x = true -> g x = false ->
  List.length (filter g l) < List.length (filter f l).
Proof.
  intros H I F G. induction l as [|y l IH]; [destruct I|]. cbn [filter]. destruct I as [->|I].
  - rewrite F, G. cbn [List.length]. pose proof (filter_le f g l H). lia.
  - specialize (IH I). pose proof (H y). destruct (g y); [rewrite (H0 eq_refl); cbn [List.length]; lia|]. destruct (f y); cbn [List.length]; lia.
Qed.

Lemma fresh_from used p : p <> [] -> forall fuel s d, numbered s p d ->
  List.length (filter (fun u => rank s <=? rank u) used) < fuel ->
  exists s' d', next_string_away_from fuel s (fun s => mem s used) = Done s' /\ ~ In s' used /\ numbered s' p d' /\
    (s' = s \/ d' <> [] /\ forall k, rank s <= k < rank s' -> exists u, In u used /\ rank u = k).
Proof.
  intro NP. induction fuel as [|fuel IH]; intros s d N L; [lia|]. cbn [next_string_away_from]. destruct (mem s used) eqn:M.
  - apply mem_in in M. destruct (increment_spec s p d N (or_introl NP)) as (s1 & d1 & E1 & N1 & D1 & V1 & _). rewrite E1. cbn [andthen].
    assert (R : rank s1 = S (rank s)).
    { rewrite (rank_of _ _ _ N1 NP), (rank_of _ _ _ N NP). destruct d1; [contradiction|]. rewrite V1. destruct d; reflexivity. }
    destruct (IH s1 d1 N1) as (s' & d' & A & B & C & D).
    { apply Nat.lt_le_trans with (List.length (filter (fun u => rank s <=? rank u) used)); [|lia].
      apply (filter_lt _ _ _ s); [|exact M|apply Nat.leb_refl|apply Nat.leb_gt; lia].
      intros x. rewrite !Nat.leb_le. lia. }
    exists s', d'. do 3 (split; [assumption|]). right. destruct D as [->|[D1' D2]].
    + assert (Q : d' = d1). { destruct N1 as (Q1 & Q2 & _), C as (C1 & C2 & _). rewrite C1 in Q1. apply (f_equal list_ascii_of_string) in Q1. rewrite !list_of_string in Q1. exact (app_inv_head _ _ _ Q1). }
      split; [congruence|]. intros k K. exists s. split; [exact M|lia].
    + split; [exact D1'|]. intros k K. destruct (Nat.eq_dec k (rank s)) as [->|]; [exists s; auto|]. apply D2. lia.
  - apply mem_out in M. exists s, d. split; [reflexivity|]. auto.
Qed.

Lemma fresh_ok s p d used : numbered s p d -> p <> [] ->
  exists s' d', find_fresh s used = Done s' /\ ~ In s' used /\ numbered s' p d' /\
    (s' = s \/ d' <> [] /\ forall k, rank s <= k < rank s' -> exists u, In u used /\ rank u = k).
Proof.
  intros N NP. unfold find_fresh. apply fresh_from with (d := d); auto.
  pose proof (filter_le (fun _ => true) (fun u => rank s <=? rank u) used (fun _ _ => eq_refl)).
  assert (forall l : list string, filter (fun _ => true) l = l) by (induction l; cbn; congruence). rewrite H0 in H. lia.
Qed.

Lemma fresh_sound s used s' : find_fresh s used = Done s' -> ~ In s' used.
Proof.
  unfold find_fresh. generalize (List.length used + 2). intro fuel. revert s. induction fuel as [|fuel IH]; intros s; cbn [next_string_away_from]; [discriminate|].
  destruct (mem s used) eqn:M; [destruct (increment_subscript s); cbn [andthen]; try discriminate; apply IH|].
  intro H. injection H as <-. apply mem_out. exact M.
Qed.

(** every name with a dot has a number at the end after something *)
Lemma split_number l : exists p d, numbered (string_of_list_ascii l) p d /\ p ++ d = l.
Proof.
  induction l as [|x l IH] using rev_ind; [exists [], []; split; [repeat split; auto|reflexivity]|].
  destruct (is_digit x) eqn:D.
  - apply is_digit_spec in D. destruct IH as (p & d & (_ & N2 & N3) & Q). exists p, (d ++ [x]). split; [|rewrite app_assoc, Q; reflexivity].
    split; [rewrite app_assoc, Q; reflexivity|]. split; [apply Forall_app; auto|exact N3].
  - exists (l ++ [x]), []. split; [|apply app_nil_r]. split; [rewrite app_nil_r; reflexivity|]. split; [constructor|]. right. exists l, x. split; [reflexivity|].
    intro H. apply is_digit_spec in H. congruence.
Qed.
Lemma dotted_number s : has_dot s -> exists p d, numbered s p d /\ p <> [].
Proof.
  unfold has_dot. intro H. destruct (split_number (list_ascii_of_string s)) as (p & d & N & Q). rewrite string_of_list_ascii_of_string in N.
  exists p, d. split; [exact N|]. intros ->. destruct N as (_ & D & _). cbn [app] in Q. rewrite <- Q in H.
  pose proof (proj1 (Forall_forall _ _) D _ H) as X. unfold digit in X. cbn in X. lia.
Qed.

(** ** Sessions *)

Section Session.
Variables (T O : Type) (result : O -> mapping -> T -> answer ((Z -> option cval) * cval)).
Variables (E : genv) (fuel : nat).
Local Notation step := (step T O result E fuel).
Local Notation session := (session T O result E fuel).
Local Notation eval := (eval T O result E fuel).

Lemma session_app a : forall b st, session (a ++ b) st = let '(st1, l1) := session a st in let '(st2, l2) := session b st1 in (st2, l1 ++ l2).
Proof.
  induction a as [|c a IH]; intros b st; cbn [app SN_Model.session]; [destruct (session b st); reflexivity|].
  destruct (step c st) as [st1 x]. rewrite IH. destruct (session a st1) as [st2 l1]. destruct (session b st2) as [st3 l2]. reflexivity.
Qed.

(** *** Files *)
Definition files_ok (st : state T) : Prop := NoDup (files st) /\ incl (files st) (used st).

Lemma eval_files st f ty t o : files_ok st -> files_ok (fst (eval st f ty t o)).
Proof.
  intros [N I]. unfold SN_Model.eval. destruct (look f (s_table (cur st))); [split; assumption|].
  unfold certirocq_eval. destruct (find_fresh f (used st)) as [fr| | | | |] eqn:F; try (split; assumption).
  destruct (check_reifyable ty); try (split; assumption). destruct (result o (s_orders (cur st)) t); try (split; assumption).
  apply fresh_sound in F. split; cbn [fst register_run files used].
  - constructor; [|exact N]. intro X. apply F. apply I. exact X.
  - intros y [<-|X]; [right; left; reflexivity|right; right; apply I; exact X].
Qed.
Lemma finish_files st r : files_ok (fst r) -> files_ok (fst (finish T st r)).
Proof. destruct r as [st' [x| | | | |]]; intro H; exact H. Qed.
Lemma step_files c st : files_ok st -> files_ok (fst (step c st)).
Proof.
  intro H. destruct c as [s ty t|i tags|s o|f ty t o|n]; cbn [SN_Model.step].
  - destruct (look s (s_consts (cur st))); exact H.
  - exact H.
  - destruct (look s (s_consts (cur st))) as [[ty t]|]; [|exact H]. apply finish_files, eval_files, H.
  - apply finish_files, eval_files, H.
  - destruct (nth_error (past st) n); exact H.
Qed.
Lemma session_files cs : forall st, files_ok st -> files_ok (fst (session cs st)).
Proof.
  induction cs as [|c cs IH]; intros st H; [exact H|]. cbn [SN_Model.session]. pose proof (step_files c st H) as S1. destruct (step c st) as [st1 a].
  specialize (IH st1 S1). destruct (session cs st1). exact IH.
Qed.

(** *** The table *)
(** [K im0 im]: orders [im0] of an earlier compilation are right under orders
    [im]; [P s o]: options of evaluations of [s] *)
Variables (K : mapping -> mapping -> Prop) (P : string -> O -> Prop).
Definition sum_ok (m : summary T) : Prop :=
  (forall s x, look s (s_consts m) = Some x -> has_dot s) /\
  forall s r, has_dot s -> look s (s_table m) = Some r ->
  exists ty t o im0, look s (s_consts m) = Some (ty, t) /\ result o im0 t = Done r /\ check_reifyable ty <> Unfinished /\ K im0 (s_orders m) /\ P s o.
Definition all_ok (st : state T) : Prop := sum_ok (cur st) /\ Forall sum_ok (past st).

Definition keeps (c : command T O) : Prop :=
  match c with
  | Order i tags => forall im0 im, K im0 im -> K im0 ((i, tags) :: im)
  | Eval s o => P s o
  | _ => True
  end.
Hypothesis K_refl : forall im, K im im.

Lemma look_cons {A} s s' (a : A) l : look s ((s', a) :: l) = if String.eqb s s' then Some a else look s l.
Proof. reflexivity. Qed.

Lemma eval_ok st f ty t o : all_ok st ->
  (has_dot f -> look f (s_consts (cur st)) = Some (ty, t) /\ P f o) -> sum_ok (cur (fst (eval st f ty t o))).
Proof.
  intros [H1 H2] HF. unfold SN_Model.eval. destruct (look f (s_table (cur st))); [exact H1|].
  unfold certirocq_eval. destruct (find_fresh f (used st)); try exact H1.
  destruct (check_reifyable ty) as [k| | | | |] eqn:CK; try exact H1. destruct (result o (s_orders (cur st)) t) as [r| | | | |] eqn:R; try exact H1.
  destruct H1 as [HA HB]. split; cbn [fst register_run cur s_consts s_table s_orders]; [exact HA|].
  intros s r' D L. rewrite look_cons in L. destruct (String.eqb_spec s f) as [->|NE]; [|exact (HB s r' D L)].
  injection L as <-. destruct (HF D) as [L1 L2]. exists ty, t, o, (s_orders (cur st)). repeat (split; [first [assumption|congruence]|]).
  split; [apply K_refl|exact L2].
Qed.
Lemma eval_past st f ty t o : past (fst (eval st f ty t o)) = past st.
Proof.
  unfold SN_Model.eval. destruct (look f (s_table (cur st))); [reflexivity|]. unfold certirocq_eval. destruct (find_fresh f (used st)); try reflexivity.
  destruct (check_reifyable ty); try reflexivity. destruct (result o (s_orders (cur st)) t); reflexivity.
Qed.
Lemma finish_ok st r : all_ok st -> sum_ok (cur (fst r)) -> all_ok (fst (finish T st r)).
Proof.
  intros [H1 H2] H. destruct r as [st' [x| | | | |]]; cbn [finish fst save] in *; (split; [assumption|]); cbn [past]; first [exact H2|constructor; [exact H1|exact H2]].
Qed.

Lemma step_ok c st : named c -> keeps c -> all_ok st -> all_ok (fst (step c st)).
Proof.
  intros N KP H. destruct c as [s ty t|i tags|s o|f ty t o|n]; cbn [SN_Model.step].
  - destruct (look s (s_consts (cur st))) eqn:L; [exact H|]. destruct H as [[HA HB] H2]. split; [|constructor; [split; assumption|exact H2]].
    split; cbn [fst save cur s_consts s_table s_orders].
    + intros s' x. rewrite look_cons. destruct (String.eqb_spec s' s) as [->|]; [intros _; exact N|apply HA].
    + intros s' r D LT. destruct (HB s' r D LT) as (ty' & t' & o & im0 & Q1 & Q). exists ty', t', o, im0. split; [|exact Q].
      rewrite look_cons. destruct (String.eqb_spec s' s) as [->|]; [congruence|exact Q1].
  - destruct H as [[HA HB] H2]. split; [|constructor; [split; assumption|exact H2]]. split; cbn [fst save cur s_consts s_table s_orders]; [exact HA|].
    intros s r D LT. destruct (HB s r D LT) as (ty & t & o & im0 & Q1 & Q2 & Q3 & Q4 & Q5). exists ty, t, o, im0. auto 10.
  - destruct (look s (s_consts (cur st))) as [[ty t]|] eqn:L; [|exact H]. apply finish_ok; [exact H|]. apply eval_ok; [exact H|]. intros _. auto.
  - apply finish_ok; [exact H|]. apply eval_ok; [exact H|]. intro D. destruct (N D).
  - destruct (nth_error (past st) n) as [m|] eqn:Q; [|exact H]. destruct H as [H1 H2]. split; cbn [fst cur past].
    + exact (proj1 (Forall_forall _ _) H2 m (nth_error_In _ _ Q)).
    + apply Forall_forall. intros x I. apply (proj1 (Forall_forall _ _) H2). rewrite <- (firstn_skipn (Datatypes.S n)). apply in_or_app. right. exact I.
Qed.
Lemma session_ok cs : Forall named cs -> Forall keeps cs -> forall st, all_ok st -> all_ok (fst (session cs st)).
Proof.
  intros N KP. induction cs as [|c cs IH]; intros st H; [exact H|]. inversion N. inversion KP. subst. cbn [SN_Model.session].
  pose proof (step_ok c st H2 H6 H) as S1. destruct (step c st) as [st1 a]. specialize (IH H3 H7 st1 S1). destruct (session cs st1). exact IH.
Qed.

(** what an evaluation answers *)
Lemma eval_answer st s o ty t : all_ok st -> look s (s_consts (cur st)) = Some (ty, t) ->
  exists o0 im0, (o0 = o /\ im0 = s_orders (cur st) \/ P s o0 /\ K im0 (s_orders (cur st)) /\ exists r, result o0 im0 t = Done r) /\
  snd (step (Eval s o) st) = Some (evaluated E fuel (s_orders (cur st)) ty (result o0 im0 t)).
Proof.
  intros [[HA HB] _] L. cbn [SN_Model.step]. rewrite L. unfold SN_Model.eval. pose proof (HA _ _ L) as D.
  destruct (look s (s_table (cur st))) as [r|] eqn:LT.
  - destruct (HB s r D LT) as (ty' & t' & o0 & im0 & Q1 & Q2 & Q3 & Q4 & Q5). rewrite L in Q1. injection Q1 as <- <-.
    exists o0, im0. split; [right; split; [exact Q5|split; [exact Q4|exists r; exact Q2]]|]. cbn [finish snd]. f_equal. unfold evaluated, reify_run. rewrite Q2. cbn [andthen].
    unfold reify_result. destruct (check_reifyable ty); reflexivity.
  - exists o, (s_orders (cur st)). split; [left; auto|]. unfold certirocq_eval.
    destruct (dotted_number s D) as (p & d & N & NP). destruct (fresh_ok s p d (used st) N NP) as (s' & d' & F & _). rewrite F. unfold evaluated.
    destruct (check_reifyable ty) eqn:CK; cbn [andthen]; try reflexivity.
    destruct (result o (s_orders (cur st)) t); reflexivity.
Qed.
End Session.

(** before anything is compiled the table is empty *)
Definition idle {T} (st : state T) : Prop :=
  s_table (cur st) = [] /\ (forall s x, look s (s_consts (cur st)) = Some x -> has_dot s) /\
  Forall (fun m => s_table m = [] /\ forall s x, look s (s_consts m) = Some x -> has_dot s) (past st).
Lemma step_idle {T O} result E fuel (c : command T O) st : named c -> no_eval c -> idle st -> idle (fst (step T O result E fuel c st)).
Proof.
  intros N NE (H1 & H2 & H3). destruct c as [s ty t|i tags|s o|f ty t o|n]; cbn [step]; try contradiction.
  - destruct (look s (s_consts (cur st))); [repeat split; assumption|]. split; [exact H1|]. split; [|constructor; auto].
    cbn [fst save cur s_consts]. intros s' x. cbn [look]. destruct (String.eqb_spec s' s) as [->|]; [intros _; exact N|apply H2].
  - split; [exact H1|]. split; [exact H2|constructor; auto].
  - destruct (nth_error (past st) n) as [m|] eqn:Q; [|repeat split; assumption]. pose proof (proj1 (Forall_forall _ _) H3 m (nth_error_In _ _ Q)) as [M1 M2].
    split; [exact M1|]. split; [exact M2|]. cbn [fst past]. apply Forall_forall. intros x I. apply (proj1 (Forall_forall _ _) H3).
    rewrite <- (firstn_skipn (Datatypes.S n)). apply in_or_app. right. exact I.
Qed.
Lemma session_idle {T O} result E fuel (cs : list (command T O)) : Forall named cs -> Forall no_eval cs ->
  forall st, idle st -> idle (fst (session T O result E fuel cs st)).
Proof.
  intros N NE. induction cs as [|c cs IH]; intros st H; [exact H|]. inversion N. inversion NE. subst. cbn [session].
  pose proof (step_idle result E fuel c st H2 H6 H) as S1. destruct (step T O result E fuel c st) as [st1 a]. specialize (IH H3 H7 st1 S1).
  destruct (session T O result E fuel cs st1). exact IH.
Qed.
Lemma idle_ok {T O} result K P (st : state T) : idle st -> @all_ok T O result K P st.
Proof.
  intros (H1 & H2 & H3). split.
  - split; [exact H2|]. intros s r _ L. rewrite H1 in L. discriminate.
  - apply Forall_forall. intros m I. pose proof (proj1 (Forall_forall _ _) H3 m I) as [M1 M2]. split; [exact M2|]. intros s r _ L. rewrite M1 in L. discriminate.
Qed.
