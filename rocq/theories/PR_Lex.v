(** * Lexing printed text: tokens separated by white space or by longest match *)
From Coq Require Import ZArith NArith List String Ascii Bool Lia.
From Coq Require Import DecimalString DecimalN DecimalFacts.
From Coq.Floats Require Import SpecFloat.
From Verif Require Import PR_Model PR_Spec.
Import ListNotations.
Local Open Scope string_scope.

Lemma sapp_assoc : forall a b c : string, (a ++ b) ++ c = a ++ (b ++ c).
Proof. induction a; intros; cbn; [reflexivity|now rewrite IHa]. Qed.

Lemma sapp_nil : forall a : string, a ++ "" = a.
Proof. induction a; cbn; [reflexivity|now rewrite IHa]. Qed.

(** ** Pieces of text *)

(** a token, white space, or a comment *)
Inductive piece : Set := W (t : token) | G (s : string) | K (s : string).

Definition spell (t : token) : string :=
  match t with TId s | TNum s | TOp s => s | TBad c => String c "" end.

Fixpoint render (ps : list piece) : string :=
  match ps with
  | [] => ""
  | W t :: ps => spell t ++ render ps
  | G s :: ps => s ++ render ps
  | K s :: ps => "/*" ++ s ++ "*/" ++ render ps
  end.

Fixpoint toks (ps : list piece) : list token :=
  match ps with [] => [] | W t :: ps => t :: toks ps | _ :: ps => toks ps end.

Lemma render_app : forall a b, render (a ++ b) = render a ++ render b.
Proof.
  induction a as [|[t|s|] a IH]; intros; cbn [render List.app]; [reflexivity| | |];
    rewrite IH, !sapp_assoc; reflexivity.
Qed.

Lemma toks_app : forall a b, toks (a ++ b) = (toks a ++ toks b)%list.
Proof.
  induction a as [|[t|s|] a IH]; intros; cbn [toks List.app]; [reflexivity| | |]; now rewrite IH.
Qed.

(** ** Well-formed tokens and neighbours *)

Definition num_char (c : ascii) : bool := id_char c || (c =? ".")%char.

(** the rest of a number after [prev] *)
Fixpoint num_tail (prev : ascii) (s : string) : bool :=
  match s with
  | EmptyString => true
  | String c s =>
      (num_char c || (is_exp_letter prev && ((c =? "+")%char || (c =? "-")%char))) && num_tail c s
  end.

Definition wf_tok (t : token) : bool :=
  match t with
  | TId (String c s) => id_start c && all_chars id_char s
  | TNum (String c s) => is_digit c && num_tail c s
  | TOp s => mem s ["["; "]"; "("; ")"; "{"; "}"; "."; "&"; "*"; "+"; "-"; "~"; "!";
      "/"; "%"; "<<"; ">>"; "<"; ">"; "<="; ">="; "=="; "!="; "^"; "|"; ":"; ";"; "..."; "="; ","]
  | _ => false
  end.

(** the character [c] ends the token [p] *)
Definition breaks (p : token) (c : ascii) : bool :=
  match p with
  | TId _ => negb (id_char c)
  | TNum s => negb (num_char c
                    || (is_exp_letter (last_char s) && ((c =? "+")%char || (c =? "-")%char)))
  | TOp s => negb (mem (snoc s c) puncts) && negb (String.eqb s "." && is_digit c)
             && negb (String.eqb s "/" && ((c =? "*")%char || (c =? "/")%char))
  | TBad _ => false
  end.

Definition first_char (s : string) : ascii := match s with String c _ => c | _ => " "%char end.

Definition fits (p t : token) : bool := breaks p (first_char (spell t)).

Definition white (s : string) : bool := negb (String.eqb s "") && all_chars is_space s.

(** no star inside a comment *)
Definition quiet (s : string) : bool := all_chars (fun c => negb (c =? "*")%char && negb (c =? "#")%char) s.

Fixpoint okp (prev : option token) (ps : list piece) : bool :=
  match ps with
  | [] => true
  | W t :: ps => wf_tok t && match prev with Some p => fits p t | None => true end && okp (Some t) ps
  | G s :: ps => white s && okp None ps
  | K s :: ps => match prev with None => quiet s && okp None ps | Some _ => false end
  end.

Fixpoint lastp (prev : option token) (ps : list piece) : option token :=
  match ps with
  | [] => prev
  | W t :: ps => lastp (Some t) ps
  | _ :: ps => lastp None ps
  end.

Lemma okp_app : forall a prev b, okp prev (a ++ b) = okp prev a && okp (lastp prev a) b.
Proof.
  induction a as [|[t|s|] a IH]; intros; cbn [okp lastp List.app]; [reflexivity| | |].
  - rewrite IH, !andb_assoc. reflexivity.
  - rewrite IH, !andb_assoc. reflexivity.
  - destruct prev; [reflexivity|rewrite IH; apply andb_assoc].
Qed.

Lemma lastp_app : forall a prev b, lastp prev (a ++ b) = lastp (lastp prev a) b.
Proof. induction a as [|[t|s|] a IH]; intros; cbn [lastp List.app]; auto. Qed.

(** ** Scanning *)

Definition st_of (t : token) : lstate :=
  match t with TId s => LId s | TNum s => LNum s | TOp s => LOp s | TBad _ => LStart end.

Definition st_prev (p : option token) : lstate := match p with Some t => st_of t | None => LStart end.

Lemma scan_app : forall a st b,
  scan st (a ++ b) = (let '(o1, st1) := scan st a in let '(o2, st2) := scan st1 b in
                      ((o1 ++ o2)%list, st2)).
Proof.
  induction a as [|c a IH]; intros; cbn [scan String.append].
  - destruct (scan st b); reflexivity.
  - destruct (step st c) as [o st1]. rewrite IH.
    destruct (scan st1 a) as [o1 st2]. destruct (scan st2 b) as [o2 st3].
    now rewrite app_assoc.
Qed.

Lemma snoc_app : forall a c b, snoc a c ++ b = a ++ String c b.
Proof. intros; unfold snoc. now rewrite sapp_assoc. Qed.

Lemma last_snoc : forall s c, last_char (snoc s c) = c.
Proof.
  induction s as [|d s IH]; intros c; [reflexivity|].
  change (snoc (String d s) c) with (String d (snoc s c)). cbn [last_char].
  destruct (snoc s c) eqn:E; [destruct s; discriminate|]. rewrite <- E. apply IH.
Qed.

Lemma scan_id : forall s a, all_chars id_char s = true -> scan (LId a) s = ([], LId (a ++ s)).
Proof.
  induction s as [|c s IH]; intros a H; cbn [scan].
  - now rewrite sapp_nil.
  - cbn [all_chars] in H. apply andb_true_iff in H. destruct H as [H1 H2].
    cbn [step]. rewrite H1. rewrite IH by assumption. now rewrite snoc_app.
Qed.

Lemma scan_num : forall s a, num_tail (last_char a) s = true -> scan (LNum a) s = ([], LNum (a ++ s)).
Proof.
  induction s as [|c s IH]; intros a H; cbn [scan].
  - now rewrite sapp_nil.
  - cbn [num_tail] in H. apply andb_true_iff in H. destruct H as [H1 H2].
    cbn [step]. unfold num_char in H1. rewrite H1.
    rewrite IH by (now rewrite last_snoc). now rewrite snoc_app.
Qed.

Lemma mem_in : forall s l, mem s l = true <-> In s l.
Proof.
  intros s l. unfold mem. rewrite existsb_exists. split.
  - intros (x & H & E). apply String.eqb_eq in E. now subst.
  - intros H. exists s. split; [assumption|apply String.eqb_refl].
Qed.

Lemma between_le : forall lo hi c, between lo hi c = true ->
  (nat_of_ascii lo <= nat_of_ascii c <= nat_of_ascii hi)%nat.
Proof.
  intros lo hi c H. unfold between in H. apply andb_true_iff in H. destruct H as [A B].
  apply Nat.leb_le in A. apply Nat.leb_le in B. split; assumption.
Qed.

Lemma digit_not_start : forall c, is_digit c = true -> id_start c = false.
Proof.
  intros c H. destruct c as [b0 b1 b2 b3 b4 b5 b6 b7].
  destruct b0, b1, b2, b3, b4, b5, b6, b7; vm_compute in H; try discriminate H; vm_compute; reflexivity.
Qed.

Lemma scan_tok : forall t, wf_tok t = true -> scan LStart (spell t) = ([], st_of t).
Proof.
  intros t H. destruct t as [s|s|s|c]; cbn [wf_tok] in H; try discriminate.
  - destruct s as [|c s]; [discriminate|]. apply andb_true_iff in H. destruct H as [H1 H2].
    cbn [spell scan step st_of]. unfold start. rewrite H1.
    rewrite scan_id by assumption. reflexivity.
  - destruct s as [|c s]; [discriminate|]. apply andb_true_iff in H. destruct H as [H1 H2].
    cbn [spell scan step st_of]. unfold start. rewrite (digit_not_start _ H1), H1.
    rewrite scan_num by assumption. reflexivity.
  - apply mem_in in H. cbn [In] in H.
    repeat (destruct H as [H|H]; [subst s; vm_compute; reflexivity|]). destruct H.
Qed.

Lemma wf_nonempty : forall t, wf_tok t = true -> exists c s, spell t = String c s.
Proof.
  intros t H. destruct t as [s|s|s|c]; cbn [wf_tok spell] in *; try discriminate;
    try (destruct s as [|c s]; [discriminate|eauto]).
Qed.

Lemma breaks_step : forall p c, breaks p c = true -> step (st_of p) c = emit p (start c).
Proof.
  intros p c H. destruct p as [s|s|s|d]; cbn [breaks st_of step] in *; try discriminate.
  - apply negb_true_iff in H. now rewrite H.
  - apply negb_true_iff in H. unfold num_char in H. now rewrite H.
  - apply andb_true_iff in H. destruct H as [H H3]. apply andb_true_iff in H. destruct H as [H1 H2].
    apply negb_true_iff in H1, H2, H3. rewrite H1, H2.
    destruct (String.eqb s "/"); [|reflexivity]. cbn [andb] in *.
    apply orb_false_iff in H3. destruct H3 as [A B]. now rewrite A, B.
Qed.

Lemma scan_breaks : forall p c s, breaks p c = true ->
  scan (st_of p) (String c s) = emit p (scan LStart (String c s)).
Proof.
  intros p c s H. cbn [scan]. rewrite (breaks_step _ _ H). cbn [step].
  unfold emit. destruct (start c) as [o st]. cbn [fst snd].
  destruct (scan st s) as [o2 st2]. reflexivity.
Qed.

Lemma space_facts : forall c, is_space c = true ->
  start c = ([], LStart) /\ id_char c = false /\ (c =? ".")%char = false /\
  (c =? "+")%char = false /\ (c =? "-")%char = false /\ is_digit c = false /\
  (c =? "*")%char = false /\ (c =? "/")%char = false.
Proof.
  intros c H. unfold is_space in H. rewrite !orb_true_iff in H.
  destruct H as [[[H|H]|H]|H]; apply Ascii.eqb_eq in H; subst c; vm_compute; intuition reflexivity.
Qed.

Lemma scan_white : forall s, all_chars is_space s = true -> scan LStart s = ([], LStart).
Proof.
  induction s as [|c s IH]; intros H; cbn [scan]; [reflexivity|].
  cbn [all_chars] in H. apply andb_true_iff in H. destruct H as [H1 H2].
  cbn [step]. destruct (space_facts _ H1) as [E _]. rewrite E. rewrite IH by assumption. reflexivity.
Qed.

Lemma punct_no_space : forall s c, is_space c = true -> mem (snoc s c) puncts = false.
Proof.
  intros s c H. destruct (mem (snoc s c) puncts) eqn:E; [|reflexivity]. exfalso.
  apply mem_in in E.
  assert (L : last_char (snoc s c) = c) by apply last_snoc.
  remember (snoc s c) as w eqn:Hw. clear Hw.
  unfold puncts in E. cbn [In] in E.
  repeat (destruct E as [E|E]; [subst w; cbn in L; subst c; vm_compute in H; discriminate|]).
  destruct E.
Qed.

Lemma space_breaks : forall p c, is_space c = true -> (forall d, p <> TBad d) -> breaks p c = true.
Proof.
  intros p c H N. destruct (space_facts _ H) as (_ & A & B & C & D & E & F & G0).
  destruct p as [s|s|s|d]; cbn [breaks].
  - now rewrite A.
  - unfold num_char. rewrite A, B, C, D. now rewrite andb_false_r.
  - rewrite punct_no_space by assumption. rewrite E, F, G0. now rewrite !andb_false_r.
  - destruct (N d eq_refl).
Qed.

Lemma wf_not_bad : forall t, wf_tok t = true -> forall d, t <> TBad d.
Proof. intros t H d ->. discriminate. Qed.

Definition wfp (p : option token) : bool := match p with Some t => wf_tok t | None => true end.

Definition tail (r : list token * lstate) : list token := (fst r ++ flush (snd r))%list.
Definition prev_toks (p : option token) : list token := match p with Some t => [t] | None => [] end.

Lemma tail_emit : forall p r, tail (emit p r) = p :: tail r.
Proof. reflexivity. Qed.

Lemma scan_prev : forall p c s,
  match p with Some t => breaks t c = true | None => True end ->
  tail (scan (st_prev p) (String c s)) = (prev_toks p ++ tail (scan LStart (String c s)))%list.
Proof.
  intros [t|] c s H; [|reflexivity]. cbn [st_prev prev_toks List.app].
  rewrite scan_breaks by assumption. apply tail_emit.
Qed.

Lemma scan_silent : forall a st b, scan LStart a = ([], st) ->
  tail (scan LStart (a ++ b)) = tail (scan st b).
Proof.
  intros a st b H. rewrite scan_app, H. destruct (scan st b). reflexivity.
Qed.

Lemma scan_comment : forall s, quiet s = true -> scan LStart ("/*" ++ s ++ "*/") = ([], LStart).
Proof.
  intros s Q. change ("/*" ++ s ++ "*/") with (String "/" (String "*" (s ++ "*/"))).
  assert (X : scan LComment (s ++ "*/") = ([], LStart)).
  { revert Q. unfold quiet. induction s as [|c s IH]; intros Q; [reflexivity|].
    cbn [all_chars] in Q. apply andb_true_iff in Q. destruct Q as [Q1 Q2]. apply andb_true_iff in Q1.
    destruct Q1 as [Q1 _]. apply negb_true_iff in Q1. cbn [String.append scan step]. rewrite Q1, (IH Q2). reflexivity. }
  revert X. generalize (s ++ "*/"). intros t X.
  change (scan LStart (String "/" (String "*" t)))
    with (let '(o2, st2) := let '(o2, st2) := scan LComment t in (o2, st2) in (o2, st2)).
  rewrite X. reflexivity.
Qed.

Lemma lex_pieces_gen : forall ps prev, wfp prev = true -> okp prev ps = true ->
  tail (scan (st_prev prev) (render ps)) = (prev_toks prev ++ toks ps)%list.
Proof.
  induction ps as [|[t|s|s] ps IH]; intros prev Hw H; cbn [render toks okp] in *.
  - cbn [scan]. unfold tail. cbn [fst snd List.app]. rewrite List.app_nil_r.
    destruct prev as [[s|s|s|c]|]; reflexivity || discriminate.
  - apply andb_true_iff in H. destruct H as [H H2]. apply andb_true_iff in H. destruct H as [H0 H1].
    destruct (wf_nonempty _ H0) as (c & s & E).
    pose proof (scan_tok _ H0) as ST.
    assert (F : match prev with Some p => breaks p c = true | None => True end).
    { destruct prev as [p|]; [|exact I]. unfold fits in H1. rewrite E in H1. exact H1. }
    rewrite E at 1. cbn [String.append]. rewrite scan_prev by assumption.
    change (String c (s ++ render ps)) with (String c s ++ render ps). rewrite <- E.
    rewrite (scan_silent _ _ _ ST).
    change (st_of t) with (st_prev (Some t)). rewrite (IH (Some t) H0 H2). reflexivity.
  - apply andb_true_iff in H. destruct H as [H0 H1].
    unfold white in H0. apply andb_true_iff in H0. destruct H0 as [N A].
    destruct s as [|c s]; [discriminate|].
    cbn [String.append]. rewrite scan_prev.
    + change (String c (s ++ render ps)) with (String c s ++ render ps).
      rewrite (scan_silent _ LStart _ (scan_white _ A)).
      pose proof (IH None eq_refl H1) as J. cbn [st_prev prev_toks List.app] in J. now rewrite J.
    + destruct prev as [p|]; [|exact I]. cbn [all_chars] in A. apply andb_true_iff in A.
      apply space_breaks; [apply A|]. apply wf_not_bad. exact Hw.
  - destruct prev; [discriminate|]. cbn [st_prev prev_toks List.app].
    apply andb_true_iff in H. destruct H as [Q H].
    replace ("/*" ++ s ++ "*/" ++ render ps) with (("/*" ++ s ++ "*/") ++ render ps)
      by (rewrite !sapp_assoc; reflexivity).
    rewrite (scan_silent _ LStart) by (now apply scan_comment).
    apply (IH None eq_refl H).
Qed.

Theorem lex_pieces : forall ps, okp None ps = true -> lex (render ps) = toks ps.
Proof.
  intros ps H. pose proof (lex_pieces_gen ps None eq_refl H) as L. cbn [st_prev prev_toks List.app] in L.
  unfold lex. unfold tail in L. destruct (scan LStart (render ps)). exact L.
Qed.

(** ** Numbers *)

Lemma dec_digits : forall u, all_chars is_digit (NilEmpty.string_of_uint u) = true.
Proof. induction u; cbn [NilEmpty.string_of_uint all_chars]; try reflexivity; rewrite IHu; reflexivity. Qed.

Lemma dec_all : forall n, all_chars is_digit (dec n) = true.
Proof. intros; apply dec_digits. Qed.

Lemma read_dec : forall n, read_nat (dec n) = Some n.
Proof.
  intros n. unfold read_nat, dec. rewrite NilEmpty.usu. now rewrite Unsigned.of_to.
Qed.

Lemma dec_nonempty : forall n, dec n <> "".
Proof.
  intros n H. pose proof (read_dec n) as R. rewrite H in R.
  unfold read_nat in R. cbn in R. assert (E : n = 0%N) by congruence. subst n. discriminate H.
Qed.

Lemma split_app : forall a b, all_chars is_digit a = true ->
  match b with String c _ => is_digit c = false | EmptyString => True end ->
  split_digits (a ++ b) = (a, b).
Proof.
  induction a as [|c a IH]; intros b H Hb; cbn [String.append].
  - destruct b as [|c b]; cbn [split_digits]; [reflexivity|now rewrite Hb].
  - cbn [all_chars] in H. apply andb_true_iff in H. destruct H as [H1 H2].
    cbn [split_digits]. rewrite H1. now rewrite IH.
Qed.

Lemma literal_dec : forall n suf, mem suf [""; "U"; "LL"; "LLU"] = true ->
  literal (dec n ++ suf) = Some (CLit n suf).
Proof.
  intros n suf H. unfold literal.
  rewrite split_app; [|apply dec_all|].
  - pose proof (dec_nonempty n) as N. destruct (dec n) eqn:E; [congruence|]. rewrite H, <- E.
    now rewrite read_dec.
  - apply mem_in in H. cbn [In] in H.
    repeat (destruct H as [H|H]; [subst suf; vm_compute; exact I || reflexivity|]). destruct H.
Qed.

Lemma read_int_dec : forall n, read_int (dec n) = Some (Z.of_N n).
Proof.
  intros n. unfold read_int. rewrite <- (sapp_nil (dec n)) at 1.
  rewrite split_app; [|apply dec_all|exact I].
  pose proof (dec_nonempty n) as N. destruct (dec n) eqn:E; [congruence|]. rewrite <- E.
  now rewrite read_dec.
Qed.

Lemma digit_num : forall c, is_digit c = true -> num_char c = true.
Proof. intros c H. unfold num_char, id_char. rewrite H. now rewrite orb_true_r. Qed.

Lemma num_tail_chars : forall s p, all_chars num_char s = true -> num_tail p s = true.
Proof.
  induction s as [|c s IH]; intros p H; [reflexivity|]. cbn [all_chars num_tail] in *.
  apply andb_true_iff in H. destruct H as [H1 H2]. rewrite H1. cbn [orb andb]. now apply IH.
Qed.

Lemma all_app : forall f a b, all_chars f (a ++ b) = all_chars f a && all_chars f b.
Proof. induction a; intros; cbn [String.append all_chars]; [reflexivity|now rewrite IHa, andb_assoc]. Qed.

Lemma all_impl : forall (f g : ascii -> bool) s, (forall c, f c = true -> g c = true) ->
  all_chars f s = true -> all_chars g s = true.
Proof.
  induction s as [|c s IH]; intros H A; [reflexivity|]. cbn [all_chars] in *.
  apply andb_true_iff in A. destruct A as [A B]. rewrite (H _ A). now apply IH.
Qed.

Lemma wf_num : forall n suf, all_chars num_char suf = true -> wf_tok (TNum (dec n ++ suf)) = true.
Proof.
  intros n suf H. pose proof (dec_all n) as D. pose proof (dec_nonempty n) as N.
  destruct (dec n) as [|c s] eqn:E; [congruence|]. cbn [String.append wf_tok].
  cbn [all_chars] in D. apply andb_true_iff in D. destruct D as [D1 D2]. rewrite D1. cbn [andb].
  apply num_tail_chars. rewrite all_app, H, andb_true_r.
  revert D2. apply all_impl. apply digit_num.
Qed.

(** ** Words *)

Lemma ident_wf : forall s, ident s = true -> wf_tok (TId s) = true.
Proof.
  intros s H. unfold ident in H. destruct s as [|c s]; [discriminate|].
  apply andb_true_iff in H. destruct H as [H _]. apply andb_true_iff in H. destruct H as [H1 H2].
  cbn [all_chars] in H2. apply andb_true_iff in H2. cbn [wf_tok]. rewrite H1. apply H2.
Qed.

Lemma ident_kw : forall s, ident s = true -> keyword s = false.
Proof.
  intros s H. unfold ident in H. destruct s as [|c s]; [discriminate|].
  apply andb_true_iff in H. now apply negb_true_iff.
Qed.

Lemma kw_ne : forall s w, keyword s = false -> keyword w = true -> String.eqb w s = false.
Proof.
  intros s w H K0. destruct (String.eqb w s) eqn:E; [|reflexivity].
  apply String.eqb_eq in E. subst. congruence.
Qed.

Lemma eat_same : forall t r, (forall d, t <> TBad d) -> eat t (t :: r) = Some r.
Proof.
  intros [s|s|s|d] r H; cbn [eat teq]; try now rewrite String.eqb_refl. destruct (H d eq_refl).
Qed.

Lemma eat_kw : forall w s r, keyword s = false -> keyword w = true -> eat (TId w) (TId s :: r) = None.
Proof. intros w s r H K0. cbn [eat teq]. now rewrite kw_ne. Qed.
