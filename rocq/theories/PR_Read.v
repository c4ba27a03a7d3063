(** * Reading expressions back *)
From Coq Require Import ZArith NArith List String Ascii Bool Lia.
From Coq.Floats Require Import SpecFloat.
From Verif Require Import PR_Model PR_Spec PR_Lex PR_Num PR_Types PR_Decl PR_Exprs.
Import ListNotations.
Local Open Scope string_scope.
Local Open Scope list_scope.

Definition tks (p : nat) (e : expr) (l : list token) : list token :=
  if Nat.ltb (prec e) p then TOp "(" :: l ++ [TOp ")"] else l.

Lemma toks_par : forall p e ps, toks (par p e ps) = tks p e (toks ps).
Proof.
  intros. unfold par, tks. destruct (Nat.ltb (prec e) p); [|reflexivity].
  cbn [toks]. rewrite toks_app. reflexivity.
Qed.

(** what ends an expression of strength [k] *)
Definition stops (k : nat) (ts : list token) : bool :=
  match ts with
  | [] => true
  | t :: _ =>
      negb (teq (TOp ".") t) && negb (teq (TOp "(") t) &&
      match binop_of t with Some (_, k') => Nat.leb k' k | None => true end
  end.

Lemma stops_mono : forall k k' ts, k <= k' -> stops k ts = true -> stops k' ts = true.
Proof.
  intros k k' [|t ts] L H; [reflexivity|]. cbn [stops] in *. rewrite !andb_true_iff in *.
  destruct H as (H & B). split; [assumption|]. destruct (binop_of t) as [[o q]|]; [|reflexivity].
  apply Nat.leb_le in B. apply Nat.leb_le. lia.
Qed.

Lemma stops_suf : forall k a ts, stops k ts = true -> ev (fun F => ppsuf F a ts) (a, ts).
Proof.
  intros k a ts H. exists 1. intros [|F] L; [lia|]. cbn [ppsuf].
  destruct ts as [|t ts]; [reflexivity|]. cbn [stops] in H. rewrite !andb_true_iff in H.
  destruct H as ((A & B) & _). apply negb_true_iff in A, B. cbn [eat]. now rewrite A, B.
Qed.

Lemma loop_stop : forall j k a ts, j < k -> stops j ts = true -> ev (fun F => ploop F k a ts) (a, ts).
Proof.
  intros j k a ts L H. exists 1. intros [|F] LF; [lia|]. cbn [ploop].
  destruct ts as [|t ts]; [reflexivity|]. cbn [stops] in H. rewrite !andb_true_iff in H.
  destruct H as (_ & B). destruct (binop_of t) as [[o q]|]; [|reflexivity].
  apply Nat.leb_le in B. assert (Nat.eqb q k = false) as -> by (apply Nat.eqb_neq; lia). reflexivity.
Qed.

Lemma pexp_lo : forall k ts a ts1 r, k < 14 -> ev (fun F => pexp F (S k) ts) (a, ts1) ->
  ev (fun F => ploop F k a ts1) r -> ev (fun F => pexp F k ts) r.
Proof.
  intros k ts a ts1 r L A B. apply ev_S. cbn [pexp].
  assert (Nat.leb 14 k = false) as -> by (apply Nat.leb_gt; assumption).
  apply (ev_bind _ _ (fun F => pexp F (S k) ts) (fun F x => let (a, t) := x in ploop F k a t) (a, ts1) r A B).
Qed.

Lemma pexp_hi : forall ts r, ev (fun F => pcast F ts) r -> ev (fun F => pexp F 14 ts) r.
Proof. intros ts r H. apply ev_S. cbn [pexp]. exact H. Qed.

Lemma pexp_hi_inv : forall ts r, ev (fun F => pexp F 14 ts) r -> ev (fun F => pcast F ts) r.
Proof. intros ts r [n H]. exists n. intros F L. apply (H (S F)). lia. Qed.

(** what is left to read at strength [k] *)
Definition cont (k : nat) (a : cexp) (ts : list token) (r : cexp * list token) : Prop :=
  if Nat.ltb k 14 then ev (fun F => ploop F k a ts) r else r = (a, ts).

Lemma climb : forall j k ts a ts1 r, k < j -> j <= 14 -> stops k ts1 = true ->
  ev (fun F => pexp F j ts) (a, ts1) -> cont k a ts1 r -> ev (fun F => pexp F k ts) r.
Proof.
  induction j as [|j IH]; intros k ts a ts1 r L J S0 E C; [lia|].
  unfold cont in C. assert (Nat.ltb k 14 = true) as K by (apply Nat.ltb_lt; lia). rewrite K in C.
  destruct (Nat.eq_dec k j) as [->|N].
  - apply (pexp_lo j ts a ts1 r); [lia|assumption|assumption].
  - apply (IH k ts a ts1 r); [lia|lia|assumption| |unfold cont; now rewrite K].
    apply (pexp_lo j ts a ts1); [lia|assumption|].
    apply (loop_stop k); [lia|assumption].
Qed.

Lemma cont_stop : forall j k a ts, j < k -> stops j ts = true -> cont k a ts (a, ts).
Proof.
  intros j k a ts L S0. unfold cont. destruct (Nat.ltb k 14); [|reflexivity].
  apply (loop_stop j); assumption.
Qed.

Section READ.
Variable sp : string.
Variable nm tn : positive -> string.
Hypothesis Hsp : white sp = true.
Hypothesis Hfl : forall f, finite f = true -> wf_tok (TNum (mag_text f)) = true.
Hypothesis Hlit : forall f, finite f = true -> exists e, literal (mag_text f) = Some e.

Notation "⟦ e ⟧" := (means nm tn mag_text e).
Notation PB := (pb sp nm tn).

Definition bt (e : expr) : list token := toks (PB e).
Definition tk (p : nat) (e : expr) : list token := tks p e (bt e).

(** reading at every strength up to [lo] *)
Definition Rd (c : cexp) (l : list token) (lo : nat) : Prop :=
  forall k ts r, 6 <= k -> k <= 14 -> k <= lo -> stops k ts = true -> cont k c ts r ->
  ev (fun F => pexp F k (l ++ ts)) r.

Definition plain (l : list token) : Prop :=
  forall ts, cast_start (l ++ ts) = None /\ prefix_of (l ++ ts) = None /\ of_type (l ++ ts) = None.

Definition Post (c : cexp) (l : list token) : Prop :=
  plain l /\ forall ts r, ev (fun F => ppsuf F c ts) r -> ev (fun F => ppost F (l ++ ts)) r.

Definition Cast (c : cexp) (l : list token) : Prop :=
  forall ts, stops 14 ts = true -> ev (fun F => pcast F (l ++ ts)) (c, ts).

Lemma post_cast : forall c l, Post c l -> Cast c l.
Proof.
  intros c l [P H] ts S0. apply ev_S. cbn [pcast]. destruct (P ts) as (-> & -> & ->).
  apply H. apply (stops_suf 14). assumption.
Qed.

Lemma cast_rd : forall c l lo, Cast c l -> Rd c l lo.
Proof.
  intros c l lo H k ts r K1 K2 _ S0 C.
  assert (E : ev (fun F => pexp F 14 (l ++ ts)) (c, ts)).
  { apply pexp_hi, H. apply (stops_mono k); assumption. }
  destruct (Nat.eq_dec k 14) as [->|N].
  - cbv in C. subst r. exact E.
  - apply (climb 14 k _ c ts); try assumption; lia.
Qed.

Lemma rd_cast : forall c l lo, 14 <= lo -> Rd c l lo -> Cast c l.
Proof.
  intros c l lo L H ts S0. apply pexp_hi_inv. apply H; try assumption; try lia. reflexivity.
Qed.

Lemma prefix_cast : forall s f c l, List.find (fun x => String.eqb (fst x) s) prefix_table = Some (s, f) ->
  Cast c l -> Cast (f c) (TOp s :: l).
Proof.
  intros s f c l H C ts S0. apply ev_S. cbn [pcast].
  assert (cast_start ((TOp s :: l) ++ ts) = None) as ->.
  { apply find_some in H. destruct H as [H _]. unfold cast_start. cbn [List.app eat teq].
    cbn in H. repeat (destruct H as [H|H]; [inversion H; subst; reflexivity|]). destruct H. }
  cbn [List.app prefix_of]. rewrite H.
  apply (ev_bind _ _ (fun F => pcast F (l ++ ts)) (fun F x => let (a, r) := x in Some (f a, r)) (c, ts)).
  - apply C. assumption.
  - apply ev_const.
Qed.

(** the first token *)
Definition thead (l : list token) : bool :=
  match l with
  | TId s :: _ => negb (mem s type_words)
  | TNum _ :: _ => true
  | TOp s :: _ => mem s ["("; "*"; "&"; "-"; "~"; "!"]
  | _ => false
  end.

Lemma head_toks : forall ps, head_ok ps = true -> thead (toks ps) = true.
Proof. intros [|[[s|s|s|c]|s|] ps] H; try discriminate H; exact H. Qed.

Lemma thead_app : forall l l', thead l = true -> thead (l ++ l') = true.
Proof. intros [|[s|s|s|c] l] l' H; try discriminate H; exact H. Qed.

Lemma thead_type : forall l, thead l = true -> starts_type l = false.
Proof.
  intros [|[s|s|s|c] l] H; try reflexivity. cbn [thead starts_type] in *. now apply negb_true_iff.
Qed.

Lemma thead_eat : forall l s, thead l = true -> mem s ["("; "*"; "&"; "-"; "~"; "!"] = false ->
  eat (TOp s) l = None.
Proof.
  intros [|[w|w|w|c] l] s H M; try reflexivity. cbn [thead eat teq] in *.
  destruct (String.eqb s w) eqn:E; [|reflexivity]. apply String.eqb_eq in E. subst. congruence.
Qed.

Lemma thead_tks : forall p e l, thead l = true -> thead (tks p e l) = true.
Proof. intros p e l H. unfold tks. destruct (Nat.ltb (prec e) p); [reflexivity|assumption]. Qed.

Lemma prec_lo : forall e, 6 <= prec e.
Proof. intros []; try destruct o; cbn; lia. Qed.

Lemma paren_post : forall c l lo, 6 <= lo -> thead l = true -> Rd c l lo -> Post c (TOp "(" :: l ++ [TOp ")"]).
Proof.
  intros c l lo L T R. split.
  - intros ts. split; [|split]; [|reflexivity|reflexivity].
    unfold cast_start. cbn [List.app eat teq]. change (String.eqb "(" "(") with true. cbn iota.
    rewrite thead_type; [reflexivity|]. apply thead_app, thead_app, T.
  - intros ts r H. apply ev_S. cbn [ppost List.app eat teq]. change (String.eqb "(" "(") with true. cbn iota.
    rewrite <- app_assoc. cbn [List.app].
    apply (ev_bind _ _ (fun F => pexp F 6 (l ++ TOp ")" :: ts))
             (fun F x => let (a, t) := x in match eat (TOp ")") t with Some t3 => ppsuf F a t3 | None => None end)
             (c, TOp ")" :: ts)).
    + apply R; try lia; [reflexivity|]. apply (cont_stop 5); [lia|reflexivity].
    + exact H.
Qed.

Lemma rd_tks : forall e l p, thead l = true -> Rd ⟦e⟧ l (prec e) -> Rd ⟦e⟧ (tks p e l) (Nat.max p (prec e)).
Proof.
  intros e l p T R. unfold tks. destruct (Nat.ltb (prec e) p) eqn:E.
  - apply cast_rd, post_cast, (paren_post _ _ (prec e)); [apply prec_lo|assumption|assumption].
  - apply Nat.ltb_ge in E. now rewrite Nat.max_r.
Qed.

Lemma atom_id : forall s, keyword s = false -> Post (CVar s) [TId s].
Proof.
  intros s K0. split.
  - intros ts. split; [reflexivity|]. split; [reflexivity|]. unfold of_type. cbn [List.app eats].
    rewrite !eat_kw by (assumption || reflexivity). reflexivity.
  - intros ts r H. apply ev_S. cbn [ppost List.app]. rewrite K0. exact H.
Qed.

Lemma atom_num : forall s c, literal s = Some c -> Post c [TNum s].
Proof.
  intros s c L. split; [intros ts; repeat split|].
  intros ts r H. apply ev_S. cbn [ppost List.app]. rewrite L. exact H.
Qed.

Lemma cint_cast : forall z suf, mem suf [""; "U"; "LL"; "LLU"] = true -> Cast (cint z suf) (toks (pcint z suf)).
Proof.
  intros z suf H. unfold cint, pcint. destruct (z <? 0)%Z; cbn [toks].
  - apply (prefix_cast "-" CNeg); [reflexivity|]. apply post_cast, atom_num, literal_dec, H.
  - apply post_cast, atom_num, literal_dec, H.
Qed.

Lemma num_cast : forall n suf, mem suf [""; "U"; "LL"; "LLU"] = true ->
  Cast (CLit n suf) (toks [W (TNum (dec n ++ suf)%string)]).
Proof. intros n suf H. apply post_cast, atom_num, literal_dec, H. Qed.

Lemma tname_read : forall t ts, tname_ok nm t = true ->
  ev (fun F => ptname F (toks (pcd nm [] t) ++ TOp ")" :: ts)) (ctype nm t, ts).
Proof.
  intros t ts H. unfold ptname.
  pose proof (read_tname nm t (TOp ")" :: ts) H eq_refl) as [n R].
  exists n. intros F L. rewrite R by assumption. reflexivity.
Qed.

Lemma tname_starts : forall t l, tname_ok nm t = true -> starts_type (toks (pcd nm [] t) ++ l) = true.
Proof.
  intros t l H. pose proof (void_word nm t) as V.
  destruct (pcd nm [] t) as [|[[s|s|s|c]|s|] ps]; try discriminate V.
  cbn [toks List.app starts_type]. cbn [first_word] in V. exact V.
Qed.

Lemma binop_prec : forall o a b t, binop_of (TOp (name_binop o)) = Some (o, prec (Ebinop o a b t)).
Proof. intros []; reflexivity. Qed.

Lemma bt_binop : forall o a b t, bt (Ebinop o a b t) =
  tk (prec (Ebinop o a b t)) a ++ TOp (name_binop o) :: tk (S (prec (Ebinop o a b t))) b.
Proof.
  intros. unfold bt, tk. cbn [pb]. rewrite !toks_app, !toks_par. reflexivity.
Qed.

Record readable (e : expr) : Prop := {
  rd_head : thead (bt e) = true;
  rd_all : Rd ⟦e⟧ (bt e) (prec e);
  rd_post : prec e = 16 -> is_const e = false -> Post ⟦e⟧ (bt e) }.

Lemma tk_cast : forall e, readable e -> forall p, 14 <= p -> Cast ⟦e⟧ (tk p e).
Proof.
  intros e [T R _] p L. unfold tk. apply (rd_cast _ _ (Nat.max p (prec e))); [lia|].
  apply rd_tks; assumption.
Qed.

Lemma readable_all : forall e, expr_ok nm tn e = true -> readable e.
Proof.
  assert (HD : forall e, expr_ok nm tn e = true -> thead (bt e) = true).
  { intros e H. apply head_toks. apply (lexed_all sp nm tn Hsp Hfl e H). }
  assert (MK : forall e, expr_ok nm tn e = true -> (prec e = 16 -> is_const e = false -> False) ->
     Cast ⟦e⟧ (bt e) -> readable e).
  { intros e H N C. constructor; [apply HD, H|apply cast_rd, C|]. intros A B. destruct (N A B). }
  assert (MP : forall e, expr_ok nm tn e = true -> Post ⟦e⟧ (bt e) -> readable e).
  { intros e H C. constructor; [apply HD, H|apply cast_rd, post_cast, C|]. intros A B. exact C. }
  induction e; intros H; pose proof H as H0; cbn [expr_ok] in H.
  - apply MP; [assumption|]. apply atom_id, ident_kw, H.
  - apply MP; [assumption|]. apply atom_id, ident_kw, H.
  - apply MK; [assumption|discriminate|]. cbn [means].
    unfold bt. cbn [pb toks]. rewrite toks_par. apply (prefix_cast "*" CDeref); [reflexivity|].
    apply (tk_cast e (IHe H)). lia.
  - rewrite !andb_true_iff in H. destruct H as ((H1 & H2) & H3). apply negb_true_iff in H2.
    specialize (IHe H1). apply MP; [assumption|]. cbn [means].
    unfold bt. cbn [pb]. rewrite toks_app, toks_par. cbn [toks]. fold (bt e).
    assert (P : Post ⟦e⟧ (tks 16 e (bt e))).
    { unfold tks. destruct (Nat.ltb (prec e) 16) eqn:Q.
      - apply (paren_post _ _ (prec e)); [apply prec_lo|apply IHe|apply IHe].
      - apply Nat.ltb_ge in Q. apply IHe; [|assumption].
        assert (prec e <= 16) by (destruct e; try destruct o; cbn; lia). lia. }
    destruct P as [Pl P]. split.
    + intros ts. rewrite <- app_assoc. apply Pl.
    + intros ts r R. rewrite <- app_assoc. apply P. apply ev_S. cbn [ppsuf List.app eat teq].
      exact R.
  - apply MK; [assumption|discriminate|].
    unfold bt. cbn [pb means]. unfold pconst_int.
    destruct t as [|[] [] a|[] a| | | | | |]; try (apply cint_cast; reflexivity). now apply num_cast.
  - apply MK; [assumption|discriminate|].
    unfold bt. cbn [pb means]. unfold cfloat, pfloat. destruct (Hlit f H) as [c Hc]. rewrite Hc.
    destruct (fsign f); cbn [toks].
    + apply (prefix_cast "-" CNeg); [reflexivity|]. apply post_cast, atom_num, Hc.
    + apply post_cast, atom_num, Hc.
  - apply MK; [assumption|discriminate|].
    unfold bt. cbn [pb means]. unfold pconst_long.
    destruct t as [|[] [] a|[] a| | | | | |]; try (apply cint_cast; reflexivity). now apply num_cast.
  - assert (He : expr_ok nm tn e = true) by (destruct o; [| |apply andb_true_iff in H|]; tauto).
    specialize (IHe He). apply MK; [assumption|discriminate|].
    destruct o; cbn [means]; unfold bt; cbn [pb toks name_unop]; rewrite ?toks_app, toks_par.
    + apply (prefix_cast "!" CNot); [reflexivity|]. apply (tk_cast e IHe). lia.
    + apply (prefix_cast "~" CCompl); [reflexivity|]. apply (tk_cast e IHe). lia.
    + apply (prefix_cast "-" CNeg); [reflexivity|]. apply (tk_cast e IHe). lia.
    + fold (bt e). fold (tk 2 e). apply post_cast.
      destruct (atom_id "__builtin_fabs" eq_refl) as [Pl P]. split.
      * intros ts. cbn [List.app]. apply (Pl (TOp "(" :: (tk 2 e ++ toks [op ")"]) ++ ts)).
      * intros ts r R. cbn [toks]. rewrite <- ?app_assoc. cbn [List.app].
        apply (P (TOp "(" :: (tk 2 e ++ [TOp ")"]) ++ ts)).
        rewrite <- app_assoc. cbn [List.app].
        apply ev_S. cbn [ppsuf eat teq]. change (String.eqb "." "(") with false.
        change (String.eqb "(" "(") with true. cbn iota.
        apply (ev_bind _ _ (fun F => pargs F (tk 2 e ++ TOp ")" :: ts))
          (fun F x => let (l, t2) := x in ppsuf F (CCall (CVar "__builtin_fabs") l) t2) ([⟦e⟧], ts)); [|exact R].
        apply ev_S. cbn [pargs]. rewrite thead_eat; [|apply thead_app, thead_tks, IHe|reflexivity].
        apply ev_S. cbn [pmore].
        apply (ev_bind _ _ (fun F => pexp F 6 (tk 2 e ++ TOp ")" :: ts))
          (fun F x => let (a, ts1) := x in match eat (TOp ",") ts1 with
            | Some ts2 => match pmore F ts2 with Some (l, ts3) => Some (a :: l, ts3) | None => None end
            | None => match eat (TOp ")") ts1 with Some ts2 => Some ([a], ts2) | None => None end
            end) (⟦e⟧, TOp ")" :: ts)); [|apply ev_const].
        unfold tk, tks. pose proof (prec_lo e). assert (Nat.ltb (prec e) 2 = false) as -> by (apply Nat.ltb_ge; lia).
        apply IHe; try lia; [reflexivity|]. apply (cont_stop 5); [lia|reflexivity].
  - apply andb_true_iff in H. destruct H as [H1 H2]. apply MK; [assumption|discriminate|]. cbn [means].
    unfold bt. cbn [pb toks]. rewrite toks_par. apply (prefix_cast "&" CAddr); [reflexivity|].
    apply (tk_cast e (IHe H1)). lia.
  - apply andb_true_iff in H. destruct H as [H1 H2]. specialize (IHe1 H1). specialize (IHe2 H2).
    constructor; [apply HD, H0| |].
    2:{ intros X. exfalso. destruct o; discriminate X. }
    rewrite bt_binop. cbn [means].
    assert (BP := binop_prec o e1 e2 t).
    assert (Q1 : 6 <= prec (Ebinop o e1 e2 t)) by apply prec_lo.
    assert (Q2 : prec (Ebinop o e1 e2 t) <= 13) by (destruct o; cbn; lia).
    set (q := prec (Ebinop o e1 e2 t)) in *. clearbody q.
    assert (BO : forall ts, stops q (TOp (name_binop o) :: ts) = true).
    { intros ts. cbn [stops]. rewrite BP. rewrite Nat.leb_refl. destruct o; reflexivity. }
    assert (A1 := rd_tks e1 (bt e1) q (rd_head _ IHe1) (rd_all _ IHe1)).
    assert (A2 := rd_tks e2 (bt e2) (S q) (rd_head _ IHe2) (rd_all _ IHe2)).
    assert (X : forall ts r, stops q ts = true -> ev (fun F => ploop F q (CBin o ⟦e1⟧ ⟦e2⟧) ts) r ->
       ev (fun F => pexp F q ((tk q e1 ++ TOp (name_binop o) :: tk (S q) e2) ++ ts)) r).
    { intros ts r S0 C. rewrite <- app_assoc. cbn [List.app]. apply A1; try lia; [apply BO|].
      unfold cont. assert (Nat.ltb q 14 = true) as -> by (apply Nat.ltb_lt; lia).
      apply ev_S. cbn [ploop]. rewrite BP, Nat.eqb_refl.
      apply (ev_bind _ _ (fun F => pexp F (S q) (tk (S q) e2 ++ ts))
        (fun F x => let (b, t2) := x in ploop F q (CBin o ⟦e1⟧ b) t2) (⟦e2⟧, ts)); [|exact C].
      apply A2; try lia.
      - apply (stops_mono q); [lia|assumption].
      - apply (cont_stop q); [lia|assumption]. }
    intros k ts r K1 K2 K3 S0 C.
    destruct (Nat.eq_dec k q) as [->|N].
    + apply X; [assumption|]. unfold cont in C.
      assert (Nat.ltb q 14 = true) as E by (apply Nat.ltb_lt; lia). rewrite E in C. exact C.
    + apply (climb q k _ (CBin o ⟦e1⟧ ⟦e2⟧) ts); try assumption; try lia.
      apply X; [apply (stops_mono k); [lia|assumption]|].
      apply (loop_stop k); [lia|assumption].
  - apply andb_true_iff in H. destruct H as [H1 H2]. specialize (IHe H1).
    apply MK; [assumption|discriminate|]. cbn [means].
    unfold bt. cbn [pb toks]. rewrite !toks_app, toks_par. cbn [toks List.app].
    fold (bt e). fold (tk 14 e).
    intros ts S0. apply ev_S. cbn [pcast List.app]. rewrite <- app_assoc. cbn [List.app].
    unfold cast_start. cbn [eat teq]. change (String.eqb "(" "(") with true. cbn iota.
    rewrite tname_starts by assumption.
    apply (ev_bind _ _ (fun F => ptname F (toks (pcd nm [] t) ++ TOp ")" :: tk 14 e ++ ts))
      (fun F x => let (t, ts2) := x in match pcast F ts2 with Some (a, ts3) => Some (CCast t a, ts3) | None => None end)
      (ctype nm t, tk 14 e ++ ts)).
    + apply tname_read. assumption.
    + apply (ev_bind _ _ (fun F => pcast F (tk 14 e ++ ts))
        (fun F x => let (a, ts3) := x in Some (CCast (ctype nm t) a, ts3)) (⟦e⟧, ts)); [|apply ev_const].
      apply tk_cast; [assumption|lia|assumption].
  - apply MK; [assumption|discriminate|]. cbn [means].
    unfold bt. cbn [pb toks]. rewrite !toks_app. cbn [toks].
    intros ts S0. apply ev_S. cbn [pcast List.app]. rewrite <- app_assoc. cbn [List.app].
    change (cast_start (TId "sizeof" :: ?l)) with (@None (list token)).
    unfold cast_start, prefix_of, of_type. cbn [eats eat teq].
    change (String.eqb "sizeof" "sizeof") with true. change (String.eqb "(" "(") with true. cbn iota.
    apply (ev_bind _ _ (fun F => ptname F (toks (pcd nm [] t) ++ TOp ")" :: ts))
      (fun F x => let (t, r) := x in Some (CSizeof t, r)) (ctype nm t, ts)); [|apply ev_const].
    apply tname_read. assumption.
  - apply MK; [assumption|discriminate|]. cbn [means].
    unfold bt. cbn [pb toks]. rewrite !toks_app. cbn [toks].
    intros ts S0. apply ev_S. cbn [pcast List.app]. rewrite <- app_assoc. cbn [List.app].
    unfold cast_start, prefix_of, of_type. cbn [eats eat teq].
    change (String.eqb "sizeof" "__alignof__") with false.
    change (String.eqb "__alignof__" "__alignof__") with true. change (String.eqb "(" "(") with true. cbn iota.
    apply (ev_bind _ _ (fun F => ptname F (toks (pcd nm [] t) ++ TOp ")" :: ts))
      (fun F x => let (t, r) := x in Some (CAlignof t, r)) (ctype nm t, ts)); [|apply ev_const].
    apply tname_read. assumption.
Qed.

(** an expression printed at low strength, followed by something that ends it *)
Lemma read_low : forall p e ts, p <= 6 -> expr_ok nm tn e = true -> stops 5 ts = true ->
  ev (fun F => pexp F 6 (toks (pe sp nm tn p e) ++ ts)) (⟦e⟧, ts).
Proof.
  intros p e ts P H S0. unfold pe. rewrite toks_par. unfold tks. pose proof (prec_lo e).
  assert (Nat.ltb (prec e) p = false) as -> by (apply Nat.ltb_ge; lia).
  apply (readable_all e H); try lia; [apply (stops_mono 5); [lia|assumption]|].
  apply (cont_stop 5); [lia|assumption].
Qed.

Lemma pe_ok : forall p e, expr_ok nm tn e = true ->
  okp None (pe sp nm tn p e) = true /\ cls (lastp None (pe sp nm tn p e)) = true /\
  head_ok (pe sp nm tn p e) = true.
Proof.
  intros p e H. destruct (lexed_all sp nm tn Hsp Hfl e H) as [A B C _ _]. now apply par_ok.
Qed.

Lemma expr_reads : forall e, expr_ok nm tn e = true -> reads_expr (expr_str sp nm tn 0 e) ⟦e⟧.
Proof.
  intros e H. unfold reads_expr. rewrite <- (render_pe sp nm tn e 0), lex_pieces by (apply pe_ok, H).
  pose proof (read_low 0 e [] ltac:(lia) H eq_refl) as R. rewrite app_nil_r in R. exact R.
Qed.

End READ.
