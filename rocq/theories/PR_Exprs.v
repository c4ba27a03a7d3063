(** * Expressions: printed text and its reading *)
From Coq Require Import ZArith NArith List String Ascii Bool Lia.
From Coq.Floats Require Import SpecFloat.
From Verif Require Import PR_Model PR_Spec PR_Lex PR_Num PR_Types PR_Decl.
Import ListNotations.
Local Open Scope string_scope.
Local Open Scope list_scope.

Definition prec (e : expr) : nat := fst (precedence e).

Definition par (p : nat) (e : expr) (ps : list piece) : list piece :=
  if Nat.ltb (prec e) p then op "(" :: ps ++ [op ")"] else ps.

Definition pcint (z : Z) (suf : string) : list piece :=
  if (z <? 0)%Z then [op "-"; W (TNum (dec (Z.abs_N z) ++ suf)%string)]
  else [W (TNum (dec (Z.to_N z) ++ suf)%string)].

(** the text of the magnitude of a float *)
Definition mag_text (f : spec_float) : string :=
  match f with
  | S754_zero _ => "0"
  | S754_infinity _ => "inf"
  | S754_nan => "nan"
  | S754_finite _ m e => pos18g m e
  end.

Definition pfloat (f : spec_float) : list piece :=
  if fsign f then [op "-"; W (TNum (mag_text f))] else [W (TNum (mag_text f))].

Section EXPR.
Variable sp : string.
Variable nm tn : positive -> string.

Definition pconst_int (n : Z) (t : type) : list piece :=
  match t with
  | Tint I32 Unsigned _ => [W (TNum (dec (Z.to_N (n mod 2 ^ 32)) ++ "U")%string)]
  | _ => pcint (signed 32 n) ""
  end.
Definition pconst_long (n : Z) (t : type) : list piece :=
  match t with
  | Tlong Unsigned _ => [W (TNum (dec (Z.to_N (n mod 2 ^ 64)) ++ "LLU")%string)]
  | _ => pcint (signed 64 n) "LL"
  end.

Fixpoint pb (e : expr) : list piece :=
  match e with
  | Evar id _ => [wd (nm id)]
  | Etempvar id _ => [wd (tn id)]
  | Ederef a _ => op "*" :: par 15 a (pb a)
  | Efield a f _ => par 16 a (pb a) ++ [op "."; wd (nm f)]
  | Econst_int n t => pconst_int n t
  | Econst_float f _ => pfloat f
  | Econst_long n t => pconst_long n t
  | Eunop o a _ =>
      match o with
      | Oabsfloat => wd "__builtin_fabs" :: op "(" :: par 2 a (pb a) ++ [op ")"]
      | _ => op (name_unop o) :: par 15 a (pb a)
      end
  | Eaddrof a _ => op "&" :: par 15 a (pb a)
  | Ebinop o a b _ =>
      par (prec e) a (pb a) ++ [G sp; op (name_binop o); G " "] ++ par (S (prec e)) b (pb b)
  | Ecast a t => op "(" :: pcd nm [] t ++ [op ")"; G " "] ++ par 14 a (pb a)
  | Esizeof t _ => wd "sizeof" :: op "(" :: pcd nm [] t ++ [op ")"]
  | Ealignof t _ => wd "__alignof__" :: op "(" :: pcd nm [] t ++ [op ")"]
  end.

Definition pe (p : nat) (e : expr) : list piece := par p e (pb e).

(** ** The text *)

Lemma render_cint : forall z suf, render (pcint z suf) = (sdec z ++ suf)%string.
Proof.
  intros z suf. unfold pcint. destruct (z <? 0)%Z eqn:E.
  - apply Z.ltb_lt in E. rewrite sdec_neg by assumption. cbn [render spell]. rewrite sapp_nil. reflexivity.
  - apply Z.ltb_ge in E. rewrite sdec_nonneg by assumption. cbn [render spell]. now rewrite sapp_nil.
Qed.

Lemma render_float : forall f, render (pfloat f) = print_float f.
Proof.
  intros [s|s| |s m e]; unfold pfloat; cbn [fsign]; try destruct s; cbn [render spell mag_text];
    rewrite ?sapp_nil; reflexivity.
Qed.

Lemma render_const_int : forall n t, render (pconst_int n t) =
  match t with
  | Tint I32 Unsigned _ => (udec32 (camlint_of_coqint n) ++ "U")%string
  | _ => sdec (camlint_of_coqint n)
  end.
Proof.
  intros n t. unfold pconst_int. rewrite udec32_eq, caml32_signed.
  assert (D : render (pcint (signed 32 n) "") = sdec (signed 32 n)) by (rewrite render_cint; apply sapp_nil).
  destruct t as [|[] [] a|[] a| | | | | |]; try exact D. cbn [render spell]. apply sapp_nil.
Qed.

Lemma render_const_long : forall n t, render (pconst_long n t) =
  match t with
  | Tlong Unsigned _ => (udec64 (camlint64_of_coqint n) ++ "LLU")%string
  | _ => (sdec (camlint64_of_coqint n) ++ "LL")%string
  end.
Proof.
  intros n t. unfold pconst_long. rewrite udec64_eq, caml64_signed.
  assert (D : render (pcint (signed 64 n) "LL") = (sdec (signed 64 n) ++ "LL")%string) by apply render_cint.
  destruct t as [|[] [] a|[] a| | | | | |]; try exact D. cbn [render spell]. apply sapp_nil.
Qed.

Lemma render_tname : forall t, render (pcd nm [] t) = name_type nm t.
Proof. intros. apply (render_pcd nm t []). intros X; congruence. Qed.

Lemma render_par : forall p e ps, render (par p e ps) =
  (if Nat.ltb (prec e) p then "(" ++ render ps ++ ")" else render ps)%string.
Proof.
  intros. unfold par. destruct (Nat.ltb (prec e) p); [|reflexivity].
  cbn [render spell]. rewrite render_app. reflexivity.
Qed.

Lemma render_pe : forall e p, render (pe p e) = expr_str sp nm tn p e.
Proof.
  unfold pe.
  assert (B : forall e p body, render (pb e) = body ->
    (if Nat.ltb (prec e) p then "(" ++ render (pb e) ++ ")" else render (pb e))%string =
    (if Nat.ltb (prec e) p then "(" ++ body ++ ")" else body)%string) by (intros; now subst).
  induction e; intros p; rewrite render_par; cbn [expr_str].
  - apply (B (Evar id t) p). cbn [pb render spell]. apply sapp_nil.
  - apply (B (Etempvar id t) p). cbn [pb render spell]. apply sapp_nil.
  - apply (B (Ederef e t) p). cbn [pb render spell]. now rewrite IHe.
  - apply (B (Efield e f t) p). cbn [pb]. rewrite render_app, IHe. cbn [render spell].
    now rewrite sapp_nil.
  - apply (B (Econst_int n t) p). apply render_const_int.
  - apply (B (Econst_float f t) p). apply render_float.
  - apply (B (Econst_long n t) p). apply render_const_long.
  - apply (B (Eunop o e t) p). destruct o; cbn [pb render spell name_unop]; rewrite ?render_app, IHe; reflexivity.
  - apply (B (Eaddrof e t) p). cbn [pb render spell]. now rewrite IHe.
  - assert (X : forall q, precedence (Ebinop o e1 e2 t) = (q, true) ->
      render (par (prec (Ebinop o e1 e2 t)) e1 (pb e1) ++ [G sp; op (name_binop o); G " "] ++
              par (S (prec (Ebinop o e1 e2 t))) e2 (pb e2)) =
      (expr_str sp nm tn q e1 ++ sp ++ name_binop o ++ " " ++ expr_str sp nm tn (S q) e2)%string).
    { intros q Hq. assert (Hp : prec (Ebinop o e1 e2 t) = q) by (unfold prec; now rewrite Hq).
      rewrite Hp, !render_app, IHe1, IHe2. cbn [render spell]. rewrite !sapp_assoc. reflexivity. }
    destruct o; (etransitivity; [eapply (B (Ebinop _ e1 e2 t) p); eapply X; reflexivity|reflexivity]).
  - apply (B (Ecast e t) p). cbn [pb]. cbn [render spell]. rewrite !render_app, IHe, render_tname.
    cbn [render spell]. reflexivity.
  - apply (B (Esizeof t t') p). cbn [pb render spell]. rewrite render_app, render_tname. reflexivity.
  - apply (B (Ealignof t t') p). cbn [pb render spell]. rewrite render_app, render_tname. reflexivity.
Qed.

(** ** Lexing *)

Hypothesis Hsp : white sp = true.

(** the text of a finite number is a C number *)
Hypothesis Hfl : forall f, finite f = true -> wf_tok (TNum (mag_text f)) = true.

Definition head_ok (ps : list piece) : bool :=
  match ps with
  | W (TId s) :: _ => negb (mem s type_words)
  | W (TNum _) :: _ => true
  | W (TOp s) :: _ => mem s ["("; "*"; "&"; "-"; "~"; "!"]
  | _ => false
  end.

Definition head_is (s : string) (ps : list piece) : bool :=
  match ps with W (TOp s') :: _ => String.eqb s s' | _ => false end.

Record lexed (e : expr) : Prop := {
  lx_ok : okp None (pb e) = true;
  lx_cls : cls (lastp None (pb e)) = true;
  lx_head : head_ok (pb e) = true;
  lx_minus : 15 <= prec e -> head_is "-" (pb e) = true -> leading_minus e = true;
  lx_and : 15 <= prec e -> head_is "&" (pb e) = true -> is_addr e = true }.

Lemma digit_breaks : forall s c, In s ["*"; "&"; "-"; "~"; "!"; "("] -> is_digit c = true ->
  breaks (TOp s) c = true.
Proof.
  intros s c I H. destruct c as [b0 b1 b2 b3 b4 b5 b6 b7].
  cbn [In] in I.
  repeat (destruct I as [I|I]; [subst s; destruct b0, b1, b2, b3, b4, b5, b6, b7;
    first [discriminate H|reflexivity]|]). destruct I.
Qed.

(** an operator before the first token of an expression *)
Lemma op_before : forall s ps, In s ["*"; "&"; "-"; "~"; "!"; "("] -> okp None ps = true ->
  head_ok ps = true -> (s = "-" -> head_is "-" ps = false) -> (s = "&" -> head_is "&" ps = false) ->
  okp (Some (TOp s)) ps = true.
Proof.
  intros s ps I O H M A. apply okp_some; [assumption|].
  destruct ps as [|[[w|w|w|c]|w|] ps]; cbn [head_ok] in H; try discriminate H; try exact Logic.I.
  - cbn [okp] in O. rewrite !andb_true_iff in O. destruct O as ((O & _) & _). cbn [wf_tok] in O.
    destruct w as [|c w]; [discriminate|]. apply andb_true_iff in O. destruct O as [O _].
    unfold fits. cbn [spell first_char]. apply op_before_id; [|assumption].
    cbn [In] in *. tauto.
  - cbn [okp] in O. rewrite !andb_true_iff in O. destruct O as ((O & _) & _). cbn [wf_tok] in O.
    destruct w as [|c w]; [discriminate|]. apply andb_true_iff in O. destruct O as [O _].
    unfold fits. cbn [spell first_char]. apply digit_breaks; assumption.
  - apply mem_in in H. cbn [In] in H, I. cbn [head_is] in M, A.
    repeat (destruct H as [H|H]; [subst w;
      repeat (destruct I as [I|I]; [subst s; first [reflexivity
        | specialize (M eq_refl); discriminate M | specialize (A eq_refl); discriminate A]|]);
      destruct I|]).
    destruct H.
Qed.

Lemma par_ok : forall p e ps, okp None ps = true -> cls (lastp None ps) = true -> head_ok ps = true ->
  okp None (par p e ps) = true /\ cls (lastp None (par p e ps)) = true /\ head_ok (par p e ps) = true.
Proof.
  intros p e ps O C H. unfold par. destruct (Nat.ltb (prec e) p); [|repeat split; assumption].
  split; [|split; [|reflexivity]].
  - cbn [okp]. change (wf_tok (TOp "(")) with true. cbn [andb]. rewrite okp_app.
    assert (NE : ps <> []) by (intros ->; discriminate).
    apply andb_true_iff. split.
    + apply op_before; try assumption; [cbn; tauto|discriminate|discriminate].
    + apply okp_closing; [|cbn; tauto|reflexivity]. now rewrite lastp_none.
  - cbn [lastp]. rewrite lastp_app. reflexivity.
Qed.

(** a prefix operator *)
Lemma prefix_ok : forall s e, In s ["*"; "&"; "-"; "~"; "!"] -> lexed e ->
  (s = "-" -> leading_minus e = false) -> (s = "&" -> is_addr e = false) ->
  okp None (op s :: par 15 e (pb e)) = true /\ cls (lastp None (op s :: par 15 e (pb e))) = true.
Proof.
  intros s e I L M A. destruct L as [O C H LM LA].
  destruct (par_ok 15 e (pb e) O C H) as (P1 & P2 & P3).
  assert (NE : par 15 e (pb e) <> []) by (intros X; rewrite X in P3; discriminate).
  split.
  - cbn [okp].
    assert (Wf : wf_tok (TOp s) = true).
    { cbn [In] in I. repeat (destruct I as [I|I]; [subst s; reflexivity|]). destruct I. }
    rewrite Wf. cbn [andb]. apply op_before; try assumption.
    + cbn [In] in *. tauto.
    + intros E. specialize (M E). unfold par. destruct (Nat.ltb (prec e) 15) eqn:Q; [reflexivity|].
      apply Nat.ltb_ge in Q. destruct (head_is "-" (pb e)) eqn:HI; [|reflexivity].
      rewrite LM in M by (assumption || reflexivity). discriminate.
    + intros E. specialize (A E). unfold par. destruct (Nat.ltb (prec e) 15) eqn:Q; [reflexivity|].
      apply Nat.ltb_ge in Q. destruct (head_is "&" (pb e)) eqn:HI; [|reflexivity].
      rewrite LA in A by (assumption || reflexivity). discriminate.
  - cbn [lastp]. now rewrite lastp_none.
Qed.

Lemma ident_type : forall s, ident s = true -> mem s type_words = false.
Proof. intros s H. apply ident_kw in H. unfold keyword in H. apply orb_false_iff in H. apply H. Qed.

Lemma tname_ok_pieces : forall t, tname_ok nm t = true ->
  okp (Some (TOp "(")) (pcd nm [] t) = true /\ cls (lastp (Some (TOp "(")) (pcd nm [] t)) = true.
Proof.
  intros t H. unfold tname_ok in H. apply andb_true_iff in H. destruct H as [H _].
  assert (D : dok []) by (repeat split).
  destruct (pcd_ok nm t [] H D) as [A B].
  pose proof (void_word nm t) as F.
  destruct (sep_pieces [pcd nm [] t] (Forall_cons _ (conj A (conj B F)) (Forall_nil _))
    (Some (TOp "(")) eq_refl (or_intror (ex_intro _ _ (conj eq_refl eq_refl)))) as [X Y].
  cbn [psep] in X, Y. split; assumption.
Qed.

Lemma cint_lexed : forall z suf, all_chars num_char suf = true ->
  okp None (pcint z suf) = true /\ cls (lastp None (pcint z suf)) = true /\ head_ok (pcint z suf) = true.
Proof.
  intros z suf H. unfold pcint. destruct (z <? 0)%Z.
  - split; [|split; [apply closes_num|reflexivity]].
    cbn [okp]. change (wf_tok (TOp "-")) with true. cbn [andb].
    pose proof (wf_num (Z.abs_N z) suf H) as Wf. rewrite Wf. cbn [andb]. rewrite andb_true_r.
    cbn [wf_tok] in Wf. destruct (dec (Z.abs_N z) ++ suf)%string as [|c r]; [discriminate|].
    apply andb_true_iff in Wf. destruct Wf as [Wf _].
    unfold fits. cbn [spell first_char]. apply digit_breaks; [cbn; tauto|assumption].
  - split; [|split; [apply closes_num|reflexivity]].
    cbn [okp]. now rewrite (wf_num (Z.to_N z) suf H).
Qed.

Lemma cint_minus : forall z suf, head_is "-" (pcint z suf) = true -> (z <? 0)%Z = true.
Proof. intros z suf. unfold pcint. destruct (z <? 0)%Z; [reflexivity|discriminate]. Qed.
Lemma cint_and : forall z suf, head_is "&" (pcint z suf) = true -> False.
Proof. intros z suf. unfold pcint. destruct (z <? 0)%Z; discriminate. Qed.

Lemma num_lexed : forall n suf, all_chars num_char suf = true ->
  let ps := [W (TNum (dec n ++ suf)%string)] in
  okp None ps = true /\ cls (lastp None ps) = true /\ head_ok ps = true.
Proof.
  intros n suf H ps. unfold ps. cbn [okp lastp cls head_ok]. rewrite (wf_num n suf H), closes_num.
  repeat split.
Qed.

Lemma name_binop_wf : forall o, okp None [G sp; op (name_binop o); G " "] = true.
Proof. intros o. cbn [okp]. rewrite Hsp. destruct o; reflexivity. Qed.

(** the last token of the operand of a field access *)
Lemma field_last : forall a, expr_ok nm tn a = true -> is_const a = false ->
  lexed a ->
  exists t, lastp None (par 16 a (pb a)) = Some t /\ fits t (TOp ".") = true.
Proof.
  intros a Ha Hc L. unfold par. destruct (Nat.ltb (prec a) 16) eqn:P.
  - exists (TOp ")"). cbn [lastp]. rewrite lastp_app. split; reflexivity.
  - destruct a; try discriminate Hc; try discriminate P.
    + cbn [pb lastp]. exists (TId (nm id)). split; reflexivity.
    + cbn [pb lastp]. exists (TId (tn id)). split; reflexivity.
    + cbn [pb]. rewrite lastp_app. exists (TId (nm f)). split; reflexivity.
    + destruct o; discriminate P.
Qed.

Lemma lexed_all : forall e, expr_ok nm tn e = true -> lexed e.
Proof.
  induction e; cbn [expr_ok]; intros H.
  - constructor; cbn [pb okp lastp cls head_ok]; rewrite ?(ident_wf _ H), ?(ident_type _ H); try reflexivity;
      intros _ X; discriminate X.
  - constructor; cbn [pb okp lastp cls head_ok]; rewrite ?(ident_wf _ H), ?(ident_type _ H); try reflexivity;
      intros _ X; discriminate X.
  - destruct (prefix_ok "*" e ltac:(cbn; tauto) (IHe H)) as [A B]; [discriminate|discriminate|].
    constructor; cbn [pb]; try assumption; try reflexivity; intros _ X; discriminate X.
  - rewrite !andb_true_iff in H. destruct H as ((H1 & H2) & H3). apply negb_true_iff in H2.
    specialize (IHe H1). destruct (field_last e H1 H2 IHe) as (t0 & L & Ft).
    destruct IHe as [O C Hd LM LA].
    destruct (par_ok 16 e (pb e) O C Hd) as (P1 & P2 & P3).
    assert (HH : forall s, head_is s (par 16 e (pb e) ++ [op "."; wd (nm f)]) = true ->
                 head_is s (par 16 e (pb e)) = true).
    { intros s. destruct (par 16 e (pb e)); [discriminate P3|trivial]. }
    constructor; cbn [pb].
    + rewrite okp_app, P1, L. cbn [okp andb]. rewrite Ft, (ident_wf _ H3).
      change (wf_tok (TOp ".")) with true. cbn [andb]. rewrite andb_true_r.
      destruct (ident_start _ H3) as (c & r & -> & S0). unfold fits. cbn [spell first_char].
      apply op_before_id; [cbn; tauto|assumption].
    + rewrite lastp_app. reflexivity.
    + destruct (par 16 e (pb e)) as [|x l]; [discriminate P3|exact P3].
    + intros _ X. apply HH in X. exfalso. unfold par in X.
      destruct (Nat.ltb (prec e) 16) eqn:P; [discriminate X|].
      apply Nat.ltb_ge in P. pose proof (LM ltac:(lia) X) as Y.
      destruct e; try discriminate H2; try discriminate P; try discriminate Y.
      destruct o; cbn in P; lia.
    + intros _ X. apply HH in X. exfalso. unfold par in X.
      destruct (Nat.ltb (prec e) 16) eqn:P; [discriminate X|].
      apply Nat.ltb_ge in P. pose proof (LA ltac:(lia) X) as Y.
      destruct e; try discriminate Y. cbn in P. lia.
  - cbn [pb]. constructor; cbn [pb]; unfold pconst_int.
    1-3: destruct t as [|[] [] a|[] a| | | | | |]; try (apply cint_lexed; reflexivity); now apply num_lexed.
    + intros _. cbn [leading_minus].
      destruct t as [|[] [] a|[] a| | | | | |]; try apply cint_minus; discriminate.
    + intros _ X. exfalso.
      destruct t as [|[] [] a|[] a| | | | | |]; try (apply (cint_and _ _ X)); discriminate.
  - pose proof (Hfl f H) as Wf. pose proof (closes_num (mag_text f)) as Cn.
    assert (D : fits (TOp "-") (TNum (mag_text f)) = true).
    { cbn [wf_tok] in Wf. unfold fits. cbn [spell]. destruct (mag_text f) as [|c r]; [discriminate|].
      apply andb_true_iff in Wf. destruct Wf as [Wf _]. cbn [first_char].
      apply digit_breaks; [cbn; tauto|assumption]. }
    constructor; cbn [pb leading_minus]; unfold pfloat; destruct (fsign f); cbn [okp lastp cls];
      rewrite ?Wf, ?D; try reflexivity; try exact Cn; intros _ X; discriminate X.
  - cbn [pb]. constructor; cbn [pb]; unfold pconst_long.
    1-3: destruct t as [|[] [] a|[] a| | | | | |]; try (apply cint_lexed; reflexivity); now apply num_lexed.
    + intros _. cbn [leading_minus].
      destruct t as [|[] [] a|[] a| | | | | |]; try apply cint_minus; discriminate.
    + intros _ X. exfalso.
      destruct t as [|[] [] a|[] a| | | | | |]; try (apply (cint_and _ _ X)); discriminate.
  - destruct o.
    + destruct (prefix_ok "!" e ltac:(cbn; tauto) (IHe H)) as [A B]; [discriminate|discriminate|].
      constructor; cbn [pb name_unop]; try assumption; try reflexivity; intros _ X; discriminate X.
    + destruct (prefix_ok "~" e ltac:(cbn; tauto) (IHe H)) as [A B]; [discriminate|discriminate|].
      constructor; cbn [pb name_unop]; try assumption; try reflexivity; intros _ X; discriminate X.
    + apply andb_true_iff in H. destruct H as [H1 H2]. apply negb_true_iff in H2.
      destruct (prefix_ok "-" e ltac:(cbn; tauto) (IHe H1)) as [A B]; [intros; assumption|discriminate|].
      constructor; cbn [pb name_unop]; try assumption; try reflexivity; intros _ X; discriminate X.
    + specialize (IHe H). destruct IHe as [O C Hd LM LA].
      destruct (par_ok 2 e (pb e) O C Hd) as (P1 & P2 & P3).
      assert (NE : par 2 e (pb e) <> []) by (intros X; rewrite X in P3; discriminate).
      constructor; cbn [pb]; try reflexivity; try (intros _ X; discriminate X).
      * change (wd "__builtin_fabs" :: op "(" :: par 2 e (pb e) ++ [op ")"])
          with ([wd "__builtin_fabs"; op "("] ++ (par 2 e (pb e) ++ [op ")"])).
        rewrite !okp_app. apply andb_true_iff. split; [reflexivity|]. apply andb_true_iff. split.
        -- apply op_before; try assumption; [cbn; tauto|discriminate|discriminate].
        -- apply okp_closing; [|cbn; tauto|reflexivity]. cbn [lastp]. now rewrite lastp_none.
      * cbn [lastp]. rewrite lastp_app. reflexivity.
  - apply andb_true_iff in H. destruct H as [H1 H2]. apply negb_true_iff in H2.
    destruct (prefix_ok "&" e ltac:(cbn; tauto) (IHe H1)) as [A B]; [discriminate|intros; assumption|].
    constructor; cbn [pb]; try assumption; try reflexivity; intros _ X; discriminate X.
  - apply andb_true_iff in H. destruct H as [H1 H2]. specialize (IHe1 H1). specialize (IHe2 H2).
    destruct IHe1 as [O1 C1 Hd1 _ _]. destruct IHe2 as [O2 C2 Hd2 _ _].
    assert (PR : prec (Ebinop o e1 e2 t) <= 13) by (destruct o; cbn; lia).
    set (q := prec (Ebinop o e1 e2 t)) in *.
    destruct (par_ok q e1 (pb e1) O1 C1 Hd1) as (P1 & P2 & P3).
    destruct (par_ok (S q) e2 (pb e2) O2 C2 Hd2) as (Q1 & Q2 & Q3).
    assert (NE : par (S q) e2 (pb e2) <> []) by (intros X; rewrite X in Q3; discriminate).
    constructor; cbn [pb]; fold q; try (intros; lia).
    + rewrite !okp_app, P1. cbn [andb].
      apply andb_true_iff. split.
      * pose proof (name_binop_wf o) as N. cbn [okp] in *. exact N.
      * cbn [lastp]. exact Q1.
    + rewrite !lastp_app. rewrite lastp_none by assumption. exact Q2.
    + destruct (par q e1 (pb e1)) as [|x l]; [discriminate P3|exact P3].
  - apply andb_true_iff in H. destruct H as [H1 H2]. specialize (IHe H1). destruct IHe as [O C Hd _ _].
    destruct (par_ok 14 e (pb e) O C Hd) as (P1 & P2 & P3).
    assert (NE : par 14 e (pb e) <> []) by (intros X; rewrite X in P3; discriminate).
    destruct (tname_ok_pieces t H2) as [T1 T2].
    constructor; cbn [pb]; try reflexivity; try (intros _ X; discriminate X).
    + cbn [okp]. change (wf_tok (TOp "(")) with true. cbn [andb]. rewrite !okp_app, T1. cbn [andb].
      apply andb_true_iff. split; [|exact P1].
      apply okp_closing; [exact T2|cbn; tauto|reflexivity].
    + cbn [lastp]. rewrite !lastp_app. rewrite lastp_none by assumption. exact P2.
  - destruct (tname_ok_pieces t H) as [T1 T2].
    constructor; cbn [pb]; try reflexivity; try (intros _ X; discriminate X).
    + change (wd "sizeof" :: op "(" :: pcd nm [] t ++ [op ")"])
        with ([wd "sizeof"; op "("] ++ (pcd nm [] t ++ [op ")"])).
      rewrite !okp_app. apply andb_true_iff. split; [reflexivity|]. apply andb_true_iff. split; [exact T1|].
      apply okp_closing; [exact T2|cbn; tauto|reflexivity].
    + cbn [lastp]. rewrite lastp_app. reflexivity.
  - destruct (tname_ok_pieces t H) as [T1 T2].
    constructor; cbn [pb]; try reflexivity; try (intros _ X; discriminate X).
    + change (wd "__alignof__" :: op "(" :: pcd nm [] t ++ [op ")"])
        with ([wd "__alignof__"; op "("] ++ (pcd nm [] t ++ [op ")"])).
      rewrite !okp_app. apply andb_true_iff. split; [reflexivity|]. apply andb_true_iff. split; [exact T1|].
      apply okp_closing; [exact T2|cbn; tauto|reflexivity].
    + cbn [lastp]. rewrite lastp_app. reflexivity.
Qed.

End EXPR.
