(** * Statements: printed text and its reading *)
From Coq Require Import ZArith NArith List String Ascii Bool Lia.
From Coq.Floats Require Import SpecFloat.
From Verif Require Import PR_Model PR_Spec PR_Lex PR_Num PR_Types PR_Decl PR_Exprs PR_Read.
Import ListNotations.
Local Open Scope string_scope.
Local Open Scope list_scope.

Scheme stmt_ind2 := Induction for stmt Sort Prop
  with lstmts_ind2 := Induction for lstmts Sort Prop.
Combined Scheme stmt_mut from stmt_ind2, lstmts_ind2.

Definition is_skip (s : stmt) : bool := match s with Sskip => true | _ => false end.

Lemma skip_match : forall (A : Type) (s : stmt) (a b : A),
  match s with Sskip => a | _ => b end = if is_skip s then a else b.
Proof. intros A [] a b; reflexivity. Qed.

Lemma is_skip_eq : forall s, is_skip s = true -> s = Sskip.
Proof. intros [] H; try discriminate H. reflexivity. Qed.

Section STMT.
Variable sp cut : string.
Variable nm tn : positive -> string.

Notation PE := (pe sp nm tn).

Definition pcut : list piece := match cut with "" => [] | _ => [G cut] end.

Definition pblk (x : list piece) : list piece := [op "{"; G sp] ++ x ++ pcut ++ [op "}"].

Definition pcall (f : expr) (l : list expr) : list piece :=
  PE 15 f ++ pcut ++ [op "("] ++ psep (List.map (PE 2) l) [op ","; G sp] ++ [op ")"; op ";"].

Definition plab (l : option Z) : list piece :=
  match l with
  | None => [wd "default"]
  | Some z => [wd "case"; G " "] ++ pcint (Z_to_int z) ""
  end.

Definition pcond (w : string) (c : list piece) : list piece :=
  [wd w; G " "; op "("] ++ c ++ [op ")"; G " "].

Fixpoint ps (s : stmt) : list piece :=
  match s with
  | Sskip => [K "skip"; op ";"]
  | Sassign a b => PE 0 a ++ [G " "; op "="; G sp] ++ PE 0 b ++ [op ";"]
  | Sset id b => [wd (tn id); G " "; op "="; G sp] ++ PE 0 b ++ [op ";"]
  | Scall None f l => pcall f l
  | Scall (Some id) f l => [wd (tn id); G " "; op "="; G sp] ++ pcall f l
  | Ssequence s1 s2 =>
      if is_skip s1 then ps s2 else if is_skip s2 then ps s1 else ps s1 ++ [G sp] ++ ps s2
  | Sifthenelse e s1 s2 =>
      if is_skip s2 then pcond "if" (PE 0 e) ++ pblk (ps s1)
      else if is_skip s1 then pcond "if" ([op "!"; G " "] ++ PE 15 e) ++ pblk (ps s2)
      else pcond "if" (PE 0 e) ++ pblk (ps s1) ++ [G " "; wd "else"; G " "] ++ pblk (ps s2)
  | Sloop s1 => pcond "while" [W (TNum "1")] ++ pblk (ps s1)
  | Sbreak => [wd "break"; op ";"]
  | Scontinue => [wd "continue"; op ";"]
  | Sswitch e ls => pcond "switch" (PE 0 e) ++ pblk (pls ls)
  | Sreturn None => [wd "return"; op ";"]
  | Sreturn (Some e) => [wd "return"; G " "] ++ PE 0 e ++ [op ";"]
  | Slabel l s1 => [wd (nm l); op ":"; G sp] ++ ps s1
  | Sgoto l => [wd "goto"; G " "; wd (nm l); op ";"]
  end
with pls (ls : lstmts) : list piece :=
  match ls with
  | LSnil => []
  | LScons l s rem =>
      if is_skip s then plab l ++ [op ":"; G sp] ++ pls rem
      else plab l ++ [op ":"; G sp] ++ ps s ++ [G sp] ++ pls rem
  end.

(** ** The text *)

Lemma render_cut : render pcut = cut.
Proof. unfold pcut. destruct cut; [reflexivity|]. cbn [render]. apply sapp_nil. Qed.

Lemma render_blk : forall x, render (pblk x) = ("{" ++ sp ++ render x ++ cut ++ "}")%string.
Proof.
  intros. unfold pblk. rewrite !render_app. cbn [render spell]. rewrite !render_cut, ?sapp_nil.
  rewrite !sapp_assoc. reflexivity.
Qed.

Lemma render_call : forall f l, render (pcall f l) =
  (expr_str sp nm tn 15 f ++ cut ++ "(" ++ print_expr_list sp nm tn l ++ ");")%string.
Proof.
  intros. unfold pcall, print_expr_list, sep. rewrite !render_app, render_sep, render_cut, render_pe, map_map.
  cbn [render spell]. rewrite ?sapp_nil.
  rewrite (map_ext _ (expr_str sp nm tn 2)); [reflexivity|]. intros. apply render_pe.
Qed.

Lemma render_lab : forall l, render (plab l) = print_case_label l.
Proof.
  intros [z|]; unfold plab, print_case_label; [|reflexivity].
  rewrite render_app, render_cint. cbn [render spell]. rewrite !sapp_nil. reflexivity.
Qed.

Lemma render_cond : forall w c, render (pcond w c) = (w ++ " (" ++ render c ++ ") ")%string.
Proof.
  intros. unfold pcond. rewrite !render_app. cbn [render spell]. rewrite ?sapp_assoc. reflexivity.
Qed.

Lemma render_stmt :
  (forall s, render (ps s) = print_stmt sp cut nm tn s) /\
  (forall ls, render (pls ls) = print_cases sp cut nm tn ls).
Proof.
  apply stmt_mut; intros; cbn [ps pls print_stmt print_cases]; unfold print_expr in *.
  - reflexivity.
  - rewrite !render_app, !render_pe. cbn [render spell]. rewrite ?sapp_nil, ?sapp_assoc. reflexivity.
  - rewrite !render_app, !render_pe. cbn [render spell]. rewrite ?sapp_nil, ?sapp_assoc. reflexivity.
  - destruct id as [id|]; rewrite ?render_app, render_call; [|reflexivity].
    cbn [render spell]. rewrite ?sapp_nil, ?sapp_assoc. reflexivity.
  - rewrite !skip_match. destruct (is_skip s1); [assumption|]. destruct (is_skip s2); [assumption|].
    rewrite !render_app, H, H0. cbn [render]. rewrite ?sapp_nil. reflexivity.
  - rewrite !skip_match. destruct (is_skip s2).
    + rewrite render_app, render_cond, render_blk, render_pe, H. rewrite ?sapp_assoc. reflexivity.
    + destruct (is_skip s1).
      * rewrite render_app, render_cond, render_blk, render_app, render_pe, H0.
        cbn [render spell]. rewrite ?sapp_assoc. reflexivity.
      * rewrite !render_app, render_cond, !render_blk, render_pe, H, H0.
        cbn [render spell]. rewrite ?sapp_assoc. reflexivity.
  - rewrite render_app, render_cond, render_blk, H. rewrite ?sapp_assoc. reflexivity.
  - reflexivity.
  - reflexivity.
  - rewrite render_app, render_cond, render_blk, render_pe, H. rewrite ?sapp_assoc. reflexivity.
  - destruct e as [e|]; [|reflexivity]. rewrite !render_app, render_pe. reflexivity.
  - rewrite render_app, H. cbn [render spell]. rewrite ?sapp_nil, ?sapp_assoc. reflexivity.
  - reflexivity.
  - reflexivity.
  - rewrite skip_match. destruct (is_skip s); rewrite !render_app, render_lab, ?H, ?H0;
      cbn [render spell]; rewrite ?sapp_nil, ?sapp_assoc; reflexivity.
Qed.

(** ** Lexing *)

Hypothesis Hsp : white sp = true.
Hypothesis Hcut : cut = "" \/ white cut = true.
Hypothesis Hfl : forall f, finite f = true -> wf_tok (TNum (mag_text f)) = true.
Hypothesis Hlit : forall f, finite f = true -> exists e, literal (mag_text f) = Some e.

Definition good (x : list piece) : Prop := okp None x = true /\ cls (lastp None x) = true.

Lemma good_app : forall x y, good x -> okp (lastp None x) y = true -> cls (lastp (lastp None x) y) = true ->
  good (x ++ y).
Proof. intros x y [A B] C D. split; [rewrite okp_app, A; exact C|rewrite lastp_app; exact D]. Qed.

(** after a gap anything may follow *)
Lemma good_gap : forall x y g, good x -> white g = true -> good y -> good (x ++ [G g] ++ y).
Proof.
  intros x y g [A B] W0 [C D]. split.
  - rewrite !okp_app, A. cbn [okp lastp]. rewrite W0. exact C.
  - rewrite !lastp_app. cbn [lastp]. exact D.
Qed.

Lemma good_close : forall x s, good x -> In s ["("; "["; ")"; "]"; ","; ";"; ":"; "}"] -> good (x ++ [op s]).
Proof.
  intros x s [A B] I. apply good_app; [split; assumption| |].
  - apply okp_closing; [assumption|assumption|]. reflexivity.
  - cbn [lastp cls]. cbn [In] in I. repeat (destruct I as [I|I]; [subst s; reflexivity|]). destruct I.
Qed.

Lemma good_cut : forall x s, good x -> In s ["("; "["; ")"; "]"; ","; ";"; ":"; "}"] -> good (x ++ pcut ++ [op s]).
Proof.
  intros x s [A B] I. unfold pcut. destruct cut as [|c r] eqn:E.
  - apply good_close; [split; assumption|assumption].
  - destruct Hcut as [X|X]; [discriminate X|]. apply good_gap; [split; assumption|assumption|].
    split; [|].
    + cbn [okp]. cbn [In] in I. repeat (destruct I as [I|I]; [subst s; reflexivity|]). destruct I.
    + cbn [lastp cls]. cbn [In] in I. repeat (destruct I as [I|I]; [subst s; reflexivity|]). destruct I.
Qed.

Lemma good_pe : forall p e, expr_ok nm tn e = true -> good (PE p e).
Proof. intros p e H. destruct (pe_ok sp nm tn Hsp Hfl p e H) as (A & B & _). split; assumption. Qed.

(** an opening parenthesis and an expression *)
Lemma open_pe : forall p e, expr_ok nm tn e = true -> okp (Some (TOp "(")) (PE p e) = true.
Proof.
  intros p e H. destruct (pe_ok sp nm tn Hsp Hfl p e H) as (A & B & C).
  apply op_before; try assumption; [cbn; tauto|discriminate|discriminate].
Qed.

Lemma pe_ne : forall p e, expr_ok nm tn e = true -> PE p e <> [].
Proof.
  intros p e H X. destruct (pe_ok sp nm tn Hsp Hfl p e H) as (A & B & C). rewrite X in C. discriminate.
Qed.

Lemma good_cons : forall t x, wf_tok t = true -> okp (Some t) x = true -> x <> [] ->
  cls (lastp None x) = true -> good (W t :: x).
Proof.
  intros t x A B N C. split; cbn [okp lastp]; [now rewrite A|]. now rewrite lastp_none.
Qed.

Lemma good_blk : forall x, x = [] \/ good x -> good (pblk x).
Proof.
  intros x H. unfold pblk.
  assert (G0 : good (x ++ pcut ++ [op "}"])).
  { apply good_cut; [destruct H as [->|H]; [split; reflexivity|exact H]|cbn; tauto]. }
  destruct G0 as [A B]. split.
  - rewrite okp_app. cbn [okp lastp]. rewrite Hsp. exact A.
  - rewrite lastp_app. exact B.
Qed.

Lemma good_cond : forall w c b, wf_tok (TId w) = true -> good c -> c <> [] -> okp (Some (TOp "(")) c = true ->
  good b -> good (pcond w c ++ b).
Proof.
  intros w c b Ww [C1 C2] N O [B1 B2]. unfold pcond. split.
  - rewrite !okp_app, !lastp_app. rewrite !andb_true_iff. repeat split.
    + cbn [okp]. rewrite Ww. reflexivity.
    + cbn [lastp]. exact O.
    + apply okp_closing; [cbn [lastp]; now rewrite lastp_none|cbn; tauto|reflexivity].
    + cbn [lastp]. exact B1.
  - rewrite !lastp_app. cbn [lastp]. exact B2.
Qed.

Lemma good_args : forall l, forallb (expr_ok nm tn) l = true ->
  good ([op "("] ++ psep (List.map (PE 2) l) [op ","; G sp] ++ [op ")"; op ";"]).
Proof.
  intros l H.
  assert (A : l <> [] -> good (psep (List.map (PE 2) l) [op ","; G sp]) /\
              okp (Some (TOp "(")) (psep (List.map (PE 2) l) [op ","; G sp]) = true /\
              psep (List.map (PE 2) l) [op ","; G sp] <> []).
  { induction l as [|e l IH]; [congruence|]. intros _. cbn [forallb] in H.
    apply andb_true_iff in H. destruct H as [H1 H2]. specialize (IH H2).
    destruct l as [|e' l]; cbn [List.map psep].
    - split; [apply good_pe, H1|]. split; [apply open_pe, H1|apply pe_ne, H1].
    - cbn [List.map psep] in IH. specialize (IH ltac:(discriminate)). destruct IH as (I1 & _ & _).
      assert (G1 : good (PE 2 e ++ [op ","])) by (apply good_close; [apply good_pe, H1|cbn; tauto]).
      split; [|split].
      + change [op ","; G sp] with ([op ","] ++ [G sp]). rewrite <- app_assoc, app_assoc.
        apply good_gap; assumption.
      + rewrite okp_app, open_pe by assumption. cbn [andb]. rewrite lastp_none by (apply pe_ne, H1).
        rewrite okp_app. apply andb_true_iff. split.
        * apply okp_closing; [apply good_pe, H1|cbn; tauto|]. cbn [okp]. now rewrite Hsp.
        * cbn [lastp]. apply I1.
      + intros X. apply app_eq_nil in X. destruct X as [X _]. apply (pe_ne 2 e H1 X). }
  destruct l as [|e l]; [split; reflexivity|]. destruct (A ltac:(discriminate)) as ((A1 & A2) & A3 & A4).
  set (x := psep (List.map (PE 2) (e :: l)) [op ","; G sp]) in *. clearbody x. split.
  - cbn [List.app okp]. change (wf_tok (TOp "(")) with true. cbn [andb]. rewrite okp_app, A3. cbn [andb].
    apply okp_closing; [now rewrite lastp_none|cbn; tauto|reflexivity].
  - cbn [List.app lastp]. rewrite lastp_app. reflexivity.
Qed.

Lemma good_call : forall f l, expr_ok nm tn f = true -> forallb (expr_ok nm tn) l = true -> good (pcall f l).
Proof.
  intros f l Hf Hl. unfold pcall. destruct (good_args l Hl) as [A B].
  assert (C : good (PE 15 f ++ pcut ++ [op "("])) by (apply good_cut; [apply good_pe, Hf|cbn; tauto]).
  set (y := psep (List.map (PE 2) l) [op ","; G sp] ++ [op ")"; op ";"]) in *. clearbody y.
  assert (E : PE 15 f ++ pcut ++ [op "("] ++ y = (PE 15 f ++ pcut ++ [op "("]) ++ y).
  { rewrite <- !app_assoc. reflexivity. }
  rewrite E. clear E.
  assert (L : lastp None (PE 15 f ++ pcut ++ [op "("]) = Some (TOp "(")) by (rewrite !lastp_app; reflexivity).
  cbn [List.app okp lastp] in A, B. apply andb_true_iff in A. destruct A as [_ A].
  apply good_app; [assumption| |]; rewrite L; assumption.
Qed.

Lemma good_set : forall id x, ident id = true -> good x -> good ([wd id; G " "; op "="; G sp] ++ x).
Proof.
  intros id x I [A B]. split; cbn [List.app okp lastp]; [|exact B].
  rewrite (ident_wf _ I), Hsp, A. reflexivity.
Qed.

Lemma good_lab : forall l, good (plab l ++ [op ":"]).
Proof.
  intros [z|]; unfold plab; [|split; reflexivity]. apply good_close; [|cbn; tauto].
  destruct (cint_lexed (Z_to_int z) "" eq_refl) as (A & B & _).
  apply (good_gap [wd "case"]); [split; reflexivity|reflexivity|split; assumption].
Qed.

Lemma good_stmt :
  (forall s, stmt_ok nm tn s = true -> good (ps s)) /\
  (forall ls, lstmts_ok nm tn ls = true -> good (pls ls)).
Proof.
  apply stmt_mut; cbn [ps pls stmt_ok lstmts_ok].
  - intros _. split; reflexivity.
  - intros a b H. apply andb_true_iff in H. destruct H as [H1 H2].
    assert (X : good (PE 0 b ++ [op ";"])) by (apply good_close; [apply good_pe, H2|cbn; tauto]).
    apply (good_gap (PE 0 a) ([op "="; G sp] ++ PE 0 b ++ [op ";"]) " "); [apply good_pe, H1|reflexivity|].
    apply (good_gap [op "="]); [split; reflexivity|assumption|exact X].
  - intros id b H. apply andb_true_iff in H. destruct H as [H1 H2].
    apply good_set; [assumption|]. apply good_close; [apply good_pe, H2|cbn; tauto].
  - intros id f l H. rewrite !andb_true_iff in H. destruct H as (((H1 & H2) & H3) & H4).
    destruct id as [id|]; [apply good_set; [assumption|]|]; now apply good_call.
  - intros s1 I1 s2 I2 H. apply andb_true_iff in H. destruct H as [H1 H2].
    destruct (is_skip s1); [auto|]. destruct (is_skip s2); [auto|]. apply good_gap; auto.
  - intros e s1 I1 s2 I2 H. rewrite !andb_true_iff in H. destruct H as ((He & H1) & H2).
    destruct (is_skip s2); [|destruct (is_skip s1)].
    + apply good_cond; [reflexivity|apply good_pe, He|apply pe_ne, He|apply open_pe, He|].
      apply good_blk; auto.
    + assert (X : good ([op "!"; G " "] ++ PE 15 e)).
      { apply (good_gap [op "!"]); [split; reflexivity|reflexivity|apply good_pe, He]. }
      apply good_cond; [reflexivity|exact X|discriminate| |apply good_blk; auto].
      destruct X as [X _]. apply okp_some; [exact X|]. reflexivity.
    + apply good_cond; [reflexivity|apply good_pe, He|apply pe_ne, He|apply open_pe, He|].
      apply (good_gap (pblk (ps s1)) ([wd "else"; G " "] ++ pblk (ps s2)) " "); [apply good_blk; auto|reflexivity|].
      apply (good_gap [wd "else"]); [split; reflexivity|reflexivity|apply good_blk; auto].
  - intros s I1 H. apply good_cond; [reflexivity|split; reflexivity|discriminate|reflexivity|apply good_blk; auto].
  - intros _. split; reflexivity.
  - intros _. split; reflexivity.
  - intros e ls I1 H. rewrite andb_true_iff in H. destruct H as (He & H1).
    apply good_cond; [reflexivity|apply good_pe, He|apply pe_ne, He|apply open_pe, He|].
    apply good_blk; auto.
  - intros [e|] H; [|split; reflexivity].
    apply (good_gap [wd "return"]); [split; reflexivity|reflexivity|].
    apply good_close; [apply good_pe, H|cbn; tauto].
  - intros l s I1 H. apply andb_true_iff in H. destruct H as [H1 H2].
    apply (good_gap [wd (nm l); op ":"]); [|assumption|auto].
    apply (good_close [wd (nm l)]); [|cbn; tauto]. split; [|reflexivity]. cbn [okp]. now rewrite ident_wf.
  - intros l H. apply (good_gap [wd "goto"]); [split; reflexivity|reflexivity|].
    apply (good_close [wd (nm l)]); [|cbn; tauto]. split; [|reflexivity]. cbn [okp]. now rewrite ident_wf.
  - intros _. split; reflexivity.
  - intros l s I1 ls I2 H. rewrite !andb_true_iff in H. destruct H as ((H1 & H2) & H3).
    pose proof (good_lab l) as GL.
    destruct (is_skip s).
    + change (plab l ++ [op ":"; G sp] ++ pls ls) with (plab l ++ [op ":"] ++ ([G sp] ++ pls ls)).
      rewrite app_assoc. apply good_gap; auto.
    + change (plab l ++ [op ":"; G sp] ++ ps s ++ [G sp] ++ pls ls)
        with (plab l ++ [op ":"] ++ ([G sp] ++ (ps s ++ [G sp] ++ pls ls))).
      rewrite app_assoc. apply good_gap; [assumption|assumption|]. apply good_gap; auto.
Qed.

(** ** Reading *)

Notation "⟦ e ⟧" := (means nm tn mag_text e).

(** what the reader finds *)
Fixpoint items (s : stmt) : list cstmt :=
  match s with
  | Sskip => [CEmpty]
  | Ssequence s1 s2 => if is_skip s1 then items s2 else if is_skip s2 then items s1 else items s1 ++ items s2
  | Sifthenelse e s1 s2 =>
      if is_skip s2 then [CIf ⟦e⟧ (items s1) []]
      else if is_skip s1 then [CIf (CNot ⟦e⟧) (items s2) []]
      else [CIf ⟦e⟧ (items s1) (items s2)]
  | Sloop s => [CWhile (CLit 1 "") (items s)]
  | Sswitch e ls => [CSwitch ⟦e⟧ (citems ls)]
  | Slabel l s => CLabel (nm l) :: items s
  | s => flatten nm tn mag_text s
  end
with citems (ls : lstmts) : list cstmt :=
  match ls with
  | LSnil => []
  | LScons l s ls =>
      match l with None => CDefault | Some z => CCase z end ::
      (if is_skip s then [] else items s) ++ citems ls
  end.

Definition noelse (ts : list token) : bool := negb (starts (TId "else") ts).

Definition Blk (x : list token) (its : list cstmt) : Prop :=
  forall ts l r, noelse ts = true -> ev (fun F => pblock F ts) (l, r) ->
  ev (fun F => pblock F (x ++ ts)) (its ++ l, r).

(** the first token of a statement *)
Definition shead (x : list token) : bool :=
  match x with
  | TId s :: _ => negb (String.eqb s "else")
  | TNum _ :: _ => true
  | TOp s :: _ => negb (String.eqb s "}")
  | _ => false
  end.

Lemma shead_app : forall x y, shead x = true -> shead (x ++ y) = true.
Proof. intros [|[s|s|s|c] x] y H; try discriminate H; exact H. Qed.

Lemma shead_noelse : forall x, shead x = true -> noelse x = true.
Proof.
  intros [|[s|s|s|c] x] H; try reflexivity. cbn [shead] in H. unfold noelse, starts. cbn [eat teq].
  rewrite String.eqb_sym. destruct (String.eqb s "else"); [discriminate H|reflexivity].
Qed.

Lemma shead_brace : forall x, shead x = true -> eat (TOp "}") x = None.
Proof.
  intros [|[s|s|s|c] x] H; try reflexivity. cbn [shead] in H. cbn [eat teq].
  rewrite String.eqb_sym. destruct (String.eqb s "}"); [discriminate H|reflexivity].
Qed.

Lemma blk_one : forall x c, shead x = true ->
  (forall ts, noelse ts = true -> ev (fun F => pstmt F (x ++ ts)) (c, ts)) -> Blk x [c].
Proof.
  intros x c S0 H ts l r N E. apply ev_S. cbn [pblock]. rewrite shead_brace by (apply shead_app, S0).
  apply (ev_bind _ _ (fun F => pstmt F (x ++ ts))
    (fun F y => let (s, t1) := y in match pblock F t1 with Some (l, t2) => Some (s :: l, t2) | None => None end)
    (c, ts)); [apply H, N|].
  apply (ev_bind _ _ (fun F => pblock F ts) (fun F y => let (l, t2) := y in Some (c :: l, t2)) (l, r)); [exact E|].
  apply ev_const.
Qed.

Lemma blk_app : forall x y a b, Blk x a -> Blk y b -> (forall ts, noelse ts = true -> noelse (y ++ ts) = true) ->
  Blk (x ++ y) (a ++ b).
Proof.
  intros x y a b A B N ts l r T E. rewrite <- !app_assoc. apply A; [apply N, T|]. apply B; assumption.
Qed.

Lemma toks_cut : toks pcut = [].
Proof. unfold pcut. destruct cut; reflexivity. Qed.

Lemma toks_blk : forall x, toks (pblk x) = TOp "{" :: toks x ++ [TOp "}"].
Proof. intros. unfold pblk. rewrite !toks_app, toks_cut. reflexivity. Qed.

Lemma blk_brace : forall x its ts, Blk x its -> ev (fun F => pblock F (x ++ TOp "}" :: ts)) (its, ts).
Proof.
  intros x its ts B. rewrite <- (app_nil_r its). apply B; [reflexivity|].
  exists 1. intros [|F] L; [lia|]. reflexivity.
Qed.


Lemma phead_read : forall c f ts, ev (fun F => pexp F 6 (c ++ TOp ")" :: TOp "{" :: ts)) (f, TOp ")" :: TOp "{" :: ts) ->
  ev (fun F => phead F (TOp "(" :: c ++ TOp ")" :: TOp "{" :: ts)) (f, ts).
Proof.
  intros c f ts [n H]. exists n. intros F L. unfold phead. cbn [eat teq].
  change (String.eqb "(" "(") with true. cbn iota. rewrite H by assumption. reflexivity.
Qed.

Definition cnd (c : list token) : list token := TOp "(" :: c ++ [TOp ")"].

Lemma toks_cond : forall w c, toks (pcond w c) = TId w :: cnd (toks c).
Proof. intros. unfold pcond, cnd. rewrite !toks_app. reflexivity. Qed.

(** the three statements with a condition *)
Definition Cnd (c : list token) (f : cexp) : Prop :=
  forall ts, ev (fun F => phead F (cnd c ++ TOp "{" :: ts)) (f, ts).

Lemma cnd_of : forall c f, (forall ts, stops 5 ts = true -> ev (fun F => pexp F 6 (c ++ ts)) (f, ts)) -> Cnd c f.
Proof.
  intros c f H ts. unfold cnd. cbn [List.app]. rewrite <- app_assoc. cbn [List.app].
  apply phead_read. apply H. reflexivity.
Qed.

Lemma read_while : forall c f x its ts, Cnd c f -> Blk x its ->
  ev (fun F => pstmt F ((TId "while" :: cnd c ++ TOp "{" :: x ++ [TOp "}"]) ++ ts)) (CWhile f its, ts).
Proof.
  intros c f x its ts HC HB. cbn [List.app]. rewrite <- app_assoc. cbn [List.app]. rewrite <- app_assoc. cbn [List.app].
  apply ev_S. cbn [pstmt].
  match goal with |- context [pfixed fixed ?l] => change (pfixed fixed l) with (@None (cstmt * list token)) end.
  match goal with |- context [eat (TId "if") ?l] => change (eat (TId "if") l) with (@None (list token)) end.
  cbn iota. match goal with |- context [eat (TId "while") (TId "while" :: ?l)] =>
    change (eat (TId "while") (TId "while" :: l)) with (Some l) end. cbn iota.
  apply (ev_bind _ _ (fun F => phead F (cnd c ++ TOp "{" :: x ++ TOp "}" :: ts))
    (fun F y => let (e, t2) := y in match pblock F t2 with Some (s, t3) => Some (CWhile e s, t3) | None => None end)
    (f, x ++ TOp "}" :: ts)); [apply HC|].
  apply (ev_bind _ _ (fun F => pblock F (x ++ TOp "}" :: ts)) (fun F y => let (s, t3) := y in Some (CWhile f s, t3))
    (its, ts)); [now apply blk_brace|apply ev_const].
Qed.

Lemma read_switch : forall c f x its ts, Cnd c f -> Blk x its ->
  ev (fun F => pstmt F ((TId "switch" :: cnd c ++ TOp "{" :: x ++ [TOp "}"]) ++ ts)) (CSwitch f its, ts).
Proof.
  intros c f x its ts HC HB. cbn [List.app]. rewrite <- app_assoc. cbn [List.app]. rewrite <- app_assoc. cbn [List.app].
  apply ev_S. cbn [pstmt].
  match goal with |- context [pfixed fixed ?l] => change (pfixed fixed l) with (@None (cstmt * list token)) end.
  match goal with |- context [eat (TId "if") ?l] => change (eat (TId "if") l) with (@None (list token)) end.
  match goal with |- context [eat (TId "while") ?l] => change (eat (TId "while") l) with (@None (list token)) end.
  cbn iota. match goal with |- context [eat (TId "switch") (TId "switch" :: ?l)] =>
    change (eat (TId "switch") (TId "switch" :: l)) with (Some l) end. cbn iota.
  apply (ev_bind _ _ (fun F => phead F (cnd c ++ TOp "{" :: x ++ TOp "}" :: ts))
    (fun F y => let (e, t2) := y in match pblock F t2 with Some (s, t3) => Some (CSwitch e s, t3) | None => None end)
    (f, x ++ TOp "}" :: ts)); [apply HC|].
  apply (ev_bind _ _ (fun F => pblock F (x ++ TOp "}" :: ts)) (fun F y => let (s, t3) := y in Some (CSwitch f s, t3))
    (its, ts)); [now apply blk_brace|apply ev_const].
Qed.

Lemma read_if : forall c f x its rest s2 ts, Cnd c f -> Blk x its ->
  ev (fun F => match eats [TId "else"; TOp "{"] (rest ++ ts) with
               | Some t4 => match pblock F t4 with Some (s2, t5) => Some (CIf f its s2, t5) | None => None end
               | None => Some (CIf f its [], rest ++ ts)
               end) (CIf f its s2, ts) ->
  ev (fun F => pstmt F ((TId "if" :: cnd c ++ TOp "{" :: x ++ TOp "}" :: rest) ++ ts)) (CIf f its s2, ts).
Proof.
  intros c f x its rest s2 ts HC HB HE.
  cbn [List.app]. rewrite <- app_assoc. cbn [List.app]. rewrite <- app_assoc. cbn [List.app].
  apply ev_S. cbn [pstmt].
  match goal with |- context [pfixed fixed ?l] => change (pfixed fixed l) with (@None (cstmt * list token)) end.
  cbn iota. match goal with |- context [eat (TId "if") (TId "if" :: ?l)] =>
    change (eat (TId "if") (TId "if" :: l)) with (Some l) end. cbn iota.
  apply (ev_bind _ _ (fun F => phead F (cnd c ++ TOp "{" :: x ++ TOp "}" :: rest ++ ts))
    (fun F y => let (e, t2) := y in match pblock F t2 with
       | Some (s1, t3) => match eats [TId "else"; TOp "{"] t3 with
               | Some t4 => match pblock F t4 with Some (s2, t5) => Some (CIf e s1 s2, t5) | None => None end
               | None => Some (CIf e s1 [], t3)
               end
       | None => None end)
    (f, x ++ TOp "}" :: rest ++ ts)); [apply HC|].
  apply (ev_bind _ _ (fun F => pblock F (x ++ TOp "}" :: rest ++ ts))
    (fun F y => let (s1, t3) := y in match eats [TId "else"; TOp "{"] t3 with
               | Some t4 => match pblock F t4 with Some (s2, t5) => Some (CIf f s1 s2, t5) | None => None end
               | None => Some (CIf f s1 [], t3)
               end) (its, rest ++ ts)); [now apply blk_brace|exact HE].
Qed.

(** the first token of an expression *)
Definition ehead (l : list token) : bool :=
  match l with
  | TId s :: _ => negb (keyword s) || mem s ["sizeof"; "__alignof__"]
  | TNum _ :: _ => true
  | TOp s :: _ => mem s ["("; "*"; "&"; "-"; "~"; "!"]
  | _ => false
  end.

Lemma ehead_app : forall x y, ehead x = true -> ehead (x ++ y) = true.
Proof. intros [|[s|s|s|c] x] y H; try discriminate H; exact H. Qed.

Lemma ehead_shead : forall x, ehead x = true -> shead x = true.
Proof.
  intros [|[s|s|s|c] x] H; try discriminate H; try reflexivity; cbn [ehead shead] in *.
  - destruct (String.eqb s "else") eqn:E; [|reflexivity]. apply String.eqb_eq in E. subst. discriminate H.
  - destruct (String.eqb s "}") eqn:E; [|reflexivity]. apply String.eqb_eq in E. subst. discriminate H.
Qed.

Lemma ehead_tks : forall p e x, ehead x = true -> ehead (tks p e x) = true.
Proof. intros p e x H. unfold tks. destruct (Nat.ltb (prec e) p); [reflexivity|assumption]. Qed.

Lemma ehead_bt : forall e, expr_ok nm tn e = true -> ehead (bt sp nm tn e) = true.
Proof.
  induction e; intros H; cbn [expr_ok] in H; unfold bt; cbn [pb].
  - cbn [toks ehead]. now rewrite ident_kw.
  - cbn [toks ehead]. now rewrite ident_kw.
  - reflexivity.
  - rewrite !andb_true_iff in H. destruct H as ((H1 & _) & _).
    rewrite toks_app, toks_par. apply ehead_app, ehead_tks, IHe, H1.
  - unfold pconst_int, pcint. destruct t as [|[] [] a|[] a| | | | | |]; try reflexivity;
      destruct (signed 32 n <? 0)%Z; reflexivity.
  - unfold pfloat. destruct (fsign f); reflexivity.
  - unfold pconst_long, pcint. destruct t as [|[] [] a|[] a| | | | | |]; try reflexivity;
      destruct (signed 64 n <? 0)%Z; reflexivity.
  - destruct o; reflexivity.
  - reflexivity.
  - apply andb_true_iff in H. destruct H as [H1 _]. rewrite toks_app, toks_par. apply ehead_app, ehead_tks, IHe1, H1.
  - reflexivity.
  - reflexivity.
  - reflexivity.
Qed.

Lemma ehead_pe : forall p e, expr_ok nm tn e = true -> ehead (toks (PE p e)) = true.
Proof. intros p e H. unfold pe. rewrite toks_par. apply ehead_tks, ehead_bt, H. Qed.

Lemma ev_det : forall (A : Type) (f : nat -> option A) a b, ev f a -> ev f b -> a = b.
Proof.
  intros A f a b [n H] [m K0]. specialize (H (n + m) ltac:(lia)). specialize (K0 (n + m) ltac:(lia)). congruence.
Qed.

(** an expression is not mistaken for a label *)
Lemma not_label : forall x c ts, ev (fun F => pexp F 6 x) (c, ts) -> eat (TOp ":") ts = None -> plabel x = None.
Proof.
  intros x c ts E N. unfold plabel. destruct x as [|[s|s|s|d] x]; try reflexivity.
  destruct (eat (TOp ":") x) as [y|] eqn:Ex; [|reflexivity].
  destruct (keyword s) eqn:Ks; [reflexivity|]. exfalso.
  destruct x as [|[w|w|w|d] x]; try discriminate Ex. cbn [eat teq] in Ex.
  destruct (String.eqb ":" w) eqn:Ew; [|discriminate Ex]. apply String.eqb_eq in Ew. subst w.
  assert (R : ev (fun F => pexp F 6 ([TId s] ++ TOp ":" :: x)) (CVar s, TOp ":" :: x)).
  { apply (cast_rd (CVar s) [TId s] 16 (post_cast _ _ (atom_id s Ks))); try lia; [reflexivity|].
    apply (cont_stop 5); [lia|reflexivity]. }
  pose proof (ev_det _ _ _ _ E R) as X. inversion X; subst. discriminate N.
Qed.

(** statements that start with an expression *)
Lemma read_simple : forall x c r, ehead x = true -> plabel x = None ->
  ev (fun F => psimple F x) (c, r) -> ev (fun F => pstmt F x) (c, r).
Proof.
  intros x c r H L E. apply ev_S. cbn [pstmt].
  assert (KW : forall w, keyword w = true -> mem w ["sizeof"; "__alignof__"] = false -> eat (TId w) x = None).
  { intros w Kw Mw. destruct x as [|[s|s|s|d] x]; try reflexivity. cbn [eat teq ehead] in *.
    destruct (String.eqb w s) eqn:Ew; [|reflexivity]. apply String.eqb_eq in Ew. subst.
    rewrite Kw, Mw in H. discriminate H. }
  assert (pfixed fixed x = None) as ->.
  { unfold fixed. cbn [pfixed eats]. rewrite !KW by reflexivity.
    destruct x as [|[s|s|s|d] x]; try reflexivity. cbn [eat teq ehead] in *.
    destruct (String.eqb ";" s) eqn:Ew; [|reflexivity]. apply String.eqb_eq in Ew. subst. discriminate H. }
  rewrite !KW by reflexivity. rewrite L. exact E.
Qed.

Lemma simple_assign : forall x y a b ts,
  ev (fun F => pexp F 6 (x ++ TOp "=" :: y ++ TOp ";" :: ts)) (a, TOp "=" :: y ++ TOp ";" :: ts) ->
  ev (fun F => pexp F 6 (y ++ TOp ";" :: ts)) (b, TOp ";" :: ts) ->
  ehead x = true ->
  ev (fun F => pstmt F (x ++ TOp "=" :: y ++ TOp ";" :: ts)) (CAssign a b, ts).
Proof.
  intros x y a b ts A B H. apply read_simple; [now apply ehead_app|apply (not_label _ _ _ A); reflexivity|].
  unfold psimple.
  apply (ev_bind _ _ (fun F => pexp F 6 (x ++ TOp "=" :: y ++ TOp ";" :: ts))
    (fun F z => let (a, t1) := z in match eat (TOp ";") t1 with
      | Some t2 => Some (CExpr a, t2)
      | None => match eat (TOp "=") t1 with
          | Some t2 => match pexp F 6 t2 with
              | Some (b, t3) => match eat (TOp ";") t3 with Some t4 => Some (CAssign a b, t4) | None => None end
              | None => None end
          | None => None end
      end) (a, TOp "=" :: y ++ TOp ";" :: ts)); [exact A|].
  cbn [eat teq]. change (String.eqb ";" "=") with false. change (String.eqb "=" "=") with true. cbn iota.
  apply (ev_bind _ _ (fun F => pexp F 6 (y ++ TOp ";" :: ts))
    (fun F z => let (b, t3) := z in match eat (TOp ";") t3 with Some t4 => Some (CAssign a b, t4) | None => None end)
    (b, TOp ";" :: ts)); [exact B|]. apply ev_const.
Qed.

Lemma simple_expr : forall x a ts,
  ev (fun F => pexp F 6 (x ++ TOp ";" :: ts)) (a, TOp ";" :: ts) -> ehead x = true ->
  ev (fun F => pstmt F (x ++ TOp ";" :: ts)) (CExpr a, ts).
Proof.
  intros x a ts A H. apply read_simple; [now apply ehead_app|apply (not_label _ _ _ A); reflexivity|].
  unfold psimple. destruct A as [n A]. exists n. intros F L. rewrite A by assumption. reflexivity.
Qed.

(** ** Calls *)

Definition targs (l : list expr) : list token := toks (psep (List.map (PE 2) l) [op ","; G sp]).

Lemma targs_cons : forall e e' l, targs (e :: e' :: l) = toks (PE 2 e) ++ TOp "," :: targs (e' :: l).
Proof. intros. unfold targs. cbn [List.map psep]. rewrite !toks_app. reflexivity. Qed.

Lemma args_read : forall l ts, forallb (expr_ok nm tn) l = true ->
  ev (fun F => pargs F (targs l ++ TOp ")" :: ts)) (List.map (means nm tn mag_text) l, ts).
Proof.
  intros l ts H. destruct l as [|e l].
  - exists 1. intros [|F] L; [lia|]. reflexivity.
  - apply ev_S. cbn [pargs].
    assert (HE : ehead (targs (e :: l)) = true).
    { cbn [forallb] in H. apply andb_true_iff in H. destruct H as [H1 _]. unfold targs. cbn [List.map psep].
      destruct (List.map (PE 2) l); [apply ehead_pe, H1|]. rewrite toks_app. apply ehead_app, ehead_pe, H1. }
    assert (eat (TOp ")") (targs (e :: l) ++ TOp ")" :: ts) = None) as ->.
    { destruct (targs (e :: l)) as [|[s|s|s|d] x]; try discriminate HE; try reflexivity.
      cbn [List.app eat teq ehead] in *. destruct (String.eqb ")" s) eqn:E; [|reflexivity].
      apply String.eqb_eq in E. subst. discriminate HE. }
    clear HE. revert e H. induction l as [|e' l IH]; intros e H; cbn [forallb] in H; apply andb_true_iff in H; destruct H as [H1 H2];
      apply ev_S; cbn [pmore].
    + unfold targs. cbn [List.map psep].
      apply (ev_bind _ _ (fun F => pexp F 6 (toks (PE 2 e) ++ TOp ")" :: ts))
        (fun F z => let (a, t1) := z in match eat (TOp ",") t1 with
          | Some t2 => match pmore F t2 with Some (l, t3) => Some (a :: l, t3) | None => None end
          | None => match eat (TOp ")") t1 with Some t2 => Some ([a], t2) | None => None end
          end) (⟦e⟧, TOp ")" :: ts)); [|apply ev_const].
      apply read_low; (lia || assumption || reflexivity).
    + rewrite targs_cons, <- app_assoc. cbn [List.app].
      apply (ev_bind _ _ (fun F => pexp F 6 (toks (PE 2 e) ++ TOp "," :: targs (e' :: l) ++ TOp ")" :: ts))
        (fun F z => let (a, t1) := z in match eat (TOp ",") t1 with
          | Some t2 => match pmore F t2 with Some (l, t3) => Some (a :: l, t3) | None => None end
          | None => match eat (TOp ")") t1 with Some t2 => Some ([a], t2) | None => None end
          end) (⟦e⟧, TOp "," :: targs (e' :: l) ++ TOp ")" :: ts)).
      * apply read_low; (lia || assumption || reflexivity).
      * cbn [eat teq]. change (String.eqb "," ",") with true. cbn iota.
        apply (ev_bind _ _ (fun F => pmore F (targs (e' :: l) ++ TOp ")" :: ts))
          (fun F z => let (l, t3) := z in Some (⟦e⟧ :: l, t3))
          (List.map (means nm tn mag_text) (e' :: l), ts)); [|apply ev_const].
        apply IH. assumption.
Qed.

Lemma callee_post : forall f, expr_ok nm tn f = true -> callee_ok f = true -> Post ⟦f⟧ (toks (PE 15 f)).
Proof.
  intros f H C. pose proof (readable_all sp nm tn Hsp Hfl Hlit f H) as R.
  unfold pe. rewrite toks_par. fold (bt sp nm tn f). unfold tks. destruct (Nat.ltb (prec f) 15) eqn:E.
  - apply (paren_post _ _ (prec f)); [apply prec_lo|apply R|apply R].
  - apply Nat.ltb_ge in E. apply R; destruct f; try discriminate C; try reflexivity; cbn in E; try lia.
    destruct o; cbn in E; lia.
Qed.

Definition tcall (f : expr) (l : list expr) : list token := toks (PE 15 f) ++ TOp "(" :: targs l ++ [TOp ")"].

Lemma toks_call : forall f l, toks (pcall f l) = tcall f l ++ [TOp ";"].
Proof.
  intros. unfold pcall, tcall, targs. rewrite !toks_app, toks_cut. cbn [toks List.app].
  rewrite <- !app_assoc. cbn [List.app]. rewrite <- app_assoc. reflexivity.
Qed.

Lemma call_read : forall f l ts, expr_ok nm tn f = true -> callee_ok f = true ->
  forallb (expr_ok nm tn) l = true -> stops 5 ts = true ->
  ev (fun F => pexp F 6 (tcall f l ++ ts)) (CCall ⟦f⟧ (List.map (means nm tn mag_text) l), ts).
Proof.
  intros f l ts Hf Hc Hl S0. set (c := CCall ⟦f⟧ (List.map (means nm tn mag_text) l)).
  assert (P : Post c (tcall f l)).
  { destruct (callee_post f Hf Hc) as [Pl P]. unfold tcall. split.
    - intros t. rewrite <- app_assoc. apply Pl.
    - intros t r R. rewrite <- app_assoc. apply P. apply ev_S. cbn [List.app ppsuf eat teq].
      change (String.eqb "." "(") with false. change (String.eqb "(" "(") with true. cbn iota.
      rewrite <- app_assoc. cbn [List.app].
      apply (ev_bind _ _ (fun F => pargs F (targs l ++ TOp ")" :: t))
        (fun F z => let (l, t2) := z in ppsuf F (CCall ⟦f⟧ l) t2) (List.map (means nm tn mag_text) l, t));
        [now apply args_read|exact R]. }
  apply (cast_rd c _ 16 (post_cast _ _ P)); try lia; [apply (stops_mono 5); [lia|assumption]|].
  apply (cont_stop 5); [lia|assumption].
Qed.

Lemma ehead_call : forall f l, expr_ok nm tn f = true -> ehead (tcall f l) = true.
Proof. intros. unfold tcall. apply ehead_app, ehead_pe. assumption. Qed.

(** ** The statements *)

Lemma skip_noelse : forall x, shead x = true -> forall ts, noelse ts = true -> noelse (x ++ ts) = true.
Proof. intros x H ts _. apply shead_noelse, shead_app, H. Qed.

Lemma shead_stmt : forall s, stmt_ok nm tn s = true -> shead (toks (ps s)) = true.
Proof.
  induction s; intros H; cbn [ps stmt_ok] in *.
  - reflexivity.
  - apply andb_true_iff in H. destruct H as [H _]. rewrite toks_app. apply shead_app, ehead_shead, ehead_pe, H.
  - apply andb_true_iff in H. destruct H as [H _]. cbn [List.app toks shead].
    rewrite String.eqb_sym, kw_ne; [reflexivity|now apply ident_kw|reflexivity].
  - rewrite !andb_true_iff in H. destruct H as (((H & H1) & H2) & H3). destruct id as [id|].
    + cbn [List.app toks shead]. rewrite String.eqb_sym, kw_ne; [reflexivity|now apply ident_kw|reflexivity].
    + rewrite toks_call. apply shead_app, ehead_shead, ehead_call, H1.
  - apply andb_true_iff in H. destruct H as [H1 H2]. destruct (is_skip s1); [auto|].
    destruct (is_skip s2); [auto|]. rewrite toks_app. apply shead_app. auto.
  - destruct (is_skip s2); [|destruct (is_skip s1)]; rewrite toks_app, toks_cond; reflexivity.
  - rewrite toks_app, toks_cond; reflexivity.
  - reflexivity.
  - reflexivity.
  - rewrite toks_app, toks_cond; reflexivity.
  - destruct e as [e|]; reflexivity.
  - apply andb_true_iff in H. destruct H as [H _]. cbn [List.app toks shead].
    rewrite String.eqb_sym, kw_ne; [reflexivity|now apply ident_kw|reflexivity].
  - reflexivity.
Qed.

Lemma ident_read : forall s ts, ident s = true -> stops 5 ts = true ->
  ev (fun F => pexp F 6 ([TId s] ++ ts)) (CVar s, ts).
Proof.
  intros s ts I S0. apply (cast_rd (CVar s) [TId s] 16 (post_cast _ _ (atom_id s (ident_kw _ I)))); try lia.
  - apply (stops_mono 5); [lia|assumption].
  - apply (cont_stop 5); [lia|assumption].
Qed.

Lemma ident_ehead : forall s l, ident s = true -> ehead (TId s :: l) = true.
Proof. intros s l I. cbn [ehead]. now rewrite ident_kw. Qed.

Lemma lab_read : forall l ts, match l with Some z => (- 2 ^ 62 <=? z)%Z && (z <? 2 ^ 62)%Z | None => true end = true ->
  ev (fun F => pstmt F (toks (plab l ++ [op ":"]) ++ ts)) (match l with None => CDefault | Some z => CCase z end, ts).
Proof.
  intros [z|] ts H; unfold plab.
  - apply andb_true_iff in H. destruct H as [A B]. apply Z.leb_le in A. apply Z.ltb_lt in B.
    rewrite (label_value z (conj A B)). exists 1. intros [|F] L; [lia|]. cbn [pstmt].
    rewrite !toks_app. cbn [toks List.app].
    unfold pcint. destruct (z <? 0)%Z eqn:Z0; cbn [toks List.app].
    + match goal with |- match ?a with _ => _ end = _ => change a with (@None (cstmt * list token)) end.
      cbn iota. cbn [eat teq].
      repeat match goal with |- context [String.eqb ?a "case"] =>
        let v := eval compute in (String.eqb a "case") in change (String.eqb a "case") with v end. cbn iota.
      unfold pcase. cbn [eat teq]. change (String.eqb "-" "-") with true. cbn iota.
      rewrite sapp_nil, read_int_dec. change (String.eqb ":" ":") with true. cbn iota.
      apply Z.ltb_lt in Z0. rewrite N2Z.inj_abs_N, Z.abs_neq, Z.opp_involutive by (apply Z.lt_le_incl; exact Z0). reflexivity.
    + match goal with |- match ?a with _ => _ end = _ => change a with (@None (cstmt * list token)) end.
      cbn iota. cbn [eat teq].
      repeat match goal with |- context [String.eqb ?a "case"] =>
        let v := eval compute in (String.eqb a "case") in change (String.eqb a "case") with v end. cbn iota.
      unfold pcase. cbn [eat teq].
      rewrite sapp_nil, read_int_dec. change (String.eqb ":" ":") with true. cbn iota.
      apply Z.ltb_ge in Z0. rewrite Z2N.id by assumption. reflexivity.
  - exists 1. intros [|F] L; [lia|]. reflexivity.
Qed.

Lemma shead_lab : forall l, shead (toks (plab l ++ [op ":"])) = true.
Proof. intros [z|]; reflexivity. Qed.

Lemma read_all :
  (forall s, stmt_ok nm tn s = true -> Blk (toks (ps s)) (items s)) /\
  (forall ls, lstmts_ok nm tn ls = true -> Blk (toks (pls ls)) (citems ls)).
Proof.
  assert (FX : forall x c, shead x = true -> (forall ts, pfixed fixed (x ++ ts) = Some (c, ts)) -> Blk x [c]).
  { intros x c S0 H. apply blk_one; [assumption|]. intros ts _. exists 1. intros [|F] L; [lia|].
    cbn [pstmt]. now rewrite H. }
  assert (CE : forall p e, p <= 6 -> expr_ok nm tn e = true -> Cnd (toks (PE p e)) ⟦e⟧).
  { intros p e P He. apply cnd_of. intros ts S0. now apply read_low. }
  apply stmt_mut; cbn [stmt_ok lstmts_ok].
  - intros _. apply FX; reflexivity.
  - intros a b H. pose proof H as H0. apply andb_true_iff in H. destruct H as [H1 H2]. cbn [ps items flatten].
    apply blk_one; [apply (shead_stmt (Sassign a b)), H0|]. intros ts _.
    rewrite !toks_app. cbn [toks List.app]. rewrite <- app_assoc. cbn [List.app]. rewrite <- app_assoc. cbn [List.app].
    apply simple_assign.
    + apply read_low; (lia || assumption || reflexivity).
    + apply read_low; (lia || assumption || reflexivity).
    + now apply ehead_pe.
  - intros id b H. pose proof H as H0. apply andb_true_iff in H. destruct H as [H1 H2]. cbn [ps items flatten].
    apply blk_one; [apply (shead_stmt (Sset id b)), H0|]. intros ts _.
    rewrite !toks_app. cbn [toks List.app]. rewrite <- app_assoc. cbn [List.app].
    apply (simple_assign [TId (tn id)]).
    + apply ident_read; [assumption|reflexivity].
    + apply read_low; (lia || assumption || reflexivity).
    + now apply ident_ehead.
  - intros id f l H. pose proof H as H0. rewrite !andb_true_iff in H. destruct H as (((H1 & H2) & H3) & H4).
    destruct id as [id|]; cbn [ps items flatten].
    + apply blk_one; [apply (shead_stmt (Scall (Some id) f l)), H0|]. intros ts _.
      rewrite toks_app, toks_call. cbn [toks List.app]. rewrite <- app_assoc. cbn [List.app].
      apply (simple_assign [TId (tn id)]).
      * apply ident_read; [assumption|reflexivity].
      * apply call_read; (assumption || reflexivity).
      * now apply ident_ehead.
    + apply blk_one; [apply (shead_stmt (Scall None f l)), H0|]. intros ts _.
      rewrite toks_call, <- app_assoc. cbn [List.app].
      apply simple_expr; [apply call_read; (assumption || reflexivity)|now apply ehead_call].
  - intros s1 I1 s2 I2 H. apply andb_true_iff in H. destruct H as [H1 H2]. cbn [ps items].
    destruct (is_skip s1); [auto|]. destruct (is_skip s2); [auto|].
    rewrite !toks_app. cbn [toks List.app]. apply blk_app; auto.
    apply skip_noelse, shead_stmt, H2.
  - intros e s1 I1 s2 I2 H. pose proof H as H0. rewrite !andb_true_iff in H. destruct H as ((He & H1) & H2).
    apply (shead_stmt (Sifthenelse e s1 s2)) in H0. revert H0. cbn [ps items].
    specialize (I1 H1). specialize (I2 H2).
    destruct (is_skip s2) eqn:K2; [|destruct (is_skip s1) eqn:K1]; intros H0.
    + apply blk_one; [exact H0|]. clear H0. intros ts N. rewrite toks_app, toks_cond, toks_blk.
      apply (read_if (toks (PE 0 e)) ⟦e⟧ (toks (ps s1)) (items s1) [] [] ts); [apply CE; [lia|assumption]|assumption|].
      cbn [List.app eats]. unfold noelse, starts in N. destruct (eat (TId "else") ts); [discriminate N|]. apply ev_const.
    + apply blk_one; [exact H0|]. clear H0. intros ts N. rewrite toks_app, toks_cond, toks_blk.
      apply (read_if (toks ([op "!"; G " "] ++ PE 15 e)) (CNot ⟦e⟧) (toks (ps s2)) (items s2) [] [] ts); [|assumption|].
      * apply cnd_of. intros t S0. rewrite toks_app. cbn [toks].
        assert (C : Cast (CNot ⟦e⟧) (TOp "!" :: toks (PE 15 e))).
        { apply (prefix_cast "!" CNot); [reflexivity|]. unfold pe. rewrite toks_par.
          apply (tk_cast sp nm tn e); [now apply readable_all|lia]. }
        apply (cast_rd _ _ 16 C); try lia; [apply (stops_mono 5); [lia|assumption]|].
        apply (cont_stop 5); [lia|assumption].
      * cbn [List.app eats]. unfold noelse, starts in N. destruct (eat (TId "else") ts); [discriminate N|]. apply ev_const.
    + apply blk_one; [exact H0|]. clear H0. intros ts N. rewrite !toks_app, toks_cond, !toks_blk.
      assert (X : (TId "if" :: cnd (toks (PE 0 e))) ++ (TOp "{" :: toks (ps s1) ++ [TOp "}"]) ++
                  toks [G " "; wd "else"; G " "] ++ TOp "{" :: toks (ps s2) ++ [TOp "}"] =
                  TId "if" :: cnd (toks (PE 0 e)) ++ TOp "{" :: toks (ps s1) ++ TOp "}" ::
                  TId "else" :: TOp "{" :: toks (ps s2) ++ [TOp "}"]).
      { cbn [toks List.app]. do 3 f_equal. rewrite <- app_assoc. reflexivity. }
      rewrite X. clear X.
      apply (read_if (toks (PE 0 e)) ⟦e⟧ (toks (ps s1)) (items s1) (TId "else" :: TOp "{" :: toks (ps s2) ++ [TOp "}"])
        (items s2) ts); [apply CE; [lia|assumption]|assumption|].
      cbn [List.app eats eat teq]. change (String.eqb "else" "else") with true. change (String.eqb "{" "{") with true.
      cbn iota. rewrite <- app_assoc. cbn [List.app].
      apply (ev_bind _ _ (fun F => pblock F (toks (ps s2) ++ TOp "}" :: ts))
        (fun F z => let (s2', t5) := z in Some (CIf ⟦e⟧ (items s1) s2', t5)) (items s2, ts));
        [now apply blk_brace|apply ev_const].
  - intros s I1 H. cbn [ps items]. apply blk_one; [rewrite toks_app, toks_cond; reflexivity|]. intros ts _.
    rewrite toks_app, toks_cond, toks_blk. apply (read_while [TNum "1"]); [|auto].
    apply cnd_of. intros t S0. apply (cast_rd _ _ 16 (post_cast _ _ (atom_num "1" (CLit 1 "") eq_refl))); try lia.
    + apply (stops_mono 5); [lia|assumption].
    + apply (cont_stop 5); [lia|assumption].
  - intros _. apply FX; reflexivity.
  - intros _. apply FX; reflexivity.
  - intros e ls I1 H. rewrite andb_true_iff in H. destruct H as (He & H1). cbn [ps items].
    apply blk_one; [rewrite toks_app, toks_cond; reflexivity|]. intros ts _.
    rewrite toks_app, toks_cond, toks_blk. apply (read_switch (toks (PE 0 e))); [apply CE; [lia|assumption]|auto].
  - intros [e|] H; [|apply FX; reflexivity]. cbn [ps items flatten].
    apply blk_one; [reflexivity|]. intros ts _. rewrite !toks_app. cbn [toks List.app].
    rewrite <- app_assoc. cbn [List.app]. apply ev_S. cbn [pstmt].
    assert (HE : eat (TOp ";") (toks (PE 0 e) ++ TOp ";" :: ts) = None).
    { pose proof (ehead_pe 0 e H) as HE. destruct (toks (PE 0 e)) as [|[s|s|s|d] x]; try discriminate HE; try reflexivity.
      cbn [List.app eat teq ehead] in *. destruct (String.eqb ";" s) eqn:E; [|reflexivity].
      apply String.eqb_eq in E. subst. discriminate HE. }
    assert (pfixed fixed (TId "return" :: toks (PE 0 e) ++ TOp ";" :: ts) = None) as ->.
    { unfold fixed. cbn [pfixed eats eat teq]. 
      repeat match goal with |- context [String.eqb ?a "return"] =>
        let v := eval compute in (String.eqb a "return") in change (String.eqb a "return") with v end. cbn iota.
      rewrite HE. reflexivity. }
    cbn [eat teq].
    repeat match goal with |- context [String.eqb ?a "return"] =>
        let v := eval compute in (String.eqb a "return") in change (String.eqb a "return") with v end. cbn iota.
    unfold preturn.
    apply (ev_bind _ _ (fun F => pexp F 6 (toks (PE 0 e) ++ TOp ";" :: ts))
      (fun F z => let (e, t1) := z in match eat (TOp ";") t1 with Some t2 => Some (CReturn (Some e), t2) | None => None end)
      (⟦e⟧, TOp ";" :: ts)); [apply read_low; (lia || assumption || reflexivity)|apply ev_const].
  - intros l s I1 H. apply andb_true_iff in H. destruct H as [H1 H2]. cbn [ps items].
    rewrite toks_app. change (CLabel (nm l) :: items s) with ([CLabel (nm l)] ++ items s).
    apply blk_app; [|auto|apply skip_noelse, shead_stmt, H2].
    cbn [toks]. apply blk_one.
    + cbn [shead]. rewrite String.eqb_sym, kw_ne; [reflexivity|now apply ident_kw|reflexivity].
    + intros ts _. pose proof (ident_kw _ H1) as Kw. exists 1. intros [|F] L; [lia|]. cbn [pstmt List.app].
      unfold fixed. cbn [pfixed eats]. rewrite !eat_kw by (assumption || reflexivity).
      cbn [eat teq plabel]. change (String.eqb ":" ":") with true. cbn iota. rewrite Kw. reflexivity.
  - intros l H. cbn [ps items flatten toks]. apply blk_one; [reflexivity|].
    intros ts _. exists 1. intros [|F] L; [lia|]. cbn [pstmt List.app]. reflexivity.
  - intros _ ts l r N E. exact E.
  - intros l s I1 ls I2 H. rewrite !andb_true_iff in H. destruct H as ((H1 & H2) & H3).
    specialize (I1 H2). specialize (I2 H3).
    assert (L : Blk (toks (plab l ++ [op ":"])) [match l with None => CDefault | Some z => CCase z end]).
    { apply blk_one; [apply shead_lab|]. intros ts _. now apply lab_read. }
    assert (NE : forall ts, noelse ts = true -> noelse (toks (pls ls) ++ ts) = true).
    { intros ts N. destruct ls as [|l' s' ls']; [exact N|].
      assert (X : exists y, toks (pls (LScons l' s' ls')) = toks (plab l' ++ [op ":"]) ++ y).
      { cbn [pls]. destruct (is_skip s'); rewrite !toks_app; cbn [toks];
          eexists; rewrite <- app_assoc; cbn [List.app]; reflexivity. }
      destruct X as [y ->]. apply shead_noelse, shead_app, shead_app, shead_lab. }
    cbn [pls citems].
    match goal with |- Blk _ (?a :: ?b) => change (a :: b) with ([a] ++ b) end.
    destruct (is_skip s).
    + change (plab l ++ [op ":"; G sp] ++ pls ls) with (plab l ++ [op ":"] ++ ([G sp] ++ pls ls)).
      rewrite app_assoc, toks_app. apply blk_app; assumption.
    + change (plab l ++ [op ":"; G sp] ++ ps s ++ [G sp] ++ pls ls)
        with (plab l ++ [op ":"] ++ ([G sp] ++ (ps s ++ [G sp] ++ pls ls))).
      rewrite app_assoc, toks_app. apply blk_app; [assumption| |].
      * cbn [List.app toks]. rewrite toks_app. cbn [toks]. apply blk_app; assumption.
      * cbn [List.app toks]. rewrite toks_app. intros ts N. apply shead_noelse. rewrite <- app_assoc.
        apply shead_app, shead_stmt, H2.
Qed.

(** ** Up to empty statements and negated conditions *)

Lemma tidy_list : forall l, (fix tidies (l : list cstmt) : list cstmt :=
    match l with [] => [] | s :: l => tidy s ++ tidies l end) l = tidies l.
Proof. induction l as [|s l IH]; [reflexivity|]. cbn [tidies flat_map]. now rewrite IH. Qed.

Lemma tidy_if : forall e a b, tidy (CIf e a b) =
  (let '(e', n) := cond e in [if n then CIf e' (tidies b) (tidies a) else CIf e' (tidies a) (tidies b)]).
Proof. intros. cbn [tidy]. rewrite (tidy_list a), (tidy_list b). reflexivity. Qed.
Lemma tidy_while : forall e a, tidy (CWhile e a) = [CWhile e (tidies a)].
Proof. intros. cbn [tidy]. now rewrite tidy_list. Qed.
Lemma tidy_switch : forall e a, tidy (CSwitch e a) = [CSwitch e (tidies a)].
Proof. intros. cbn [tidy]. now rewrite tidy_list. Qed.

Lemma tidies_app : forall a b, tidies (a ++ b) = tidies a ++ tidies b.
Proof. intros. apply flat_map_app. Qed.

Lemma tidies_one : forall s, tidies [s] = tidy s.
Proof. intros. unfold tidies. cbn [flat_map]. apply app_nil_r. Qed.

Lemma tidy_all :
  (forall s, tidies (items s) = tidies (flatten nm tn mag_text s)) /\
  (forall ls, tidies (citems ls) = tidies (flattens nm tn mag_text ls)).
Proof.
  assert (SK : forall s, is_skip s = true -> tidies (flatten nm tn mag_text s) = []).
  { intros s H. rewrite (is_skip_eq s H). reflexivity. }
  apply stmt_mut; intros; cbn [items citems flatten flattens]; try reflexivity.
  - rewrite tidies_app. destruct (is_skip s1) eqn:K1; [rewrite (SK s1 K1); exact H0|].
    destruct (is_skip s2) eqn:K2; [rewrite (SK s2 K2), app_nil_r; exact H|].
    rewrite tidies_app, H, H0. reflexivity.
  - rewrite !tidies_one. destruct (is_skip s2) eqn:K2; [|destruct (is_skip s1) eqn:K1].
    + rewrite tidies_one, ?tidy_if, (SK s2 K2), H. reflexivity.
    + rewrite tidies_one, ?tidy_if, (SK s1 K1), H0. cbn [cond].
      destruct (cond ⟦e⟧) as [c n]. destruct n; reflexivity.
    + rewrite tidies_one, ?tidy_if, H, H0. reflexivity.
  - rewrite (tidies_one (CWhile _ (items s))), tidies_one, !tidy_while. now rewrite H.
  - rewrite (tidies_one (CSwitch _ (citems ls))), tidies_one, !tidy_switch. now rewrite H.
  - change (CLabel (nm l) :: items s) with ([CLabel (nm l)] ++ items s).
    change (CLabel (nm l) :: flatten nm tn mag_text s) with ([CLabel (nm l)] ++ flatten nm tn mag_text s).
    rewrite !tidies_app, H. reflexivity.
  - destruct l as [z|].
    + change (CCase z :: ?a) with ([CCase z] ++ a). cbn [tidies flat_map tidy List.app]. f_equal.
      fold (tidies ((if is_skip s then [] else items s) ++ citems ls)).
      fold (tidies (flatten nm tn mag_text s ++ flattens nm tn mag_text ls)).
      rewrite tidies_app, (tidies_app (flatten nm tn mag_text s)), H0. f_equal. destruct (is_skip s) eqn:K1; [now rewrite (SK s K1)|exact H].
    + cbn [tidies flat_map tidy List.app]. f_equal.
      fold (tidies ((if is_skip s then [] else items s) ++ citems ls)).
      fold (tidies (flatten nm tn mag_text s ++ flattens nm tn mag_text ls)).
      rewrite tidies_app, (tidies_app (flatten nm tn mag_text s)), H0. f_equal. destruct (is_skip s) eqn:K1; [now rewrite (SK s K1)|exact H].
Qed.

Lemma stmt_reads : forall s, stmt_ok nm tn s = true ->
  reads_block (print_stmt sp cut nm tn s ++ cut ++ "}") (items s).
Proof.
  intros s H. unfold reads_block. destruct render_stmt as [R _]. rewrite <- R.
  assert (E : (render (ps s) ++ cut ++ "}")%string = render (ps s ++ pcut ++ [op "}"])).
  { rewrite !render_app, render_cut. reflexivity. }
  rewrite E, lex_pieces.
  - rewrite !toks_app, toks_cut. apply blk_brace. now apply read_all.
  - apply good_cut; [now apply good_stmt|cbn; tauto].
Qed.

End STMT.
