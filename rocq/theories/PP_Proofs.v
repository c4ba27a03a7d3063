(** * Whole files: printed text and its reading *)
From Coq Require Import ZArith NArith List String Ascii Bool Lia.
From Coq.Floats Require Import SpecFloat.
From Verif Require Import PR_Model PR_Spec PR_Lex PR_Num PR_Types PR_Decl PR_Exprs PR_Read PR_Stmt PR_Fun.
From Verif Require Import PP_Model PP_Spec.
Import ListNotations.
Local Open Scope string_scope.
Local Open Scope list_scope.

(** ** Tokens that tell declarations apart *)

Definition clean (t : token) : bool :=
  match t with
  | TId s => negb (String.eqb s "const")
  | TOp s => negb (mem s [";"; "="; "{"])
  | _ => true
  end.

Lemma first_clean : forall l ts, forallb clean l = true -> first_of (l ++ ts) = first_of ts.
Proof.
  induction l as [|t l IH]; intros ts H; [reflexivity|]. cbn [forallb] in H. apply andb_true_iff in H.
  destruct H as [H1 H2]. cbn [List.app first_of]. destruct t as [s|s|s|c]; try (now apply IH).
  cbn [clean] in H1. apply negb_true_iff in H1. rewrite H1. now apply IH.
Qed.

Lemma unconst_clean : forall l s ts, forallb clean l = true -> mem s [";"; "="; "{"] = true ->
  unconst (l ++ TOp s :: ts) = None.
Proof.
  induction l as [|t l IH]; intros s ts H M.
  - cbn [List.app unconst]. now rewrite M.
  - cbn [forallb] in H. apply andb_true_iff in H. destruct H as [H1 H2]. specialize (IH s ts H2 M).
    cbn [List.app unconst]. destruct t as [w|w|w|c]; cbn [clean] in H1; rewrite ?IH; try reflexivity.
    + apply negb_true_iff in H1. now rewrite H1.
    + apply negb_true_iff in H1. now rewrite H1.
Qed.

Lemma unconst_const : forall l x ts, forallb clean l = true ->
  unconst (l ++ TId "const" :: TId x :: ts) = Some (x, l ++ TId x :: ts).
Proof.
  induction l as [|t l IH]; intros x ts H; [reflexivity|].
  cbn [forallb] in H. apply andb_true_iff in H. destruct H as [H1 H2]. specialize (IH x ts H2).
  cbn [List.app unconst]. rewrite IH. destruct t as [w|w|w|c]; cbn [clean] in H1; try reflexivity.
  - apply negb_true_iff in H1. now rewrite H1.
  - apply negb_true_iff in H1. now rewrite H1.
Qed.

(** ** Declarators as contexts of the declared name *)

Section FILE.
Variable sp cut : string.
Variable nm tn : positive -> string.

Lemma pcd_ctx : forall ty, exists lp rp, forall dp, dp <> [] -> pcd nm dp ty = lp ++ dp ++ rp.
Proof.
  assert (B : forall ws, exists lp rp, forall dp, dp <> [] -> ws ++ optid dp = lp ++ dp ++ rp).
  { intros ws. exists (ws ++ [G " "]), []. intros [|d dp] N; [congruence|]. cbn [optid].
    rewrite app_nil_r, <- app_assoc. reflexivity. }
  apply type_ind2.
  - apply (B [wd "void"]).
  - intros sz sg a. destruct (B (pint sz sg ++ pattr a)) as (l & r & H). exists l, r. intros dp N. cbn [pcd].
    rewrite <- H by assumption. now rewrite <- app_assoc.
  - intros sg a. destruct (B (plong sg ++ pattr a)) as (l & r & H). exists l, r. intros dp N. cbn [pcd].
    rewrite <- H by assumption. now rewrite <- app_assoc.
  - intros sz a. destruct (B ([wd (name_floattype sz)] ++ pattr a)) as (l & r & H). exists l, r. intros dp N. cbn [pcd].
    rewrite <- H by assumption. now rewrite <- app_assoc.
  - intros t a (l & r & H). cbn [pcd]. destruct (is_value (Tpointer t a)); [apply (B [wd "value"])|].
    destruct (fun_or_array t).
    + exists (l ++ op "(" :: op "*" :: pattr_sp a), ([op ")"] ++ r). intros dp N.
      rewrite H by discriminate. rewrite <- !app_assoc. cbn [List.app]. now rewrite <- !app_assoc.
    + exists (l ++ op "*" :: pattr_sp a), r. intros dp N. rewrite H by discriminate.
      rewrite <- !app_assoc. cbn [List.app]. now rewrite <- !app_assoc.
  - intros t n a (l & r & H). cbn [pcd].
    exists l, ([op "["; W (TNum (sdec (camlint_of_coqint n))); op "]"] ++ r). intros dp N.
    rewrite H; [now rewrite <- !app_assoc|]. destruct dp; [congruence|discriminate].
  - intros args res va un _ (l & r & H). cbn [pcd].
    set (argp := if un then [] else _).
    exists l, ((op "(" :: argp ++ [op ")"]) ++ r). intros dp N.
    destruct dp as [|d dp]; [congruence|]. rewrite H by discriminate. now rewrite <- !app_assoc.
  - intros i a. destruct (B ([wd "struct"; G " "; wd (nm i)] ++ pattr a)) as (l & r & H). exists l, r. intros dp N. cbn [pcd].
    rewrite <- H by assumption. now rewrite <- app_assoc.
  - intros i a. destruct (B ([wd "union"; G " "; wd (nm i)] ++ pattr a)) as (l & r & H). exists l, r. intros dp N. cbn [pcd].
    rewrite <- H by assumption. now rewrite <- app_assoc.
Qed.

Lemma clean_attr : forall a, forallb clean (toks (pattr a)) = true.
Proof. intros a. unfold pattr. destruct (attr_alignas a), (attr_volatile a); reflexivity. Qed.

Lemma ident_clean : forall s, ident s = true -> clean (TId s) = true.
Proof.
  intros s H. cbn [clean]. rewrite String.eqb_sym. now rewrite (kw_ne s "const" (ident_kw _ H) eq_refl).
Qed.

Lemma clean_sep : forall l, Forall (fun x => forallb clean (toks x) = true) l ->
  forallb clean (toks (psep l [op ","; G " "])) = true.
Proof.
  induction l as [|x l IH]; intros H; [reflexivity|]. inversion H; subst. destruct l as [|y l]; [assumption|].
  change (psep (x :: y :: l) [op ","; G " "]) with (x ++ [op ","; G " "] ++ psep (y :: l) [op ","; G " "]).
  rewrite !toks_app, !forallb_app, H2. cbn [toks forallb]. now apply IH.
Qed.

Lemma clean_pcd : forall ty dp, type_ok nm ty = true -> forallb clean (toks dp) = true ->
  forallb clean (toks (pcd nm dp ty)) = true.
Proof.
  apply (type_ind2 (fun ty => forall dp, type_ok nm ty = true -> forallb clean (toks dp) = true ->
    forallb clean (toks (pcd nm dp ty)) = true)).
  - intros dp _ D. cbn [pcd toks forallb]. rewrite toks_optid. exact D.
  - intros sz sg a dp _ D. cbn [pcd]. rewrite !toks_app, !forallb_app, toks_optid, clean_attr, D. destruct sz, sg; reflexivity.
  - intros sg a dp _ D. cbn [pcd]. rewrite !toks_app, !forallb_app, toks_optid, clean_attr, D. destruct sg; reflexivity.
  - intros sz a dp _ D. cbn [pcd]. rewrite !toks_app, !forallb_app, toks_optid, clean_attr, D. destruct sz; reflexivity.
  - intros t a IH dp T D. cbn [pcd]. cbn [type_ok] in T. rewrite !andb_true_iff in T. destruct T as ((_ & T) & _).
    destruct (is_value (Tpointer t a)).
    + cbn [toks forallb]. rewrite toks_optid. exact D.
    + apply IH; [exact T|]. destruct (fun_or_array t); cbn [toks forallb]; rewrite !toks_app, !forallb_app, toks_attr_sp, clean_attr, D; reflexivity.
  - intros t n a IH dp T D. cbn [pcd]. cbn [type_ok] in T. rewrite !andb_true_iff in T. destruct T as ((T & _) & _).
    apply IH; [exact T|]. rewrite toks_app, forallb_app, D. reflexivity.
  - intros args res va un HA IH dp T D. cbn [pcd]. cbn [type_ok] in T. apply andb_true_iff in T. destruct T as [T TA].
    apply IH; [exact T|]. rewrite toks_app, forallb_app.
    assert (D1 : forallb clean (toks match dp with [] => [op "("; op "*"; op ")"] | _ :: _ => dp end) = true)
      by (destruct dp; [reflexivity|exact D]).
    rewrite D1. cbn [andb toks forallb]. rewrite toks_app, forallb_app. cbn [toks forallb].
    change (clean (TOp "(")) with true. change (clean (TOp ")")) with true. cbn [andb]. rewrite andb_true_r.
    destruct un; [reflexivity|]. destruct args as [|t0 args]; [destruct va; reflexivity|].
    rewrite toks_app, forallb_app, clean_sep; [destruct va; reflexivity|].
    apply Forall_map. rewrite Forall_forall in HA. apply Forall_forall. intros t Ht. rewrite forallb_forall in TA.
    specialize (TA t Ht). rewrite !andb_true_iff in TA. apply HA; [exact Ht|apply TA|reflexivity].
  - intros i a dp T D. cbn [pcd]. cbn [type_ok] in T. apply andb_true_iff in T. destruct T as [_ T].
    rewrite !toks_app, !forallb_app, toks_optid, clean_attr, D. cbn [toks forallb]. now rewrite (ident_clean _ T).
  - intros i a dp T D. cbn [pcd]. cbn [type_ok] in T. apply andb_true_iff in T. destruct T as [_ T].
    rewrite !toks_app, !forallb_app, toks_optid, clean_attr, D. cbn [toks forallb]. now rewrite (ident_clean _ T).
Qed.

Lemma ptag_other : forall w l, String.eqb w "struct" = false -> String.eqb w "union" = false -> ptag (TId w :: l) = None.
Proof. intros w [|[s|s|s|c] l] A B; try reflexivity. cbn [ptag]. rewrite A, B. now destruct (keyword s). Qed.

Lemma head_other : forall w l, String.eqb w "struct" = false -> String.eqb w "union" = false -> comp_head (TId w :: l) = false.
Proof. intros. unfold comp_head. now rewrite ptag_other. Qed.

(** how the tokens of a declarator begin *)
Definition dhead (ts : list token) : bool :=
  match ts with TId _ :: _ => true | TOp s :: _ => negb (mem s [";"; "{"]) | _ => false end.

Lemma dhead_app : forall a b, dhead a = true -> dhead (a ++ b) = true.
Proof. intros [|t a] b H; [discriminate H|exact H]. Qed.

Lemma comp_head_pcd : forall ty dp ts, dhead (toks dp) = true -> comp_head (toks (pcd nm dp ty) ++ ts) = false.
Proof.
  assert (S : forall w s a dp ts, dhead (toks dp) = true ->
     comp_head (TId w :: TId s :: toks (pattr a) ++ toks dp ++ ts) = false).
  { intros w s a dp ts D. unfold comp_head. cbn [ptag]. destruct (keyword s); [reflexivity|].
    assert (X : match toks (pattr a) ++ toks dp ++ ts with TOp s0 :: _ => mem s0 [";"; "{"] | _ => false end = false).
    { unfold pattr. destruct (attr_alignas a); [reflexivity|]. destruct (attr_volatile a); [reflexivity|].
      cbn [List.app toks]. destruct (toks dp) as [|[x|x|x|c] l]; try reflexivity; try discriminate D.
      cbn [dhead] in D. apply negb_true_iff in D. cbn [List.app]. exact D. }
    destruct (String.eqb w "struct"); [exact X|]. destruct (String.eqb w "union"); [exact X|reflexivity]. }
  apply (type_ind2 (fun ty => forall dp ts, dhead (toks dp) = true -> comp_head (toks (pcd nm dp ty) ++ ts) = false)); intros; cbn [pcd].
  - apply head_other; reflexivity.
  - destruct sz, sg; apply head_other; reflexivity.
  - destruct sg; apply head_other; reflexivity.
  - destruct sz; apply head_other; reflexivity.
  - destruct (is_value (Tpointer t a)); [apply head_other; reflexivity|]. apply H. destruct (fun_or_array t); reflexivity.
  - apply H. rewrite toks_app. now apply dhead_app.
  - apply H0. destruct dp; [discriminate H1|]. rewrite toks_app. now apply dhead_app.
  - rewrite !toks_app, toks_optid, <- !app_assoc. cbn [toks List.app]. now apply S.
  - rewrite !toks_app, toks_optid, <- !app_assoc. cbn [toks List.app]. now apply S.
Qed.

(** ** Declared names, with or without [const] *)

Definition pname (c : bool) (x : string) : list piece := if c then [wd "const"; G " "; wd x] else [wd x].

Lemma dhead_name : forall c x, dhead (toks (pname c x)) = true.
Proof. intros [] x; reflexivity. Qed.

Lemma render_name : forall c x ty, ident x = true ->
  render (pcd nm (pname c x) ty) = name_cdecl nm (if c then ("const " ++ x)%string else x) ty.
Proof.
  intros c x ty I. rewrite render_pcd.
  - f_equal. destruct c; cbn [pname render spell]; now rewrite sapp_nil.
  - intros _. destruct c; cbn [pname render spell]; [discriminate|]. rewrite sapp_nil. now apply ident_ne.
Qed.

Lemma breaks_start : forall p c d, id_start c = true -> id_start d = true -> breaks p c = breaks p d.
Proof.
  assert (P : forall s c, id_start c = true -> mem (snoc s c) puncts = false).
  { intros s c H. destruct (mem (snoc s c) puncts) eqn:E; [|reflexivity]. exfalso. apply mem_in in E.
    assert (L : last_char (snoc s c) = c) by apply last_snoc.
    unfold puncts in E. cbn [In] in E.
    repeat (destruct E as [E|E]; [rewrite <- E in L; cbn [last_char] in L; subst c; discriminate H|]). destruct E. }
  assert (D : forall c, id_start c = true -> is_digit c = false).
  { intros c H. destruct (is_digit c) eqn:E; [|reflexivity]. rewrite (digit_not_start _ E) in H. discriminate H. }
  assert (O : forall a c, id_start c = true -> between "*" "/" a = true -> (c =? a)%char = false).
  { intros a c H Ha. destruct (c =? a)%char eqn:E; [|reflexivity]. apply Ascii.eqb_eq in E. subst a.
    destruct c as [b0 b1 b2 b3 b4 b5 b6 b7]. destruct b0, b1, b2, b3, b4, b5, b6, b7; first [discriminate H|discriminate Ha]. }
  intros p c d Hc Hd. destruct p as [s|s|s|e]; cbn [breaks]; [| | |reflexivity].
  - unfold id_char. now rewrite Hc, Hd.
  - unfold num_char, id_char. now rewrite Hc, Hd.
  - rewrite (P s c Hc), (P s d Hd), (D c Hc), (D d Hd), !andb_false_r.
    rewrite (O "*"%char c Hc eq_refl), (O "/"%char c Hc eq_refl), (O "*"%char d Hd eq_refl), (O "/"%char d Hd eq_refl).
    reflexivity.
Qed.

Lemma good_name : forall c x ty, ident x = true -> type_ok nm ty = true -> good (pcd nm (pname c x) ty).
Proof.
  intros c x ty I T.
  pose proof (pcd_ok nm ty [wd x] T (name_dok x I)) as G0.
  destruct c; cbn [pname]; [|exact G0].
  destruct (pcd_ctx ty) as (lp & rp & E). rewrite E in * by discriminate.
  destruct G0 as [A B]. split.
  - rewrite okp_app in *. apply andb_true_iff in A. destruct A as [A1 A2]. rewrite A1. cbn [andb].
    cbn [List.app okp] in *. rewrite !andb_true_iff in A2. destruct A2 as ((W0 & F) & A2). rewrite W0, A2.
    change (wf_tok (TId "const")) with true. change (white " ") with true. rewrite !andb_true_r. cbn [andb].
    destruct (lastp None lp) as [p|]; [|reflexivity]. unfold fits in *. cbn [spell first_char].
    destruct (ident_start _ I) as (d & r & Ex & Hd). rewrite Ex in F. cbn [spell first_char] in F.
    rewrite (breaks_start p "c"%char d eq_refl Hd). exact F.
  - rewrite !lastp_app in *. exact B.
Qed.

Lemma clean_name : forall c x ty l, ident x = true -> type_ok nm ty = true ->
  mem l [";"; "="; "{"] = true -> forall ts, first_of (toks (pcd nm (pname c x) ty) ++ TOp l :: ts) = Some l.
Proof.
  intros c x ty l I T L ts.
  assert (X : first_of (TOp l :: ts) = Some l) by (cbn [first_of]; now rewrite L).
  assert (C : forallb clean (toks (pcd nm [wd x] ty)) = true).
  { apply clean_pcd; [exact T|]. cbn [toks forallb]. now rewrite ident_clean. }
  destruct c; cbn [pname]; [|now rewrite first_clean].
  destruct (pcd_ctx ty) as (lp & rp & E). rewrite E in * by discriminate.
  rewrite !toks_app, !forallb_app, !andb_true_iff in C. destruct C as (C1 & _ & C2).
  rewrite !toks_app, <- !app_assoc, first_clean by exact C1. cbn [toks List.app first_of]. now rewrite first_clean.
Qed.

Lemma var_read : forall c x ty l ts, ident x = true -> type_ok nm ty = true -> mem l [";"; "="; "{"] = true ->
  ev (fun F => pvar F (toks (pcd nm (pname c x) ty) ++ TOp l :: ts)) (c, x, ctype nm ty, TOp l :: ts).
Proof.
  intros c x ty l ts I T L.
  assert (D : dstop (TOp l :: ts) = true).
  { apply mem_in in L. cbn [In] in L. repeat (destruct L as [L|L]; [subst l; reflexivity|]). destruct L. }
  assert (C : forallb clean (toks (pcd nm [wd x] ty)) = true).
  { apply clean_pcd; [exact T|]. cbn [toks forallb]. now rewrite ident_clean. }
  destruct (named_read nm (fun _ => x) (1%positive, ty) (TOp l :: ts) I T D) as [m E].
  unfold pnp in E. cbn [fst snd] in E.
  exists m. intros F HF. specialize (E F HF). unfold pvar. destruct c; cbn [pname].
  - destruct (pcd_ctx ty) as (lp & rp & X). rewrite X in * by discriminate.
    rewrite !toks_app, !forallb_app, !andb_true_iff in C. destruct C as (C1 & _).
    rewrite !toks_app, <- !app_assoc in *. cbn [toks List.app] in *.
    rewrite unconst_const by exact C1. rewrite E. now rewrite String.eqb_refl.
  - rewrite unconst_clean by assumption. rewrite E. reflexivity.
Qed.

Lemma no_tag_start : forall ty dp ts, dhead (toks dp) = true ->
  eat (TId "extern") (toks (pcd nm dp ty) ++ ts) = None.
Proof.
  apply (type_ind2 (fun ty => forall dp ts, dhead (toks dp) = true -> eat (TId "extern") (toks (pcd nm dp ty) ++ ts) = None));
    intros; cbn [pcd]; try reflexivity.
  - destruct sz, sg; reflexivity.
  - destruct sg; reflexivity.
  - destruct sz; reflexivity.
  - destruct (is_value (Tpointer t a)); [reflexivity|]. apply H. destruct (fun_or_array t); reflexivity.
  - apply H. rewrite toks_app. now apply dhead_app.
  - apply H0. destruct dp; [discriminate H1|]. rewrite toks_app. now apply dhead_app.
Qed.

(** ** Items of a file *)

Hypothesis Hsp : white sp = true.
Hypothesis Hcut : cut = "" \/ white cut = true.
Hypothesis Hfl : forall f, finite f = true -> wf_tok (TNum (mag_text f)) = true.
Hypothesis Hlit : forall f, finite f = true -> exists e, literal (mag_text f) = Some e.

Definition item (s : string) (x : cext) : Prop :=
  exists ps, render ps = s /\ okp None ps = true /\ lastp None ps = None /\ toks ps <> [] /\
    forall ts, ev (fun F => pext F (toks ps ++ ts)) (x, ts).

Lemma gaps_end : forall ps s, okp None (ps ++ [op s]) = true ->
  okp None (ps ++ [op s; G sp; G sp]) = true /\ lastp None (ps ++ [op s; G sp; G sp]) = None.
Proof.
  intros ps s H. change [op s; G sp; G sp] with ([op s] ++ [G sp; G sp]). rewrite app_assoc, okp_app, H, !lastp_app.
  cbn [okp lastp andb]. rewrite Hsp. split; reflexivity.
Qed.

Lemma gap_end : forall ps s, okp None (ps ++ [op s]) = true ->
  okp None (ps ++ [op s; G sp]) = true /\ lastp None (ps ++ [op s; G sp]) = None.
Proof.
  intros ps s H. change [op s; G sp] with ([op s] ++ [G sp]). rewrite app_assoc, okp_app, H, !lastp_app.
  cbn [okp lastp andb]. rewrite Hsp. split; reflexivity.
Qed.

Lemma decl_item : forall (ext c : bool) x ty (two : bool), ident x = true -> type_ok nm ty = true ->
  item ((if ext then "extern " else "") ++ name_cdecl nm (if c then ("const " ++ x)%string else x) ty ++ ";" ++ sp
        ++ (if two then sp else ""))
    (XDecl ext c x (ctype nm ty)).
Proof.
  intros ext c x ty two I T.
  pose proof (good_name c x ty I T) as G0.
  assert (G1 : good (pcd nm (pname c x) ty ++ [op ";"])) by (apply good_close; [exact G0|cbn; tauto]).
  set (pre := if ext then [wd "extern"; G " "] else []).
  assert (G2 : okp None ((pre ++ pcd nm (pname c x) ty) ++ [op ";"]) = true).
  { rewrite <- app_assoc, okp_app. unfold pre. destruct ext; cbn [okp lastp andb].
    - change (wf_tok (TId "extern")) with true. change (white " ") with true. exact (proj1 G1).
    - exact (proj1 G1). }
  exists ((pre ++ pcd nm (pname c x) ty) ++ op ";" :: G sp :: if two then [G sp] else []).
  split; [|split; [|split; [|split]]].
  - rewrite !render_app, render_name by assumption. rewrite !sapp_assoc. f_equal.
    + unfold pre. destruct ext; reflexivity.
    + f_equal. cbn [render spell]. f_equal. destruct two; cbn [render]; now rewrite ?sapp_nil.
  - destruct two; [apply (gaps_end _ ";" G2)|apply (gap_end _ ";" G2)].
  - destruct two; [apply (gaps_end _ ";" G2)|apply (gap_end _ ";" G2)].
  - rewrite toks_app. cbn [toks]. intros X. apply app_eq_nil in X. destruct X as [_ X]. discriminate X.
  - intros ts. destruct (var_read c x ty ";" ts I T eq_refl) as [m E].
    exists m. intros F HF. specialize (E F HF).
    assert (TT : toks ((pre ++ pcd nm (pname c x) ty) ++ op ";" :: G sp :: (if two then [G sp] else [])) ++ ts =
                 toks pre ++ toks (pcd nm (pname c x) ty) ++ TOp ";" :: ts).
    { rewrite !toks_app. cbn [toks]. rewrite <- !app_assoc. destruct two; reflexivity. }
    rewrite TT. unfold pext.
    assert (CH : comp_head (toks pre ++ toks (pcd nm (pname c x) ty) ++ TOp ";" :: ts) = false).
    { unfold pre. destruct ext; cbn [toks List.app]; [apply head_other; reflexivity|].
      apply comp_head_pcd, dhead_name. }
    assert (FO : first_of (toks pre ++ toks (pcd nm (pname c x) ty) ++ TOp ";" :: ts) = Some ";").
    { rewrite first_clean; [now apply clean_name|]. unfold pre. destruct ext; reflexivity. }
    rewrite CH, FO. change (String.eqb ";" ";") with true. cbv iota. unfold pdeclaration.
    unfold pre. destruct ext; cbn [toks List.app].
    + rewrite eat_same by discriminate. rewrite E. reflexivity.
    + rewrite no_tag_start by (apply dhead_name). rewrite E. reflexivity.
Qed.

(** ** Composites *)

Lemma su_wf : forall su, wf_tok (TId (name_su su)) = true.
Proof. intros []; reflexivity. Qed.

Lemma su_tag : forall c r, ident (nm (co_id c)) = true ->
  ptag (TId (name_su (co_su c)) :: TId (nm (co_id c)) :: r) = Some (is_union c, nm (co_id c), r).
Proof. intros c r I. cbn [ptag]. rewrite (ident_kw _ I). unfold is_union. destruct (co_su c); reflexivity. Qed.

Lemma comp_item : forall c, ident (nm (co_id c)) = true -> item (declare_composite sp nm c) (ccomp nm c).
Proof.
  intros c I. exists [wd (name_su (co_su c)); G " "; wd (nm (co_id c)); op ";"; G sp].
  split; [|split; [|split; [|split]]].
  - unfold declare_composite. cbn [render spell]. now rewrite sapp_nil.
  - cbn [okp]. rewrite (su_wf (co_su c)), (ident_wf _ I), Hsp. reflexivity.
  - reflexivity.
  - discriminate.
  - intros ts. exists 0. intros F _. cbn [toks List.app]. unfold pext, comp_head. rewrite su_tag by exact I.
    change (mem ";" [";"; "{"]) with true. cbv iota. unfold pcomp. rewrite su_tag by exact I.
    rewrite eat_same by discriminate. reflexivity.
Qed.

Definition pmember (d : positive * type) : list piece := G sp :: pnp nm nm d ++ [op ";"].

Lemma members_ok : forall ms, decls_ok nm nm ms = true -> forall p, cls p = true ->
  okp p (flat_map pmember ms) = true /\ cls (lastp p (flat_map pmember ms)) = true.
Proof.
  induction ms as [|d ms IH]; intros H p C; [split; [reflexivity|exact C]|].
  cbn [decls_ok forallb] in H. destruct d as [i t]. rewrite !andb_true_iff in H. destruct H as ((I & T) & H).
  assert (G1 : good (pnp nm nm (i, t) ++ [op ";"])) by (apply good_close; [now apply good_pnp|cbn; tauto]).
  cbn [flat_map]. rewrite okp_app, lastp_app. unfold pmember at 1 2 4.
  cbn [okp lastp]. rewrite Hsp. destruct G1 as [A B]. rewrite A. cbn [andb]. apply (IH H). exact B.
Qed.

Lemma members_text : forall ms, decls_ok nm nm ms = true ->
  render (flat_map pmember ms) =
  String.concat "" (List.map (fun '(fid, fty) => (sp ++ name_cdecl nm (nm fid) fty ++ ";")%string) ms).
Proof.
  intros ms H. rewrite render_flat. f_equal. apply map_ext_in. intros [i t] Hd. unfold decls_ok in H.
  rewrite forallb_forall in H. specialize (H _ Hd). cbn beta iota in H. apply andb_true_iff in H.
  unfold pmember. cbn [render]. rewrite render_app, render_pnp by apply H. cbn [render spell fst snd]. reflexivity.
Qed.

Lemma members_read : forall ms, decls_ok nm nm ms = true -> forall ts,
  ev (fun F => pmembers F (toks (flat_map pmember ms) ++ TOp "}" :: ts))
     (List.map (fun d => (nm (fst d), ctype nm (snd d))) ms, ts).
Proof.
  induction ms as [|d ms IH]; intros H ts.
  - exists 1. intros [|F] HF; [lia|]. reflexivity.
  - cbn [decls_ok forallb] in H. destruct d as [i t]. rewrite !andb_true_iff in H. destruct H as ((I & T) & H).
    destruct (IH H ts) as [m E].
    destruct (named_read nm nm (i, t) (TOp ";" :: toks (flat_map pmember ms) ++ TOp "}" :: ts) I T eq_refl) as [m2 E2].
    exists (S (m + m2)). intros [|F] HF; [lia|].
    assert (TT : toks (flat_map pmember ((i, t) :: ms)) ++ TOp "}" :: ts =
       toks (pnp nm nm (i, t)) ++ TOp ";" :: toks (flat_map pmember ms) ++ TOp "}" :: ts).
    { cbn [flat_map]. unfold pmember at 1. cbn [toks List.app]. rewrite !toks_app, <- !app_assoc. reflexivity. }
    rewrite TT. cbn [pmembers].
    assert (HD : eat (TOp "}") (toks (pnp nm nm (i, t)) ++ TOp ";" :: toks (flat_map pmember ms) ++ TOp "}" :: ts) = None).
    { destruct (word_head nm nm (i, t) (TOp ";" :: toks (flat_map pmember ms) ++ TOp "}" :: ts)) as (w & l & X).
      rewrite X. reflexivity. }
    rewrite HD, E2 by lia. rewrite eat_same by discriminate. rewrite E by lia. reflexivity.
Qed.

Lemma compdef_item : forall c, comp_ok nm c = true -> item (define_composite sp cut nm c) (ccompdef nm c).
Proof.
  intros c H. unfold comp_ok in H. rewrite !andb_true_iff in H. destruct H as ((I & D) & A).
  assert (A0 : attributes (co_attr c) = "").
  { destruct (co_attr c) as [v al]. cbn [attr_alignas attr_volatile] in A. destruct al; [discriminate A|].
    apply negb_true_iff in A. subst v. reflexivity. }
  set (hd := [wd (name_su (co_su c)); G " "; wd (nm (co_id c)); G " "; op "{"]).
  assert (HO : okp None hd = true).
  { unfold hd. cbn [okp]. rewrite (su_wf (co_su c)), (ident_wf _ I). reflexivity. }
  destruct (members_ok _ D (Some (TOp "{")) eq_refl) as [M1 M2].
  assert (GB : good (hd ++ flat_map pmember (co_members c))).
  { split; [rewrite okp_app, HO; exact M1|rewrite lastp_app; exact M2]. }
  assert (GC : good ((hd ++ flat_map pmember (co_members c)) ++ pcut cut ++ [op "}"])).
  { apply good_cut; [exact Hcut|exact GB|cbn; tauto]. }
  assert (GD : good (((hd ++ flat_map pmember (co_members c)) ++ pcut cut ++ [op "}"]) ++ [op ";"])).
  { apply good_close; [exact GC|cbn; tauto]. }
  exists (((hd ++ flat_map pmember (co_members c)) ++ pcut cut ++ [op "}"]) ++ [op ";"; G sp; G sp]).
  destruct (gaps_end _ ";" (proj1 GD)) as [X1 X2].
  split; [|split; [exact X1|split; [exact X2|split]]].
  - unfold define_composite. rewrite A0, !render_app, members_text by exact D. rewrite render_cut. unfold hd.
    cbn [render spell]. rewrite !sapp_assoc. cbn [String.append]. rewrite ?sapp_assoc. cbn [String.append]. rewrite ?sapp_nil. reflexivity.
  - rewrite !toks_app. unfold hd. discriminate.
  - intros ts. destruct (members_read _ D (TOp ";" :: ts)) as [m E]. exists m. intros F HF. specialize (E F HF).
    assert (TT : toks (((hd ++ flat_map pmember (co_members c)) ++ pcut cut ++ [op "}"]) ++ [op ";"; G sp; G sp]) ++ ts =
      TId (name_su (co_su c)) :: TId (nm (co_id c)) :: TOp "{" :: toks (flat_map pmember (co_members c)) ++ TOp "}" :: TOp ";" :: ts).
    { rewrite !toks_app, toks_cut by exact Hcut. unfold hd. cbn [toks List.app]. now rewrite <- !app_assoc. }
    rewrite TT. unfold pext, comp_head. rewrite su_tag by exact I. change (mem "{" [";"; "{"]) with true. cbv iota.
    unfold pcomp. rewrite su_tag by exact I. cbn [eat teq]. change (String.eqb ";" "{") with false.
    change (String.eqb "{" "{") with true. cbv iota. rewrite E. rewrite eat_same by discriminate. reflexivity.
Qed.

(** ** Initialisers *)

Definition paddr (x : string) (o : Z) : list piece :=
  if (o =? 0)%Z then [op "&"; wd x]
  else [op "("; wd "void"; G " "; op "*"; op ")"; op "("; op "("; wd "char"; G " "; op "*"; op ")"; op "&"; wd x;
        G " "; op "+"; G " "] ++ pcint o "" ++ [op ")"].

Definition pini (i : init_data) : list piece :=
  match i with
  | Init_int8 n | Init_int16 n | Init_int32 n => pcint (signed 32 n) ""
  | Init_int64 n => pcint (signed 64 n) "LL"
  | Init_addrof x ofs => paddr (nm x) (signed 32 ofs)
  | Init_space n => [K (" skip " ++ sdec (Z_to_int n) ++ " ")%string; G sp]
  | _ => []
  end.

Lemma render_ini : forall i, init_ok nm i = true -> render (pini i) = print_init sp nm i.
Proof.
  intros [n|n|n|n|f|f|n|x ofs] H; cbn [pini print_init]; try discriminate H;
    rewrite ?render_cint, ?caml32_signed, ?caml64_signed, ?sapp_nil; try reflexivity.
  - cbn [render]. rewrite !sapp_assoc, sapp_nil. cbn [String.append]. rewrite ?sapp_assoc. reflexivity.
  - unfold paddr. destruct (signed 32 ofs =? 0)%Z; cbn [render spell]; [now rewrite sapp_nil|].
    rewrite !render_app, render_cint. cbn [render spell]. rewrite ?sapp_nil, ?sapp_assoc. cbn [String.append].
    rewrite ?sapp_assoc. reflexivity.
Qed.

Definition is_sp (i : init_data) : bool := match i with Init_space _ => true | _ => false end.

Definition efirst (ps : list piece) : bool :=
  match ps with W (TNum _) :: _ => true | W (TOp s) :: _ => mem s ["-"; "&"; "("] | _ => false end.

Lemma good_ini : forall i, init_ok nm i = true -> is_sp i = false ->
  good (pini i) /\ efirst (pini i) = true.
Proof.
  assert (C : forall z suf, all_chars num_char suf = true -> good (pcint z suf) /\ efirst (pcint z suf) = true).
  { intros z suf H. destruct (cint_lexed z suf H) as (A & B & _). split; [split; assumption|].
    unfold pcint. destruct (z <? 0)%Z; reflexivity. }
  intros [n|n|n|n|f|f|n|x ofs] H S; cbn [pini]; try discriminate H; try discriminate S; try (apply C; reflexivity).
  cbn [init_ok] in H. unfold paddr. destruct (ident_start _ H) as (c & r & Ex & Hc).
  assert (FA : fits (TOp "&") (TId (nm x)) = true).
  { unfold fits. rewrite Ex. cbn [spell first_char]. apply op_before_id; [cbn; tauto|exact Hc]. }
  destruct (signed 32 ofs =? 0)%Z.
  - split; [|reflexivity]. split; [|reflexivity]. cbn [okp]. rewrite (ident_wf _ H), FA. reflexivity.
  - split; [|reflexivity]. set (hd := [op "("; wd "void"; G " "; op "*"; op ")"; op "("; op "("; wd "char"; G " "; op "*"; op ")"; op "&"; wd (nm x);
        G " "; op "+"; G " "]).
    assert (HO : okp None hd = true /\ lastp None hd = None).
    { split; [|reflexivity]. unfold hd. cbn [okp]. rewrite (ident_wf _ H), FA. reflexivity. }
    destruct HO as [HO HL]. destruct (C (signed 32 ofs) "" eq_refl) as [[A B] _].
    rewrite app_assoc. apply good_close; [|cbn; tauto]. split.
    + rewrite okp_app, HO, HL. exact A.
    + rewrite lastp_app, HL. exact B.
Qed.

Lemma cast_of : forall w t c l, pbase [TId w; TOp "*"; TOp ")"] = Some (t, [TOp "*"; TOp ")"]) -> mem w type_words = true ->
  (forall r, pbase (TId w :: r) = Some (t, r)) -> Cast c l ->
  Cast (CCast (CPtr (CBase t noat) noat) c) (TOp "(" :: TId w :: TOp "*" :: TOp ")" :: l).
Proof.
  intros w t c l _ M B C ts S0. destruct (C ts S0) as [m E]. exists (6 + m). intros [|F] HF; [lia|].
  cbn [pcast List.app]. unfold cast_start. rewrite eat_same by discriminate. cbn [starts_type]. rewrite M.
  unfold ptname. destruct F as [|F]; [lia|]. cbn [ptype]. rewrite B.
  assert (P : pattrs (TOp "*" :: TOp ")" :: l ++ ts) = (noat, TOp "*" :: TOp ")" :: l ++ ts)) by reflexivity.
  rewrite P. destruct F as [|F]; [lia|]. cbn [pdecl]. rewrite eat_same by discriminate.
  assert (P2 : pattrs (TOp ")" :: l ++ ts) = (noat, TOp ")" :: l ++ ts)) by reflexivity.
  rewrite P2. destruct F as [|F]; [lia|]. cbn [pdecl eat teq]. change (String.eqb "*" ")") with false.
  change (String.eqb "(" ")") with false. cbv iota. destruct F as [|F]; [lia|]. cbn [psuf eat teq].
  change (String.eqb "[" ")") with false. change (String.eqb "(" ")") with false. cbv iota.
  rewrite eat_same by discriminate. cbv beta iota. rewrite E by lia. reflexivity.
Qed.

Lemma ini_read : forall i, init_ok nm i = true -> is_sp i = false -> Cast (ciexp nm i) (toks (pini i)).
Proof.
  intros [n|n|n|n|f|f|n|x ofs] H S; cbn [pini ciexp]; try discriminate H; try discriminate S;
    try (apply cint_cast; reflexivity).
  cbn [init_ok] in H. unfold caddr, paddr.
  assert (A : Cast (CAddr (CVar (nm x))) [TOp "&"; TId (nm x)]).
  { apply (prefix_cast "&" CAddr); [reflexivity|]. apply post_cast, atom_id. now apply ident_kw. }
  destruct (signed 32 ofs =? 0)%Z; [exact A|].
  set (z := signed 32 ofs). cbn [toks List.app]. rewrite toks_app. cbn [toks].
  apply (cast_of "void" BVoid); [reflexivity|reflexivity|reflexivity|].
  apply post_cast.
  set (lhs := TOp "(" :: TId "char" :: TOp "*" :: TOp ")" :: [TOp "&"; TId (nm x)]).
  change (TOp "(" :: TOp "(" :: TId "char" :: TOp "*" :: TOp ")" :: TOp "&" :: TId (nm x) :: TOp "+" :: toks (pcint z "") ++ [TOp ")"])
    with (TOp "(" :: (lhs ++ TOp "+" :: toks (pcint z "")) ++ [TOp ")"]).
  apply (paren_post _ _ 6); [lia|reflexivity|].
  assert (L : Cast (CCast char_ptr (CAddr (CVar (nm x)))) lhs).
  { apply (cast_of "char" BChar); [reflexivity|reflexivity|reflexivity|exact A]. }
  pose proof (cint_cast z "" eq_refl) as R.
  intros k ts r K1 K2 K3 S0 C0. assert (k = 6) by lia. subst k.
  apply (climb 12 6 _ (CBin Oadd (CCast char_ptr (CAddr (CVar (nm x)))) (cint z "")) ts r); [lia|lia|exact S0| |exact C0].
  rewrite <- app_assoc. cbn [List.app].
  apply (pexp_lo 12 _ (CCast char_ptr (CAddr (CVar (nm x)))) (TOp "+" :: toks (pcint z "") ++ ts)); [lia| |].
  - apply (cast_rd _ _ 14 L); try lia; [reflexivity|]. apply (cont_stop 12); [lia|reflexivity].
  - assert (E : ev (fun F => pexp F 13 (toks (pcint z "") ++ ts)) (cint z "", ts)).
    { apply (cast_rd _ _ 14 R); try lia; [apply (stops_mono 6); [lia|exact S0]|]. apply (cont_stop 6); [lia|exact S0]. }
    destruct E as [m E]. destruct (loop_stop 6 12 (CBin Oadd (CCast char_ptr (CAddr (CVar (nm x)))) (cint z "")) ts ltac:(lia) S0) as [m2 E2].
    exists (1 + (m + m2)). intros [|F] HF; [lia|]. cbn [ploop]. change (binop_of (TOp "+")) with (Some (Oadd, 12)).
    change (Nat.eqb 12 12) with true. cbv iota. rewrite E by lia. rewrite E2 by lia. reflexivity.
Qed.

Lemma ini_exp : forall i ts, init_ok nm i = true -> is_sp i = false -> stops 5 ts = true ->
  ev (fun F => pexp F 6 (toks (pini i) ++ ts)) (ciexp nm i, ts).
Proof.
  intros i ts H S S0. apply (cast_rd _ _ 14 (ini_read i H S)); try lia.
  - apply (stops_mono 5); [lia|exact S0].
  - apply (cont_stop 5); [lia|exact S0].
Qed.

Definition pelem (i : init_data) : list piece := pini i ++ (if is_sp i then [] else [op ","; G sp]).
Definition pcomposite (il : list init_data) : list piece := [op "{"; G sp] ++ flat_map pelem il ++ [op "}"].

Lemma render_composite : forall il, forallb (init_ok nm) il = true ->
  render (pcomposite il) = print_composite_init sp nm il.
Proof.
  intros il H. unfold pcomposite, print_composite_init. rewrite !render_app, render_flat. cbn [render spell].
  rewrite !sapp_assoc. cbn [String.append]. rewrite ?sapp_assoc, ?sapp_nil. cbn [String.append].
  assert (E : List.map (fun x => render (pelem x)) il =
    List.map (fun i => (print_init sp nm i ++ match i with Init_space _ => "" | _ => "," ++ sp end)%string) il).
  { apply map_ext_in. intros i Hi. rewrite forallb_forall in H. specialize (H i Hi).
    unfold pelem. rewrite render_app, render_ini by exact H. f_equal.
    destruct i; cbn [is_sp render spell]; rewrite ?sapp_nil; reflexivity. }
  rewrite E. reflexivity.
Qed.

Lemma quiet_dec : forall n, quiet (sdec n) = true.
Proof.
  assert (D : forall n, quiet (dec n) = true).
  { intros n. unfold quiet. apply (all_impl is_digit); [|apply dec_all]. intros c H.
    destruct (c =? "*")%char eqn:E; [apply Ascii.eqb_eq in E; subst c; discriminate H|].
    destruct (c =? "#")%char eqn:E2; [apply Ascii.eqb_eq in E2; subst c; discriminate H|reflexivity]. }
  intros [|p|p]; cbn [sdec]; [reflexivity|apply D|]. unfold quiet. cbn [String.append all_chars]. exact (D (Npos p)).
Qed.

Lemma elem_ok : forall i, init_ok nm i = true -> okp None (pelem i) = true /\ lastp None (pelem i) = None.
Proof.
  intros i H. unfold pelem. destruct (is_sp i) eqn:S.
  - destruct i; try discriminate S. cbn [pini List.app okp lastp]. rewrite Hsp, !andb_true_r. split; [|reflexivity].
    unfold quiet. rewrite !all_app. change (all_chars _ " skip ") with true. change (all_chars _ " ") with true.
    rewrite andb_true_r. apply quiet_dec.
  - destruct (good_ini i H S) as [G0 _]. apply gap_end.
    apply (good_close (pini i) "," G0). cbn; tauto.
Qed.

Lemma elems_ok : forall il, forallb (init_ok nm) il = true ->
  okp None (flat_map pelem il) = true /\ lastp None (flat_map pelem il) = None.
Proof.
  induction il as [|i il IH]; intros H; [split; reflexivity|]. cbn [forallb] in H. apply andb_true_iff in H. destruct H as [H1 H2].
  destruct (elem_ok i H1) as [A B]. destruct (IH H2) as [C D]. cbn [flat_map]. rewrite okp_app, lastp_app, A, B. split; assumption.
Qed.

Lemma good_composite : forall il, forallb (init_ok nm) il = true -> good (pcomposite il).
Proof.
  intros il H. destruct (elems_ok il H) as [A B]. unfold pcomposite. split.
  - rewrite okp_app. cbn [okp lastp andb]. rewrite Hsp. cbn [andb]. rewrite okp_app, A, B. reflexivity.
  - rewrite !lastp_app. reflexivity.
Qed.

Lemma toks_elem : forall i, init_ok nm i = true ->
  toks (pelem i) = if is_sp i then [] else toks (pini i) ++ [TOp ","].
Proof.
  intros i H. unfold pelem. destruct (is_sp i) eqn:S.
  - destruct i; try discriminate S. reflexivity.
  - rewrite toks_app. reflexivity.
Qed.

Lemma efirst_brace : forall i l, init_ok nm i = true -> is_sp i = false ->
  eat (TOp "}") (toks (pini i) ++ l) = None /\ eat (TOp "{") (toks (pini i) ++ l) = None.
Proof.
  intros i l H S. destruct (good_ini i H S) as [_ E]. destruct (pini i) as [|[[s|s|s|c]|s|] ps]; try discriminate E.
  - split; reflexivity.
  - cbn [efirst] in E. apply mem_in in E. cbn [In] in E. repeat (destruct E as [E|E]; [subst s; split; reflexivity|]). destruct E.
Qed.

Lemma elems_head : forall il, forallb (init_ok nm) il = true -> existsb (fun i => negb (is_sp i)) il = true -> forall l,
  eat (TOp "}") (toks (flat_map pelem il) ++ l) = None.
Proof.
  induction il as [|j il IH]; intros H2 X l; [discriminate X|]. cbn [forallb] in H2. apply andb_true_iff in H2. destruct H2 as [J1 J2].
  cbn [flat_map]. rewrite toks_app, toks_elem by exact J1. cbn [existsb] in X. destruct (is_sp j) eqn:S; cbn [negb orb List.app] in *.
  - now apply IH.
  - rewrite <- !app_assoc. apply (efirst_brace j _ J1 S).
Qed.

Lemma elems_none : forall il, forallb (init_ok nm) il = true -> existsb (fun i => negb (is_sp i)) il = false ->
  toks (flat_map pelem il) = [] /\ List.filter (fun i => negb (is_sp i)) il = [].
Proof.
  induction il as [|j il IH]; intros H2 X; [split; reflexivity|]. cbn [forallb] in H2. apply andb_true_iff in H2. destruct H2 as [J1 J2].
  cbn [existsb] in X. apply orb_false_iff in X. destruct X as [X1 X2]. destruct (IH J2 X2) as [A B].
  cbn [flat_map List.filter]. rewrite X1, toks_app, A, toks_elem by exact J1. apply negb_false_iff in X1. rewrite X1. split; [reflexivity|exact B].
Qed.

Lemma elems_read : forall il, forallb (init_ok nm) il = true -> existsb (fun i => negb (is_sp i)) il = true -> forall ts,
  ev (fun F => pinits F (toks (flat_map pelem il) ++ TOp "}" :: ts))
     (List.map (ciexp nm) (List.filter (fun i => negb (is_sp i)) il), ts).
Proof.
  induction il as [|i il IH]; intros H N ts; [discriminate N|]. cbn [forallb] in H. apply andb_true_iff in H. destruct H as [H1 H2].
  cbn [flat_map]. rewrite toks_app, toks_elem by exact H1. cbn [existsb] in N. cbn [List.filter].
  destruct (is_sp i) eqn:S; cbn [negb List.app orb] in *.
  - apply IH; assumption.
  - rewrite <- !app_assoc. cbn [List.app List.map].
    destruct (ini_exp i (TOp "," :: toks (flat_map pelem il) ++ TOp "}" :: ts) H1 S eq_refl) as [m E].
    destruct (existsb (fun i => negb (is_sp i)) il) eqn:X.
    + destruct (IH H2 eq_refl ts) as [m2 E2].
      pose proof (elems_head il H2 X (TOp "}" :: ts)) as NB.
      exists (1 + (m + m2)). intros [|F] HF; [lia|]. cbn [pinits]. rewrite E by lia. cbn [eats]. rewrite eat_same by discriminate.
      rewrite NB. rewrite E2 by lia. reflexivity.
    + pose proof (elems_none il H2 X) as NT.
      destruct NT as [NT NF]. rewrite NT, NF in *. cbn [List.app] in *.
      exists (1 + m). intros [|F] HF; [lia|]. cbn [pinits]. rewrite E by lia. cbn [eats].
      rewrite eat_same by discriminate. rewrite eat_same by discriminate. reflexivity.
Qed.

(** ** Variables *)

Definition pval (v : globvar) : list piece :=
  match scalar (gvar_info v), gvar_init v with
  | true, [i] => pini i
  | _, il => pcomposite il
  end.

Lemma not_stringlit : forall id, stringlit nm id = false -> string_name (nm id) = false.
Proof. intros id H. unfold stringlit in H. unfold string_name. now rewrite H. Qed.

Lemma scalar_same : forall t, is_scalar t = scalar t.
Proof. intros []; reflexivity. Qed.

Lemma space_same : forall il, List.filter (fun i => negb (is_sp i)) il = List.filter (fun i => negb (is_space_init i)) il.
Proof. reflexivity. Qed.

(** an initialiser is printed *)
Definition has_init (il : list init_data) : bool :=
  match il with [] => false | [Init_space _] => false | _ => true end.

Lemma val_facts : forall id v, has_init (gvar_init v) = true -> inits_ok nm (gvar_init v) = true -> stringlit nm id = false ->
  render (pval v) = print_value sp nm id v /\ good (pval v) /\
  forall ts, ev (fun F => pinit F (toks (pval v) ++ TOp ";" :: ts)) (cinit_of nm v, TOp ";" :: ts).
Proof.
  intros id v HI H S. unfold inits_ok in H. apply andb_true_iff in H. destruct H as [H N].
  assert (PV : print_value sp nm id v =
    match scalar (gvar_info v), gvar_init v with true, [i] => print_init sp nm i | _, il => print_composite_init sp nm il end).
  { unfold print_value. rewrite (not_stringlit _ S), scalar_same. cbn [andb].
    destruct (gvar_init v) as [|i [|j l]]; destruct (scalar (gvar_info v)); reflexivity. }
  rewrite PV. unfold pval, cinit_of.
  assert (Comp : existsb (fun i => negb (is_sp i)) (gvar_init v) = true ->
    render (pcomposite (gvar_init v)) = print_composite_init sp nm (gvar_init v) /\ good (pcomposite (gvar_init v)) /\
    forall ts, ev (fun F => pinit F (toks (pcomposite (gvar_init v)) ++ TOp ";" :: ts))
      (CMany (List.map (ciexp nm) (List.filter (fun i => negb (is_space_init i)) (gvar_init v))), TOp ";" :: ts)).
  { intros E. split; [now apply render_composite|]. split; [now apply good_composite|]. intros ts.
    destruct (elems_read (gvar_init v) H E (TOp ";" :: ts)) as [m R]. exists m. intros F HF. specialize (R F HF).
    unfold pinit, pcomposite. rewrite !toks_app. cbn [toks List.app]. rewrite eat_same by discriminate.
    rewrite <- !app_assoc. cbn [List.app]. rewrite R. reflexivity. }
  assert (NE : existsb (fun i => negb (is_sp i)) (gvar_init v) = true).
  { destruct (gvar_init v) as [|i [|j l]]; [discriminate HI| |].
    - destruct i; try reflexivity. discriminate HI.
    - destruct i; exact N. }
  destruct (scalar (gvar_info v)); [|now apply Comp].
  destruct (gvar_init v) as [|i [|j l]] eqn:EI; [discriminate HI| |now apply Comp].
  assert (S1 : is_sp i = false) by (destruct i; try reflexivity; discriminate HI).
  cbn [forallb] in H. rewrite andb_true_r in H.
  split; [now apply render_ini|]. split; [now apply good_ini|]. intros ts.
  destruct (ini_exp i (TOp ";" :: ts) H S1 eq_refl) as [m E]. exists m. intros F HF. specialize (E F HF).
  unfold pinit. destruct (efirst_brace i (TOp ";" :: ts) H S1) as [_ B]. rewrite B, E. reflexivity.
Qed.

Lemma var_item : forall id v, var_ok nm id v = true -> item (print_globvar sp nm id v) (cvar_of nm id v).
Proof.
  intros id v H. unfold var_ok in H. rewrite !andb_true_iff in H. destruct H as (((I & T) & IO) & S). apply negb_true_iff in S.
  unfold print_globvar, cvar_of.
  destruct (has_init (gvar_init v)) eqn:HI.
  - assert (D : item (name_cdecl nm (if gvar_readonly v then ("const " ++ nm id)%string else nm id) (gvar_info v) ++ " = " ++ print_value sp nm id v ++ ";" ++ sp ++ sp)
        (XVar (gvar_readonly v) (nm id) (ctype nm (gvar_info v)) (cinit_of nm v))).
    { destruct (val_facts id v HI IO S) as (R & [G1 G2] & P).
      pose proof (good_name (gvar_readonly v) (nm id) (gvar_info v) I T) as G0.
      assert (GA : good (pcd nm (pname (gvar_readonly v) (nm id)) (gvar_info v) ++ [G " "; op "="; G " "] ++ pval v)).
      { apply good_app; [exact G0| |].
        - cbn [List.app okp]. exact G1.
        - cbn [List.app lastp]. exact G2. }
      pose proof (good_close _ ";" GA ltac:(cbn; tauto)) as GB.
      destruct (gaps_end _ ";" (proj1 GB)) as [X1 X2].
      eexists. split; [|split; [exact X1|split; [exact X2|split]]].
      - rewrite !render_app, render_name, R by exact I. cbn [render spell]. rewrite ?sapp_nil, ?sapp_assoc. reflexivity.
      - rewrite !toks_app. intros X. apply app_eq_nil in X. destruct X as [_ X]. discriminate X.
      - intros ts. destruct (P ts) as [m E]. 
        destruct (var_read (gvar_readonly v) (nm id) (gvar_info v) "=" (toks (pval v) ++ TOp ";" :: ts) I T eq_refl) as [m2 E2].
        exists (m + m2). intros F HF.
        assert (TT : toks ((pcd nm (pname (gvar_readonly v) (nm id)) (gvar_info v) ++ [G " "; op "="; G " "] ++ pval v) ++ [op ";"; G sp; G sp]) ++ ts
          = toks (pcd nm (pname (gvar_readonly v) (nm id)) (gvar_info v)) ++ TOp "=" :: toks (pval v) ++ TOp ";" :: ts).
        { rewrite !toks_app. cbn [toks List.app]. rewrite <- !app_assoc. cbn [List.app]. reflexivity. }
        rewrite TT. unfold pext. rewrite comp_head_pcd by apply dhead_name. rewrite clean_name by (exact I || exact T || reflexivity).
        change (String.eqb "=" ";") with false. change (String.eqb "=" "=") with true. cbv iota. unfold pdefinition.
        rewrite E2 by lia. rewrite eat_same by discriminate. rewrite E by lia. rewrite eat_same by discriminate. reflexivity. }
    destruct (gvar_init v) as [|i [|j l]]; [discriminate HI| |].
    + destruct i; try exact D. discriminate HI.
    + destruct i; exact D.
  - destruct (gvar_init v) as [|i [|j l]].
    + exact (decl_item true (gvar_readonly v) (nm id) (gvar_info v) true I T).
    + destruct i; try discriminate HI. exact (decl_item false (gvar_readonly v) (nm id) (gvar_info v) true I T).
    + destruct i; discriminate HI.
Qed.

(** ** Functions *)

Lemma clean_pnp : forall d, ident (tn (fst d)) = true -> type_ok nm (snd d) = true -> forallb clean (toks (pnp nm tn d)) = true.
Proof. intros d I T. unfold pnp. apply clean_pcd; [exact T|]. cbn [toks forallb]. now rewrite ident_clean. Qed.

Lemma clean_hdr : forall f params va, ident f = true -> decls_ok nm tn params = true ->
  forallb clean (toks (phdr nm tn f params va)) = true.
Proof.
  intros f params va I D. unfold phdr. cbn [toks forallb]. rewrite ident_clean by exact I.
  rewrite toks_app, forallb_app. change (clean (TOp "(")) with true. cbn [andb toks forallb].
  change (clean (TOp ")")) with true. cbn [andb]. rewrite andb_true_r. unfold pplist. destruct params as [|d params]; [destruct va; reflexivity|].
  rewrite toks_app, forallb_app, clean_sep; [destruct va; reflexivity|]. apply Forall_map, Forall_forall. intros d' Hd'.
  unfold decls_ok in D. rewrite forallb_forall in D. specialize (D d' Hd'). destruct d' as [i t]. apply andb_true_iff in D.
  apply clean_pnp; apply D.
Qed.

Definition cfun_read (id : positive) (f : function) : cfundef :=
  {| cf_name := nm id; cf_ret := ctype nm (fn_return f); cf_params := List.map (named nm tn) (fn_params f); cf_vararg := fn_vararg f;
     cf_locals := List.map (local nm false nm) (fn_vars f) ++ List.map (local nm true tn) (fn_temps f);
     cf_body := items nm tn (fn_body f) |}.

Lemma fun_item : forall id f, fun_ok nm tn id f = true ->
  item (print_fundef sp cut nm tn id (Internal f)) (XFun (cfun_read id f)).
Proof.
  intros id f H. unfold fun_ok in H. rewrite !andb_true_iff in H. destruct H as ((((((Hid & HT) & Ho) & Hp) & Hv) & Ht) & Hb).
  assert (Hr : type_ok nm (fn_return f) = true) by (cbn [fun_type type_ok] in HT; apply andb_true_iff in HT; apply HT).
  destruct f as [ret va un params vars temps body]. cbn [fn_return fn_vararg fn_params fn_vars fn_temps fn_body print_fundef] in *.
  pose proof (good_fun sp cut nm tn Hsp Hcut Hfl id params va ret vars temps body Hid Hp Hr Hv Ht Hb) as GF.
  exists (pfun sp cut nm tn id params va ret vars temps body).
  split; [now apply render_fun|]. split; [exact GF|].
  assert (E1 : pfun sp cut nm tn id params va ret vars temps body =
    (pcd nm (phdr nm tn (nm id) params va) ret ++ [G sp; op "{"; G sp] ++ flat_map (ploc sp nm) vars ++ flat_map (ptmp sp nm tn) temps ++
      ps sp cut nm tn body ++ pcut cut ++ [op "}"; G sp]) ++ [G sp]).
  { unfold pfun. rewrite <- !app_assoc. reflexivity. }
  split; [rewrite E1, lastp_app; reflexivity|]. split.
  { unfold pfun. rewrite !toks_app. intros X. apply app_eq_nil in X. destruct X as [_ X]. discriminate X. }
  intros ts0. unfold pfun. rewrite toks_app, <- app_assoc.
  set (tl := toks ([G sp; op "{"; G sp] ++ flat_map (ploc sp nm) vars ++ flat_map (ptmp sp nm tn) temps ++ ps sp cut nm tn body
                   ++ pcut cut ++ [op "}"; G sp; G sp]) ++ ts0).
  assert (TL : tl = TOp "{" :: toks (flat_map (ploc sp nm) vars) ++ toks (flat_map (ptmp sp nm tn) temps)
                    ++ toks (ps sp cut nm tn body) ++ TOp "}" :: ts0).
  { unfold tl. rewrite !toks_app, toks_cut by assumption. cbn [toks List.app]. rewrite <- !app_assoc. reflexivity. }
  assert (DT : toks (phdr nm tn (nm id) params va) ++ tl =
               TId (nm id) :: TOp "(" :: toks (pplist nm tn params va) ++ TOp ")" :: tl).
  { unfold phdr. cbn [toks]. rewrite toks_app. cbn [toks List.app]. rewrite <- app_assoc. reflexivity. }
  destruct (hdr_all nm ret (phdr nm tn (nm id) params va) [] tl
     (TId (nm id) :: TOp "(" :: toks (pplist nm tn params va) ++ TOp ")" :: tl) Hr Ho)
    as (b & a & r & B & A & ms & S1 & BB).
  { exact Hid. }
  { rewrite DT. split; (apply eat_kw; [now apply ident_kw|reflexivity]). }
  { rewrite DT. exists 1. intros [|F] HF; [lia|]. reflexivity. }
  destruct S1 as [m1 S1]. destruct (params_read nm tn params va Hp tl) as [m2 S2].
  assert (S3 : ev (fun F => plocals F (toks (flat_map (ploc sp nm) vars) ++ toks (flat_map (ptmp sp nm tn) temps) ++
       toks (ps sp cut nm tn body) ++ TOp "}" :: ts0))
     (List.map (local nm false nm) vars ++ List.map (local nm true tn) temps, toks (ps sp cut nm tn body) ++ TOp "}" :: ts0)).
  { apply vars_read; [assumption|]. rewrite <- (app_nil_r (List.map (local nm true tn) temps)).
    apply temps_read; [assumption|]. apply locals_end. apply bhead_app. now apply bhead_stmt. }
  destruct S3 as [m3 S3].
  assert (S4 : ev (fun F => pblock F (toks (ps sp cut nm tn body) ++ TOp "}" :: ts0)) (items nm tn body, ts0)).
  { destruct (read_all sp cut nm tn Hsp Hcut Hfl Hlit) as [R _]. apply blk_brace. now apply R. }
  destruct S4 as [m4 S4].
  exists (m1 + m2 + m3 + m4). intros F HF. unfold pext.
  rewrite comp_head_pcd by reflexivity.
  assert (FO : first_of (toks (pcd nm (phdr nm tn (nm id) params va) ret) ++ tl) = Some "{").
  { rewrite first_clean; [rewrite TL; reflexivity|]. apply clean_pcd; [exact Hr|]. now apply clean_hdr. }
  rewrite FO. change (String.eqb "{" ";") with false. change (String.eqb "{" "=") with false. cbv iota.
  unfold pfundef. rewrite B.
  destruct (pattrs r) as [a' ts2] eqn:PA. cbn [fst snd] in A, S1. subst a'.
  rewrite S1 by lia. rewrite (ident_kw _ Hid), eat_same by discriminate.
  rewrite S2 by lia. rewrite TL, eat_same by discriminate. rewrite S3, S4 by lia.
  rewrite BB. reflexivity.
Qed.

(** ** The whole text *)

Lemma concat_app : forall a b, String.concat "" (a ++ b) = (String.concat "" a ++ String.concat "" b)%string.
Proof.
  induction a as [|x a IH]; intros b; [reflexivity|]. cbn [List.app].
  assert (C : forall x l, String.concat "" (x :: l) = (x ++ String.concat "" l)%string).
  { intros y l. cbn [String.concat]. destruct l; [cbn [String.concat]; now rewrite sapp_nil|reflexivity]. }
  rewrite !C, IH, sapp_assoc. reflexivity.
Qed.

Lemma concat_cons : forall x l, String.concat "" (x :: l) = (x ++ String.concat "" l)%string.
Proof. intros x l. exact (concat_app [x] l). Qed.

Lemma concat_drop : forall (A : Type) (f : A -> string) (g : A -> list string) l,
  (forall x, In x l -> f x = String.concat "" (g x)) ->
  String.concat "" (List.map f l) = String.concat "" (flat_map g l).
Proof.
  intros A f g. induction l as [|x l IH]; intros H; [reflexivity|]. cbn [List.map flat_map].
  rewrite concat_cons, concat_app, IH by (intros; apply H; now right). now rewrite (H x (or_introl eq_refl)).
Qed.

Lemma items_read : forall ss xs, Forall2 item ss xs ->
  exists ps, render ps = String.concat "" ss /\ okp None ps = true /\ lastp None ps = None /\
    ev (fun F => punit F (toks ps)) xs.
Proof.
  intros ss xs H. induction H as [|s x ss xs (ps & R & O & L & N & P) _ (qs & R2 & O2 & L2 & [m E])].
  - exists []. split; [reflexivity|]. split; [reflexivity|]. split; [reflexivity|]. exists 1. intros [|F] HF; [lia|]. reflexivity.
  - exists (ps ++ qs). split; [rewrite render_app, concat_cons, R, R2; reflexivity|].
    split; [rewrite okp_app, O, L; exact O2|]. split; [rewrite lastp_app, L; exact L2|].
    destruct (P (toks qs)) as [m2 E2]. exists (1 + (m + m2)). intros [|F] HF; [lia|]. rewrite toks_app. cbn [punit].
    destruct (toks ps ++ toks qs) eqn:X; [apply app_eq_nil in X; destruct X; congruence|].
    rewrite E2 by lia. rewrite E by lia. reflexivity.
Qed.

(** the hash sign does not occur *)
Lemma pieces_nohash : forall ps prev, okp prev ps = true -> no_char "#" (render ps) = true.
Proof.
  assert (IDC : forall c, id_char c = true -> negb (c =? "#")%char = true).
  { intros c H. destruct (c =? "#")%char eqn:E; [|reflexivity]. apply Ascii.eqb_eq in E. subst c. discriminate H. }
  assert (TK : forall t, wf_tok t = true -> no_char "#" (spell t) = true).
  { intros [s|s|s|c] H; cbn [wf_tok spell] in *; [| | |discriminate H].
    - destruct s as [|c s]; [discriminate H|]. apply andb_true_iff in H. destruct H as [H1 H2]. unfold no_char. cbn [all_chars].
      rewrite (IDC c) by (unfold id_char; now rewrite H1). cbn [andb]. apply (all_impl id_char); [exact IDC|exact H2].
    - destruct s as [|c s]; [discriminate H|]. apply andb_true_iff in H. destruct H as [H1 H2]. unfold no_char. cbn [all_chars].
      rewrite (IDC c) by (unfold id_char; rewrite H1; apply orb_true_r). cbn [andb]. clear H1. revert c H2.
      induction s as [|d s IH]; intros c H2; [reflexivity|]. cbn [num_tail] in H2. apply andb_true_iff in H2. destruct H2 as [H1 H2].
      cbn [all_chars]. rewrite (IH d H2), andb_true_r.
      destruct (d =? "#")%char eqn:E; [|reflexivity]. apply Ascii.eqb_eq in E. subst d. exfalso.
      change (num_char "#") with false in H1. change ("#" =? "+")%char with false in H1. change ("#" =? "-")%char with false in H1.
      rewrite andb_false_r in H1. discriminate H1.
    - apply mem_in in H. cbn [In] in H. repeat (destruct H as [H|H]; [subst s; reflexivity|]). destruct H. }
  induction ps as [|[t|s|s] ps IH]; intros prev H; [reflexivity| | |]; cbn [okp render] in *; unfold no_char in *; rewrite !all_app.
  - rewrite !andb_true_iff in H. destruct H as ((A & _) & B). rewrite (TK _ A). cbn [andb]. exact (IH _ B).
  - rewrite andb_true_iff in H. destruct H as (A & B). rewrite (IH _ B), andb_true_r.
    unfold white in A. apply andb_true_iff in A. destruct A as [_ A]. revert A. apply all_impl.
    intros c C. destruct (c =? "#")%char eqn:E; [|reflexivity]. apply Ascii.eqb_eq in E. subst c. discriminate C.
  - destruct prev; [discriminate H|]. apply andb_true_iff in H. destruct H as [Q H]. rewrite (IH _ H).
    assert (Q2 : all_chars (fun d => negb (d =? "#")%char) s = true).
    { revert Q. apply all_impl. intros c C. apply andb_true_iff in C. apply C. }
    rewrite Q2. reflexivity.
Qed.

(** the texts of the items of a program *)
Definition dtexts (d : positive * globdef) : list string :=
  match snd d with
  | Gfun (External false _ _ _ _) | Gvar _ => []
  | _ => [print_globdecl sp nm d]
  end.
Definition ftexts (d : positive * globdef) : list string :=
  match snd d with
  | Gfun (External _ _ _ _ _) => []
  | _ => [print_globdef sp cut nm tn d]
  end.
Definition rdefs (d : positive * globdef) : list cext :=
  match snd d with
  | Gfun (Internal f) => [XFun (cfun_read (fst d) f)]
  | Gfun (External _ _ _ _ _) => []
  | Gvar v => [cvar_of nm (fst d) v]
  end.

Definition texts (p : program) : list string :=
  List.map (declare_composite sp nm) (prog_types p) ++ List.map (define_composite sp cut nm) (prog_types p) ++
  flat_map dtexts (prog_defs p) ++ flat_map ftexts (prog_defs p).

Lemma texts_program : forall p, String.concat "" (texts p) = print_program sp cut nm tn p.
Proof.
  intros p. unfold texts, print_program. rewrite !concat_app. f_equal. f_equal. f_equal.
  - symmetry. apply concat_drop. intros [i [[f|[] a r v u]|v]] _; reflexivity.
  - symmetry. apply concat_drop. intros [i [[f|n a r v u]|v]] _; reflexivity.
Qed.

Lemma map_items : forall (A : Type) (f : A -> string) (g : A -> cext) l, (forall x, In x l -> item (f x) (g x)) ->
  Forall2 item (List.map f l) (List.map g l).
Proof.
  intros A f g. induction l as [|x l IH]; intros H; constructor; [apply H; now left|]. apply IH. intros; apply H; now right.
Qed.

Lemma flat_items : forall (A : Type) (f : A -> list string) (g : A -> list cext) l,
  (forall x, In x l -> Forall2 item (f x) (g x)) -> Forall2 item (flat_map f l) (flat_map g l).
Proof.
  intros A f g. induction l as [|x l IH]; intros H; [constructor|]. cbn [flat_map]. apply Forall2_app; [apply H; now left|].
  apply IH. intros; apply H; now right.
Qed.

Lemma decl_texts : forall d, def_ok nm tn d = true -> Forall2 item (dtexts d) (cdecls nm d).
Proof.
  intros [i [[f|[] a r v u]|v]] H; unfold dtexts, cdecls; cbn [fst snd def_ok] in *; constructor; try constructor.
  - unfold fun_ok in H. rewrite !andb_true_iff in H. destruct H as ((((((Hid & HT) & _) & _) & _) & _) & _).
    pose proof (decl_item false false (nm i) (fun_type f) false Hid HT) as D. cbn [String.append] in D.
    rewrite sapp_nil in D. exact D.
  - unfold def_ok in H. cbn [fst snd] in H. apply andb_true_iff in H. destruct H as [Hid HT].
    pose proof (decl_item true false (nm i) (Tfunction a r v u) false Hid HT) as D. rewrite sapp_nil in D. exact D.
Qed.

Lemma def_texts : forall d, def_ok nm tn d = true -> Forall2 item (ftexts d) (rdefs d).
Proof.
  intros [i [[f|n a r v u]|v]] H; unfold ftexts, rdefs; cbn [fst snd] in *; constructor; try constructor.
  - apply fun_item. exact H.
  - apply var_item. exact H.
Qed.

Definition runit (p : program) : list cext :=
  List.map (ccomp nm) (prog_types p) ++ List.map (ccompdef nm) (prog_types p) ++
  flat_map (cdecls nm) (prog_defs p) ++ flat_map rdefs (prog_defs p).

Lemma program_items : forall p, prog_ok nm tn p = true -> Forall2 item (texts p) (runit p).
Proof.
  intros p H. unfold prog_ok in H. apply andb_true_iff in H. destruct H as [HC HD]. rewrite forallb_forall in HC, HD.
  unfold texts, runit. apply Forall2_app; [|apply Forall2_app; [|apply Forall2_app]].
  - apply map_items. intros c Hc. apply comp_item. specialize (HC c Hc). unfold comp_ok in HC. rewrite !andb_true_iff in HC. apply HC.
  - apply map_items. intros c Hc. apply compdef_item. now apply HC.
  - apply flat_items. intros d Hd. apply decl_texts. now apply HD.
  - apply flat_items. intros d Hd. apply def_texts. now apply HD.
Qed.

Lemma texts_read : forall ss xs w, Forall2 item ss xs -> w = "" \/ white w = true ->
  reads_unit (String.concat "" ss ++ w) xs /\ no_char "#" (String.concat "" ss) = true.
Proof.
  intros ss xs w H Hw. destruct (items_read _ _ H) as (ps & R & O & L & E).
  rewrite <- R. split; [|exact (pieces_nohash ps None O)]. unfold reads_unit. destruct Hw as [->|Hw].
  - rewrite sapp_nil, lex_pieces by exact O. exact E.
  - assert (RW : (render ps ++ w)%string = render (ps ++ [G w])) by (rewrite render_app; cbn [render]; now rewrite sapp_nil).
    rewrite RW, lex_pieces.
    + rewrite toks_app. cbn [toks]. rewrite app_nil_r. exact E.
    + rewrite okp_app, O, L. cbn [okp]. now rewrite Hw.
Qed.

Lemma program_reads : forall p w, prog_ok nm tn p = true -> w = "" \/ white w = true ->
  reads_unit (print_program sp cut nm tn p ++ w) (runit p) /\ no_char "#" (print_program sp cut nm tn p) = true.
Proof.
  intros p w H Hw. rewrite <- texts_program. apply texts_read; [now apply program_items|exact Hw].
Qed.

Lemma same_refl : forall x, same x x.
Proof. intros []; try reflexivity. repeat split. Qed.

Lemma runit_same : forall p, Forall2 same (runit p) (cunit nm tn mag_text p).
Proof.
  assert (R : forall l, Forall2 same l l) by (induction l; constructor; [apply same_refl|assumption]).
  intros p. unfold runit, cunit. repeat (apply Forall2_app; [apply R|]).
  induction (prog_defs p) as [|d l IH]; [constructor|]. cbn [flat_map]. apply Forall2_app; [|exact IH].
  destruct d as [i [[f|n a r v u]|v]]; unfold rdefs, cdefs; cbn [fst snd].
  - apply Forall2_cons; [|constructor]. unfold same, cfun_read, cfun_of. cbn [cf_name cf_ret cf_params cf_vararg cf_locals cf_body].
    repeat (split; [reflexivity|]). apply tidy_all.
  - constructor.
  - apply Forall2_cons; [apply same_refl|constructor].
Qed.

End FILE.
