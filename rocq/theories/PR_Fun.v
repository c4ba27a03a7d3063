(** * Functions: printed text and its reading *)
From Coq Require Import ZArith NArith List String Ascii Bool Lia.
From Coq.Floats Require Import SpecFloat.
From Verif Require Import PR_Model PR_Spec PR_Lex PR_Num PR_Types PR_Decl PR_Exprs PR_Read PR_Stmt.
Import ListNotations.
Local Open Scope string_scope.
Local Open Scope list_scope.

Section FUN.
Variable sp cut : string.
Variable nm tn : positive -> string.

Definition pnp (name : positive -> string) (d : positive * type) : list piece :=
  pcd nm [wd (name (fst d))] (snd d).

Definition pplist (name : positive -> string) (params : list (positive * type)) (va : bool) : list piece :=
  match params with
  | [] => if va then [op "..."] else [wd "void"]
  | _ => psep (List.map (pnp name) params) [op ","; G " "] ++ (if va then [op ","; op "..."] else [])
  end.

Definition phdr (f : string) (params : list (positive * type)) (va : bool) : list piece :=
  wd f :: op "(" :: pplist tn params va ++ [op ")"].

Definition ploc (d : positive * type) : list piece := pnp nm d ++ [op ";"; G sp].
Definition ptmp (d : positive * type) : list piece := [wd "register"; G " "] ++ pnp tn d ++ [op ";"; G sp].

Definition pfun (id : positive) (params : list (positive * type)) (va : bool) (ret : type)
    (vars temps : list (positive * type)) (body : stmt) : list piece :=
  pcd nm (phdr (nm id) params va) ret ++ [G sp; op "{"; G sp] ++ flat_map ploc vars ++ flat_map ptmp temps ++
  ps sp cut nm tn body ++ pcut cut ++ [op "}"; G sp; G sp].

(** ** The text *)

Lemma ident_ne : forall s, ident s = true -> s <> "".
Proof. intros s H. destruct (ident_start _ H) as (c & r & E & _). rewrite E. discriminate. Qed.

Lemma render_pnp : forall name d, ident (name (fst d)) = true ->
  render (pnp name d) = name_cdecl nm (name (fst d)) (snd d).
Proof.
  intros name [id ty] H. cbn [fst snd] in *. unfold pnp. cbn [fst snd].
  assert (R : render [wd (name id)] = name id) by (cbn [render spell]; apply sapp_nil).
  rewrite (render_pcd nm ty [wd (name id)]); [rewrite R; reflexivity|].
  intros _. rewrite R. now apply ident_ne.
Qed.

Lemma render_flat : forall (A : Type) (f : A -> list piece) l,
  render (flat_map f l) = String.concat "" (List.map (fun x => render (f x)) l).
Proof.
  intros A f. induction l as [|x l IH]; [reflexivity|]. cbn [flat_map List.map String.concat].
  rewrite render_app, IH. destruct l; cbn [List.map String.concat]; [now rewrite sapp_nil|reflexivity].
Qed.

Lemma render_fun : forall id params va ret vars temps body,
  ident (nm id) = true -> decls_ok nm tn params = true -> decls_ok nm nm vars = true -> decls_ok nm tn temps = true ->
  render (pfun id params va ret vars temps body) = print_function sp cut nm tn id params va ret vars temps body.
Proof.
  intros id params va ret vars temps body Hid Hp Hv Ht. unfold pfun, print_function.
  assert (DN : forall name l, decls_ok nm name l = true -> forall d, In d l -> ident (name (fst d)) = true).
  { intros name l H d Hd. unfold decls_ok in H. rewrite forallb_forall in H. specialize (H d Hd). destruct d as [i t].
    apply andb_true_iff in H. apply H. }
  assert (HD : render (phdr (nm id) params va) = name_params nm tn (nm id) params va).
  { unfold phdr, name_params. cbn [render spell]. f_equal. f_equal. rewrite render_app. cbn [render spell]. f_equal.
    unfold pplist. destruct params as [|d params]; [destruct va; reflexivity|].
    rewrite render_app, render_sep, map_map. f_equal; [|destruct va; reflexivity].
    unfold sep. cbn [render spell]. f_equal. apply map_ext_in. intros d' Hd'. destruct d' as [i t].
    apply (render_pnp tn (i, t)). apply (DN _ _ Hp _ Hd'). }
  rewrite !render_app, (render_pcd nm ret (phdr (nm id) params va)), HD.
  2:{ intros _ X. unfold phdr in X. cbn [render spell] in X. destruct (nm id); discriminate X. }
  rewrite !render_flat. cbn [render spell]. rewrite render_cut. destruct (render_stmt sp cut nm tn) as [RS _]. rewrite RS.
  rewrite !sapp_assoc. cbn [String.append].
  assert (EV : List.map (fun x => render (ploc x)) vars = List.map (fun '(id, ty) => (name_cdecl nm (nm id) ty ++ ";" ++ sp)%string) vars).
  { apply map_ext_in. intros [i t] Hd. unfold ploc. rewrite render_app, render_pnp by (apply (DN _ _ Hv _ Hd)).
    cbn [render spell fst snd]. now rewrite sapp_nil. }
  assert (ET : List.map (fun x => render (ptmp x)) temps =
     List.map (fun '(id, ty) => ("register " ++ name_cdecl nm (tn id) ty ++ ";" ++ sp)%string) temps).
  { apply map_ext_in. intros [i t] Hd. unfold ptmp. rewrite !render_app, render_pnp by (apply (DN _ _ Ht _ Hd)).
    cbn [render spell fst snd]. rewrite !sapp_nil. reflexivity. }
  rewrite EV, ET, !sapp_nil. reflexivity.
Qed.

(** ** Lexing *)

Hypothesis Hsp : white sp = true.
Hypothesis Hcut : cut = "" \/ white cut = true.
Hypothesis Hfl : forall f, finite f = true -> wf_tok (TNum (mag_text f)) = true.
Hypothesis Hlit : forall f, finite f = true -> exists e, literal (mag_text f) = Some e.

Lemma name_dok : forall x, ident x = true -> dok [wd x].
Proof. intros x H. split; [cbn [okp]; now rewrite ident_wf|]. split; [exact H|reflexivity]. Qed.

Lemma good_pnp : forall name d, ident (name (fst d)) = true -> type_ok nm (snd d) = true -> good (pnp name d).
Proof. intros name d I T. unfold pnp. apply (pcd_ok nm (snd d) [wd (name (fst d))] T). now apply name_dok. Qed.

Lemma first_word_pcd : forall ty dp, first_word (pcd nm dp ty) = true.
Proof.
  apply (type_ind2 (fun t => forall dp, first_word (pcd nm dp t) = true)); intros; cbn [pcd];
    try reflexivity.
  - destruct sz, sg; reflexivity.
  - destruct sg; reflexivity.
  - destruct sz; reflexivity.
  - destruct (is_value (Tpointer t a)); [reflexivity|]. apply H.
  - apply H.
  - apply H0.
Qed.

Lemma good_hdr : forall f params va, ident f = true -> decls_ok nm tn params = true -> dok (phdr f params va).
Proof.
  intros f params va I D. unfold phdr.
  assert (A : okp (Some (TOp "(")) (pplist tn params va) = true /\ cls (lastp (Some (TOp "(")) (pplist tn params va)) = true).
  { unfold pplist. destruct params as [|d params]; [destruct va; split; reflexivity|].
    assert (HM : Forall (fun x => okp None x = true /\ cls (lastp None x) = true /\ first_word x = true)
                   (List.map (pnp tn) (d :: params))).
    { apply Forall_map. apply Forall_forall. intros d' Hd'. unfold decls_ok in D. rewrite forallb_forall in D.
      specialize (D d' Hd'). destruct d' as [i t]. apply andb_true_iff in D. destruct D as [D1 D2].
      destruct (good_pnp tn (i, t) D1 D2) as [X Y]. split; [exact X|]. split; [exact Y|]. apply first_word_pcd. }
    destruct (sep_pieces _ HM (Some (TOp "(")) eq_refl (or_intror (ex_intro _ _ (conj eq_refl eq_refl)))) as [S1 S2].
    rewrite okp_app, lastp_app, S1. cbn [andb]. destruct va.
    - split; [|reflexivity]. apply okp_closing; [exact S2|cbn; tauto|reflexivity].
    - split; [reflexivity|exact S2]. }
  destruct A as [A B]. split; [|split; [exact I|]].
  - cbn [okp]. rewrite (ident_wf _ I). change (wf_tok (TOp "(")) with true. change (fits (TId f) (TOp "(")) with true. cbn [andb].
    rewrite okp_app, A. cbn [andb]. apply okp_closing; [exact B|cbn; tauto|reflexivity].
  - cbn [lastp]. rewrite lastp_app. reflexivity.
Qed.

Lemma good_flat : forall (f : positive * type -> list piece) l,
  (forall d, In d l -> good (f d) /\ lastp None (f d) = None) ->
  good (flat_map f l) /\ lastp None (flat_map f l) = None.
Proof.
  intros f. induction l as [|d l IH]; intros H; [repeat split|]. cbn [flat_map].
  destruct (H d (or_introl eq_refl)) as [A B]. destruct IH as [C D]; [intros; apply H; now right|].
  split.
  - apply good_app; [exact A| |]; rewrite B; apply C.
  - rewrite lastp_app, B. exact D.
Qed.

Lemma good_locals : forall name l (pre : list piece), decls_ok nm name l = true -> good pre -> lastp None pre = None ->
  forall d, In d l -> good (pre ++ pnp name d ++ [op ";"; G sp]) /\ lastp None (pre ++ pnp name d ++ [op ";"; G sp]) = None.
Proof.
  intros name l pre H GP LP d Hd. unfold decls_ok in H. rewrite forallb_forall in H. specialize (H d Hd).
  destruct d as [i t]. apply andb_true_iff in H. destruct H as [H1 H2].
  assert (X : good (pnp name (i, t) ++ [op ";"])) by (apply good_close; [now apply good_pnp|cbn; tauto]).
  split.
  - apply good_app; [assumption| |]; rewrite LP.
    + change [op ";"; G sp] with ([op ";"] ++ [G sp]). rewrite app_assoc, okp_app. destruct X as [X _]. rewrite X.
      cbn [okp]. now rewrite Hsp.
    + rewrite lastp_app. reflexivity.
  - rewrite !lastp_app. reflexivity.
Qed.

Lemma good_fun : forall id params va ret vars temps body,
  ident (nm id) = true -> decls_ok nm tn params = true -> type_ok nm ret = true -> decls_ok nm nm vars = true ->
  decls_ok nm tn temps = true -> stmt_ok nm tn body = true ->
  okp None (pfun id params va ret vars temps body) = true.
Proof.
  intros id params va ret vars temps body Hid Hp Hr Hv Ht Hb. unfold pfun.
  destruct (pcd_ok nm ret _ Hr (good_hdr (nm id) params va Hid Hp)) as [A1 A2].
  destruct (good_flat ploc vars) as [[B1 _] B2].
  { intros d Hd. apply (good_locals nm vars [] Hv); [split; reflexivity|reflexivity|exact Hd]. }
  destruct (good_flat ptmp temps) as [[C1 _] C2].
  { intros d Hd. apply (good_locals tn temps [wd "register"; G " "] Ht); [split; reflexivity|reflexivity|exact Hd]. }
  destruct (good_cut cut Hcut (ps sp cut nm tn body) "}") as [D1 _].
  { apply good_stmt; assumption. }
  { cbn; tauto. }
  rewrite !okp_app, A1. cbn [andb lastp okp]. rewrite Hsp. change (white sp) with (white sp).
  change (wf_tok (TOp "{")) with true. cbn [andb].
  rewrite B1, B2, C1, C2. cbn [andb].
  rewrite !okp_app in D1. rewrite !andb_true_iff in D1. destruct D1 as (D1 & D2 & D3). rewrite D1, D2. cbn [andb].
  cbn [okp] in D3. rewrite andb_true_r in D3. rewrite D3. reflexivity.
Qed.

(** ** Reading *)

Definition Hd (dt : list token) (ms : list dmod) (rest : list token) : Prop :=
  ev (fun F => pstars F dt) (ms, rest).

Definition hdr_reads (ty : type) : Prop :=
  forall dp ms ts rest, type_ok nm ty = true -> result_ok ty = true -> opn dp = true -> no_attr (toks dp ++ ts) ->
    Hd (toks dp ++ ts) ms rest ->
    exists b a r, pbase (toks (pcd nm dp ty) ++ ts) = Some (b, r) /\ fst (pattrs r) = a /\
      exists ms', Hd (snd (pattrs r)) ms' rest /\ build (CBase b a) ms' = build (ctype nm ty) ms.

Lemma hdr_base : forall ws b a dp ms ts rest,
  (forall r, pbase (toks ws ++ r) = Some (b, r)) -> attr_ok a = true -> no_attr (toks dp ++ ts) ->
  Hd (toks dp ++ ts) ms rest ->
  exists b' a' r, pbase (toks (ws ++ pattr a ++ optid dp) ++ ts) = Some (b', r) /\ fst (pattrs r) = a' /\
    exists ms', Hd (snd (pattrs r)) ms' rest /\ build (CBase b' a') ms' = build (CBase b (meta a)) ms.
Proof.
  intros ws b a dp ms ts rest B Ha N H.
  exists b, (meta a), (toks (pattr a) ++ toks dp ++ ts).
  rewrite !toks_app, toks_optid, <- !app_assoc, B, pattrs_pieces by assumption. cbn [fst snd].
  split; [reflexivity|]. split; [reflexivity|]. exists ms. split; [assumption|reflexivity].
Qed.

Lemma hdr_all : forall ty, hdr_reads ty.
Proof.
  apply type_ind2; unfold hdr_reads.
  - intros dp ms ts rest _ _ O N H. cbn [pcd].
    change (wd "void" :: optid dp) with ([wd "void"] ++ pattr noattr ++ optid dp).
    apply (hdr_base [wd "void"] BVoid noattr); try assumption; reflexivity.
  - intros sz sg a dp ms ts rest Ha _ O N H. cbn [pcd type_ok] in *.
    replace (ctype nm (Tint sz sg a)) with
      (CBase (match sz with IBool => BInt IBool Signed | _ => BInt sz sg end) (meta a))
      by (destruct sz; reflexivity).
    apply hdr_base; try assumption. intros r. destruct sz, sg; reflexivity.
  - intros sg a dp ms ts rest Ha _ O N H. cbn [pcd type_ok] in *.
    apply (hdr_base (plong sg) (BLong sg)); try assumption. intros r. destruct sg; reflexivity.
  - intros sz a dp ms ts rest Ha _ O N H. cbn [pcd type_ok] in *.
    apply (hdr_base [wd (name_floattype sz)] (BFloat sz)); try assumption. intros r. destruct sz; reflexivity.
  - intros t a IH dp ms ts rest Hok Hr O N H. cbn [pcd]. cbn [type_ok] in Hok. cbn [result_ok] in Hr.
    rewrite !andb_true_iff in Hok. destruct Hok as ((Ha & Ht) & Hv).
    destruct (is_value (Tpointer t a)) eqn:V.
    + rewrite ctype_value by assumption. cbn [andb] in Hv. apply negb_true_iff in Hv. rewrite Hv.
      change (wd "value" :: optid dp) with ([wd "value"] ++ pattr noattr ++ optid dp).
      apply (hdr_base [wd "value"] BValue noattr); try assumption; reflexivity.
    + rewrite ctype_ptr by assumption. cbn [orb] in Hr.
      change (CPtr (ctype nm t) (meta a)) with (apply_mod (MPtr (meta a)) (ctype nm t)).
      rewrite <- build_snoc.
      assert (FA : fun_or_array t = false) by (destruct t; try reflexivity; discriminate Hr). rewrite FA.
      apply IH; [assumption|assumption|reflexivity|split; reflexivity|].
      cbn [toks]. rewrite toks_app, toks_attr_sp. destruct H as [m E]. exists (S m). intros [|F] HF; [lia|].
      cbn [pstars List.app]. rewrite eat_same by discriminate.
      rewrite <- app_assoc, pattrs_pieces by assumption. rewrite E by lia. reflexivity.
  - intros t k a IH dp ms ts rest _ Hr. discriminate Hr.
  - intros args res va un _ _ dp ms ts rest _ Hr. discriminate Hr.
  - intros i a dp ms ts rest Hok _ O N H. cbn [pcd type_ok] in *. rewrite andb_true_iff in Hok.
    destruct Hok as [Ha Hi].
    apply (hdr_base [wd "struct"; G " "; wd (nm i)] (BStruct (nm i))); try assumption. reflexivity.
  - intros i a dp ms ts rest Hok _ O N H. cbn [pcd type_ok] in *. rewrite andb_true_iff in Hok.
    destruct Hok as [Ha Hi].
    apply (hdr_base [wd "union"; G " "; wd (nm i)] (BUnion (nm i))); try assumption. reflexivity.
Qed.

Definition named (name : positive -> string) (d : positive * type) : string * cty :=
  (name (fst d), ctype nm (snd d)).

Lemma named_read : forall name d r, ident (name (fst d)) = true -> type_ok nm (snd d) = true -> dstop r = true ->
  ev (fun F => ptype F (toks (pnp name d) ++ r)) (Some (name (fst d)), ctype nm (snd d), r).
Proof.
  intros name d r I T D. unfold pnp.
  apply (reads_all nm (snd d) [wd (name (fst d))] (Some (name (fst d))) [] r T); [exact I| | |exact D].
  - destruct (fun_or_array (snd d)); [now apply dir_id|apply dir_dec; now apply dir_id].
  - discriminate.
Qed.

Lemma word_head : forall name d r, exists w l, toks (pnp name d) ++ r = TId w :: l.
Proof.
  intros name d r. unfold pnp. pose proof (first_word_pcd (snd d) [wd (name (fst d))]) as H.
  destruct (pcd nm [wd (name (fst d))] (snd d)) as [|[[s|s|s|c]|s|] q]; try discriminate H. cbn [toks List.app]. eauto.
Qed.

Lemma pnamed_args : forall params (va : bool), params <> [] -> decls_ok nm tn params = true -> forall ts,
  ev (fun F => pnamed F (toks (psep (List.map (pnp tn) params) [op ","; G " "]
       ++ (if va then [op ","; op "..."] else [])) ++ TOp ")" :: ts))
     ((List.map (named tn) params, va), ts).
Proof.
  intros params va. induction params as [|d params IH]; intros NE Hok ts; [congruence|].
  cbn [decls_ok forallb] in Hok. destruct d as [i t]. rewrite !andb_true_iff in Hok. destruct Hok as ((I & T) & Hok).
  pose proof (fun r => named_read tn (i, t) r I T) as R.
  assert (Head : forall r, eats [TOp "..."; TOp ")"] (toks (pnp tn (i, t)) ++ r) = None).
  { intros r. destruct (word_head tn (i, t) r) as (w & l & E). rewrite E. reflexivity. }
  destruct params as [|d1 params].
  - cbn [List.map psep]. rewrite toks_app.
    destruct va; cbn [toks].
    + destruct (R (TOp "," :: TOp "..." :: TOp ")" :: ts) eq_refl) as [m E].
      exists (S (S m)). intros [|[|F]] HF'; [lia|lia|]. rewrite <- app_assoc. cbn [List.app].
      cbn [pnamed]. rewrite Head. rewrite E by lia. rewrite eat_same by discriminate. reflexivity.
    + destruct (R (TOp ")" :: ts) eq_refl) as [m E].
      exists (S m). intros [|F] HF'; [lia|]. rewrite app_nil_r.
      cbn [pnamed]. rewrite Head, E by lia. reflexivity.
  - destruct (IH ltac:(discriminate) Hok ts) as [m2 E2].
    set (rest := (toks (psep (List.map (pnp tn) (d1 :: params)) [op ","; G " "]
         ++ (if va then [op ","; op "..."] else [])) ++ TOp ")" :: ts)) in *.
    assert (X : (toks (psep (List.map (pnp tn) ((i, t) :: d1 :: params)) [op ","; G " "]
         ++ (if va then [op ","; op "..."] else [])) ++ TOp ")" :: ts)
       = (toks (pnp tn (i, t)) ++ TOp "," :: rest)).
    { unfold rest. change (psep (List.map (pnp tn) ((i, t) :: d1 :: params)) [op ","; G " "])
        with (pnp tn (i, t) ++ [op ","; G " "] ++ psep (List.map (pnp tn) (d1 :: params)) [op ","; G " "]).
      rewrite !toks_app, <- !app_assoc. reflexivity. }
    destruct (R (TOp "," :: rest) eq_refl) as [m E].
    exists (S (m + m2)). intros [|F] HF'; [lia|]. rewrite X.
    cbn [pnamed]. rewrite Head, E by lia. rewrite eat_same by discriminate.
    rewrite E2 by lia. reflexivity.
Qed.

Lemma params_read : forall params (va : bool), decls_ok nm tn params = true -> forall ts,
  ev (fun F => match eats [TId "void"; TOp ")"] (toks (pplist tn params va) ++ TOp ")" :: ts) with
               | Some ts5 => Some (([], false), ts5)
               | None => pnamed F (toks (pplist tn params va) ++ TOp ")" :: ts)
               end) ((List.map (named tn) params, va), ts).
Proof.
  intros params va Hok ts. destruct params as [|d params].
  - destruct va; exists 1; intros [|F] HF; try lia; reflexivity.
  - destruct (pnamed_args (d :: params) va ltac:(discriminate) Hok ts) as [m E]. unfold pplist.
    set (body := psep (List.map (pnp tn) (d :: params)) [op ","; G " "] ++ (if va then [op ","; op "..."] else [])) in *.
    assert (B : exists r0, toks body = toks (pnp tn d) ++ r0).
    { unfold body. cbn [List.map psep].
      destruct (List.map (pnp tn) params); rewrite !toks_app, <- ?app_assoc; eauto. }
    destruct B as (r0 & B).
    assert (V : eats [TId "void"; TOp ")"] (toks body ++ TOp ")" :: ts) = None).
    { rewrite B, <- app_assoc. unfold pnp. apply void_next; [|discriminate].
      cbn [decls_ok forallb] in Hok. destruct d as [i t]. rewrite !andb_true_iff in Hok. cbn [opn fst]. apply Hok. }
    exists m. intros F HF. rewrite V. apply E, HF.
Qed.

(** the first token of a body *)
Definition bhead (x : list token) : bool :=
  match x with
  | TId s :: _ => negb (mem s type_words) && negb (String.eqb s "register")
  | TNum _ :: _ | TOp _ :: _ => true
  | _ => false
  end.

Lemma bhead_app : forall x y, bhead x = true -> bhead (x ++ y) = true.
Proof. intros [|[s|s|s|c] x] y H; try discriminate H; exact H. Qed.

Lemma kw_bhead : forall s, keyword s = false -> negb (mem s type_words) && negb (String.eqb s "register") = true.
Proof.
  intros s H. rewrite String.eqb_sym, (kw_ne s "register" H eq_refl), andb_true_r.
  unfold keyword in H. apply orb_false_iff in H. destruct H as [H _]. now rewrite H.
Qed.

Lemma ehead_bhead : forall x, ehead x = true -> bhead x = true.
Proof.
  intros [|[s|s|s|c] x] H; try discriminate H; try reflexivity. cbn [ehead bhead] in *.
  apply orb_true_iff in H. destruct H as [H|H].
  - apply kw_bhead. now apply negb_true_iff.
  - apply mem_in in H. cbn [In] in H. destruct H as [H|[H|[]]]; subst s; reflexivity.
Qed.

Lemma bhead_stmt : forall s, stmt_ok nm tn s = true -> bhead (toks (ps sp cut nm tn s)) = true.
Proof.
  induction s; intros H; cbn [ps stmt_ok] in *.
  - reflexivity.
  - apply andb_true_iff in H. destruct H as [H _]. rewrite toks_app. apply bhead_app, ehead_bhead. now apply ehead_pe.
  - apply andb_true_iff in H. destruct H as [H _]. cbn [List.app toks bhead].
    apply kw_bhead. now apply ident_kw.
  - rewrite !andb_true_iff in H. destruct H as (((H & H1) & H2) & H3). destruct id as [id|].
    + cbn [List.app toks bhead]. apply kw_bhead. now apply ident_kw.
    + rewrite toks_call by assumption. apply bhead_app, ehead_bhead. now apply ehead_call.
  - apply andb_true_iff in H. destruct H as [H1 H2]. destruct (is_skip s1); [auto|].
    destruct (is_skip s2); [auto|]. rewrite toks_app. apply bhead_app. auto.
  - destruct (is_skip s2); [|destruct (is_skip s1)]; rewrite toks_app, toks_cond by assumption; reflexivity.
  - rewrite toks_app, toks_cond by assumption; reflexivity.
  - reflexivity.
  - reflexivity.
  - rewrite toks_app, toks_cond by assumption; reflexivity.
  - destruct e as [e|]; reflexivity.
  - apply andb_true_iff in H. destruct H as [H _]. cbn [List.app toks bhead].
    apply kw_bhead. now apply ident_kw.
  - reflexivity.
Qed.

Lemma locals_end : forall x, bhead x = true -> ev (fun F => plocals F x) ([], x).
Proof.
  intros x H. exists 1. intros [|F] HF; [lia|]. cbn [plocals].
  destruct x as [|[s|s|s|c] x]; try discriminate H; try reflexivity.
  cbn [bhead] in H. apply andb_true_iff in H. destruct H as [H1 H2]. apply negb_true_iff in H1, H2.
  cbn [eat teq]. rewrite String.eqb_sym, H2. cbn [starts_type]. now rewrite H1.
Qed.

Lemma type_head : forall ty dp r, starts_type (toks (pcd nm dp ty) ++ r) = true /\
  eat (TId "register") (toks (pcd nm dp ty) ++ r) = None.
Proof.
  apply (type_ind2 (fun ty => forall dp r, starts_type (toks (pcd nm dp ty) ++ r) = true /\
    eat (TId "register") (toks (pcd nm dp ty) ++ r) = None)); intros; cbn [pcd]; try (split; reflexivity).
  - destruct sz, sg; split; reflexivity.
  - destruct sg; split; reflexivity.
  - destruct sz; split; reflexivity.
  - destruct (is_value (Tpointer t a)); [split; reflexivity|]. apply H.
  - apply H.
  - apply H0.
Qed.

Lemma local_step : forall (rg : bool) name d ts l r, ident (name (fst d)) = true -> type_ok nm (snd d) = true ->
  ev (fun F => plocals F ts) (l, r) ->
  ev (fun F => plocals F ((if rg then [TId "register"] else []) ++ toks (pnp name d) ++ TOp ";" :: ts))
    ((rg, name (fst d), ctype nm (snd d)) :: l, r).
Proof.
  intros rg name d ts l r I T [m E]. destruct (named_read name d (TOp ";" :: ts) I T eq_refl) as [m2 E2].
  exists (S (m + m2)). intros [|F] HF; [lia|]. cbn [plocals].
  destruct (type_head (snd d) [wd (name (fst d))] (TOp ";" :: ts)) as [S1 S2]. fold (pnp name d) in S1, S2.
  destruct rg; cbn [List.app].
  - rewrite eat_same by discriminate. rewrite S1, E2 by lia. rewrite eat_same by discriminate. rewrite E by lia. reflexivity.
  - rewrite S2, S1, E2 by lia. rewrite eat_same by discriminate. rewrite E by lia. reflexivity.
Qed.

Definition local (rg : bool) (name : positive -> string) (d : positive * type) : bool * string * cty :=
  (rg, name (fst d), ctype nm (snd d)).

Lemma vars_read : forall vars ts l r, decls_ok nm nm vars = true -> ev (fun F => plocals F ts) (l, r) ->
  ev (fun F => plocals F (toks (flat_map ploc vars) ++ ts)) (List.map (local false nm) vars ++ l, r).
Proof.
  induction vars as [|d vars IH]; intros ts l r H E; [exact E|].
  cbn [decls_ok forallb] in H. destruct d as [i t]. rewrite !andb_true_iff in H. destruct H as ((I & T) & H).
  cbn [flat_map List.map List.app]. unfold ploc at 1. rewrite !toks_app, <- !app_assoc. cbn [toks List.app].
  apply (local_step false nm (i, t) _ _ _ I T). now apply IH.
Qed.

Lemma temps_read : forall temps ts l r, decls_ok nm tn temps = true -> ev (fun F => plocals F ts) (l, r) ->
  ev (fun F => plocals F (toks (flat_map ptmp temps) ++ ts)) (List.map (local true tn) temps ++ l, r).
Proof.
  induction temps as [|d temps IH]; intros ts l r H E; [exact E|].
  cbn [decls_ok forallb] in H. destruct d as [i t]. rewrite !andb_true_iff in H. destruct H as ((I & T) & H).
  cbn [flat_map List.map List.app]. unfold ptmp at 1. rewrite !toks_app, <- !app_assoc. cbn [toks List.app].
  apply (local_step true tn (i, t) _ _ _ I T). now apply IH.
Qed.

Theorem fun_reads : forall id params va ret vars temps body,
  ident (nm id) = true -> decls_ok nm tn params = true -> type_ok nm ret = true -> result_ok ret = true ->
  decls_ok nm nm vars = true -> decls_ok nm tn temps = true -> stmt_ok nm tn body = true ->
  reads_function (print_function sp cut nm tn id params va ret vars temps body)
    {| cf_name := nm id; cf_ret := ctype nm ret; cf_params := List.map (named tn) params; cf_vararg := va;
       cf_locals := List.map (local false nm) vars ++ List.map (local true tn) temps;
       cf_body := items nm tn body |}.
Proof.
  intros id params va ret vars temps body Hid Hp Hr Ho Hv Ht Hb. unfold reads_function.
  rewrite <- render_fun by assumption. rewrite lex_pieces by (now apply good_fun).
  unfold pfun. rewrite toks_app.
  set (tl := toks ([G sp; op "{"; G sp] ++ flat_map ploc vars ++ flat_map ptmp temps ++ ps sp cut nm tn body
                   ++ pcut cut ++ [op "}"; G sp; G sp])).
  assert (TL : tl = TOp "{" :: toks (flat_map ploc vars) ++ toks (flat_map ptmp temps)
                    ++ toks (ps sp cut nm tn body) ++ TOp "}" :: []).
  { unfold tl. rewrite !toks_app, toks_cut by assumption. reflexivity. }
  assert (DT : toks (phdr (nm id) params va) ++ tl =
               TId (nm id) :: TOp "(" :: toks (pplist tn params va) ++ TOp ")" :: tl).
  { unfold phdr. cbn [toks]. rewrite toks_app. cbn [toks List.app]. rewrite <- app_assoc. reflexivity. }
  destruct (hdr_all ret (phdr (nm id) params va) [] tl
     (TId (nm id) :: TOp "(" :: toks (pplist tn params va) ++ TOp ")" :: tl) Hr Ho)
    as (b & a & r & B & A & ms & S1 & BB).
  { exact Hid. }
  { rewrite DT. split; (apply eat_kw; [now apply ident_kw|reflexivity]). }
  { rewrite DT. exists 1. intros [|F] HF; [lia|]. reflexivity. }
  destruct S1 as [m1 S1]. destruct (params_read params va Hp tl) as [m2 S2].
  assert (S3 : ev (fun F => plocals F (toks (flat_map ploc vars) ++ toks (flat_map ptmp temps) ++
       toks (ps sp cut nm tn body) ++ [TOp "}"]))
     (List.map (local false nm) vars ++ List.map (local true tn) temps, toks (ps sp cut nm tn body) ++ [TOp "}"])).
  { apply vars_read; [assumption|]. rewrite <- (app_nil_r (List.map (local true tn) temps)).
    apply temps_read; [assumption|]. apply locals_end. apply bhead_app. now apply bhead_stmt. }
  destruct S3 as [m3 S3].
  assert (S4 : ev (fun F => pblock F (toks (ps sp cut nm tn body) ++ [TOp "}"])) (items nm tn body, [])).
  { destruct (read_all sp cut nm tn Hsp Hcut Hfl Hlit) as [R _]. apply blk_brace. now apply R. }
  destruct S4 as [m4 S4].
  exists (m1 + m2 + m3 + m4). intros F HF. unfold pfundef. rewrite B.
  destruct (pattrs r) as [a' ts2] eqn:PA. cbn [fst snd] in A, S1. subst a'.
  rewrite S1 by lia. rewrite (ident_kw _ Hid), eat_same by discriminate.
  rewrite S2 by lia. rewrite TL, eat_same by discriminate. rewrite S3, S4 by lia.
  rewrite BB. reflexivity.
Qed.

End FUN.
