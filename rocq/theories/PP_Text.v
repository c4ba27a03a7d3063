(** * Whole files: layout of initialisers, string literals, include guards *)
From Coq Require Import ZArith NArith List String Ascii Bool Lia.
From Coq.Floats Require Import SpecFloat.
From Verif Require Import PR_Model PR_Spec PR_Lex PR_Num PR_Types.
From Verif Require Import PP_Model PP_Spec.
Import ListNotations.
Local Open Scope string_scope.
Local Open Scope list_scope.

(** ** Layout *)

Lemma signed_mod : forall k m n, (0 <= m <= k)%Z -> (signed k n mod 2 ^ m = n mod 2 ^ m)%Z.
Proof.
  intros k m n H. unfold signed.
  assert (E : (2 ^ k = 2 ^ (k - m) * 2 ^ m)%Z) by (rewrite <- Z.pow_add_r by lia; f_equal; lia).
  assert (P : (0 < 2 ^ m)%Z) by (apply Z.pow_pos_nonneg; lia).
  assert (P2 : (0 < 2 ^ k)%Z) by (apply Z.pow_pos_nonneg; lia).
  assert (D : (n mod 2 ^ k = n + - (n / 2 ^ k) * 2 ^ (k - m) * 2 ^ m)%Z).
  { rewrite Z.mod_eq by lia. rewrite <- Z.mul_assoc, <- E. ring. }
  cbv zeta. destruct (_ <? _)%Z.
  - rewrite D, Z.mod_add by lia. reflexivity.
  - rewrite D, E. replace (n + - (n / (2 ^ (k - m) * 2 ^ m)) * 2 ^ (k - m) * 2 ^ m - 2 ^ (k - m) * 2 ^ m)%Z
      with (n + (- (n / (2 ^ (k - m) * 2 ^ m)) * 2 ^ (k - m) - 2 ^ (k - m)) * 2 ^ m)%Z by ring.
    rewrite Z.mod_add by lia. reflexivity.
Qed.

Lemma cint_value : forall z suf, const_value (cint z suf) = Some (CNum z).
Proof.
  intros z suf. unfold cint. destruct (z <? 0)%Z eqn:E; cbn [const_value].
  - apply Z.ltb_lt in E. f_equal. f_equal. lia.
  - apply Z.ltb_ge in E. f_equal. f_equal. lia.
Qed.

Lemma signed_id : forall k n, (0 < k)%Z -> (- 2 ^ (k - 1) <= n < 2 ^ (k - 1))%Z -> signed k n = n.
Proof.
  intros k n K H. unfold signed. cbv zeta.
  assert (E : (2 ^ k = 2 * 2 ^ (k - 1))%Z) by (rewrite <- Z.pow_succ_r by lia; f_equal; lia).
  assert (P : (0 < 2 ^ (k - 1))%Z) by (apply Z.pow_pos_nonneg; lia).
  destruct (Z.ltb_spec n 0).
  - assert (M : (n mod 2 ^ k = n + 2 ^ k)%Z).
    { rewrite <- (Z.mod_add n 1 (2 ^ k)) by lia. rewrite Z.mul_1_l. apply Z.mod_small. lia. }
    rewrite M. destruct (Z.ltb_spec (n + 2 ^ k) (2 ^ (k - 1))); lia.
  - rewrite Z.mod_small by lia. destruct (Z.ltb_spec n (2 ^ (k - 1))); lia.
Qed.

Lemma caddr_value : forall x o, const_value (caddr x o) = Some (CAdr x o).
Proof.
  intros x o. unfold caddr. destruct (Z.eqb_spec o 0) as [->|_]; [reflexivity|].
  cbn [const_value]. rewrite cint_value. reflexivity.
Qed.

Lemma spaces_image : forall nm il ofs, forallb is_space_init il = true ->
  clight_image nm ofs il = [] /\ List.filter (fun i => negb (is_space_init i)) il = [].
Proof.
  induction il as [|i il IH]; intros ofs H; [split; reflexivity|]. cbn [forallb] in H. apply andb_true_iff in H. destruct H as [H1 H2].
  destruct i; try discriminate H1. cbn [clight_image init_content List.filter is_space_init negb]. now apply IH.
Qed.

Lemma uniform_image : forall nm s il ofs, uniform s il = true ->
  c_image s ofs (List.map (ciexp nm) (List.filter (fun i => negb (is_space_init i)) il)) = Some (clight_image nm ofs il).
Proof.
  intros nm s. induction il as [|i il IH]; intros ofs H; [reflexivity|].
  destruct i as [n|n|n|n|f|f|n|x o]; cbn [uniform] in H; try discriminate H.
  1-4: apply andb_true_iff in H; destruct H as [H1 H2]; apply Z.eqb_eq in H1; cbn [init_size] in H1; subst s;
       cbn [List.filter is_space_init negb List.map c_image ciexp clight_image init_content init_size];
       rewrite cint_value, (IH _ H2); cbn [fit]; rewrite signed_mod by lia; reflexivity.
  - destruct (spaces_image nm il (ofs + init_size (Init_space n)) H) as [A B].
    cbn [List.filter is_space_init negb clight_image init_content]. rewrite A, B. reflexivity.
  - rewrite !andb_true_iff in H. destruct H as (((H1 & H2) & H3) & H4). apply Z.eqb_eq in H1. subst s.
    apply Z.leb_le in H2. apply Z.ltb_lt in H3.
    cbn [List.filter is_space_init negb List.map c_image ciexp clight_image init_content init_size].
    rewrite caddr_value, (IH _ H4). cbn [fit].
    rewrite (signed_id 32); [|lia|change (32 - 1)%Z with 31%Z; lia].
    rewrite (signed_id 64); [reflexivity|lia|]. change (64 - 1)%Z with 63%Z.
    assert (2 ^ 31 < 2 ^ 63)%Z by reflexivity. lia.
Qed.

(** ** String literals *)

Definition quote : string := String """" "".

Lemma char_read : forall n r F, (0 <= n < 256)%Z ->
  string_bytes (S F) (string_char n ++ r)%string =
  match string_bytes F r with Some (l, q) => Some (n :: l, q) | None => None end.
Proof.
  intros n r F H.
  assert (I : In n (List.map Z.of_nat (List.seq 0 256))).
  { apply in_map_iff. exists (Z.to_nat n). split; [lia|]. apply in_seq. lia. }
  clear H. vm_compute in I.
  repeat (destruct I as [<-|I]; [reflexivity|]). destruct I.
Qed.

Lemma string_read : forall bs, Forall (fun b => (0 <= b < 256)%Z) bs ->
  exists s, string_of_init (List.map Init_int8 bs) = Some s /\
    forall F r, (List.length bs < F)%nat -> string_bytes F (s ++ String """" r)%string = Some (bs, r).
Proof.
  intros bs H. induction H as [|b bs Hb _ (s & E & R)].
  - exists "". split; [reflexivity|]. intros [|F] r HF; [cbn [List.length] in HF; lia|]. reflexivity.
  - exists (string_char b ++ s)%string. split; [cbn [List.map string_of_init]; now rewrite E|].
    intros [|F] r HF; [cbn [List.length] in HF; lia|]. rewrite sapp_assoc, char_read by exact Hb.
    rewrite R by (cbn [List.length] in HF; lia). reflexivity.
Qed.

Lemma chopped : forall bs, exists cs, chop_last_nul (List.map Init_int8 bs) = List.map Init_int8 cs /\
  filled (List.length bs) cs = bs /\ (forall P : Z -> Prop, Forall P bs -> Forall P cs).
Proof.
  intros bs. unfold chop_last_nul. rewrite <- List.map_rev.
  destruct (List.rev bs) as [|b l] eqn:E.
  - exists bs. assert (bs = []) by (rewrite <- (List.rev_involutive bs), E; reflexivity). subst bs. repeat split; auto.
  - assert (X : bs = List.rev l ++ [b]) by (rewrite <- (List.rev_involutive bs), E; reflexivity).
    assert (Same : exists cs, List.map Init_int8 bs = List.map Init_int8 cs /\ filled (List.length bs) cs = bs /\
      (forall P : Z -> Prop, Forall P bs -> Forall P cs)).
    { exists bs. split; [reflexivity|]. split; [|auto]. unfold filled. rewrite Nat.sub_diag. apply app_nil_r. }
    cbn [List.map]. destruct b as [|p|p]; [|exact Same|exact Same].
    exists (List.rev l). split; [now rewrite List.map_rev|]. subst bs. split.
    + unfold filled. rewrite app_length. cbn [List.length]. rewrite Nat.add_comm, Nat.add_sub. reflexivity.
    + intros P H. apply Forall_app in H. apply H.
Qed.

(** ** Include guards *)

Lemma lines_app : forall a b, lines (a ++ String newline b)%string = lines a ++ lines b.
Proof.
  induction a as [|c a IH]; intros b; [reflexivity|]. cbn [String.append lines]. rewrite IH.
  destruct (c =? newline)%char; [reflexivity|]. destruct (lines a) as [|l r] eqn:E; [|reflexivity].
  exfalso. destruct a as [|d a]; [discriminate E|]. cbn [lines] in E. destruct (d =? newline)%char; [discriminate E|].
  destruct (lines a); discriminate E.
Qed.

Lemma lines_one : forall s, no_char newline s = true -> lines s = [s].
Proof.
  unfold no_char. induction s as [|c s IH]; intros H; [reflexivity|]. cbn [all_chars] in H. apply andb_true_iff in H.
  destruct H as [H1 H2]. apply negb_true_iff in H1. cbn [lines]. rewrite H1, (IH H2). reflexivity.
Qed.

Lemma unlines_lines : forall s, unlines (lines s) = (s ++ String newline "")%string.
Proof.
  induction s as [|c s IH]; [reflexivity|]. cbn [lines]. destruct (c =? newline)%char eqn:E.
  - apply Ascii.eqb_eq in E. subst c. cbn [unlines String.append]. now rewrite IH.
  - destruct (lines s) as [|l r]; [destruct s; discriminate IH|]. cbn [unlines String.append] in *. now rewrite IH.
Qed.

Lemma lines_nohash : forall s, no_char "#" s = true -> Forall (fun l => no_char "#" l = true) (lines s).
Proof.
  unfold no_char. induction s as [|c s IH]; intros H; [repeat constructor|]. cbn [all_chars] in H. apply andb_true_iff in H.
  destruct H as [H1 H2]. specialize (IH H2). cbn [lines]. destruct (c =? newline)%char; [constructor; [reflexivity|exact IH]|].
  destruct (lines s) as [|l r]; [repeat constructor; cbn [all_chars]; now rewrite H1|]. inversion IH; subst. constructor; [|assumption].
  cbn [all_chars]. now rewrite H1.
Qed.

Lemma text_line : forall l, no_char "#" l = true -> directive_of l = DText.
Proof.
  intros l H. unfold directive_of.
  assert (S0 : no_char "#" (skip_space l) = true).
  { unfold no_char in *. induction l as [|c l IH]; [reflexivity|]. cbn [skip_space]. destruct (is_space c); [|exact H].
    cbn [all_chars] in H. apply andb_true_iff in H. apply IH, H. }
  destruct (skip_space l) as [|c r]; [reflexivity|]. unfold no_char in S0. cbn [all_chars] in S0.
  apply andb_true_iff in S0. destruct S0 as [S0 _].
  destruct c as [[] [] [] [] [] [] [] []]; try reflexivity. discriminate S0.
Qed.

Lemma texts_kept : forall ls m st rest, Forall (fun l => no_char "#" l = true) ls ->
  preprocess m st (ls ++ rest) =
  match preprocess m st rest with
  | Some (m', k) => Some (m', if forallb (fun b => b) st then List.map KText ls ++ k else k)
  | None => None
  end.
Proof.
  induction ls as [|l ls IH]; intros m st rest H.
  - cbn [List.app List.map]. destruct (preprocess m st rest) as [[m' k]|]; [|reflexivity]. now destruct (forallb _ st).
  - inversion H; subst. cbn [List.app preprocess]. rewrite text_line, IH by assumption.
    destruct (preprocess m st rest) as [[m' k]|]; [|reflexivity]. destruct (forallb (fun b => b) st); reflexivity.
Qed.

Lemma import_directive : forall i, directive_of (import_line i) = DInclude (header i).
Proof. intros [s|s]; destruct s; reflexivity. Qed.

Lemma imports_kept : forall is_ m st rest,
  preprocess m st (List.map import_line is_ ++ rest) =
  match preprocess m st rest with
  | Some (m', k) => Some (m', if forallb (fun b => b) st then List.map (fun i => KInclude (header i)) is_ ++ k else k)
  | None => None
  end.
Proof.
  induction is_ as [|i is_ IH]; intros m st rest.
  - cbn [List.app List.map]. destruct (preprocess m st rest) as [[m' k]|]; [|reflexivity]. now destruct (forallb _ st).
  - cbn [List.app List.map preprocess]. rewrite import_directive, IH.
    destruct (preprocess m st rest) as [[m' k]|]; [|reflexivity]. destruct (forallb (fun b => b) st); reflexivity.
Qed.

Lemma macro_chars : forall g, macro_name g = true -> no_char newline g = true.
Proof.
  intros [|c g] H; [discriminate H|]. cbn [macro_name] in H. apply andb_true_iff in H. destruct H as [_ H].
  revert H. unfold no_char. apply all_impl. intros d D. destruct (d =? newline)%char eqn:E; [|reflexivity].
  apply Ascii.eqb_eq in E. subst d. discriminate D.
Qed.

Lemma after_app : forall p s, after p (p ++ s)%string = Some s.
Proof.
  intros p s. unfold after.
  assert (P : String.prefix p (p ++ s) = true).
  { induction p as [|c p IH]; [now destruct s|]. cbn. destruct (Ascii.ascii_dec c c); [exact IH|congruence]. }
  rewrite P. f_equal. clear P. induction p as [|c p IH]; [reflexivity|exact IH].
Qed.

Definition guarded (g : string) (is_ : list import) (body : string) : list string :=
  ["#ifndef " ++ g; "#define " ++ g]%string ++ List.map import_line is_ ++ lines body ++ [("#endif /* " ++ g ++ " */")%string; ""].

Lemma file_lines : forall dest is_ body, let g := guardify (last_part dest "") in
  macro_name g = true -> forallb import_ok is_ = true ->
  lines (print_file dest is_ body) = guarded g is_ body.
Proof.
  intros dest is_ body g G I. unfold print_file. fold g. unfold nl. change (ascii_of_nat 10) with newline.
  pose proof (macro_chars g G) as M.
  assert (A : forall p s, no_char newline p = true -> no_char newline s = true -> no_char newline (p ++ s)%string = true).
  { intros p s P S0. unfold no_char in *. now rewrite all_app, P, S0. }
  assert (IL : forall is_ rest, forallb import_ok is_ = true ->
    lines (String.concat "" (List.map (fun i => import_line i ++ String newline "") is_) ++ rest)%string = List.map import_line is_ ++ lines rest).
  { clear I. induction is_0 as [|i is_0 IH]; intros rest I; [reflexivity|]. cbn [forallb] in I. apply andb_true_iff in I. destruct I as [I1 I2].
    assert (C : String.concat "" (List.map (fun i => import_line i ++ String newline "") (i :: is_0))%string =
      (import_line i ++ String newline (String.concat "" (List.map (fun i => import_line i ++ String newline "") is_0)))%string).
    { cbn [List.map String.concat]. destruct (List.map (fun i => (import_line i ++ String newline "")%string) is_0).
      - reflexivity.
      - rewrite !sapp_assoc. reflexivity. }
    rewrite C, sapp_assoc. cbn [String.append]. rewrite lines_app, IH by exact I2. rewrite lines_one; [reflexivity|].
    destruct i as [s|s]; cbn [import_line import_ok] in *; unfold no_char in *; cbn [String.append all_chars]; rewrite all_app, I1; reflexivity. }
  assert (E : forall imps, ("#ifndef " ++ g ++ String newline "" ++ "#define " ++ g ++ String newline "" ++ imps ++ body ++
      String newline "" ++ "#endif /* " ++ g ++ " */" ++ String newline "")%string =
    (("#ifndef " ++ g) ++ String newline (("#define " ++ g) ++ String newline (imps ++ (body ++
      String newline (("#endif /* " ++ (g ++ " */")) ++ String newline "")))))%string).
  { intros imps. change (("#endif /* " ++ (g ++ " */")) ++ String newline "")%string with ("#endif /* " ++ ((g ++ " */") ++ String newline ""))%string.
    rewrite (sapp_assoc g " */"). reflexivity. }
  rewrite E, lines_app, lines_app, IL, lines_app, lines_app by exact I.
  rewrite (lines_one ("#ifndef " ++ g)) by (apply A; [reflexivity|exact M]).
  rewrite (lines_one ("#define " ++ g)) by (apply A; [reflexivity|exact M]).
  rewrite (lines_one ("#endif /* " ++ (g ++ " */"))) by (apply A; [reflexivity|apply A; [exact M|reflexivity]]).
  reflexivity.
Qed.

Lemma ifndef_line : forall g, macro_name g = true -> directive_of ("#ifndef " ++ g) = DIfndef g.
Proof. intros g M. unfold directive_of. rewrite after_app, M. reflexivity. Qed.

Lemma define_line : forall g, macro_name g = true -> directive_of ("#define " ++ g) = DDefine g.
Proof. intros g M. unfold directive_of. rewrite (after_app "#define "), M. reflexivity. Qed.

Lemma endif_line : forall g, directive_of ("#endif /* " ++ g) = DEndif.
Proof. intros g. unfold directive_of. change ("#endif /* " ++ g)%string with ("#endif " ++ ("/* " ++ g))%string. rewrite (after_app "#endif "). reflexivity. Qed.

Lemma guard_once : forall dest is_ body macros, let g := guardify (last_part dest "") in
  macro_name g = true -> forallb import_ok is_ = true -> no_char "#" body = true ->
  include_file macros (print_file dest is_ body) =
  if mem g macros then Some (macros, [KText ""])
  else Some (g :: macros, List.map (fun i => KInclude (header i)) is_ ++ List.map KText (lines body) ++ [KText ""]).
Proof.
  intros dest is_ body macros g G I N. unfold include_file. rewrite file_lines by assumption. fold g. unfold guarded.
  cbn [List.app preprocess]. rewrite (ifndef_line g G), (define_line g G).
  rewrite imports_kept, texts_kept by (now apply lines_nohash). cbn [preprocess]. rewrite endif_line.
  change (directive_of "") with DText. cbn [forallb andb].
  destruct (mem g macros); cbn [negb andb]; reflexivity.
Qed.

(** the name of the guard *)
Lemma last_part_file : forall s acc, no_char "/" s = true -> last_part s acc = (acc ++ s)%string.
Proof.
  unfold no_char. induction s as [|c s IH]; intros acc H; [cbn [last_part]; now rewrite sapp_nil|].
  cbn [all_chars] in H. apply andb_true_iff in H. destruct H as [H1 H2]. apply negb_true_iff in H1. cbn [last_part].
  rewrite H1, (IH _ H2), sapp_assoc. reflexivity.
Qed.

Lemma last_part_dir : forall d s acc, no_char "/" s = true -> last_part (d ++ String "/" s)%string acc = s.
Proof.
  induction d as [|c d IH]; intros s acc H.
  - cbn [String.append last_part]. change ("/" =? "/")%char with true. cbv iota. now rewrite last_part_file.
  - cbn [String.append last_part]. destruct (c =? "/")%char; now apply IH.
Qed.

Lemma guard_chars : forall c, id_char (guard_char c) = true /\ (is_digit c = false -> id_start (guard_char c) = true).
Proof. intros [[] [] [] [] [] [] [] []]; vm_compute; (split; [reflexivity|]); intros H; try reflexivity; discriminate H. Qed.

Lemma guard_macro : forall c s, is_digit c = false -> macro_name (guardify (String c s)) = true.
Proof.
  intros c s H. cbn [guardify macro_name]. rewrite (proj2 (guard_chars c) H).
  cbn [all_chars]. rewrite (proj1 (guard_chars c)). cbn [andb]. induction s as [|d s IH]; [reflexivity|].
  cbn [guardify all_chars]. now rewrite (proj1 (guard_chars d)), IH.
Qed.

Lemma text_map : forall is_ ls, text_of (List.map (fun i => KInclude (header i)) is_ ++ List.map KText ls ++ [KText ""]) = ls ++ [""] /\
  includes_of (List.map (fun i => KInclude (header i)) is_ ++ List.map KText ls ++ [KText ""]) = List.map header is_.
Proof.
  intros is_ ls. induction is_ as [|i is_ [A B]].
  - cbn [List.map List.app]. induction ls as [|l ls [A B]]; [split; reflexivity|]. cbn [List.map List.app text_of includes_of].
    rewrite A, B. split; reflexivity.
  - cbn [List.map List.app text_of includes_of]. rewrite A, B. split; reflexivity.
Qed.
