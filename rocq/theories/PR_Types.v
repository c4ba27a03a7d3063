(** * Declarators: the text of [name_cdecl] is read as the type it was printed from *)
From Coq Require Import ZArith NArith List String Ascii Bool Lia.
From Coq.Floats Require Import SpecFloat.
From Verif Require Import PR_Model PR_Spec PR_Lex PR_Num.
Import ListNotations.
Local Open Scope string_scope.

Section type_ind2.
Variable P : type -> Prop.
Hypothesis Hvoid : P Tvoid.
Hypothesis Hint : forall sz sg a, P (Tint sz sg a).
Hypothesis Hlong : forall sg a, P (Tlong sg a).
Hypothesis Hfloat : forall sz a, P (Tfloat sz a).
Hypothesis Hptr : forall t a, P t -> P (Tpointer t a).
Hypothesis Harr : forall t n a, P t -> P (Tarray t n a).
Hypothesis Hfun : forall args res va un, Forall P args -> P res -> P (Tfunction args res va un).
Hypothesis Hstruct : forall i a, P (Tstruct i a).
Hypothesis Hunion : forall i a, P (Tunion i a).
Fixpoint type_ind2 (t : type) : P t :=
  match t with
  | Tvoid => Hvoid
  | Tint sz sg a => Hint sz sg a
  | Tlong sg a => Hlong sg a
  | Tfloat sz a => Hfloat sz a
  | Tpointer t a => Hptr t a (type_ind2 t)
  | Tarray t n a => Harr t n a (type_ind2 t)
  | Tfunction args res va un =>
      Hfun args res va un
        ((fix go (l : list type) : Forall P l :=
            match l with [] => Forall_nil P | t :: l => Forall_cons t (type_ind2 t) (go l) end) args)
        (type_ind2 res)
  | Tstruct i a => Hstruct i a
  | Tunion i a => Hunion i a
  end.
End type_ind2.

Notation op s := (W (TOp s)).
Notation wd s := (W (TId s)).

Definition pattr (a : attr) : list piece :=
  ((match attr_alignas a with
    | None => []
    | Some l => [G " "; wd "__attribute"; op "("; op "("; wd "aligned"; op "(";
                 W (TNum (sdec (wrap64 (2 ^ Z.of_N l)))); op ")"; op ")"; op ")"]
    end) ++ (if attr_volatile a then [G " "; wd "volatile"] else []))%list.

Definition pattr_sp (a : attr) : list piece :=
  match pattr a with [] => [] | l => (l ++ [G " "])%list end.

Definition optid (dp : list piece) : list piece := match dp with [] => [] | _ => G " " :: dp end.

Definition pint (sz : intsize) (sg : signedness) : list piece :=
  match sz, sg with
  | I8, Signed => [wd "signed"; G " "; wd "char"] | I8, Unsigned => [wd "unsigned"; G " "; wd "char"]
  | I16, Signed => [wd "short"] | I16, Unsigned => [wd "unsigned"; G " "; wd "short"]
  | I32, Signed => [wd "int"] | I32, Unsigned => [wd "unsigned"; G " "; wd "int"]
  | IBool, _ => [wd "_Bool"]
  end.

Definition plong (sg : signedness) : list piece :=
  match sg with
  | Signed => [wd "long"; G " "; wd "long"]
  | Unsigned => [wd "unsigned"; G " "; wd "long"; G " "; wd "long"]
  end.

Fixpoint psep (l : list (list piece)) (s : list piece) : list piece :=
  match l with
  | [] => []
  | [x] => x
  | x :: l => (x ++ s ++ psep l s)%list
  end.

Section TYPES.
Variable nm : positive -> string.

Fixpoint pcd (dp : list piece) (ty : type) {struct ty} : list piece :=
  match ty with
  | Tvoid => wd "void" :: optid dp
  | Tint sz sg a => (pint sz sg ++ pattr a ++ optid dp)%list
  | Tfloat sz a => ([wd (name_floattype sz)] ++ pattr a ++ optid dp)%list
  | Tlong sg a => (plong sg ++ pattr a ++ optid dp)%list
  | Tpointer t a =>
      if is_value ty then wd "value" :: optid dp
      else pcd (if fun_or_array t then op "(" :: op "*" :: pattr_sp a ++ dp ++ [op ")"]
                else op "*" :: pattr_sp a ++ dp)%list t
  | Tarray t n a => pcd (dp ++ [op "["; W (TNum (sdec (camlint_of_coqint n))); op "]"])%list t
  | Tfunction args res va un =>
      let d1 := match dp with [] => [op "("; op "*"; op ")"] | _ => dp end in
      let argp :=
        if un then []
        else match args with
             | [] => if va then [op "..."] else [wd "void"]
             | _ => (psep (List.map (pcd []) args) [op ","; G " "]
                     ++ (if va then [op ","; G " "; op "..."] else []))%list
             end in
      pcd (d1 ++ op "(" :: argp ++ [op ")"])%list res
  | Tstruct i a => ([wd "struct"; G " "; wd (nm i)] ++ pattr a ++ optid dp)%list
  | Tunion i a => ([wd "union"; G " "; wd (nm i)] ++ pattr a ++ optid dp)%list
  end.

(** ** The text *)

Lemma render_attr : forall a, render (pattr a) = attributes a.
Proof.
  intros [v [l|]]; unfold pattr, attributes; cbn [attr_alignas attr_volatile]; destruct v;
    cbn [List.app render spell]; rewrite ?sapp_nil; cbn [String.append]; rewrite ?sapp_nil; reflexivity.
Qed.

Lemma attr_empty : forall a, pattr a = [] <-> attributes a = "".
Proof.
  intros [v [l|]]; unfold pattr, attributes; cbn [attr_alignas attr_volatile]; destruct v;
    cbn; split; congruence.
Qed.

Lemma render_attr_sp : forall a, render (pattr_sp a) = attributes_space a.
Proof.
  intros a. unfold pattr_sp, attributes_space.
  pose proof (render_attr a) as R. pose proof (attr_empty a) as E.
  destruct (pattr a) as [|p l] eqn:P.
  - assert (A : attributes a = "") by (apply E; reflexivity). rewrite A. reflexivity.
  - destruct (attributes a) as [|c s] eqn:A.
    { assert (X : p :: l = []) by (apply E; reflexivity). discriminate X. }
    rewrite render_app, R. reflexivity.
Qed.

Definition same_empty (dp : list piece) : Prop := dp <> [] -> render dp <> "".

Lemma render_optid : forall dp, same_empty dp -> render (optid dp) = name_optid (render dp).
Proof.
  intros dp H. destruct dp as [|p dp]; [reflexivity|].
  unfold optid, name_optid. change (render (G " " :: p :: dp)) with (" " ++ render (p :: dp)).
  assert (N : render (p :: dp) <> "") by (apply H; discriminate).
  destruct (render (p :: dp)) eqn:E; [congruence|]. reflexivity.
Qed.

Lemma render_sep : forall l s, render (psep l s) = String.concat (render s) (List.map render l).
Proof.
  induction l as [|x l IH]; intros s; [reflexivity|].
  destruct l as [|y l]; [reflexivity|].
  change (psep (x :: y :: l) s) with (x ++ s ++ psep (y :: l) s)%list.
  rewrite !render_app, IH. reflexivity.
Qed.

Lemma str_ne_app : forall a b, b <> "" -> (a ++ b)%string <> "".
Proof. intros [|c a] b H; cbn; [assumption|discriminate]. Qed.

Lemma render_int : forall sz sg, render (pint sz sg) = name_inttype sz sg.
Proof. intros [] []; reflexivity. Qed.
Lemma render_long : forall sg, render (plong sg) = name_longtype sg.
Proof. intros []; reflexivity. Qed.

Lemma map_eq_forall : forall (A B : Type) (f g : A -> B) l, Forall (fun x => f x = g x) l ->
  List.map f l = List.map g l.
Proof. induction 1; cbn; [reflexivity|congruence]. Qed.

Lemma render_pcd : forall ty dp, same_empty dp -> render (pcd dp ty) = name_cdecl nm (render dp) ty.
Proof.
  apply (type_ind2 (fun ty => forall dp, same_empty dp -> render (pcd dp ty) = name_cdecl nm (render dp) ty)).
  - intros dp H. cbn [pcd name_cdecl render spell]. now rewrite render_optid.
  - intros sz sg a dp H. cbn [pcd name_cdecl]. now rewrite !render_app, render_int, render_attr, render_optid.
  - intros sg a dp H. cbn [pcd name_cdecl]. now rewrite !render_app, render_long, render_attr, render_optid.
  - intros sz a dp H. cbn [pcd name_cdecl]. rewrite !render_app, render_attr, render_optid by assumption.
    cbn [render spell]. now rewrite sapp_nil.
  - intros t a IH dp H. cbn [pcd name_cdecl].
    destruct (is_value (Tpointer t a)).
    + cbn [render spell]. now rewrite render_optid.
    + destruct (fun_or_array t).
      * rewrite IH by (intros _; cbn [render spell]; discriminate).
        cbn [render spell]. rewrite !render_app, render_attr_sp. cbn [render spell].
        cbn [String.append]. rewrite ?sapp_nil. reflexivity.
      * rewrite IH by (intros _; cbn [render spell]; discriminate).
        cbn [render spell]. rewrite !render_app, render_attr_sp. reflexivity.
  - intros t n a IH dp H. cbn [pcd name_cdecl].
    rewrite IH.
    + rewrite render_app. cbn [render spell]. cbn [String.append]. reflexivity.
    + intros _. rewrite render_app. apply str_ne_app. cbn [render spell]. discriminate.
  - intros args res va un HA IH dp H. cbn [pcd name_cdecl].
    rewrite IH.
    + rewrite render_app. cbn [render spell]. rewrite render_app. cbn [render spell].
      f_equal.
      match goal with |- render ?a ++ "(" ++ render ?b ++ ?c = ?d ++ "(" ++ ?e ++ ?f =>
        assert (E1 : render a = d); [|assert (E2 : render b = e); [|rewrite E1, E2; reflexivity]] end.
      * destruct dp as [|p dp]; [reflexivity|].
        assert (N : render (p :: dp) <> "") by (apply H; discriminate).
        destruct (render (p :: dp)); congruence.
      * destruct un; [reflexivity|]. destruct args as [|t0 args]; [destruct va; reflexivity|].
        rewrite render_app, render_sep. unfold sep. f_equal.
        -- rewrite map_map. f_equal. apply map_eq_forall.
           eapply Forall_impl; [|exact HA]. intros t Ht. apply Ht. intros X; congruence.
        -- destruct va; reflexivity.
    + intros _. rewrite render_app. apply str_ne_app. cbn [render spell]. discriminate.
  - intros i a dp H. cbn [pcd name_cdecl]. rewrite !render_app, render_attr, render_optid by assumption.
    cbn [render spell]. rewrite sapp_nil, !sapp_assoc. reflexivity.
  - intros i a dp H. cbn [pcd name_cdecl]. rewrite !render_app, render_attr, render_optid by assumption.
    cbn [render spell]. rewrite sapp_nil, !sapp_assoc. reflexivity.
Qed.

End TYPES.

(** ** Neighbouring tokens *)

(** characters that may follow a type or an expression directly *)
Definition closing : list ascii := [")"; "["; "("; ","; ";"; ":"; "]"; "}"]%char.

Definition closes (t : token) : bool := forallb (breaks t) closing.
Definition cls (o : option token) : bool := match o with Some t => closes t | None => true end.

Lemma closes_id : forall s, closes (TId s) = true.
Proof. reflexivity. Qed.

Lemma closes_num : forall s, closes (TNum s) = true.
Proof.
  intros s. unfold closes, closing. cbn [forallb breaks].
  repeat match goal with |- context [num_char ?c] => change (num_char c) with false end.
  cbn [orb]. rewrite !andb_true_iff.
  repeat split; rewrite andb_false_r; reflexivity.
Qed.

(** how a declarator may begin *)
Definition opn (dp : list piece) : bool :=
  match dp with
  | [] => true
  | W (TId s) :: _ => ident s
  | W (TOp s) :: _ => mem s ["*"; "("; "["]
  | _ => false
  end.

Lemma okp_some : forall p ps, okp None ps = true ->
  match ps with W t :: _ => fits p t = true | K _ :: _ => False | _ => True end ->
  okp (Some p) ps = true.
Proof.
  intros p [|[t|s|] ps] H F; cbn [okp] in *; try assumption; try reflexivity; [|destruct F].
  rewrite andb_true_r in H. rewrite F. now rewrite andb_true_r.
Qed.

Lemma okp_closing : forall o s ps, cls o = true -> In s ["("; "["; ")"; "]"; ","; ";"; ":"; "}"] ->
  okp (Some (TOp s)) ps = true -> okp o (op s :: ps) = true.
Proof.
  intros o s ps C I H. cbn [okp]. rewrite H, andb_true_r.
  assert (Wf : wf_tok (TOp s) = true).
  { cbn [In] in I. repeat (destruct I as [I|I]; [subst s; reflexivity|]). destruct I. }
  rewrite Wf. cbn [andb]. destruct o as [t|]; [|reflexivity].
  unfold cls, closes in C. rewrite forallb_forall in C.
  cbn [In] in I. repeat (destruct I as [I|I]; [subst s; apply C; cbn; tauto|]). destruct I.
Qed.

Lemma ident_start : forall s, ident s = true -> exists c r, s = String c r /\ id_start c = true.
Proof.
  intros [|c r] H; [discriminate|]. exists c, r. split; [reflexivity|].
  unfold ident in H. rewrite !andb_true_iff in H. apply H.
Qed.

(** an operator that stands before an identifier *)
Lemma op_before_id : forall s c, In s ["*"; "&"; "-"; "~"; "!"; "("; "."] -> id_start c = true ->
  breaks (TOp s) c = true.
Proof.
  intros s c I H. destruct c as [b0 b1 b2 b3 b4 b5 b6 b7].
  cbn [In] in I.
  repeat (destruct I as [I|I]; [subst s; destruct b0, b1, b2, b3, b4, b5, b6, b7;
    first [discriminate H|reflexivity]|]). destruct I.
Qed.

Lemma okp_star : forall dp, okp None dp = true -> opn dp = true -> okp (Some (TOp "*")) dp = true.
Proof.
  intros dp H O. apply okp_some; [assumption|].
  destruct dp as [|[[s|s|s|c]|s|] dp]; try exact I; try discriminate O; cbn [opn] in O.
  - destruct (ident_start _ O) as (c & r & -> & S0). unfold fits. cbn [spell first_char].
    apply op_before_id; [cbn; tauto|assumption].
  - apply mem_in in O. cbn [In] in O.
    repeat (destruct O as [O|O]; [subst s; reflexivity|]). destruct O.
Qed.

Definition dok (dp : list piece) : Prop :=
  okp None dp = true /\ opn dp = true /\ cls (lastp None dp) = true.

Lemma lastp_none : forall dp p, dp <> [] -> lastp p dp = lastp None dp.
Proof. intros [|[t|s|] dp] p H; [congruence|reflexivity..]. Qed.

Lemma attr_num : forall l, (l < 63)%N -> sdec (wrap64 (2 ^ Z.of_N l)) = dec (Z.to_N (2 ^ Z.of_N l)).
Proof.
  intros l H. rewrite pow_align by assumption. apply sdec_nonneg. apply Z.pow_nonneg. lia.
Qed.

Lemma wf_dec : forall n, wf_tok (TNum (dec n)) = true.
Proof. intros. rewrite <- (sapp_nil (dec n)). now apply wf_num. Qed.

Lemma attr_pieces : forall a, attr_ok a = true ->
  forall p, (p = None \/ exists t, p = Some t) ->
  okp p (pattr a) = true /\ (pattr a <> [] -> cls (lastp p (pattr a)) = true).
Proof.
  intros a H p Hp. unfold attr_ok in H. unfold pattr.
  destruct (attr_alignas a) as [l|].
  - apply N.ltb_lt in H. rewrite attr_num by assumption.
    set (d := dec _). pose proof (wf_dec (Z.to_N (2 ^ Z.of_N l))) as Wd. fold d in Wd.
    pose proof (closes_num d) as Cd.
    split.
    + rewrite okp_app. apply andb_true_iff. split.
      * cbn [okp].
        change (white " ") with true. change (wf_tok (TId "__attribute")) with true.
        rewrite Wd. unfold closes, closing in Cd. cbn [forallb] in Cd. rewrite !andb_true_iff in Cd.
        replace (fits (TNum d) (TOp ")")) with true by (symmetry; apply Cd).
        replace (fits (TOp "(") (TNum d)) with true; [reflexivity|].
        symmetry. unfold fits. cbn [spell].
        pose proof (dec_all (Z.to_N (2 ^ Z.of_N l))) as A. fold d in A.
        destruct d as [|c r]; [reflexivity|]. cbn [all_chars first_char] in *.
        apply andb_true_iff in A. destruct A as [A _].
        clear -A. destruct c as [b0 b1 b2 b3 b4 b5 b6 b7].
        destruct b0, b1, b2, b3, b4, b5, b6, b7; first [discriminate A|reflexivity].
      * destruct (attr_volatile a); reflexivity.
    + intros _. rewrite lastp_app. destruct (attr_volatile a); reflexivity.
  - cbn [List.app]. destruct (attr_volatile a); split; try reflexivity. congruence.
Qed.

Lemma attr_sp_pieces : forall a, attr_ok a = true -> forall p,
  okp p (pattr_sp a) = true /\ (pattr_sp a = [] \/ lastp p (pattr_sp a) = None).
Proof.
  intros a H p. unfold pattr_sp.
  assert (Q : p = None \/ exists t, p = Some t) by (destruct p; eauto).
  destruct (attr_pieces a H p Q) as [A _].
  destruct (pattr a) as [|x l] eqn:E; [split; [reflexivity|now left]|].
  split.
  - rewrite okp_app, A. reflexivity.
  - right. rewrite lastp_app. reflexivity.
Qed.

Section PIECES.
Variable nm : positive -> string.

Lemma pcd_ok_base : forall ws a dp, okp None ws = true -> cls (lastp None ws) = true -> attr_ok a = true ->
  dok dp -> okp None (ws ++ pattr a ++ optid dp) = true /\ cls (lastp None (ws ++ pattr a ++ optid dp)) = true.
Proof.
  intros ws a dp Hw Cw Ha (D1 & D2 & D3).
  assert (Q : forall p : option token, p = None \/ exists t, p = Some t) by (intros [t|]; eauto).
  destruct (attr_pieces a Ha (lastp None ws) (Q _)) as [A1 A2].
  rewrite !okp_app, !lastp_app, Hw, A1. cbn [andb].
  assert (C : cls (lastp (lastp None ws) (pattr a)) = true).
  { destruct (pattr a) eqn:E; [exact Cw|]. rewrite <- E in *. apply A2. congruence. }
  destruct dp as [|p dp]; cbn [optid okp lastp]; [split; [reflexivity|exact C]|].
  split; [exact D1|exact D3].
Qed.

Definition first_word (ps : list piece) : bool :=
  match ps with W (TId s) :: _ => mem s type_words | _ => false end.

Lemma sep_pieces : forall l, Forall (fun x => okp None x = true /\ cls (lastp None x) = true /\
    first_word x = true) l ->
  forall p, cls p = true -> (p = None \/ exists t, p = Some (TOp t) /\ t = "(") ->
  okp p (psep l [op ","; G " "]) = true /\ cls (lastp p (psep l [op ","; G " "])) = true.
Proof.
  induction 1 as [|x l (X1 & X2 & X3) HF IH]; intros p C P; [split; [reflexivity|exact C]|].
  assert (NE : x <> []) by (intros ->; discriminate).
  assert (OX : okp p x = true).
  { destruct P as [->|(t & -> & ->)]; [assumption|]. apply okp_some; [assumption|].
    destruct x as [|[[s|s|s|c]|s|] x]; try discriminate X3; try exact I.
    unfold fits. cbn [spell]. cbn [first_word] in X3. apply mem_in in X3. cbn [In type_words] in X3.
    repeat (destruct X3 as [X3|X3]; [subst s; reflexivity|]). destruct X3. }
  destruct l as [|y l]; [cbn [psep]; rewrite (lastp_none x p NE); split; assumption|].
  change (psep (x :: y :: l) [op ","; G " "]) with (x ++ [op ","; G " "] ++ psep (y :: l) [op ","; G " "])%list.
  destruct (IH None eq_refl (or_introl eq_refl)) as [I1 I2].
  rewrite !okp_app, !lastp_app, OX, (lastp_none x p NE). cbn [andb].
  split.
  - apply andb_true_iff. split; [|exact I1].
    apply okp_closing; [assumption|cbn; tauto|reflexivity].
  - exact I2.
Qed.

Lemma void_word : forall t, first_word (pcd nm [] t) = true.
Proof.
  assert (G0 : forall t dp, first_word (pcd nm dp t) = true).
  { apply (type_ind2 (fun t => forall dp, first_word (pcd nm dp t) = true)); intros; cbn [pcd];
      try reflexivity.
    - destruct sz, sg; reflexivity.
    - destruct sg; reflexivity.
    - destruct sz; reflexivity.
    - destruct (is_value (Tpointer t a)); [reflexivity|]. apply H.
    - apply H.
    - apply H0. }
  intros; apply G0.
Qed.

Lemma dok_ptr : forall a dp, attr_ok a = true -> dok dp -> dok (op "*" :: pattr_sp a ++ dp).
Proof.
  intros a dp Ha (D1 & D2 & D3). unfold dok.
  destruct (attr_sp_pieces a Ha (Some (TOp "*"))) as [A B].
  change (op "*" :: pattr_sp a ++ dp)%list with (([op "*"] ++ pattr_sp a) ++ dp)%list.
  rewrite !okp_app, !lastp_app. cbn [okp lastp andb wf_tok]. rewrite A.
  change (mem "*" ["["; "]"; "("; ")"; "{"; "}"; "."; "&"; "*"; "+"; "-"; "~"; "!"; "/"; "%"; "<<"; ">>"; "<"; ">"; "<="; ">="; "=="; "!="; "^"; "|"; ":"; ";"; "..."; "="; ","]) with true.
  cbn [andb opn List.app]. split; [|split; [reflexivity|]].
  - destruct B as [B|B].
    + rewrite B. cbn [lastp]. now apply okp_star.
    + rewrite B. assumption.
  - destruct dp as [|p dp].
    + cbn [lastp]. destruct B as [B|B]; rewrite B; reflexivity.
    + rewrite lastp_none by congruence. exact D3.
Qed.

Lemma dok_paren : forall a dp, attr_ok a = true -> dok dp -> dok (op "(" :: op "*" :: pattr_sp a ++ dp ++ [op ")"]).
Proof.
  intros a dp Ha D. destruct (dok_ptr a dp Ha D) as (E1 & E2 & E3). unfold dok.
  replace (op "(" :: op "*" :: pattr_sp a ++ dp ++ [op ")"])%list
    with ([op "("] ++ (op "*" :: pattr_sp a ++ dp) ++ [op ")"])%list.
  2:{ cbn [List.app]. now rewrite <- app_assoc. }
  split; [|split; [reflexivity|]].
  - rewrite okp_app. apply andb_true_iff. split; [reflexivity|]. rewrite okp_app. apply andb_true_iff. split.
    + cbn [lastp]. apply okp_some; [exact E1|reflexivity].
    + apply okp_closing; [|cbn; tauto|reflexivity].
      exact E3.
  - rewrite !lastp_app. reflexivity.
Qed.

Lemma dok_arr : forall n dp, (0 <= n)%Z -> (n < 2 ^ 31)%Z -> dok dp ->
  dok (dp ++ [op "["; W (TNum (sdec (camlint_of_coqint n))); op "]"]).
Proof.
  intros n dp H1 H2 (D1 & D2 & D3). rewrite array_size, sdec_nonneg by assumption.
  set (d := dec _). pose proof (wf_dec (Z.to_N n)) as Wd. fold d in Wd. pose proof (closes_num d) as Cd.
  unfold dok. rewrite okp_app, lastp_app, D1. cbn [andb]. split; [|split].
  - apply okp_closing; [assumption|cbn; tauto|]. cbn [okp]. rewrite Wd. cbn [andb].
    unfold closes, closing in Cd. cbn [forallb] in Cd. rewrite !andb_true_iff in Cd.
    replace (fits (TNum d) (TOp "]")) with true by (symmetry; apply Cd).
    replace (fits (TOp "[") (TNum d)) with true; [reflexivity|].
    symmetry. unfold fits. cbn [spell].
    pose proof (dec_all (Z.to_N n)) as A. fold d in A.
    destruct d as [|c r]; [reflexivity|]. cbn [all_chars first_char] in *.
    apply andb_true_iff in A. destruct A as [A _].
    clear -A. destruct c as [b0 b1 b2 b3 b4 b5 b6 b7].
    destruct b0, b1, b2, b3, b4, b5, b6, b7; first [discriminate A|reflexivity].
  - destruct dp as [|p dp]; [reflexivity|exact D2].
  - reflexivity.
Qed.

Definition pargp (args : list type) (va un : bool) : list piece :=
  if un then []
  else match args with
       | [] => if va then [op "..."] else [wd "void"]
       | _ => (psep (List.map (pcd nm []) args) [op ","; G " "]
               ++ (if va then [op ","; G " "; op "..."] else []))%list
       end.

Lemma dok_fun : forall args va un dp,
  Forall (fun t => okp None (pcd nm [] t) = true /\ cls (lastp None (pcd nm [] t)) = true) args ->
  dok dp -> dok (dp ++ op "(" :: pargp args va un ++ [op ")"]).
Proof.
  intros args va un dp HF (D1 & D2 & D3). unfold dok.
  rewrite okp_app, lastp_app, D1. cbn [andb lastp]. split; [|split].
  - apply okp_closing; [assumption|cbn; tauto|].
    assert (A : okp (Some (TOp "(")) (pargp args va un) = true /\
                cls (lastp (Some (TOp "(")) (pargp args va un)) = true).
    { unfold pargp. destruct un; [split; reflexivity|].
      destruct args as [|t args]; [destruct va; split; reflexivity|].
      assert (HM : Forall (fun x => okp None x = true /\ cls (lastp None x) = true /\ first_word x = true)
                     (List.map (pcd nm []) (t :: args))).
      { apply Forall_map. eapply Forall_impl; [|exact HF]. intros t0 [X Y].
        split; [exact X|split; [exact Y|apply void_word]]. }
      destruct (sep_pieces _ HM (Some (TOp "(")) eq_refl (or_intror (ex_intro _ _ (conj eq_refl eq_refl))))
        as [S1 S2].
      rewrite okp_app, lastp_app, S1. cbn [andb]. destruct va.
      - split; [|reflexivity]. apply okp_closing; [exact S2|cbn; tauto|reflexivity].
      - split; [reflexivity|exact S2]. }
    rewrite okp_app. destruct A as [A B]. rewrite A. cbn [andb].
    apply okp_closing; [exact B|cbn; tauto|reflexivity].
  - destruct dp as [|p dp]; [reflexivity|exact D2].
  - rewrite lastp_app. reflexivity.
Qed.

Lemma ident_pieces : forall kw s, okp None [wd kw] = true -> ident s = true ->
  okp None [wd kw; G " "; wd s] = true.
Proof.
  intros kw s H I. cbn [okp] in *. rewrite (ident_wf _ I). rewrite !andb_true_iff in *.
  repeat split; try reflexivity. apply H.
Qed.

Lemma pcd_ok : forall ty dp, type_ok nm ty = true -> dok dp ->
  okp None (pcd nm dp ty) = true /\ cls (lastp None (pcd nm dp ty)) = true.
Proof.
  apply (type_ind2 (fun ty => forall dp, type_ok nm ty = true -> dok dp ->
    okp None (pcd nm dp ty) = true /\ cls (lastp None (pcd nm dp ty)) = true)).
  - intros dp _ D. cbn [pcd].
    change (wd "void" :: optid dp) with ([wd "void"] ++ pattr noattr ++ optid dp)%list.
    apply pcd_ok_base; try reflexivity. assumption.
  - intros sz sg a dp H D. cbn [pcd type_ok] in *.
    apply pcd_ok_base; try assumption; destruct sz, sg; reflexivity.
  - intros sg a dp H D. cbn [pcd type_ok] in *.
    apply pcd_ok_base; try assumption; destruct sg; reflexivity.
  - intros sz a dp H D. cbn [pcd type_ok] in *.
    apply pcd_ok_base; try assumption; destruct sz; reflexivity.
  - intros t a IH dp H D. cbn [pcd]. cbn [type_ok] in H.
    rewrite !andb_true_iff in H. destruct H as ((Ha & Ht) & Hv).
    destruct (is_value (Tpointer t a)).
    + change (wd "value" :: optid dp) with ([wd "value"] ++ pattr noattr ++ optid dp)%list.
      apply pcd_ok_base; try reflexivity. assumption.
    + apply IH; [assumption|]. destruct (fun_or_array t); [now apply dok_paren|now apply dok_ptr].
  - intros t n a IH dp H D. cbn [pcd]. cbn [type_ok] in H. rewrite !andb_true_iff in H.
    destruct H as ((Ht & H1) & H2). apply Z.leb_le in H1. apply Z.ltb_lt in H2.
    apply IH; [assumption|]. now apply dok_arr.
  - intros args res va un HA IH dp H D. cbn [pcd]. cbn [type_ok] in H. rewrite andb_true_iff in H.
    destruct H as (Hr & Hargs).
    apply IH; [assumption|]. fold (pargp args va un). apply dok_fun.
    + rewrite forallb_forall in Hargs. rewrite Forall_forall in HA |- *. intros t Ht.
      apply HA; [assumption| |split; [reflexivity|split; reflexivity]].
      specialize (Hargs _ Ht). rewrite !andb_true_iff in Hargs. apply Hargs.
    + destruct dp; [split; [reflexivity|split; reflexivity]|assumption].
  - intros i a dp H D. cbn [pcd]. cbn [type_ok] in H. rewrite andb_true_iff in H. destruct H as [Ha Hi].
    apply pcd_ok_base; try assumption; [|reflexivity]. now apply ident_pieces.
  - intros i a dp H D. cbn [pcd]. cbn [type_ok] in H. rewrite andb_true_iff in H. destruct H as [Ha Hi].
    apply pcd_ok_base; try assumption; [|reflexivity]. now apply ident_pieces.
Qed.

End PIECES.
