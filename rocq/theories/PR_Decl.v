(** * Reading declarators back *)
From Coq Require Import ZArith NArith List String Ascii Bool Lia.
From Coq.Floats Require Import SpecFloat.
From Verif Require Import PR_Model PR_Spec PR_Lex PR_Num PR_Types.
Import ListNotations.
Local Open Scope string_scope.
Local Open Scope list_scope.

Notation ev f r := (eventually (fun F => f F = Some r)).

(** what may follow a declarator: not something that continues it *)
Definition dstop (ts : list token) : bool :=
  match ts with
  | [] => true
  | TOp s :: _ => negb (mem s ["*"; "("; "["])
  | _ => false
  end.

(** what may follow the inner part of a direct declarator *)
Definition sfx (ts : list token) : bool :=
  match ts with
  | [] => true
  | TOp s :: r =>
      if String.eqb s "(" then negb (starts (TOp "*") r || starts (TOp "(") r)
      else negb (String.eqb s "*")
  | _ => false
  end.

Definition Dec (dt : list token) (n : option string) (ms : list dmod) : Prop :=
  forall ts, dstop ts = true -> ev (fun F => pdecl F (dt ++ ts)) (n, ms, ts).
Definition Dir (dt : list token) (n : option string) (ms : list dmod) : Prop :=
  forall ts r, sfx ts = true -> ev (fun F => psuf F n ms ts) r -> ev (fun F => pdecl F (dt ++ ts)) r.

Lemma ev_S : forall (A : Type) (f : nat -> option A) r, ev (fun F => f (S F)) r -> ev f r.
Proof.
  intros A f r [n H]. exists (S n). intros [|F] HF; [lia|]. apply H. lia.
Qed.

Lemma ev_const : forall (A : Type) (r : A), ev (fun _ => Some r) r.
Proof. intros. exists 0. reflexivity. Qed.

Lemma ev_bind : forall (A B : Type) (f : nat -> option A) (g : nat -> A -> option B) a r,
  ev f a -> ev (fun F => g F a) r ->
  ev (fun F => match f F with Some x => g F x | None => None end) r.
Proof.
  intros A B f g a r [n H] [m K]. exists (n + m). intros F HF. rewrite H by lia. apply K. lia.
Qed.

Lemma ev_ext : forall (A : Type) (f g : nat -> option A) r, (forall F, g F = f F) -> ev f r -> ev g r.
Proof. intros A f g r E [n H]. exists n. intros F HF. rewrite E. now apply H. Qed.

Lemma dstop_facts : forall ts, dstop ts = true ->
  eat (TOp "[") ts = None /\ eat (TOp "(") ts = None /\ eat (TOp "*") ts = None /\ sfx ts = true.
Proof.
  intros [|[s|s|s|c] ts] H; cbn [dstop] in H; try discriminate; [repeat split|].
  apply negb_true_iff in H. unfold mem in H. cbn [existsb] in H. rewrite !orb_false_iff in H.
  destruct H as (A & B & C & _). cbn [eat teq sfx].
  rewrite (String.eqb_sym "[" s), (String.eqb_sym "(" s), (String.eqb_sym "*" s), A, B, C.
  repeat split; reflexivity.
Qed.

Lemma psuf_stop : forall n ms ts, dstop ts = true -> ev (fun F => psuf F n ms ts) (n, ms, ts).
Proof.
  intros n ms ts H. destruct (dstop_facts _ H) as (A & B & _).
  exists 1. intros [|F] HF; [lia|]. cbn [psuf]. now rewrite A, B.
Qed.

Lemma dir_dec : forall dt n ms, Dir dt n ms -> Dec dt n ms.
Proof.
  intros dt n ms D ts H. apply D; [apply dstop_facts; assumption|]. now apply psuf_stop.
Qed.

Lemma dir_nil : Dir [] None [].
Proof.
  intros ts r H [n E]. exists (S n). intros [|F] HF; [lia|]. cbn [pdecl List.app].
  destruct ts as [|[s|s|s|c] ts]; cbn [sfx] in H; try discriminate; [apply E; lia|].
  destruct (String.eqb s "(") eqn:P.
  - apply String.eqb_eq in P. subst s. apply negb_true_iff in H.
    change (eat (TOp "*") (TOp "(" :: ts)) with (@None (list token)).
    change (eat (TOp "(") (TOp "(" :: ts)) with (Some ts). cbn iota. rewrite H. apply E; lia.
  - apply negb_true_iff in H. cbn [eat teq].
    rewrite (String.eqb_sym "*" s), (String.eqb_sym "(" s), H, P. apply E; lia.
Qed.

Lemma dir_id : forall s, ident s = true -> Dir [TId s] (Some s) [].
Proof.
  intros s I ts r _ [n E]. exists (S n). intros [|F] HF; [lia|]. cbn [pdecl List.app eat teq].
  rewrite (ident_kw _ I). apply E; lia.
Qed.

(** ** Attributes *)

(** a token list that does not begin with an attribute *)
Definition no_attr (ts : list token) : Prop :=
  eat (TId "__attribute") ts = None /\ eat (TId "volatile") ts = None.

Lemma pattrs_none : forall ts, no_attr ts -> pattrs ts = (noat, ts).
Proof. intros ts [A B]. unfold pattrs, pvol. cbn [eats]. now rewrite A, B. Qed.

Lemma pattrs_pieces : forall a ts, attr_ok a = true -> no_attr ts ->
  pattrs (toks (pattr a) ++ ts) = (meta a, ts).
Proof.
  intros a ts H [A B]. unfold pattr, meta. unfold attr_ok in H.
  destruct (attr_alignas a) as [l|].
  - apply N.ltb_lt in H. rewrite attr_num by assumption.
    unfold pattrs. cbn [List.app toks eats].
    repeat (rewrite eat_same by discriminate).
    rewrite read_int_dec, Z2N.id by (apply Z.pow_nonneg; lia).
    unfold pvol. destruct (attr_volatile a); cbn [toks List.app].
    + reflexivity.
    + rewrite B. reflexivity.
  - unfold pattrs. cbn [List.app toks eats]. destruct (attr_volatile a); cbn [toks List.app].
    + reflexivity.
    + rewrite A. unfold pvol. now rewrite B.
Qed.

Lemma toks_attr_sp : forall a, toks (pattr_sp a) = toks (pattr a).
Proof.
  intros a. unfold pattr_sp. destruct (pattr a) eqn:E; [reflexivity|].
  rewrite <- E, toks_app. apply app_nil_r.
Qed.

Lemma toks_optid : forall dp, toks (optid dp) = toks dp.
Proof. intros [|p dp]; reflexivity. Qed.

(** tokens of a declarator followed by a stop do not begin with an attribute *)
Lemma no_attr_decl : forall dp ts, opn dp = true -> dstop ts = true -> no_attr (toks dp ++ ts).
Proof.
  intros [|[[s|s|s|c]|s|] dp] ts O H; cbn [opn] in O; try discriminate; cbn [toks List.app].
  - destruct ts as [|[s|s|s|c] ts]; try discriminate; split; reflexivity.
  - split; apply eat_kw; try reflexivity; now apply ident_kw.
  - split; reflexivity.
Qed.

(** ** Declarator shapes *)

Lemma dec_ptr : forall a dp n ms, attr_ok a = true -> opn dp = true -> Dec (toks dp) n ms ->
  Dec (toks (op "*" :: pattr_sp a ++ dp)) n (ms ++ [MPtr (meta a)]).
Proof.
  intros a dp n ms Ha O D ts H. cbn [toks]. rewrite toks_app, toks_attr_sp.
  destruct (D ts H) as [m E]. exists (S m). intros [|F] HF; [lia|].
  cbn [pdecl List.app]. rewrite eat_same by discriminate.
  rewrite <- app_assoc, pattrs_pieces by (try assumption; now apply no_attr_decl).
  rewrite E by lia. reflexivity.
Qed.

Lemma dir_paren : forall a dp n ms, attr_ok a = true -> opn dp = true -> Dec (toks dp) n ms ->
  Dir (toks (op "(" :: op "*" :: pattr_sp a ++ dp ++ [op ")"])) n (ms ++ [MPtr (meta a)]).
Proof.
  intros a dp n ms Ha O D ts r _ [m1 E1].
  destruct (dec_ptr a dp n ms Ha O D (TOp ")" :: ts) eq_refl) as [m2 E2].
  exists (S (m1 + m2)). intros [|F] HF; [lia|].
  cbn [pdecl toks List.app].
  change (eat (TOp "*") (TOp "(" :: TOp "*" :: toks (pattr_sp a ++ dp ++ [op ")"]) ++ ts)%list) with (@None (list token)).
  rewrite eat_same by discriminate.
  unfold starts at 1. rewrite eat_same by discriminate. cbn [orb].
  assert (X : (TOp "*" :: toks (pattr_sp a ++ dp ++ [op ")"]) ++ ts)%list =
              (toks (op "*" :: pattr_sp a ++ dp) ++ TOp ")" :: ts)%list).
  { cbn [toks List.app]. rewrite !toks_app. cbn [toks]. rewrite <- !app_assoc. reflexivity. }
  rewrite X, E2 by lia. rewrite eat_same by discriminate. apply E1. lia.
Qed.

Lemma dir_arr : forall k dp n ms, (0 <= k)%Z -> (k < 2 ^ 31)%Z -> Dir (toks dp) n ms ->
  Dir (toks (dp ++ [op "["; W (TNum (sdec (camlint_of_coqint k))); op "]"])) n (ms ++ [MArr k]).
Proof.
  intros k dp n ms H1 H2 D ts r _ [m E].
  rewrite toks_app, <- app_assoc. apply D; [reflexivity|].
  exists (S m). intros [|F] HF; [lia|]. cbn [psuf toks List.app].
  rewrite eat_same by discriminate. rewrite eat_same by discriminate.
  rewrite array_size, sdec_nonneg, read_int_dec, Z2N.id by assumption. apply E. lia.
Qed.

Definition base_of (ty : type) : bool :=
  match ty with Tpointer _ _ => is_value ty | Tarray _ _ _ | Tfunction _ _ _ _ => false | _ => true end.

Lemma ptype_base : forall ws b a dp n ms ts,
  (forall r, pbase (toks ws ++ r) = Some (b, r)) -> attr_ok a = true ->
  opn dp = true -> dstop ts = true -> Dec (toks dp) n ms ->
  ev (fun F => ptype F (toks (ws ++ pattr a ++ optid dp) ++ ts)) (n, build (CBase b (meta a)) ms, ts).
Proof.
  intros ws b a dp n ms ts B Ha O H D. destruct (D ts H) as [m E].
  exists (S m). intros [|F] HF; [lia|]. cbn [ptype].
  rewrite !toks_app, toks_optid, <- !app_assoc, B, pattrs_pieces by (try assumption; now apply no_attr_decl).
  rewrite E by lia. reflexivity.
Qed.

Section READ.
Variable nm : positive -> string.

Definition reads (ty : type) : Prop :=
  forall dp n ms ts, type_ok nm ty = true -> opn dp = true ->
    (if fun_or_array ty then Dir (toks dp) n ms else Dec (toks dp) n ms) ->
    (is_fun ty = true -> dp <> []) -> dstop ts = true ->
    ev (fun F => ptype F (toks (pcd nm dp ty) ++ ts)) (n, build (ctype nm ty) ms, ts).

Lemma pparams_args : forall args (va : bool), args <> [] ->
  Forall reads args -> forallb (fun t => type_ok nm t && negb (is_fun t) && negb (is_void t)) args = true ->
  forall ts,
  ev (fun F => pparams F (toks (psep (List.map (pcd nm []) args) [op ","; G " "]
       ++ (if va then [op ","; G " "; op "..."] else []))%list ++ TOp ")" :: ts)%list)
     ((List.map (ctype nm) args, va), ts).
Proof.
  intros args va NE HF. induction HF as [|t args Ht HF IH]; [congruence|]. intros Hok ts.
  cbn [forallb] in Hok. rewrite !andb_true_iff in Hok. destruct Hok as (((T1 & T2) & T3) & Hok).
  assert (R : forall r, dstop r = true ->
    ev (fun F => ptype F (toks (pcd nm [] t) ++ r)) (None, ctype nm t, r)).
  { intros r Hr. apply (Ht [] None [] r T1 eq_refl); [|destruct (is_fun t); [discriminate|congruence]|assumption].
    destruct (fun_or_array t); [apply dir_nil|apply dir_dec, dir_nil]. }
  assert (Head : forall r, eats [TOp "..."; TOp ")"] (toks (pcd nm [] t) ++ r)%list = None).
  { intros r. pose proof (void_word nm t) as Wd. destruct (pcd nm [] t) as [|[[s|s|s|c]|s|] ps]; try discriminate Wd.
    reflexivity. }
  destruct args as [|t1 args].
  - cbn [List.map psep]. rewrite toks_app.
    destruct va; cbn [toks].
    + destruct (R (TOp "," :: TOp "..." :: TOp ")" :: ts) eq_refl) as [m E].
      exists (S (S m)). intros [|[|F]] HF'; [lia|lia|]. rewrite <- app_assoc. cbn [List.app].
      cbn [pparams]. rewrite Head. cbn [pparams] in *.
      rewrite E by lia. rewrite eat_same by discriminate.
      reflexivity.
    + destruct (R (TOp ")" :: ts) eq_refl) as [m E].
      exists (S m). intros [|F] HF'; [lia|]. rewrite app_nil_r.
      cbn [pparams]. rewrite Head, E by lia. reflexivity.
  - destruct (IH ltac:(discriminate) Hok ts) as [m2 E2].
    set (rest := (toks (psep (List.map (pcd nm []) (t1 :: args)) [op ","; G " "]
         ++ (if va then [op ","; G " "; op "..."] else [])) ++ TOp ")" :: ts)%list) in *.
    assert (X : (toks (psep (List.map (pcd nm []) (t :: t1 :: args)) [op ","; G " "]
         ++ (if va then [op ","; G " "; op "..."] else [])) ++ TOp ")" :: ts)%list
       = (toks (pcd nm [] t) ++ TOp "," :: rest)%list).
    { unfold rest. change (psep (List.map (pcd nm []) (t :: t1 :: args)) [op ","; G " "])
        with (pcd nm [] t ++ [op ","; G " "] ++ psep (List.map (pcd nm []) (t1 :: args)) [op ","; G " "])%list.
      rewrite !toks_app, <- !app_assoc. reflexivity. }
    destruct (R (TOp "," :: rest) eq_refl) as [m E].
    exists (S (m + m2)). intros [|F] HF'; [lia|]. rewrite X.
    cbn [pparams]. rewrite Head, E by lia. rewrite eat_same by discriminate.
    rewrite E2 by lia. reflexivity.
Qed.

Lemma void_next : forall ty dp r, opn dp = true -> dp <> [] ->
  eats [TId "void"; TOp ")"] (toks (pcd nm dp ty) ++ r)%list = None.
Proof.
  apply (type_ind2 (fun ty => forall dp r, opn dp = true -> dp <> [] ->
    eats [TId "void"; TOp ")"] (toks (pcd nm dp ty) ++ r)%list = None)); intros; cbn [pcd].
  - cbn [toks]. rewrite toks_optid. cbn [List.app eats]. rewrite eat_same by discriminate.
    destruct dp as [|[[s|s|s|c]|s|] dp]; try congruence; try discriminate H; try reflexivity.
    cbn [opn] in H. apply mem_in in H. cbn [In] in H.
    repeat (destruct H as [H|H]; [subst s; reflexivity|]). destruct H.
  - destruct sz, sg; reflexivity.
  - destruct sg; reflexivity.
  - destruct sz; reflexivity.
  - destruct (is_value (Tpointer t a)); [reflexivity|]. apply H; destruct (fun_or_array t); try reflexivity; discriminate.
  - apply H; [|destruct dp; discriminate]. destruct dp; [reflexivity|assumption].
  - apply H0; [|destruct dp; discriminate]. destruct dp; [reflexivity|assumption].
  - reflexivity.
  - reflexivity.
Qed.

Lemma void_next0 : forall ty r, is_void ty = false ->
  eats [TId "void"; TOp ")"] (toks (pcd nm [] ty) ++ r)%list = None.
Proof.
  intros ty r H. destruct ty; try discriminate H; cbn [pcd].
  - destruct sz, sg; reflexivity.
  - destruct sg; reflexivity.
  - destruct sz; reflexivity.
  - destruct (is_value (Tpointer ty a)); [reflexivity|].
    apply void_next; destruct (fun_or_array ty); try reflexivity; discriminate.
  - apply void_next; [reflexivity|discriminate].
  - apply void_next; [reflexivity|discriminate].
  - reflexivity.
  - reflexivity.
Qed.

Lemma dir_fun : forall args (va un : bool) dp n ms, Forall reads args ->
  forallb (fun t => type_ok nm t && negb (is_fun t) && negb (is_void t)) args = true ->
  Dir (toks dp) n ms ->
  Dir (toks (dp ++ op "(" :: pargp nm args va un ++ [op ")"])) n
    (ms ++ [MFun (if un then None else Some (List.map (ctype nm) args, va))]).
Proof.
  intros args va un dp n ms HF Hok D ts r _ [m E].
  rewrite toks_app, <- app_assoc. cbn [toks]. rewrite toks_app. cbn [toks List.app].
  rewrite <- app_assoc. cbn [List.app].
  apply D.
  - cbn [sfx]. change (String.eqb "(" "(") with true. cbn iota. apply negb_true_iff.
    unfold pargp. destruct un; [reflexivity|]. destruct args as [|t args]; [destruct va; reflexivity|].
    pose proof (void_word nm t) as Wd.
    destruct args as [|t1 args]; cbn [List.map psep];
      destruct (pcd nm [] t) as [|[[s|s|s|c]|s|] ps]; try discriminate Wd; reflexivity.
  - unfold pargp. destruct un.
    + exists (S m). intros [|F] HF'; [lia|]. cbn [psuf toks List.app].
      change (eat (TOp "[") (TOp "(" :: TOp ")" :: ts)) with (@None (list token)).
      repeat (rewrite eat_same by discriminate). apply E. lia.
    + destruct args as [|t args].
      * destruct va.
        -- exists (S (S m)). intros [|[|F]] HF'; [lia|lia|].
           cbn [psuf toks List.app].
           change (eat (TOp "[") (TOp "(" :: TOp "..." :: TOp ")" :: ts)) with (@None (list token)).
           rewrite eat_same by discriminate.
           change (eat (TOp ")") (TOp "..." :: TOp ")" :: ts)) with (@None (list token)).
           change (eats [TId "void"; TOp ")"] (TOp "..." :: TOp ")" :: ts)) with (@None (list token)).
           cbn [pparams].
           change (eats [TOp "..."; TOp ")"] (TOp "..." :: TOp ")" :: ts)) with (Some ts).
           apply (E (S F)). lia.
        -- exists (S m). intros [|F] HF'; [lia|]. cbn [psuf toks List.app].
           change (eat (TOp "[") (TOp "(" :: TId "void" :: TOp ")" :: ts)) with (@None (list token)).
           rewrite eat_same by discriminate.
           change (eat (TOp ")") (TId "void" :: TOp ")" :: ts)) with (@None (list token)).
           change (eats [TId "void"; TOp ")"] (TId "void" :: TOp ")" :: ts)) with (Some ts).
           apply E. lia.
      * destruct (pparams_args (t :: args) va ltac:(discriminate) HF Hok ts) as [m2 E2].
        set (body := (toks (psep (List.map (pcd nm []) (t :: args)) [op ","; G " "] ++
           (if va then [op ","; G " "; op "..."] else [])))) in *.
        assert (B : exists r0, body = (toks (pcd nm [] t) ++ r0)%list).
        { unfold body. cbn [List.map psep].
          destruct (List.map (pcd nm []) args); rewrite !toks_app, <- ?app_assoc; eauto. }
        destruct B as (r0 & B).
        cbn [forallb] in Hok. rewrite !andb_true_iff in Hok. destruct Hok as (((T1 & T2) & T3) & _).
        assert (B1 : eats [TId "void"; TOp ")"] (body ++ TOp ")" :: ts)%list = None).
        { rewrite B, <- app_assoc. apply void_next0. now apply negb_true_iff. }
        assert (B2 : eat (TOp ")") (body ++ TOp ")" :: ts)%list = None).
        { rewrite B, <- app_assoc. pose proof (void_word nm t) as Wd.
          destruct (pcd nm [] t) as [|[[s|s|s|c]|s|] ps]; try discriminate Wd. reflexivity. }
        exists (S (m + m2)). intros [|F] HF'; [lia|]. cbn [psuf].
        change (eat (TOp "[") (TOp "(" :: body ++ TOp ")" :: ts)%list) with (@None (list token)).
        rewrite eat_same by discriminate. rewrite B2, B1, E2 by lia. apply E. lia.
Qed.

Lemma ctype_ptr : forall t a, is_value (Tpointer t a) = false ->
  ctype nm (Tpointer t a) = CPtr (ctype nm t) (meta a).
Proof.
  intros t a H. destruct t; try reflexivity. cbn [ctype is_value] in *.
  unfold is_int_or_ptr_attr in H. destruct (attr_alignas a) as [[|p]|]; try reflexivity.
  destruct p as [[p|p|]|[p|p|]|]; try reflexivity; discriminate.
Qed.

Lemma ctype_value : forall t a, is_value (Tpointer t a) = true ->
  ctype nm (Tpointer t a) = CBase BValue {| ca_align := None; ca_vol := attr_volatile a |}.
Proof.
  intros t a H. destruct t; try discriminate H. cbn [ctype is_value] in *.
  unfold is_int_or_ptr_attr in H. destruct (attr_alignas a) as [[|p]|]; try discriminate H.
  destruct p as [[p|p|]|[p|p|]|]; try reflexivity; discriminate.
Qed.

Lemma build_snoc : forall b ms m, build b (ms ++ [m]) = build (apply_mod m b) ms.
Proof. intros. unfold build. now rewrite fold_right_app. Qed.

Theorem reads_all : forall ty, reads ty.
Proof.
  apply type_ind2; unfold reads.
  - intros dp n ms ts _ O D _ H. cbn [pcd fun_or_array] in *.
    change (wd "void" :: optid dp) with ([wd "void"] ++ pattr noattr ++ optid dp)%list.
    apply (ptype_base [wd "void"] BVoid noattr); try assumption; reflexivity.
  - intros sz sg a dp n ms ts Ha O D _ H. cbn [pcd fun_or_array type_ok] in *.
    replace (ctype nm (Tint sz sg a)) with
      (CBase (match sz with IBool => BInt IBool Signed | _ => BInt sz sg end) (meta a))
      by (destruct sz; reflexivity).
    apply ptype_base; try assumption. intros r. destruct sz, sg; reflexivity.
  - intros sg a dp n ms ts Ha O D _ H. cbn [pcd fun_or_array type_ok] in *.
    apply (ptype_base (plong sg) (BLong sg)); try assumption. intros r. destruct sg; reflexivity.
  - intros sz a dp n ms ts Ha O D _ H. cbn [pcd fun_or_array type_ok] in *.
    apply (ptype_base [wd (name_floattype sz)] (BFloat sz)); try assumption. intros r. destruct sz; reflexivity.
  - intros t a IH dp n ms ts Hok O D _ H. cbn [pcd]. cbn [fun_or_array] in D. cbn [type_ok] in Hok.
    rewrite !andb_true_iff in Hok. destruct Hok as ((Ha & Ht) & Hv).
    destruct (is_value (Tpointer t a)) eqn:V.
    + rewrite ctype_value by assumption. cbn [andb] in Hv. apply negb_true_iff in Hv. rewrite Hv.
      change (wd "value" :: optid dp) with ([wd "value"] ++ pattr noattr ++ optid dp)%list.
      apply (ptype_base [wd "value"] BValue noattr); try assumption; reflexivity.
    + rewrite ctype_ptr by assumption.
      change (CPtr (ctype nm t) (meta a)) with (apply_mod (MPtr (meta a)) (ctype nm t)).
      rewrite <- build_snoc.
      destruct (fun_or_array t) eqn:FA.
      * apply IH; [assumption|reflexivity| |intros _ X; discriminate X|assumption]. now apply dir_paren.
      * apply IH; [assumption|reflexivity| |intros _ X; discriminate X|assumption]. now apply dec_ptr.
  - intros t k a IH dp n ms ts Hok O D _ H. cbn [pcd]. cbn [fun_or_array] in D. cbn [type_ok] in Hok.
    rewrite !andb_true_iff in Hok. destruct Hok as ((Ht & H1) & H2). apply Z.leb_le in H1. apply Z.ltb_lt in H2.
    cbn [ctype]. change (CArr (ctype nm t) k) with (apply_mod (MArr k) (ctype nm t)).
    rewrite <- build_snoc. pose proof (dir_arr k dp n ms H1 H2 D) as D2.
    apply IH; try assumption.
    + destruct dp; [reflexivity|exact O].
    + destruct (fun_or_array t); [assumption|now apply dir_dec].
    + intros _ X. destruct dp; discriminate.
  - intros args res va un HA IH dp n ms ts Hok O D NE H. cbn [pcd]. cbn [fun_or_array] in D. cbn [type_ok] in Hok.
    rewrite !andb_true_iff in Hok. destruct Hok as (Hr & Hargs).
    cbn [ctype].
    change (CFun (if un then None else Some (List.map (ctype nm) args, va)) (ctype nm res)) with
      (apply_mod (MFun (if un then None else Some (List.map (ctype nm) args, va))) (ctype nm res)).
    rewrite <- build_snoc. fold (pargp nm args va un).
    assert (N : dp <> []) by (apply NE; reflexivity).
    destruct dp as [|p dp]; [congruence|].
    pose proof (dir_fun args va un (p :: dp) n ms HA Hargs D) as D2.
    apply IH; try assumption.
    + destruct (fun_or_array res); [assumption|now apply dir_dec].
    + intros _ X. discriminate.
  - intros i a dp n ms ts Hok O D _ H. cbn [pcd fun_or_array type_ok] in *. rewrite andb_true_iff in Hok.
    destruct Hok as [Ha Hi].
    apply (ptype_base [wd "struct"; G " "; wd (nm i)] (BStruct (nm i))); try assumption. reflexivity.
  - intros i a dp n ms ts Hok O D _ H. cbn [pcd fun_or_array type_ok] in *. rewrite andb_true_iff in Hok.
    destruct Hok as [Ha Hi].
    apply (ptype_base [wd "union"; G " "; wd (nm i)] (BUnion (nm i))); try assumption. reflexivity.
Qed.

Lemma read_tname : forall t ts, tname_ok nm t = true -> dstop ts = true ->
  ev (fun F => ptype F (toks (pcd nm [] t) ++ ts)) (None, ctype nm t, ts).
Proof.
  intros t ts H S0. unfold tname_ok in H. rewrite andb_true_iff in H. destruct H as [H1 H2].
  apply (reads_all t [] None [] ts H1 eq_refl); [|destruct (is_fun t); [discriminate|congruence]|assumption].
  destruct (fun_or_array t); [apply dir_nil|apply dir_dec, dir_nil].
Qed.

End READ.
