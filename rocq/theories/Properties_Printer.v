(** * C84: the C text that is printed is read by C as the program it was printed from *)
From Coq Require Import ZArith NArith List String Ascii Bool Lia QArith Qabs.
From Coq.Floats Require Import SpecFloat.
From Verif Require Import PR_Model PR_Spec PR_Lex PR_Num PR_Types PR_Decl PR_Exprs PR_Read PR_Stmt PR_Float PR_Fun.
Import ListNotations.
Local Close Scope Q_scope.
Local Open Scope string_scope.

(** ** The conditions in terms of the text *)

(** white space where the formatter may break a line *)
Definition blank (sp : string) : Prop :=
  sp <> "" /\ forall c, In c (list_ascii_of_string sp) -> is_space c = true.
Definition maybe_blank (s : string) : Prop := s = "" \/ blank s.

(** the texts of the magnitudes of floats: numbers for C that denote the float to within
    half a unit of the 17th decimal place, so that among the doubles it is the closest *)
Definition float_texts (ft : spec_float -> string) : Prop :=
  (forall f, finite f = true -> exists c, literal (ft f) = Some c) /\
  (forall s, decimal (ft (S754_zero s)) = Some (0, 0)%Z) /\
  (forall s m e, exists d k, decimal (ft (S754_finite s m e)) = Some (d, k) /\
     (inject_Z (2 * 10 ^ 17) * Qabs (dec_value d k - bin_value m e) <= bin_value m e)%Q /\
     (double m e -> forall m' e', double m' e' -> ~ (bin_value m' e' == bin_value m e)%Q ->
        (Qabs (dec_value d k - bin_value m e) < Qabs (dec_value d k - bin_value m' e'))%Q)).

Lemma white_blank : forall s, blank s -> white s = true.
Proof.
  intros s [N H]. unfold white. apply andb_true_iff. split.
  - apply negb_true_iff. apply String.eqb_neq. exact N.
  - clear N. induction s as [|c s IH]; [reflexivity|]. cbn [all_chars]. apply andb_true_iff. split.
    + apply H. now left.
    + apply IH. intros d D. apply H. now right.
Qed.

Lemma cut_blank : forall s, maybe_blank s -> s = "" \/ white s = true.
Proof. intros s [H|H]; [now left|right; now apply white_blank]. Qed.

Lemma mag_texts : float_texts mag_text.
Proof.
  split; [exact mag_literal|]. split; [reflexivity|]. intros s m e. cbn [mag_text].
  destruct (text_value m e) as (d & k & E & V). exists d, k. split; [exact E|].
  assert (V' : (inject_Z (2 * 10 ^ 17) * Qabs (dec_value d k - bin_value m e) <= bin_value m e)%Q).
  { exact V. }
  split; [exact V'|]. intros D m' e' D' N. now apply text_closest.
Qed.

(** ** Expressions *)

Theorem C84_expressions : exists ft, float_texts ft /\ forall sp nm tn e,
  blank sp -> expr_ok nm tn e = true -> reads_expr (print_expr sp nm tn e) (means nm tn ft e).
Proof.
  exists mag_text. split; [exact mag_texts|]. intros sp nm tn e B H.
  apply expr_reads; [now apply white_blank|exact mag_wf|exact mag_literal|exact H].
Qed.

(** names for the examples *)
Definition nm0 (p : positive) : string :=
  match p with
  | 1 => "f_1" | 2 => "args" | 3 => "tinfo" | 4 => "thread_info" | 5 => "L0" | 6 => "call" | _ => "other"
  end%positive.
Definition tn0 (p : positive) : string := "$" ++ nm0 p.

Definition tval : type := Tpointer Tvoid {| attr_volatile := false; attr_alignas := Some 3%N |}.
Definition tu64 : type := Tlong Unsigned noattr.
Definition ti64 : type := Tlong Signed noattr.
Definition ti32 : type := Tint I32 Signed noattr.
Definition td : type := Tfloat F64 noattr.
Definition tfn : type := Tpointer (Tfunction [Tpointer (Tstruct 4 noattr) noattr; tval] Tvoid false false) noattr.

(** [((value * ) $args)[..]]: the field of a block, a shifted tag, a difference of two
    differences, a call through a cast *)
Definition ex_field : expr :=
  Ederef (Ebinop Oadd (Ecast (Etempvar 2 tval) (Tpointer tval noattr)) (Econst_long (-1) ti64) (Tpointer tval noattr)) tval.
Definition ex_tag : expr :=
  Ebinop Oadd (Ebinop Oshl (Ecast (Econst_int 5 ti32) tu64) (Econst_int 1 ti32) tu64) (Econst_int 1 ti32) tu64.
Definition ex_sub : expr :=
  Ebinop Osub (Evar 1 tu64) (Ebinop Osub (Evar 2 tu64) (Eunop Oneg (Evar 3 tu64) tu64) tu64) tu64.
Definition ex_quarter : expr := Ebinop Omul (Econst_float (S754_finite true 1 (-2)) td) (Etempvar 2 td) td.

Example C84_texts :
  print_expr " " nm0 tn0 ex_field = "*((value *) $args + -1LL)" /\
  print_expr " " nm0 tn0 ex_tag = "((unsigned long long) 5 << 1) + 1" /\
  print_expr " " nm0 tn0 ex_sub = "f_1 - (args - -tinfo)" /\
  print_expr " " nm0 tn0 ex_quarter = "-0.25 * $args".
Proof. vm_compute. repeat split. Qed.

Example C84_expressions_example :
  blank " " /\ forallb (expr_ok nm0 tn0) [ex_field; ex_tag; ex_sub; ex_quarter] = true /\
  means nm0 tn0 mag_text ex_sub =
    CBin Osub (CVar "f_1") (CBin Osub (CVar "args") (CNeg (CVar "tinfo"))) /\
  means nm0 tn0 mag_text ex_quarter = CBin Omul (CNeg (CFloat "0.25")) (CVar "$args") /\
  decimal "0.25" = Some (25, -2)%Z.
Proof.
  split; [split; [discriminate|intros c [<-|[]]; reflexivity]|]. vm_compute. repeat split.
Qed.

(** ** Declarations and type names *)

Theorem C84_declarations : forall nm x ty, ident x = true -> type_ok nm ty = true ->
  reads_type (name_cdecl nm x ty) (Some x) (ctype nm ty).
Proof.
  intros nm x ty I T.
  pose proof (render_pnp nm (fun _ => x) (1%positive, ty) I) as R. cbn [fst snd] in R.
  unfold reads_type. rewrite <- R. rewrite lex_pieces by (now apply (good_pnp nm (fun _ => x) (1%positive, ty))).
  rewrite <- (List.app_nil_r (toks _)). exact (named_read nm (fun _ => x) (1%positive, ty) [] I T eq_refl).
Qed.

Theorem C84_type_names : forall nm ty, tname_ok nm ty = true ->
  reads_type (name_type nm ty) None (ctype nm ty).
Proof.
  intros nm ty H. unfold reads_type. rewrite <- (render_tname nm ty).
  rewrite lex_pieces.
  - rewrite <- (List.app_nil_r (toks _)). exact (read_tname nm ty [] H eq_refl).
  - unfold tname_ok in H. apply andb_true_iff in H. destruct H as [H _]. apply (pcd_ok nm ty [] H). repeat split.
Qed.

(** a pointer to an array of functions' pointers; the type of a compiled function *)
Definition ex_type : type :=
  Tpointer (Tarray (Tpointer (Tfunction [ti32; tval] (Tpointer ti32 noattr) true false) noattr) 4 noattr)
    {| attr_volatile := true; attr_alignas := None |}.

Example C84_declarations_example :
  type_ok nm0 ex_type = true /\ tname_ok nm0 tfn = true /\
  name_cdecl nm0 "x" ex_type = "int *(*(* volatile x)[4])(int, value, ...)" /\
  name_type nm0 tfn = "void (*)(struct thread_info *, value)" /\
  ctype nm0 ex_type =
    CPtr (CArr (CPtr (CFun (Some ([CBase (BInt I32 Signed) noat; CBase BValue noat], true))
                        (CPtr (CBase (BInt I32 Signed) noat) noat)) noat) 4)
      {| ca_align := None; ca_vol := true |}.
Proof. vm_compute. repeat split. Qed.

(** ** Statements *)

(** up to empty statements and [if] with its branches swapped *)
Theorem C84_statements : exists ft, float_texts ft /\ forall sp cut nm tn s,
  blank sp -> maybe_blank cut -> stmt_ok nm tn s = true ->
  exists l, reads_block (print_stmt sp cut nm tn s ++ cut ++ "}") l /\
    tidies l = tidies (flatten nm tn ft s).
Proof.
  exists mag_text. split; [exact mag_texts|]. intros sp cut nm tn s B C H.
  exists (items nm tn s). split.
  - apply stmt_reads; [now apply white_blank|now apply cut_blank|exact mag_wf|exact mag_literal|exact H].
  - apply tidy_all.
Qed.

(** a case analysis as the code generator produces it, with a dangling [else] shape *)
Definition ex_stmt : stmt :=
  Ssequence (Sset 2 ex_field)
  (Ssequence
    (Sswitch (Ebinop Oand (Etempvar 2 tu64) (Econst_int 255 ti32) tu64)
      (LScons (Some 0%Z) (Ssequence (Scall (Some 3%positive) (Ecast (Evar 6 tval) tfn) [Etempvar 2 tval; ex_tag]) Sbreak)
      (LScons (Some (-1)%Z) Sskip
      (LScons None (Sifthenelse (Etempvar 2 tu64) (Sifthenelse (Evar 1 tu64) Sskip Sbreak) (Sloop Scontinue)) LSnil))))
    (Slabel 5 (Sreturn (Some (Etempvar 3 tval))))).

Example C84_statements_example :
  blank " " /\ maybe_blank "" /\ stmt_ok nm0 tn0 ex_stmt = true /\
  print_stmt " " "" nm0 tn0 ex_stmt =
    "$args = *((value *) $args + -1LL); switch ($args & 255) { case 0: $tinfo = ((void (*)(struct thread_info *, value)) call)($args, ((unsigned long long) 5 << 1) + 1); break; case -1: default: if ($args) { if (! f_1) { break;}} else { while (1) { continue;}} } L0: return $tinfo;" /\
  flatten nm0 tn0 mag_text ex_stmt =
    [CAssign (CVar "$args") (CDeref (CBin Oadd (CCast (CPtr (CBase BValue noat) noat) (CVar "$args")) (CNeg (CLit 1 "LL"))));
     CSwitch (CBin Oand (CVar "$args") (CLit 255 ""))
       [CCase 0%Z;
        CAssign (CVar "$tinfo")
          (CCall (CCast (CPtr (CFun (Some ([CPtr (CBase (BStruct "thread_info") noat) noat; CBase BValue noat], false))
                                 (CBase BVoid noat)) noat) (CVar "call"))
             [CVar "$args";
              CBin Oadd (CBin Oshl (CCast (CBase (BLong Unsigned) noat) (CLit 5 "")) (CLit 1 "")) (CLit 1 "")]);
        CBreak;
        CCase (-1)%Z;
        CDefault;
        CIf (CVar "$args") [CIf (CVar "f_1") [] [CBreak]] [CWhile (CLit 1 "") [CContinue]]];
     CLabel "L0";
     CReturn (Some (CVar "$tinfo"))].
Proof.
  split; [split; [discriminate|intros c [<-|[]]; reflexivity]|]. split; [now left|]. vm_compute. repeat split.
Qed.

(** ** Function definitions *)

Theorem C84_functions : exists ft, float_texts ft /\ forall sp cut nm tn id params va ret vars temps body,
  blank sp -> maybe_blank cut ->
  ident (nm id) = true -> type_ok nm ret = true -> result_ok ret = true ->
  decls_ok nm tn params = true -> decls_ok nm nm vars = true -> decls_ok nm tn temps = true ->
  stmt_ok nm tn body = true ->
  exists f, reads_function (print_function sp cut nm tn id params va ret vars temps body) f /\
    cf_name f = nm id /\ cf_ret f = ctype nm ret /\ cf_vararg f = va /\
    cf_params f = List.map (fun d => (tn (fst d), ctype nm (snd d))) params /\
    cf_locals f = (List.map (fun d => (false, nm (fst d), ctype nm (snd d))) vars
                   ++ List.map (fun d => (true, tn (fst d), ctype nm (snd d))) temps)%list /\
    tidies (cf_body f) = tidies (flatten nm tn ft body).
Proof.
  exists mag_text. split; [exact mag_texts|].
  intros sp cut nm tn id params va ret vars temps body B C I R O P V T S.
  eexists. split.
  - apply fun_reads; [now apply white_blank|now apply cut_blank|exact mag_wf|exact mag_literal|..]; assumption.
  - cbn [cf_name cf_ret cf_vararg cf_params cf_locals cf_body]. repeat (split; [reflexivity|]). apply tidy_all.
Qed.

Definition ex_params : list (positive * type) := [(3%positive, Tpointer (Tstruct 4 noattr) noattr); (2%positive, tval)].
Definition ex_temps : list (positive * type) := [(1%positive, Tpointer tval noattr); (6%positive, tfn)].

Example C84_functions_example :
  ident (nm0 1) = true /\ type_ok nm0 (Tpointer tval noattr) = true /\ result_ok (Tpointer tval noattr) = true /\
  decls_ok nm0 tn0 ex_params = true /\ decls_ok nm0 nm0 [(2%positive, Tarray tval 4 noattr)] = true /\
  decls_ok nm0 tn0 ex_temps = true /\ stmt_ok nm0 tn0 (Sreturn (Some (Etempvar 1 tval))) = true /\
  print_function " " "" nm0 tn0 1 ex_params false (Tpointer tval noattr) [(2%positive, Tarray tval 4 noattr)] ex_temps
    (Sreturn (Some (Etempvar 1 tval))) =
    "value *f_1(struct thread_info *$tinfo, value $args) { value args[4]; register value *$f_1; register void (*$call)(struct thread_info *, value); return $f_1;}  ".
Proof. vm_compute. repeat split. Qed.

(** ** Constants *)

(** what is printed for a machine integer is the integer, read as signed or unsigned *)
Theorem C84_integers : forall n,
  camlint_of_coqint n = signed 32 n /\ camlint64_of_coqint n = signed 64 n /\
  ((- 2 ^ 62 <= n < 2 ^ 62)%Z -> Z_to_int n = n).
Proof.
  intros n. split; [apply caml32_signed|]. split; [apply caml64_signed|apply label_value].
Qed.

Example C84_integers_example :
  camlint_of_coqint 4294967295 = (-1)%Z /\ camlint64_of_coqint 18446744073709551615 = (-1)%Z /\
  (- 2 ^ 62 <= -4611686018427387904 < 2 ^ 62)%Z.
Proof. repeat split; try reflexivity; discriminate. Qed.

(** every finite double's text, sign apart, is closer to that double than to any other *)
Theorem C84_float_text : forall m e, exists d k, decimal (pos18g m e) = Some (d, k) /\
  (inject_Z (2 * 10 ^ 17) * Qabs (dec_value d k - bin_value m e) <= bin_value m e)%Q /\
  (double m e -> forall m' e', double m' e' -> ~ (bin_value m' e' == bin_value m e)%Q ->
     (Qabs (dec_value d k - bin_value m e) < Qabs (dec_value d k - bin_value m' e'))%Q).
Proof. intros m e. destruct mag_texts as (_ & _ & H). exact (H false m e). Qed.

(** 0.1 and its successor; the smallest and the largest double *)
Example C84_float_text_example :
  double 7205759403792794 (-56) /\ double 7205759403792795 (-56) /\ double 1 (-1074) /\ double 9007199254740991 971 /\
  pos18g 7205759403792794 (-56) = "0.100000000000000006" /\
  pos18g 7205759403792795 (-56) = "0.100000000000000019" /\
  pos18g 1 (-1074) = "4.94065645841246544e-324" /\
  pos18g 9007199254740991 971 = "1.79769313486231571e+308".
Proof. vm_compute. repeat split. Qed.

(** ** Where the text is not what was meant *)

(** a negation of a negative constant: [--] is one token, the text is not an expression *)
Theorem C84_double_minus_refuted : exists sp nm tn e, blank sp /\
  e = Eunop Oneg (Econst_int (-1) ti32) ti32 /\ print_expr sp nm tn e = "--1" /\
  forall c, ~ reads_expr (print_expr sp nm tn e) c.
Proof.
  exists " ", nm0, tn0, (Eunop Oneg (Econst_int (-1) ti32) ti32).
  split; [split; [discriminate|intros c [<-|[]]; reflexivity]|]. split; [reflexivity|]. split; [reflexivity|].
  intros c [n H]. specialize (H (n + 16)%nat ltac:(lia)). rewrite Nat.add_comm in H. vm_compute in H. discriminate H.
Qed.

(** a call of what a pointer points to: the star is applied to the result of the call *)
Theorem C84_callee_refuted : exists sp cut nm tn s, blank sp /\ maybe_blank cut /\
  s = Scall None (Ederef (Evar 1 tfn) tfn) [Evar 2 tval] /\
  reads_block (print_stmt sp cut nm tn s ++ cut ++ "}") [CExpr (CDeref (CCall (CVar (nm 1%positive)) [CVar (nm 2%positive)]))] /\
  flatten nm tn mag_text s = [CExpr (CCall (CDeref (CVar (nm 1%positive))) [CVar (nm 2%positive)])].
Proof.
  exists " ", "", nm0, tn0, (Scall None (Ederef (Evar 1 tfn) tfn) [Evar 2 tval]).
  split; [split; [discriminate|intros c [<-|[]]; reflexivity]|]. split; [now left|]. split; [reflexivity|].
  split; [|reflexivity]. exists 40%nat. intros F HF. replace F with (40 + (F - 40))%nat by lia.
  vm_compute. reflexivity.
Qed.

(** integral floats are printed without a point and are integers for C: a division of
    floats becomes a division of integers, minus zero becomes zero *)
Theorem C84_integral_floats_refuted : exists sp nm tn,
  blank sp /\
  (let one := S754_finite false 4503599627370496 (-52) in
   let two := S754_finite false 4503599627370496 (-51) in
   double 4503599627370496 (-52) /\ double 4503599627370496 (-51) /\
   reads_expr (print_expr sp nm tn (Ebinop Odiv (Econst_float one td) (Econst_float two td) td))
     (CBin Odiv (CLit 1 "") (CLit 2 ""))) /\
  reads_expr (print_expr sp nm tn (Econst_float (S754_zero true) td)) (CNeg (CLit 0 "")).
Proof.
  exists " ", nm0, tn0.
  split; [split; [discriminate|intros c [<-|[]]; reflexivity]|]. split; [split; [reflexivity|split; [reflexivity|]]|];
    exists 40%nat; intros F HF; replace F with (40 + (F - 40))%nat by lia; vm_compute; reflexivity.
Qed.

(** infinities and NaN are printed as names *)
Theorem C84_infinite_floats_refuted : exists sp nm tn, blank sp /\
  reads_expr (print_expr sp nm tn (Econst_float (S754_infinity false) td)) (CVar "inf") /\
  reads_expr (print_expr sp nm tn (Econst_float S754_nan td)) (CVar "nan").
Proof.
  exists " ", nm0, tn0.
  split; [split; [discriminate|intros c [<-|[]]; reflexivity]|]. split;
    exists 40%nat; intros F HF; replace F with (40 + (F - 40))%nat by lia; vm_compute; reflexivity.
Qed.

(** the smallest [long long] is printed as the negation of a constant no signed type holds *)
Theorem C84_smallest_long_refuted : exists sp nm tn, blank sp /\
  print_expr sp nm tn (Econst_long (- 2 ^ 63) ti64) = "-9223372036854775808LL" /\
  reads_expr (print_expr sp nm tn (Econst_long (- 2 ^ 63) ti64)) (CNeg (CLit 9223372036854775808 "LL")) /\
  ~ (9223372036854775808 <= 2 ^ 63 - 1)%Z.
Proof.
  exists " ", nm0, tn0.
  split; [split; [discriminate|intros c [<-|[]]; reflexivity]|]. split; [reflexivity|]. split; [|discriminate || (intros H; vm_compute in H; congruence)].
  exists 40%nat; intros F HF; replace F with (40 + (F - 40))%nat by lia; vm_compute; reflexivity.
Qed.

(** a function type and a pointer to it have the same text as type names *)
Theorem C84_function_type_names_refuted : exists nm t, type_ok nm t = true /\
  name_type nm t = name_type nm (Tpointer t noattr) /\ ctype nm t <> ctype nm (Tpointer t noattr).
Proof.
  exists nm0, (Tfunction [tval] Tvoid false false). split; [reflexivity|]. split; [reflexivity|discriminate].
Qed.

(** a volatile [value] loses its qualifier *)
Theorem C84_volatile_value_refuted : exists nm a, attr_volatile a = true /\
  name_cdecl nm "x" (Tpointer Tvoid a) = "value x" /\ ctype nm (Tpointer Tvoid a) <> CBase BValue noat.
Proof.
  exists nm0, {| attr_volatile := true; attr_alignas := Some 3%N |}. split; [reflexivity|]. split; [reflexivity|discriminate].
Qed.

(** case labels are printed through OCaml's 63-bit integers *)
Theorem C84_labels_refuted : exists z, (2 ^ 62 <= z < 2 ^ 63)%Z /\
  print_case_label (Some z) = "case -4611686018427387904".
Proof. exists (2 ^ 62)%Z. split; [split; [discriminate|reflexivity]|reflexivity]. Qed.

(** conversions from OCaml's integers and strings are off by one (plugin/static; not used
    by the printer) *)
Theorem C84_of_int_refuted : (forall n, n <> O -> Z.of_N (N_of_int n) = (Z.of_nat n + 1)%Z) /\
  exists s, coqstring_of_camlstring s = "bcd" /\ s = "abc".
Proof.
  split; [|exists "abc"; split; reflexivity]. intros [|n] H; [congruence|]. cbn [N_of_int].
  rewrite P_of_int_succ. change (Z.of_N (N.pos ?p)) with (Zpos p). rewrite Zpos_P_of_succ_nat. lia.
Qed.

Print Assumptions C84_expressions.
Print Assumptions C84_declarations.
Print Assumptions C84_type_names.
Print Assumptions C84_statements.
Print Assumptions C84_functions.
Print Assumptions C84_integers.
Print Assumptions C84_float_text.
Print Assumptions C84_double_minus_refuted.
Print Assumptions C84_callee_refuted.
Print Assumptions C84_integral_floats_refuted.
Print Assumptions C84_infinite_floats_refuted.
Print Assumptions C84_smallest_long_refuted.
Print Assumptions C84_function_type_names_refuted.
Print Assumptions C84_volatile_value_refuted.
Print Assumptions C84_labels_refuted.
Print Assumptions C84_of_int_refuted.
