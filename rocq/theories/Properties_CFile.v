(** * C88: a printed C file is read by C as the program it was printed from *)
From Coq Require Import ZArith NArith List String Ascii Bool Lia QArith.
From Coq.Floats Require Import SpecFloat.
From Verif Require Import PR_Model PR_Spec PR_Lex PR_Num PR_Types PR_Decl PR_Exprs PR_Read PR_Stmt PR_Float PR_Fun.
From Verif Require Import Properties_Printer PP_Model PP_Spec PP_Proofs PP_Text.
Import ListNotations.
Local Close Scope Q_scope.
Local Open Scope string_scope.

(** ** The program *)

(** the text is a translation unit that declares the composites, defines them, declares
    the functions and then defines everything, in the order of the program *)
Theorem C88_program : exists ft, float_texts ft /\ forall sp cut nm tn p,
  blank sp -> maybe_blank cut -> prog_ok nm tn p = true ->
  exists l, reads_unit (print_program sp cut nm tn p) l /\ Forall2 same l (cunit nm tn ft p).
Proof.
  exists mag_text. split; [exact mag_texts|]. intros sp cut nm tn p B C H.
  exists (runit nm tn p). split; [|apply runit_same].
  rewrite <- (sapp_nil (print_program sp cut nm tn p)).
  apply program_reads; [now apply white_blank|now apply cut_blank|exact mag_wf|exact mag_literal|exact H|now left].
Qed.

(** names for the examples *)
Definition gn (p : positive) : string :=
  match p with
  | 1 => "halt" | 2 => "halt_clo" | 3 => "thread_info" | 4 => "alloc" | 5 => "args" | 6 => "names" | 7 => "gc"
  | 8 => "nowhere" | 9 => "room" | 10 => "__stringlit_1" | _ => "other"
  end%positive.
Definition gt (p : positive) : string := "$" ++ gn p.

(** what glue code consists of: a structure, a function from elsewhere, a function, a
    closure, names of constructors, a variable from elsewhere, an address inside a variable *)
Definition ex_program : program :=
  {| prog_types := [{| co_id := 3; co_su := Struct;
                       co_members := [(4, Tpointer tval noattr); (5, Tarray tval 1024 noattr)];
                       co_attr := noattr |}];
     prog_defs := [
       (7, Gfun (External true [Tpointer (Tstruct 3 noattr) noattr] Tvoid false false));
       (1, Gfun (Internal {| fn_return := Tvoid; fn_vararg := false; fn_unproto := false; fn_params := [(5, tval)];
                             fn_vars := []; fn_temps := []; fn_body := Sreturn None |}));
       (2, Gvar {| gvar_info := Tarray tval 2 noattr; gvar_init := [Init_addrof 1 0; Init_int64 1]; gvar_readonly := true |});
       (6, Gvar {| gvar_info := Tarray (Tarray (Tint I8 Signed noattr) 2 noattr) 2 noattr;
                   gvar_init := [Init_int8 79; Init_int8 0; Init_int8 83; Init_int8 0; Init_space 0]; gvar_readonly := true |});
       (8, Gvar {| gvar_info := Tint I32 Signed noattr; gvar_init := []; gvar_readonly := false |});
       (9, Gvar {| gvar_info := Tpointer tval noattr; gvar_init := [Init_addrof 2 8]; gvar_readonly := true |})] |}%positive.

Example C88_program_example :
  prog_ok gn gt ex_program = true /\
  print_program " " "" gn gt ex_program =
    "struct thread_info; struct thread_info { value *alloc; value args[1024];};  " ++
    "extern void gc(struct thread_info *); void halt(value); " ++
    "void halt(value $args) { return;}  " ++
    "value const halt_clo[2] = { &halt, 1LL, };  " ++
    "signed char const names[2][2] = { 79, 0, 83, 0, /* skip 0 */ };  " ++
    "extern int nowhere;  value *const room = (void *)((char *)&halt_clo + 8);  " /\
  reads_unit (print_program " " "" gn gt ex_program) (cunit gn gt mag_text ex_program).
Proof.
  split; [reflexivity|]. split; [vm_compute; reflexivity|].
  exists 60%nat. intros F HF. replace F with (60 + (F - 60))%nat by lia. vm_compute. reflexivity.
Qed.

(** ** The file *)

(** the name after the last slash *)
Definition file_name (dest file : string) : Prop :=
  no_char "/" file = true /\ (dest = file \/ exists dir, dest = dir ++ "/" ++ file).

(** the first time a file is read its guard gets defined, what it imports is included
    first, and its text is the program; every other time it adds nothing *)
Theorem C88_file : exists ft, float_texts ft /\ forall sp cut nm tn p dest file imports c,
  blank sp -> maybe_blank cut -> prog_ok nm tn p = true ->
  file_name dest file -> String.get 0 file = Some c -> is_digit c = false ->
  forallb import_ok imports = true ->
  exists guard, forall macros,
    (In guard macros ->
       exists k, include_file macros (print_file dest imports (print_program sp cut nm tn p)) = Some (macros, k) /\
         includes_of k = [] /\ reads_unit (unlines (text_of k)) []) /\
    (~ In guard macros ->
       exists text l, include_file macros (print_file dest imports (print_program sp cut nm tn p)) =
           Some (guard :: macros, List.map KInclude (List.map header imports) ++ List.map KText text)%list /\
         reads_unit (unlines text) l /\ Forall2 same l (cunit nm tn ft p)).
Proof.
  exists mag_text. split; [exact mag_texts|]. intros sp cut nm tn p dest file imports c B C H [NS D] G0 NG I.
  assert (LP : last_part dest "" = file).
  { destruct D as [->|[dir ->]]; [rewrite last_part_file by exact NS; reflexivity|]. now apply last_part_dir. }
  assert (M : macro_name (guardify (last_part dest "")) = true).
  { rewrite LP. destruct file as [|d file]; [discriminate G0|]. cbn [String.get] in G0. injection G0 as ->. now apply guard_macro. }
  pose proof (program_reads sp cut nm tn (white_blank _ B) (cut_blank _ C) mag_wf mag_literal p (nl ++ nl) H (or_intror eq_refl)) as [R N].
  exists (guardify (last_part dest "")). intros macros. pose proof (guard_once dest imports _ macros M I N) as GO. cbv zeta in GO.
  split; intros GI.
  - assert (E : mem (guardify (last_part dest "")) macros = true).
    { apply existsb_exists. eexists. split; [exact GI|apply String.eqb_refl]. }
    rewrite E in GO. eexists. split; [exact GO|]. split; [reflexivity|].
    exists 1%nat. intros [|F] HF; [lia|]. reflexivity.
  - assert (E : mem (guardify (last_part dest "")) macros = false).
    { destruct (mem (guardify (last_part dest "")) macros) eqn:E; [|reflexivity]. exfalso. apply GI.
      apply existsb_exists in E. destruct E as (y & Y & E). apply String.eqb_eq in E. now subst y. }
    rewrite E in GO. exists (lines (print_program sp cut nm tn p) ++ [""])%list, (runit nm tn p).
    split; [rewrite List.map_map, List.map_app; exact GO|]. split; [|apply runit_same].
    assert (U : forall a, unlines (a ++ [""])%list = unlines a ++ nl).
    { induction a as [|x a IH]; [reflexivity|]. cbn [List.app unlines]. rewrite IH, sapp_assoc. reflexivity. }
    rewrite U, unlines_lines, sapp_assoc. exact R.
Qed.

Example C88_file_example :
  file_name "out/glue.M.c" "glue.M.c" /\ forallb import_ok [FromLibrary "gc.h"; FromRelativePath "m.h"] = true /\
  prog_ok gn gt ex_program = true /\
  print_file "out/glue.M.c" [FromLibrary "gc.h"; FromRelativePath "m.h"] "int x;" =
    unlines ["#ifndef GLUE_M_C"; "#define GLUE_M_C"; "#include <gc.h>"; "#include ""m.h"""; "int x;"; "#endif /* GLUE_M_C */"] /\
  include_file ["A"] (print_file "out/glue.M.c" [FromLibrary "gc.h"; FromRelativePath "m.h"] "int x;") =
    Some (["GLUE_M_C"; "A"], [KInclude "<gc.h>"; KInclude """m.h"""; KText "int x;"; KText ""]).
Proof.
  split; [split; [reflexivity|right; exists "out"; reflexivity]|]. split; [reflexivity|]. split; [reflexivity|].
  split; vm_compute; reflexivity.
Qed.

(** ** Initialised variables *)

Definition exprs (i : cinit) : list cexp := match i with COne e => [e] | CMany l => l end.

(** when every initialiser has the size of an element of the variable, C puts into memory
    what Clight puts there *)
Theorem C88_layout : forall sp nm id v s n,
  blank sp -> var_ok nm id v = true ->
  existsb (fun i => negb (is_space_init i)) (gvar_init v) = true ->
  elements (gvar_info v) = Some (s, n) -> uniform s (gvar_init v) = true ->
  exists i, reads_unit (print_globvar sp nm id v) [XVar (gvar_readonly v) (nm id) (ctype nm (gvar_info v)) i] /\
    c_image s 0 (exprs i) = Some (clight_image nm 0 (gvar_init v)).
Proof.
  intros sp nm id v s n B V X E U. exists (cinit_of nm v). split.
  - pose proof (var_item sp "" nm nm (white_blank _ B) (or_introl eq_refl) id v V) as I.
    assert (CV : cvar_of nm id v = XVar (gvar_readonly v) (nm id) (ctype nm (gvar_info v)) (cinit_of nm v)).
    { unfold cvar_of. destruct (gvar_init v) as [|i [|j l]]; [discriminate X| |]; destruct i; try reflexivity. discriminate X. }
    rewrite <- CV. pose proof (texts_read [print_globvar sp nm id v] [cvar_of nm id v] "" (Forall2_cons _ _ I (Forall2_nil _)) (or_introl eq_refl)) as [R _].
    rewrite sapp_nil in R. exact R.
  - rewrite <- (uniform_image nm s (gvar_init v) 0 U). f_equal. unfold cinit_of.
    destruct (scalar (gvar_info v)); [|reflexivity].
    destruct (gvar_init v) as [|i [|j l]]; [reflexivity| |reflexivity].
    destruct i; try reflexivity. discriminate X.
Qed.

(** a closure; names padded with zeros; an address inside a variable *)
Definition ex_closure : globvar :=
  {| gvar_info := Tarray tval 3 noattr; gvar_init := [Init_addrof 1 0; Init_int64 (-1); Init_addrof 2 (-16)]; gvar_readonly := true |}.
Definition ex_names : globvar :=
  {| gvar_info := Tarray (Tint I8 Signed noattr) 4 noattr; gvar_init := [Init_int8 79; Init_int8 200; Init_int8 0; Init_space 1]; gvar_readonly := true |}.

Example C88_layout_example :
  var_ok gn 2 ex_closure = true /\ elements (gvar_info ex_closure) = Some (8, 3)%Z /\ uniform 8 (gvar_init ex_closure) = true /\
  clight_image gn 0 (gvar_init ex_closure) =
    [(0, 8, CAdr "halt" 0); (8, 8, CNum (2 ^ 64 - 1)); (16, 8, CAdr "halt_clo" (-16))]%Z /\
  var_ok gn 6 ex_names = true /\ elements (gvar_info ex_names) = Some (1, 4)%Z /\ uniform 1 (gvar_init ex_names) = true /\
  clight_image gn 0 (gvar_init ex_names) = [(0, 1, CNum 79); (1, 1, CNum 200); (2, 1, CNum 0)]%Z.
Proof. vm_compute. repeat split. Qed.

(** variables named like literals are printed as literals; the characters of the array
    are those of the variable *)
Theorem C88_strings : forall sp nm id ro a n bs,
  String.prefix "__stringlit_" (nm id) = true ->
  (exists c, String.get 12 (nm id) = Some c /\ is_digit c = true) ->
  Forall (fun b => (0 <= b < 256)%Z) bs ->
  let v := {| gvar_info := Tarray (Tint I8 Signed noattr) n a; gvar_init := List.map Init_int8 bs; gvar_readonly := ro |} in
  exists t l, print_value sp nm id v = String """" t /\
    eventually (fun F => string_bytes F t = Some (l, "")) /\ filled (List.length bs) l = bs.
Proof.
  intros sp nm id ro a n bs P (c & G0 & D) B. cbv zeta.
  destruct (chopped bs) as (cs & E1 & E2 & E3). destruct (string_read cs (E3 _ B)) as (s & S1 & S2).
  exists (s ++ String """" ""), cs. split; [|split; [|exact E2]].
  - assert (SN : string_name (nm id) = true).
    { unfold string_name. rewrite P. cbn [andb]. revert G0. generalize (nm id). intros x G0.
      do 12 (destruct x as [|? x]; [discriminate G0|]). destruct x as [|d x]; [discriminate G0|].
      cbn in G0. injection G0 as ->. exact D. }
    assert (AI : all_int8 (List.map Init_int8 bs) = true) by (clear; induction bs; [reflexivity|assumption]).
    unfold print_value. cbn [gvar_info gvar_init is_scalar]. rewrite SN, AI, E1, S1. reflexivity.
  - exists (S (List.length cs)). intros F HF. apply S2. lia.
Qed.

Example C88_strings_example :
  String.prefix "__stringlit_" (gn 10) = true /\ String.get 12 (gn 10) = Some "1"%char /\
  (let bs := [72; 34; 92; 10; 55; 255; 0]%Z in
   print_value " " gn 10 {| gvar_info := Tarray (Tint I8 Signed noattr) 7 noattr; gvar_init := List.map Init_int8 bs; gvar_readonly := true |} =
     """H\042\134\0127\377""" /\
   string_bytes 20 "H\042\134\0127\377""" = Some ([72; 34; 92; 10; 55; 255]%Z, "")).
Proof. vm_compute. repeat split. Qed.

(** ** Where the file is not what was meant *)

(** one variable, as printed *)
Definition one_var (id : positive) (v : globvar) : string := print_globvar " " gn id v.

(** glue code gives the arity in a closure as a byte: C takes it for a word of the array,
    Clight makes the variable shorter than its type *)
Theorem C88_bytes_refuted : exists v i, gvar_info v = Tarray tval 2 noattr /\ gvar_init v = [Init_addrof 1 0; Init_int8 1] /\
  var_ok gn 2 v = true /\
  reads_unit (one_var 2 v) [XVar true "halt_clo" (ctype gn (gvar_info v)) i] /\
  c_image 8 0 (exprs i) = Some [(0, 8, CAdr "halt" 0); (8, 8, CNum 1)]%Z /\
  clight_image gn 0 (gvar_init v) = [(0, 8, CAdr "halt" 0); (8, 1, CNum 1)]%Z.
Proof.
  exists {| gvar_info := Tarray tval 2 noattr; gvar_init := [Init_addrof 1 0; Init_int8 1]; gvar_readonly := true |}.
  eexists. split; [reflexivity|]. split; [reflexivity|]. split; [reflexivity|]. split; [|split].
  - exists 40%nat. intros F HF. replace F with (40 + (F - 40))%nat by lia. vm_compute. reflexivity.
  - vm_compute. reflexivity.
  - vm_compute. reflexivity.
Qed.

(** space between initialisers is a comment for C: what follows moves up *)
Theorem C88_space_refuted : exists v i, gvar_init v = [Init_int64 1; Init_space 8; Init_int64 2] /\
  var_ok gn 2 v = true /\
  reads_unit (one_var 2 v) [XVar true "halt_clo" (ctype gn (gvar_info v)) i] /\
  c_image 8 0 (exprs i) = Some [(0, 8, CNum 1); (8, 8, CNum 2)]%Z /\
  clight_image gn 0 (gvar_init v) = [(0, 8, CNum 1); (16, 8, CNum 2)]%Z.
Proof.
  exists {| gvar_info := Tarray tval 3 noattr; gvar_init := [Init_int64 1; Init_space 8; Init_int64 2]; gvar_readonly := true |}.
  eexists. split; [reflexivity|]. split; [reflexivity|]. split; [|split].
  - exists 40%nat. intros F HF. replace F with (40 + (F - 40))%nat by lia. vm_compute. reflexivity.
  - vm_compute. reflexivity.
  - vm_compute. reflexivity.
Qed.

(** floats in initialisers get 15 digits, which two different doubles can share;
    infinities and NaN are names *)
Theorem C88_floats_refuted :
  (exists m e m' e', double m e /\ double m' e' /\ ~ (bin_value m' e' == bin_value m e)%Q /\
     forall sp nm, print_init sp nm (Init_float64 (S754_finite false m e)) = "0.3" /\
       print_init sp nm (Init_float64 (S754_finite false m' e')) = "0.3") /\
  (forall sp nm s, print_init sp nm (Init_float64 (S754_infinity s)) = (if s then "neg_infinity" else "infinity")) /\
  (forall sp nm, print_init sp nm (Init_float64 S754_nan) = "nan").
Proof.
  split; [|split; [intros sp nm []; reflexivity|reflexivity]].
  exists 5404319552844596%positive, (-54)%Z, 5404319552844595%positive, (-54)%Z.
  split; [vm_compute; auto|]. split; [vm_compute; auto|]. split; [intros H; vm_compute in H; discriminate H|].
  intros sp nm. split; vm_compute; reflexivity.
Qed.

(** a negative character of a literal is printed with 21 octal digits, of which C takes
    three *)
Theorem C88_negative_char_refuted : exists t, print_value " " gn 10
    {| gvar_info := Tarray (Tint I8 Signed noattr) 2 noattr; gvar_init := [Init_int8 (-1); Init_int8 0]; gvar_readonly := true |}
    = String """" t /\ t = "\777777777777777777777""" /\ forall F, string_bytes F t = None.
Proof.
  eexists. split; [vm_compute; reflexivity|]. split; [reflexivity|].
  intros [|F]; reflexivity.
Qed.

(** a file whose name begins with a digit has a guard that is no macro name *)
Theorem C88_digit_guard_refuted : exists dest, dest = "out/2adic.c" /\
  forall macros, include_file macros (print_file dest [] "int x;") = None.
Proof. exists "out/2adic.c". split; [reflexivity|]. intros macros. vm_compute. reflexivity. Qed.

(** different files with the same guard: the second one is lost *)
Theorem C88_same_guard_refuted : exists d1 d2, d1 = "a/glue.Foo.main.h" /\ d2 = "b/glue.Foo_main.h" /\
  forall b1 b2, no_char "#" b1 = true -> no_char "#" b2 = true ->
  exists macros k, include_file [] (print_file d1 [] b1) = Some (macros, k) /\
    unlines (text_of k) = b1 ++ nl ++ nl /\
    include_file macros (print_file d2 [] b2) = Some (macros, [KText ""]).
Proof.
  exists "a/glue.Foo.main.h", "b/glue.Foo_main.h". split; [reflexivity|]. split; [reflexivity|]. intros b1 b2 N1 N2.
  pose proof (guard_once "a/glue.Foo.main.h" [] b1 [] eq_refl eq_refl N1) as G1.
  change (guardify (last_part "a/glue.Foo.main.h" "")) with "GLUE_FOO_MAIN_H" in G1.
  pose proof (guard_once "b/glue.Foo_main.h" [] b2 ["GLUE_FOO_MAIN_H"] eq_refl eq_refl N2) as G2.
  change (guardify (last_part "b/glue.Foo_main.h" "")) with "GLUE_FOO_MAIN_H" in G2.
  eexists. eexists. split; [exact G1|]. split; [|exact G2]. destruct (text_map [] (lines b1)) as [T _]. rewrite T.
  assert (U : forall a, unlines (a ++ [""])%list = unlines a ++ nl).
  { induction a as [|x a IH]; [reflexivity|]. cbn [List.app unlines]. rewrite IH, sapp_assoc. reflexivity. }
  rewrite U, unlines_lines, sapp_assoc. reflexivity.
Qed.

(** the attributes of a composite come after its name, where C allows none *)
Theorem C88_composite_attributes_refuted : exists c, co_attr c = {| attr_volatile := false; attr_alignas := Some 4%N |} /\
  ident (gn (co_id c)) = true /\ decls_ok gn gn (co_members c) = true /\
  forall l, ~ reads_unit (print_program " " "" gn gt {| prog_types := [c]; prog_defs := [] |}) l.
Proof.
  exists {| co_id := 3; co_su := Struct; co_members := [(4%positive, tval)]; co_attr := {| attr_volatile := false; attr_alignas := Some 4%N |} |}.
  split; [reflexivity|]. split; [reflexivity|]. split; [reflexivity|].
  intros l [n H]. specialize (H (n + 40)%nat ltac:(lia)). rewrite Nat.add_comm in H. vm_compute in H. discriminate H.
Qed.

(** variables are not declared beforehand: a function that comes before a variable uses a
    name that C does not know yet *)
Theorem C88_late_variable_refuted : exists p f, prog_ok gn gt p = true /\
  List.map fst (prog_defs p) = [1; 2]%positive /\
  reads_unit (print_program " " "" gn gt p)
    [XDecl false false "halt" (ctype gn (Tfunction [] (Tint I32 Signed noattr) false false)); XFun f;
     XVar false "halt_clo" (ctype gn (Tint I32 Signed noattr)) (COne (CLit 1 ""))] /\
  cf_body f = [CReturn (Some (CVar "halt_clo"))].
Proof.
  exists {| prog_types := [];
     prog_defs := [(1, Gfun (Internal {| fn_return := Tint I32 Signed noattr; fn_vararg := false; fn_unproto := false; fn_params := [];
                                         fn_vars := []; fn_temps := []; fn_body := Sreturn (Some (Evar 2 (Tint I32 Signed noattr))) |}));
                   (2, Gvar {| gvar_info := Tint I32 Signed noattr; gvar_init := [Init_int32 1]; gvar_readonly := false |})] |}%positive.
  eexists. split; [reflexivity|]. split; [reflexivity|]. split.
  - exists 40%nat. intros F HF. replace F with (40 + (F - 40))%nat by lia. vm_compute. reflexivity.
  - reflexivity.
Qed.

Print Assumptions C88_program.
Print Assumptions C88_file.
Print Assumptions C88_layout.
Print Assumptions C88_strings.
Print Assumptions C88_bytes_refuted.
Print Assumptions C88_space_refuted.
Print Assumptions C88_floats_refuted.
Print Assumptions C88_negative_char_refuted.
Print Assumptions C88_digit_guard_refuted.
Print Assumptions C88_same_guard_refuted.
Print Assumptions C88_composite_attributes_refuted.
Print Assumptions C88_late_variable_refuted.
