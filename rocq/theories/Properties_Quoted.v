(** * Property C90: a quoted program gets the representation the compiled code expects

    Independent specification: [in_ocaml] and [in_compiled] of QF_Spec.v. *)
From Coq Require Import ZArith List Bool.
From Verif Require Import QF_Model QF_Spec QF_Proofs.
Import ListNotations.

(** a polymorphic inductive type with a constructor, a constant with a match, a sort in a
    type of a fixpoint, and an integer literal if [lit] *)
Definition sample (lit : bool) : program :=
  {| g_levels := I 7; g_constraints := I 8;
     g_decls :=
       [(I 20, Inductive_ (I 0) (I 1)
                 [{| cd_name := I 30; cd_body := None; cd_type := tSort (sType (I 40)) |}]
                 [{| i_name := I 21; i_indices := []; i_sort := sType (I 41); i_type := tSort sProp; i_kelim := I 0;
                     i_ctors := [{| k_name := I 22;
                                    k_args := [{| cd_name := I 23; cd_body := Some (tSort (sType (I 42))); cd_type := tSort sSProp |}];
                                    k_indices := [tSort (sType (I 43))]; k_type := tRel (I 0); k_arity := I 1 |}];
                     i_projs := [{| p_name := I 24; p_relevance := I 0; p_type := tSort (sType (I 44)) |}];
                     i_relevance := I 0 |}]
                 (Polymorphic (I 25) (I 45)) (I 0));
        (I 26, Constant (tProd (I 0) (tSort (sType (I 46))) (tRel (I 0)))
                 (Some (tCase (I 0) (I 0) [tSort (sType (I 47))] (I 0) (tSort sProp) (tRel (I 0)) [(I 0, tSort (sType (I 48)))]))
                 Monomorphic (I 0))];
     g_retro := I 9;
     g_main := tFix [(I 0, tSort (sType (I 49)), (if lit then tInt (I 5) else tRel (I 0)), I 0)] (I 0) |}.

(** certirocqc: for every program the surgery gives exactly the value the compiled compiler
    expects: every set is boxed, once, and nothing else changes *)
Theorem C90_compiler : forall p, fix_quoted_program true (in_ocaml p) = Some (in_compiled p).
Proof. intros p. rewrite program_ok, all_good_true. reflexivity. Qed.
Print Assumptions C90_compiler.

Example C90_compiler_example :
  fix_quoted_program true (in_ocaml (sample true)) = Some (in_compiled (sample true))
  /\ in_ocaml (sample true) <> in_compiled (sample true).
Proof. split; [vm_compute; reflexivity|vm_compute; discriminate]. Qed.

(** certirocqchk: the same for programs without primitive literals; every other program
    ends in Match_failure before the checker runs *)
Theorem C90_checker : forall p,
  fix_quoted_program false (in_ocaml p)
  = if forallb literal_free (program_terms p) then Some (in_compiled p) else None.
Proof. intros p. rewrite program_ok, all_good_false. reflexivity. Qed.
Print Assumptions C90_checker.

Example C90_checker_example :
  fix_quoted_program false (in_ocaml (sample false)) = Some (in_compiled (sample false))
  /\ forallb literal_free (program_terms (sample false)) = true.
Proof. split; vm_compute; reflexivity. Qed.

(** so the checker does not take every program (certirocqchk_plugin_wrapper.ml:64-87) *)
Theorem C90_checker_literals_refuted : exists p, fix_quoted_program false (in_ocaml p) = None.
Proof. exists (sample true). vm_compute. reflexivity. Qed.
Print Assumptions C90_checker_literals_refuted.
