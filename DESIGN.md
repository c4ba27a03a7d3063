# Design of the formal model

Subject: CertiCoq (the compiler in `theories/`, the C runtime in `runtime/`), read as text from /repo.

The model is Rocq/Coq 8.16.1 source in `rocq/theories` (logical name `Verif`).

## Method

- C code is modelled by total functions over machine words (integers modulo 2^64), memory is a total map from word addresses to words; undefined behaviour, aborts and exhausted fuel are distinct outcomes.
- Gallina code is transcribed definition by definition; finite maps and monads are replaced by stdlib maps (`PositiveMap`/functions) and explicit state passing.
- Each property has a small specification that does not use helpers of the model (`*_Spec.v`), a model (`*_Model.v`), proofs (`*_Proofs.v`) and a file with the property theorems only (`Properties_*.v`, each followed by `Print Assumptions`).
- Where the code violates the property the theorem is named `..._refuted` and gives a witness.
- Where only part is proved the theorem is named `..._partial` and its comment says what is missing.

## Trusted base

- Coq's kernel (and `vm_compute`, which is part of it).
- The axioms listed by `Print Assumptions` under each theorem (goal: none).
- The faithfulness of the transcription: every definition cites the file and lines it models and states its simplifications.
- Not modelled: MetaRocq erasure, the OCaml plugin, CompCert's C semantics and printing, the C compiler and libc/GMP internals, operating-system behaviour, Wasm engine internals.

## Code that violates its property

- `runtime/prim_int63.c` unsigned `leb`/`ltb` compare tagged words as signed (C10): wrong when the operands are in different halves of the range (`C10_leb_refuted`, `C10_ltb_refuted`).
- `runtime/prim_int63.c` `mods` and `asr` are wrong on negative operands (C11: `C11_mods_refuted`, `C11_asr_refuted`).
- `runtime/prim_int63.c` `addc` never reports a carry; `addcarryc`, `subc`, `subcarryc` compare as signed (C12: `C12_*_refuted`).
- `runtime/prim_int63.c` `mulc` loses a carry (C13: `C13_mulc_refuted`).
- `runtime/prim_int63.c` operations returning pairs write heap words without checking that there is room (C14: `C14_*_refuted`).
- `runtime/gc_stack.c` `forward_remset` drops the record of a cell of an old generation that points to a younger, non-nursery generation when the nursery is collected; a later collection leaves the cell dangling (C57: `C57_refuted`; concrete heap of three generations, one update, one allocation, two collections).
- `runtime/gc_stack.c` `garbage_collect_all` (hence `export_heap`) does not call `resume`: the program continues after the stale objects of the nursery (C58: `C58_refuted`).
- `theories/LambdaANF/state.v` `register_record_ctor_tag c i n` ignores `c` and `i`: the pattern that opens the state rebinds both names, so it registers the next free tag, which is then handed out again (C62: `C62_register_refuted`; the function has no caller).
- `runtime/prim_string.c` `prim_string_get` reads a signed `char`: every byte from 128 on comes out negative; reading past the end returns other memory instead of 0 (C15: `C15_get_refuted`, `C15_get_past_end_refuted`).
- `runtime/prim_string.c` `mk_ocaml_string` computes the header in 32 bits: a string of 2^25 bytes gets a header that says one word (C15: `C15_create_long_refuted`).
- `runtime/prim_string.c` `prim_string_max_length` is 1048575, Rocq's is 16777211 (C15: `C15_max_length_refuted`).
- `runtime/prim_string.c` `prim_string_make` and `prim_string_sub` use their tagged integer arguments as numbers: lengths, offsets and characters are 2n+1 instead of n (C16: `C16_make_refuted`, `C16_sub_refuted`).
- `runtime/prim_string.c` `prim_string_make`, `prim_string_sub`, `prim_string_cat` reserve and consume one word less than they write: with exactly that room they write past the limit (C14: `C14_string_*_refuted`), otherwise the next allocation overwrites the last word of the string (C16: `C16_cat_overlap_refuted`).
- `runtime/prim_string.c` `prim_string_cat` (and `prim_string_sub`) use their operands after a collection that does not know of them (C16: `C16_cat_moved_refuted`).
- `runtime/prim_string.c` `prim_string_compare` returns the null word on equal strings, untagged byte differences, and orders by length first (C16: `C16_compare_equal_refuted`, `C16_compare_length_refuted`).
- `runtime/get_ordinal.c` `get_unboxed_ordinal` tags its argument once more (`Val_long`) instead of untagging it: wrong for every ordinal (C21: `C21_unboxed_refuted`, `C21_unboxed_always`).
- `runtime/rocq_c_ffi.c` `string_of_coq_string` writes through the null pointer after reporting a failed `malloc` (C21: `C21_string_malloc_refuted`); the message functions stop at the first zero byte (C21: `C21_messages_refuted`).
- `runtime/certirocq_gmp.c` `mpz_of_value` reads a negative immediate as unsigned: pred of the smallest immediate, sub, mul, pow, the bitwise operations and the orders are wrong when a negative immediate is converted (C20: `C20_pred_refuted`, `C20_sub_refuted`, `C20_mul_refuted`, `C20_pow_refuted`, `C20_bits_refuted`, `C20_order_refuted`).
- `runtime/certirocq_gmp.c` `gmp_add` uses a number that was not initialised: `z_add` with a boxed operand or a negative sum, and `z_rem` with a boxed operand (which calls `gmp_add`) are undefined; a sum of immediates from 2^62 on wraps (C20: `C20_add_refuted`, `C20_add_uninitialised`, `C20_add_overflow`, `C20_rem_refuted`). `z_of_string` has the same fault (C20: `C20_of_string_refuted`).
- `runtime/certirocq_gmp.c` `z_neg` of the smallest immediate is itself; `z_abs` untags instead of tagging and returns an even word for negative immediates (C20: `C20_neg_refuted`, `C20_abs_refuted`).
- `runtime/certirocq_gmp.c` `z_div` rounds upwards on boxed numbers and truncates on immediates, wraps at -2^62 / -1, and is undefined on a zero divisor (C20: `C20_div_refuted`).
- `runtime/certirocq_gmp.c` `z_leq` on boxed numbers is equality; `z_max`/`z_min` return the first/second operand; `z_compare` returns constructors on immediates and a sign on boxed numbers (C20: `C20_leq_refuted`, `C20_max_min_refuted`, `C20_compare_refuted`).
- `runtime/certirocq_gmp.c` `allocate_function` does not advance the allocation pointer: successive blocks overlap (C20: `C20_allocator_refuted`).
- `runtime/prim_floats.c` `prim_float_compare` compares the two addresses instead of the doubles (C17: `C17_compare_refuted`).
- `runtime/prim_floats.c` `prim_float_of_uint63` reads the integer as signed: wrong from 2^62 on (C19: `C19_of_uint63_refuted`).
- `runtime/prim_floats.c` `prim_float_ldshiftexp` ignores its exponent and returns a pair block instead of a float (C19: `C19_ldshiftexp_refuted`).
- `runtime/prim_floats.c` `prim_float_frshiftexp` builds the pair without reserving its three words (C14: `C14_float_pair_refuted`).
- C34 `C34_injective_for_all_tables_refuted`, `C34_injective_on_built_tables_refuted`: the correctness theorems of the conversion to LambdaANF (LambdaBoxLocal_to_LambdaANF_toplevel.v:95-97, LambdaBoxLocal_to_LambdaANF_anf_toplevel.v:111-113) assume `dcon_to_tag_inj`, injectivity of `dcon_to_tag` for every table; it is false for every default tag, even on the tables the compiler builds, so those theorems are vacuous as stated. `C34_tags_distinct` (injectivity on declared constructors) is the provable replacement.
- C34 `C34_repeated_pack_refuted`: if one mutual pack occurs twice in the environment the later one wins for both.
- C40 `C40_primitive_clash_refuted`, `C40_body_clash_refuted`: the target name of a primitive and the body name are emitted as given and may coincide with a variable's C name or a reserved one.
- C40 `C40_identifier_characters_refuted`: only quotes and dots are replaced, so a Rocq name with other non-ASCII characters reaches the C file.
- C35 `C35_tags_refuted`, `C35_switch_refuted`: nothing bounds the number of boxed constructors of a datatype; with 258 of them two headers have the same tag byte (the switch has duplicate labels and takes the wrong branch) and constructor 251 onwards is not scanned by the collector.
- C36 `C36_literals_refuted`: a float literal takes two heap words and a string literal len/8 + 2, but `max_allocs` counts neither.
- C36 `C36_overflow_refuted`: consequently the program consisting of one float (string) literal, started with too few free words, writes past the end of the free area; no check is emitted.
- C38 `C38_too_many_refuted`: a function with more than 1024 arguments compiles and its calls write past `args`.
- C38 `C38_optimised_refuted`, `C38_optimised_error_refuted`: with `args_opt = true` (`remove_AppVars`) a store is omitted although an intervening call overwrote the slot, so the callee gets a wrong argument; other calls fail to compile.
- C63 `C63_main_tail_call_refuted`: a main expression ending in a tail call is compiled to a body that does not return the result.
- C65_proofs_and_literals_refuted: `fuel_sem.v` has no rule for `Prf_e`, `Prim_val_e` or the application of a proof (its `Prf_v` is commented out), although `expression.v` evaluates all three; so the theorem the A-normalisation proof starts from says nothing about programs that compute with erased proofs or literals.
- C48_sbst_open_refuted: `sbst` does not shift its substitute and captures variables when the substitute is open; evaluation only ever passes closed ones (C48_eval_closed).
- C49_prims_wf_refuted: `LambdaBoxLocal`'s invariant `exp_wf` (used as `TermWf` in `LambdaBoxLocal/toplevel.v`) has no rule for `Prim_e`, so the output of the translation violates it as soon as a primitive is used.
- C66_unused_global_refuted: the erased language evaluates globals on demand, the translation evaluates all of them before the program; a global without a value (for instance an absurd case on an erased proof, as obtained from an axiom) takes the value away from programs that do not use it.
- C50_shadowing_refuted: (not a defect) adding a definition with a name already in use changes the meaning of programs; C50_more_globals needs freshness, which well-formed environments have.
- C54_applied_proof_refuted: `eval_ProofApp_e` (expression.v:582-585) makes an applied proof evaluate to a proof, but `convert_anf` (and `cps_cvt`) turn a proof into a constructor, so the application is stuck in LambdaANF (a call through a non-function in C). The code's own environment semantics has no rule for this case (C65), so its proofs do not see it. The repository's correctness theorems for this phase moreover assume `dcon_to_tag_inj` for all tables (LambdaBoxLocal_to_LambdaANF_anf_correct.v:39-41), which C34_injective_for_all_tables_refuted shows false.
- `C51_many_constructors_refuted`: the glue tag reader takes the boxed ordinal from the low byte of the header (theories/Glue/glue.v:286-302, `& 255`), while constructor functions store `arity << 10 + ordinal` (glue.v:1086). For a type with 257 constructors with arguments the value built by constructor 256 reads back as 0. (From 1024 such constructors on the ordinal would also spill into the size field.)
- `C51_alloc_make_no_space_check_refuted`: `alloc_make_*` functions bump `tinfo->alloc` without comparing with `tinfo->limit` (glue.v:1105-1143): with two words left, `alloc_make_Coq_Init_Datatypes_prod_pair` writes past the nursery. The compiled code always reserves space first; callers from C have no documented way to.
- Glue code, not covered by theorems: `get_unboxed_ordinal`/`get_boxed_ordinal` are declared to return a machine word but called at type `unsigned int` and assigned with Sassign to a temporary (harmless when printed as C, stuck in Clight); `spine_to_args` returns None on type arguments that contain applications, so printers silently print nothing for such arguments (e.g. `list (list A)`).
- `C68_conservative_refuted`: with `inl_wrappers` off, the free-variable analysis decides whether a call is redirected from the variables collected so far (lambda_lifting.v:239-247), the pass itself from the variables in scope (lambda_lifting.v:434-441). For a call in a nested function the two can differ; the enclosing function is lifted, recorded as closed (`LGFun`), but uses a wrapper that captures a variable. Evaluation is still preserved (C67); the promise of a closed function is not.
- `C69_recorded_arity_refuted`: `add_functions` registers the new tag with `get_ftag (length xs)` although the lifted function takes `length xs + length args` arguments (lambda_lifting.v:134-156). The C back end recomputes its own table, so the wrong entry is not used for code generation there.
- `C70_parameter_bound_refuted`: `fundefs_max_params` (lambda_lifting.v:212-218) returns 0 for every bundle, because the accumulator is dropped at the end of the list; the space for lifted variables is therefore `max_args` whatever the functions already take. With 2 argument slots a function of two parameters is lifted to one of four.
- **C79** `convert_whole_exp` (LambdaBoxLocal_to_LambdaANF.v:380-388) makes `let fun f(k) := e' with k(x) := halt x in f(k)`: the name `k` is both a parameter of `f` and a function of the same bundle. So no program in continuation-passing style binds every name once (`C79_unique_bindings_refuted`), although all later passes are specified for programs that do. The value is not affected by this pass itself (`C79_preserves`).
- **C79/C80** The name bound twice (`C79_unique_bindings_refuted`) is harmless in the end: the first pass, the shrink reducer, always inlines the outermost call and what it leaves is what it would leave of a program with unique names (`twin_shrunk`, used in C80).
- **C81** `C81_stale_limit_refuted`: after a collection the code for continuation-passing style reloads `alloc` but not `limit` (LambdaANF_to_Clight.v:445-452, 701-719), and stores the old `limit` back into thread_info at the next call; runtime/gc.h promises `limit - alloc >= num_allocs`, not that `limit` stays. With a collector meeting the contract that moves the end of the free area the code writes outside it.
- **C81** `C81_main_case_refuted`: the main function does not declare the temporary for the result of `is_ptr`, so a main expression with a case analysis is compiled to code assigning an undeclared variable.
- **C81** `C81_letapp_refuted`: `Eletapp` is translated, but variables live after the call are not rooted and room is not checked again.
- **C81** `C81_float_literal_refuted`: a float literal is stored by assigning a double to an lvalue of type `void *` (line 782; the stack back end casts the pointer first, LambdaANF_to_Clight_stack.v:862). The obligation of `to_float` (line 765) is `Admitted`.
- **C81** (observation, not a theorem) The runtime directory has gc.h, whose `garbage_collect` takes a `fundef_info` array, but its only collector is gc_stack.c, whose `garbage_collect` takes thread_info alone; programs compiled with `-cps` include gc.h (plugin/certirocq.ml:481, 524; cplugin/certirocq.ml:623, 666), so nothing in the repository implements the collector their code calls. The comment in gc.h:94-98 gives the index of the last live slot as `fi[1]-2`; the generator writes `fi[1]` slots from `fi[2]`.
- **C83** `C83_reflects_suspensions_refuted`: forcing a term that is not a suspension is stuck for erased terms, but its translation is an application of a function and has a value. Such terms do not come out of erasure of well-typed programs; the converse of preservation is therefore stated without suspensions.
- **C84** `C84_double_minus_refuted`: `-` applied to a negative constant prints `--1`, which C reads as a decrement and rejects. The code generators do not produce this shape.
- **C84** `C84_callee_refuted`: a call whose function is a dereference prints `*f(x)`, which C reads as a dereference of the result. The code generators always cast the function, which is parenthesised.
- **C84** `C84_integral_floats_refuted`: floats with an integral value are printed without a point (`%.18g`), so `1.0 / 2.0` is read as `1 / 2`, a division of integers, and -0.0 as the integer 0. In the printed program such constants are converted when assigned or passed, but not inside an arithmetic expression.
- **C84** `C84_infinite_floats_refuted`: infinities and NaN are printed as the identifiers `inf` and `nan`.
- **C84** `C84_smallest_long_refuted`: the smallest 64-bit integer is printed as minus a constant that fits no signed type.
- **C84** `C84_function_type_names_refuted`, `C84_volatile_value_refuted`, `C84_labels_refuted`: a function type name is printed as a pointer to it; a volatile `value` loses its qualifier; case labels of 2^62 and more are printed modulo 2^63.
- **C84** `C84_of_int_refuted`: `P.of_int` in plugin/static/camlrocq.ml adds one to its argument, so `N.of_int`, `coqstring_of_camlstring` and the atoms made from strings are off by one. cplugin has the right definition, and no use of the wrong one outside that file was found.
- **C85** `C85_cyclic_order_refuted`: `find_reverse_mapping` (plugin/certirocq.ml:734-743) returns the position of a constructor number in the registered order, where it should return the number at that position. For an order that is not its own inverse (three constructors in a cycle) the term read back has the wrong constructor and is ill-typed. The order registered by default, `[1 0]` for bool, is its own inverse.
- **C85** `C85_dependent_parameter_refuted`: the types of later arguments are not instantiated with the earlier ones. If such a type has an earlier argument among its parameters, the term read back has an unbound variable.
- **C85** `C85_only_lets_refuted`: a constructor all of whose arguments are definitions is constant for the compiler but not for the reader (there is a FIXME in the code).
- **C85** `C85_proofs_refuted`: proofs are erased to the number 1, which is read as the first constant constructor of the proposition; the term is ill-typed.
- **C85** `C85_many_constructors_refuted`: the ordinal is the low byte of the header, so constructors 256 apart are confused.
- **C86** `C86_new_order_refuted`: the table of compiled programs is keyed by name only (plugin/certirocq.ml:923-928). Evaluate a constant that is `true`, register the order `[1 0]` for bool, evaluate again: the old code is run, its result is read with the new order, and the answer is `false`.
- **C86** `C86_same_file_refuted`: the tactic `certirocq_eval -file f` on two terms with the same file name answers the value of the first for the second; with different types the value is read at the wrong type.
- **C86** `C86_options_refuted`: options of a later evaluation of the same constant (Extract Constants, Include) are ignored.
- **C86** `C86_quote_refuted`: for a constant whose name has a quote the C function name has one too; the file does not compile. `C86_collision_refuted`: `A.b_c` and `A.b.c` get the same function name (they are in separate shared libraries).
- **C86** `C86_numbers_refuted`: a file name of nines only fails the assertion in `increment_subscript` at the second use; the empty name raises an index error.
- **C86** `C86_suffix_refuted`: with `-ext` the program is written to `name ^ ext ^ ".c"` and the driver to `name ^ ".c"`, which alone is compiled. `C86_cps_refuted`: with `-cps` the program includes gc.h but is linked with gc_stack.o.
- **C87** `C87_no_check_refuted`: the generated functions allocate six words (three for IO results) without comparing `alloc` with `limit` (theories/Glue/ffi.v:236-267). Compiled code guarantees room only for its own allocation, so a partial application near the end of the nursery writes past it.
- **C87** `C87_constant_refuted`: for a field that is no function and not in IO, one function is generated that takes an argument and passes it to the foreign function, which is declared without arguments; and the static closure stands for a value that is no function.
- **C87** `C87_direct_refuted`: in direct style the functions return void and leave the result in `args[1]` (ffi.v:278-281); code from LambdaANF_to_Clight_stack.v uses the value the C call returns.
- **C87** `C87_collecting_refuted`: the continuation (and for IO the world) is in a C variable during the call of the foreign function; if that collects garbage, the old address is used afterwards.
- **C87** `C87_names_refuted`: a field `f` with an argument and a field `f_1` give two definitions of the C name `f_1`.
- **C88** `C88_bytes_refuted`: theories/Glue/ffi.v:364 gives the arity in a closure as `Init_int8`. The printed array of values has a word there, the Clight variable a single byte, so it is 9 bytes long and its arity is read from beyond its end when the Clight program is what is compiled.
- **C88** `C88_space_refuted`: `Init_space` in the middle of an initialiser is printed as a comment; the initialisers after it move up.
- **C88** `C88_floats_refuted`: floats in initialisers are printed with `%.15F` (printCsyntax.ml:487-488): 0.3 and the next double give the same text; infinities and NaN give names (`neg_infinity`).
- **C88** `C88_negative_char_refuted`: a negative `Init_int8` in a string literal is printed with 21 octal digits.
- **C88** `C88_same_guard_refuted`: the guard is made from the last part of the path with punctuation replaced, so `a/glue.Foo.main.h` and `b/glue.Foo_main.h` have the same one: of two such headers the second is empty. `C88_digit_guard_refuted`: a file name that begins with a digit gives a guard that is no identifier.
- **C88** `C88_composite_attributes_refuted`: `struct s __attribute((aligned(16))) {` is not C (printCsyntax.ml:551-553). `C88_late_variable_refuted`: only functions are declared beforehand (printClight.ml:301-304), so a function using a variable that comes later in the program does not compile.
- **C89** `C89_raw_refuted`: copy_value tests only Is_long and ignores the tag (certirocqc_wrapper.c:18-31), so code pointers in closures and the contents of floats and strings with even words are dereferenced.
- **C89** `C89_shared_with_argument_refuted`: the result may contain parts of `prog` or `opts`, which are in OCaml's heap. They are registered with the collector, the words of the result that point to them are not, and neither is the parameter `v` (CAMLparam0 at line 15); after the first collection during the copy these words are stale.
- **C89** `C89_sharing_refuted`: sharing is lost, so the copy of a value with n blocks can take 2^n - 1 blocks.
- **C90** `C90_checker_literals_refuted`: fix_term of certirocqchk_plugin_wrapper.ml:64-87 has no cases for tInt, tFloat and tString, so checking any program with such a literal raises Match_failure.
- **C91** `C91_same_names_refuted`: freshen_fun looks the function's name up again (freshen.v:96), so functions of the same name in one bundle get the same new name.
- **C91** `C91_capture_refuted`: freshen_top does not check that the next variable is beyond the free variables (freshen.v:110-112).
- C93 (`C93_nat_min_refuted`): `nat_of_caml_int min_int` (caml_nat.ml:1-5) computes `i - 1` before it tests for a negative number; the subtraction overflows to `max_int`, and the loop builds the number 2^62 instead of 0.
- C94 (`C94_fuel_refuted`): a program with a literal has a value for `bstep_f` and `bstep_e`, but none for `bstep_fuel` with any fuel, since that relation has no rule for `Eprim_val` (nor for `Eprim`); the theorems of correctness, stated with `bstep_fuel`, say nothing about such programs.
- C94 (`C94_small_refuted`): the equivalence of small and big steps that eval.v:1640-1687 states and leaves open is false, because `step` has no rule for `Eletapp`.
- C94 (`C94_case_refuted`): the lemma `preord_exp_Ecase_red`, admitted in both proofs of correctness of the translation to LambdaANF, is false: nothing in it says that the branches belong to the type of the value. (Branches made by the translation do belong to it, so the lemma needs that as a hypothesis.)
- C95 (`C95_set_refuted`): the lemmas `sizeOf_env_set` and `sizeOf_env_set_lists` (size_cps.v:259-288, left open with the comment "Obvious but seems painful") are false when the name was bound to a larger value. Nothing in the code uses them.
- C95 (`C95_count_refuted`): `num_fundefs_in_exp` ("Number of function definitions in an expression") counts each projection and each case expression, and a block of two functions once. Nothing outside size_cps.v uses it.
- C96 (`C96_separate_refuted`): the lemma `Commutes_implies_SepCompSemPreserving` (Pipeline_utils.v:333-374, left open) is false. `Commutes` says something only about sources whose result is the same in all states, so a pass that takes fresh names from the state meets it, and two programs compiled apart from the same state get the same names.
- C96 (`C96_link_refuted`, `C96_commutes_refuted`): `LinkableCorrect_compose` and `Compositional_compose` (Pipeline_utils.v:412-474, left open) are false for the same reason. All three hold for passes whose result does not depend on the state.
- C96 (`C96_concretize_refuted`): the lemma `triple_concretize_read` (compM.v:492-506, left open) is false already for `ret tt`, since the final state depends on the first.
- Not modelled: `metarocq_guard_impl` (bootstrap/certirocqc/print.c:54, bootstrap/certirocqchk/print.c:54) returns true for all arguments, so the bootstrapped programs accept every fixpoint as guarded. The guard condition itself is not part of this repository.
- C97 (`C97_closed_axiom_refuted`, `C97_size_axiom_refuted`, `C97_related_axiom_refuted`): the axioms `prims_closed_fundefs` (logical_relations_cc.v:1805-1810), `primAxiom` (closure_conversion_correct.v:618-622), `Prim_axiom` (logical_relations.v:1076-1084) and `Prim_axiom_cc` (logical_relations_cc.v:998-1006) are false for some tables of primitive operations. They are declared in sections whose table `pr` is a section variable, so after the section they are stated for all tables, and a file that imports them can prove False. By reading, their uses are in commented-out text or in lemmas left open, so no finished theorem depends on them now. `Prim_axiom` is refuted for the simplified relation of `ANF_LR.v`, which like `preord_val` relates functions that are not defined in their block; `Prim_axiom_cc` for every relation that relates a function to a constructor, as `cc_approx_val` (logical_relations_cc.v:60-92) does for such a function and a closure record. That relation itself is not modelled.
- Not modelled: the axiom `assume_wellformed_inductives_mapping` (LambdaBoxMut/compile.v:445) says that every mapping of inductive types is well-formed, and `compile_program` uses it. Well-formedness is defined outside this repository.
- C98 (`C98_open_refuted`): `sbst_list` is not simultaneous substitution for open terms, since `sbst` does not shift and the variables of a term put in first are substituted again. Evaluation of closed programs substitutes closed terms only.
- C99 (`C99_block_refuted`): `subterm_fds_e` (cps_util.v:597-601) does not hold between a block and the body of one of its functions, only for proper subterms of the bodies, unlike `dsubterm_fds_e` before it. `C99_block` says exactly what it holds for.

## Per property: what is modelled and how it is proved

- **C01 Tagged integers round-trip and are never mistaken for pointers** — *proved*. `RT_Word` models C words as integers modulo 2^64 with the signed view; `RT_Values` transcribes the macros of values.h; proofs by linear arithmetic with div/mod.
  Macros of runtime/values.h on 64-bit words. Theorems: `C01_roundtrip`, `C01_range`, `C01_immediate`, `C01_injective`, `C01_every_immediate`.
- **C02 Block headers decode to what was encoded** — *proved*. Headers as words, `Wosize_hd`/`Tag_hd` by shift/mask; proofs via `Z.land`/`Z.shiftr` to mod/div.
  Header macros of runtime/values.h and No_scan of gc_stack.h. Theorems: `C02_size`, `C02_tag`, `C02_scan_depends_on_tag`, `C02_bound_sharp`.
- **C03 A collection keeps the reachable object graph** — *proved*. `GC_Model`: word-addressed memory as a total map from addresses to words with distinct outcome for undefined behaviour; `forward`, `forward_roots`, `do_scan`, `do_generation` transcribed as total functions (fuel on loops, running out is a distinct error). Proof: Cheney invariant with a ghost forwarding map; the final theorem is about an independent definition of reachability and isomorphism.
  One generation into the next for every heap with remembered cells (C03_generation); whole collections in every state of every run without field updates (C03_run). Depth-0 forwarding as compiled (DEPTH = 0). Theorems: `C03_generation`, `C03_run`.
- **C04 A collection never writes outside the destination space** — *proved*. Same invariant; bound on copied words by injectivity of the forwarding map into disjoint source objects; frame property on memory.
  Includes remembered cells and their re-recording in the destination. Theorems: `C04_no_overflow`.
- **C05 After garbage collection the mutator gets the room it asked for** — *proved*. `GC_Heap`: theorem on the loop of `garbage_collect` for every heap satisfying the invariant; `GC_Mutator`: the invariant holds in every state of every run from `make_tinfo`.
  Every state of every run without field updates; with updates for collections that stop at the nursery. C03_run also says when the collector aborts: request larger than the nursery, malloc failure, or all 43 generations in use. Theorems: `C05_room`, `C03_run`, `C07_minor_partial`.
- **C06 The generation-size discipline is maintained** — *proved*. Part of the invariant of `GC_Heap`/`GC_Mutator`; induction over the collection loop and over arbitrary histories of allocations, root stores, frame pushes/pops and collections.
  Every state of every run of allocations, root stores, frame pushes/pops and collections. (Not preserved by garbage_collect_all, see C58.) Theorems: `C06_discipline`.
- **C07 Mutable updates keep old-to-young pointers visible to the collector** — *partial*. Remembered set as the list of words above `limit`; `GC_Modify`/`GC_Update`: invariant `mshape` over runs made of allocations, root stores, frame pushes and pops, updates through `certirocq_modify`, and collections that stop at the nursery.
  Runs with updates whose collections stop at the nursery. Missing: collections that go further, for which the code is wrong (C57). Theorems: `C07_recorded`, `C07_minor_partial`.
- **C08 Exporting a value yields a self-contained copy** — *proved*. `garbage_collect_all`/`export_heap` on the same memory model, composition of C03.
  From every state of the invariant kept by runs without field updates; the two arrays are obtained from malloc. Theorems: `C08_export`.
- **C09 C runtime: primitive 63-bit integer arithmetic equals Rocq's** — *proved*. Operation by operation: transcription on 64-bit words with C's wrap-around, compared with an independent Z specification of Uint63.
  Functions of runtime/prim_int63.c. The uint63_* theorems say that the specification is the one of Rocq's Uint63; only they use the axioms of the standard library's Uint63. Theorems: `C09_add`, `C09_sub`, `C09_mul`, `C09_div`, `C09_mod`, `C09_land`, `C09_lor`, `C09_lxor`, `C09_lsl`, `C09_lsr`, `C09_eqb`, `C09_compare`, `uint63_add`, `uint63_sub`, `uint63_mul`, `uint63_div`, `uint63_mod`, `uint63_land`, `uint63_lor`, `uint63_lxor`, `uint63_lsl`, `uint63_lsr`, `uint63_eqb`, `uint63_compare`.
- **C10 C runtime: primitive 63-bit order tests equal Rocq's** — *partial*. As C09. The code compares tagged signed words, so a refutation with witness plus the correct statement on the half range is expected.
  The code violates the property: it compares the words as signed. Exact characterisation proved: the answer is right iff both operands are in the same half of the range. Theorems: `C10_leb_exact_partial`, `C10_leb_refuted`, `C10_ltb_exact_partial`, `C10_ltb_refuted`, `uint63_ltb`, `uint63_leb`.
- **C11 C runtime: signed primitive integer operations equal Rocq's** — *partial*. As C09 (refutations expected for negative operands).
  divs and the signed comparisons are right for all operands. mods and asr violate the property on negative operands (exact characterisation for asr, unsigned remainder for mods). Theorems: `C11_divs`, `C11_lesb`, `C11_ltsb`, `C11_compares`, `C11_mods_partial`, `C11_mods_unsigned`, `C11_mods_refuted`, `C11_asr_exact_partial`, `C11_asr_refuted`, `sint63_signed`, `sint63_asr`, `sint63_mods`, `sint63_divs`.
- **C12 C runtime: carry operations equal Rocq's** — *partial*. As C09 (refutations expected).
  The code violates the property: addc never reports a carry, addcarryc and the subtractions compare words as signed. The *_flag theorems give what is returned. Theorems: `C12_addc_partial`, `C12_addc_flag`, `C12_addc_refuted`, `C12_addcarryc_partial`, `C12_addcarryc_flag`, `C12_addcarryc_refuted`, `C12_subc_partial`, `C12_subc_flag`, `C12_subc_refuted`, `C12_subcarryc_partial`, `C12_subcarryc_flag`, `C12_subcarryc_refuted`, `uint63_addc`, `uint63_addcarryc`, `uint63_subc`, `uint63_subcarryc`.
- **C13 C runtime: double-width integer operations equal Rocq's** — *partial*. As C09; loops of diveucl_21, head0, tail0 by invariant over the iteration count.
  All but mulc proved for all operands; mulc loses a carry on an exactly characterised set of operands (refuted with a witness). Theorems: `C13_mulc_exact_partial`, `C13_mulc_refuted`, `C13_diveucl`, `C13_diveucl_21`, `C13_addmuldiv`, `C13_head0`, `C13_tail0`, `uint63_mulc`, `uint63_diveucl`, `uint63_diveucl_21`, `uint63_addmuldiv`, `uint63_head0`, `uint63_tail0`.
- **C14 C runtime primitives reserve the heap words they write** — *partial*. Allocation model: (alloc, limit) pointers, each primitive's check and the words it writes; a write outside the area is undefined behaviour.
  Integer primitives: carry operations check the room; operations returning pairs do not (refuted). mk_ocaml_string checks; string make, sub and cat ask for one word too few (refuted for every operand). Float primitives returning floats reserve their words; frshiftexp does not reserve the pair (refuted). Theorems: `C14_mulc_refuted`, `C14_diveucl_refuted`, `C14_diveucl_21_refuted`, `C14_pair_partial`, `C12_addc_flag`, `C12_addcarryc_flag`, `C12_subc_flag`, `C12_subcarryc_flag`, `C14_string_make_refuted`, `C14_string_sub_refuted`, `C14_string_cat_refuted`, `C15_create_partial`, `C14_float`, `C14_float_pair_refuted`.
- **C15 Runtime strings know their length and contents** — *partial*. `RT_String`: byte-addressed memory in which an address may hold nothing; the loops transcribed byte by byte. `RT_StringSpec` gives the layout as one list of bytes (header, contents, padding, padding count) and the operations on byte lists. Proofs by a `wrote` relation (these bytes written, everything else unchanged).
  Length: proved for every string. Creation: proved below 2^25-8 bytes, header truncated at 2^25 (refuted); a C string cannot have zero bytes, literals with zero bytes are C39. Reading: proved for bytes below 128 inside the string; refuted for every byte from 128 on and past the end. Theorems: `C15_create_partial`, `C15_create_long_refuted`, `C15_length`, `C15_get_partial`, `C15_get_refuted`, `C15_get_past_end_refuted`, `C15_max_length_refuted`.
- **C16 Runtime string make / sub / cat compute the specified strings** — *partial*. As C15: exact characterisation of what make, sub and cat write, and from it the refutations, for all operands.
  Refuted: make and sub use tagged integers as they are (never the specified string), cat leaves the free area inside its result and does not keep its operands alive, compare returns no constructor on equal strings. Proved: the bytes written by cat when there is a spare word. Theorems: `C16_cat_partial`, `C16_cat_overlap_refuted`, `C16_cat_moved_refuted`, `C16_make_refuted`, `C16_sub_refuted`, `C16_compare_equal_refuted`, `C16_compare_length_refuted`.
- **C17 Runtime float comparison follows IEEE** — *partial*. `RT_Float.v`: a double is its 64-bit pattern, the C operators compare the numbers the patterns stand for (integers in units of 2^-1074). `RT_FloatSpec.v` decodes patterns to Rocq's `SpecFloat`. `RT_FloatProofs.v` proves that magnitudes order as patterns and that `SFcompare` is the comparison of the numbers; the primitives follow by cases on the fields.
  eqb, ltb, leb, equal, classify, abs and opp proved for every pair of doubles at every address; compare compares addresses (refuted). The C comparison operators are trusted to compare the numbers. Theorems: `C17_order`, `C17_classify`, `C17_equal`, `C17_compare_refuted`, `C17_sign`.
- **C18 Runtime float successor and predecessor** — *proved*. `next_up`/`next_down` are shown to move an order-preserving integer key by one; least/greatest follows from the order proof of C17.
  Every pattern, least/greatest double in the order of SpecFloat. Theorems: `C18_next_up`, `C18_next_down`, `C18_prim`.
- **C19 Runtime float conversions** — *partial*. `frexp` at pattern level proved equal to `SFfrexp` (normalising subnormals), `ldexp` exact; the integer conversion is any function that rounds as `binary_normalize`.
  normfr_mantissa proved; frshiftexp proved when five words are free (it does not reserve them, C14); of_uint63 proved below 2^62 and refuted above; ldshiftexp ignores the exponent and returns a pair (refuted). Theorems: `C19_of_uint63_partial`, `C19_of_uint63_refuted`, `C19_normfr_mantissa`, `C19_frshiftexp_partial`, `C19_ldshiftexp_refuted`.
- **C20 Unbounded-integer runtime operations compute integer arithmetic** — *partial*. `RT_Gmp.v`: a value is an immediate word or a boxed GMP number; GMP functions are the integer functions of its manual (trusted), a number without `mpz_init` is `None` and using it is UB, `mpz_cmp` is any function with the documented sign. `Properties_Gmp.v` relates values to integers (`means`) and proves or refutes each operation; the block and the GMP allocator run on the word memory of C14.
  Exact on every integer: succ, lognot, nat_pred and nat_case on naturals, the constants. Every other operation is exact only on the operands named in its theorem and refuted on others; z_to_string (printf) is not modelled; the GMP library is trusted. Theorems: `C20_constants`, `C20_succ`, `C20_pred_partial`, `C20_pred_refuted`, `C20_nat_pred`, `C20_nat_case`, `C20_neg_partial`, `C20_neg_refuted`, `C20_abs_partial`, `C20_abs_refuted`, `C20_add_partial`, `C20_add_overflow`, `C20_add_uninitialised`, `C20_add_refuted`, `C20_sub_partial`, `C20_sub_refuted`, `C20_mul_partial`, `C20_mul_refuted`, `C20_div_partial`, `C20_div_refuted`, `C20_rem_partial`, `C20_rem_refuted`, `C20_pow_partial`, `C20_pow_refuted`, `C20_bits_partial`, `C20_bits_refuted`, `C20_lognot`, `C20_order_partial`, `C20_order_refuted`, `C20_leq_partial`, `C20_leq_refuted`, `C20_max_min_partial`, `C20_max_min_refuted`, `C20_compare_partial`, `C20_compare_refuted`, `C20_of_int`, `C20_of_string_refuted`, `C20_block`, `C20_allocator_refuted`.
- **C21 Foreign-function helpers recover constructors and arguments** — *partial*. `RT_FFI.v`: loops with fuel over a partial word memory, a malloc'ed buffer with bounds. `is_coq_string` is an inductive description of the heap; the loops are proved by induction on it.
  Length and characters proved for every string when malloc succeeds, boxed ordinal proved; the unboxed ordinal is wrong for every ordinal (refuted), a failed malloc is written through (refuted), messages stop at a zero byte (refuted). Theorems: `C21_length`, `C21_string_partial`, `C21_string_malloc_refuted`, `C21_messages_partial`, `C21_messages_refuted`, `C21_boxed`, `C21_unboxed_always`, `C21_unboxed_refuted`.
- **C22 Evaluation of the intermediate language is deterministic** — *proved*. `ANF_Syntax`, `ANF_Sem`: syntax and fuel big-step semantics transcribed; induction on fuel / derivations.
  Big-step semantics of theories/LambdaANF/eval.v with nat fuel (one unit per step), trace omitted; agreement with an independent interpreter. Theorems: `C22_deterministic`, `C22_interpreter`.
- **C23 Evaluation depends only on free variables** — *proved*. Induction on derivations with an environment-agreement relation on values (closures agree up to environment agreement).
  Environments that agree on the free variables up to the observational relation on values; equality of results when the values agree exactly or are data. Theorems: `C23_free_variables`, `C23_up_to_observation`.
- **C24 The free-variable computation is exact** — *proved*. Mutual induction over expressions, inductive `occurs_free` as independent specification.
  exp_fv/fundefs_fv of theories/LambdaANF/cps_util.v and identifiers.v against occurs-free. Theorems: `C24_exact`.
- **C25 Fresh names are fresh** — *proved*. State-monad model of name generation; induction over request sequences.
  Any sequence of requests to the compilation state of theories/LambdaANF/state.v, from the state the pipeline starts in; max_var exact; the inliner, which restarts the counter, separately. Theorems: `C25_max_var`, `C25_requests`, `C25_tags`, `C25_initial`, `C25_prims`, `C25_make_ftag`, `C25_inline_names`.
- **C26 Hoisting produces a flat program with the same functions** — *proved*. Transcription of the continuation-passing erase functions; relation to a declarative collection of functions.
  exp_hoist of theories/LambdaANF/hoisting.v for every program; also the reported number is the nesting depth. Theorems: `C26_hoist_flat`.
- **C27 Hoisting preserves evaluation** — *proved*. Simulation between original and hoisted evaluation.
  For every program meeting the precondition of the pass and every environment: results (equal on data, related functions otherwise) and divergence are preserved, with bounds on the fuel; converse for programs that are not stuck. Theorems: `C27_hoist_preserves`.
- **C28 Closure conversion closes every function** — *proved*. `CC_Model.v` transcribes the pass with explicit state (next variable, next tags, constructor table); `CC_Spec.v` states corresponding results, known closed functions and the condition on programs; `CC_Proofs.v` proves a forward simulation with a relation between functions and closures that recalls the state in which the function was converted; `CC_Scope.v` counts binders and bounds free variables; `CC_Top.v` treats bundles, tables and the whole pass; `Properties_Closure.v` composes with hoisting (C27).
  Closedness, names and no new free variables for every program; unique binding, legality of hoisting, evaluation and tables for programs whose names are unique and below the next fresh name (C28_unique_needed shows the first is necessary) and a closure tag that is not yet in the constructor table. Results are the same up to functions becoming two-field closures; data is unchanged. Free variables of the program may hold data only. The names recorded for printing are not modelled. Theorems: `C28_functions_closed`, `C28_functions_kept`, `C28_no_new_free`, `C28_unique`, `C28_hoistable`, `C28_preserves`, `C28_tables`, `C28_then_hoist`.
- **C29 Dead-parameter elimination preserves evaluation** — *proved*. Transcription of the analysis and the transformation; simulation with a relation between argument lists and values.
  For every program of the form the pass accepts: results are preserved (equal on data, related functions otherwise), with the same fuel, and divergence. Theorems: `C29_dpe_preserves`.
- **C30 Dead-parameter analysis reaches a sound fixpoint** — *proved*. Fixpoint characterisation of find_live.
  The masks computed by the analysis of dead_param_elim.v are a fixpoint satisfying an independent definition of good masks, mark every escaping function as keeping everything, and are the least such masks. Theorems: `C30_analysis`.
- **C31 Inlining a call in the middle of a program preserves its meaning** — *proved*. `Inline_LetProofs`: the context runs the body and stops in an environment binding the result; then alpha-equivalence (`ANF_Alpha`) for what follows.
  inline_letapp of theories/LambdaANF/inline_letapp.v followed by renaming the bound variable in what follows, for every body it accepts (exactly those ending without branching) and every continuation. Theorems: `C31_inline_letapp`.
- **C32 Renaming variables commutes with evaluation** — *proved*. `ANF_Alpha`: alpha-equivalence through a relation on names, sound for evaluation with equal step counts; renaming is an instance.
  rename_all and rename_all_ns of theories/LambdaANF/rename.v; both directions, same number of steps. Theorems: `C32_rename`.
- **C33 The census counts occurrences** — *proved*. `Shrink_Census.v` models the census functions and `precontractfun`; the specification is the list of uses of a program (`uses`) and `count_occ`. One generic lemma shows that `update_census` iterates its step as often as the variable is used; each reduction is then arithmetic on counts in an arbitrary context.
  Census, increment and decrement for every program, renaming and context; every update the shrink reducer makes (dead binding, dead functions of a bundle, known case, known projection, inlining of a function called once in tail and in let position) turns the census of the program into the census of the reduced program. The reducer itself (contract) is not modelled. Theorems: `C33_init`, `C33_delta`, `C33_delete_constr`, `C33_delete_proj`, `C33_fold_case`, `C33_dead_functions`, `C33_fold_proj`, `C33_inline`, `C33_letapp`.
- **C34 Constructor layout is unambiguous** — *proved*. `Layout_Model.v` models `convert_cnstrs`, `convert_typack`, `convert_env`, `dcon_to_tag`; specification `declared`, `rank` in `Layout_Proofs.v`. The proof shows that the k-th type processed receives the k-th datatype tag and a consecutive range of constructor tags (invariant `inv` over the processed prefix).
  Every declared constructor gets its arity, its rank among the constructors of its kind, a datatype tag listing the constructors in order; tags and datatype tags are globally distinct, above the reserved ones and below the counters handed on. Holds when no pack is declared twice (refuted otherwise). The injectivity assumption the repository makes about dcon_to_tag is refuted. Theorems: `C34_layout`, `C34_unambiguous`, `C34_consecutive`, `C34_tags_distinct`, `C34_default`, `C34_repeated_pack_refuted`, `C34_injective_for_all_tables_refuted`, `C34_injective_on_built_tables_refuted`.
- **C35 C back end: runtime tags distinguish constructors and are scanned by the collector** — *partial*. `CG_Model.v` (`make_ctor_rep`, `makeTagZ`, `make_case_switch`), conditions `cenv_ok` in `CG_Spec.v`; `CG_Layout.v` shows that the tables of C34 meet them.
  For tables with at most 251 boxed constructors per datatype (ordinals below 251) the emitted immediates/headers are distinct, scanned by the collector, have the right size and do not overflow, and the emitted switch takes the branch of the constructor built; the tables the compiler builds satisfy the conditions. Nothing in the compiler checks the bound: refuted for a datatype with 258 constructors. Theorems: `C35_tags_distinct_partial`, `C35_built_tables_partial`, `C35_switch_partial`, `C35_tags_refuted`, `C35_switch_refuted`.
- **C36 C back end: each function reserves all the words it allocates before the next check** — *partial*. `max_allocs` in `CG_Model.v` against the inductive `words` (all paths to the next check).
  max_allocs is at least the number of words written on every path up to the next check, for programs without boxed literals. Refuted with float and string literals, whose words are not counted; the compiled program then writes past the free area (C36_overflow_refuted). Theorems: `C36_reserved_partial`, `C36_literals_refuted`, `C36_overflow_refuted`.
- **C37 C back end: every variable needed after a call is saved as a root** — *proved*. Statements emitted by `translate_body` around a call, run with the Clight semantics of `CG_Clight.v`, for an arbitrary call behaviour.
  For every call with a non-empty set of live variables: each live variable is in the frame when the call happens and is reloaded from its slot afterwards, whatever the call does to the frame contents. Theorems: `C37_saved_and_reloaded`.
- **C38 C back end: arguments arrive at the parameters** — *partial*. Caller-side stores and callee-side loads as emitted, run with `CG_Clight.v`; meaning of a variable `means`.
  For args_opt = false (the only value the pipeline uses) and at most 1024 arguments every argument arrives at its parameter. Refuted for more arguments (writes past the array) and for args_opt = true (stale slots; also spurious compile failures). Theorems: `C38_arguments_partial`, `C38_too_many_refuted`, `C38_optimised_refuted`, `C38_optimised_error_refuted`.
- **C39 C back end: string literals have the runtime string layout** — *proved*. `encode_list` and `compile_string` run on the memory of C15; the bytes of the words are the body of the string, by induction eight bytes at a time.
  Every byte sequence, zero bytes included. Theorems: `C39_literal`, `C39_literal_length`, `C39_words`.
- **C40 C back end: emitted C names are unique** — *partial*. `Names_Model.v` models `add_binders_exp`, `update_name_env_fun_info`, `ensure_unique`, `add_inf_vars`, `add_prim_names` and the printer's renaming; the number after the last underscore determines the variable.
  Variables, information records and reserved identifiers have pairwise distinct C names for every name environment; together with the two user-chosen kinds of names (body name, targets of primitives) only when those are well chosen, which nothing checks: refuted otherwise. Emitted names consist of identifier characters only for names made of such characters, quotes and dots (partial, refuted in general). Theorems: `C40_variables_distinct`, `C40_binders_named`, `C40_reserved_distinct`, `C40_reserved_named`, `C40_all_distinct`, `C40_info_names`, `C40_primitive_clash_refuted`, `C40_body_clash_refuted`, `C40_identifier_characters_refuted`, `C40_identifier_characters_partial`.
- **C41 Wasm back end: primitive 63-bit integer operations equal Rocq's** — *proved*. `WA_Model.v` models the instruction sequences of `LambdaANF_to_Wasm_primitives.v`; `WA_Wasm.v` is the machine; `WA_Spec.v` states the operations (`prim_rel`) and the representation (`res_at`); one lemma per operation in `WA_Prim.v` over the arithmetic of `WA_Arith.v`.
  All 24 operations, for all operands, memories, stacks and scratch globals; every operation is translated when given its number of arguments. Theorems: `C41_primitives`, `C41_all_translated`.
- **C42 Wasm back end: allocation never writes outside linear memory** — *proved*. `grow_memory_if_necessary` run by the machine for arbitrary state (`C42_check`); whole programs by the simulation of C64.
  The growth check leaves room for any object up to a page or returns with the flag set and memory unchanged; since a store outside memory traps (C42_access_outside_traps), the whole-program theorem "never traps" covers every store of every program that does not get stuck, for every behaviour of the host. Theorems: `C42_check`, `C42_never_traps`, `C42_access_outside_traps`.
- **C43 Wasm back end: the restriction check is sound** — *proved*. `check_restrictions` against the inductive `subexp` and the bounds `within`.
  The check accepts exactly the programs all of whose subexpressions are within the bounds, and the bounds imply what the generated code needs (types exist, objects fit a page, encodings fit an i32). Theorems: `C43_check_exact`, `C43_check_sound`.
- **C44 Wasm back end: case analysis takes the right branch** — *proved*. Machine run of `create_case_nested_if_chain` on words that represent constructor values (`wrep`).
  For constructor tables whose ordinals are distinct per type and kind (as C34 shows for the tables the compiler builds): the code of a case behaves as the code of the right branch, and traps if there is none. Theorems: `C44_case`.
- **C45 Wasm back end: variables and functions get distinct indices** — *proved*. `create_var_mapping` and an inductive range check on all emitted instructions (`in_range`).
   Theorems: `C45_locals_distinct`, `C45_indices_in_range`, `C45_functions_distinct`.
- **C46 Wasm back end: export names are unique** — *proved*. `unique_export_names` with the fixed export names; decimal printing is injective.
   Theorems: `C46_export_names_unique`.
- **C47 De Bruijn evaluation is deterministic and its interpreter is exact** — *proved*. `LB_Model.v` transcribes the language, `eval` and `eval_n`; `LB_EvalProofs.v` proves determinism, monotonicity, soundness and completeness by mutual induction.
  For all terms, closed or not, and all fuels. The interpreter is modelled with an option where the code has an exception monad; its error messages are not modelled. Theorems: `C47_eval_deterministic`, `C47_interpreter_exact`, `C47_interpreter_monotone`, `C47_interpreter_coherent`, `C47_lists`.
- **C48 Substitution preserves scoping** — *proved*. `LB_Spec.v` defines occurrence of an outer variable and shape independently of shifting; `LB_Proofs.v` characterises the variables of shifted and substituted terms exactly and proves the commutation laws.
  The shifting substitution for all well-scoped substitutes; the non-shifting one, which evaluation uses, for closed substitutes, where it is the same function (C48_sbst_open_refuted shows that closedness is needed). Theorems: `C48_wf_is_scoping`, `C48_shift_variables`, `C48_subst_variables`, `C48_subst_wf`, `C48_shift_wf`, `C48_sbst_is_subst`, `C48_sbst_open_refuted`, `C48_eval_closed`, `C48_eval_no_outer_variables`, `C48_answers_are_values`, `C48_values_evaluate`, `C48_value_test`, `C48_maxFree`, `C48_shift_shift`, `C48_shift_subst`, `C48_subst_shifted`, `C48_subst_subst`.
- **C49 Global environments translate to scoped lets** — *partial*. `LM_Model.v` transcribes the erased language and the translation; `LM_Spec.v` states scoping of terms and environments; `LM_TransProofs.v` computes the free variables of the translated term and the position of each definition.
  Closedness and index exactness for all environments and primitive tables; the invariant exp_wf for programs without primitives, and refuted for programs with primitives. Theorems: `C49_closed`, `C49_well_formed`, `C49_index`, `C49_constant`, `C49_prims_wf_refuted`.
- **C50 The executable evaluator of the erased language is sound and complete** — *proved*. `LM_Model.v` transcribes `WcbvEval` and `wcbvEval`; `LM_Proofs.v` proves determinism, soundness, completeness, monotonicity, the shape of values, preservation of well-formedness and invariance under fresh definitions.
  For all environments, terms and timers, including the half the code leaves admitted. The exception monad is an option: error messages are not modelled. Theorems: `C50_single_valued`, `C50_sound`, `C50_complete`, `C50_monotone`, `C50_lists`, `C50_no_value_no_answer`, `C50_values`, `C50_preserves_wf`, `C50_more_globals`, `C50_shadowing_refuted`.
- **C51 Glue code recovers constructor indices** — *partial*. `GL_Model.v` generates the functions of the glue file as C code in the language of `CG_Clight.v`, with the numbering of identifiers of the generator; `GL_Spec.v` says what a built value looks like and what a call may change; `GL_Proofs.v` runs each function, and shows that the file binds every name once, so that each name means the function intended. Printers are not modelled; they only shift the numbering (parameter `np`, any value).
  Every type, constructor and number of C arguments, both styles, any program the file is linked into. The round trip holds for types with at most 256 constructors with arguments and is refuted beyond (C51_many_constructors_refuted); the allocating constructor functions also never check for space (C51_alloc_make_no_space_check_refuted). The tag reader is also shown right for every value a compiled program builds with the table of C34, and the words the constructor functions return are shown to denote the values of a compiled program. Theorems: `C51_get_tag`, `C51_make`, `C51_round_trip_partial`, `C51_compiled_values`, `C51_make_compiled`, `C51_many_constructors_refuted`, `C51_alloc_make_no_space_check_refuted`.
- **C52 Glue code's constructor-name table is aligned** — *proved*. `GL_Model.v` (names array), `GL_Proofs.v` (`names_array`, `rows_nth`); characters are any integers.
  Every list of types and names: rows, width, total size and distinct identifiers. Theorems: `C52_names`, `C52_identifiers`.
- **C53 Generated calls from C pass closure, environment and argument in the right places** — *proved*. `GL_Link.v` runs the call and halt functions for every number of C arguments, shows that running a program is unchanged by adding functions to it, and composes the call with the simulation of C63 for an arbitrary function of the compiled program.
  Every number of C arguments and both styles. For direct style also end to end: a closure of any compiled program called through the glue returns a word denoting the value of the source function body (or the collector aborts). Continuation-passing style: the call and the halt continuation are exact, the compiled code in between is not covered by C63 and so is not composed. Theorems: `C53_call`, `C53_call_cps`, `C53_halt`, `C53_compiled`.
- **C54 A-normalisation preserves evaluation** — *proved*. `AN_Model.v` transcribes `convert_anf` with the compilation state reduced to the next fresh variable; `AN_Spec.v` has an evaluator for the source that distinguishes running out of time from being stuck, and correspondence of results; `AN_Proofs.v` proves a lockstep simulation (the nesting depth of calls and branches of the source is the number of nested calls of the target), `AN_Scope.v` totality, closedness and unique binding, `AN_Eval.v` that the evaluator is exact for `eval`, `AN_Sig.v` that built tables qualify, `AN_Prim.v` that curried primitives compute the primitive.
  For all closed well-formed terms, all fresh-name counters and tag tables that tell known constructors apart (which the tables built from declarations do, C54_tables). Terms in which an erased proof is applied are excluded: for them preservation is refuted (C54_applied_proof_refuted). Results are compared as constructor trees with functions as leaves; function behaviour is covered by applying the function in the program. Fuel and traces of the code's semantics are not modelled. Theorems: `C54_total`, `C54_closed`, `C54_unique_bindings`, `C54_evaluator_exact`, `C54_evaluator_monotone`, `C54_plain_safe`, `C54_preserves`, `C54_preserves_plain`, `C54_preserves_divergence`, `C54_preserves_safety`, `C54_reflects`, `C54_from_erased`, `C54_primitive`, `C54_tables`, `C54_applied_proof_refuted`.
- **C55 Uncurrying preserves evaluation** — *proved*. `UC_Model.v` transcribes the pass (guards, fresh names, shared calling conventions by arity, inlining marks) as a traversal with explicit state; `UC_Spec.v` gives one rewrite and its closure under contexts, independently; `UC_Proofs.v` proves a forward simulation for rewrites done anywhere with names from a set that is new for the program; `UC_Top.v` shows that the traversal is a chain of such rewrites, each with names new for the program at that time, and counts binders and table entries. `C55_guard_needed` shows that the occurrence test is necessary.
  About the pass the pipeline runs (uncurry_proto.v). Every program, any number of rewrites, direct and continuation-passing style; the pass succeeds exactly when the variable counter is ahead of every name. Results have the same shape (functions are not compared), data is equal. Free variables of the program may hold data only. The rewriter framework is transcribed as a fuel-indexed traversal with fuel proved enough; its left-to-right order over children is read from the generated code and matters only for which fresh name is used where. Theorems: `C55_rewrites_preserve`, `C55_pass_is_rewrites`, `C55_total`, `C55_preserves`, `C55_names`, `C55_tables`.
- **C56 Compiler-state error propagation** — *proved*. `Comp_Model` transcribes the monad, the state and both pipelines with arbitrary passes; the specification is a list of passes selected by the options and a relation saying what the first failing step is.
  The monad, the pipeline on LambdaANF and the whole pipeline with arbitrary passes, against a list-of-steps specification. Theorems: `C56_anf`, `C56_compile`, `C56_flags`, `C56_level`, `C56_log`.
- **C57 Pointers between old generations stay visible to the collector** — *partial*. Same model; a concrete heap of three generations satisfying the invariant, executed by the kernel (`GC_Counter`).
  The code violates the property. Theorems: `C57_refuted`.
- **C58 A full collection leaves a heap the program can continue with** — *partial*. As C57.
  The code violates the property. Theorems: `C58_refuted`.
- **C59 Function tags still determine the number of parameters after dead-parameter elimination** — *proved*. State-passing transcription of the tag generation; invariant that tags issued are fresh and recorded, induction over the program.
  Fresh tags from the compiler state; the table of function information is part of the statement. Theorems: `C59_dpe_tags`.
- **C60 Inlining preserves evaluation whatever the heuristic decides** — *proved*. `Inline_Model` transcribes inline.v in state-passing style with an arbitrary heuristic; `Inline_Syn`: fresh names; `Inline_Sem`: step-indexed simulation (`ANF_LR`) with an invariant that every function in the map of known functions is bound to a closure over that description.
  One pass of the inliner (inline_top') with an arbitrary heuristic; the loop that alternates it with the shrink reducer is not modelled. Theorems: `C60_inline`.
- **C61 Programs with unrealised axioms are rejected** — *proved*. Same model; induction over the environment.
  End to end through the pipeline, with arbitrary other steps. Theorems: `C61_axioms`.
- **C62 Registering a constructor tag registers that tag** — *partial*. Same model, executed by the kernel.
  The code violates the property: the pattern that opens the state rebinds the names of the arguments. The function is not called anywhere. Theorems: `C62_register_refuted`.
- **C63 C back end: compiled programs compute the value of the source program** — *partial*. `CG_Clight.v` gives the emitted Clight subset a fuelled semantics over a block memory with UB as an outcome and the collector as a parameter; `CG_Model.v` models `translate_body`, `translate_fundefs`, `compile`. `CG_Spec.v` specifies which words denote a value, the shadow stack and the collector (`gc_ok`: moves blocks, keeps everything reachable from frames and the argument array). The proof (`CG_Stack.v`, `CG_Proofs.v`, `CG_Top.v`) is a simulation by induction on fuel. `CG_Collector.v` contains a moving collector meeting the specification; the examples run with it.
  Value, safety and divergence of the whole compiled program, for every collector satisfying its specification (shown satisfiable by a moving collector). Missing: primitives and literals (the source semantics has no rule), main expressions ending in a tail call (refuted; the pipeline does not produce them), args_opt = true. Theorems: `C63_program_value_partial`, `C63_program_safe_partial`, `C63_program_diverges_partial`, `C63_main_tail_call_refuted`.
- **C64 Wasm back end: compiled programs compute the value of the source program** — *proved*. Simulation (`WA_Proofs.v`) between the LambdaANF semantics with primitives (`bstep_e`, shown equal to an evaluator counting calls in `WA_Eval.v`) and the machine, by induction on the number of calls; memory only grows, so representations stay valid. Examples run a list-summing program with and without memory.
  For programs whose constructors have their declared arity, whose local names differ from function names and whose primitives mean the Uint63 operations. Assumes the WebAssembly machine of WA_Wasm.v (numerics, memory, structured control, indirect and tail calls, growth). Theorems: `C64_value`, `C64_answer`, `C64_divergence`.
- **C65 De Bruijn language: substitution and environment semantics agree** — *partial*. `LB_Env.v` models the environment semantics with a switch for the rules the code lacks; `LB_EnvProofs.v` reads values back by simultaneous substitution; one direction by induction on the derivation, the other by induction on the fuel of the interpreter.
  Proved for closed terms without proofs and literals, and for all closed terms once the environment semantics is given the three missing rules; with the rules in the code the equivalence is refuted for proofs, literals and applied proofs. Fuel, traces and out-of-time answers of the environment semantics are not modelled. Theorems: `C65_semantics_agree`, `C65_semantics_agree_plain`, `C65_proofs_and_literals_refuted`, `C65_environment_deterministic`, `C65_environment_answers_closed`.
- **C66 Turning globals into lets preserves and reflects evaluation** — *proved*. `LM_TransProofs.v`: forward and backward simulation between `WcbvEval` and `eval` of the term in which each constant is replaced by the translation of its value; the nested lets are peeled off one at a time.
  For all well-formed programs without primitives (the target semantics gives primitive operations no meaning). Globals are evaluated eagerly by the translation, which the statement makes explicit and C66_unused_global_refuted witnesses. Theorems: `C66_exact`, `C66_globals_unique`, `C66_data`, `C66_evaluators`, `C66_unused_global_refuted`.
- **C67 Lambda lifting preserves behaviour** — *proved*. `LL_Model.v` transcribes the pass (`exp_lambda_lift`, `add_functions`, `make_wrappers`, free-variable analysis, limits on pushes and arguments); `LL_Spec.v` holds the relation on results. `LL_Sim.v` proves a forward simulation with fuel (`sim`) for any redirection policy, under invariants on the three maps the pass carries (`okexp`, `okmaps`); `LL_Top.v` totality; `LL_Scope.v` counts binders; `LL_Free.v` and `LL_Closed.v` describe the free variables of the result.
  Every program, evaluation, option and counter state. Free variables of the program may hold data (constructors and numbers) but not functions. Theorems: `C67_total`, `C67_preserves`, `C67_names`.
- **C68 Lifted functions are closed** — *partial*. `LL_Free.v` shows that the free-variable analysis finds every variable the lifted body needs when every call is redirected (`lift_fvs_gets`), `LL_Closed.v` (`ll_closed`) follows the map of known closed functions through the pass. A function counts as lifted when its tag is new.
  Proved for the setting that redirects every call (inl_wrappers on), refuted for the conservative setting (C68_conservative_refuted). Theorems: `C68_lifted_closed`, `C68_conservative_refuted`.
- **C69 Lambda lifting keeps tags and function table consistent** — *partial*. `LL_Tags.v`: an assignment of numbers of arguments to tags is extended along the pass (`ll_tags`); `ll_ext` for the table.
  Tags still determine numbers of arguments and the table is only extended; that the new entries are right is refuted (C69_recorded_arity_refuted). Theorems: `C69_tags`, `C69_table`, `C69_recorded_arity_refuted`.
- **C70 Lambda lifting respects the number of argument registers** — *partial*. `LL_Tags.v` (`ll_params`).
  At most that many parameters are added to a function; that the total stays within the bound is refuted (C70_parameter_bound_refuted). Theorems: `C70_added_parameters`, `C70_parameter_bound_refuted`.
- **C71 Shrink reduction preserves behaviour and is never slower** — *proved*. `Shrink_Model.v` transcribes `contract` with its three helpers, the wrapper `shrink_top` and `shrink_n_times`; the well-founded recursion becomes a depth bound, `Shrink_Total.v` proves that the measure of the repository plus one is enough. `Shrink_Inv.v` states the invariant (counts bound the uses in program, kept parts and known functions; binders unique; known values refer to variables still in scope), `Shrink_Bind.v`, `Shrink_Fold.v`, `Shrink_Inl.v`, `Shrink_LetApp.v`, `Shrink_Funs.v` preserve it rewrite by rewrite; `Shrink_Env.v`, `Shrink_Sem.v`, `Shrink_FunSem.v` give each rewrite its simulation in a step-indexed relation that also bounds the steps of the reduced program by those of the source; `Shrink_Main.v` puts them together (`contract_ok`), `Shrink_Top.v` unwraps `shrink_top`.
  Every program with unique names, any environment and constructor table. Primitive operations have no evaluation rule in the semantics of the repository either, so nothing is claimed about what they return. Theorems: `C71_shrink`, `C71_total`.
- **C72 Shrink reduction keeps names unique and scopes closed** — *proved*. `pass_names` in `Shrink_Top.v`, from the postcondition of `contract_ok`.
  Every program with unique names. Theorems: `C72_shrink_names`.
- **C73 Repeated shrink passes stay correct with the census handed on** — *proved*. Induction on the number of passes with `pass_improves`; the depth each pass gets is the one proved sufficient.
  Any number of passes. The counts are shown to be upper bounds; that they are exact is shown for the single rewrites in C33. Theorems: `C73_shrink_n_times`, `C73_shrink_n_times_top`.
- **C74 The optimising pipeline preserves behaviour** — *proved*. `Pipe_Model.v` gives the inlining heuristics and puts the modelled passes on one compilation state, to be plugged into the pipeline of `Comp_Model.v` (`anf_pipeline`, `run_anf_pipeline`). `Pipe_Spec.v` states what is to be kept (`whole`, `compiled`, `implements`). `Pipe_Steps.v` proves that `implements` composes and that hoisting keeps names and closedness, `Pipe_DPE.v` the same for dead-parameter elimination, `Pipe_Main.v` turns the theorem of each pass into a step with one common invariant (`good`) and composes the steps in the order of the pipeline.
  Direct-style and CPS settings alike: the passes are run as the options say. The passes are the ones modelled for C28, C29, C55, C60, C67, C71; the table of printed names and the log are not followed. Theorems: `C74_pipeline`.
- **C75 The optimising pipeline keeps names and tables in order** — *proved*. The invariant `good` of `Pipe_Main.v` at the end of the pipeline.
  As C74. Theorems: `C75_pipeline_names`.
- **C76 Compiled to Wasm through all passes, a program computes what it should** — *proved*. `Pipe_Shapes.v` defines the shapes of a program (constructors with their number of arguments, branches, literals, calls, functions) and `all`; `Pipe_ShapesOpt.v`, `Pipe_ShapesPre.v` and `Pipe_ShapesCC.v` prove for every pass that it brings no new shapes (closure conversion: only records it enters in the table), keeps functions at the top once hoisted, and does not turn a returning main expression into a tail call. `Pipe_Inv.v` composes them in the order of the pipeline. `End_Wasm.v` shows that a program that is not stuck is safe for the evaluator of `WA_Spec.v` (a bound on the fuel from a bound on the calls) and that shapes and unique names give `wprog_ok`. `Properties_EndToEnd.v` combines C74, C75, C42 and C64.
  The passes are those of C74 and the code generator that of C64. The semantics of the intermediate language that the passes are proved for (`bstep` of eval.v) has no rules for primitive operations and literals: programs that run one are stuck there, and the theorem says nothing about them. Theorems: `C76_value`, `C76_answer`, `C76_divergence`.
- **C77 From the erased program to the Wasm module: the answer is the value of the program** — *proved*. `End_Front.v`: (1) for programs without literals and primitives the evaluator `peval` (for which C54 is stated) and the relation with fuel (for which the passes are proved) agree on values and on divergence; (2) `conv_all`: A-normalisation makes only the shapes its constructors and branches prescribe; (3) every entry of the table built by `convert_env` is the default one or that of a declared constructor, so ordinals are unambiguous and tags and types are in range. `Properties_Whole.v` combines C34, C54, C66 and C76.
  Direct style (the A-normal front end, not CPS). Programs have no literals and no primitive operations (the semantics of the intermediate language has no rules for them), and no erased proof is applied on the way (`esafe false`; automatic for programs without proofs, see C54). Kernel names of type packs are numbers with an injective printing function. Theorems: `C77_value`, `C77_data`, `C77_answer`, `C77_divergence`, `C77_from_erased`.
- **C78 From the program to C: the answer is the value of the program** — *proved*. `End_C.v` derives `prog_ok` of C63 from what C75 and the shape lemmas of C76 say of the output of the passes: unique names above the reserved ones, closed functions, table and arities; that no function is defined inside another follows from success of the code generator; sizes from the number of words in the program text. No agreement between function tags and numbers of arguments is needed: the generator takes places of arguments from its table and fails on a mismatch, and the source semantics compares the tag and the number of arguments at every call it executes. `Properties_EndToEndC.v` combines C63, C74, C75, and C54 for erased programs.
  The machine limits (`fits`: ordinals of constructors with arguments below 251, arities and sizes in their bit fields, at most 1024 parameters or as many as there are C parameters) are asked of the program that the passes hand to the code generator; `C78_check` decides them and is run in the examples. Nothing is asked about function tags: a table entry that does not fit a call makes the code generator fail. For LambdaANF programs the main expression must not end in a tail call (see `C63_main_tail_call_refuted`); erased programs never give such a one. Direct style; no literals and primitives in runs. Theorems: `C78_value`, `C78_answer`, `C78_divergence`, `C78_erased_data`, `C78_erased_safe`, `C78_check`.
- **C79 Conversion to continuation-passing style preserves evaluation** — *proved*. `CP_Model.v` is `convert_prim`, `cps_cvt` and `convert_whole_exp`. `CP_Proofs.v`: for every bound on nested calls of the source there is a number of calls after which the converted term has become a call of its continuation with a related value; if the source runs out of time so does the target with the same bound. The two are proved together by induction on the bound and the term. `CP_Scope.v`: totality, free names, fresh distinct binders. `CP_Prim.v`: primitives.
  Terms that apply an erased proof are excluded (`esafe false`), as for A-normalisation. Every converted program binds one name twice (`C79_unique_bindings_refuted`). Theorems: `C79_total`, `C79_closed`, `C79_names`, `C79_preserves`, `C79_preserves_divergence`, `C79_preserves_safety`, `C79_reflects`, `C79_from_erased`, `C79_agrees_with_direct`, `C79_primitive`, `C79_unique_bindings_refuted`, `C79_applied_proof_refuted`.
- **C80 A compiled program in continuation-passing style computes what the erased program computes** — *proved*. The converted program binds one name twice, so C74–C76 do not apply to it. `CP_Twin.v` builds a second program, the twin, that binds every name once: the parameter of `f` is renamed to an unused name and an extra dead function keeps the counts of occurrences as they are. `CP_Agree.v`: the shrink reducer gives the same result from two states that differ only at names that do not occur. Hence the reducer, which is the first pass, makes the same program of both (`twin_shrunk`), and the rest of the pipeline, whose state depends on the program only through its largest name, does the same to both (`pipeline_same`). `twin_sim` (`CP_End.v`): the twin computes what the source computes. C76 for the twin gives the theorems. The table of function tags is a list; its order does not matter to the passes.
  Same programs as C77. The first fresh name is at least 3 (the compiler starts at 100). Theorems: `C80_value`, `C80_data`, `C80_answer`, `C80_divergence`, `C80_from_erased`, `C80_agrees_with_direct`.
- **C81 C back end for continuation-passing style: the compiled program computes the value of the source program** — *partial*. `KC_Model.v` is the code generator of LambdaANF_to_Clight.v over the same fragment of C as C63 (`CG_Clight.v`): functions have no result, the answer goes to slot 1 of the args array, a function entered without room saves its C parameters in the args array, calls the collector with its `fundef_info` array and reloads them. `KC_Spec.v` states the contract of the collector from the comments of runtime/gc.h. `KC_Proofs.v`: simulation, by induction on the evaluation (terminating) and on the fuel (safety); the invariant says what every free variable's C variable denotes and that what the rest of the body allocates is available. `KC_Top.v`: whole programs, including that every function finds its own array by its identifier. Simplified: C types and casts, prototypes and the printed syntax; `is_ptr` is the runtime function.
  Proved for collectors that also keep the end of the free area where it is; without that the code is refuted (limit is not reloaded after a collection). Missing: primitives and literals (the source semantics has no rule), a case analysis in the main expression and calls that are not tail calls (both refuted). Theorems: `C81_program_value_partial`, `C81_program_safe_partial`, `C81_program_diverges_partial`, `C81_stale_limit_refuted`, `C81_main_case_refuted`, `C81_letapp_refuted`, `C81_float_literal_refuted`.
- **C82 From erased programs to C in continuation-passing style: the compiled program computes the value of the erased program** — *partial*. `Properties_WholeCPSC.v` composes C79 (conversion), C74/C75 (passes) and C81 (code generator). `Pipe_Shapes.v` tracks one more syntactic shape, calls that are not tail calls, through every pass, so that a program in continuation-passing style stays one; `End_KC.v` derives what C81 asks of a program from the shapes. The conversion binds one name twice; as in C80 the proof goes through the program the first pass cannot distinguish from it.
  Proved for programs within the machine limits whose main expression makes no case analysis (both decidable, C82_check) and collectors that keep the end of the free area; C81 refutes both without. Missing: primitives and literals. Theorems: `C82_value_partial`, `C82_answer_partial`, `C82_divergence_partial`, `C82_erased_data_partial`, `C82_erased_safe_partial`, `C82_from_erased_partial`, `C82_from_metarocq_partial`, `C85_eval_cps_partial`, `C82_agrees_with_direct_partial`, `C82_check`.
- **C83 The first translation, from MetaRocq's erased terms, preserves evaluation** — *proved*. `EA_Model.v` transcribes `compile`, `lift` and `compile_ctx` (theories/LambdaBoxMut/compile.v); the spine view is an accumulating argument. MetaRocq's terms, well-formedness and evaluation are external to the repository and are transcribed in `EA_Spec.v` from their published definitions for the flags in stripEvalCommute.v:33-68: this transcription is trusted. `EA_Proofs.v` proves that translation commutes with lifting (the code's proof of this, stripEvalCommute.v:512-518, is admitted) and substitution, and then both directions of the simulation. `Properties_Erased.v` and `Properties_ErasedEnd.v` compose with C66, C77, C78, C80 and C82.
  The statement is proved in full; the corollary for C carries the machine limits of C78, and the one for C in continuation-passing style is listed under C82. C83_reflects_suspensions_refuted shows that the restriction of the converse to terms without suspensions is needed. Theorems: `C83_wellformed`, `C83_evaluates`, `C83_single_valued`, `C83_reflects`, `C83_reflects_suspensions_refuted`, `C83_lifting`, `C83_substitution`, `C83_errors`, `C83_data`, `C83_globals`, `C83_to_local`, `C83_from_local`, `C83_to_wasm`, `C83_to_wasm_cps`, `C83_to_c`.
- **C84 The C text the printer writes is read by C as the program it was printed from** — *proved*. `PR_Model.v` transcribes the printer (plugin/static/printClight.ml, the types and declarators of printCsyntax.ml, the conversions of camlrocq.ml). A break hint of the OCaml formatter is any white space (or nothing, for cut hints): quantified over. `%.18g` is modelled exactly on `spec_float`. `PR_Spec.v` is an independent reader: C's longest-match tokens, a precedence-climbing parser for expressions, declarators read inside out, statements, function definitions, and the value of a decimal constant. `PR_Lex.v` proves that texts made of separable pieces are cut into these pieces, `PR_Num.v` the conversions, `PR_Types.v`/`PR_Decl.v` declarators, `PR_Exprs.v`/`PR_Read.v` expressions, `PR_Stmt.v` statements, `PR_Fun.v` functions, `PR_Float.v` the rounding error of the 18 digits and the gap between doubles. The parser takes fuel; results are stated for all large enough fuel. Trusted: that the reader agrees with C's grammar on this fragment, with `value` as a type name (it is a typedef in the runtime) and `$` in identifiers (an extension of the C compilers used).
  Proved for the printed fragment: everything but built-in statements, loops with a continue part, single-precision constants, initialisers and composite definitions. The conditions exclude exactly the constructs of the refutations. Function results are base types or pointers to such. Theorems: `C84_expressions`, `C84_declarations`, `C84_type_names`, `C84_statements`, `C84_functions`, `C84_integers`, `C84_float_text`, `C84_double_minus_refuted`, `C84_callee_refuted`, `C84_integral_floats_refuted`, `C84_infinite_floats_refuted`, `C84_smallest_long_refuted`, `C84_function_type_names_refuted`, `C84_volatile_value_refuted`, `C84_labels_refuted`, `C84_of_int_refuted`.
- **C85 A result is read back as the Rocq value it is** — *proved*. `RF_Model.v` transcribes the reader (plugin/certirocq.ml:649-800): classification of the type, `find_nth_constant`/`find_nth_non_constant`, `apply_reordering`, `find_reverse_mapping`, substitution of the parameters, smashing of the argument context, the recursion over fields. `RF_Spec.v` says independently what the values of a type are (constructor applied to parameters and to values of its argument types, each substituted by the arguments before) and what a value is in memory. `RF_Subst.v` has the substitution lemmas, `RF_Proofs.v` the main induction: the type the reader uses for an argument need not be the type of the argument, but agrees with it in head and parameters. `RF_End.v` connects with the constructor tables of the compiler (C34, C75) and with C83. Simplified: no reduction of types, no universes, the recursion takes fuel (stated for all large enough fuel). Trusted: that MetaRocq reorders constructors in the direction `apply_reordering` assumes.
  Proved for types in weak head normal form, for constructors and primitive integers. The conditions exclude exactly the declarations of the refutations, and argument types that are applications of a parameter. The same end to end in continuation-passing style is C85_eval_cps_partial, listed under C82. Theorems: `C85_reads_back`, `C85_eval`, `C85_orders`, `C85_latest_order`, `C85_cyclic_order_refuted`, `C85_dependent_parameter_refuted`, `C85_only_lets_refuted`, `C85_proofs_refuted`, `C85_many_constructors_refuted`.
- **C86 Evaluating a constant twice, or after going back, gives the value of its present definition** — *proved*. `SN_Model.v` transcribes the naming functions, the table of compiled programs, the files written and linked, and the evaluation commands; a session is a list of commands (definitions, orders, evaluations of constants and of terms, going back). Going back restores what Rocq's Summary holds (definitions, table, orders) and not the plain reference with the used names. A failing command leaves the summary as it was. `SN_Spec.v` says what a decimal number at the end of a name is and what an evaluation should answer. `SN_Proofs.v` has the decimal arithmetic, the termination of the search for a fresh name, and the invariant of the table: an entry is code of the definition its name has on the present branch. `C86_values` combines this with C85. Trusted: that Rocq restores the Summary as described; names of constants contain a dot and those given to the tactic do not.
  Proved for all sessions of the modelled commands. Compiling, linking and running a program is one function of options, orders and program; that it returns a representation of the value is C85_eval. Theorems: `C86_next_name`, `C86_fresh_name`, `C86_symbols`, `C86_build`, `C86_files`, `C86_same_program`, `C86_eval`, `C86_values`, `C86_numbers_refuted`, `C86_quote_refuted`, `C86_collision_refuted`, `C86_new_order_refuted`, `C86_same_file_refuted`, `C86_options_refuted`, `C86_suffix_refuted`, `C86_cps_refuted`.
- **C87 A foreign function gets all its arguments, in order, and its result reaches the continuation** — *proved*. `FF_Model.v` transcribes the generator of theories/Glue/ffi.v with its supply of identifiers, and runs the generated code over the memory of `CG_Clight.v`; foreign functions are arbitrary partial functions of symbol, words and memory, and may change the memory. `tinfo->alloc` and `tinfo->args` are constructs of their own (the source makes these field names anew per function and relies on equal spelling). `FF_Spec.v` states the calling convention of compiled code, the shape of closures and environments, and histories of applications, without the generator. `FF_Proofs.v` runs the two kinds of functions symbolically for all numbers of C arguments, and the chain of functions of a field; `FF_Names.v` the names. Trusted: that the printed C is this code (C84 is about the printer), that static data do not overlap the free part of the heap.
  Proved for the generated functions of every field, both styles (for direct style: as far as the result is left in the args array). Reading the class out of the Rocq environment is not modelled; types, casts and headers of the printed program are left out. Theorems: `C87_closure`, `C87_apply`, `C87_call`, `C87_history`, `C87_names`, `C87_types`, `C87_constant_refuted`, `C87_no_check_refuted`, `C87_direct_refuted`, `C87_collecting_refuted`, `C87_names_refuted`.
- **C88 A printed C file is read by C as the program it was printed from** — *proved*. `PP_Model.v` transcribes print_program, print_dest_names_imports and what they use for initialisers, variables, composites and string literals; the break hints are as in C84. `PP_Spec.v` reads a file as C does, without the printer: include guards line by line, external declarations by looking at the first of `;`, `=` and `{`, initialisers with the expressions of `PR_Spec.v`; it says what a Clight program means as C (`cunit`) and what C and Clight put into memory for a list of initialisers. `PP_Proofs.v` shows each printed item to be a list of pieces (`PR_Lex.v`) whose tokens are read as the item, then joins them; `PP_Text.v` has the guards, the memory images and the string literals. Simplified: the guard reader knows `#ifndef`, `#define`, `#include` and `#endif` as printed, and an image does not include the zeros C and Clight put into the rest of a variable. A `const` directly before a name is taken to qualify the variable.
  Proved for all programs meeting prog_ok: names are C identifiers, statements are those of C84, variables have no floats in initialisers and no names of string literals (these are C88_strings), composites have no attributes. Bodies are compared as in C84. Theorems: `C88_program`, `C88_file`, `C88_layout`, `C88_strings`, `C88_bytes_refuted`, `C88_space_refuted`, `C88_floats_refuted`, `C88_negative_char_refuted`, `C88_digit_guard_refuted`, `C88_same_guard_refuted`, `C88_composite_attributes_refuted`, `C88_late_variable_refuted`.
- **C89 The result of the compiled compiler is copied faithfully into OCaml's heap** — *proved*. `BW_Model.v` transcribes copy_value over two heaps: that of the compiled program, which does not change, and OCaml's, where every allocation goes through a function `alloc` that may move all blocks. Registered variables are a list that a collection updates; the parameter `v` is a plain C variable and is not updated. `BW_Spec.v` has values as trees and the contract of caml_alloc: what is reachable from the registered variables through blocks below No_scan_tag is kept up to an injective renaming, and the new block is not among it. `BW_Proofs.v` carries through the loop the set of addresses the part already copied uses, which is disjoint from everything else that is reachable. Trusted: the contract of caml_alloc; caml_modify does not collect.
  Proved for every allocator meeting the stated contract of caml_alloc (an instance that moves everything at every allocation is given). The C stack is unbounded in the model. Theorems: `C89_copy`, `C89_raw_refuted`, `C89_shared_with_argument_refuted`, `C89_sharing_refuted`.
- **C90 A quoted program reaches the compiled compiler in the representation it expects** — *proved*. `QF_Model.v` transcribes the surgery over OCaml values as they are in memory: integers and tagged blocks; a missing case is None (Match_failure). `QF_Spec.v` has programs as typed syntax and one representation function with a switch for whether records of a value and a proof are blocks; the theorem says the surgery leads from one setting of the switch to the other.
  Proved for all programs. Trusted: the order of constructors and fields in MetaRocq, which is not in the repository, and that sets are the only records with one field besides proofs. Theorems: `C90_compiler`, `C90_checker`, `C90_checker_literals_refuted`.
- **C91 Renaming all bound variables afresh changes only names** — *proved*. `FR_Model.v` transcribes freshen_term and freshen_fun with the next variable as the only state. `FR_Proofs.v` shows by mutual induction that the result is the same program up to bound names (`aeq` of ANF_Alpha.v) with binders in consecutive ranges; that such programs run alike is the theorem behind C32, and that they have the same free variables is proved there too. The pass is not called by the pipeline at this commit.
  Proved for all programs; the two refutations show that both assumptions are needed. The compiler state is reduced to the next variable. Theorems: `C91_freshen`, `C91_same_names_refuted`, `C91_capture_refuted`.
- **C92 Interning gives every element one number for good, and tags are totally ordered** — *proved*. `HM_Model.v` transcribes the map (as the list of its elements) and the comparison of tags; the functor of HashMap.v is a section over a type with decidable equality. `HM_Proofs.v` proves that the numbers are positions and that no element occurs twice, and that lexicographic combinations of total orders are total.
  Proved for all element types and maps; all lemmas admitted in HashMap.v hold, and so do those left open in tags.v. Theorems: `C92_intern`, `C92_tags`.
- **C93 Conversions between the compiler's data and OCaml's lose nothing** — *partial*. `CV_Model.v` has the two tables of caml_byte.ml case by case (written out from the file), the loops over strings with a buffer of unknown contents, and arithmetic modulo the size of the word, with the width as an argument. `CV_Spec.v` says when a word stands for an integer and reads numerals. `CV_Proofs.v` proves the loops by their invariants, and that every function to words is reduction modulo the size. Exceptions and loops that run on are `None`, so the theorems also say that there are none. Not modelled: `coqstring_of_camlstring` of cplugin/static/camlrocq.ml:328, which ignores its argument and returns the conversion function itself; nothing in the repository calls it. The plugin's own camlrocq.ml is the subject of C84.
  Proved for all inputs, except that the smallest OCaml integer, which is negative, does not become the unary zero: `C93_nat_min_refuted`. Theorems: `C93_bytes`, `C93_strings`, `C93_ascii_strings`, `C93_nats`, `C93_nat_min_refuted`, `C93_words`, `C93_numerals`, `C93_power_of_two`.
- **C94 The definitions of evaluation of the intermediate language agree** — *partial*. `SV_Model.v` has the evaluator and the three relations of eval.v rule by rule, with the primitive operations and the table of constructors as arguments. `SV_Spec.v` says which forms occur in a program and in its closures. `SV_Proofs.v` proves each direction by induction on the derivation or the fuel; forms are kept by evaluation.
  The evaluator, the big steps and the costs agree on all programs. Fuel and small steps agree with them except on the forms they have no rule for, where the agreement is false: `C94_fuel_refuted`, `C94_small_refuted`. Theorems: `C94_evaluator`, `C94_cost`, `C94_fuel_partial`, `C94_fuel_refuted`, `C94_small_partial`, `C94_small_refuted`, `C94_case_refuted`.
- **C95 Sizes of programs, values and environments bound free variables, costs and running programs** — *partial*. `SZ_Model.v` has the size functions of size_cps.v, with the visible bindings of an association list for `M.elements`. `SZ_Spec.v` says, without levels, that every block of functions reachable from a value satisfies a predicate. `SZ_Proofs.v` proves the bounds by induction on programs, values and derivations of `bstep_e` (`SV_Model.v`).
  All bounds are proved. The two last sentences are false: binding a name again can make an environment smaller (`C95_set_refuted`; `C95_set` has the inequality, and the equation if nothing larger is overwritten), and the count of functions counts other things (`C95_count_refuted`; `C95_count` has the bound from below). Theorems: `C95_free`, `C95_cost`, `C95_levels`, `C95_set`, `C95_set_refuted`, `C95_run`, `C95_count`, `C95_count_refuted`.
- **C96 Correct passes compose, and programs compiled apart can be linked** — *partial*. `LK_Model.v` has the triples of compM.v and the classes of Pipeline_utils.v as records, over the monad of `Comp_Model.v`. `LK_Spec.v` says the same in terms of single runs: success, compiling apart from two states, not depending on the state. `LK_Proofs.v` turns triples into runs and follows them. The languages and passes of the refutations are in `Properties_Linking.v`.
  Composition is proved in full. The three statements about linking are false for passes that look at the state (`C96_separate_refuted`, `C96_link_refuted`, `C96_commutes_refuted`) and proved for passes that do not; passes made with the combinators of the pipeline do not (`C96_stateless`). Theorems: `C96_rules`, `C96_two_runs`, `C96_compose`, `C96_stateless`, `C96_separate_partial`, `C96_separate_refuted`, `C96_link_partial`, `C96_link_refuted`, `C96_commutes_partial`, `C96_commutes_refuted`, `C96_concretize`, `C96_concretize_refuted`.
- **C97 Running a program keeps its functions closed, and the environments of closed functions do not matter** — *proved*. `CF_Model.v` has blocks of functions in programs, closed blocks, values and environments with closed functions only, and the four axioms of the source as predicates on a table of primitive operations. `CF_Spec.v` defines values that differ only in environments of closed functions. `CF_Proofs.v` goes by induction over the big-step runs of `SV_Model.v`; the case of a call whose result is bound, which the source leaves open, is included. `C97_size` combines the axiom on sizes with C95.
  Proved with what is assumed of primitive operations as a hypothesis. The same assumptions for all tables of primitive operations, as the source states them in axioms, are refuted. Theorems: `C97_blocks`, `C97_closed`, `C97_environment`, `C97_size`, `C97_related_axiom`, `C97_closed_axiom_refuted`, `C97_size_axiom_refuted`, `C97_related_axiom_refuted`.
- **C98 Substituting closed terms one after the other is the same as substituting them at once** — *proved*. `SU_Model.v` adds the conversions of lists and `sbst_real_list` to `LB_Model.v`. `SU_Spec.v` defines simultaneous substitution of a list of terms. `SU_Proofs.v` shows that the first term of the list can be substituted alone before the others if it is closed, and counts free variables.
  Proved for closed terms, the ones evaluation substitutes. For open terms the two differ (`C98_open_refuted`). Theorems: `C98_lists`, `C98_list`, `C98_open_refuted`, `C98_fix`, `C98_free`.
- **C99 Subterms, contexts and rewriting in contexts mean what they say** — *proved*. `RW_Model.v` has the subterm relations of cps_util.v and ctx.v, filling of contexts as a relation, and the closures of relations.v; contexts and their composition are those of `ANF_Subst.v` and `AN_Model.v`. `RW_Spec.v` lists the proper subterms of a program and says by rules, without contexts, that one subterm is rewritten.
  Proved in full. The relation between programs and blocks leaves out the bodies themselves (`C99_block_refuted`). Theorems: `C99_context`, `C99_subterm`, `C99_block`, `C99_block_refuted`, `C99_rewrite`, `C99_many`, `C99_invariant`, `C99_split`, `C99_commute`.
