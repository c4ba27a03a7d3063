{
 "claims": [
  {
   "property": "C01",
   "status": "proved",
   "theorems": [
    "C01_roundtrip",
    "C01_range",
    "C01_immediate",
    "C01_injective",
    "C01_every_immediate"
   ],
   "note": "Macros of runtime/values.h on 64-bit words."
  },
  {
   "property": "C02",
   "status": "proved",
   "theorems": [
    "C02_size",
    "C02_tag",
    "C02_scan_depends_on_tag",
    "C02_bound_sharp"
   ],
   "note": "Header macros of runtime/values.h and No_scan of gc_stack.h."
  },
  {
   "property": "C09",
   "status": "proved",
   "theorems": [
    "C09_add",
    "C09_sub",
    "C09_mul",
    "C09_div",
    "C09_mod",
    "C09_land",
    "C09_lor",
    "C09_lxor",
    "C09_lsl",
    "C09_lsr",
    "C09_eqb",
    "C09_compare",
    "uint63_add",
    "uint63_sub",
    "uint63_mul",
    "uint63_div",
    "uint63_mod",
    "uint63_land",
    "uint63_lor",
    "uint63_lxor",
    "uint63_lsl",
    "uint63_lsr",
    "uint63_eqb",
    "uint63_compare"
   ],
   "note": "Functions of runtime/prim_int63.c. The uint63_* theorems say that the specification is the one of Rocq's Uint63; only they use the axioms of the standard library's Uint63."
  },
  {
   "property": "C10",
   "status": "partial",
   "theorems": [
    "C10_leb_exact_partial",
    "C10_leb_refuted",
    "C10_ltb_exact_partial",
    "C10_ltb_refuted",
    "uint63_ltb",
    "uint63_leb"
   ],
   "note": "The code violates the property: it compares the words as signed. Exact characterisation proved: the answer is right iff both operands are in the same half of the range."
  },
  {
   "property": "C11",
   "status": "partial",
   "theorems": [
    "C11_divs",
    "C11_lesb",
    "C11_ltsb",
    "C11_compares",
    "C11_mods_partial",
    "C11_mods_unsigned",
    "C11_mods_refuted",
    "C11_asr_exact_partial",
    "C11_asr_refuted",
    "sint63_signed",
    "sint63_asr",
    "sint63_mods",
    "sint63_divs"
   ],
   "note": "divs and the signed comparisons are right for all operands. mods and asr violate the property on negative operands (exact characterisation for asr, unsigned remainder for mods)."
  },
  {
   "property": "C12",
   "status": "partial",
   "theorems": [
    "C12_addc_partial",
    "C12_addc_flag",
    "C12_addc_refuted",
    "C12_addcarryc_partial",
    "C12_addcarryc_flag",
    "C12_addcarryc_refuted",
    "C12_subc_partial",
    "C12_subc_flag",
    "C12_subc_refuted",
    "C12_subcarryc_partial",
    "C12_subcarryc_flag",
    "C12_subcarryc_refuted",
    "uint63_addc",
    "uint63_addcarryc",
    "uint63_subc",
    "uint63_subcarryc"
   ],
   "note": "The code violates the property: addc never reports a carry, addcarryc and the subtractions compare words as signed. The *_flag theorems give what is returned."
  },
  {
   "property": "C13",
   "status": "partial",
   "theorems": [
    "C13_mulc_exact_partial",
    "C13_mulc_refuted",
    "C13_diveucl",
    "C13_diveucl_21",
    "C13_addmuldiv",
    "C13_head0",
    "C13_tail0",
    "uint63_mulc",
    "uint63_diveucl",
    "uint63_diveucl_21",
    "uint63_addmuldiv",
    "uint63_head0",
    "uint63_tail0"
   ],
   "note": "All but mulc proved for all operands; mulc loses a carry on an exactly characterised set of operands (refuted with a witness)."
  },
  {
   "property": "C14",
   "status": "partial",
   "theorems": [
    "C14_mulc_refuted",
    "C14_diveucl_refuted",
    "C14_diveucl_21_refuted",
    "C14_pair_partial",
    "C12_addc_flag",
    "C12_addcarryc_flag",
    "C12_subc_flag",
    "C12_subcarryc_flag",
    "C14_string_make_refuted",
    "C14_string_sub_refuted",
    "C14_string_cat_refuted",
    "C15_create_partial",
    "C14_float",
    "C14_float_pair_refuted"
   ],
   "note": "Integer primitives: carry operations check the room; operations returning pairs do not (refuted). mk_ocaml_string checks; string make, sub and cat ask for one word too few (refuted for every operand). Float primitives returning floats reserve their words; frshiftexp does not reserve the pair (refuted)."
  },
  {
   "property": "C03",
   "status": "proved",
   "theorems": [
    "C03_generation",
    "C03_run"
   ],
   "note": "One generation into the next for every heap with remembered cells (C03_generation); whole collections in every state of every run without field updates (C03_run). Depth-0 forwarding as compiled (DEPTH = 0)."
  },
  {
   "property": "C04",
   "status": "proved",
   "theorems": [
    "C04_no_overflow"
   ],
   "note": "Includes remembered cells and their re-recording in the destination."
  },
  {
   "property": "C05",
   "status": "proved",
   "theorems": [
    "C05_room",
    "C03_run",
    "C07_minor_partial"
   ],
   "note": "Every state of every run without field updates; with updates for collections that stop at the nursery. C03_run also says when the collector aborts: request larger than the nursery, malloc failure, or all 43 generations in use."
  },
  {
   "property": "C06",
   "status": "proved",
   "theorems": [
    "C06_discipline"
   ],
   "note": "Every state of every run of allocations, root stores, frame pushes/pops and collections. (Not preserved by garbage_collect_all, see C58.)"
  },
  {
   "property": "C07",
   "status": "partial",
   "theorems": [
    "C07_recorded",
    "C07_minor_partial"
   ],
   "note": "Runs with updates whose collections stop at the nursery. Missing: collections that go further, for which the code is wrong (C57)."
  },
  {
   "property": "C08",
   "status": "proved",
   "theorems": [
    "C08_export"
   ],
   "note": "From every state of the invariant kept by runs without field updates; the two arrays are obtained from malloc."
  },
  {
   "property": "C57",
   "status": "partial",
   "theorems": [
    "C57_refuted"
   ],
   "note": "The code violates the property."
  },
  {
   "property": "C58",
   "status": "partial",
   "theorems": [
    "C58_refuted"
   ],
   "note": "The code violates the property."
  },
  {
   "property": "C22",
   "status": "proved",
   "theorems": [
    "C22_deterministic",
    "C22_interpreter"
   ],
   "note": "Big-step semantics of theories/LambdaANF/eval.v with nat fuel (one unit per step), trace omitted; agreement with an independent interpreter."
  },
  {
   "property": "C23",
   "status": "proved",
   "theorems": [
    "C23_free_variables",
    "C23_up_to_observation"
   ],
   "note": "Environments that agree on the free variables up to the observational relation on values; equality of results when the values agree exactly or are data."
  },
  {
   "property": "C24",
   "status": "proved",
   "theorems": [
    "C24_exact"
   ],
   "note": "exp_fv/fundefs_fv of theories/LambdaANF/cps_util.v and identifiers.v against occurs-free."
  },
  {
   "property": "C26",
   "status": "proved",
   "theorems": [
    "C26_hoist_flat"
   ],
   "note": "exp_hoist of theories/LambdaANF/hoisting.v for every program; also the reported number is the nesting depth."
  },
  {
   "property": "C27",
   "status": "proved",
   "theorems": [
    "C27_hoist_preserves"
   ],
   "note": "For every program meeting the precondition of the pass and every environment: results (equal on data, related functions otherwise) and divergence are preserved, with bounds on the fuel; converse for programs that are not stuck."
  },
  {
   "property": "C30",
   "status": "proved",
   "theorems": [
    "C30_analysis"
   ],
   "note": "The masks computed by the analysis of dead_param_elim.v are a fixpoint satisfying an independent definition of good masks, mark every escaping function as keeping everything, and are the least such masks."
  },
  {
   "property": "C29",
   "status": "proved",
   "theorems": [
    "C29_dpe_preserves"
   ],
   "note": "For every program of the form the pass accepts: results are preserved (equal on data, related functions otherwise), with the same fuel, and divergence."
  },
  {
   "property": "C59",
   "status": "proved",
   "theorems": [
    "C59_dpe_tags"
   ],
   "note": "Fresh tags from the compiler state; the table of function information is part of the statement."
  },
  {
   "property": "C31",
   "status": "proved",
   "theorems": [
    "C31_inline_letapp"
   ],
   "note": "inline_letapp of theories/LambdaANF/inline_letapp.v followed by renaming the bound variable in what follows, for every body it accepts (exactly those ending without branching) and every continuation."
  },
  {
   "property": "C32",
   "status": "proved",
   "theorems": [
    "C32_rename"
   ],
   "note": "rename_all and rename_all_ns of theories/LambdaANF/rename.v; both directions, same number of steps."
  },
  {
   "property": "C60",
   "status": "proved",
   "theorems": [
    "C60_inline"
   ],
   "note": "One pass of the inliner (inline_top') with an arbitrary heuristic; the loop that alternates it with the shrink reducer is not modelled."
  },
  {
   "property": "C25",
   "status": "proved",
   "theorems": [
    "C25_max_var",
    "C25_requests",
    "C25_tags",
    "C25_initial",
    "C25_prims",
    "C25_make_ftag",
    "C25_inline_names"
   ],
   "note": "Any sequence of requests to the compilation state of theories/LambdaANF/state.v, from the state the pipeline starts in; max_var exact; the inliner, which restarts the counter, separately."
  },
  {
   "property": "C56",
   "status": "proved",
   "theorems": [
    "C56_anf",
    "C56_compile",
    "C56_flags",
    "C56_level",
    "C56_log"
   ],
   "note": "The monad, the pipeline on LambdaANF and the whole pipeline with arbitrary passes, against a list-of-steps specification."
  },
  {
   "property": "C61",
   "status": "proved",
   "theorems": [
    "C61_axioms"
   ],
   "note": "End to end through the pipeline, with arbitrary other steps."
  },
  {
   "property": "C62",
   "status": "partial",
   "theorems": [
    "C62_register_refuted"
   ],
   "note": "The code violates the property: the pattern that opens the state rebinds the names of the arguments. The function is not called anywhere."
  },
  {
   "property": "C15",
   "status": "partial",
   "theorems": [
    "C15_create_partial",
    "C15_create_long_refuted",
    "C15_length",
    "C15_get_partial",
    "C15_get_refuted",
    "C15_get_past_end_refuted",
    "C15_max_length_refuted"
   ],
   "note": "Length: proved for every string. Creation: proved below 2^25-8 bytes, header truncated at 2^25 (refuted); a C string cannot have zero bytes, literals with zero bytes are C39. Reading: proved for bytes below 128 inside the string; refuted for every byte from 128 on and past the end."
  },
  {
   "property": "C16",
   "status": "partial",
   "theorems": [
    "C16_cat_partial",
    "C16_cat_overlap_refuted",
    "C16_cat_moved_refuted",
    "C16_make_refuted",
    "C16_sub_refuted",
    "C16_compare_equal_refuted",
    "C16_compare_length_refuted"
   ],
   "note": "Refuted: make and sub use tagged integers as they are (never the specified string), cat leaves the free area inside its result and does not keep its operands alive, compare returns no constructor on equal strings. Proved: the bytes written by cat when there is a spare word."
  },
  {
   "property": "C39",
   "status": "proved",
   "theorems": [
    "C39_literal",
    "C39_literal_length",
    "C39_words"
   ],
   "note": "Every byte sequence, zero bytes included."
  },
  {
   "property": "C20",
   "status": "partial",
   "theorems": [
    "C20_constants",
    "C20_succ",
    "C20_pred_partial",
    "C20_pred_refuted",
    "C20_nat_pred",
    "C20_nat_case",
    "C20_neg_partial",
    "C20_neg_refuted",
    "C20_abs_partial",
    "C20_abs_refuted",
    "C20_add_partial",
    "C20_add_overflow",
    "C20_add_uninitialised",
    "C20_add_refuted",
    "C20_sub_partial",
    "C20_sub_refuted",
    "C20_mul_partial",
    "C20_mul_refuted",
    "C20_div_partial",
    "C20_div_refuted",
    "C20_rem_partial",
    "C20_rem_refuted",
    "C20_pow_partial",
    "C20_pow_refuted",
    "C20_bits_partial",
    "C20_bits_refuted",
    "C20_lognot",
    "C20_order_partial",
    "C20_order_refuted",
    "C20_leq_partial",
    "C20_leq_refuted",
    "C20_max_min_partial",
    "C20_max_min_refuted",
    "C20_compare_partial",
    "C20_compare_refuted",
    "C20_of_int",
    "C20_of_string_refuted",
    "C20_block",
    "C20_allocator_refuted"
   ],
   "note": "Exact on every integer: succ, lognot, nat_pred and nat_case on naturals, the constants. Every other operation is exact only on the operands named in its theorem and refuted on others; z_to_string (printf) is not modelled; the GMP library is trusted."
  },
  {
   "property": "C21",
   "status": "partial",
   "theorems": [
    "C21_length",
    "C21_string_partial",
    "C21_string_malloc_refuted",
    "C21_messages_partial",
    "C21_messages_refuted",
    "C21_boxed",
    "C21_unboxed_always",
    "C21_unboxed_refuted"
   ],
   "note": "Length and characters proved for every string when malloc succeeds, boxed ordinal proved; the unboxed ordinal is wrong for every ordinal (refuted), a failed malloc is written through (refuted), messages stop at a zero byte (refuted)."
  },
  {
   "property": "C17",
   "status": "partial",
   "theorems": [
    "C17_order",
    "C17_classify",
    "C17_equal",
    "C17_compare_refuted",
    "C17_sign"
   ],
   "note": "eqb, ltb, leb, equal, classify, abs and opp proved for every pair of doubles at every address; compare compares addresses (refuted). The C comparison operators are trusted to compare the numbers."
  },
  {
   "property": "C18",
   "status": "proved",
   "theorems": [
    "C18_next_up",
    "C18_next_down",
    "C18_prim"
   ],
   "note": "Every pattern, least/greatest double in the order of SpecFloat."
  },
  {
   "property": "C19",
   "status": "partial",
   "theorems": [
    "C19_of_uint63_partial",
    "C19_of_uint63_refuted",
    "C19_normfr_mantissa",
    "C19_frshiftexp_partial",
    "C19_ldshiftexp_refuted"
   ],
   "note": "normfr_mantissa proved; frshiftexp proved when five words are free (it does not reserve them, C14); of_uint63 proved below 2^62 and refuted above; ldshiftexp ignores the exponent and returns a pair (refuted)."
  },
  {
   "property": "C33",
   "status": "proved",
   "theorems": [
    "C33_init",
    "C33_delta",
    "C33_delete_constr",
    "C33_delete_proj",
    "C33_fold_case",
    "C33_dead_functions",
    "C33_fold_proj",
    "C33_inline",
    "C33_letapp"
   ],
   "note": "Census, increment and decrement for every program, renaming and context; every update the shrink reducer makes (dead binding, dead functions of a bundle, known case, known projection, inlining of a function called once in tail and in let position) turns the census of the program into the census of the reduced program. The reducer itself (contract) is not modelled."
  },
  {
   "property": "C34",
   "status": "proved",
   "theorems": [
    "C34_layout",
    "C34_unambiguous",
    "C34_consecutive",
    "C34_tags_distinct",
    "C34_default",
    "C34_repeated_pack_refuted",
    "C34_injective_for_all_tables_refuted",
    "C34_injective_on_built_tables_refuted"
   ],
   "note": "Every declared constructor gets its arity, its rank among the constructors of its kind, a datatype tag listing the constructors in order; tags and datatype tags are globally distinct, above the reserved ones and below the counters handed on. Holds when no pack is declared twice (refuted otherwise). The injectivity assumption the repository makes about dcon_to_tag is refuted."
  },
  {
   "property": "C40",
   "status": "partial",
   "theorems": [
    "C40_variables_distinct",
    "C40_binders_named",
    "C40_reserved_distinct",
    "C40_reserved_named",
    "C40_all_distinct",
    "C40_info_names",
    "C40_primitive_clash_refuted",
    "C40_body_clash_refuted",
    "C40_identifier_characters_refuted",
    "C40_identifier_characters_partial"
   ],
   "note": "Variables, information records and reserved identifiers have pairwise distinct C names for every name environment; together with the two user-chosen kinds of names (body name, targets of primitives) only when those are well chosen, which nothing checks: refuted otherwise. Emitted names consist of identifier characters only for names made of such characters, quotes and dots (partial, refuted in general)."
  },
  {
   "property": "C35",
   "status": "partial",
   "theorems": [
    "C35_tags_distinct_partial",
    "C35_built_tables_partial",
    "C35_switch_partial",
    "C35_tags_refuted",
    "C35_switch_refuted"
   ],
   "note": "For tables with at most 251 boxed constructors per datatype (ordinals below 251) the emitted immediates/headers are distinct, scanned by the collector, have the right size and do not overflow, and the emitted switch takes the branch of the constructor built; the tables the compiler builds satisfy the conditions. Nothing in the compiler checks the bound: refuted for a datatype with 258 constructors."
  },
  {
   "property": "C36",
   "status": "partial",
   "theorems": [
    "C36_reserved_partial",
    "C36_literals_refuted",
    "C36_overflow_refuted"
   ],
   "note": "max_allocs is at least the number of words written on every path up to the next check, for programs without boxed literals. Refuted with float and string literals, whose words are not counted; the compiled program then writes past the free area (C36_overflow_refuted)."
  },
  {
   "property": "C37",
   "status": "proved",
   "theorems": [
    "C37_saved_and_reloaded"
   ],
   "note": "For every call with a non-empty set of live variables: each live variable is in the frame when the call happens and is reloaded from its slot afterwards, whatever the call does to the frame contents."
  },
  {
   "property": "C38",
   "status": "partial",
   "theorems": [
    "C38_arguments_partial",
    "C38_too_many_refuted",
    "C38_optimised_refuted",
    "C38_optimised_error_refuted"
   ],
   "note": "For args_opt = false (the only value the pipeline uses) and at most 1024 arguments every argument arrives at its parameter. Refuted for more arguments (writes past the array) and for args_opt = true (stale slots; also spurious compile failures)."
  },
  {
   "property": "C63",
   "status": "partial",
   "theorems": [
    "C63_program_value_partial",
    "C63_program_safe_partial",
    "C63_program_diverges_partial",
    "C63_main_tail_call_refuted"
   ],
   "note": "Value, safety and divergence of the whole compiled program, for every collector satisfying its specification (shown satisfiable by a moving collector). Missing: primitives and literals (the source semantics has no rule), main expressions ending in a tail call (refuted; the pipeline does not produce them), args_opt = true."
  },
  {
   "property": "C41",
   "status": "proved",
   "theorems": [
    "C41_primitives",
    "C41_all_translated"
   ],
   "note": "All 24 operations, for all operands, memories, stacks and scratch globals; every operation is translated when given its number of arguments."
  },
  {
   "property": "C42",
   "status": "proved",
   "theorems": [
    "C42_check",
    "C42_never_traps",
    "C42_access_outside_traps"
   ],
   "note": "The growth check leaves room for any object up to a page or returns with the flag set and memory unchanged; since a store outside memory traps (C42_access_outside_traps), the whole-program theorem \"never traps\" covers every store of every program that does not get stuck, for every behaviour of the host."
  },
  {
   "property": "C43",
   "status": "proved",
   "theorems": [
    "C43_check_exact",
    "C43_check_sound"
   ],
   "note": "The check accepts exactly the programs all of whose subexpressions are within the bounds, and the bounds imply what the generated code needs (types exist, objects fit a page, encodings fit an i32)."
  },
  {
   "property": "C44",
   "status": "proved",
   "theorems": [
    "C44_case"
   ],
   "note": "For constructor tables whose ordinals are distinct per type and kind (as C34 shows for the tables the compiler builds): the code of a case behaves as the code of the right branch, and traps if there is none."
  },
  {
   "property": "C45",
   "status": "proved",
   "theorems": [
    "C45_locals_distinct",
    "C45_indices_in_range",
    "C45_functions_distinct"
   ],
   "note": ""
  },
  {
   "property": "C46",
   "status": "proved",
   "theorems": [
    "C46_export_names_unique"
   ],
   "note": ""
  },
  {
   "property": "C64",
   "status": "proved",
   "theorems": [
    "C64_value",
    "C64_answer",
    "C64_divergence"
   ],
   "note": "For programs whose constructors have their declared arity, whose local names differ from function names and whose primitives mean the Uint63 operations. Assumes the WebAssembly machine of WA_Wasm.v (numerics, memory, structured control, indirect and tail calls, growth)."
  },
  {
   "property": "C47",
   "status": "proved",
   "theorems": [
    "C47_eval_deterministic",
    "C47_interpreter_exact",
    "C47_interpreter_monotone",
    "C47_interpreter_coherent",
    "C47_lists"
   ],
   "note": "For all terms, closed or not, and all fuels. The interpreter is modelled with an option where the code has an exception monad; its error messages are not modelled."
  },
  {
   "property": "C48",
   "status": "proved",
   "theorems": [
    "C48_wf_is_scoping",
    "C48_shift_variables",
    "C48_subst_variables",
    "C48_subst_wf",
    "C48_shift_wf",
    "C48_sbst_is_subst",
    "C48_sbst_open_refuted",
    "C48_eval_closed",
    "C48_eval_no_outer_variables",
    "C48_answers_are_values",
    "C48_values_evaluate",
    "C48_value_test",
    "C48_maxFree",
    "C48_shift_shift",
    "C48_shift_subst",
    "C48_subst_shifted",
    "C48_subst_subst"
   ],
   "note": "The shifting substitution for all well-scoped substitutes; the non-shifting one, which evaluation uses, for closed substitutes, where it is the same function (C48_sbst_open_refuted shows that closedness is needed)."
  },
  {
   "property": "C65",
   "status": "partial",
   "theorems": [
    "C65_semantics_agree",
    "C65_semantics_agree_plain",
    "C65_proofs_and_literals_refuted",
    "C65_environment_deterministic",
    "C65_environment_answers_closed"
   ],
   "note": "Proved for closed terms without proofs and literals, and for all closed terms once the environment semantics is given the three missing rules; with the rules in the code the equivalence is refuted for proofs, literals and applied proofs. Fuel, traces and out-of-time answers of the environment semantics are not modelled."
  },
  {
   "property": "C49",
   "status": "partial",
   "theorems": [
    "C49_closed",
    "C49_well_formed",
    "C49_index",
    "C49_constant",
    "C49_prims_wf_refuted"
   ],
   "note": "Closedness and index exactness for all environments and primitive tables; the invariant exp_wf for programs without primitives, and refuted for programs with primitives."
  },
  {
   "property": "C50",
   "status": "proved",
   "theorems": [
    "C50_single_valued",
    "C50_sound",
    "C50_complete",
    "C50_monotone",
    "C50_lists",
    "C50_no_value_no_answer",
    "C50_values",
    "C50_preserves_wf",
    "C50_more_globals",
    "C50_shadowing_refuted"
   ],
   "note": "For all environments, terms and timers, including the half the code leaves admitted. The exception monad is an option: error messages are not modelled."
  },
  {
   "property": "C66",
   "status": "proved",
   "theorems": [
    "C66_exact",
    "C66_globals_unique",
    "C66_data",
    "C66_evaluators",
    "C66_unused_global_refuted"
   ],
   "note": "For all well-formed programs without primitives (the target semantics gives primitive operations no meaning). Globals are evaluated eagerly by the translation, which the statement makes explicit and C66_unused_global_refuted witnesses."
  },
  {
   "property": "C54",
   "status": "proved",
   "theorems": [
    "C54_total",
    "C54_closed",
    "C54_unique_bindings",
    "C54_evaluator_exact",
    "C54_evaluator_monotone",
    "C54_plain_safe",
    "C54_preserves",
    "C54_preserves_plain",
    "C54_preserves_divergence",
    "C54_preserves_safety",
    "C54_reflects",
    "C54_from_erased",
    "C54_primitive",
    "C54_tables",
    "C54_applied_proof_refuted"
   ],
   "note": "For all closed well-formed terms, all fresh-name counters and tag tables that tell known constructors apart (which the tables built from declarations do, C54_tables). Terms in which an erased proof is applied are excluded: for them preservation is refuted (C54_applied_proof_refuted). Results are compared as constructor trees with functions as leaves; function behaviour is covered by applying the function in the program. Fuel and traces of the code's semantics are not modelled."
  },
  {
   "property": "C28",
   "status": "proved",
   "theorems": [
    "C28_functions_closed",
    "C28_functions_kept",
    "C28_no_new_free",
    "C28_unique",
    "C28_hoistable",
    "C28_preserves",
    "C28_tables",
    "C28_then_hoist"
   ],
   "note": "Closedness, names and no new free variables for every program; unique binding, legality of hoisting, evaluation and tables for programs whose names are unique and below the next fresh name (C28_unique_needed shows the first is necessary) and a closure tag that is not yet in the constructor table. Results are the same up to functions becoming two-field closures; data is unchanged. Free variables of the program may hold data only. The names recorded for printing are not modelled."
  },
  {
   "property": "C55",
   "status": "proved",
   "theorems": [
    "C55_rewrites_preserve",
    "C55_pass_is_rewrites",
    "C55_total",
    "C55_preserves",
    "C55_names",
    "C55_tables"
   ],
   "note": "About the pass the pipeline runs (uncurry_proto.v). Every program, any number of rewrites, direct and continuation-passing style; the pass succeeds exactly when the variable counter is ahead of every name. Results have the same shape (functions are not compared), data is equal. Free variables of the program may hold data only. The rewriter framework is transcribed as a fuel-indexed traversal with fuel proved enough; its left-to-right order over children is read from the generated code and matters only for which fresh name is used where."
  },
  {
   "property": "C51",
   "status": "partial",
   "theorems": [
    "C51_get_tag",
    "C51_make",
    "C51_round_trip_partial",
    "C51_compiled_values",
    "C51_make_compiled",
    "C51_many_constructors_refuted",
    "C51_alloc_make_no_space_check_refuted"
   ],
   "note": "Every type, constructor and number of C arguments, both styles, any program the file is linked into. The round trip holds for types with at most 256 constructors with arguments and is refuted beyond (C51_many_constructors_refuted); the allocating constructor functions also never check for space (C51_alloc_make_no_space_check_refuted). The tag reader is also shown right for every value a compiled program builds with the table of C34, and the words the constructor functions return are shown to denote the values of a compiled program."
  },
  {
   "property": "C52",
   "status": "proved",
   "theorems": [
    "C52_names",
    "C52_identifiers"
   ],
   "note": "Every list of types and names: rows, width, total size and distinct identifiers."
  },
  {
   "property": "C53",
   "status": "proved",
   "theorems": [
    "C53_call",
    "C53_call_cps",
    "C53_halt",
    "C53_compiled"
   ],
   "note": "Every number of C arguments and both styles. For direct style also end to end: a closure of any compiled program called through the glue returns a word denoting the value of the source function body (or the collector aborts). Continuation-passing style: the call and the halt continuation are exact, the compiled code in between is not covered by C63 and so is not composed."
  },
  {
   "property": "C67",
   "status": "proved",
   "theorems": [
    "C67_total",
    "C67_preserves",
    "C67_names"
   ],
   "note": "Every program, evaluation, option and counter state. Free variables of the program may hold data (constructors and numbers) but not functions."
  },
  {
   "property": "C68",
   "status": "partial",
   "theorems": [
    "C68_lifted_closed",
    "C68_conservative_refuted"
   ],
   "note": "Proved for the setting that redirects every call (inl_wrappers on), refuted for the conservative setting (C68_conservative_refuted)."
  },
  {
   "property": "C69",
   "status": "partial",
   "theorems": [
    "C69_tags",
    "C69_table",
    "C69_recorded_arity_refuted"
   ],
   "note": "Tags still determine numbers of arguments and the table is only extended; that the new entries are right is refuted (C69_recorded_arity_refuted)."
  },
  {
   "property": "C70",
   "status": "partial",
   "theorems": [
    "C70_added_parameters",
    "C70_parameter_bound_refuted"
   ],
   "note": "At most that many parameters are added to a function; that the total stays within the bound is refuted (C70_parameter_bound_refuted)."
  },
  {
   "property": "C71",
   "status": "proved",
   "theorems": [
    "C71_shrink",
    "C71_total"
   ],
   "note": "Every program with unique names, any environment and constructor table. Primitive operations have no evaluation rule in the semantics of the repository either, so nothing is claimed about what they return."
  },
  {
   "property": "C72",
   "status": "proved",
   "theorems": [
    "C72_shrink_names"
   ],
   "note": "Every program with unique names."
  },
  {
   "property": "C73",
   "status": "proved",
   "theorems": [
    "C73_shrink_n_times",
    "C73_shrink_n_times_top"
   ],
   "note": "Any number of passes. The counts are shown to be upper bounds; that they are exact is shown for the single rewrites in C33."
  },
  {
   "property": "C74",
   "status": "proved",
   "theorems": [
    "C74_pipeline"
   ],
   "note": "Direct-style and CPS settings alike: the passes are run as the options say. The passes are the ones modelled for C28, C29, C55, C60, C67, C71; the table of printed names and the log are not followed."
  },
  {
   "property": "C75",
   "status": "proved",
   "theorems": [
    "C75_pipeline_names"
   ],
   "note": "As C74."
  },
  {
   "property": "C76",
   "status": "proved",
   "theorems": [
    "C76_value",
    "C76_answer",
    "C76_divergence"
   ],
   "note": "The passes are those of C74 and the code generator that of C64. The semantics of the intermediate language that the passes are proved for (`bstep` of eval.v) has no rules for primitive operations and literals: programs that run one are stuck there, and the theorem says nothing about them."
  },
  {
   "property": "C77",
   "status": "proved",
   "theorems": [
    "C77_value",
    "C77_data",
    "C77_answer",
    "C77_divergence",
    "C77_from_erased"
   ],
   "note": "Direct style (the A-normal front end, not CPS). Programs have no literals and no primitive operations (the semantics of the intermediate language has no rules for them), and no erased proof is applied on the way (`esafe false`; automatic for programs without proofs, see C54). Kernel names of type packs are numbers with an injective printing function."
  },
  {
   "property": "C78",
   "status": "proved",
   "theorems": [
    "C78_value",
    "C78_answer",
    "C78_divergence",
    "C78_erased_data",
    "C78_erased_safe",
    "C78_check"
   ],
   "note": "The machine limits (`fits`: ordinals of constructors with arguments below 251, arities and sizes in their bit fields, at most 1024 parameters or as many as there are C parameters) are asked of the program that the passes hand to the code generator; `C78_check` decides them and is run in the examples. Nothing is asked about function tags: a table entry that does not fit a call makes the code generator fail. For LambdaANF programs the main expression must not end in a tail call (see `C63_main_tail_call_refuted`); erased programs never give such a one. Direct style; no literals and primitives in runs."
  },
  {
   "property": "C79",
   "status": "proved",
   "theorems": [
    "C79_total",
    "C79_closed",
    "C79_names",
    "C79_preserves",
    "C79_preserves_divergence",
    "C79_preserves_safety",
    "C79_reflects",
    "C79_from_erased",
    "C79_agrees_with_direct",
    "C79_primitive",
    "C79_unique_bindings_refuted",
    "C79_applied_proof_refuted"
   ],
   "note": "Terms that apply an erased proof are excluded (`esafe false`), as for A-normalisation. Every converted program binds one name twice (`C79_unique_bindings_refuted`)."
  },
  {
   "property": "C80",
   "status": "proved",
   "theorems": [
    "C80_value",
    "C80_data",
    "C80_answer",
    "C80_divergence",
    "C80_from_erased",
    "C80_agrees_with_direct"
   ],
   "note": "Same programs as C77. The first fresh name is at least 3 (the compiler starts at 100)."
  },
  {
   "property": "C81",
   "status": "partial",
   "theorems": [
    "C81_program_value_partial",
    "C81_program_safe_partial",
    "C81_program_diverges_partial",
    "C81_stale_limit_refuted",
    "C81_main_case_refuted",
    "C81_letapp_refuted",
    "C81_float_literal_refuted"
   ],
   "note": "Proved for collectors that also keep the end of the free area where it is; without that the code is refuted (limit is not reloaded after a collection). Missing: primitives and literals (the source semantics has no rule), a case analysis in the main expression and calls that are not tail calls (both refuted)."
  },
  {
   "property": "C82",
   "status": "partial",
   "theorems": [
    "C82_value_partial",
    "C82_answer_partial",
    "C82_divergence_partial",
    "C82_erased_data_partial",
    "C82_erased_safe_partial",
    "C82_from_erased_partial",
    "C82_from_metarocq_partial",
    "C85_eval_cps_partial",
    "C82_agrees_with_direct_partial",
    "C82_check"
   ],
   "note": "Proved for programs within the machine limits whose main expression makes no case analysis (both decidable, C82_check) and collectors that keep the end of the free area; C81 refutes both without. Missing: primitives and literals."
  },
  {
   "property": "C83",
   "status": "proved",
   "theorems": [
    "C83_wellformed",
    "C83_evaluates",
    "C83_single_valued",
    "C83_reflects",
    "C83_reflects_suspensions_refuted",
    "C83_lifting",
    "C83_substitution",
    "C83_errors",
    "C83_data",
    "C83_globals",
    "C83_to_local",
    "C83_from_local",
    "C83_to_wasm",
    "C83_to_wasm_cps",
    "C83_to_c"
   ],
   "note": "The statement is proved in full; the corollary for C carries the machine limits of C78, and the one for C in continuation-passing style is listed under C82. C83_reflects_suspensions_refuted shows that the restriction of the converse to terms without suspensions is needed."
  },
  {
   "property": "C84",
   "status": "proved",
   "theorems": [
    "C84_expressions",
    "C84_declarations",
    "C84_type_names",
    "C84_statements",
    "C84_functions",
    "C84_integers",
    "C84_float_text",
    "C84_double_minus_refuted",
    "C84_callee_refuted",
    "C84_integral_floats_refuted",
    "C84_infinite_floats_refuted",
    "C84_smallest_long_refuted",
    "C84_function_type_names_refuted",
    "C84_volatile_value_refuted",
    "C84_labels_refuted",
    "C84_of_int_refuted"
   ],
   "note": "Proved for the printed fragment: everything but built-in statements, loops with a continue part, single-precision constants, initialisers and composite definitions. The conditions exclude exactly the constructs of the refutations. Function results are base types or pointers to such."
  },
  {
   "property": "C85",
   "status": "proved",
   "theorems": [
    "C85_reads_back",
    "C85_eval",
    "C85_orders",
    "C85_latest_order",
    "C85_cyclic_order_refuted",
    "C85_dependent_parameter_refuted",
    "C85_only_lets_refuted",
    "C85_proofs_refuted",
    "C85_many_constructors_refuted"
   ],
   "note": "Proved for types in weak head normal form, for constructors and primitive integers. The conditions exclude exactly the declarations of the refutations, and argument types that are applications of a parameter. The same end to end in continuation-passing style is C85_eval_cps_partial, listed under C82."
  },
  {
   "property": "C86",
   "status": "proved",
   "theorems": [
    "C86_next_name",
    "C86_fresh_name",
    "C86_symbols",
    "C86_build",
    "C86_files",
    "C86_same_program",
    "C86_eval",
    "C86_values",
    "C86_numbers_refuted",
    "C86_quote_refuted",
    "C86_collision_refuted",
    "C86_new_order_refuted",
    "C86_same_file_refuted",
    "C86_options_refuted",
    "C86_suffix_refuted",
    "C86_cps_refuted"
   ],
   "note": "Proved for all sessions of the modelled commands. Compiling, linking and running a program is one function of options, orders and program; that it returns a representation of the value is C85_eval."
  },
  {
   "property": "C87",
   "status": "proved",
   "theorems": [
    "C87_closure",
    "C87_apply",
    "C87_call",
    "C87_history",
    "C87_names",
    "C87_types",
    "C87_constant_refuted",
    "C87_no_check_refuted",
    "C87_direct_refuted",
    "C87_collecting_refuted",
    "C87_names_refuted"
   ],
   "note": "Proved for the generated functions of every field, both styles (for direct style: as far as the result is left in the args array). Reading the class out of the Rocq environment is not modelled; types, casts and headers of the printed program are left out."
  },
  {
   "property": "C88",
   "status": "proved",
   "theorems": [
    "C88_program",
    "C88_file",
    "C88_layout",
    "C88_strings",
    "C88_bytes_refuted",
    "C88_space_refuted",
    "C88_floats_refuted",
    "C88_negative_char_refuted",
    "C88_digit_guard_refuted",
    "C88_same_guard_refuted",
    "C88_composite_attributes_refuted",
    "C88_late_variable_refuted"
   ],
   "note": "Proved for all programs meeting prog_ok: names are C identifiers, statements are those of C84, variables have no floats in initialisers and no names of string literals (these are C88_strings), composites have no attributes. Bodies are compared as in C84."
  },
  {
   "property": "C89",
   "status": "proved",
   "theorems": [
    "C89_copy",
    "C89_raw_refuted",
    "C89_shared_with_argument_refuted",
    "C89_sharing_refuted"
   ],
   "note": "Proved for every allocator meeting the stated contract of caml_alloc (an instance that moves everything at every allocation is given). The C stack is unbounded in the model."
  },
  {
   "property": "C90",
   "status": "proved",
   "theorems": [
    "C90_compiler",
    "C90_checker",
    "C90_checker_literals_refuted"
   ],
   "note": "Proved for all programs. Trusted: the order of constructors and fields in MetaRocq, which is not in the repository, and that sets are the only records with one field besides proofs."
  },
  {
   "property": "C91",
   "status": "proved",
   "theorems": [
    "C91_freshen",
    "C91_same_names_refuted",
    "C91_capture_refuted"
   ],
   "note": "Proved for all programs; the two refutations show that both assumptions are needed. The compiler state is reduced to the next variable."
  },
  {
   "property": "C92",
   "status": "proved",
   "theorems": [
    "C92_intern",
    "C92_tags"
   ],
   "note": "Proved for all element types and maps; all lemmas admitted in HashMap.v hold, and so do those left open in tags.v."
  },
  {
   "property": "C93",
   "status": "partial",
   "theorems": [
    "C93_bytes",
    "C93_strings",
    "C93_ascii_strings",
    "C93_nats",
    "C93_nat_min_refuted",
    "C93_words",
    "C93_numerals",
    "C93_power_of_two"
   ],
   "note": "Proved for all inputs, except that the smallest OCaml integer, which is negative, does not become the unary zero: `C93_nat_min_refuted`."
  },
  {
   "property": "C94",
   "status": "partial",
   "theorems": [
    "C94_evaluator",
    "C94_cost",
    "C94_fuel_partial",
    "C94_fuel_refuted",
    "C94_small_partial",
    "C94_small_refuted",
    "C94_case_refuted"
   ],
   "note": "The evaluator, the big steps and the costs agree on all programs. Fuel and small steps agree with them except on the forms they have no rule for, where the agreement is false: `C94_fuel_refuted`, `C94_small_refuted`."
  },
  {
   "property": "C95",
   "status": "partial",
   "theorems": [
    "C95_free",
    "C95_cost",
    "C95_levels",
    "C95_set",
    "C95_set_refuted",
    "C95_run",
    "C95_count",
    "C95_count_refuted"
   ],
   "note": "All bounds are proved. The two last sentences are false: binding a name again can make an environment smaller (`C95_set_refuted`; `C95_set` has the inequality, and the equation if nothing larger is overwritten), and the count of functions counts other things (`C95_count_refuted`; `C95_count` has the bound from below)."
  },
  {
   "property": "C96",
   "status": "partial",
   "theorems": [
    "C96_rules",
    "C96_two_runs",
    "C96_compose",
    "C96_stateless",
    "C96_separate_partial",
    "C96_separate_refuted",
    "C96_link_partial",
    "C96_link_refuted",
    "C96_commutes_partial",
    "C96_commutes_refuted",
    "C96_concretize",
    "C96_concretize_refuted"
   ],
   "note": "Composition is proved in full. The three statements about linking are false for passes that look at the state (`C96_separate_refuted`, `C96_link_refuted`, `C96_commutes_refuted`) and proved for passes that do not; passes made with the combinators of the pipeline do not (`C96_stateless`)."
  },
  {
   "property": "C97",
   "status": "proved",
   "theorems": [
    "C97_blocks",
    "C97_closed",
    "C97_environment",
    "C97_size",
    "C97_related_axiom",
    "C97_closed_axiom_refuted",
    "C97_size_axiom_refuted",
    "C97_related_axiom_refuted"
   ],
   "note": "Proved with what is assumed of primitive operations as a hypothesis. The same assumptions for all tables of primitive operations, as the source states them in axioms, are refuted."
  },
  {
   "property": "C98",
   "status": "proved",
   "theorems": [
    "C98_lists",
    "C98_list",
    "C98_open_refuted",
    "C98_fix",
    "C98_free"
   ],
   "note": "Proved for closed terms, the ones evaluation substitutes. For open terms the two differ (`C98_open_refuted`)."
  },
  {
   "property": "C99",
   "status": "proved",
   "theorems": [
    "C99_context",
    "C99_subterm",
    "C99_block",
    "C99_block_refuted",
    "C99_rewrite",
    "C99_many",
    "C99_invariant",
    "C99_split",
    "C99_commute"
   ],
   "note": "Proved in full. The relation between programs and blocks leaves out the bodies themselves (`C99_block_refuted`)."
  }
 ]
}