{"id": "C01", "title": "Tagged integers round-trip and are never mistaken for pointers", "statement": "Boxing any machine integer in the documented range into a runtime value and reading it back yields the same integer; the resulting word is classified as an immediate, never as a block; two different in-range integers never share a word; outside the documented range the round trip fails.", "quantifier": "every 64-bit word and every integer in [Min_long, Max_long]", "why_tests_cant": "2^63 inputs; the interesting ones are the overflow boundaries where C shifts wrap.", "anchors": ["runtime/values.h: Val_long, Long_val, Unsigned_long_val, Is_long, Is_block, Max_long, Min_long", "runtime/rocq_c_ffi.c"]}
{"id": "C02", "title": "Block headers decode to what was encoded", "statement": "A header built from a size and a tag decodes to exactly that size and that tag whenever the size is at most the maximal block size and the tag is below 256; the classification into scanned and opaque blocks depends on the tag only.", "quantifier": "every size up to 2^54-1 and every tag 0..255", "why_tests_cant": "The space of headers is too large to enumerate and both fields share one word.", "anchors": ["runtime/values.h: Wosize_hd, Tag_hd, Max_wosize, No_scan_tag", "runtime/gc_stack.h: No_scan_tag"]}
{"id": "C03", "title": "A collection keeps the reachable object graph", "statement": "After one generation is collected into the next, the graph reachable from the stack-frame roots is isomorphic to the graph before: same shape, same tags and sizes, same immediate values, same sharing, opaque payload copied bit for bit, and pointers outside the collected generation unchanged.", "quantifier": "every heap contents, every set of stack frames, every pair of generations satisfying the heap invariant", "why_tests_cant": "Graph shapes, cycles and sharing are unbounded; bugs corrupt data silently and only under particular aliasing.", "anchors": ["runtime/gc_stack.c: forward, forward_roots, do_scan, do_generation, Is_from", "runtime/gc_stack.h: struct space, struct stack_frame"]}
{"id": "C04", "title": "A collection never writes outside the destination space", "statement": "While a generation is being collected, if the source generation is no larger than the free room of the destination, every object copied fits: the destination's bump pointer never passes its limit and no word outside the destination space, the collected space and the root slots is modified.", "quantifier": "every heap contents and root set", "why_tests_cant": "Needs the global fact that each object is copied at most once.", "anchors": ["runtime/gc_stack.c: forward, do_scan, do_generation"]}
{"id": "C05", "title": "After garbage collection the mutator gets the room it asked for", "statement": "When the collector returns normally, the allocation area has at least as many free words as were requested; if it cannot provide them it aborts instead of returning.", "quantifier": "every heap state, every request", "why_tests_cant": "Depends on which generations are full at that moment.", "anchors": ["runtime/gc_stack.c: garbage_collect, resume", "runtime/gc_stack.h: garbage_collect spec comment"]}
{"id": "C06", "title": "The generation-size discipline is maintained", "statement": "Between collections the runtime maintains that the words in use plus still allocatable in generation i fit in the free room of generation i+1, for every existing i except the newest; garbage_collect preserves it, so each collection step's precondition always holds.", "quantifier": "every sequence of allocations and collections", "why_tests_cant": "It is an invariant over unbounded histories.", "anchors": ["runtime/gc_stack.c: garbage_collect, do_generation, create_space"]}
{"id": "C07", "title": "Mutable updates keep old-to-young pointers visible to the collector", "statement": "After any sequence of field updates through the write barrier, every cell outside the nursery that was updated to hold a nursery pointer is a recorded root, so a following collection of the nursery rewrites that cell to the object's new address.", "quantifier": "every sequence of updates", "why_tests_cant": "Missing one record leaves a dangling pointer visible only after a later collection.", "anchors": ["runtime/gc_stack.c: certirocq_modify, forward_remset, do_generation"]}
{"id": "C08", "title": "Exporting a value yields a self-contained copy", "statement": "Collecting everything and exporting a value produces a copy isomorphic to the original that lies entirely inside the returned region.", "quantifier": "every heap and root value", "why_tests_cant": "Unbounded graphs, several generations.", "anchors": ["runtime/gc_stack.c: garbage_collect_all, export_heap"]}
{"id": "C09", "title": "C runtime: primitive 63-bit integer arithmetic equals Rocq's", "statement": "For all 63-bit unsigned integers, add, sub, mul, div, mod, land, lor, lxor, lsl, lsr, eqb and compare of the C runtime return the tagged representation of exactly the value Rocq's Uint63 specification gives (results modulo 2^63, division by zero gives 0, x mod 0 = x, shifts by >= 63 give 0).", "quantifier": "all pairs of 63-bit integers", "why_tests_cant": "2^126 input pairs; errors sit at wrap-around boundaries.", "anchors": ["runtime/prim_int63.c: prim_int63_add, _sub, _mul, _div, _mod, _land, _lor, _lxor, _lsl, _lsr, _eqb, _compare"]}
{"id": "C10", "title": "C runtime: primitive 63-bit order tests equal Rocq's", "statement": "ltb and leb on 63-bit unsigned integers return true exactly when the Uint63 specification says so.", "quantifier": "all pairs of 63-bit integers", "why_tests_cant": "The comparison is wrong only when one operand is above 2^62.", "anchors": ["runtime/prim_int63.c: prim_int63_ltb, prim_int63_leb"]}
{"id": "C11", "title": "C runtime: signed primitive integer operations equal Rocq's", "statement": "asr, divs and mods on 63-bit integers return what Rocq's Sint63 specification gives (arithmetic shift, truncated signed division and remainder).", "quantifier": "all pairs of 63-bit integers", "why_tests_cant": "Only negative operands expose errors.", "anchors": ["runtime/prim_int63.c: prim_int63_asr, prim_int63_divs, prim_int63_mods"]}
{"id": "C12", "title": "C runtime: carry operations equal Rocq's", "statement": "addc, addcarryc, subc and subcarryc return C0 or C1 of the right 63-bit result with the carry flag set exactly when the true sum or difference leaves the 63-bit range.", "quantifier": "all pairs of 63-bit integers", "why_tests_cant": "Carry boundaries.", "anchors": ["runtime/prim_int63.c: prim_int63_addc, _addcarryc, _subc, _subcarryc"]}
{"id": "C13", "title": "C runtime: double-width integer operations equal Rocq's", "statement": "mulc returns the high and low 63-bit halves of the product; diveucl returns quotient and remainder; diveucl_21 divides a 126-bit number by a 63-bit number; addmuldiv, head0 and tail0 satisfy their Uint63 specifications.", "quantifier": "all 63-bit operands", "why_tests_cant": "126-bit intermediate results.", "anchors": ["runtime/prim_int63.c: prim_int63_mulc, prim_int63_mulc_aux, _diveucl, _diveucl_21, _addmuldiv, _head0, _tail0"]}
{"id": "C14", "title": "C runtime primitives reserve the heap words they write", "statement": "Every primitive that allocates a result first makes sure the allocation area has room for all words it writes, so that no primitive writes past the limit of the allocation area.", "quantifier": "every allocation-area state and every operand", "why_tests_cant": "Fails only when the allocation area is almost full.", "anchors": ["runtime/prim_int63.c: mk_pair / alloc_make_*", "runtime/prim_string.c: prim_string_make, prim_string_sub, prim_string_cat", "runtime/prim_floats.c"]}
{"id": "C15", "title": "Runtime strings know their length and contents", "statement": "A runtime string created from a byte sequence reports the length of the sequence, and reading position i gives byte i of the sequence, for every length and every content including zero bytes.", "quantifier": "every byte sequence", "why_tests_cant": "Length is encoded through padding; all residues of the length modulo the word size and all last bytes matter.", "anchors": ["runtime/prim_string.c: prim_strlen, prim_string_get, mk_ocaml_string"]}
{"id": "C16", "title": "Runtime string make / sub / cat compute the specified strings", "statement": "Creating a constant string, taking a substring and concatenating return runtime strings holding exactly the bytes of Rocq's primitive-string specification.", "quantifier": "every string, index and length", "why_tests_cant": "Unbounded sizes.", "anchors": ["runtime/prim_string.c: prim_string_make, prim_string_sub, prim_string_cat, prim_string_compare"]}
{"id": "C17", "title": "Runtime float comparison follows IEEE", "statement": "compare, equal and classify on runtime floats return what the IEEE-754 specification gives on the stored doubles, independently of where the floats are stored.", "quantifier": "every pair of doubles, every pair of heap addresses", "why_tests_cant": "2^128 pairs; result depends on addresses.", "anchors": ["runtime/prim_floats.c: prim_float_compare, prim_float_equal, prim_float_classify"]}
{"id": "C18", "title": "Runtime float successor and predecessor", "statement": "next_up returns the least double greater than a finite argument and next_down the greatest double smaller; they agree with the specification at zeroes, subnormals, infinities and NaN.", "quantifier": "every double", "why_tests_cant": "2^64 inputs with special cases.", "anchors": ["runtime/prim_floats.c: prim_float_next_up, prim_float_next_down"]}
{"id": "C19", "title": "Runtime float conversions", "statement": "of_uint63 converts a 63-bit unsigned integer to the nearest double; ldshiftexp scales by a power of two and returns a float; frshiftexp returns a mantissa/exponent pair; normfr_mantissa returns the scaled mantissa.", "quantifier": "every integer / every double", "why_tests_cant": "Wrong only for large arguments.", "anchors": ["runtime/prim_floats.c: prim_float_of_uint63, prim_float_ldshiftexp, prim_float_frshiftexp, prim_float_normfr_mantissa"]}
{"id": "C20", "title": "Unbounded-integer runtime operations compute integer arithmetic", "statement": "Operations on the runtime representation of unbounded integers (small tagged integers or big blocks) return a value representing the exact mathematical result.", "quantifier": "every pair of integers", "why_tests_cant": "The representation switches at +-2^62, only boundary operands expose errors.", "anchors": ["runtime/certirocq_gmp.c"]}
{"id": "C21", "title": "Foreign-function helpers recover constructors and arguments", "statement": "The ordinal helpers used by C client code return the constructor ordinal that the compiler's representation assigns, for nullary and non-nullary constructors; the coq-string helpers return the number of characters and the characters.", "quantifier": "every constructor ordinal, every coq string value", "why_tests_cant": "Unbounded values.", "anchors": ["runtime/get_ordinal.c: get_unboxed_ordinal, get_boxed_ordinal", "runtime/rocq_c_ffi.c: length_of_coq_string, string_of_coq_string"]}
{"id": "C22", "title": "Evaluation of the intermediate language is deterministic", "statement": "A program of the A-normal-form language has at most one result: two evaluations with any amounts of fuel that both finish agree on the value, and adding fuel never changes a finished result.", "quantifier": "every program, environment and amount of fuel", "why_tests_cant": "Programs and fuel are unbounded.", "anchors": ["theories/LambdaANF/eval.v: bstep, bstep_fuel", "theories/LambdaANF/cps.v: exp, val"]}
{"id": "C23", "title": "Evaluation depends only on free variables", "statement": "Two environments that agree on the free variables of a program give it the same result.", "quantifier": "every program and pair of environments", "why_tests_cant": "Unbounded programs.", "anchors": ["theories/LambdaANF/eval.v: bstep", "theories/LambdaANF/identifiers.v: exp_fv, occurs_free"]}
{"id": "C24", "title": "The free-variable computation is exact", "statement": "The computed set of free variables of a program contains a variable if and only if it occurs free in the program.", "quantifier": "every program", "why_tests_cant": "Unbounded programs with shadowing.", "anchors": ["theories/LambdaANF/cps_util.v / identifiers.v: exp_fv, fundefs_fv, occurs_free"]}
{"id": "C25", "title": "Fresh names are fresh", "statement": "Every name handed out by the compilation state is different from every name handed out before and from every name of the input program, so passes never capture variables.", "quantifier": "every program and every sequence of requests", "why_tests_cant": "Unbounded sequences.", "anchors": ["theories/LambdaANF/state.v: get_name, get_names_lst", "theories/LambdaANF/identifiers.v: max_var", "theories/LambdaANF/inline.v: restart_names"]}
{"id": "C26", "title": "Hoisting produces a flat program with the same functions", "statement": "Hoisting a closure-converted program yields a single top-level function bundle whose functions contain no further function definitions, containing every function of the input exactly once, with unchanged bodies apart from removed definitions.", "quantifier": "every program", "why_tests_cant": "Unbounded nesting.", "anchors": ["theories/LambdaANF/hoisting.v: erase_fundefs, erase_nested_fundefs, exp_hoist"]}
{"id": "C27", "title": "Hoisting preserves evaluation", "statement": "For closed functions with unique names, the hoisted program evaluates to the same result as the original.", "quantifier": "every program satisfying the pass's precondition, every fuel", "why_tests_cant": "Unbounded executions.", "anchors": ["theories/LambdaANF/hoisting.v: exp_hoist", "theories/LambdaANF/eval.v"]}
{"id": "C28", "title": "Closure conversion closes every function", "statement": "After closure conversion every function definition has no free variables other than the functions of its own bundle or known closed functions, so hoisting is legal.", "quantifier": "every program", "why_tests_cant": "Unbounded nesting of functions and environments.", "anchors": ["theories/LambdaANF/closure_conversion.v: exp_closure_conv, closure_conversion_top"]}
{"id": "C29", "title": "Dead-parameter elimination preserves evaluation", "statement": "Removing parameters judged dead and the corresponding arguments at every call never changes the result of a hoisted program.", "quantifier": "every hoisted program with unique names, every fuel", "why_tests_cant": "The analysis is a fixpoint over arbitrary call graphs, incl. escaping functions and mutual recursion.", "anchors": ["theories/LambdaANF/dead_param_elim.v: find_live, live_expr, eliminate_expr, DPE"]}
{"id": "C30", "title": "Dead-parameter analysis reaches a sound fixpoint", "statement": "If the analysis finishes with an answer, then in every function each parameter that is used, or passed to a parameter kept by the callee, is kept; functions that escape keep all parameters.", "quantifier": "every hoisted program", "why_tests_cant": "Iteration over arbitrary call graphs.", "anchors": ["theories/LambdaANF/dead_param_elim.v: live, find_live_helper, escaping_fun_exp"]}
{"id": "C31", "title": "Inlining a call in the middle of a program preserves its meaning", "statement": "Replacing 'let z be the result of body' by the body with its final call or result redirected to z preserves evaluation.", "quantifier": "every body without branching and every continuation", "why_tests_cant": "Unbounded bodies.", "anchors": ["theories/LambdaANF/inline_letapp.v: inline_letapp"]}
{"id": "C32", "title": "Renaming variables commutes with evaluation", "statement": "Simultaneously renaming free variables of a program by a substitution, without capture, and looking them up through the substitution in the environment give the same result.", "quantifier": "every program, substitution, environment", "why_tests_cant": "Unbounded programs; capture happens only in special shapes.", "anchors": ["theories/LambdaANF/rename.v / shrink_cps.v: rename_all, apply_r"]}
{"id": "C33", "title": "The census counts occurrences", "statement": "The census used by the shrink reducer gives for every variable the number of its (free and bound) uses in the program, and its decrement removes exactly the occurrences of a deleted subterm.", "quantifier": "every program", "why_tests_cant": "Unbounded programs; a wrong count deletes live code.", "anchors": ["theories/LambdaANF/shrink_cps.v: init_census, update_census, dec_census"]}
{"id": "C34", "title": "Constructor layout is unambiguous", "statement": "Within one datatype no two constructors are given the same runtime representation: constructors without arguments get pairwise distinct ordinals, constructors with arguments get pairwise distinct ordinals, numbered consecutively from zero in declaration order.", "quantifier": "every datatype declaration", "why_tests_cant": "Any number of constructors with any mix of arities.", "anchors": ["theories/LambdaANF/LambdaBoxLocal_to_LambdaANF.v: convert_cnstrs, convert_typack, convert_env"]}
{"id": "C35", "title": "C back end: runtime tags distinguish constructors and are scanned by the collector", "statement": "The words emitted for two different constructors of one datatype differ, the emitted switch selects the branch of the constructor that was built, and the tag stays below the collector's opaque-tag threshold.", "quantifier": "every ordinal and arity accepted by the compiler", "why_tests_cant": "Fails only for datatypes with very many constructors.", "anchors": ["theories/Codegen/LambdaANF_to_Clight_stack.v: make_ctor_rep, makeTagZ, make_case_switch", "runtime/gc_stack.h: No_scan_tag"]}
{"id": "C36", "title": "C back end: each function reserves all the words it allocates before the next check", "statement": "The number of words requested from the collector on function entry (and after calls) is at least the number of words written to the heap on any path up to the next check.", "quantifier": "every function body and every execution path", "why_tests_cant": "All control paths of arbitrary programs.", "anchors": ["theories/Codegen/LambdaANF_to_Clight_stack.v: max_allocs, translate_body, make_GC_call"]}
{"id": "C37", "title": "C back end: every variable needed after a call is saved as a root", "statement": "Across each call that may collect, every local variable read afterwards has been stored in the function's root frame and is reloaded from the same slot.", "quantifier": "every function body and every call", "why_tests_cant": "Arbitrary programs.", "anchors": ["theories/Codegen/LambdaANF_to_Clight_stack.v: translate_body, push_live_vars_offset, pop_live_vars_offset, update_stack"]}
{"id": "C38", "title": "C back end: arguments arrive at the parameters", "statement": "At a call with n arguments the caller stores argument i where the callee reads parameter i, including when some stores are optimised away because the slot already holds the value.", "quantifier": "every call and every calling convention parameter", "why_tests_cant": "The optimisation is wrong only after intermediate calls.", "anchors": ["theories/Codegen/LambdaANF_to_Clight_stack.v: asgnAppVars_fast, remove_AppVars, asgnFunVars"]}
{"id": "C39", "title": "C back end: string literals have the runtime string layout", "statement": "The words emitted for a string literal decode, with the runtime's length and byte access, to the literal.", "quantifier": "every string", "why_tests_cant": "All lengths modulo word size.", "anchors": ["theories/Codegen/LambdaANF_to_Clight_stack.v: encode_list, compile_string", "runtime/prim_string.c"]}
{"id": "C40", "title": "C back end: emitted C names are unique", "statement": "After the name-fixing pass distinct variables have distinct C names.", "quantifier": "every name environment", "why_tests_cant": "Clashes arise only with adversarial names.", "anchors": ["theories/Codegen/LambdaANF_to_Clight_stack.v: ensure_unique, add_inf_vars"]}
{"id": "C41", "title": "Wasm back end: primitive 63-bit integer operations equal Rocq's", "statement": "The instruction sequences emitted for the primitive integer operations, executed on memory holding 63-bit operands, leave a pointer to the value that Rocq's Uint63 specification gives.", "quantifier": "all 63-bit operands and all memories", "why_tests_cant": "2^126 operand pairs.", "anchors": ["theories/CodegenWasm/LambdaANF_to_Wasm_primitives.v"]}
{"id": "C42", "title": "Wasm back end: allocation never writes outside linear memory", "statement": "Whenever generated code stores a constructor, a closure environment or a primitive value, the whole object lies below the current memory size; if memory cannot be grown the out-of-memory flag is set and execution stops.", "quantifier": "every program, every memory size, success or failure of growth", "why_tests_cant": "Depends on the accumulated static budget along every path.", "anchors": ["theories/CodegenWasm/LambdaANF_to_Wasm.v: grow_memory_if_necessary, call_grow_mem_if_necessary, get_ctor_size, store_constructor"]}
{"id": "C43", "title": "Wasm back end: the restriction check is sound", "statement": "A program accepted by the restriction check never exceeds the argument, function-count, constructor-arity or ordinal bounds that the generated code relies on; nested subterms included.", "quantifier": "every program", "why_tests_cant": "Unbounded nesting.", "anchors": ["theories/CodegenWasm/LambdaANF_to_Wasm_restrictions.v: check_restrictions, expression_restricted"]}
{"id": "C44", "title": "Wasm back end: case analysis takes the right branch", "statement": "The generated comparison chains select the branch of the constructor that built the scrutinee, whether it is boxed or not, and trap if no branch matches.", "quantifier": "every list of branches and every value", "why_tests_cant": "Any number of branches.", "anchors": ["theories/CodegenWasm/LambdaANF_to_Wasm.v: create_case_nested_if_chain, create_case_nested_if_chain, translate_body"]}
{"id": "C45", "title": "Wasm back end: variables and functions get distinct indices", "statement": "Distinct local variables of a function get distinct local indices below the number of declared locals; distinct functions get distinct function indices and table slots; a call with n arguments refers to the type with n parameters.", "quantifier": "every program", "why_tests_cant": "Unbounded programs.", "anchors": ["theories/CodegenWasm/LambdaANF_to_Wasm.v: create_local_variable_mapping, create_var_mapping, create_fname_mapping, list_function_types, table_element_mapping"]}
{"id": "C46", "title": "Wasm back end: export names are unique", "statement": "No two exports of the generated module have the same name, whatever the source names are.", "quantifier": "every program and name environment", "why_tests_cant": "Clashes need adversarial names.", "anchors": ["theories/CodegenWasm/LambdaANF_to_Wasm.v: sanitize_function_name, unique_export_names"]}
{"id": "C47", "title": "De Bruijn evaluation is deterministic and its interpreter is exact", "statement": "The big-step semantics of the local de Bruijn language is deterministic, and the fuel interpreter returns a value with some fuel if and only if the semantics relates the term to it; more fuel never changes the answer.", "quantifier": "every term and every fuel", "why_tests_cant": "Unbounded terms.", "anchors": ["theories/LambdaBoxLocal/expression.v: eval, evals, eval_n, evals_n"]}
{"id": "C48", "title": "Substitution preserves scoping", "statement": "Substituting closed or well-scoped terms yields well-scoped terms, evaluation of closed terms gives closed values, and shifting/substitution commute in the usual ways.", "quantifier": "every term, index and substitute", "why_tests_cant": "Unbounded terms; off-by-one errors on nested binders.", "anchors": ["theories/LambdaBoxLocal/expression.v: shift, subst, sbst_real, exp_wf"]}
{"id": "C49", "title": "Global environments translate to scoped lets", "statement": "Translating a program with a well-formed list of global definitions produces a closed term: every constant reference becomes the de Bruijn index of exactly its own definition.", "quantifier": "every well-formed global environment and term", "why_tests_cant": "Arbitrary environments; off-by-one index errors.", "anchors": ["theories/LambdaBoxLocal/LambdaBoxMut_to_LambdaBoxLocal.v: cst_offset, trans, translate_env, mkLets, translate_program"]}
{"id": "C50", "title": "The executable evaluator of the erased language is sound and complete", "statement": "The timed evaluator returns a term only if the big-step relation derives it, and returns it for all large enough timers if the relation derives it; the relation is single-valued.", "quantifier": "every term, environment and timer", "why_tests_cant": "The source leaves the soundness half admitted.", "anchors": ["theories/LambdaBoxMut/wcbvEval.v: WcbvEval, wcbvEval (wcbvEval_WcbvEval is Admitted)", "theories/LambdaBoxMut/term.v: instantiate, whFixStep, whCaseStep"]}
{"id": "C51", "title": "Glue code recovers constructor indices", "statement": "For every datatype, the generated tag function applied to a value built by the generated constructor function for the k-th declared constructor returns k.", "quantifier": "every datatype and constructor", "why_tests_cant": "Any mix of constant and non-constant constructors, any number of them.", "anchors": ["theories/Glue/glue.v: match_ordinals_with_tag, get_enum_tag_from_types, constructors_from_ctors", "theories/Glue/glue_utils.v: process_ctors"]}
{"id": "C52", "title": "Glue code's constructor-name table is aligned", "statement": "Row k of the generated constructor-name table is the NUL-terminated name of constructor k, and all rows have the same length.", "quantifier": "every list of constructor names", "why_tests_cant": "Arbitrary names.", "anchors": ["theories/Glue/glue.v: normalized_names_array, pad_char_init, string_as_array"]}
{"id": "C53", "title": "Generated calls from C pass closure, environment and argument in the right places", "statement": "For every setting of the number of C arguments, the glue 'call' function delivers the closure's environment and the argument to the positions where compiled functions read their first and second parameters, and returns the function's result.", "quantifier": "every c_args setting, both back ends", "why_tests_cant": "Several calling conventions.", "anchors": ["theories/Glue/glue.v: make_call, make_halt"]}
{"id": "C54", "title": "A-normalisation preserves evaluation", "statement": "If a closed term of the de Bruijn language evaluates to a value then its A-normal form evaluates to a related value (constructor trees are equal up to the tag map).", "quantifier": "every closed well-formed term", "why_tests_cant": "Unbounded terms and executions.", "anchors": ["theories/LambdaANF/LambdaBoxLocal_to_LambdaANF.v: convert_anf, convert_anf_exps, convert_anf_branches, convert_anf_efnlst"]}
{"id": "C55", "title": "Uncurrying preserves evaluation", "statement": "Replacing a curried function by a wrapper around an uncurried copy does not change what any program computes.", "quantifier": "every program", "why_tests_cant": "Depends on shadowing and recursion.", "anchors": ["theories/LambdaANF/uncurry_proto.v: uncurry_step, uncurry_proto, uncurry_top", "theories/LambdaANF/uncurry.v: uncurry_exp, uncurry_fundefs (superseded, not run)"]}
{"id": "C56", "title": "Compiler-state error propagation", "statement": "Once a pass reports an error, no later pass runs and the error is the result of the pipeline; a successful pipeline equals the composition of its passes' results.", "quantifier": "every sequence of passes, every failing position", "why_tests_cant": "Any pass may fail.", "anchors": ["theories/common/compM.v: compM bind", "theories/common/Pipeline_utils.v: CertiRocqTrans, LiftErrorCertiRocqTrans", "theories/Compiler/pipeline.v"]}
{"id": "C57", "title": "Pointers between old generations stay visible to the collector", "statement": "After a field of an object of an old generation has been set through the write barrier to an object of a younger, non-nursery generation, every later collection keeps the graph reachable from the roots: collecting the nursery in between does not lose the record.", "quantifier": "every sequence of updates, allocations and collections", "why_tests_cant": "Needs an update between two particular generations and two collections of different depth in a particular order.", "anchors": ["runtime/gc_stack.c: certirocq_modify, forward_remset, garbage_collect"]}
{"id": "C58", "title": "A full collection leaves a heap the program can continue with", "statement": "After garbage_collect_all (and export_heap) the heap satisfies the invariant the collector relies on: the nursery between its start and the allocation pointer consists of objects, and generations fit into the next.", "quantifier": "every heap state", "why_tests_cant": "Only visible when the program continues after an export.", "anchors": ["runtime/gc_stack.c: garbage_collect_all, export_heap, resume"]}
{"id": "C59", "title": "Function tags still determine the number of parameters after dead-parameter elimination", "statement": "If in the input program every function tag determines the number of parameters of the functions that carry it (and calls agree with the tag of what they call), then after dead-parameter elimination every tag still determines the number of parameters, every call to a known function still agrees with it, and the function-information table records the new number for each new tag.", "quantifier": "every well-formed program and every compiler state whose next tag is fresh", "why_tests_cant": "The pass reuses a tag of the right arity or creates one; a wrongly reused or misrecorded tag only shows when two functions of different arity meet at an unknown call.", "anchors": ["theories/LambdaANF/dead_param_elim.v: eliminate_fundefs, eliminate_expr", "theories/LambdaANF/state.v: get_ftag"]}
{"id": "C60", "title": "Inlining preserves evaluation whatever the heuristic decides", "statement": "For a program whose names are bound once, the inliner's output, for any heuristic that decides which calls to inline and any bounds on depth, returns what the input returns (the same data, or functions that no program can tell apart), diverges if it diverges, returns nothing else if the input does not get stuck, and takes at least a fixed fraction of its steps.", "quantifier": "every program, environment, heuristic with any state, bound, reserved variable", "why_tests_cant": "Which calls are inlined depends on the heuristic and on nesting; capture needs particular names.", "anchors": ["theories/LambdaANF/inline.v: inline_exp, inline_top'", "theories/LambdaANF/inline_letapp.v", "theories/LambdaANF/rename.v"]}
{"id": "C61", "title": "Programs with unrealised axioms are rejected", "statement": "If the program to be compiled still depends on an axiom for which no primitive is registered, compilation fails and the error lists exactly the axioms that have none; if compilation returns code, every axiom of the program has a primitive.", "quantifier": "every program, option, and behaviour of the later steps", "why_tests_cant": "A missed axiom shows only at run time, as a call of nothing.", "anchors": ["theories/Compiler/pipeline.v: find_axioms, check_axioms, pick_prim_ident, pipeline"]}
{"id": "C62", "title": "Registering a constructor tag registers that tag", "statement": "After register_record_ctor_tag c i n the constructor table maps the tag c to arity n of the type i.", "quantifier": "every compilation state, tag, type and arity", "why_tests_cant": "Not called by the passes tests exercise.", "anchors": ["theories/LambdaANF/state.v: register_record_ctor_tag"]}
{"id": "C63", "title": "C back end: compiled programs compute the value of the source program", "statement": "When the program produced by the C back end is run with any conforming garbage collector and any initial heap, it returns a word that denotes the value of the LambdaANF program (or the collector reports that memory is exhausted), it diverges if the LambdaANF program diverges, and it never has undefined behaviour if the LambdaANF program does not get stuck; whatever the caller keeps alive is intact afterwards.", "quantifier": "every program in the shape the pipeline hands to the back end, every nParam, collector, heap size, and run", "why_tests_cant": "Collections at every possible point and arbitrary programs.", "anchors": ["theories/Codegen/LambdaANF_to_Clight_stack.v: translate_body, translate_fundefs, translate_program, compile", "theories/Codegen/toplevel.v: Clight_trans_ANF"]}
{"id": "C64", "title": "Wasm back end: compiled programs compute the value of the source program", "statement": "When the main function of the generated module is called, it returns with a word that represents the value of the LambdaANF program in linear memory, or it returns with the out-of-memory flag set because memory is at its limit or the host refused to grow it; it never traps if the LambdaANF program does not get stuck; it runs forever (or out of memory) if the LambdaANF program diverges; an answer without the flag is the value of the program.", "quantifier": "every program, behaviour of the host when asked to grow memory, and run", "why_tests_cant": "Growth failing at every possible point, arbitrary programs and values.", "anchors": ["theories/CodegenWasm/LambdaANF_to_Wasm.v: translate_body, translate_function, LambdaANF_to_Wasm", "theories/CodegenWasm/LambdaANF_to_Wasm_primitives.v", "theories/CodegenWasm/toplevel.v"]}
{"id": "C65", "title": "De Bruijn language: substitution and environment semantics agree", "statement": "A closed term evaluates to a value in the substitution semantics if and only if the environment semantics, from which the A-normalisation proof starts, gives a value that reads back as that term.", "quantifier": "every closed term, with and without proofs and literals", "why_tests_cant": "The two semantics are relations used only in proofs; nothing executes both.", "anchors": ["theories/LambdaBoxLocal/expression.v: eval, sbst", "theories/LambdaBoxLocal/fuel_sem.v: eval_env_fuel, eval_env_step, make_rec_env_rev_order, well_formed_val"]}
{"id": "C66", "title": "Turning globals into lets preserves and reflects evaluation", "statement": "The program translated from the erased language, its global definitions turned into nested lets, evaluates to a value exactly when every global has a value and the source program evaluates to the corresponding value; first-order results are literally the same.", "quantifier": "every well-formed environment and program without primitives", "why_tests_cant": "Environments of arbitrary length and terms under any number of binders; agreement must hold for diverging programs as well.", "anchors": ["theories/LambdaBoxLocal/LambdaBoxMut_to_LambdaBoxLocal.v: trans, translate_env, mkLets, translate_program", "theories/LambdaBoxMut/wcbvEval.v: WcbvEval", "theories/LambdaBoxLocal/expression.v: eval"]}
{"id": "C67", "title": "Lambda lifting preserves behaviour", "statement": "The lambda-lifting pass never fails, on any program and with any settings. On a program whose names are bound once and whose free names are not bound, the result evaluates to the same constructors and numbers (functions to functions with the same tag and number of parameters), diverges exactly when the source does, and does not get stuck when the source does not. No variable becomes free, every name is still bound once, new names come from the compiler's counter.", "quantifier": "every program of the intermediate language, every evaluation (any fuel), every setting of the three options, every state of the counters", "why_tests_cant": "Which functions are lifted depends on sets of free variables and on options; a wrong argument only shows for particular nestings of functions.", "anchors": ["theories/LambdaANF/lambda_lifting.v", "theories/LambdaANF/state.v"]}
{"id": "C68", "title": "Lifted functions are closed", "statement": "After lambda lifting every function that received a new calling convention uses from outside only functions that are themselves closed, so that no closure has to be built to call it.", "quantifier": "every program, every setting", "why_tests_cant": "Closedness of all lifted functions is a property of the whole program text, not of the result of running it.", "anchors": ["theories/LambdaANF/lambda_lifting.v"]}
{"id": "C69", "title": "Lambda lifting keeps tags and function table consistent", "statement": "After lambda lifting a function tag still determines the number of arguments of all functions and calls that carry it; the function table is only extended, and its entry for a new tag says how many arguments the lifted function takes.", "quantifier": "every program in which tags determine numbers of arguments, every setting", "why_tests_cant": "The table is used by later passes; running the compiled program does not look at it.", "anchors": ["theories/LambdaANF/lambda_lifting.v", "theories/LambdaANF/state.v"]}
{"id": "C70", "title": "Lambda lifting respects the number of argument registers", "statement": "The option for the number of arguments bounds the parameters of lifted functions: a function is not lifted when it would end up with more parameters than that.", "quantifier": "every program, every setting of the option", "why_tests_cant": "The excess arguments are passed through memory, the program still computes the right result.", "anchors": ["theories/LambdaANF/lambda_lifting.v", "theories/LambdaANF/toplevel.v"]}
{"id": "C71", "title": "Shrink reduction preserves behaviour and is never slower", "statement": "The shrink reducer (`shrink_top`) answers on every program. On a program whose names are bound once and are not both bound and free, the reduced program finishes whenever the source does, in at most as many steps, with a result that no program can distinguish from the original one (the same one if it is made of constructors and numbers); it diverges when the source does; and if the source does not get stuck it has no other behaviour. The source is slower by at most a factor linear in its size.", "quantifier": "every program of the intermediate language, every environment, every constructor table, every evaluation (any fuel)", "why_tests_cant": "One pass interleaves inlining, constant folding and dead-code removal, all driven by use counts that change on the way; a wrong count only shows for particular shapes of programs.", "anchors": ["theories/LambdaANF/shrink_cps.v", "theories/LambdaANF/toplevel.v"]}
{"id": "C72", "title": "Shrink reduction keeps names unique and scopes closed", "statement": "After the shrink reducer every name is still bound at most once, no name is both bound and free, every bound name was bound before, and no variable has become free.", "quantifier": "every program whose names are bound once", "why_tests_cant": "Inlined bodies are moved without renaming; a capture needs a particular coincidence of names.", "anchors": ["theories/LambdaANF/shrink_cps.v"]}
{"id": "C73", "title": "Repeated shrink passes stay correct with the census handed on", "statement": "Running the shrink reducer several times, each pass starting from the use counts left by the previous one (`shrink_n_times`), answers for every number of passes, preserves behaviour and names as one pass does, and the counts are never smaller than the number of uses in the program.", "quantifier": "every program whose names are bound once, every number of passes, every starting census that is not too small", "why_tests_cant": "An undercount removes a binding that is still used; it would only show after several passes on a particular program.", "anchors": ["theories/LambdaANF/shrink_cps.v"]}
{"id": "C74", "title": "The optimising pipeline preserves behaviour", "statement": "For every closed program of the intermediate language whose names are bound once, and every setting of the options, the LambdaANF pipeline (shrinking, uncurrying, inlining, lambda lifting, closure conversion, hoisting, dead-parameter elimination) answers without an error. The program it returns evaluates to the result of the source with closures in the places of functions (the same result if it consists of constructors and numbers), diverges when the source does, and has no other behaviour if the source does not get stuck.", "quantifier": "every closed program with unique names, every combination of options, every number of reserved names, every constructor table that does not use the closure tag, every evaluation (any fuel)", "why_tests_cant": "Twelve passes run one after the other, each relying on what the one before left (unique names, a name counter above all names, tables); tests run single programs with a few option settings.", "anchors": ["theories/LambdaANF/toplevel.v", "theories/LambdaANF/inline.v", "theories/LambdaANF/shrink_cps.v", "theories/LambdaANF/hoisting.v"]}
{"id": "C75", "title": "The optimising pipeline keeps names and tables in order", "statement": "The program returned by the LambdaANF pipeline is closed, binds every name once, and binds no reserved name (none up to the number it is given); the constructors of the source have the table entries they had, and all tags in the table are below the next free one.", "quantifier": "every closed program with unique names, every combination of options, every number of reserved names", "why_tests_cant": "Two passes restart the name counter instead of continuing it; a collision with a reserved C identifier shows as a wrong C program for particular sizes only.", "anchors": ["theories/LambdaANF/toplevel.v", "theories/LambdaANF/inline.v", "theories/LambdaANF/closure_conversion.v"]}
{"id": "C76", "title": "Compiled to Wasm through all passes, a program computes what it should", "statement": "Take a closed program of the intermediate language whose names are bound once, whose constructors are in the table with their number of arguments, and whose integer literals fit in 63 bits. If the compiler (the whole LambdaANF pipeline followed by the Wasm code generator, any options) produces a module, then `main_function` of the module returns a representation of the value of the program (closures in place of functions) or reports that memory ran out; it never traps if the program does not get stuck, an answer is always the value of the program, and it runs forever (or out of memory) when the program does.", "quantifier": "every such program, every combination of options, every behaviour of the host when asked for memory, every evaluation (any fuel)", "why_tests_cant": "It combines thirteen passes, each of which relies on invariants (unique names, table entries, arities, top-level functions) left by the others.", "anchors": ["theories/LambdaANF/toplevel.v", "theories/CodegenWasm/toplevel.v", "theories/CodegenWasm/LambdaANF_to_Wasm.v"]}
{"id": "C77", "title": "From the erased program to the Wasm module: the answer is the value of the program", "statement": "Take a set of datatype declarations and a closed erased program over them (de Bruijn terms, or terms with a global environment) whose constructors and matches use declared constructors with their number of arguments. Tables are built from the declarations, the program is A-normalised, goes through all LambdaANF passes and the Wasm code generator, with any options. If a module comes out, running its `main_function` ends with a representation of the value of the program in memory (the very constructors, if the value is made of constructors) or with the out-of-memory flag; it never traps when the program has a value or runs forever; an answer is always the value of the program; and it runs forever, or out of memory, when the program does.", "quantifier": "all declarations, all such programs, all options, all hosts, all executions", "why_tests_cant": "The chain has seven languages; the conditions each step needs (tags, arities, ordinals, fresh names) are only established by earlier steps, and a mismatch shows up on particular shapes of declarations.", "anchors": ["theories/LambdaANF/LambdaBoxLocal_to_LambdaANF.v", "theories/LambdaANF/toplevel.v", "theories/CodegenWasm/toplevel.v", "theories/Compiler/pipeline.v"]}
{"id": "C78", "title": "From the program to C: the answer is the value of the program", "statement": "A closed LambdaANF program, or a closed erased program over declared datatypes, goes through all passes and the C code generator, with any options and any number of C parameters; a LambdaANF program must not end in a tail call. If C code comes out, and numbers of parameters, ordinals and sizes fit the fields the runtime has for them, then with any collector that keeps what the shadow stack reaches, and from any well-formed heap, the body function returns a word that denotes the value of the program (the very constructors, if the value is made of constructors), or stops because memory is exhausted; it has no undefined behaviour when the program has a value or runs forever; what it returns is always the value of the program; it never returns when the program runs forever; and the caller's frames still denote what they did.", "quantifier": "all such programs, all options, all heaps and collectors, all executions", "why_tests_cant": "Collections move every block at moments that depend on the heap size; a wrong live set, tag or argument order anywhere in the chain of passes shows only on particular programs and heap sizes.", "anchors": ["theories/LambdaANF/toplevel.v", "theories/Codegen/toplevel.v", "theories/Codegen/LambdaANF_to_Clight_stack.v", "theories/Compiler/pipeline.v"]}
{"id": "C79", "title": "Conversion to continuation-passing style preserves evaluation", "statement": "Converting a closed de Bruijn term over known constructors to continuation-passing style succeeds; the program is closed, and binds fresh distinct names, except that the name of the outermost continuation is bound twice. If the term has a value (and applies no erased proof), the program has exactly one value, the corresponding one; if the term runs forever so does the program; if the term does not get stuck neither does the program, and every value of the program is that of the term. The program agrees with the one A-normalisation makes. A primitive of arity n becomes a function that takes n arguments one at a time, each with a continuation, and computes the primitive on them in order.", "quantifier": "all terms, all tag tables that tell constructors apart, all first fresh names", "why_tests_cant": "Capture or a wrong continuation shows only in terms where a continuation is used under binders that happen to reuse its name, and divergence cannot be observed by a test.", "anchors": ["theories/LambdaANF/LambdaBoxLocal_to_LambdaANF.v"]}
{"id": "C80", "title": "A compiled program in continuation-passing style computes what the erased program computes", "statement": "Let a closed program over declared constructors, without literals and primitives, be converted to continuation-passing style, sent through all passes on LambdaANF with any options, and turned into a Wasm module. If the program has a value and applies no erased proof, the exported main function returns, having stored a representation of that value (the value itself if it is made of constructors), unless memory runs out; if the program runs forever, so does the module unless memory runs out; the module never traps and gives no other answer. Modules made in direct and in continuation-passing style give the same answer. This holds although the converted program binds one name twice, which the passes are not specified for.", "quantifier": "all programs, declarations, options, and outcomes of growing memory", "why_tests_cant": "The program violates the precondition of every pass; whether a pass is misled by it depends on the counts of occurrences of one name in the whole program.", "anchors": ["theories/LambdaANF/LambdaBoxLocal_to_LambdaANF.v", "theories/LambdaANF/toplevel.v", "theories/LambdaANF/shrink_cps.v", "theories/Compiler/pipeline.v", "theories/CodegenWasm/toplevel.v"]}
{"id": "C81", "title": "C back end for continuation-passing style: the compiled program computes the value of the source program", "statement": "Let a closed first-order program in which every call is a tail call be compiled with the C back end for continuation-passing style, for any number of C parameters, and run with a collector that meets the contract in runtime/gc.h. If the program has a value, the main function returns a word representing it, also left in slot 1 of the args array, unless the collector gives up; if the program runs forever, so does the code; code for a program that does not go wrong never has undefined behaviour. All values live across a collection survive it.", "quantifier": "all programs, constructor tables, numbers of C parameters, collectors meeting the contract, and initial heaps", "why_tests_cant": "Whether a stale pointer, a missed root or a wrong check for room is noticed depends on where in the run the collector happens to run and what it moves.", "anchors": ["theories/Codegen/LambdaANF_to_Clight.v", "runtime/gc.h", "runtime/gc_stack.c"]}
{"id": "C82", "title": "From erased programs to C in continuation-passing style: the compiled program computes the value of the erased program", "statement": "Let a closed erased program be converted to continuation-passing style, taken through all LambdaANF passes with any options, and compiled to C by the back end for that style, for any number of C parameters. If the program evaluates to a value made of constructors, the body function returns a word representing that value, also left in slot 1 of the args array, unless the collector gives up. If it runs forever, so does the code. The code has no undefined behaviour, and agrees with the direct-style back end on such results.", "quantifier": "all erased programs over declared constructors, all options, constructor tables, numbers of C parameters, collectors meeting the contract that keep the end of the free area, and initial heaps; programs within the machine limits whose main expression makes no case analysis", "why_tests_cant": "The two conversions, a dozen optimisation passes and the code generator each rely on what the earlier ones leave behind; a program exercises only some of the interactions, for one heap layout.", "anchors": ["theories/LambdaANF/LambdaBoxLocal_to_LambdaANF.v", "theories/LambdaANF/toplevel.v", "theories/Codegen/LambdaANF_to_Clight.v", "theories/Codegen/toplevel.v"]}
{"id": "C83", "title": "The first translation, from MetaRocq's erased terms, preserves evaluation", "statement": "For every well-formed erased program (constructors fully applied, no parameters, axioms, cofixpoints, projections or arrays), the translated program is well-formed, and if the erased term evaluates to a value the translated term evaluates to the translation of that value, including through suspensions, which become functions of a dummy argument. Without suspensions the converse holds too. Error nodes appear exactly for unsupported constructs. Translation commutes with lifting and with substitution of closed terms. Through the rest of the compiler, a value made of constructors is what the Wasm module and the C program compute.", "quantifier": "all erased terms, all global declarations, all values and all binder depths", "why_tests_cant": "The translation looks at terms through spines and moves terms under new binders; an off-by-one in the lifting of suspensions shows only for a suspension with free variables under the right number of binders. The lemma on lifting is admitted in the code, so the existing proof does not rule this out.", "anchors": ["theories/LambdaBoxMut/compile.v", "theories/LambdaBoxMut/stripEvalCommute.v"]}
{"id": "C84", "title": "The C text the printer writes is read by C as the program it was printed from", "statement": "Read with C's own lexical rules and grammar, the text printed for an expression, a declaration, a type name, a statement or a function definition is the construct it was printed from: parentheses, operators, casts, constants with their suffixes, declarators, case labels, registers and parameters all come back, statements up to empty ones and swapped branches of an if. Machine integers are printed as their signed or unsigned value. A finite float is printed as a decimal closer to it than to any other double. This holds whatever white space the formatter puts at line breaks. The constructs for which it fails are listed: a negated negative constant, a call through a dereference, integral and infinite floats, minus zero, the smallest 64-bit integer, function types used as type names, volatile values, labels beyond 62 bits.", "quantifier": "all types, expressions, statements and functions of the printed fragment, all integers and doubles, all choices of white space", "why_tests_cant": "A missing parenthesis or a token merged with its neighbour shows only for a particular nesting of operators; the printed program then compiles and computes something else. Printing of floats involves all doubles.", "anchors": ["plugin/static/printClight.ml", "plugin/static/printCsyntax.ml", "plugin/static/camlrocq.ml"]}
{"id": "C85", "title": "A result is read back as the Rocq value it is", "statement": "CertiRocq Eval reads the word a compiled program returns back as a Rocq term of the type of the program. For declarations whose argument types mention no earlier argument in the parameters of a type, whose registered constructor orders are their own inverse, that have no constructor with only definitions as arguments and at most 256 constructors with arguments, the term read back from the memory representation of a value is that value: same constructors, same parameters, same arguments, including for indexed types and constructors with local definitions. A program whose value is the erasure of a value of its type, compiled to C and run, is therefore evaluated to that value, unless memory is exhausted. Applying a registered constructor order when compiling and undoing it when reading cancel exactly for such orders. Outside these conditions the reader returns other terms: ill-typed ones for cyclic orders and for proofs, terms with unbound variables for dependent arguments.", "quantifier": "all declarations and registered orders meeting the conditions, all types and values, all heaps, all erased programs, collectors and memory sizes", "why_tests_cant": "A wrong term is returned without any error, and only for particular declarations: an order of three constructors, a dependent argument, a proof inside a pair. The tests print the terms without type-checking them.", "anchors": ["plugin/certirocq.ml:649-800", "cplugin/certirocq.ml", "runtime/get_ordinal.c:9-12", "plugin/Loader.v"]}
{"id": "C86", "title": "Evaluating a constant twice, or after going back, gives the value of its present definition", "statement": "CertiRocq Eval compiles a constant once per session, under a fresh file name, and keeps the code. Whatever commands the user gives and however often they go back: no file is written twice in a session; the answer for a constant always comes from code of the definition the constant has now; if orders of constructors are registered before the first evaluation and options do not change results, the answer is the one a new compilation would give, and so the value of the constant. A fresh name is found for every name that is not all digits; it continues the decimal number at the end of the name. The function names derived from qualified names of letters, digits and underscores are single words of C and names of values in OCaml. Without a suffix option and in direct style, the compiled file holds the program and the function calling it, and the run-time system linked is the one included. Otherwise things go wrong: an order registered between two evaluations changes the value answered, the same -file for two terms returns the first value, names with a quote are no C names, a suffix or continuation-passing style breaks the build.", "quantifier": "all sequences of definitions, registrations, evaluations and returns to earlier states; all names and sets of used names", "why_tests_cant": "The failures need a particular sequence of commands in one session: evaluate, register, evaluate again. Each test file evaluates a constant once.", "anchors": ["plugin/certirocq.ml:34-57", "plugin/certirocq.ml:104-193", "plugin/certirocq.ml:802-938", "plugin/g_certirocq.mlg:214-242"]}
{"id": "C87", "title": "A foreign function gets all its arguments, in order, and its result reaches the continuation", "statement": "For every field of a class given to CertiRocq FFI, the generated static closure behaves as the curried foreign function, in continuation-passing style and for every number of C arguments: applied to an argument that is not the last it passes the continuation a new closure that holds the arguments so far, writing exactly six words and well-formed headers; applied to the last one (for IO: the world) it calls the foreign function once, with the arguments in order and without the world, and passes on its result (for IO: paired with the world). This holds for any sequence of applications with other code and collections in between. All generated symbols have different names if no field is called like a function generated for another field. Needed: room in the heap, a type with an argument or in IO, a foreign function that does not move the continuation. Each of these is not checked by the code and fails as recorded; in direct style the functions return no value.", "quantifier": "all field types, numbers of arguments and C parameters, argument words, memories, foreign functions, histories of applications; all lists of fields", "why_tests_cant": "Tests call a few foreign functions with a nearly empty heap, so never run out of room between checks, and none collects garbage inside a foreign function.", "anchors": ["theories/Glue/ffi.v:81-127", "theories/Glue/ffi.v:131-385", "plugin/certirocq.ml:1013-1035"]}
{"id": "C88", "title": "A printed C file is read by C as the program it was printed from", "statement": "The file written for a program begins with an include guard made from its name and the include lines asked for. When a C preprocessor reads it for the first time the guard becomes defined, the headers asked for are included in order, and the text left is a translation unit that announces the structures and unions, defines them with the members of the program in order, declares every function (extern when it is defined elsewhere), and then defines all variables and functions in the order of the program, with the types, initialisers and bodies of the program. Read again, the file contributes nothing. The initialisers of a variable put into memory what Clight puts there, whenever each has the size of an element and unused space comes last; a variable named like a string literal is printed as a literal with exactly its characters. Outside these conditions it goes wrong: the byte that gives the arity in a closure for a foreign function is a word in C, space between initialisers disappears, floats in initialisers keep 15 digits, files whose names differ only in punctuation share a guard and the second one is lost, a file name beginning with a digit gives an invalid guard, attributes of a composite are printed where C allows none, and a variable is never declared before the functions that use it.", "quantifier": "all programs, names, types, initialisers, file names, imports, macros already defined, and line breaks chosen by the formatter", "why_tests_cant": "The tests compile a few generated files with one C compiler, each once and in one directory; they do not compare initial memory, and none includes two files with the same guard.", "anchors": ["plugin/static/printClight.ml:254-378", "plugin/static/printCsyntax.ml:462-559", "plugin/certirocq.ml:412-419"]}
{"id": "C89", "title": "The result of the compiled compiler is copied faithfully into OCaml's heap", "statement": "The compiler compiled by itself leaves its result in its own heap; copy_value rebuilds it with OCaml's allocator before that heap is freed. For every finite value made of immediate words and blocks of values with at least one field, and whatever OCaml's collector does at each allocation (including moving every block), the copy ends, represents the same value, lies entirely in OCaml's heap, and everything registered with the collector keeps its value; one block is allocated for every occurrence of a block in the value. Otherwise it goes wrong: a code pointer of a closure, or the contents of a float or a string, is followed like an address; a part of the argument that occurs in the result is read after the collector has moved it; sharing is lost, so that n blocks can take 2^n - 1 allocations.", "quantifier": "all heaps, values, registered variables and behaviours of OCaml's collector", "why_tests_cant": "When the collector moves what is a matter of the sizes of the heaps; the tests compile small programs, whose results fit into the minor heap.", "anchors": ["bootstrap/certirocqc/certirocqc_wrapper.c:14-69"]}
{"id": "C90", "title": "A quoted program reaches the compiled compiler in the representation it expects", "statement": "Extraction to OCaml drops the box around a set of universe levels, constraints or level expressions, the code compiled by CertiRocq keeps it. For every program of MetaRocq, fix_quoted_program turns the value built by extracted OCaml code into exactly the value the compiled compiler works on: every such set, in sorts of terms at any depth, contexts, constructors, projections, universe declarations and the global environment, is boxed as often as its type says, and nothing else changes. The version in front of the compiled checker does this exactly for the programs without primitive integers, floats and strings; on all others it raises Match_failure.", "quantifier": "all quoted programs", "why_tests_cant": "Obj.magic switches the type checker off; one forgotten field shows only when the compiled code reads that field of some program.", "anchors": ["bootstrap/certirocqc/certirocqc_plugin_wrapper.ml:27-148", "bootstrap/certirocqchk/certirocqchk_plugin_wrapper.ml:27-145"]}
{"id": "C91", "title": "Renaming all bound variables afresh changes only names", "statement": "For every program whose free variables are below the next variable of the compiler state and whose functions defined together have different names, freshen_top returns a program in which every name is bound exactly once, all bound names are new and below the new next variable, the free variables are the same, and every run in every environment has the same steps and an outcome that cannot be told apart. If two functions defined together have the same name it stays bound twice; if the next variable is not beyond the free ones, a free variable can be captured.", "quantifier": "all programs, environments and numbers of steps", "why_tests_cant": "Capture needs a free variable that happens to equal a new name under a binder, which small programs with a large counter never have.", "anchors": ["theories/LambdaANF/freshen.v:20-112"]}
{"id": "C92", "title": "Interning gives every element one number for good, and tags are totally ordered", "statement": "In every map built from the empty one by interning: an element has a number exactly if interning it again returns that number and the unchanged map; an element has at most one number; interning returns the number of the element in the new map, keeps the numbers of all others and adds nothing else; the list of elements has each of them at its number. The comparison of constructor and function tags is a strict total order that tells all tags apart. These are the lemmas that HashMap.v admits and tags.v leaves open.", "quantifier": "all element types with decidable equality, all sequences of operations, all tags", "why_tests_cant": "The statements speak about all maps and all tags; in the code their proofs are Admitted or Aborted.", "anchors": ["libraries/HashMap.v:31-101", "theories/LambdaANF/tags.v:13-106"]}
{"id": "C93", "title": "Conversions between the compiler's data and OCaml's lose nothing", "statement": "A byte becomes the character with its number and every character becomes a byte, inversely. A byte string or ascii string that fits into an OCaml string becomes the string of the same characters in the same order, whatever the fresh buffer contained, and comes back unchanged; so does every OCaml string; one too long is refused. A machine integer that is not negative becomes that unary number, a negative one becomes zero, and a unary number that fits comes back. Words of 63, 32 and 64 bits become the integer they denote, signed or unsigned, and an integer becomes the word that stands for it modulo the size; no assertion fails. The numeral of an integer in bases 2 to 36 reads back as that integer and has no zero in front. The test for powers of two is right.", "quantifier": "all bytes, characters, strings, unary and binary numbers, machine words and bases from 2 to 36", "why_tests_cant": "Tests try some strings and small numbers; errors hide in single cases of tables of 256, at the ends of the ranges of words and in numbers larger than a word.", "anchors": ["plugin/static/caml_byte.ml:2-515", "plugin/static/caml_bytestring.ml:4-26", "plugin/static/caml_nat.ml:1-11", "cplugin/static/caml_ascii_string.ml:3-33", "cplugin/static/camlrocq.ml:67-106", "cplugin/static/camlrocq.ml:131-254"]}
{"id": "C94", "title": "The definitions of evaluation of the intermediate language agree", "statement": "The evaluator with fuel returns a value exactly if the older big-step relation gives it; more fuel changes neither a value nor an exception, and after an exception there is no value. The semantics with costs gives the same values, and the cost exceeds the number of calls. The semantics with fuel, about which correctness is stated, gives the same values to programs without literals and primitive operations. Small steps give the same values to programs without calls whose result is used and without literals. For all programs the last two agreements should hold as well.", "quantifier": "all programs, environments, primitive operations, tables of constructors and amounts of fuel", "why_tests_cant": "Agreement of semantics is about all programs and unbounded runs; the relations cannot be executed.", "anchors": ["theories/LambdaANF/eval.v:46-131", "theories/LambdaANF/eval.v:1133-1425", "theories/LambdaANF/eval.v:1640-1687", "theories/LambdaANF/LambdaBoxLocal_to_LambdaANF_correct.v:962-975", "theories/LambdaANF/LambdaBoxLocal_to_LambdaANF_anf_correct.v:525-535"]}
{"id": "C95", "title": "Sizes of programs, values and environments bound free variables, costs and running programs", "statement": "The size of a program is at least the number of its free variables and at least the cost of its first step after closure conversion. The size of a value grows with the level it is computed at, is constant from some level on, and then is the size of the largest block of functions that can be reached from the value. A program gives no value larger than itself and its environment. Binding a name makes an environment as large as the larger of the value and the old environment. The count of function definitions of a program is the number of functions it defines.", "quantifier": "all programs, values, environments, levels and evaluations", "why_tests_cant": "The bounds are over all evaluations and the levels are unbounded; the size functions are used only in proofs and are never run.", "anchors": ["theories/LambdaANF/size_cps.v:18-54", "theories/LambdaANF/size_cps.v:81-160", "theories/LambdaANF/size_cps.v:211-288", "theories/LambdaANF/size_cps.v:381-400", "theories/LambdaANF/cps_util.v:662-667"]}
{"id": "C96", "title": "Correct passes compose, and programs compiled apart can be linked", "statement": "Two correct passes, one after the other, succeed on every accepted program with a result that does what the source does. If a pass is correct and commutes with linking, then two programs compiled apart and linked do what the linked sources do. This holds for a composition of passes if it holds for each, and passes that commute with linking compose.", "quantifier": "all languages, semantics, linking operators, passes, options and states of the compiler", "why_tests_cant": "The framework quantifies over all languages and passes; it exists only as statements and is never run.", "anchors": ["theories/common/Pipeline_utils.v:142-476", "theories/common/compM.v:22-31", "theories/common/compM.v:130-156", "theories/common/compM.v:477-585"]}
{"id": "C97", "title": "Running a program keeps its functions closed, and the environments of closed functions do not matter", "statement": "If all functions of a program are closed, and its free variables hold closed functions only, then the result holds closed functions only, provided primitive operations keep functions closed. Such a program gives the same result, up to environments of closed functions, and with the same cost, wherever its free variables hold the same up to such environments. What is assumed of primitive operations must be assumed of the given ones: it does not hold for all.", "quantifier": "all programs, environments, runs and tables of primitive operations", "why_tests_cant": "The property is about all runs of all programs; the source leaves its proof open and states the assumptions on primitive operations as axioms, which are never run.", "anchors": ["theories/LambdaANF/logical_relations_cc.v:998-1006", "theories/LambdaANF/logical_relations_cc.v:1774-1884", "theories/LambdaANF/logical_relations.v:1076-1084", "theories/LambdaANF/closure_conversion_correct.v:618-622", "theories/LambdaANF/identifiers.v:1074-1242"]}
{"id": "C98", "title": "Substituting closed terms one after the other is the same as substituting them at once", "statement": "A match substitutes the fields of a constructor into a branch one after the other, and a fixpoint its functions into the body. For closed terms this is the same as substituting all of them at the same time, the last for variable 0, and the free variables of the result are those of the body after the ones substituted. Lists inside programs behave as ordinary lists: conversions lose nothing, and lengths, positions and the choice of a branch agree.", "quantifier": "all terms, lists of closed terms, fixpoints and branches", "why_tests_cant": "The two kinds of substitution must agree on all terms, whatever binders they are under; the source leaves the lemma about fixpoints open.", "anchors": ["theories/LambdaBoxLocal/expression.v:107-125", "theories/LambdaBoxLocal/expression.v:515-553", "theories/LambdaBoxLocal/expression.v:1521-1596"]}
{"id": "C99", "title": "Subterms, contexts and rewriting in contexts mean what they say", "statement": "The definitions of subterm by steps, by contexts and by listing all of them agree, and no program is a proper subterm of itself. Filling a context twice is filling the composition, which is associative. Rewriting under a context is rewriting one subterm anywhere in the program, and it is the least relation that contains the rule and is kept by all contexts; with any number of steps it is the least such preorder. What each step keeps is kept by all.", "quantifier": "all programs, contexts, rewriting relations and numbers of steps", "why_tests_cant": "These are relations used in proofs about rewriting passes; they are never run.", "anchors": ["theories/LambdaANF/relations.v:15-273", "theories/LambdaANF/ctx.v:31-145", "theories/LambdaANF/ctx.v:203-335", "theories/LambdaANF/cps_util.v:569-601"]}
