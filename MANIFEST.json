{
 "claims": [
  {
   "property": "C01",
   "status": "proved",
   "theorems": [
    "C01_element_law",
    "C01_defined",
    "C01_interpreter",
    "C01_empty_refuted"
   ],
   "note": "Reference semantics (records included) and the interpreter itself. At size 0 the interpreter loses inner dimensions and kind (refuted)."
  },
  {
   "property": "C02",
   "status": "proved",
   "theorems": [
    "C02_array_code",
    "C02_array_code_zero",
    "C02_iteration",
    "C02_interpreter",
    "C02_zero",
    "C02_negative_count_refuted"
   ],
   "note": "Reference semantics, interpreter and array code. Negative counts raise in the interpreter (refuted)."
  },
  {
   "property": "C03",
   "status": "proved",
   "theorems": [
    "C03_tree_reduction",
    "C03_initial_value_refuted",
    "C03_compiled",
    "C03_records_refuted"
   ],
   "note": "On values, and on whole arrays: what a reduction compiles to (C03_compiled, with the axes checks of C19) returns the left fold, any number of vectors, any length. Refuted without the identity (the tree puts init last) and for record components that do not depend on the elements."
  },
  {
   "property": "C04",
   "status": "proved",
   "theorems": [
    "C04_take",
    "C04_gather",
    "C04_interpreter",
    "C04_reference"
   ],
   "note": "Interpreter, reference semantics, and the take and gather lowerings."
  },
  {
   "property": "C05",
   "status": "proved",
   "theorems": [
    "C05_pad_slice",
    "C05_pad_slice_numpy",
    "C05_bounds_refuted",
    "C05_numpy_kind_refuted"
   ],
   "note": "For every shift, bounds inside the array, any rank; reference padding on all arrays, NumPy padding on float arrays with elements. Refuted for bounds outside the array and for the element kind of integer arrays on NumPy."
  },
  {
   "property": "C06",
   "status": "proved",
   "theorems": [
    "C06_clipped_shift_sound",
    "C06_shift"
   ],
   "note": "All recognised forms (add, subtract, min, max, nested), with both directions of definedness."
  },
  {
   "property": "C07",
   "status": "proved",
   "theorems": [
    "C07_equiv_exact",
    "C07_find_exact",
    "C07_unite_result"
   ],
   "note": "For both Equivalence and SizeEquivalence (idempotent normalisation parameter)."
  },
  {
   "property": "C08",
   "status": "proved",
   "theorems": [
    "C08_substitution",
    "C08_capture_refuted"
   ],
   "note": "capture-free simultaneous substitution; capture shown to break it"
  },
  {
   "property": "C09",
   "status": "proved",
   "theorems": [
    "C09_depends_on_free_symbols",
    "C09_depends_on_reported_symbols",
    "C09_no_unbound_symbol",
    "C09_distinct_binders_hygienic",
    "C09_unhygienic_refuted"
   ],
   "note": "reported free symbols need hygienic binders (symbol bound by a node not used in its own size/init/bound term); refuted otherwise"
  },
  {
   "property": "C10",
   "status": "proved",
   "theorems": [
    "C10_signature_exact",
    "C10_unary",
    "C10_binary",
    "C10_where",
    "C10_arity_refuted"
   ],
   "note": "General statement plus agreement of the operator tables with the element operations. Refuted for too few arguments (zip is not strict)."
  },
  {
   "property": "C11",
   "status": "proved",
   "theorems": [
    "C11_type_soundness",
    "C11_float_index_refuted",
    "C11_unscoped_refuted"
   ],
   "note": "Needs integer indices and sizes in assertions, and occurrences annotated with their binder type; both refuted otherwise."
  },
  {
   "property": "C12",
   "status": "proved",
   "theorems": [
    "C12_well_formed",
    "C12_converted",
    "C12_result_records_refuted",
    "C12_rank2_refuted",
    "C12_size_check_refuted"
   ],
   "note": "C12_converted: for every well-typed program with distinct binders and records at most one vector deep, a successful conversion keeps type and value. Refuted: programs returning arrays of records and records under two vectors are always rejected; the size check of records of arrays omits the first component."
  },
  {
   "property": "C13",
   "status": "proved",
   "theorems": [
    "C13_leaves",
    "C13_primitive_type",
    "C13_primitive_type_defined",
    "C13_unchanged",
    "C13_rank2_refuted",
    "C13_layout_type",
    "C13_no_layout"
   ],
   "note": "All types. The array layout of the converted type exists exactly when no record lies under two vectors; the claim without this condition is refuted by a matrix of records."
  },
  {
   "property": "C14",
   "status": "proved",
   "theorems": [
    "C14_array_inline",
    "C14_array_inline_removes_lets",
    "C14_inline_preserves_value",
    "C14_inline_removes_lets",
    "C14_shadowing_refuted"
   ],
   "note": "For the memoising code, on phi terms and on array code; stale memo entry refutes it when a variable is bound twice."
  },
  {
   "property": "C15",
   "status": "proved",
   "theorems": [
    "C15_array_insertion_sound",
    "C15_array_common_subexpressions",
    "C15_array_loop_invariant_code",
    "C15_insertion_sound",
    "C15_insertion_complete",
    "C15_common_subexpressions",
    "C15_loop_invariant_code",
    "C15_definedness_refuted"
   ],
   "note": "Insertion machinery, CSE and LICM, on phi terms and array code; equality of values, with definedness lost only by hoisting failing code out of zero-trip loops (refuted witness)."
  },
  {
   "property": "C16",
   "status": "proved",
   "theorems": [
    "C16_moments",
    "C16_moments_iterations",
    "C16_equal_terms",
    "C16_equal_dims",
    "C16_equal_index",
    "C16_compiled",
    "C16_compiled_numpy",
    "C16_zero_trip_refuted",
    "C16_last_iteration_refuted",
    "C16_other_index_refuted"
   ],
   "note": "Sizes agree at every moment of an evaluation whose loops run at least once (all iterations, indices at 0); accesses compiled to the whole array are then correct. Programs bind each name once; loops compiled to loops. Refuted for loops that do not run and for a last iteration that changes the size."
  },
  {
   "property": "C17",
   "status": "proved",
   "theorems": [
    "C17_alignment",
    "C17_common_axes"
   ],
   "note": "All axis types; alignment of any list of tensors on named axes."
  },
  {
   "property": "C18",
   "status": "proved",
   "theorems": [
    "C18_vectorise"
   ],
   "note": "Element-wise operations, gathering and turning an index into a dimension, on families of arrays."
  },
  {
   "property": "C19",
   "status": "proved",
   "theorems": [
    "C19_checked",
    "C19_checked_numpy",
    "C19_close",
    "C19_close_numpy",
    "C19_compiled",
    "C19_compiled_numpy",
    "C19_strict_is_code",
    "C19_records_refuted",
    "C19_constant_body_refuted",
    "C19_direct",
    "C19_direct_numpy",
    "C19_elementwise",
    "C19_elementwise_numpy"
   ],
   "note": "All node kinds (external functions that return what they declare); reductions are by an associative operation with identity on the values met; folds become loops, axis reductions or einsum (float algebra assumed when the last two are on). With the axes checks the code omits (strict; what strict compiles, the code compiles identically) and the safety conditions of the accesses; refuted without them for records, constant loop bodies, bounds outside the array. C19_checked, C19_checked_numpy: with these conditions computed by a checker (chk), for loops compiled to loops, reductions or einsum; it rejects reduce. C19_direct, C19_elementwise: for programs that access arrays only by indices and counters of their size (a syntactic check), all conditions are on the program. C19_close, C19_close_numpy: likewise for programs whose loops are not empty, with loops compiled to loops or axis reductions under any size oracle."
  },
  {
   "property": "C20",
   "status": "proved",
   "theorems": [
    "C20_shape_cancellation",
    "C20_tuple_cancellation",
    "C20_types"
   ],
   "note": "Both passes, values and types; on well-formed arrays (as many elements as the shape says)."
  },
  {
   "property": "C21",
   "status": "proved",
   "theorems": [
    "C21_marks_temporaries",
    "C21_arguments_unchanged",
    "C21_inplace_exact",
    "C21_inplace_sound",
    "C21_comparison_refuted",
    "C21_broadcast_refuted"
   ],
   "note": "Machine with a heap of buffers, views, library calls that may share buffers: arguments never change (no conditions). If no comparison is computed in place, the run succeeds exactly when the program with shape checks at the marks (yeval_fit) has a value, and gives the value of the unmarked program. Marked comparisons change the element kind and marked broadcasts fail: refuted witnesses."
  },
  {
   "property": "C22",
   "status": "proved",
   "theorems": [
    "C22_value",
    "C22_axis",
    "C22_compiled",
    "C22_accumulator_refuted",
    "C22_empty_refuted"
   ],
   "note": "C22_value: the fold equals the reduction of its elements, combined in any order; C22_axis: ReduceAxis computes that reduction; C22_compiled: the whole program. Refuted when the element uses the accumulator and for empty minimum folds."
  },
  {
   "property": "C23",
   "status": "proved",
   "theorems": [
    "C23_value",
    "C23_compiled",
    "C23_multiplicity_refuted",
    "C23_inner_size_refuted",
    "C23_shared_refuted",
    "C23_fallback_refuted"
   ],
   "note": "C23_value: the lifted sum of products has the value of the expression; C23_compiled: whole programs with einsum on. Refuted: summands without the counter are counted once; inner lengths depending on outer counters are computed outside the loop; shared sums inside factors are captured; a type error instead of the fallback to a loop."
  },
  {
   "property": "C24",
   "status": "proved",
   "theorems": [
    "C24_round_trip",
    "C24_attribute_key_refuted",
    "C24_raw_array_refuted",
    "C24_empty_dataclass_refuted"
   ],
   "note": "Round trip for non-empty structures of ein arrays and plain numbers. Refuted for dictionary keys that are dict attributes, raw arrays inside structures, and dataclasses without fields."
  },
  {
   "property": "C25",
   "status": "proved",
   "theorems": [
    "C25_projection",
    "C25_packing",
    "C25_match",
    "C25_unambiguous",
    "C25_packed_match",
    "C25_elements_refuted"
   ],
   "note": "Every arity and position; what each layout matches; types of packed structures. C25_elements_refuted: the layout of array elements is not compared."
  },
  {
   "property": "C26",
   "status": "proved",
   "theorems": [
    "C26_terminates",
    "C26_int_power",
    "C26_float_power",
    "C26_zero_refuted"
   ],
   "note": "Exact on ints; on floats for associative multiplication of the powers of the base. k = 0 does not terminate (refuted)."
  },
  {
   "property": "C27",
   "status": "proved",
   "theorems": [
    "C27_fold_sum",
    "C27_reduce_sum",
    "C27_fold_min",
    "C27_fold_max",
    "C27_reduce_min",
    "C27_reduce_max",
    "C27_fold_argmin",
    "C27_reduce_argmin",
    "C27_int_elements_refuted",
    "C27_min",
    "C27_max",
    "C27_min_floats",
    "C27_max_floats",
    "C27_min_arguments"
   ],
   "note": "Stated on the expressions the helpers build, under the reference semantics; order laws are hypotheses on the non-NaN floats. Integer elements are a type error (refuted)."
  },
  {
   "property": "C28",
   "status": "proved",
   "theorems": [
    "C28_no_bound_symbol",
    "C28_in_range",
    "C28_explicit",
    "C28_local_array_refuted"
   ],
   "note": "Rectangularity of the accessed array in enclosing indices is a hypothesis. Refuted for arrays bound inside the comprehension."
  },
  {
   "property": "C29",
   "status": "proved",
   "theorems": [
    "C29_every_call",
    "C29_compiled_once",
    "C29_cache_transparent",
    "C29_arguments",
    "C29_declared_types"
   ],
   "note": "For every call history. C29_cache_transparent assumes tracing deterministic up to fresh names; C29_every_call does not (each result is that of tracing afresh with some fresh names). Declared signatures are enforced. C29_compiled_once: one trace per argument types and backend, with variables no other trace uses (tracing draws symbols from a counter that does not go down)."
  },
  {
   "property": "C30",
   "status": "proved",
   "theorems": [
    "C30_array_code",
    "C30_array_repeatable",
    "C30_rebinding_refuted",
    "C30_interpreter",
    "C30_rebinding_refuted"
   ],
   "note": "For the interpreter (restored environment, repeatability) and for array code with buffers and a mutable environment (runs exactly when its value is defined, restores the environment, keeps all buffers, repeatable). Distinct binders are necessary (refuted witness)."
  },
  {
   "property": "C31",
   "status": "proved",
   "theorems": [
    "C31_one_side",
    "C31_one_axis",
    "C31_shape",
    "C31_empty_shape_refuted",
    "C31_kind_refuted",
    "C31_corner_refuted"
   ],
   "note": "Holds for padding on one axis of float arrays with elements. Refuted: empty targets, integer arrays (returned as floats), corners when two axes are padded."
  },
  {
   "property": "C32",
   "status": "proved",
   "theorems": [
    "C32_equal_constants",
    "C32_equivalence",
    "C32_hash",
    "C32_by_identity",
    "C32_signed_zero_refuted"
   ],
   "note": "Object identities modelled by a heap condition. Hash law refuted for signed zeros."
  },
  {
   "property": "C33",
   "status": "proved",
   "theorems": [
    "C33_size_expression",
    "C33_negative_size_refuted"
   ],
   "note": "For every expression and axis; negative comprehension sizes refute the literal equality."
  },
  {
   "property": "C34",
   "status": "proved",
   "theorems": [
    "C34_same_letter",
    "C34_up_to_26_axes"
   ],
   "note": "Letters are numbers 0-25; both directions: distinct axes get distinct letters, and generation fails exactly beyond 26 axes."
  },
  {
   "property": "C35",
   "status": "proved",
   "theorems": [
    "C35_unsqueeze",
    "C35_unsqueeze_as_numpy",
    "C35_squeeze_single",
    "C35_squeeze_decreasing",
    "C35_squeeze_refuted",
    "C35_unsqueeze_order_refuted"
   ],
   "note": "Insertion in increasing order correct and equal to NumPy's; removal correct for one axis and in decreasing order, refuted in increasing order (not reachable from compiled code, which removes single axes)."
  },
  {
   "property": "C36",
   "status": "proved",
   "theorems": [
    "C36_interpreter_reference",
    "C36_interpreter_returns"
   ],
   "note": "Runs meeting no empty comprehension (strict flag); strict runs are runs of the code. C36_interpreter_returns: the converse, for programs whose loops and comprehensions run (den_once true)."
  },
  {
   "property": "C37",
   "status": "proved",
   "theorems": [
    "C37_int_operators",
    "C37_float_operators"
   ],
   "note": "Exact on ints; on floats as compositions of the primitive operations."
  },
  {
   "property": "C38",
   "status": "proved",
   "theorems": [
    "C38_reversed",
    "C38_symmetric",
    "C38_program_refuted"
   ],
   "note": "Element-type restrictions of torch's replicate padding not modelled. Finding: amounts are applied in reverse axis order; witness program computes a wrong array."
  },
  {
   "property": "C39",
   "status": "proved",
   "theorems": [
    "C39_defined",
    "C39_array_defined",
    "C39_idle_loop_refuted",
    "C39_succeeds",
    "C39_succeeds_used",
    "C39_result",
    "C39_binders",
    "C39_value",
    "C39_value_letfree",
    "C39_array_succeeds",
    "C39_array_succeeds_used",
    "C39_array_result",
    "C39_array_value",
    "C39_array_binders",
    "C39_array_value_letfree",
    "C39_unused_let_refuted"
   ],
   "note": "The whole pass on phi terms and array code: success is characterised exactly (and refuted for an unused let), sharing, binders and free symbols of the result, equality of values; definedness can be lost as in C15. The agreement of values needs no assumption on the environment. C39_defined and C39_array_defined: no definedness is lost if the loops run; C39_idle_loop_refuted: an invariant check moved out of a loop without iterations raises."
  },
  {
   "property": "C40",
   "status": "proved",
   "theorems": [
    "C40_table_transparent",
    "C40_table_loops",
    "C40_table_checked",
    "C40_names_exist",
    "C40_duplicated_refuted",
    "C40_einsum_refuted"
   ],
   "note": "C40_table_transparent: for programs that bind every symbol once, with new indices at every call of Index(), no einsum candidate and no reduction element using the accumulator, the translation with the table gives the same result (code or error) as the translation without it; C40_table_loops drops the last two conditions when the options are off; C40_table_checked relates it to the code of C19/C22/C23; C40_names_exist shows the condition on names can be met. The statement for all programs is refuted by two programs: duplicated loops in arrays of records, and einsum attempts given up half way."
  },
  {
   "property": "C41",
   "status": "proved",
   "theorems": [
    "C41_calls",
    "C41_numpy_checked",
    "C41_numpy_close",
    "C41_numpy_compiled",
    "C41_numpy_elementwise",
    "C41_interpreter_returns",
    "C41_idle_loop_refuted",
    "C41_interpreter",
    "C41_numpy",
    "C41_duplicated_refuted",
    "C41_numpy_returns"
   ],
   "note": "C41_interpreter, C41_numpy: the composed passes without the table of C40. C41_numpy_compiled: with the table and without the checks of axes, all conditions being on the converted program. Assumes that the converted program has distinct binders (refuted for arrays of records with inner loops) and, for NumPy, the conditions of C19 (safe_all) and that no comparison is computed in place. C41_interpreter_returns: the interpreter returns; C41_idle_loop_refuted: not so for a loop without iterations. C41_numpy_returns: the NumPy function returns if loops have iterations and in-place results fit. C41_calls: each call of a Function on the interpreter, in any call history. C41_numpy_checked: C41_numpy_compiled with the checker in place of safe_all. C41_numpy_elementwise: loop-free programs of direct accesses, all arguments. C41_numpy_close: such programs with loops, where the checked program is the converted one."
  },
  {
   "property": "C42",
   "status": "proved",
   "theorems": [
    "C42_values_have_their_types",
    "C42_reference",
    "C42_numpy",
    "C42_let_refuted",
    "C42_reduce_refuted",
    "C42_integer_pad_refuted"
   ],
   "note": "Type soundness of array code for the reference padding, and for NumPy's padding when only floats are padded; external functions return arrays of the declared type. Refuted without the condition on declarations (Let and Reduce do not check the types of their variables) and for padded integers on NumPy."
  },
  {
   "property": "C43",
   "status": "proved",
   "theorems": [
    "C43_bound_once",
    "C43_binders",
    "C43_arguments",
    "C43_constants",
    "C43_staged"
   ],
   "note": "For programs meeting the conditions of C40 (distinct binders, new indices, no einsum candidate, no reduction element using the accumulator). C43_staged needs a program without let-bindings (C39 shows outline can fail otherwise)."
  },
  {
   "property": "C44",
   "status": "proved",
   "theorems": [
    "C44_torch",
    "C44_torch_agrees",
    "C44_torch_only",
    "C44_gather",
    "C44_torch_program",
    "C44_gather_refuted"
   ],
   "note": "Torch's elementwise and structural operations are taken to be NumPy's; its restrictions on element types are an arbitrary predicate. The condition on gathers is needed (C44_gather_refuted, a program whose code returns one column on torch). C44_torch_program assumes that the outlined code removes no axes (squeeze, reduce) or has a value."
  },
  {
   "property": "C45",
   "status": "proved",
   "theorems": [
    "C45_jax_agrees",
    "C45_jax_only",
    "C45_jax_program"
   ],
   "note": "JAX's operations are taken to be NumPy's except for invalid indices (arbitrary); tracing failures are an arbitrary predicate. C45_jax_program assumes that the outlined code has no indexing by arrays or has a value."
  },
  {
   "property": "C46",
   "status": "proved",
   "theorems": [
    "C46_array",
    "C46_array_nullary",
    "C46_array_sizes",
    "C46_array_inferred",
    "C46_getitem",
    "C46_slice"
   ],
   "note": "C46_slice: the sliced array may be an element of another one (b[y1, ..., ym]) but b may not use indices of enclosing comprehensions. Other inferred sizes: C28."
  },
  {
   "property": "C47",
   "status": "proved",
   "theorems": [
    "C47_fold",
    "C47_fold_inferred",
    "C47_layout_refuted"
   ],
   "note": "C47_fold assumes that the step returns the layout of init, which the code does not check (C47_layout_refuted)."
  },
  {
   "property": "C48",
   "status": "proved",
   "theorems": [
    "C48_reduce_checked",
    "C48_reduce",
    "C48_concat",
    "C48_size",
    "C48_assume",
    "C48_where",
    "C48_where_arrays",
    "C48_concat_all"
   ],
   "note": "where on structures containing arrays: C48_where_arrays, for arrays whose sizes do not depend on an enclosing index; it says nothing about when where has a value."
  },
  {
   "property": "C49",
   "status": "proved",
   "theorems": [
    "C49_layout",
    "C49_width",
    "C49_parts",
    "C49_brackets",
    "C49_prints",
    "C49_fits",
    "C49_next_line",
    "C49_blank_block_refuted",
    "C49_symbols",
    "C49_where_refuted",
    "C49_array_width",
    "C49_array_parts",
    "C49_array_brackets",
    "C49_array_prints",
    "C49_empty_tuple_refuted"
   ],
   "note": "Of phi terms and of array code; the text of constants, types and names is a parameter. Ambiguity of conditionals: C49_where_refuted; failure on empty tuples: C49_empty_tuple_refuted."
  },
  {
   "property": "C50",
   "status": "proved",
   "theorems": [
    "C50_or_empty",
    "C50_or_empty_arrays",
    "C50_numpy_refuted"
   ],
   "note": "Of the reference semantics; for the code compiled for NumPy it is false on empty arrays (C50_numpy_refuted)."
  },
  {
   "property": "C51",
   "status": "proved",
   "theorems": [
    "C51_signature",
    "C51_rejects",
    "C51_value",
    "C51_result_refuted",
    "C51_unsigned_refuted"
   ],
   "note": "The function is a parameter. Unchecked result type: C51_result_refuted; no signature: C51_unsigned_refuted."
  },
  {
   "property": "C52",
   "status": "proved",
   "theorems": [
    "C52_refuses",
    "C52_bound",
    "C52_index"
   ],
   "note": "C52_bound is for expressions whose binders do not occur in their own sizes and initial values (cf. C09_unhygienic_refuted)."
  },
  {
   "property": "C53",
   "status": "proved",
   "theorems": [
    "C53_graph",
    "C53_graph_drawn"
   ],
   "note": "Over the term interface, so for Phi terms and array code; labels are arbitrary (HTML escaping and abbreviation are not modelled), a box is named by the pair of class and number."
  }
 ]
}