{"id": "C01", "title": "Array comprehension element law", "statement": "Evaluating array(f, size=n) for n >= 1 gives an array whose leading dimension is n and whose element at k is the value of f at index k, for every k < n; nothing outside f's own value at k influences element k.", "quantifier": "for every body expression, every environment, every size n and every position k", "why_tests_cant": "Tests sample a few bodies and sizes; the law has to hold for every body, every rank and every size.", "anchors": ["ein/backend/naive.py:_interpret (Vec)", "ein/frontend/comprehension.py:array", "ein/phi/phi.py:Vec"]}
{"id": "C02", "title": "Fold is exactly n-step iteration", "statement": "fold(init, step, count=n) evaluates to step(n-1, ... step(1, step(0, init))) with counters 0..n-1 in order; for n = 0 it is init. The array backend additionally treats a negative count as 0. Neither leaves the loop variables bound afterwards.", "quantifier": "for every init, every step expression, every count and every environment", "why_tests_cant": "Loop order, counter range and the zero-trip case have to hold for all trip counts, not the few that are run.", "anchors": ["ein/backend/naive.py:_interpret (Fold)", "ein/backend/array_backend.py:ArrayBackend.fold"]}
{"id": "C03", "title": "Tree reduction equals the left-to-right monoid fold", "statement": "v.reduce(init, op) in the array backends, which combines elements pairwise in a tree, gives the same value as the sequential left fold whenever op is associative and init is its identity; element order is preserved so op need not be commutative.", "quantifier": "for every element type, every associative op with identity, every vector length including 0 and 1", "why_tests_cant": "The combination tree is different for each length; only finitely many lengths can be run.", "anchors": ["ein/backend/array_backend.py:ArrayBackend.reduce", "ein/backend/naive.py:_interpret (Reduce)", "ein/frontend/ndarray.py:Vec.reduce"]}
{"id": "C04", "title": "Out-of-range indices clip to the nearest element", "statement": "a[i] with i outside the array reads the nearest valid element: a[i] = a[min(max(i,0),n-1)] for a nonempty array, for indices produced in any way (constant, counter, computed), on the reference interpreter and on the take and gather lowerings.", "quantifier": "for every array, every integer index, every axis position", "why_tests_cant": "Infinitely many indices and lowerings; tests only touch a few stencils.", "anchors": ["ein/backend/naive.py:_interpret (Get)", "ein/backend/numpy_backend.py:NumpyBackend.take", "ein/backend/numpy_backend.py:NumpyBackend.gather", "ein/codegen/array_indexing.py:general_get"]}
{"id": "C05", "title": "Pad-and-slice lowering of shifted indexing", "statement": "Indexing a nonempty array by min(max(i+shift, low), high) over i in 0..size-1 (size >= 1), compiled as slice-then-edge-pad, gives exactly the clipped gather: element k is a[min(max(k+shift, low), high)], and the result has size elements, whenever the clip bounds lie inside the array; without that restriction the compiled program disagrees.", "quantifier": "for all shifts (any sign and magnitude), bounds, sizes and dimensions", "why_tests_cant": "Corner cases are spread over unboundedly many combinations of shift, bounds, size and dimension.", "anchors": ["ein/codegen/array_indexing.py:pad_slice_get", "ein/backend/numpy_backend.py:fast_edge_pad"]}
{"id": "C06", "title": "Recognition of clipped shifts is sound", "statement": "When the compiler decides an index expression is a clipped shift of a comprehension index i, the expression really is equal to min(max(i+shift, low), high) for the recognised shift/low/high, which do not depend on i.", "quantifier": "for every integer index expression and every value of every variable", "why_tests_cant": "The matcher recurses over arbitrarily nested +,-,min,max; unit tests cannot enumerate the nestings.", "anchors": ["ein/codegen/array_indexing.py:match_clipped_shift", "ein/codegen/array_indexing.py:match_index_clipped_shift"]}
{"id": "C07", "title": "Size equivalence structure is exactly the equivalence closure", "statement": "After any sequence of unite calls, equiv(a,b) answers yes precisely when a and b are connected by the united pairs.", "quantifier": "for every sequence of unite operations and every pair of elements", "why_tests_cant": "Path compression and union by size mutate shared state; the property concerns all operation histories.", "anchors": ["ein/midend/equiv.py:Equivalence"]}
{"id": "C08", "title": "Substitution has its usual meaning", "statement": "substitute(e, {s: t}) evaluates, in any environment, to what e evaluates to when s is given the value of t, provided no binder in e captures a symbol of t and s is not itself a binder.", "quantifier": "for every expression, every substitution and every environment", "why_tests_cant": "Binding structure is unbounded; capture problems only show on particular nestings.", "anchors": ["ein/midend/substitution.py:substitute"]}
{"id": "C09", "title": "Evaluation depends only on free symbols, and binding them all suffices", "statement": "The value of an expression depends only on the values of its free symbols, and evaluation never fails with an unbound symbol when all reported free symbols are bound: the check that eval() performs before running is sufficient.", "quantifier": "for every expression and every two environments that agree on its free symbols", "why_tests_cant": "Concerns all expressions and environments.", "anchors": ["ein/term.py:Term.free_symbols", "ein/frontend/ndarray.py:_Array.eval", "ein/backend/naive.py:_interpret"]}
{"id": "C10", "title": "Scalar operator typing accepts exactly the signature instances", "statement": "A scalar operator application is accepted precisely when some instance of its signature (generic letters replaced consistently by allowed kinds) matches the argument kinds, and the reported result kind is the one of that instance: there is no implicit promotion.", "quantifier": "for every operator in the table and every combination of argument types", "why_tests_cant": "The decision procedure has an order-dependent binding environment; the claim is about all signatures, also ones not in the table.", "anchors": ["ein/phi/type_system.py:resolve_scalar_signature", "ein/phi/type_system.py:UFUNC_SIGNATURES"]}
{"id": "C11", "title": "Type soundness of expressions", "statement": "If an expression is accepted by the type checker and its symbols are bound to values of their declared types, evaluation never fails because of a type confusion and any result has the reported type (element kind, rank and record structure); the exceptions are array indices and operands of size assertions, which are not required to be integers.", "quantifier": "for every accepted expression and every matching environment", "why_tests_cant": "A statement over all programs.", "anchors": ["ein/phi/phi.py:Expr.type (all nodes)", "ein/backend/naive.py:_interpret"]}
{"id": "C12", "title": "Struct-of-arrays conversion preserves meaning", "statement": "Compiling arrays of records to records of arrays does not change the value of a program: for every program the converted program evaluates to the same value as the original.", "quantifier": "for every program and every environment", "why_tests_cant": "The rewriting duplicates and rebuilds binders, and interacts with folds, reductions and nested records in unboundedly many ways.", "anchors": ["ein/midend/structs.py:struct_of_arrays_transform"]}
{"id": "C13", "title": "Struct-of-arrays type conversion", "statement": "The converted type of any array-of-records type flattens to the same leaf arrays (same element kinds and ranks, in the same order) as the original record structure demands, and its array layout exists exactly when no record lies under two or more vectors; converting a type without records under vectors leaves it unchanged.", "quantifier": "for every type", "why_tests_cant": "Types nest arbitrarily.", "anchors": ["ein/midend/structs.py:_soa_transform_type", "ein/phi/type_system.py:Type.primitive_type"]}
{"id": "C14", "title": "Inlining of let bindings preserves meaning", "statement": "Replacing let-bound variables by their definitions does not change the value of a program in which binders are distinct, and the result contains no let.", "quantifier": "for every program with distinct binders and every environment", "why_tests_cant": "Nesting and sharing of lets is unbounded, and the pass memoises results across scopes.", "anchors": ["ein/midend/lining.py:inline"]}
{"id": "C15", "title": "Let insertion (common subexpressions, loop-invariant code) preserves meaning", "statement": "Binding repeated or loop-invariant subexpressions with let at an enclosing point does not change the value of the program, as long as the insertion point is inside every binder of a symbol the bound expression uses.", "quantifier": "for every program, every set of insertions satisfying the scoping condition, every environment", "why_tests_cant": "Concerns all programs and all choices of insertion points.", "anchors": ["ein/midend/lining.py:_apply_insertions", "ein/midend/lining.py:_bind_common_subexpressions", "ein/midend/lining.py:_loop_invariant_code_motion", "ein/midend/lining.py:outline"]}
{"id": "C16", "title": "Size equivalences are sound", "statement": "When the compiler concludes that two array sizes are equal (and so drops a slice), they are equal in every evaluation that succeeds, executes every loop and does not change the size of an accumulator in the last iteration only; so compiled code that uses the whole array computes the same value.", "quantifier": "for every program, every environment and every pair of size expressions", "why_tests_cant": "Facts are propagated by a closure computation over the whole program; tests only show that some useful equalities are found, not that none is wrong.", "anchors": ["ein/midend/size_classes.py:find_size_classes", "ein/midend/size_classes.py:_update_size_classes"]}
{"id": "C17", "title": "Axis alignment moves every axis to its place and changes no element", "statement": "Aligning an array with named leading axes to a longer list of axes gives an array whose element at (an assignment of the new axes, the positional indices) is the original element at the restriction of that assignment; alignment of several operands is duplicate free and contains every operand's axes.", "quantifier": "for every list of axes, every target list containing them, every array", "why_tests_cant": "All permutations and insertions of axes, of any rank.", "anchors": ["ein/codegen/axial.py:_align", "ein/codegen/axial.py:_alignment", "ein/codegen/axial.py:Axial.aligned"]}
{"id": "C18", "title": "Vectorisation turns a free index into a leading array axis", "statement": "Closing over an index turns an array with that index as a named axis into an array with it as the first positional axis, element for element; if the value does not depend on the index, it is repeated.", "quantifier": "for every array, axis list and index", "why_tests_cant": "All ranks and axis positions.", "anchors": ["ein/codegen/axial.py:Axial.along"]}
{"id": "C19", "title": "Compiled programs agree with the reference semantics", "statement": "For programs built from constants, variables, indices, scalar operators, comprehensions, indexing, sizes, concatenation, let, fold and reduce (by an associative operation with the initial value as identity), whenever compilation to whole-array code succeeds and the reference evaluation is defined, executing the array code gives the same value, provided that sizes are not negative, arrays read from are not empty, explicit index bounds lie inside the array, and the axes of paired records and of loop bodies agree (the code leaves these unchecked; without them the claim is refuted by witnesses). Sums turned into reductions or contractions are over values whose addition and multiplication form a ring.", "quantifier": "for every program in the fragment, every environment", "why_tests_cant": "This is the compiler-correctness statement; tests compare the two on a finite list of programs.", "anchors": ["ein/codegen/phi_to_yarr.py:transform", "ein/backend/array_backend.py:ArrayBackend.stage", "ein/backend/numpy_backend.py:NumpyBackend"]}
{"id": "C20", "title": "Peephole cancellation of shape operations preserves meaning", "statement": "Removing identity transposes and empty axis insertions, and projecting out of explicit tuples, does not change the value of array code.", "quantifier": "for every array program and every environment", "why_tests_cant": "All nestings of the rewritten nodes.", "anchors": ["ein/codegen/phi_to_yarr.py:cancel_shape_ops", "ein/codegen/phi_to_yarr.py:cancel_tuple_ops"]}
{"id": "C21", "title": "In-place reuse of temporaries never changes results or arguments", "statement": "Letting an elementwise operation write into the buffer of one of its operands is only done when that buffer is a fresh temporary that nothing else can observe: caller-supplied arrays are never modified, and, provided no comparison is computed into an operand's buffer, a run succeeds exactly when the program without reuse has a value and every result computed into a buffer has that buffer's shape; it then gives that value.", "quantifier": "for every array program, every environment and every sharing of buffers between variables", "why_tests_cant": "Aliasing bugs appear only for particular sharing patterns.", "anchors": ["ein/codegen/phi_to_yarr.py:apply_inplace_on_temporaries", "ein/backend/numpy_backend.py:stage_in_array"]}
{"id": "C22", "title": "Turning folds into axis reductions preserves meaning", "statement": "A fold recognised as a sum, minimum or maximum over its counter and compiled to a whole-axis reduction gives the value of the fold, provided the folded element does not itself use the accumulator and (for min/max) the fold is not empty.", "quantifier": "for every fold, every number of steps and every element expression, over floats whose addition, minimum and maximum obey the algebraic laws", "why_tests_cant": "All element expressions and lengths; the missing conditions are exactly what tests do not exercise.", "anchors": ["ein/codegen/phi_to_yarr.py:match_reduction", "ein/codegen/phi_to_yarr.py:match_reduction_by_body", "ein/codegen/phi_to_yarr.py:ReduceAxis"]}
{"id": "C23", "title": "Turning sums of products into einsum preserves meaning", "statement": "Nested sums of products compiled into generalised contractions give the same value, provided every product mentions every summation counter in whose scope it is, the lengths of inner sums do not depend on outer counters, summands do not use the accumulator, and no factor binds a summed counter again (the code checks none of these; each is refuted by a witness or leads to a failure).", "quantifier": "for every expression, every size and every value in a commutative ring", "why_tests_cant": "The rewriting distributes products over sums for arbitrary expressions.", "anchors": ["ein/codegen/phi_to_yarr.py:Dot"]}
{"id": "C24", "title": "Record layouts round-trip", "statement": "Packing a Python structure (scalars, arrays, tuples, dictionaries, dataclasses, nested arbitrarily) into an expression and unpacking it again by its layout gives a structure of the same shape whose leaves are the corresponding projections, which evaluate to the packed leaves.", "quantifier": "for every layout and every structure of that layout", "why_tests_cant": "Structures nest arbitrarily.", "anchors": ["ein/frontend/layout.py:build_layout", "ein/frontend/ndarray.py:_layout_struct_to_expr", "ein/frontend/ndarray.py:_to_array"]}
{"id": "C25", "title": "n-ary record projection and layout matching", "statement": "Projecting component i out of an n-component record packed as nested pairs evaluates to component i. A layout matches any scalar, any array, or a structure component by component, so the expression a structure is packed into has a type its layout matches.", "quantifier": "for every n >= 1, every i < n and every list of components; every layout and type", "why_tests_cant": "All arities and positions.", "anchors": ["ein/frontend/ndarray.py:_project_tuple", "ein/frontend/layout.py:fold_layout", "ein/frontend/layout.py:Layout.match"]}
{"id": "C26", "title": "Integer powers", "statement": "x ** k for a positive integer literal k evaluates to the k-fold product of x, using only multiplications of x; for negative k it is the power of the reciprocal; the construction terminates for every k other than 0, and does not terminate for k = 0.", "quantifier": "for every integer k and every scalar x", "why_tests_cant": "All exponents.", "anchors": ["ein/frontend/ndarray.py:Scalar.__pow__"]}
{"id": "C27", "title": "Folded argmin/min/max library helpers compute what their names say", "statement": "The library helpers fold_sum/min/max/argmin and reduce_sum/min/max/argmin give the sum, a minimum, a maximum of the float elements and the first index of a minimal element, for every non-empty sequence without NaN; on integer elements they are rejected by the type checker. min(x, ...) and max(x, ...) give a least and a greatest of their arguments.", "quantifier": "for every vector over a totally ordered set and every length", "why_tests_cant": "All lengths and all tie patterns.", "anchors": ["ein/frontend/std.py"]}
{"id": "C28", "title": "Sizes inferred for comprehensions are in range for every direct access", "statement": "When a comprehension's size is inferred from the arrays it indexes directly, every direct access a[i] to an array whose size mentions no symbol bound inside the comprehension is in range for every position of the result whenever the generated size assertion holds (arrays being rectangular), and the inferred size expression mentions no symbol bound by the comprehension.", "quantifier": "for every comprehension body and every environment", "why_tests_cant": "All bodies; unit tests cover a few shapes.", "anchors": ["ein/frontend/comprehension.py:_infer_sizes", "ein/midend/size_classes.py:_dim_of"]}
{"id": "C29", "title": "Compilation caching is transparent", "statement": "Calling a jitted Function gives the result that tracing and compiling afresh for those argument types and that backend would give, whatever calls were made before. The function is traced on distinct new variables of the types of the arguments, each bound to its argument. It is traced at most once for each list of argument types and backend, and no two traces share an argument variable.", "quantifier": "for every sequence of calls with any argument types and backends", "why_tests_cant": "All call histories.", "anchors": ["ein/frontend/functions.py:Function"]}
{"id": "C30", "title": "Evaluation leaves the environment as it found it", "statement": "Running compiled array code does not leave the variables it binds (let, fold, reduce) in the environment and does not alter other bindings, so that compiled code can be run repeatedly with the same result.", "quantifier": "for every array program with distinct binders and every environment not binding them", "why_tests_cant": "All programs and histories of repeated runs.", "anchors": ["ein/backend/array_backend.py:ArrayBackend.stage", "ein/backend/array_backend.py:ArrayBackend.fold", "ein/backend/array_backend.py:ArrayBackend.reduce"]}
{"id": "C31", "title": "Edge padding", "statement": "The fast edge-padding routine equals padding by repetition of the boundary element on any array when only one side of one axis is padded, and always produces the padded shape; it does not preserve the element kind of non-float arrays.", "quantifier": "for every non-empty array, axis and pad width", "why_tests_cant": "All ranks and widths.", "anchors": ["ein/backend/numpy_backend.py:fast_edge_pad"]}
{"id": "C32", "title": "Equality of embedded constants", "statement": "Two embedded constants that compare equal have the same element type, shape and numerically equal elements; of arrays with the same contents, those with a leading axis below the limit are equal and larger ones only if they are the same object; equality is an equivalence; equal constants hash alike unless they contain zeros of different sign (or NaNs of different bits).", "quantifier": "for every pair of constants", "why_tests_cant": "All array contents, including signed zeros and large arrays.", "anchors": ["ein/value.py:Value.__eq__", "ein/value.py:Value.__hash__"]}
{"id": "C33", "title": "Size of an expression without computing it", "statement": "The size expression the compiler derives for an axis of an array evaluates to that axis' actual size (to a negative number only for an empty comprehension written with that negative size).", "quantifier": "for every expression, axis and environment", "why_tests_cant": "All expressions.", "anchors": ["ein/midend/size_classes.py:_dim_of"]}
{"id": "C34", "title": "Einsum subscripts identify axes correctly", "statement": "The subscript strings generated for a contraction use the same letter for two axes exactly when they are the same axis, and list each operand's axes in order; this fails only when more than 26 axes are involved.", "quantifier": "for every list of operands' axes", "why_tests_cant": "All combinations of axes.", "anchors": ["ein/codegen/phi_to_yarr.py:to_einsum_subs"]}
{"id": "C35", "title": "Axis insertion and removal on the torch backend", "statement": "Inserting several axes one after another in increasing order gives the same array as inserting them simultaneously; removing several axes one after another in increasing order does not, except for a single axis.", "quantifier": "for every array and every increasing list of axes", "why_tests_cant": "All ranks and axis lists.", "anchors": ["ein/backend/torch_backend.py:TorchBackend"]}
{"id": "C36", "title": "The reference interpreter computes the reference semantics", "statement": "Whenever the naive interpreter returns a value without meeting an empty comprehension, that value is the one given by the compositional meaning of the expression (environments as finite maps, no mutation): the interpreter's updates and deletions in a shared mutable environment are unobservable. Conversely, when every loop and comprehension that is reached has an iteration and only arrays without structures are indexed and measured, the interpreter returns the value and restores the environment.", "quantifier": "for every expression without shadowing and every environment", "why_tests_cant": "All programs: the interpreter mutates one dictionary across recursive calls.", "anchors": ["ein/backend/naive.py:_interpret"]}
{"id": "C37", "title": "Derived scalar operators", "statement": "Operators the frontend derives from others (reflected subtraction, division, greater-than, greater-or-equal, absolute value, tanh) compute, on integers, the usual mathematical results, and on floats, the stated composition of primitive operations in the right operand order.", "quantifier": "for every pair of operand expressions and every environment", "why_tests_cant": "All operand values.", "anchors": ["ein/frontend/ndarray.py:Scalar"]}
{"id": "C38", "title": "Padding on the torch backend", "statement": "Padding on the torch backend agrees with NumPy's edge padding when the amounts read the same from both ends, as for one axis; in general axis k receives the amounts given for the k-th axis from the end, so a compiled shifted read of a matrix returns wrong values on this backend.", "quantifier": "for every array and list of amounts", "why_tests_cant": "All shapes and amounts.", "anchors": ["ein/backend/torch_backend.py:TorchBackend.pad"]}
{"id": "C39", "title": "The outlining pass always succeeds and yields a tree with the same meaning", "statement": "On a program whose binders are distinct and whose let-bound variables are used, outline does not fail its internal assertions; the program it returns has the same free symbols, distinct binders, and no two positions with the same subterm other than variables and scalar constants; and whenever both have a value it is the same. If every fold and reduction that the program reaches has an iteration, the outlined program has the program's value; without an iteration it may raise where the program has a value.", "quantifier": "for every phi or array program with distinct binders and every environment binding its free symbols", "why_tests_cant": "All programs: three rewriting passes with assertions between them.", "anchors": ["ein/midend/lining.py:outline", "ein/midend/lining.py:inline", "ein/midend/lining.py:_apply_insertions"]}
{"id": "C40", "title": "The table of translated expressions is transparent", "statement": "Translating a program to array code with the table that returns the earlier result for an expression met before gives the same code as translating every occurrence afresh.", "quantifier": "for every program", "why_tests_cant": "All programs: an entry made in one context is returned in another.", "anchors": ["ein/codegen/phi_to_yarr.py:transform"]}
{"id": "C41", "title": "Calling a program returns its value", "statement": "Whenever the interpreter, or the NumPy backend (conversion of records, translation, cleanup, outlining, in-place marking, execution), returns a result for a well-formed program and arguments of the declared types, that result is the value of the program; the arguments are not modified and no variable is left behind. The interpreter does return when the converted program has a value, its loops and comprehensions have iterations and outlining succeeds, for each call in any history of calls of a function; so does the NumPy backend when, besides, every result computed in place fits its buffer.", "quantifier": "for every program, every argument and every choice of option flags", "why_tests_cant": "All programs: seven passes composed, each with its own invariants.", "anchors": ["ein/backend/naive.py:interpret", "ein/codegen/phi_to_yarr.py:transform", "ein/backend/numpy_backend.py:stage_in_array", "ein/frontend/functions.py:Function"]}
{"id": "C42", "title": "Array code computes what its types announce", "statement": "Whenever an array expression has a type and evaluates to a result, the result has exactly the ranks and element kinds of that type, component by component: for every node kind, including loops, halving reductions, takes with index arrays, einsums and external calls. Variables must be annotated with the type of what binds them.", "quantifier": "for every array expression and every environment", "why_tests_cant": "All expressions over 25 node kinds, of any rank; type errors of generated code show only as broadcasting surprises.", "anchors": ["ein/codegen/yarr.py:type", "ein/backend/array_backend.py:ArrayBackend", "ein/backend/numpy_backend.py:fast_edge_pad"]}
{"id": "C43", "title": "Generated code takes its symbols and constants from the program", "statement": "The array code generated for a program that binds every symbol once (with the table of translated expressions, all options, and the clean-up passes) binds every symbol once; every node of it binds the symbols of one node of the program; its free variables are arguments of the program; its array constants are those of the program or integers; and if the program has no let-bindings, neither has the code and the NumPy backend's outlining of it cannot fail.", "quantifier": "for every program binding every symbol once, every choice of options and every outcome of the size comparisons", "why_tests_cant": "All programs: capture of a variable by a duplicated loop shows only for particular combinations of shared subterms and options.", "anchors": ["ein/codegen/phi_to_yarr.py:transform", "ein/backend/numpy_backend.py:stage_in_array", "ein/midend/lining.py:outline"]}
{"id": "C44", "title": "The torch backend computes what the array code says", "statement": "Running array code on the torch backend (environment dictionary with assignments and deletions, axes squeezed and unsqueezed one after another) yields the value of the code and leaves the environment as it was, provided axes are inserted in increasing order and removed one at a time, only vectors are padded, and nothing is gathered; whatever torch refuses to compute, where it returns the value is the same. Code generated and outlined from a program has these properties except for gathers and padded matrices, so the result is the program's value. torch.gather equals NumPy's when array and positions have the same sizes off the gathered axis; otherwise the result of a gather can be wrong: torch.gather does not broadcast.", "quantifier": "for every array code, every environment of well-formed arrays, every program accepted by the compiler and every set of operations torch refuses", "why_tests_cant": "All code and environments: leftovers in the environment and wrong axes appear only with particular nestings of loops, reductions and indexing.", "anchors": ["ein/backend/torch_backend.py:stage_in_array", "ein/backend/torch_backend.py:TorchBackend", "ein/backend/array_backend.py:AbstractArrayBackend.stage"]}
{"id": "C45", "title": "The JAX backend computes what the array code says", "statement": "Running array code on the JAX backend (loops by fori_loop, environment entries set and deleted around each body) and reading it as NumPy operations give the same value whenever both return one, whatever JAX cannot trace and whatever it returns for an invalid index; without indexing by arrays, a value returned by JAX is the value of the code. A staged program is called with the free variables of the generated code only, and returns the program's value.", "quantifier": "for every array code, every environment, every program accepted by the compiler, every set of expressions JAX refuses to trace and every behaviour of out-of-bounds indexing", "why_tests_cant": "All code and environments; which expressions can be traced depends on the JAX version and configuration.", "anchors": ["ein/backend/jax_backend.py:stage_in_array", "ein/backend/jax_backend.py:stage", "ein/backend/jax_backend.py:JaxBackend.fold", "ein/backend/array_backend.py:AbstractArrayBackend.reduce"]}
{"id": "C46", "title": "A comprehension over records evaluates its constructor at every position", "statement": "array(constructor)[x1, ..., xn] at positions in range is the structure the constructor returned, evaluated with the indices at these positions: same tuples, names and dataclasses, same value in every component. With given sizes, axis j has the j-th size. Without given sizes, axis j has the size of every array indexed with the j-th index whose size does not depend on bound symbols. Without indices the constructor's structure is returned. Indexing with several positions is indexing one axis after another. A slice a[:, x1, ..., xn] has the size of the first axis of a and element k is what a[k, x1, ..., xn] holds.", "quantifier": "for every constructor, structure, number of indices, sizes, positions and environment", "why_tests_cant": "All nestings of tuples, dictionaries and dataclasses, all numbers of indices.", "anchors": ["ein/frontend/comprehension.py:array", "ein/frontend/ndarray.py:Vec.__getitem__", "ein/frontend/layout.py:fold_layout"]}
{"id": "C47", "title": "A fold over a structure iterates the step", "statement": "fold(init, step, count) is the structure obtained from init by count applications of step to the counter and the structure so far, when the step returns a structure of the layout of init. Without a count there are as many steps as elements in every array the step indexes with the counter, and the count depends on neither counter nor accumulator. This layout is not checked: a step returning the fields in another order is accepted and exchanges them.", "quantifier": "for every initial structure, step and count", "why_tests_cant": "All structures and trip counts.", "anchors": ["ein/frontend/comprehension.py:fold"]}
{"id": "C48", "title": "Reductions, concatenations, assumptions and where over structures", "statement": "a.reduce(init, f) is accepted only if f and init have the layout of the elements of a, and is then the structure obtained from init by applying f to the elements from the first to the last; a.concat(b) has the elements of a followed by those of b; concat(a, b, ...) has the elements of all arguments in order; a.size(axis) is the size along that axis of every component of a; a.assume(other) has the value of a; where(cond, t, f) is the whole of t or the whole of f on structures of scalars; on structures of arrays and arrays of structures it is too, when it has a value (t and f of different sizes are refused).", "quantifier": "for every array of structures, reduction function, condition and environment", "why_tests_cant": "All structures and sizes.", "anchors": ["ein/frontend/ndarray.py:Vec.reduce", "ein/frontend/ndarray.py:Vec.concat", "ein/frontend/ndarray.py:Vec.size", "ein/frontend/ndarray.py:Vec.assume", "ein/frontend/std.py:where"]}
{"id": "C49", "title": "The pretty printer prints every term, and its layout only moves blanks", "statement": "Pretty printing a term succeeds for every width and indentation, and the printed characters other than blanks and newlines do not depend on them. The text contains the text of every operand, bound symbol and operator at its place, brackets are balanced, and operands of infix operators other than conditionals are in brackets. Symbols of a class get the same number in every printing, different symbols different numbers. A term without let that fits in the width is printed on one line, and a block after others is broken only if it does not fit on their last line. The same holds of array code without empty tuples. A printed term need not determine the program: conditionals are printed without parentheses.", "quantifier": "for every term, width, indentation and sequence of printed symbols", "why_tests_cant": "All terms and widths: the layout is decided block by block.", "anchors": ["ein/debug/pprint.py:_pretty_phi", "ein/debug/pprint.py:_pretty_yarr", "ein/debug/pprint.py:Nest.repr", "ein/symbols.py:Symbol.__repr__"]}
{"id": "C50", "title": "or_empty is the element, or the default for an array without elements", "statement": "a.or_empty(item, empty) is accepted only if empty has the layout of a[item]; its value is the whole of a[item] if a has elements and the whole of empty if it has none, for positions and slices, elements that are scalars, structures or arrays. The code compiled for NumPy raises in the second case.", "quantifier": "for every array, position, default structure and environment", "why_tests_cant": "All structures and sizes; the default is also evaluated where the element exists and vice versa.", "anchors": ["ein/frontend/ndarray.py:Vec.or_empty", "ein/frontend/std.py:where", "ein/backend/numpy_backend.py:take"]}
{"id": "C51", "title": "Extrinsic functions receive arguments of the declared types", "statement": "A call of ext(fun, (inputs, output)) is accepted exactly if the arguments have the declared types one for one and no declared type has records; the first argument of another type is a TypeError, another number of arguments a ValueError. The value of the result is what fun returns for the values of the arguments in order, and it fails as fun fails. What fun returns is not compared with the declared output type.", "quantifier": "for every function, signature, argument list and environment", "why_tests_cant": "All signatures and arguments.", "anchors": ["ein/frontend/ndarray.py:ext", "ein/phi/phi.py:Extrinsic"]}
{"id": "C52", "title": "eval refuses exactly the expressions with symbols that are not given", "statement": "eval raises a ValueError, without running a backend, exactly if some free symbol of the expression is not in the environment; otherwise it returns what the backend returns, and evaluation does not fail for a missing symbol. An index used outside of its comprehension is always refused.", "quantifier": "for every expression, environment and backend", "why_tests_cant": "All expressions: a symbol may be used only on a path that tests do not take.", "anchors": ["ein/frontend/ndarray.py:_Array.eval", "ein/term.py:Term.free_symbols"]}
{"id": "C53", "title": "The drawn graph of a program is the graph of its subterms", "statement": "graph(program) has exactly one box for each different subterm of the program, named by its class and a number no other box of the class has and carrying its label, and exactly one arrow from the box of c to the box of t for each subterm t and each of its direct subterms c. It fails exactly if the type of some subterm cannot be determined.", "quantifier": "for every Phi program, every array program and every iteration order of Python's sets", "why_tests_cant": "All programs with shared subterms and all iteration orders of sets.", "anchors": ["ein/debug/graph.py:graph", "ein/phi/phi.py:debug", "ein/codegen/yarr.py:debug"]}
