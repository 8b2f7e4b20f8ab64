# Formal model of ein in Rocq

Source under study: `/repo` (Python package `ein`), read as text. Nothing in it
is executed. The model is in `rocq/theories`, logical root `Verif`.

## Approach

* **Shallow, executable Gallina.** Each Python function that is modelled becomes
  a total Gallina function written branch by branch, with a comment citing file
  and lines. Python exceptions are values of `res` (`Err e`). Recursions that are
  not structural in Python carry fuel, and running out of fuel is a separate
  error so that it cannot be confused with a Python exception.
* **Scalars.** `bool`, `int` (unbounded `Z`; numpy's 64-bit wrap-around is not
  modelled) and `float`. Floats are an abstract carrier with an operations record
  (`FloatOps`): theorems hold for every choice of carrier and operations. Where
  reassociation of floating-point sums matters the needed algebraic laws are
  explicit hypotheses of the theorem.
* **Arrays.** A dense array is an element kind, a shape and a row-major list of
  elements. All array operations are defined by `tab` (tabulate over all
  in-range index tuples), so equality of arrays is Leibniz equality.
* **Symbols.** Python compares `Variable`/`Index` by identity; here they are
  numbered. Creating a fresh symbol is choosing a number not in use.
* **Reference semantics.** `den` is the pointful semantics of Phi terms: the
  meaning of `array(f, size=n)` is the stacked values of `f`. The naive
  interpreter is modelled separately (`naive`) and related to it.
* **Generic terms.** Substitution, inlining, let insertion are generic over
  terms in Python (`Term`), and are modelled once.
* **Array code.** Yarr terms with an evaluator that follows
  `array_backend.py`/`numpy_backend.py`, NumPy primitives being specified by
  their documented index formulas.

## Plan per property

| id | modelled | how |
|----|----------|-----|
| C01 | Phi terms, `den`, `naive` | characterisation of the stacked array, induction on nothing: direct from the semantics of Vec, plus coincidence |
| C02 | naive loop and array-backend loop with a mutable env | induction on the trip count |
| C03 | the halving loop of `ArrayBackend.reduce` over lists of values and over batched arrays | induction on length with the invariant product(vals)*acc; simulation of the array loop |
| C04 | Get in `naive`, take and gather in the yarr evaluator | index arithmetic |
| C05 | the integer formulas and slice+pad on arrays | `lia` case analysis on a piecewise-linear goal |
| C06 | the matcher on Phi terms | induction on the term |
| C07 | union-find with path compression on association maps | invariant relating roots, classes and the closure |
| C08 | `substitute` | induction on terms, coincidence lemma |
| C09 | `free_symbols` and `den` | induction on terms |
| C10 | `resolve_scalar_signature` | soundness and completeness against a declarative instance relation |
| C11 | `type` of every Phi node | induction, errors classified |
| C12 | SoA transform with `go`/`elim` | induction on fuel, semantic equality |
| C13 | `_soa_transform_type`, `primitive_type` | induction on types |
| C14 | `inline` with its memo table | induction, invariant on the memo |
| C15 | `_apply_insertions`, CSE, LICM | simulation with environment extended by inserted lets |
| C16 | `_update_size_classes` | facts hold at every moment of an evaluation (one environment for all symbols), closure by an invariant of the union-find |
| C17, C18 | `Axial` | index arithmetic on permuted/expanded tuples |
| C19 | `transform`/`_go` with its option flags | logical relation between axial arrays and families of pointful values |
| C20 | both cancellation passes | induction on yarr terms |
| C21 | yarr evaluation over a heap of buffers | heap invariant: temporaries are unreachable |
| C22, C23 | `match_reduction`, `Dot` | big-operator algebra over hypotheses on the float operations |
| C24, C25 | layouts, packing, projection | induction on layouts |
| C26 | the recursive squaring with fuel | strong induction on k |
| C27 | std helpers | induction on the vector |
| C28 | `_infer_sizes` | induction on the traversal |
| C29 | the cache as a state machine | invariant over call histories |
| C30 | stateful evaluator with set/del of env entries | induction |
| C31 | `fast_edge_pad` | index arithmetic |
| C32 | `Value.__eq__/__hash__` | case analysis; refutation by witness |
| C33 | `_dim_of` | induction |
| C34 | `to_einsum_subs` | invariant on the letter table |
| C35 | sequential squeeze/unsqueeze | induction, refutation by witness |
| C39 | `outline` with its checks | invariants of the insertions, injectivity of their expansion |
| C40 | `transform` with the table `transformed` | dependence on the context of free symbols only, invariant on the table; refutation by witness |
| C41 | the composition of the passes | composition of C12, C39, C36 and of C12, C19, C20, C39, C21 |
| C42 | `type` of every array node, evaluation | induction on the code; ranks and kinds of every primitive |
| C43 | `transform` with the table, the clean-up passes | the same term is translated to the same code in every context; ownership of binders |
| C44, C45 | `stage` of the torch and the JAX backend | simulation by `yeval`, shape of the generated code kept by the passes; refutation by witness |
| C46-C48 | `array`, `fold`, `__getitem__`, `reduce`, `concat`, `assume`, `where` as functions from (meta-level) functions on structures to terms | values of structures, packing and unpacking are inverse on values; refutation by witness |
| C49 | `Repr.repr`, `_pretty_phi`, `_pretty_yarr`, `Symbol.__repr__` | induction on the representation; refutation by witness |
| C50 | `Vec.or_empty` | composition of C46 and C48; refutation by witness |
| C51 | `ext(fun, signature)` | induction on the arguments; refutation by witness |
| C52 | the check of `eval` | C09 and the definition of free symbols |
| C53 | `graph` | invariant of the depth-first traversal, over the term interface |

Where the full English statement is false of the faithful model, the file
contains a `..._refuted` theorem with a concrete witness and the guarded
statement that does hold.

## Files

| file | models | source |
|------|--------|--------|
| Base, Scalar, Tensor, Sym | results, scalars, arrays, symbols | value.py, symbols.py |
| Types, TypesFacts, Phi, Typing | types, signatures, Phi nodes, `type`, soundness | phi/type_system.py, phi/phi.py |
| Den, DenWf, DenFree, SpecPhi | reference semantics | specification |
| Naive | the interpreter with its mutable environment | backend/naive.py |
| Term, PhiTerm, YTerm | generic terms, `free_symbols`, `substitute`, `inline` | term.py, midend/substitution.py, midend/lining.py |
| Lining, LiningFacts, InlineMemo, Outline, Dominators, Subst | let insertion, CSE, LICM, dominators, memo | midend/lining.py |
| Visits, OutlinePass, OutlineTree, OutlineTotal | the whole of `outline`: its checks succeed, the result is a tree | midend/lining.py:113-143 |
| Equiv, Sizes | union-find, size inference, `_dim_of` | midend/equiv.py, midend/size_classes.py, frontend/comprehension.py |
| ClipShift, IndexOps, CodegenGet | index matching, slice and pad, gather | codegen/array_indexing.py |
| Axial, AxialFacts, AxialOps, NdOps, NdFacts, YOps | axes, alignment, NumPy primitives | codegen/axial.py, codegen/yarr.py |
| Yarr, YWf, Cancel, Inplace | array code, evaluation, cancellation passes | codegen/yarr.py, phi_to_yarr.py:318-345 |
| Codegen, StrictCode, Codegen*, Compile | translation to array code and its correctness | codegen/phi_to_yarr.py |
| Lift, LiftSem, SumFacts, EinOps, CodegenEin, Subscripts | sums of products, einsum | phi_to_yarr.py:79-155, 431-521 |
| Soa, SoaTyp, SoaOps, SoaFacts, SoaReduce, SoaMain | arrays of records to records of arrays | midend/structs.py |
| SizeClasses, SizeSound | size classes and their soundness | midend/size_classes.py |
| Moments, MomentFacts, SizeSafe | moments of an evaluation, elided accesses | specification |
| CodegenRed, TreeReduce, ReduceOps, CodegenReduce | reductions over an axis, halving reduction on values and on arrays | phi_to_yarr.py:381-429, array_backend.py:104-155 |
| Machine, MachineRun, MachineSim, MachineSafe, YFit, GenCheck | execution with buffers and in-place results | array_backend.py:157-255, phi_to_yarr.py:523-560 |
| FastPad, Torch | padding, torch axis handling | numpy_backend.py:90-123, torch_backend.py |
| Frontend, Layout, Cache, Value | std helpers, layouts, compilation cache, values | frontend/*.py, value.py |
| Pretty | the pretty printer and the names of symbols | debug/pprint.py:12-248, 367-370, symbols.py |
| Lines | when the pretty printer breaks lines (proofs) | debug/pprint.py:31-68 |
| PrettyY | the pretty printer of array code | debug/pprint.py:251-374 |
| Graph | the graph of a program | debug/graph.py:31-59 |
| Rename, Check | renaming of indices, a computed condition for C19 | specification |
| Direct | programs that access arrays by indices and counters of their size only | specification |
| Close | such programs with non-empty loops, compiled to loops or reductions | specification |
| Comprehension, ComprehensionSem, Slice, WhereVec | building terms from functions on structures | frontend/comprehension.py:140-176, ndarray.py:104-112, 190-252, std.py:12-26 |
| Boundary | `or_empty`, extrinsic functions, `eval` | ndarray.py:114-125, 225-228, 374-398 |
| Varargs | `concat`, `min` and `max` of any number of arguments | std.py:25-26, 49-54 |
| Sample, Checkers | concrete instances and decision procedures for the examples | - |
| SoaWf, OutlineBinders, Pipeline | binders kept by the passes, the passes composed | naive.py:88-93, phi_to_yarr.py:305-316, numpy_backend.py:126-185 |
| CodegenMemo | translation with the table of translated terms | phi_to_yarr.py:36, 297-304 |
| CodegenLocal | the terms the translation visits; it depends on the context of free symbols only | phi_to_yarr.py:25-560 |
| MemoSound | the table changes nothing in tidy programs | phi_to_yarr.py:36, 297-304 |
| Tidy | programs binding every symbol once are tidy | phi_to_yarr.py:208, 411-416 |
| YTyping | ranks and kinds of what array code computes | codegen/yarr.py, numpy_backend.py:90-172 |
| CodeBinders, CodeStage | where the symbols and constants of the code come from | phi_to_yarr.py:25-316 |
| Backend, BackendRun | execution without in-place results, parametric in the operations | array_backend.py:84-255, torch_backend.py:34-157, jax_backend.py:39-221 |
| OutlineHeads, CodeShape | properties of single nodes of the code, kept by `outline` | lining.py:113-143, phi_to_yarr.py:41-306 |
| Prop*.v | the property theorems, one file per area | - |

## Findings

Claims that are false of the code as modelled. Each has a `..._refuted` theorem
with a witness; the theorem beside it states what does hold.

* C01: the interpreter loses the inner dimensions and the element kind of a
  comprehension of size 0.
* C02: on a negative trip count the interpreter raises KeyError; the array backends
  return the initial value.
* C03: the halving reduction puts the initial value last, so it must be an identity; a
  component of a reduced record that does not depend on the elements is not given the
  halved axis, and the reduction of more than three elements fails.
* C05: explicit clip bounds below 0 or beyond the last element give an array of another
  size; a shifted integer array becomes a float array on NumPy.
* C08: substitution captures when a replacement mentions a symbol bound in the term.
* C09: `free_symbols` removes captured symbols also from let-bound terms, sizes and
  initial values (`let x = x in 1` reports none).
* C10: too few arguments are accepted by `resolve_scalar_signature` (`zip`).
* C11: float indices, and occurrences whose type differs from their binder's, pass type
  checking.
* C12: a program whose result is an array of records, and any program with records under
  two vectors, is rejected by an assertion; the check that the components of an array of
  records agree in size leaves out the first component.
* C13: matrices of records keep records under a vector and have no array layout.
* C14: with a variable bound twice the memo of `inline` returns a stale term.
* C15: hoisting out of a loop that runs zero times can make a program fail.
* C16: assertions inside a loop that runs zero times are used outside of it; an
  accumulator known to have the size of the initial value makes the result of the body
  have it too; terms are compared with their indices at 0, so `let x = i + 1` is in the
  class of 1. In the first two cases the compiled program returns an array of another size.
* C19: records whose components have different axes, and loop bodies that do not depend
  on the axes of the initial value, do not compile to working code.
* C21: in-place results are wrong for comparisons and fail for larger second operands;
  these shape failures are the only ones (C21_inplace_exact).
* C22: a fold whose element uses the accumulator is treated as a reduction; the minimum
  over an empty axis raises where the fold returns its initial value.
* C23: summands without a summed counter are counted once; lengths depending on outer
  counters are evaluated outside their loop; sums shared inside factors are captured; an
  ill-typed substitution raises instead of falling back to a loop.
* C24: keys named like dict attributes, raw arrays inside structures and empty
  dataclasses cannot be packed.
* C25: `VecLayout.match` accepts arrays of any elements (the layout of the elements is not compared).
* C26: `x ** 0` recurses forever. C27: integer elements are rejected by the helpers.
* C28: an access to an array bound inside the comprehension is ignored by size inference.
* C30: rebinding a bound symbol destroys the outer binding (interpreter and array code).
* C31: padding of empty arrays, integer arrays, and two axes on one side each.
* C32: 0.0 and -0.0 are equal constants that may hash differently.
* C33: `_dim_of` gives a negative size where the array has size 0.
* C39: an unused let whose bound term has the only occurrence of a free symbol makes
  `outline` fail its own check.
* C40: the conversion of an array of records duplicates the binders of loops inside it;
  the second copy of a loop is then translated with the entries of the first one and an
  assertion fails. The same happens, without records, after an attempt to compile a fold
  as an einsum is given up half way. For programs binding every symbol once and without
  einsum candidates the table is proved transparent (C40_table_transparent).
* C41: for the same reason `outline` raises an AssertionError in the interpreter.
* C39, C41: an expression that does not depend on a loop is moved out of it even if the
  loop has no iteration: an `assert_eq` of argument sizes in the body of a fold of
  count 0 raises in the outlined program and in the interpreter, while the program has
  a value (C39_idle_loop_refuted, C41_idle_loop_refuted; lining.py:66-95).
* C42: Let, Fold and Reduce nodes do not compare the types of their variables with those
  of the bound terms, so a well-typed term can compute an array of another type.
* C35, C38: torch squeezes sequentially and pads the axes in reverse order.
* C44: `torch.gather` does not broadcast, which `general_get` relies on:
  array(lambda i, j: a[i, j, x[i]]) has one column on torch.
* C47: `fold` compares the layout of the initial structure with itself
  (comprehension.py:164), so a step that exchanges two fields of the same type is accepted
  and the names of the result are exchanged.
* C49: `(if c then a else b) + 1` and `if c then a else (b + 1)` print the same: the case
  for Where ignores `par`. A nested block whose text is empty makes `max` raise; an
  empty tuple of array code is one.
* C50: `a.or_empty(i, e)` on an array without elements, the case it is for, raises
  IndexError on NumPy: both sides of the `where` are computed, and the clipped position is
  -1 (numpy_backend.py:56-64).
* C51: the result of an extrinsic function is not compared with its declared type; without
  a declared signature arrays of records are accepted as arguments and fail on evaluation.

## Not modelled

`safe_all`, the condition of C19 on a program and its arguments, is a proposition; `chk`
(Check.v) computes a sufficient condition by running the reference semantics (C19_checked,
C41_numpy_checked), including loops compiled to reductions and to einsum. It rejects
`reduce`, whose condition (an associative operation with identity) is about all values
the reduction can come across.
`direct` (Direct.v) looks at the program alone: if every access is by an index or counter
of the size of the array, compiled programs agree with the reference for all arguments
(C19_direct; without loops also with all options, C19_elementwise, C41_numpy_elementwise).
`close` (Close.v) also checks that loops and arrays are not empty, from the arguments that
are said to be at least 1 or without empty dimensions. For the programs it accepts, loops
may be compiled to loops or to reductions, for any oracle of sizes (C19_close,
C19_close_numpy, C41_numpy_close). It rejects `reduce` and external functions, and does
not cover einsum.

The translation of C19, C22, C23 and C41_numpy is modelled without the table
`transformed`; the table is modelled in CodegenMemo (C40, C43, C41_numpy_compiled), whose fresh indices are chosen from the term and its
context where Python draws a new `Index()`.
Of torch and JAX the environment handling, the loops and reductions, and the operations
that differ from NumPy's are modelled (C35, C38, C44, C45); their other operations are
taken to be NumPy's, and what they refuse (element types, tracing) is arbitrary. Not
modelled: 32-bit numbers, timing/memory behaviour, labels and plotting of
graphs, Python's own evaluation of user lambdas (functions passed to
`array`, `fold` and `reduce` are arbitrary functions on structures), hash collisions, exceptions thrown by user-supplied
extrinsic functions.

## Trusted base

Coq 8.16.1's kernel (and `vm_compute`, part of it). Each property theorem is
followed by `Print Assumptions`; every one is "Closed under the global context".
A checker that walks all loaded libraries also lists seven parameters of the
standard library module `Coq.ssr.ssrunder.Under_rel` (`Under_rel`, `Over_rel`,
`over_rel`, `over_rel_done`, `under_rel_done`, `Under_rel_from_rel`,
`Under_relE`); they come with tactic libraries and no theorem depends on them.

Trusted as well: that the Gallina definitions transcribe the cited Python, and the
index formulas given to NumPy's primitives (NdOps.v).
