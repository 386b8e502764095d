# Formal model of verri/jules in Rocq (Coq 8.16.1)

## Approach

The C++ templates are modelled function by function as total, computable Coq functions; every definition cites
the file and lines it models and says where it simplifies.

* `index_t`/`size_t` is `Z` with **explicit wrap-around modulo 2^64** (`w64`) at every operation the C++ performs
  on it; `distance_t` is `Z` with two's complement conversions and undefined overflow.  Other integral types carry
  their width and signedness (`ity`), with integral promotion and the usual arithmetic conversions.
* Fixed-order `std::array<index_t,N>` is `list Z`; template recursion over the order is structural recursion over
  the list, so one definition covers every order `N`.
* Every partial operation returns an `outcome`: `Ok v | Throw e | Abort | UB`.  `Abort` is a failed `DEBUG_ASSERT`
  of the default module (checked build); the build mode is a Boolean parameter `chk` (`true`: checked, `false`:
  NDEBUG).  The throwing module is active in every build.  Undefined behaviour is `UB`, never a default value.
* `double` is the standard library's `spec_float` (binary64: precision 53, emax 1024) with its IEEE operations;
  where real numbers are needed, Flocq's correctness theorems for the same operations are used.
* Element types are arbitrary Coq types; element operations that may throw are modelled by an oracle (which of the
  operations throws), quantified over universally.
* Storage is an explicit memory, with object accounting (alloc/construct/destroy/free) for the lifetime properties.
* Stateful parts (variables holding arrays, dataframes, shared vectors; streams) are `step` functions over an
  explicit world, and properties are proved for every history by induction over the list of operations.

File roles: `X.v` model (definitions only), `XSpec.v` the small independent specification the theorems refer to,
`XProofs.v` (and `ViewThms*`, `LifeList/Sim/Thms`, `ExprThms`, `FrameText/FrameWrite`, `IoText`) lemmas,
`PropX.v` the property theorems, each with a concrete example meeting its hypotheses and `Print Assumptions`.

Properties the code violates are stated in full; a `*_refuted` theorem gives the counterexample in the model, next
to the strongest true variant we could prove.  A theorem named `*_partial` proves only part of its property; the
comment above it says what is missing.

## Model and proof per property

| id | property | model | proof | status |
|----|----------|-------|-------|--------|
| C01 | Element addressing of owning arrays is a bijection | Desc.v | mixed-radix bijection by induction over the extents; explicit mod 2^64 | proved |
| C02 | Iteration order of owning arrays is column-major | Desc.v, Slice.v | pointer walk = digits of the position, induction over the extents | proved |
| C03 | Iterating a strided view visits each index exactly once, in column-major order, and terminates | Desc.v (strided iterator) | invariant: the k-th state holds the digits of k; induction over k | proved |
| C04 | A slice denotes exactly the requested elements of its source | Slice.v | SliceProofs/RunProofs: induction over dimensions, then over the history of subscripts; refinement to the selection function of SliceSpec.v | proved |
| C05 | Slicing a slice composes | Slice.v | composition of selections, induction over dimensions | proved |
| C06 | Debug bounds checks reject every out-of-range index or slice | Slice.v (checked mode) | case analysis per kind of subscript; witness for the wrapped check | partial |
| C07 | Indirect slicing selects the Cartesian product of the index lists | Slice.v (vector_mapper) | as C04: index lists are one kind of subscript | proved |
| C08 | Chained indexing a[i][j]...[k] addresses the element (i,j,...,k) | Slice.v (array_at) | induction over the index chain | proved |
| C09 | `every` based slicing of trailing dimension equals generic slicing | Slice.v (every proxies) | equality with the generic path | proved |
| C10 | Bounded slices are clamped: in bounds, maximal, never longer than requested | Slice.v (bounded) | integer arithmetic; witness for strides of 3 and more | partial |
| C11 | Dropping unit dimensions preserves the elements | Slice.v (drop); Expr.v (drop of expressions: forwarding functor) | filter lemmas over the extents; induction over the tree; witnesses | partial |
| C12 | rows()/columns()/axis<> enumerate the hyperplanes of the array | Slice.v (axis) | induction over dimensions; witness | proved |
| C13 | Axis iterators satisfy the random access laws | Slice.v (axis iterator) | arithmetic of the iterator; witness | partial |
| C14 | Nested initializer lists define the array element-wise | Life.v (nested lists as trees) | induction over the depth of the list, all throw points | proved |
| C15 | Array construction is leak free under exceptions at any point | Life.v | object accounting invariant, induction over the elements, oracle of throw points | partial |
| C16 | Array assignment gives the value of the source, keeps accounts balanced | Life.v | four-way characterisation of the outcomes; witness | partial |
| C17 | Moves transfer ownership and leave a usable source | Life.v (programs over variables) | simulation: LifeSim.v relates every program to plain values; induction over the program | partial |
| C18 | array_builder delivers exactly the pushed values | Life.v (builder) | invariant over push histories | proved |
| C19 | Assignment through a view writes the selected elements and nothing else | Expr.v | induction over the positions written; injectivity from C01/C04 | proved |
| C20 | Assignments between overlapping views | Expr.v | as C19, with a temporary; characterisation of the plain assignment; witness | proved |
| C21 | Lazy element-wise expressions denote the pointwise function | Expr.v (expression trees with node lifetimes) | induction over the tree | proved |
| C22 | In-place operations update each element once | Expr.v | induction over the positions | proved |
| C23 | seq(start, stop, step) contents | Numeric.v (seq) | arithmetic with 64-bit wrap; loop by induction over its length; witnesses; PropSeq.v gives the exact result for all ends and steps, on one side of 2^63 and across it | partial |
| C24 | Matrix product | Numeric.v (product, gemm) | sums over index ranges by induction | proved |
| C25 | Concatenation and column-wise flattening | Numeric.v (cat, as_vector, reshape) | induction over the parts | proved |
| C26 | Reductions and searches meet their mathematical specification | Reduce.v | induction over the range; IEEE comparison incl. NaN; integral promotion; witnesses | partial |
| C27 | The range and iterator overloads of mean agree | Reduce.v (mean) | arithmetic of the two divisions; witness | partial |
| C28 | Printing an array is injective on its shape and elements' text | Io.v | IoProofs/IoText: the printed text is the text of a tree; injectivity by induction; witnesses for delimiters inside the texts | proved |
| C29 | Dataframes stay rectangular under every history | Frame.v | invariant over histories of a store of dataframe variables | proved |
| C30 | Column lookup by name finds the column with that name | Frame.v | invariant over histories; witnesses | partial |
| C31 | Column names are unique | Frame.v | invariant over histories; witness | partial |
| C32 | bind has the strong exception guarantee | Frame.v (bind) | case analysis over the checks in the order of the code | proved |
| C33 | read yields a rectangular table or throws | Frame.v (read) | specification by declarative cutting of the text; induction over the text | proved |
| C34 | write then read is the identity | Frame.v (write) | FrameWrite.v: inverse of reading, induction over rows and columns; witnesses | partial |
| C35 | Coercion of integers to text and back is lossless | Coerce.v (to_string, stoi, ...) | decimal printing/parsing inverse by induction over digits | proved |
| C36 | Coercions to index/unsigned reject or preserve | Coerce.v | ranges of the conversions; witnesses | partial |
| C37 | Column coercion is element-wise and all-or-nothing | Frame.v (columns) | induction over the elements, any set of rules | proved |
| C38 | head and column sub-ranges | Frame.v (head, partial copies) | induction over the columns; witnesses | partial |
| C39 | to_matrix/to_view/to_vector conversions | Frame.v (to_vector, to_view, to_matrix) | induction over rows and columns | proved |
| C40 | Sampling without replacement | Random.v (binary64 arithmetic of SpecFloat) | Flocq's correctness of rounding: loop invariant n-m <= end-t, induction over the draws | proved |
| C41 | Shared constant vectors have value semantics | Shared.v (reference counted store) | refinement of every history to a semantics of values, invariant over histories | proved |
| C42 | Integer narrowing in BLAS calls is checked | Numeric.v (int conversions before gemm) | range arithmetic; witness | partial |
| C43 | nth returns the n-th smallest element | Reduce.v (nth) | any permutation meeting the contract of std::nth_element | proved |
| C44 | Numeric cells are printed correctly rounded | Coerce.v (std::to_string(double)) | exact rational arithmetic of %f | proved |
| C45 | Sampling with replacement | Random.v (sampling with replacement) | induction over the draws | proved |
| C46 | Sums and means of doubles are accurate | Stats.v (binary64 arithmetic of SpecFloat) | StatsProofs.v: Flocq's rounding theorems, induction over the range | proved |
| C47 | Variances and standard deviations | Stats.v | StatsProofs.v: propagation of relative errors; StatsInt.v: integer arithmetic with promotions and wrap | proved |
| C48 | A view follows the elements until they are destroyed | ViewLife.v on top of Life.v: a view is a block and positions; holder: the variable that holds the block | ViewLifeProofs.v: blocks are never reused and never resized (frame lemmas), step-by-step tracking of the owner, induction over programs; PropViewLife.v adds the positions of any slicing history | proved |
| C49 | Columns and dataframes own their storage and neither leak nor double-free, whatever fails | ColHeap.v: columns are pointers into a heap of models; a clock numbers all operations that may throw, an arbitrary set of them throws an arbitrary exception. A model object and its vector's buffer are one block; reallocation inside a vector is not separate; a failing assignment of the name index (std::unordered_map) leaves the old entries or none | ColHeapProofs*.v: weakest-precondition style lemmas with a separating invariant, refinement of each command to the value semantics of Frame.v (ColHeapSpec.v) or to its failure relation; ColHeapFrame.v, ColHeapPtr.v: frame lemmas | proved |
| C50 | Dataframes stay consistent when operations fail | ColHeap.v | ColHeapConsist.v: the failure relation preserves the invariants of FrameProofs.v; explicit counterexample histories | proved |
| C51 | Sampling without replacement is uniform | Random.v (double arithmetic of the test); draws are given by equally likely generator states | RandomUniProofs.v: share of states that pass one test by the rounding-error bound, counting of tuples of states, induction over the loop; PropRandomUni.v instantiates 53-bit draws and the 64-bit generate_canonical of the standard library (outside /repo) | proved |
| C52 | Slices that select nothing | Slice.v, Desc.v | EmptyProofs.v: every chain comes down to one call of the slicing function; EmptySlice.v: slicing functions and odometer with a zero extent; EmptyThms.v: contiguous shortcuts | proved |
| C53 | Which expressions may be kept in a variable | ExprLife.v: expression objects, temporary operands and the objects their iterators point to, destroyed at the end of the full expression | ExprLifeProofs.v: simulation with Expr.v while everything is alive; the set of objects a new expression refers to; undefined as soon as one of them is dead | proved |
| C54 | Assignments through views that repeat elements or overlap the operands | Expr.v; ExprSeq.v holds the specification (in_order, occ) | ExprSeq.v: induction over the loops for any positions, then the effect of a sequence of writes on one cell | proved |
| C55 | Assigning an array an expression that reads the array | ArrAssign.v on top of Expr.v: the steps of operator=, storages numbered by array | ArrAssign.v: induction over std::copy with the iterators of Expr.v; ExprSeq.v for the order of writes | proved |
| C56 | freq is the share of true elements | Freq.v: count of Reduce.v, doubles of Stats.v | Freq.v: Flocq's division and rounding theorems; strict monotonicity from the spacing of doubles below 1 | proved |
| C57 | Selecting by a mask | Reduce.v (which), Slice.v, Expr.v | PropMask.v: composition of the theorems on which, index ranges (C07, C52) and assignment (C54) | proved |
| C58 | Constant vectors shared between threads | Threads.v: threads, control blocks with use counts, steps of one access to shared state; ThreadsSpec.v: the same steps on values | ThreadsProofs.v: invariant (use count = number of references, one destroying thread per dead block) by case analysis of the steps, induction over the schedule | proved |
| C59 | Samples are determined by the engine | Engine.v: generate_n view, vector from input iterators, the loop without replacement, with explicit engine state | PropEngine.v: induction over the number of elements and over the loop | proved |
| C60 | Algorithms see the elements of arrays, views and expressions in column-major order | RangeLoop.v: the loops of base/numeric.hpp on the iterators of Expr.v | RangeLoopProofs.v: one induction for a generic loop over an expression's iterator, then the list versions of Reduce.v and Stats.v | proved |
| C61 | Checks decide only whether the program stops | the build mode chk of Slice.v, Expr.v, Numeric.v, ArrAssign.v, ExprLife.v, RangeLoop.v and Life.v | Builds.v, BuildsLife.v: a relation between outcomes closed under sequencing, by structural induction over every function that contains a check | proved |
| C62 | Text becomes the nearest double | Coerce.v (stod, ftos); ReadNumSpec.v: grammars of decimal and hexadecimal literals with their real values, the longest literal, the words | ReadNumProofs.v: the parser finds the longest literal, and nothing else is accepted; Flocq's correctness of the integer quotient and its rounding; thresholds by midpoint lemmas; uniqueness of digit strings | proved |
| C63 | Every subscript of a chain takes effect | Slice.v: proxies with the way they keep their arguments (proxy_at, by_name, every_at); SliceSpec.v: loses | SliceLost.v: induction over the chain in the structure of RunProofs.v; PropLost.v | proved |
| C64 | Slices relative to the size of a dimension | Relative.v: relative_index expressions and eval in index_t arithmetic; RelativeSpec.v: their value in Z and the indices denoted | PropRelative.v: induction over the expression, then C04 | proved |
| C65 | Views by an index container | IdxView.v: buffers of index containers, views that refer to one, subscripting on top of Slice.v | PropIdxView.v: induction over the later program; the other cases by computation | proved |
| C66 | In-place operations with an element of the array itself as the scalar | InplaceRef.v: the loops with the scalar read from the storage in every step | PropInplaceRef.v: induction over the positions, invariant on the prefix written so far | proved |
| C67 | Flattening into an element type that a pointer converts to | AsVector.v: overload resolution of return {begin, end} on top of Numeric.v | PropAsVector.v: by cases on the operand, then C25 | proved |
| C68 | Reading with any regular expressions | Pattern.v: std::regex_iterator / regex_token_iterator over an abstract search function, read with any options, literal and character patterns; PatternSpec.v: cuts, tables | PatternProofs.v: induction over the iteration with a measure for termination, then the columns as in C33; PropPattern.v | proved |
| C69 | The throwing build | Throws.v: the functions of Desc/Slice/Expr/Numeric/ArrAssign that contain checks, each check a throw, noexcept functions turning it into the end of the program; ThrowsLife.v: the same for Life.v | ThrowsProofs.v: relation between checked and throwing results, congruent for every construct, and absence of noexcept checks under the hypotheses; ThrowsLife.v: simulation on the invariant of LifeSim.v; PropThrows.v, PropThrowsLife.v | proved |
| C70 | Operations through views when an element operation throws | ExprThrow.v: the loops of Expr.v and ArrAssign.v with an event (none, exception while computing, exception while assigning with any value left) per element, the memory kept in every outcome; specification: quiet, throws_at, partly | ExprThrowProofs.v: induction over the loops, both for the quiet and the interrupted run, against the sequential semantics of C54; PropExprThrow.v | proved |
| C71 | Threads that work through disjoint views | ViewThreads.v: every statement of Expr.v as a program of single element reads and writes, a pool of threads interleaved at that grain; specification: data_race, independent, one_after_the_other, accesses | ViewThreadsProofs.v: a step of any thread does not change what running the threads one after the other gives (accesses commute under independence), the programs of accesses alone are the functions of Expr.v, and they stay in their footprints; PropViewThreads.v: by induction over the steps | proved |
| C72 | Arithmetic with the iterators of arrays and views | Iter.v: operator+, operator-, difference of iterator_from_indexes over the iterators of Expr.v | PropIter.v: induction over the increments, with the walk of C03/C60; equality of iterators from the length of the remaining walk | proved |
| C73 | Functions with effects in expressions | Effects.v: the loops of Expr.v and RangeLoop.v with functions that map the world (all array elements and any further state) to a new one; EffectsSpec.v: the calls made for one element, and the log of an expression whose functions record place and arguments | PropEffects.v: invariant on the position of the iterators (EffectsProofs.v); the log by induction on the expression and the elements (EffectsRec.v) | proved |
| C74 | Builds with some of the checks | Levels.v: the functions with checks of Desc.v, Slice.v, Expr.v, ArrAssign.v and Numeric.v, every check with its level; LevelsLife.v: the operations of Life.v | LevelsProofs.v: congruence of the sequencing operators for the relation between two levels, and equality with the models of both builds; PropLevels.v: invariant over the chain of subscripts | proved |
| C75 | Products of doubles | Prod.v: prod as a fold of the double multiplication, and the same loop over the iterators of Expr.v; the matrix product of Numeric.v with doubles | ProdProofs.v: the relative error of one multiplication (Flocq), induction over the elements with the running products as state; perturbed sums for dot products. ProdBlas.v: the loop of GEMM gives the same list when mul one is the identity on the elements and mul commutes | proved |
| C76 | Dataframe variables are independent values | Frame.v: exec, the commands over a list of dataframe variables | PropFrameVars.v: case analysis per command, induction over the history; the strong guarantee of bind (C32) and totality of read (C33) | proved |
| C77 | The density of the normal distribution | MathFn.v: normal_pdf on binary64 (SpecFloat) and on integral types, abs, the element-wise functions; exp is a parameter | MathProofs.v, MathPdf.v: relative closeness b e^-k <= a <= b e^k composed over the operations (Flocq), PI from the stdlib Machin series; MathPdf2.v: symmetry, sign, monotonicity; MathExp.v: the correctly rounded exp meets the hypotheses; MathInt.v: integers | proved |
| C78 | Matrix products of expressions | ExprProduct.v: eval of operands, product of expressions, blas::product(alpha * lhs, rhs) through the expression object | ExprProductProofs.v: the evaluated operand is the contiguous matrix of the values of the expression, then product_spec of C24; the scaled overload reduces to GEMM with alpha; ExprProductFloat.v: error of (alpha b) a and of their sums (Flocq) | proved |
| C79 | Bernoulli and discrete samples have the right chances | Dist.v: generate_canonical, bernoulli_distribution, discrete_distribution (normalised weights, partial sums, lower_bound) of libstdc++ 13 over a list of engine outputs; DistSpec.v: sequences of outputs, count, chance | DistProofs.v: value of a draw and thresholds; DistDiscrete.v: binary search on any list, error analysis of the cumulative probabilities (Flocq); DistCount.v: counting sequences, convolution of samplers that read a prefix; DistChance.v: chances | proved |
| C80 | Uniform index samples are exactly uniform | Dist.v: uniform_int_distribution (multiplication method for ends up to 2^32, recursion above) | DistUniform.v: every index has 2^32 / end accepted outputs, rounds of the recursion counted by convolution and induction on the number of outputs; undecided sequences shrink by 3/4 per two outputs | proved |
| C81 | to_vector, to_matrix, write and head keep their temporaries alive and release them | Export.v: the functions on the heap of ColHeap.v, with their temporary columns, raw pointers followed at each access, and unwinding; ExportSpec.v: their meaning on values (Frame.v) and what a failure may leave | ExportProofs.v: one triple per function over the exact contents of the heap; ExportThms.v: commands, invariant of programs, independence of operations that do not fail | proved |
| C82 | A table of numbers in a text becomes the matrix of those numbers | Frame.v and Coerce.v (read, write, to_matrix, the rules); TableSpec.v: the number in a field, the data lines of a table | PropTable.v: the columns of what is read (C33) and the coercions of texts (C35, C62) composed with C39; the way back through C34 | proved |
| C83 | Samples drawn by several threads | Mt.v: std::mt19937 of libstdc++, statement by statement; SampleThreads.v: the calls of Dist.v one output at a time, engines per thread and translation unit, engine objects with and without mutex, schedules; MtSpec.v: the standard's recurrence; SampleThreadsSpec.v: calls one after the other | MtProofs.v: the in-place generation of 624 words by an invariant on the replaced words; SampleThreadsProofs.v: every call reads a prefix of the outputs and its result depends on it only; an invariant relates every engine to the calls done with it and the outputs drawn by the call in progress; PropSampleThreads.v | proved |
| C84 | Streams that fail, end or were cut off | Stream.v: input streams (rest of the content, failing device, flags) and output streams (device with limited room, flags, mask, width), read from its test of the stream on, write insertion by insertion, both operators; StreamSpec.v: what was sent, beginnings of texts, rows that were cut | StreamProofs.v: write is a list of insertions, each of which sends as much as the device takes, by induction on the list; StreamCut.v: a beginning of a written text is some complete lines and a beginning of the next one, whose fields are those of the row as far as it goes; PropStream.v | proved |
| C85 | Sources that can be read only once | Single.v: istream_iterator over a list of values still to come, the iterator overloads of numeric.hpp as loops over it, the three array constructors that read from an iterator or a generating function with a state; SingleSpec.v: the function object after k calls, what call k returns | SingleProofs.v: one loop over the stream is the loop over the list (each_some), a second loop sees one value only; induction on the number of elements for copies and generated arrays; PropSingle.v | proved |
| C86 | Reading dataframes when memory runs out | ReadHeap.v: read with its local dataframe as a variable that is destroyed when its block is left by an exception, each column a block of the heap of ColHeap.v filled string by string, every bind with its temporary; >> is the move assignment; ReadHeapSpec.v: meaning by Frame.v's read, programs that also read | ReadHeapProofs.v: Hoare rules over the ownership list (as ColHeapProofs), reading returns what Frame.v's read gives and owns exactly the new blocks; clock locality shows that without failure the outcome is the one on values; PropReadHeap.v | proved |

## What is modelled and what is not

Modelled: `core/type.hpp` (numeric_traits, coercion rules), `core/debug.hpp` (which checks abort or throw),
`array/descriptor.hpp`, `strided_descriptor.hpp`, `mapper.hpp`, `detail/common.hpp`, `detail/iterator.hpp`,
`slicing.hpp`, `slicing/absolute.hpp`, `slicing/bounded.hpp`, `ref_array.hpp`, `strided_ref_array.hpp`, `drop.hpp`,
`axis.hpp`, `reshape.hpp`, `overlap.hpp`, `array.hpp`, `allocator.hpp` (as alloc/free of blocks), `builder.hpp`,
`expr_array.hpp`, `unary_expr_array.hpp`, `binary_expr_array.hpp`, `functional.hpp`, `math.hpp` (in-place and lazy
operators), `numeric.hpp`, `blas.hpp`, `io.hpp`, `base/numeric.hpp`, `base/const_vector.hpp`, `base/index_view.hpp`,
`base/random.hpp` (all of it: index, Bernoulli and discrete sampling; C79/C80 with the distributions of GNU libstdc++ 13), `base/math.hpp` (square, pi, abs, sqrt, normal_pdf), `dataframe/column.hpp`, `detail/column_model.hpp`,
`dataframe.hpp`, `action.hpp`, `dataframe/numeric.hpp`.

Not modelled:

* the C++ type system: SFINAE and overload resolution are replaced by naming the overload that is selected;
* alignment and the internals of the allocator (`base/async.hpp`, the scope guard, is modelled in `ColHeap.v` where it is used);
* `array/slicing/range.hpp` (does not compile: it uses the class template `relative_index` without arguments; nothing includes it) and
  `core/detail/numbers.hpp` (an internal iterator that nothing uses);
* calls that do not compile: `axis`, `rows`, `columns` of a view (the overloads have an unnamed template parameter that cannot be
  deduced; `axis_array<A, V>{view}` and the calls on owning arrays are modelled), `drop_to<0>` of a contiguous view (it uses the
  protected `data()`; of a strided view it is fine), dropping dimensions of an indirect view,
  `rbegin`/`rend` of a `const_vector` (they return a reverse iterator as a `const_iterator`), `const_vector b(a)` from a non-const `a` (the
  explicit template constructor is chosen; `b = a` and passing by value are modelled);
* `return {std::move(column)}` and similar brace initialisations are read after CWG 1467 (copy, not a list of one element);
* floating point rounding modes other than the default, contraction to fused multiply-add, `long double`;
* the algorithms of the transcendental functions (library calls: any function in `Expr.v`; in C77 any `exp` that is accurate);
* the matching algorithm of `std::regex`: separators are arbitrary search functions (Pattern.v), instantiated with literals, runs and single characters; locales, the format flags and widths of streams (failing and ending streams are in Stream.v, C84);
* allocation failure outside `Life.v` and `ColHeap.v`; threads outside `Threads.v` (const_vector) and `ViewThreads.v` (statements on views), both under
  sequentially consistent interleaving; the quality of random generators (their outputs are arbitrary; chances are shares of the output sequences). The standard distributions are arbitrary state machines in C40, C45, C51, C59 and are modelled from the headers of libstdc++ 13 in C79, C80, and so is the default engine std::mt19937 in C83 (trusted: that model).

Assumed about the environment: 64-bit `size_t`/`ptrdiff_t`, 32-bit `int`, two's complement conversions (as every
supported compiler does), `std::vector<index_t>::max_size()` = 2^60-1, parameters live
until the call returns (C++ lets an implementation keep them until the end of the full expression; the Itanium ABI does
not for trivially destructible types), the C/C++ library functions meet their
specification (a check of the debug_assert library, whose sources are not part of the pinned tree, that is not compiled in has no effect: if the
library turns it into a hint for the optimiser, a run of an unchecked build in which the check would fail is undefined, and these are exactly the runs
C61 and C74 say the checked build stops; `std::stoi` family, `std::to_string`, `std::nth_element`, `std::sqrt`, cblas GEMM = reference loop).

## Trusted base

Coq 8.16.1 kernel (and coqchk); the fidelity of the model files to /repo.  No axioms are added; mathematical
libraries used: Coq's standard library and Flocq (no axioms of its own).  `Print Assumptions` reports for the
theorems of MANIFEST.json:

* **Closed under the global context** (no axioms at all): 483 theorems: `addressing_bijective`, `addressing_overflow_refuted`, `owning_iteration_column_major`, `digits_enumerate_column_major`, `strided_iteration_complete`, `strided_iteration_not_before`, `zero_extent_iteration_exact`, `zero_extent_iteration_refuted`, `zero_stride_iteration_refuted`, `slice_selects_requested`, `slice_elements`, `subscript_chain_exact`, `middle_subscript_lost_refuted`, `slice_of_slice_composes`, `strided_slices_compose`, `out_of_range_always_rejected`, `bounds_check_wraps_refuted`, `index_chain_reaches_element`, `index_drops_dimension`, `every_shortcut_same_as_generic`, `bounded_slice_clamped`, `bounded_slices_of_views`, `bounded_strided_slice_exact`, `bounded_strided_slice_clamped_partial`, `bounded_strided_count_refuted`, `drop_to_preserves_elements`, `drop_to_scalar_contiguous`, `drop_to_scalar_view_refuted`, `drop_to_rejected`, `drop_to_scalar_view_exact`, `dropped_expression_undefined`, `dropped_expression_refuted`, `rows_and_columns`, `axis_items_any_axis`, `last_axis_items`, `axis_unit_extent_refuted`, `axis_iterator_laws`, `axis_iterator_difference_refuted`, `nested_list_defines_array`, `ragged_list_rejected`, `constructor_from_dimensions`, `constructor_converting`, `constructor_copy`, `constructor_exceptions_propagate`, `constructor_exact`, `no_element_operations`, `nothrow_element_throwing_source_refuted`, `unsigned_dimensions_refuted`, `mixed_dimensions_refuted`, `copy_assignment_partial`, `converting_assignment_partial`, `copy_assignment_exact`, `converting_assignment_exact`, `assignment_exceptions_propagate`, `assignment_leaks_storage_refuted`, `every_program_balanced_partial`, `every_program_releases_all`, `moved_from_undefined`, `moved_from_copy_refuted`, `builder_pushes`, `builder_destroyed`, `builder_released`, `builder_checked`, `rvalue_push_refuted`, `assignment_writes_exactly_view`, `scalar_assignment_writes_exactly_view`, `assignment_extents_checked`, `reachable_views_qualify`, `overlap_assignment_uses_old_values`, `plain_assignment_safe_when_no_early_write`, `plain_assignment_safe_when_aligned`, `plain_overlapping_assignment_refuted`, `expression_is_pointwise`, `expression_extents_checked`, `operands_live_for_full_expression`, `inplace_updates_once`, `inplace_with_itself`, `inplace_unary_updates_once`, `inplace_extents_checked`, `seq_contents_partial`, `seq_rejects_unreachable`, `seq_too_long_throws`, `seq_across_sign_refuted`, `seq_across_sign_throws_refuted`, `seq_longest_refuted`, `seq_same_side_exact`, `seq_across_exact`, `seq_unreachable_unchecked`, `matrix_product_of_views`, `blas_same_as_product`, `blas_product_any_alpha`, `product_sizes_checked`, `cat_concatenates`, `as_vector_elements`, `flatten_keeps_elements`, `reshape_keeps_elements`, `reshape_size_checked`, `reshape_owning_keeps_elements`, `blas_sizes_fit`, `blas_sizes_rejected`, `blas_product_big_rejected`, `blas_sizes_unchecked_refuted`, `integer_max`, `integer_min`, `integer_which_max`, `integer_which_min`, `float_max`, `float_min`, `float_which_max_exact`, `float_which_min_exact`, `max_with_start`, `sum_exact`, `prod_exact`, `sum_unsigned_modular`, `prod_unsigned_modular`, `count_is_number_of_true`, `which_is_positions_of_true`, `positions_characterised`, `all_any_none`, `which_max_empty_refuted`, `which_max_nan_refuted`, `prod_short_refuted`, `means_agree_unsigned`, `means_agree_iff_partial`, `mean_of_iterators`, `means_disagree_refuted`, `mean_of_empty_undefined`, `nth_is_nth_smallest`, `C35_integer_text_roundtrip`, `C35_text_injective`, `C35_text_to_integer`, `C35_integer_text_numeric`, `C35_integer_numeric_roundtrip`, `C35_index_numeric_refuted`, `C36_index_from_integer`, `C36_uinteger_from_integer`, `C36_integer_from_integer`, `C36_unsigned_from_text`, `C36_no_literal`, `C36_unsigned_from_numeric`, `C36_integer_from_numeric`, `C36_negative_text_wraps`, `C36_index_negative_text_refuted`, `C36_uinteger_negative_text_refuted`, `C36_narrowing_refuted`, `C44_numeric_text`, `C44_numeric_roundtrip_refuted`, `C29_rectangular`, `C30_lookup_partial`, `C30_lookup_exact_partial`, `C30_range_iff`, `C30_bind_lookup`, `C30_at_position`, `C30_lookup_refuted`, `C30_head_refuted`, `C31_unique_names_partial`, `C31_range_refuses`, `C31_unique_names_refuted`, `C32_bind_strong`, `C32_bind_when`, `C32_bind_keeps_lookup`, `C33_table_unique`, `C33_read_header`, `C33_read_no_header`, `C33_read_ragged`, `C33_read_empty`, `C33_read_total`, `C34_write_text`, `C34_write_read`, `C34_write_read_text`, `C34_write_read_no_header`, `C34_read_write_read`, `C34_integer_columns`, `C34_write_all_or_nothing`, `C34_trailing_empty_refuted`, `C34_header_only_refuted`, `C37_coerce_all_or_nothing`, `C37_coerce_success`, `C37_coerce_length`, `C37_can_coerce`, `C37_same_type`, `C37_to_column`, `C37_null_column_refuted`, `C38_head`, `C38_head_too_many`, `C38_partial_copy_partial`, `C38_partial_copy_exact`, `C38_partial_copy_refuted`, `C38_head_refuted`, `C39_to_vector`, `C39_to_view`, `C39_to_matrix`, `C39_null_throws`, `C40_increasing_distinct`, `C40_more_than_end_refuted`, `C45_sample_with_replacement`, `C45_sample_order`, `C45_empty_refuted`, `C41_value_semantics`, `C41_undefined`, `C41_stable`, `C41_released`, `C41_no_leak`, `C41_released_once`, `C41_reads`, `C41_comparisons`, `C41_moved_from_refuted`, `C41_borrowed_view`, `C41_borrowed_view_refuted`, `C41_moved_view_refuted`, `C28_plain`, `C28_formatted`, `C28_injective`, `C28_each_element_once`, `C28_tables`, `C28_tables_injective`, `C28_exchange`, `C28_setter`, `C28_setter_dimension`, `C28_setter_fewer_dimensions`, `C28_empty`, `C28_setter_other_order_refuted`, `C28_empty_checked_refuted`, `C28_empty_extents_refuted`, `C28_delimiters_refuted`, `C46_nan`, `C46_empty`, `C46_mean_outside_refuted`, `C46_mean_overflow_refuted`, `C47_meansd`, `C47_constant_refuted`, `C47_no_element`, `C47_integer_var`, `C47_integer_var_accurate`, `C47_integer_sd`, `C47_integer_refuted`, `view_follows_storage`, `sliced_view_follows_storage`, `view_write_through`, `C49_owned`, `C49_no_leak`, `C49_command`, `C49_program`, `C49_strong`, `C49_pointers_stay`, `C49_pointers_move`, `C49_pointers_die`, `C50_rectangular`, `C50_consistent`, `C50_failed_bind`, `C50_failed_bind_refuted`, `C50_failed_assignment_refuted`, `empty_slice_rejected`, `empty_contiguous_slice`, `empty_index_range`, `empty_slice_unchecked`, `empty_range_unchecked`, `stored_expression_exact`, `stored_single_expression`, `stored_nested_expression_undefined`, `stored_nested_expression_refuted`, `stored_temporary_operand_refuted`, `assignment_in_order`, `inplace_in_order`, `repeated_assignment_last_wins`, `repeated_overlap_last_wins`, `repeated_fill`, `repeated_inplace_accumulates`, `repeated_unary_iterates`, `indexed_inplace`, `array_assignment_other_size`, `array_assignment_aligned`, `array_assignment_no_early_write`, `array_assignment_in_order`, `array_assignment_extents_checked`, `array_assignment_from_itself_refuted`, `C56_empty`, `mask_selects`, `C58_value_semantics`, `C58_progress`, `C58_stable`, `C58_released`, `C58_no_leak`, `C58_released_once`, `C58_race_refuted`, `C59_sample`, `C59_consecutive`, `C59_without_replacement`, `C59_later_draws`, `searches_of_expressions`, `sums_of_integer_expressions`, `sums_of_double_expressions`, `counts_of_expressions`, `tests_of_expressions`, `all_equal`, `mask_expression_selects`, `C61_indexing`, `C61_expressions`, `C61_functions`, `C61_algorithms`, `C61_sums`, `C61_programs`, `C61_tested_programs`, `C62_text_words`, `C62_words`, `C62_read_and_print_refuted`, `matrix_slicings_defined`, `relative_index_exact`, `relative_index_total`, `relative_slices_select`, `relative_suffix`, `relative_suffix_refuted`, `index_container_followed`, `index_container_unchecked_refuted`, `index_temporary_refuted`, `other_index_views_fixed`, `kept_ranges_history`, `inplace_element_operand`, `inplace_other_element`, `fill_with_element`, `out_of_place_element_operand`, `inplace_element_operand_refuted`, `vector_elements`, `vector_of_pointers`, `vector_elements_refuted`, `C68_pieces`, `C68_cuts`, `C68_cuts_any`, `C68_cuts_any_unique`, `C68_table_unique`, `C68_read_ragged`, `C68_read_header`, `C68_read_no_header`, `C68_read_empty`, `C68_characters`, `C68_literal`, `C68_write_read`, `C68_first_character`, `C68_runs`, `C68_empty_match_refuted`, `C68_overlap_refuted`, `throwing_indexing`, `throwing_rejects`, `throwing_axes`, `throwing_products`, `throwing_bad_products`, `throwing_functions`, `throwing_terminates_refuted`, `throwing_reshape`, `throwing_assignment`, `throwing_mismatch`, `throwing_programs`, `throwing_same_programs`, `throwing_misuse`, `incomplete_builder_kept_refuted`, `interrupted_assignment`, `interrupted_assignment_values`, `interrupted_inplace`, `interrupted_inplace_values`, `interrupted_update`, `interrupted_eval`, `interrupted_overlap`, `interrupted_array_assignment`, `interrupted_unchanged_refuted`, `interrupted_terminates_refuted`, `parallel_views`, `parallel_order`, `parallel_overlap_refuted`, `iterator_reaches`, `iterator_equal`, `iterator_difference`, `iterator_moves`, `iterator_backwards_refuted`, `effects_eval`, `effects_through_views`, `effects_array_assignment`, `effects_algorithms`, `eval_calls_once`, `assign_calls_once`, `loops_call_once`, `tests_call_until_decided`, `two_passes_call_twice`, `searches_call_again`, `stateful_apply`, `stateful_inplace`, `max_effects_refuted`, `operand_order_refuted`, `C74_levels`, `C74_ends`, `C74_correct_calls`, `C74_arguments`, `C74_subscripts`, `C74_level_one`, `C74_programs`, `C74_program_ends`, `C74_program_level_two`, `C74_correct_programs`, `C75_prod_nan`, `C75_prod_empty`, `C75_prod_of_expressions`, `C76_others`, `C76_histories`, `C76_throw`, `C76_values`, `C76_read_into`, `C76_new`, `C76_copy_defined`, `C76_constructions`, `C77_pdf_integers`, `C77_pdf_unsigned`, `C77_elementwise`, `C78_product_of_expressions`, `C78_product_view_expression`, `C78_product_expression_view`, `C78_sizes_checked`, `C78_scaled`, `C78_scaled_same_as_product`, `C79_no_weights_refuted`, `C80_in_range`, `C80_uniform`, `C80_samples_uniform`, `C80_samples_in_range`, `C80_end_zero`, `C80_end_zero_refuted`, `C81_command`, `C81_owned`, `C81_reads_only`, `C81_defined`, `C82_matrix`, `C82_integers`, `C82_trailing_text_refuted`, `C82_exact_refuted`, `C83_engine`, `C83_one_after_the_other`, `C83_leaves_the_rest`, `C83_progress`, `C83_determined`, `C83_reproducible`, `C83_own_samples`, `C83_shared_refuted`, `C83_other_unit_refuted`, `C84_read_failed`, `C84_read_all`, `C84_extract`, `C84_loop_forever`, `C84_write_throw`, `C84_write_empty`, `C84_write_stuck`, `C84_write_sent`, `C84_write_prefix`, `C84_write_reported_refuted`, `C84_cut_between`, `C84_cut_inside`, `C84_cut_last`, `C84_cut_any`, `C84_interrupted`, `C84_cut_detected_refuted`, `C85_max_min`, `C85_same_as_array`, `C85_sum_prod`, `C85_float_sum_prod`, `C85_count_which`, `C85_all_any_none`, `C85_mean`, `C85_var`, `C85_freq`, `C85_nth`, `C85_vector`, `C85_reread_refuted`, `C85_array`, `C85_array_short`, `C85_array_short_refuted`, `C85_array_skips_refuted`, `C85_generated`, `C85_generated_throws`, `C85_generated_no_room`, `C85_generated_terminate_refuted`, `C86_command`, `C86_owned`, `C86_any_text`, `C86_read`, `C86_extract`, `C86_program`.
* `ClassicalDedekindReals.sig_forall_dec`, `FunctionalExtensionality.functional_extensionality_dep` (axioms of the standard library, used by its real numbers): `C47_scaled`, `C62_text_nothing`, `C75_prod_underflow_refuted`, `C78_scaled_order_refuted`, `C79_bernoulli_independent`, `C79_discrete_independent`, `C80_returns`, `C82_otherwise`.
* `ClassicalDedekindReals.sig_forall_dec`, `Classical_Prop.classic`, `FunctionalExtensionality.functional_extensionality_dep` (axioms of the standard library, used by its real numbers): `C62_text_total`.
* `ClassicalDedekindReals.sig_forall_dec`, `ClassicalDedekindReals.sig_not_dec`, `Classical_Prop.classic`, `FunctionalExtensionality.functional_extensionality_dep` (axioms of the standard library, used by its real numbers): `C40_sample_without_replacement`, `C40_terminates`, `C40_every_choice_possible`, `C40_one_too_many`, `C40_does_not_return_refuted`, `C46_sum_accurate`, `C46_sum_with_start`, `C46_mean_accurate`, `C46_sum_of_integers`, `C46_mean_of_integers`, `C47_var_nonneg`, `C47_var_accurate`, `C47_sd_nearest`, `C47_var_of_integer_valued`, `C47_one_element`, `C51_uniform`, `C51_each_index`, `C51_bits53`, `C51_bits64`, `C51_mt19937`, `C56_nearest`, `C56_bounds`, `C56_order`, `C62_text_to_numeric`, `C62_zero`, `C62_print_and_read`, `C62_read_and_print`, `C75_prod_accurate`, `C75_prod_with_start`, `C75_prod_sign`, `C75_prod_of_integers`, `C75_product_accurate`, `C75_blas_same`, `C75_product_of_integers`, `C77_pdf_accurate`, `C77_pdf_symmetric`, `C77_pdf_nonneg`, `C77_pdf_decreasing`, `C77_pdf_degenerate`, `C77_small_sigma_refuted`, `C77_exp_exists`, `C77_pdf_integers_refuted`, `C77_abs_sqrt`, `C78_scaled_accurate`, `C78_scaled_of_integers`, `C79_canonical`, `C79_canonical_monotone`, `C79_without_replacement`, `C79_bernoulli`, `C79_bernoulli_certain`, `C79_discrete_in_range`, `C79_discrete`, `C79_zero_weight`, `C79_zero_weight_refuted`, `C79_zero_last_weight_refuted`, `C82_numbers`, `C82_save_and_load`, `C83_right_kind`, `C85_float_var`, `C85_var_one`.

## Testing the theorems against wrong programs

`seeded/LOG.jsonl` records, per edit of a model definition in a scratch copy, the claim it makes false and the
property theorems whose proofs (or whose lemmas) no longer go through.  An edit that left a claimed theorem standing
although its claim had become false led to a tightened theorem, named in the record.
