{"id": "C01", "title": "Element addressing of owning arrays is a bijection", "statement": "For an array of any order and any extents whose element count fits in the index type, two different in-range index tuples never denote the same element, every in-range tuple denotes an element inside the array's storage, and every stored element is denoted by some tuple. When the product of the extents does not fit in the index type the guarantee fails (the constructor silently allocates the wrapped size).", "quantifier": "all orders N>=1, all extents, all index tuples; 64-bit wrap-around included", "why_tests_cant": "quantifies over all orders and shapes and over 64-bit wrap-around; tests use 1-D to 3-D shapes with single digit extents", "anchors": ["include/jules/array/descriptor.hpp: descriptor::operator(), descriptor::size", "include/jules/array/array.hpp: array(Dims...)"]}
{"id": "C02", "title": "Iteration order of owning arrays is column-major", "statement": "Iterating an array from begin() to end() yields the elements in column-major order: the k-th element visited is the one at the index tuple whose coordinates are the mixed-radix digits of k, first dimension fastest.", "quantifier": "all orders, all extents, all positions k < size", "why_tests_cant": "an all-shapes statement about the relation between two access paths", "anchors": ["include/jules/array/descriptor.hpp: descriptor::operator()", "include/jules/array/ref_array.hpp: begin/end"]}
{"id": "C03", "title": "Iterating a strided view visits each index exactly once, in column-major order, and terminates", "statement": "For a view with non-zero extents, begin()..end() produces exactly size() elements, the k-th being the element at the k-th index tuple in column-major order, and the iterator compares equal to end() after exactly size() increments and not before. With a zero extent in a non-last dimension (and a non-empty last one) incrementing the iterator divides by zero.", "quantifier": "all orders, all extents/strides/starts (modulo 2^64), all iteration steps", "why_tests_cant": "termination and exact coverage of an odometer loop for every shape", "anchors": ["include/jules/array/strided_descriptor.hpp: strided_descriptor::iterator::operator++, cbegin, cend", "include/jules/array/mapper.hpp: identity_mapper"]}
{"id": "C04", "title": "A slice denotes exactly the requested elements of its source", "statement": "If all indexes/slices passed to a[s0][s1]...[sk] are within the extents, the resulting view has extent n_d in each sliced dimension (1 for a single index) and its element (i0,...,ik) is the source element (start_d + i_d*stride_d)_d; in particular it never reaches outside the source. (Fails for some chains of three or more subscripts: C63 says which; they are undefined.)", "quantifier": "all orders, sources (owning arrays and views), slice triples and index tuples", "why_tests_cant": "element-by-element identity for all shapes and nested views", "anchors": ["include/jules/array/slicing.hpp: do_slice, default_slicing, array_slice, strided_ref_array_proxy"]}
{"id": "C05", "title": "Slicing a slice composes", "statement": "Slicing a view that was itself obtained by slicing gives the same elements as slicing the original once with the composed start/stride; this holds for any number of nested slicings (none of which loses a subscript, C63).", "quantifier": "all chains of slicings of any length", "why_tests_cant": "histories of arbitrary length", "anchors": ["include/jules/array/slicing.hpp: array_slice, default_slicing", "include/jules/array/mapper.hpp: vector_mapper::map"]}
{"id": "C06", "title": "Debug bounds checks reject every out-of-range index or slice", "statement": "In a checked build, indexing or slicing with an index or slice that addresses an element outside the corresponding dimension is always rejected before the view is created. (Fails: the check is computed modulo 2^64, so start+(extent-1)*stride can wrap around to an in-range value.)", "quantifier": "all slices with 64-bit fields, all extents", "why_tests_cant": "needs exhaustive 64-bit boundary reasoning", "anchors": ["include/jules/array/slicing.hpp: CHECK_BOUNDS, do_slice, array_at"]}
{"id": "C07", "title": "Indirect slicing selects the Cartesian product of the index lists", "statement": "Slicing with arbitrary index ranges (mixed with slices and indexes) yields the view of shape (|r0|,...,|rk|) whose element (i0,...,ik) is source element (r0[i0],...,rk[ik]); iteration visits them in column-major order; repeated indices are allowed; the same holds when the source is itself an indirect view. (Chains that lose a subscript are excepted, C63; ranges are never lost.)", "quantifier": "all orders, all lists of in-range indexes (with repetition), all index tuples", "why_tests_cant": "quantifies over all lists and nestings", "anchors": ["include/jules/array/slicing.hpp: indirect_slicing, do_slice (indirect)", "include/jules/array/mapper.hpp: vector_mapper"]}
{"id": "C08", "title": "Chained indexing a[i][j]...[k] addresses the element (i,j,...,k)", "statement": "Applying operator[] with one index per dimension to an owning array, a strided view, or an indirect view reaches exactly the element at that index tuple and a[i] has the extents of the remaining dimensions.", "quantifier": "all orders, all three array categories, all in-range tuples", "why_tests_cant": "holds for every order, requires induction over the dimension count", "anchors": ["include/jules/array/slicing.hpp: array_at", "include/jules/array/mapper.hpp: drop_first_dimension"]}
{"id": "C09", "title": "`every` based slicing of trailing dimension equals generic slicing", "statement": "a[every]...[every][i] and a[every]...[every][slice(s,n)], which take a contiguous shortcut, denote the same elements in the same order as the generic strided slicing with the full range in the leading dimensions.", "quantifier": "all orders >= 2, all extents, all in-range last-dimension arguments", "why_tests_cant": "equivalence of two implementations for every shape", "anchors": ["include/jules/array/slicing.hpp: ref_array_every_proxy"]}
{"id": "C10", "title": "Bounded slices are clamped: in bounds, maximal, never longer than requested", "statement": "slice(start, at_most(m)[, stride]) applied to a dimension of extent d selects start, start+stride, ... : every selected index is < d, the number selected is min(m, number of such indexes below d), and it is 0 exactly when start >= d or m = 0. (The code loses the last index for some strides of 3 and more; the theorem says exactly when.)", "quantifier": "all start, m, stride > 0, d in 64-bit range", "why_tests_cant": "arithmetic boundary property over all 64-bit values", "anchors": ["include/jules/array/slicing/bounded.hpp: eval, bounded_index", "include/jules/array/detail/common.hpp: seq_size"]}
{"id": "C11", "title": "Dropping unit dimensions preserves the elements", "statement": "drop_to<D> on an array/view with at least N-D unit extents gives a view with the same elements in the same iteration order, whose extents are the original ones minus N-D unit extents; drop_to<0> of a one-element array or view returns that element. (Fails for strided/indirect views: drop_to<0> returns the first element of the underlying storage; and for element-wise expressions: every read of a dropped expression is a read through a dangling reference.)", "quantifier": "all orders N >= D, all shapes with enough unit extents", "why_tests_cant": "all shapes; needs proof about filtering of extents/strides together", "anchors": ["include/jules/array/detail/common.hpp: drop_one_level_extents", "include/jules/array/strided_descriptor.hpp: drop_one_level_dimensions", "include/jules/array/strided_ref_array.hpp: drop_to", "include/jules/array/ref_array.hpp: drop_to", "include/jules/array/unary_expr_array.hpp: drop_to", "include/jules/array/binary_expr_array.hpp: drop_to", "include/jules/base/numeric.hpp: identity"]}
{"id": "C12", "title": "rows()/columns()/axis<> enumerate the hyperplanes of the array", "statement": "For a matrix, rows(m) has row_count() items, the i-th being a view of row i; columns(m) likewise; together the items visit every element exactly once. For any axis of any array or view, item k holds the elements whose index on that axis is k, and has the remaining extents. (The claim about extents fails when an earlier extent is 1; with an axis that is neither the first nor the last, obtaining an item does not compile on a contiguous array and is undefined on a view.)", "quantifier": "all matrices / order-3 arrays and all positions", "why_tests_cant": "all shapes, including those with unit extents", "anchors": ["include/jules/array/axis.hpp: axis_at, axis_array"]}
{"id": "C13", "title": "Axis iterators satisfy the random access laws", "statement": "For axis iterators, (it + n) - it == n and b < e iff 0 < e - b, as random_access_iterator_tag promises. (Fails: the difference has the opposite sign.)", "quantifier": "all positions and offsets", "why_tests_cant": "an algebraic law over all offsets; no test takes a difference", "anchors": ["include/jules/array/axis.hpp: axis_iterator"]}
{"id": "C14", "title": "Nested initializer lists define the array element-wise", "statement": "An array built from a (rectangular) nested initializer list has extents equal to the list lengths and its element (i,j,...) equals list[i][j]...; in a checked build a ragged list or a list with an empty level is rejected.", "quantifier": "all orders and nested lists", "why_tests_cant": "all depths and lengths", "anchors": ["include/jules/array/array.hpp: calculate_descriptor*", "include/jules/array/allocator.hpp: construct_recursive"]}
{"id": "C15", "title": "Array construction is leak free under exceptions at any point", "statement": "Whatever element constructor call throws (or allocation fails), every element already constructed by an array constructor is destroyed exactly once, no element is destroyed that was not constructed, the storage is released exactly once, and the exception propagates.", "quantifier": "all constructors, all sizes, all throw points", "why_tests_cant": "every crash point of every size; object accounting cannot be observed exhaustively", "anchors": ["include/jules/array/array.hpp: array constructors", "include/jules/array/allocator.hpp: construct, destroy_recursive"]}
{"id": "C16", "title": "Array assignment gives the value of the source, keeps accounts balanced", "statement": "After a = b (copy or converting), a has b's extents and elements, each previously owned element is destroyed or overwritten exactly once and no storage leaks; if an element copy throws a still holds a valid value and nothing leaks. (The last part fails: the newly allocated storage leaks when construction throws.)", "quantifier": "all source/target sizes, all throw points", "why_tests_cant": "every crash point of every size", "anchors": ["include/jules/array/array.hpp: operator=(const array&), operator=(const common_array_base&)"]}
{"id": "C17", "title": "Moves transfer ownership and leave a usable source", "statement": "Moving an array transfers the elements without copying and each element is destroyed exactly once over the whole program; afterwards the moved-from array can be destroyed, assigned or copied like an empty array. (The last part fails: the moved-from array keeps its old size with null storage.)", "quantifier": "all histories of construct/copy/move/assign/destroy on any number of arrays", "why_tests_cant": "quantifies over program histories", "anchors": ["include/jules/array/array.hpp: array(array&&), operator=(array&&), release, clear"]}
{"id": "C18", "title": "array_builder delivers exactly the pushed values", "statement": "A builder of extents e filled with exactly prod(e) pushes releases an array of extents e whose elements in column-major order are the pushed values in order; a builder destroyed early (also by an exception in a push) destroys exactly the pushed elements and releases the storage; a checked build rejects too many pushes and premature release.", "quantifier": "all extents and push histories with any throw point", "why_tests_cant": "state machine over all histories", "anchors": ["include/jules/array/builder.hpp: array_builder", "include/jules/array/array.hpp: array(array_builder)"]}
{"id": "C19", "title": "Assignment through a view writes the selected elements and nothing else", "statement": "After view = source (source not overlapping the viewed storage, equal dimensions) the viewed elements equal the source's elements pairwise and every other element of the underlying storage is unchanged; view = scalar sets exactly the viewed elements.", "quantifier": "all storage contents, injective views, sources", "why_tests_cant": "a frame property over all memory contents", "anchors": ["include/jules/array/detail/common.hpp: array_assign", "include/jules/array/strided_ref_array.hpp: operator=", "include/jules/array/ref_array.hpp: operator="]}
{"id": "C20", "title": "Assignments between overlapping views", "statement": "Assigning an expression reading the same storage gives, for every element, the value computed from the storage contents before the assignment. It always holds when the source is wrapped by the overlap-safe evaluation; without it the claim fails (a plain overlapping assignment may read already overwritten elements).", "quantifier": "all storage contents and all pairs of views", "why_tests_cant": "aliasing over all overlaps", "anchors": ["include/jules/array/overlap.hpp", "include/jules/array/detail/common.hpp: array_assign"]}
{"id": "C21", "title": "Lazy element-wise expressions denote the pointwise function", "statement": "A (nested) unary/binary array expression has the extents of its operands and its element at any index is the function applied to the operands' elements at that index; scalar operands are broadcast; materialising the expression in the full expression that creates it gives an array with exactly those elements, evaluating each operand element once.", "quantifier": "all expression trees, shapes and element values", "why_tests_cant": "structural induction over expression trees", "anchors": ["include/jules/array/functional.hpp", "include/jules/array/unary_expr_array.hpp", "include/jules/array/binary_expr_array.hpp", "include/jules/array/expr_array.hpp"]}
{"id": "C22", "title": "In-place operations update each element once", "statement": "a op= b updates every element of a to f(old, b's element) exactly once and nothing else; also when b is a itself (same view). (A scalar b that is an element of a: see the property on element operands.)", "quantifier": "all shapes, values, operators", "why_tests_cant": "frame + aliasing over all inputs", "anchors": ["include/jules/array/functional.hpp: in-place operators / apply"]}
{"id": "C23", "title": "seq(start, stop, step) contents", "statement": "seq yields start, start+step, ..., the values v with start <= v <= stop (ascending, step > 0) or start >= v >= stop (descending, step < 0); each exactly once, stop included exactly when reachable.", "quantifier": "all integral start, stop, step", "why_tests_cant": "all integers", "anchors": ["include/jules/array/numeric.hpp: seq"]}
{"id": "C24", "title": "Matrix product", "statement": "product(a,b) has extents (rows a, columns b) and element (i,j) is the sum over k of a(i,k)*b(k,j); the BLAS fast path passes sizes and leading dimensions for which the column-major GEMM reads and writes only inside the three matrices and computes the same sums; also for strided operand views.", "quantifier": "all matrix shapes, strides and element values", "why_tests_cant": "all shapes; tests multiply a few literals", "anchors": ["include/jules/array/numeric.hpp: product", "include/jules/array/blas.hpp"]}
{"id": "C25", "title": "Concatenation and column-wise flattening", "statement": "cat(a,b,...) is the vector of a's elements then b's, etc.; to_vector/as_vector of an array contain its elements in column-major order; reshape and flatten keep the elements in column-major order.", "quantifier": "all inputs and shapes", "why_tests_cant": "all inputs", "anchors": ["include/jules/array/numeric.hpp: cat, to_vector, as_vector", "include/jules/array/ref_array.hpp: flatten, reshape_to", "include/jules/array/array.hpp: reshape_to"]}
{"id": "C26", "title": "Reductions and searches meet their mathematical specification", "statement": "max/min return an element that bounds all others (or the unbounded value for an empty range); which_max/which_min return the first position of such an element; sum/prod are the fold; count, all, any, none agree with their logical definitions; which returns exactly the positions satisfying the predicate in ascending order.", "quantifier": "all ranges", "why_tests_cant": "all ranges, including ties and empties", "anchors": ["include/jules/base/numeric.hpp"]}
{"id": "C27", "title": "The range and iterator overloads of mean agree", "statement": "mean(first,last) and mean(rng) give the same value for the same elements. (Fails for signed integral element types with negative sum: the range overload divides by an unsigned size.)", "quantifier": "all integral ranges", "why_tests_cant": "all inputs, mixed signedness", "anchors": ["include/jules/base/numeric.hpp: mean"]}
{"id": "C28", "title": "Printing an array is injective on its shape and elements' text", "statement": "Streaming an array prints the nested brace structure with each element's text exactly once, in row-major nesting, and the text determines the extents and the element texts (provided elements contain no delimiters); the dimension format setter changes only the requested dimension of arrays with as many dimensions as the stream has formats. For empty arrays, empty or delimiter-containing texts and other numbers of dimensions these claims fail (a zero extent after the first aborts with assertions on).", "quantifier": "all shapes and element texts", "why_tests_cant": "all shapes", "anchors": ["include/jules/array/io.hpp"]}
{"id": "C29", "title": "Dataframes stay rectangular under every history", "statement": "Whatever sequence of constructions, binds and reads is performed (including failing ones), every column of a dataframe has exactly rows_count() rows.", "quantifier": "all histories of operations", "why_tests_cant": "an invariant over all histories", "anchors": ["include/jules/dataframe/dataframe.hpp"]}
{"id": "C30", "title": "Column lookup by name finds the column with that name", "statement": "If at(name) returns, the returned column is the one carrying that name, and lookup of any name carried by a column succeeds. (Fails for dataframes built from a range with an unnamed column before a named one, and for dataframes built from a single named column.)", "quantifier": "all dataframes reachable by any history, all names", "why_tests_cant": "all histories", "anchors": ["include/jules/dataframe/dataframe.hpp: at, bind, constructors"]}
{"id": "C31", "title": "Column names are unique", "statement": "No two columns of a dataframe carry the same non-empty name. (Fails when the dataframe was built from a single named column and a column of the same name is then bound.)", "quantifier": "all histories", "why_tests_cant": "all histories", "anchors": ["include/jules/dataframe/dataframe.hpp: bind, constructors"]}
{"id": "C32", "title": "bind has the strong exception guarantee", "statement": "If bind throws (different row count, duplicate name) the dataframe is unchanged; if it succeeds exactly one column is appended at the end and all others are unchanged.", "quantifier": "all dataframes and columns", "why_tests_cant": "all states and failure modes", "anchors": ["include/jules/dataframe/dataframe.hpp: bind"]}
{"id": "C33", "title": "read yields a rectangular table or throws", "statement": "For every text, reading either throws or gives a dataframe with one column per header field, where row i of column j is the j-th field of the i-th non-empty data line; lines with another number of fields make it throw.", "quantifier": "all input texts", "why_tests_cant": "all strings", "anchors": ["include/jules/dataframe/dataframe.hpp: read"]}
{"id": "C34", "title": "write then read is the identity", "statement": "Writing a dataframe of text columns and reading the result back gives the same names and cells, whenever no name or cell contains a delimiter and no line ends in an empty cell. Without the last condition it fails: trailing empty cells are lost.", "quantifier": "all dataframes meeting the condition", "why_tests_cant": "all tables", "anchors": ["include/jules/dataframe/dataframe.hpp: read, write"]}
{"id": "C35", "title": "Coercion of integers to text and back is lossless", "statement": "Converting any integer cell to string and back to the integer type gives the original value, for signed and unsigned types.", "quantifier": "all 64-bit (and 32-bit) integers", "why_tests_cant": "2^64 inputs", "anchors": ["include/jules/core/type.hpp: coercion rules"]}
{"id": "C36", "title": "Coercions to index/unsigned reject or preserve", "statement": "A coercion to an unsigned type either throws or yields a value equal to the source number. (Fails: negative text and negative or large numbers are silently wrapped.)", "quantifier": "all numeric and textual inputs", "why_tests_cant": "all inputs", "anchors": ["include/jules/core/type.hpp: index_rule, uinteger_rule, integer_rule"]}
{"id": "C37", "title": "Column coercion is element-wise and all-or-nothing", "statement": "coerce_to<T>(column) either throws leaving the column unchanged or replaces the column by one of the same length whose i-th cell is the coercion of the i-th cell; can_coerce_to tells whether the type conversion exists.", "quantifier": "all columns, all element values, all throw points", "why_tests_cant": "all lengths and crash points", "anchors": ["include/jules/dataframe/column.hpp", "include/jules/dataframe/detail/column_model.hpp"]}
{"id": "C38", "title": "head and column sub-ranges", "statement": "head(n) of a dataframe with r >= n rows gives the same columns restricted to the first n rows; requesting more rows throws; a partial copy of a column with first+size beyond its length throws. (The last claim fails for sizes near 2^64: the check wraps.)", "quantifier": "all dataframes and n; all 64-bit first,size", "why_tests_cant": "64-bit boundary", "anchors": ["include/jules/dataframe/action.hpp: head", "include/jules/dataframe/detail/column_model.hpp: partial_clone"]}
{"id": "C39", "title": "to_matrix/to_view/to_vector conversions", "statement": "to_matrix<T> of a dataframe is the (rows x columns) matrix whose element (i,j) is cell i of column j coerced to T.", "quantifier": "all dataframes", "why_tests_cant": "all shapes", "anchors": ["include/jules/dataframe/numeric.hpp"]}
{"id": "C40", "title": "Sampling without replacement", "statement": "uniform_index_sample(no_replacement, n, end) with n <= end returns n pairwise distinct indices below end in increasing order, for every sequence of random draws. With n > end the claim fails.", "quantifier": "all n, end and all random streams", "why_tests_cant": "every random stream", "anchors": ["include/jules/base/random.hpp"]}
{"id": "C41", "title": "Shared constant vectors have value semantics", "statement": "A const_vector (and an index_view built by move) keeps returning the values it was created with, whatever happens to copies of it, and its storage is released exactly once when the last copy disappears.", "quantifier": "all histories of copies and destructions", "why_tests_cant": "all histories", "anchors": ["include/jules/base/const_vector.hpp", "include/jules/base/index_view.hpp"]}
{"id": "C42", "title": "Integer narrowing in BLAS calls is checked", "statement": "A matrix dimension that does not fit the BLAS integer type is rejected in a checked build and otherwise passed unchanged.", "quantifier": "all 64-bit dimensions", "why_tests_cant": "64-bit boundary", "anchors": ["include/jules/array/blas.hpp: safe_int_cast"]}
{"id": "C43", "title": "nth returns the n-th smallest element", "statement": "nth(rng, n) with n < size returns an element v of the range such that at most n elements compare less than v and more than n elements do not compare greater; the range is not modified. n >= size is undefined.", "quantifier": "all ranges, orders and all conforming implementations of std::nth_element", "why_tests_cant": "all lists, all permutations nth_element may produce", "anchors": ["include/jules/base/numeric.hpp: nth"]}
{"id": "C44", "title": "Numeric cells are printed correctly rounded", "statement": "Coercing a finite numeric cell to text gives an optional minus sign, an integer part, a point and exactly six decimals that denote the multiple of 10^-6 nearest to the value (of two equally near, the even one); the trip back to numeric is therefore not the identity in general.", "quantifier": "all finite doubles (all signs, mantissas and exponents)", "why_tests_cant": "2^64 doubles, rounding at every magnitude", "anchors": ["include/jules/core/type.hpp: string_rule"]}
{"id": "C45", "title": "Sampling with replacement", "statement": "uniform_index_sample(n, end) and sample(n, distribution, generator) make exactly n draws, one per element and in order; every index returned lies below end, for every random stream. For end = 0 no index exists and the claim fails.", "quantifier": "all n, end and all random streams", "why_tests_cant": "every random stream", "anchors": ["include/jules/base/random.hpp: sample, uniform_index_sample"]}
{"id": "C46", "title": "Sums and means of doubles are accurate", "statement": "sum(r) of doubles, when finite, differs from the exact sum by at most ((1+2^-53)^(n-1) - 1) times the sum of the absolute values; mean(r) is the double nearest to sum(r)/n and differs from the exact mean by at most ((1+2^-53)^n - 1) times the mean of the absolute values plus 2^-1075. Integer-valued data whose partial sums stay within 2^53 are summed exactly, and NaN propagates. The mean of equal elements can exceed them, and finite elements can have an infinite mean (failing cases of the stronger expectation that the mean lies between minimum and maximum).", "quantifier": "all ranges of doubles of any length (up to 2^53)", "why_tests_cant": "rounding errors accumulate over every possible sequence", "anchors": ["include/jules/base/numeric.hpp: sum, mean"]}
{"id": "C47", "title": "Variances and standard deviations", "statement": "For at least two finite doubles var and sd are never negative and never NaN; a finite var differs from the exact corrected sample variance by a bound given in n, the variance and the mean absolute value; sd is the double nearest to the square root of var; meansd returns (mean, sd). For integral types, when the intermediate results fit, var is the sum of the squared deviations from the truncated mean divided by n-1, less than 1 below and less than n/(n-1) above the exact variance. Equal elements can have a positive variance, and one element gives NaN (undefined behaviour for integral types): failing cases.", "quantifier": "all ranges of doubles or integers of any length", "why_tests_cant": "rounding errors and overflow over every possible sequence", "anchors": ["include/jules/base/numeric.hpp: var, sd, meansd", "include/jules/base/math.hpp: square"]}
{"id": "C48", "title": "A view follows the elements until they are destroyed", "statement": "A view of an array keeps reading and writing the elements it was taken from while the array is moved, swapped by move assignment, reshaped, assigned a value with the same number of elements, or while operations on it or on other variables throw; the elements are then those of the variable that now holds the storage, and writing through the view changes exactly that element of that variable. It ends when that variable is destroyed or successfully assigned a value with another number of elements: from then on every access is undefined.", "quantifier": "all programs over any number of arrays and builders, all throw points, all slicing histories", "why_tests_cant": "every sequence of operations and exceptions between taking the view and using it", "anchors": ["include/jules/array/array.hpp: operator=, array(array&&), move/reshape constructor", "include/jules/array/ref_array.hpp: data", "include/jules/array/strided_ref_array.hpp: data"]}
{"id": "C49", "title": "Columns and dataframes own their storage and neither leak nor double-free, whatever fails", "statement": "In every program over columns and dataframes (construction, copies, partial copies, moves, assignments, coercions, to_column, to_view, element writes, list construction, bind, copies of single columns, destruction), with any allocation, any copy of a cell or of a name and any coercion of a cell throwing at any time: storage belongs to exactly one column, storage in use is exactly what the live variables own, every command either has its effect on values or throws, and except for bind and copy assignment of dataframes a throwing command leaves every variable as it was. A pointer from data() or to_view() stays valid and reads the same cells across every command that does not change its column, follows the column when it is moved (also into a dataframe), and is invalid after coercion, assignment or destruction; to_view<T> and to_column of an rvalue invalidate it exactly when the type is not T already.", "quantifier": "all programs, all initial contents, all sets of failing operations, all coercion rules", "why_tests_cant": "every crash point of every operation in every history", "anchors": ["include/jules/dataframe/column.hpp", "include/jules/dataframe/detail/column_model.hpp: coerce_, clone, partial_clone", "include/jules/base/async.hpp: JULES_DEFER", "include/jules/dataframe/dataframe.hpp: constructors, operator=, bind", "include/jules/dataframe/numeric.hpp: to_column, to_view"]}
{"id": "C50", "title": "Dataframes stay consistent when operations fail", "statement": "Whatever operations fail, as long as no copy assignment of dataframes is among them, every column of every dataframe has row_count() rows; if no bind fails either (and list constructors put named columns first), lookup by name and uniqueness of names hold too. A bind that fails half-way leaves the dataframe with the columns bound so far, all found under their names, but the name of one lost column may be in the index: its lookup is undefined, and after a further bind it finds another column. A copy assignment that fails half-way can leave a dataframe whose row_count() differs from the sizes of its columns and whose columns are not found under their names.", "quantifier": "all programs, all sets of failing operations", "why_tests_cant": "every crash point of every operation in every history", "anchors": ["include/jules/dataframe/dataframe.hpp: bind, operator=, at"]}
{"id": "C51", "title": "Sampling without replacement is uniform", "statement": "uniform_index_sample(no_replacement, n, end) with n <= end <= 2^53 returns every set of n indices with the same probability up to the resolution of the draws: the probability of each set differs from 1/(end choose n), and that of each index being included from n/end, by at most end times (error of the draws + 2^-53); with std::mt19937 and std::generate_canonical that is end * 2^-52.", "quantifier": "all n and end, all sets of indices, all generators with evenly spread draws", "why_tests_cant": "a probability over all sequences of draws; frequencies observed in tests only estimate it", "anchors": ["include/jules/base/random.hpp: uniform_index_sample(no_replacement_t, ...), canon_sample"]}
{"id": "C52", "title": "Slices that select nothing", "statement": "Subscripting a non-empty array or view where some slice selects no index: in checked builds the chain is rejected, except that (a) on a contiguous array, every...every followed by slice(s, 0) in the last dimension (and slice(s, at_most(m)) in one dimension) is accepted exactly for 1 <= s <= last extent and has no element, and (b) an empty index range is accepted where a single dimension is left and has no element. In unchecked builds the result has the requested extents, and iterating over it visits nothing if it is contiguous or its last extent is 0 and is undefined otherwise (on views made with index ranges the subscripting itself is then undefined); with an index range in the chain nothing is visited, but all extents up to the last empty dimension are 0.", "quantifier": "all shapes, all histories of slicings, all subscript chains with at least one empty subscript, both builds", "why_tests_cant": "all combinations of shapes, histories and positions of the empty subscript", "anchors": ["include/jules/array/slicing.hpp: CHECK_EXTENT, do_slice, array_slice, array_at, ref_array_every_proxy", "include/jules/array/strided_descriptor.hpp: iterator::operator++", "include/jules/array/mapper.hpp: vector_mapper"]}
{"id": "C53", "title": "Which expressions may be kept in a variable", "statement": "auto e = <expression>; and later array x = e; gives the element-wise result over the elements at that later time if the expression is a view, an array, or a single operation whose operands are all named arrays or views, temporary contiguous views, temporary one-dimensional strided views, or temporary views selected by indexes stored elsewhere. In every other case with at least one element (nested operations, temporary arrays, temporary views of two or more dimensions, temporary views that own their indexes) the later evaluation is undefined behaviour.", "quantifier": "all expression trees, operand lifetimes, views and memory contents", "why_tests_cant": "undefined behaviour may go unnoticed in any number of runs", "anchors": ["include/jules/array/functional.hpp: apply", "include/jules/array/unary_expr_array.hpp: iterator::source_", "include/jules/array/binary_expr_array.hpp: iterator::source_", "include/jules/array/strided_descriptor.hpp: iterator::descriptor_", "include/jules/array/mapper.hpp: index_begin, index_end"]}
{"id": "C54", "title": "Assignments through views that repeat elements or overlap the operands", "statement": "view = e and view op= e behave as the assignments of the elements done one after the other in column-major order, each reading the memory its predecessors left, whatever elements the view repeats (index ranges with repeated indices) and e reads. Hence, if e does not read the view's elements: of the elements of the view at one position the last one decides an assignment; an in-place operation takes the operands of all of them in order (counts[idx] += w accumulates); a unary in-place operation is applied once per listing; overlap(view) = e takes all values before the first write and then the last one decides. Nothing else changes.", "quantifier": "all views (with repetitions), expressions, overlaps, element types and memory contents", "why_tests_cant": "all patterns of repetition and overlap", "anchors": ["include/jules/array/detail/common.hpp: array_assign", "include/jules/array/functional.hpp: apply (in place)", "include/jules/array/overlap.hpp", "include/jules/array/mapper.hpp: vector_mapper"]}
{"id": "C55", "title": "Assigning an array an expression that reads the array", "statement": "x = e always gives x the extents of e. If the number of elements changes, the elements are the values of e before the assignment, whatever e reads. If it does not change, the elements are assigned one after the other in column-major order, each reading what its predecessors left; so the values are those of e before the assignment if every operand that reads x is at x's own positions (x = 2 * x + y) or more generally if no element is read after it was overwritten, and not in general (x = x[{2, 1, 0}] on three elements gives x[2], x[1], x[2], without any check failing). Other arrays keep their elements.", "quantifier": "all arrays, expressions (with any overlap), extents and memory contents", "why_tests_cant": "all patterns of overlap between source and destination", "anchors": ["include/jules/array/array.hpp: operator=(const common_array_base<Array>&), operator=(const array&)"]}
{"id": "C56", "title": "freq is the share of true elements", "statement": "For a range of 1 to 2^53 elements freq is the double nearest to (number of true elements) / (number of elements), between 0 and 1; it is 1 exactly if all elements are true and 0 exactly if none is, and of two ranges of equal length the one with more true elements has the greater frequency. freq of an empty range is NaN.", "quantifier": "all ranges of up to 2^53 elements", "why_tests_cant": "all counts and lengths with their roundings", "anchors": ["include/jules/base/numeric.hpp: freq, count"]}
{"id": "C57", "title": "Selecting by a mask", "statement": "For a vector x and a mask of the same length, x[which(mask)] denotes the elements of x at the positions where the mask is true, in order (none if it is nowhere true), in all builds; assigning a scalar to it replaces exactly these elements.", "quantifier": "all vectors, masks, element types, memory contents, both builds", "why_tests_cant": "all masks, including all-false ones", "anchors": ["include/jules/base/numeric.hpp: which", "include/jules/array/slicing.hpp: array_slice, do_slice", "include/jules/array/strided_ref_array.hpp: operator="]}
{"id": "C58", "title": "Constant vectors shared between threads", "statement": "Threads may hold const_vectors that share elements, copy shared variables concurrently, pass them to each other, and destroy them in any order: whatever the schedule, nothing is used after its release, every object has exactly the elements it would have if nothing were shared, other threads' steps do not change them, no thread gets stuck, and a vector is released exactly once, when the last object that refers to it goes. The exception is destroying a shared variable while another thread is copying it.", "quantifier": "all numbers of threads, all programs and all interleavings of their steps (copying in two steps, dropping and destroying in two steps)", "why_tests_cant": "all schedules", "anchors": ["include/jules/base/const_vector.hpp: const_vector, data_"]}
{"id": "C59", "title": "Samples are determined by the engine", "statement": "sample(n, dist, g) draws exactly n values, in order, and leaves the distribution and the engine as n single samples would, so that n + m samples at once equal n samples followed by m. Sampling without replacement depends on the engine only through its successive draws and leaves it after the last draw used, so that a later sample uses the draws that follow.", "quantifier": "all engines and distributions (as state machines), all states, all n and m", "why_tests_cant": "all engines, states and counts", "anchors": ["include/jules/base/random.hpp: sample, uniform_index_sample, canon_sample"]}
{"id": "C60", "title": "Algorithms see the elements of arrays, views and expressions in column-major order", "statement": "max, min, which_max, which_min, sum, prod, mean, var, sd, meansd, nth, count, freq, which, all, none and any applied to an array, view or lazy expression give the result they give for the list of its elements in column-major order; sum, prod, count and which evaluate every element exactly once and in order, all, none and any evaluate no element after the first that decides. all(a == b) is true exactly when all elements are equal, and requires equal extents (checked builds end the program otherwise). x[which(mask)] with any mask expression of the same length selects, or assigns, exactly the elements where the mask is true.", "quantifier": "all well-formed expressions over arrays and views, all element types and operators, all start values", "why_tests_cant": "all expressions, extents and element values", "anchors": ["include/jules/base/numeric.hpp: max, min, which_max, which_min, sum, prod, mean, var, sd, meansd, nth, count, freq, which, all, none, any", "include/jules/array/unary_expr_array.hpp: iterator", "include/jules/array/binary_expr_array.hpp: iterator"]}
{"id": "C61", "title": "Checks decide only whether the program stops", "statement": "Compiling without the checks (NDEBUG) changes nothing else: an operation, or a whole program over arrays and builders, either ends the program at a failed check in the checked build, or has the same result (value, memory, exception, undefined behaviour, endless loop) in both builds; an unchecked build never ends the program at a check. So a program that ran to its end in a checked build runs identically in an unchecked one.", "quantifier": "all indexing and slicing histories, expressions, assignments, numeric functions and algorithms, on all arguments, valid or not; all programs over arrays and builders from every state, whichever element operations throw", "why_tests_cant": "all programs in both build modes", "anchors": ["include/jules/core/debug.hpp: JULES_DEBUG_LEVEL, fatal_module_t", "include/jules/array: all uses of DEBUG_ASSERT"]}
{"id": "C62", "title": "Text becomes the nearest double", "statement": "Coercing any text to numeric does this: blanks are skipped; if what follows begins with a decimal or hexadecimal literal, the longest such literal is read and the rest ignored; if it begins, after an optional sign, with the letters of inf or nan in either case, the result is that infinity or NaN; anything else throws invalid_argument. The value of a literal is the double nearest to the number it denotes, ties to even mantissa, zero keeping its sign; literals beyond the largest double and inexact results below the smallest normal number throw out_of_range. Printing a finite double and reading the text back is off by at most 10^-6 and gives the same double whenever it is a multiple of 10^-6 (in particular every integer-valued double of any size); infinities and NaN are read back. A text with six decimals is reproduced exactly by reading and printing it when its magnitude is below 2^33 (above that the sixth decimal may change).", "quantifier": "all texts (any number of digits, any exponent, anything before and after), all doubles", "why_tests_cant": "unbounded literals and all 2^64 doubles, exact rounding", "anchors": ["include/jules/core/type.hpp: numeric_rule, string_rule"]}
{"id": "C63", "title": "Every subscript of a chain takes effect", "statement": "Valid subscripts a[u0]...[uk] all take effect exactly unless the chain loses one. After leading indices are removed (each gives a view of fewer dimensions), let the rest be v0...vn. An index or a plain slice (slice(s,n), slice(s,n,t)) among v1...v(n-1) is lost: the proxy keeps a reference to a parameter of a finished call, so the chain is undefined; every, bounded slices and index ranges there are kept. On a contiguous array with v0 = every, in addition a bounded slice is lost if only every precedes it and it is not the last subscript (and an index there does not compile). Otherwise the result denotes exactly the selected elements. Vectors and matrices never lose a subscript. The build mode makes no difference.", "quantifier": "all shapes, all histories of slicings, all chains of valid subscripts, both builds", "why_tests_cant": "a test with three subscripts may pass by luck (the dead parameter still on the stack), and the rule must hold for every order and every mix of subscripts", "anchors": ["include/jules/array/slicing.hpp: strided_ref_array_proxy::operator[], at, at_impl; ref_array_every_proxy::operator[], at"]}
{"id": "C64", "title": "Slices relative to the size of a dimension", "statement": "A relative extent (size, e - v, e / v, or a function of the caller's) evaluated for a dimension of extent n has its arithmetical value when no subtraction goes below zero and no divisor is zero (a zero divisor is undefined; size - v otherwise wraps modulo 2^64). eval(slice(start, e), n) and eval(slice(start, e, stride), n), used as subscripts of any view together with other subscripts, select exactly the indices start + k*stride with k below that value, in order. The suffix idiom v[eval(slice(k, size - k), n)] gives the last n - k elements for k <= n (none for k = n); for k > n it is not rejected even in a checked build, because the wrapped extent makes the bounds check succeed.", "quantifier": "all relative expressions, all extents, all histories of slicings, both builds", "why_tests_cant": "unbounded expressions and extents; the wrap-around case needs arguments nobody tests", "anchors": ["include/jules/array/slicing/relative.hpp: relative_index, operator-, operator/, size, slice, eval", "include/jules/array/slicing.hpp: array_at"]}
{"id": "C65", "title": "Views by an index container", "statement": "auto v = a[idx] with a one-dimensional contiguous array and a container of index_t with pointer iterators (std::vector<index_t>, a jules vector of index_t, std::array) does not copy the indices: v designates the elements of a at the container's current elements (its number of elements stays that of the creation), so later writes to the container redirect v, without any range check even in checked builds, and v is undefined to use once the container is destroyed or reallocated (in particular if it was a temporary). v[every] is a view of the same kind. Every other view by indices - other element types, generated ranges, the result of which, subscripts of matrices and of strided views, and any further slicing of v - is fixed when the subscripts are applied and independent of what happens to the containers.", "quantifier": "all arrays, index containers, checked and unchecked builds, all later programs that write, release and create containers", "why_tests_cant": "all later histories of the container; a dangling read may happen to return the right value in a test", "anchors": ["include/jules/base/index_view.hpp: index_view", "include/jules/array/slicing.hpp: array_at, array_slice, indirect_slicing", "include/jules/array/mapper.hpp: vector_mapper"]}
{"id": "C66", "title": "In-place operations with an element of the array itself as the scalar", "statement": "view op= x, where x is an element of the view, combines every element with the value x had. (Fails: the scalar is used by reference, so the elements after x are combined with f(x, x); the elements up to x, and all elements when x lies outside the view, are combined with its old value.) view = x sets every element to the value x had, and view = view op x combines every element with it.", "quantifier": "all element types, operations, views, positions of the scalar", "why_tests_cant": "all views, values and positions; tests use literals as scalars", "anchors": ["include/jules/array/functional.hpp: BINARY_INPLACE_TYPE_OPERATION, BINARY_INPLACE_REF_TYPE_OPERATION, apply", "include/jules/array/ref_array.hpp: operator=", "include/jules/array/strided_ref_array.hpp: operator="]}
{"id": "C67", "title": "Flattening into an element type that a pointer converts to", "statement": "as_vector(a) and to_vector<T>(a) hold the elements of a in column-major order also for T = bool. (Fails: both list-initialise the result from a pair of iterators, so for an element type to which a pointer converts, such as bool, and a contiguous a - an array or a ref_array - the initializer-list constructor is chosen and the result has two elements, both the conversion of a pointer, whatever a holds; strided and indexed views and expressions are flattened correctly, and so is every operand when no pointer converts to the element type.)", "quantifier": "all arrays, views and expressions, element types, shapes, checked and unchecked builds", "why_tests_cant": "all element types and kinds of operands; depends on overload resolution, which differs between element types", "anchors": ["include/jules/array/numeric.hpp: to_vector, as_vector", "include/jules/array/array.hpp: array(recursive_initializer_list_t), array(Iter, Sent)"]}
{"id": "C68", "title": "Reading with any regular expressions", "statement": "read(is, opt) with any line and cell regular expressions and match flags ends, and cuts the text as regex iteration does: the pieces between the matches and the matches together are the text; with separator = true the pieces are used (the last one is dropped if it is empty and not alone), with separator = false the matches. For an expression that never matches the empty text the cuts are the first match, the first match in what follows, and so on. For other expressions, behind an empty match a match of at least one character at the same place counts next, else one character is passed and the first match behind it counts. The rows of the table are the non-empty lines from the first one that has a cell on; differing numbers of cells (also a later line without cells) throw std::logic_error, repeated names in a header throw, otherwise the dataframe holds exactly the cells; if no line has a cell it is empty. Text written with literal separators of any length and read with the same ones gives the columns back if every separator is the first occurrence where it was written (for example if its first character occurs in no field); it fails when a separator overlaps the end of a field, and an expression that can match nothing cuts between all characters.", "quantifier": "all texts, all regular expressions given by their search function, separator and match modes, headers, dataframes", "why_tests_cant": "all texts and expressions, including ones that match the empty text", "anchors": ["include/jules/dataframe/dataframe.hpp: read_options, read, write"]}
{"id": "C69", "title": "The throwing build", "statement": "With JULES_DEBUG_THROWS (the mode of the project's own tests) every operation does exactly what the checked build does when no check fails, and throws std::logic_error where that one stops: subscripts of any chain of views, axes, drop_to, seq, matrix products, evaluation of expressions and assignments. A rejected assignment has written nothing. A program that catches the exceptions of misused builders and ragged nested lists goes on with all other objects intact and nothing lost or leaked. The claim fails where the check is inside a noexcept function, and there the program ends (std::terminate): an empty index range among several dimensions, indexing a multi-dimensional array with a zero extent, reshaping to another size, push_back(T&&) into a complete builder, self move assignment. An incomplete builder made into an array loses its contents.", "quantifier": "all shapes, chains of views, subscripts (in range or not), expressions, memories, programs over arrays and builders with any exceptions of the elements and of the allocator", "why_tests_cant": "the tests use this mode on a few literals only; which checks are reached inside noexcept functions depends on the shapes", "anchors": ["include/jules/core/debug.hpp: throwing_module, default_module", "test/CMakeLists.txt: JULES_DEBUG_THROWS", "include/jules/array/slicing.hpp: array_at, array_slice", "include/jules/array/mapper.hpp: vector_mapper", "include/jules/array/strided_descriptor.hpp: strided_descriptor", "include/jules/array/functional.hpp: apply", "include/jules/array/numeric.hpp: seq, product", "include/jules/array/blas.hpp: product", "include/jules/array/builder.hpp: array_builder", "include/jules/array/array.hpp: array, reshape_to"]}
{"id": "C70", "title": "Operations through views when an element operation throws", "statement": "If computing or assigning an element throws during view = e, view op= e, apply(view, op), array = e, eval(e) or overlap(view) = e, then: the elements before it in column-major order have been assigned or updated, one after the other, exactly as without the exception; that element is unchanged, or (if its own assignment was interrupted) unspecified; every other element of every array is unchanged; the exception reaches the caller. With distinct elements none of which is read after it was written, the elements before have the values over the memory before the statement. If nothing throws, the result is the one of C19, C20, C22, C54 and C55. array = e of the same size keeps the old extents on an exception; of another size it leaves the array unchanged. An exception while the expression of array x = e or overlap(view) = e is computed changes nothing. The natural claims fail, as shown: an interrupted assignment is neither undone nor completed, and where the element type is constructed without exceptions (double) an exception of the operation in array x = e, overlap(view) = e or array = e of another size ends the program (std::terminate).", "quantifier": "all memories, views, expressions, and all placements of exceptions among the element operations", "why_tests_cant": "all placements of exceptions and all shapes; the intermediate states are only seen when an exception interrupts", "anchors": ["include/jules/array/detail/common.hpp: array_assign", "include/jules/array/functional.hpp: apply", "include/jules/array/ref_array.hpp: operator=", "include/jules/array/strided_ref_array.hpp: operator=", "include/jules/array/overlap.hpp: overlap_type", "include/jules/array/allocator.hpp: construct", "include/jules/array/array.hpp: operator=, array"]}
{"id": "C71", "title": "Threads that work through disjoint views", "statement": "Threads that assign through views, fill or update views in place, apply compound operators, assign with overlap() and evaluate expressions, on shared arrays whose element sets do not conflict (no thread writes an element another thread reads or writes; reading the same elements is allowed, also views of one array interleaved element by element), are free of data races in every interleaving of their element accesses, never get stuck, make a number of accesses that does not depend on the schedule, and end with exactly the memory and the computed values of running the threads one after the other, in whatever order. With overlapping writes both parts fail: a race is reachable and the result depends on the schedule.", "quantifier": "all memories, numbers of threads, lists of statements, views, expressions, and all interleavings of the accesses", "why_tests_cant": "all schedules; a race or a stray access of one view into the elements of another shows only in some of them", "anchors": ["include/jules/array/detail/common.hpp: array_assign", "include/jules/array/functional.hpp: apply", "include/jules/array/ref_array.hpp: ref_array, operator=", "include/jules/array/strided_ref_array.hpp: strided_ref_array, operator=", "include/jules/array/overlap.hpp: overlap_type", "include/jules/array/detail/iterator.hpp: iterator_from_indexes", "include/jules/array/unary_expr_array.hpp: iterator", "include/jules/array/binary_expr_array.hpp: iterator"]}
{"id": "C72", "title": "Arithmetic with the iterators of arrays and views", "statement": "For every array or view with n elements: begin() + k exists for 0 <= k <= n, designates the k-th element in column-major order for k < n and equals end() exactly for k = n; begin() + i == begin() + j exactly if i = j; (begin() + j) - (begin() + i) = j - i for i <= j, so end() - begin() is size(); (begin() + i) + k is begin() + (i + k). For arrays, contiguous views and views by an index list the differences and moves also work backwards. For strided views the backward ones fail: begin() - end() is never -size(), and end() - 1 is undefined, although both are offered.", "quantifier": "all shapes, chains of views, and all positions", "why_tests_cant": "all shapes and positions; the backward failures are compiled without a diagnostic", "anchors": ["include/jules/array/detail/iterator.hpp: iterator_from_indexes", "include/jules/array/strided_descriptor.hpp: iterator", "include/jules/array/ref_array.hpp: begin, end", "include/jules/array/strided_ref_array.hpp: begin, end"]}
{"id": "C73", "title": "Functions with effects in expressions", "statement": "The functions given to apply may have effects (count, draw random numbers, read or write array elements) as long as they do not destroy or resize arrays. Creating an expression calls nothing. Evaluating it into an array, assigning it through a view or to an array, op=, apply(in_place, ...), sum, prod, count and which call every function of the expression exactly once per element, the elements in column-major order, a function after the functions within its operands, with the k-th elements of its operands, read at the moment of the call, as arguments; in assignments each element is written before the next is computed. any, all and none do so up to the first element that decides; var, sd and meansd go over the elements twice; max, min, which_max and which_min call the functions a second time for each element better than all before it. apply with a function that has a state of its own passes that state through the elements in column-major order, so filling a view from a generator stores the k-th draw in the k-th element. Two things do not hold: max of an expression whose function does not return the same value twice need not be the greatest value it returned, and the result of a binary operation whose operands both have effects depends on an order of evaluation the library leaves to the compiler.", "quantifier": "all expressions, functions, states of the program, shapes and chains of views", "why_tests_cant": "all functions and states; a test sees one function, and pure functions hide how often and in which order they are called", "anchors": ["include/jules/array/unary_expr_array.hpp: operator*", "include/jules/array/binary_expr_array.hpp: operator*", "include/jules/array/functional.hpp: apply", "include/jules/array/detail/common.hpp: array_assign", "include/jules/array/array.hpp: array, assign_from_array", "include/jules/base/numeric.hpp: max, which_max, sum, any, var"]}
{"id": "C74", "title": "Builds with some of the checks", "statement": "JULES_DEBUG_LEVEL selects which checks are compiled in. Raising it only adds calls that stop the program: a call that does not stop at a level has exactly the same result, exception or undefined behaviour at every lower level, and a call that passes all checks behaves identically at every level, so code debugged with all checks can be built at any level. Level 0 is the build without checks, level 3 and above the one with all. Level 2 has every check of the arguments of drop_to, reshape, seq, cat and the BLAS product, but compares no subscript with the extents: whatever the indices and however far slices of positive extent and stride reach, it does what the build without checks does. At level 1 subscripts, drop_to and expressions are not checked at all. The same holds for programs over arrays and builders: builders, reshape and self move are checked from level 2 on, the shape of nested initializer lists from level 3 on.", "quantifier": "all levels, arrays, views, chains of subscripts, expressions, assignments, arguments, and programs with any operations and throw points", "why_tests_cant": "all calls at all levels; the test suite is built at one level only, with checks that throw", "anchors": ["include/jules/core/debug.hpp: JULES_DEBUG_LEVEL, level, fatal_module_t", "include/jules/array/slicing.hpp: array_at, do_slice, CHECK_BOUNDS, CHECK_STRIDE, CHECK_EXTENT", "include/jules/array/functional.hpp: apply", "include/jules/array/detail/common.hpp: array_assign, drop_one_level_extents", "include/jules/array/numeric.hpp: seq, product, cat"]}
{"id": "C75", "title": "Products of doubles", "statement": "prod of doubles is the exact product of the elements (times the start value) up to a relative error of (1+2^-53)^(n-1) - 1, whenever the result is finite and no running product underflows; its sign is always that of the exact product, one NaN makes it NaN, the empty product is one, and integer-valued data whose partial products are at most 2^53 in magnitude give the exact product. Elements of views and expressions are multiplied in column-major order, each evaluated once. A running product can underflow although the whole product is an ordinary number: then the order of the elements decides. Every finite element of a matrix product of any two views of doubles differs from the exact dot product of its row and column by at most ((1+2^-53)^k - 1) times the sum of the magnitudes of its terms, plus about k 2^-1075; integer matrices whose terms and partial sums are at most 2^53 give exact results; the BLAS path (alpha = 1, reference loop) gives the same doubles.", "quantifier": "all sequences of doubles and start values, all expressions; all matrices, views and steps of subscripts, all inner dimensions", "why_tests_cant": "rounding errors of every sequence and matrix; tests compare small integers", "anchors": ["include/jules/base/numeric.hpp: prod", "include/jules/array/numeric.hpp: product", "include/jules/array/blas: gemm", "include/jules/core/type.hpp: numeric_traits::multiplicative_identity"]}
{"id": "C76", "title": "Dataframe variables are independent values", "statement": "A command on dataframes (construction, copy, move, assignment, bind, reading, head) changes no variable other than those it names, however it ends, so a variable keeps its value through every history of commands that do not name it. A command that throws changes nothing at all, except that a dataframe moved into bind is empty afterwards; in particular is >> df gives df the dataframe that was read, or throws and leaves df as it was. Copies, moves and assignments give the value of the source, whatever the destination held; a moved-from dataframe has no columns. Copying a dataframe is defined exactly when every column holds data.", "quantifier": "all environments, commands, arguments, texts and histories", "why_tests_cant": "all histories and all ends of every command", "anchors": ["include/jules/dataframe/dataframe.hpp: base_dataframe, operator=, bind, read, operator>>", "include/jules/dataframe/action.hpp: head", "include/jules/dataframe/column.hpp: base_column"]}
{"id": "C77", "title": "The density of the normal distribution", "statement": "normal_pdf(x, mu, sigma) of doubles, within 26 standard deviations of the mean and for 2^-450 <= |sigma| <= 2^450, is finite and equals the exact density up to the relative error of std::exp and a factor exp(+-(6t+4)2^-53), t = (x-mu)^2/(2 sigma^2). It is exactly symmetric about the mean and in the sign of sigma, never negative, and does not grow with the distance from the mean (for a monotone exp). For sigma below 2^-538, zero included, it is NaN everywhere. For integral types the exponent is computed by integer division and pi is 3: the result is not close to the density (at one standard deviation it is more than 2/5 instead of less than 1/3), unsigned types pass a huge positive argument to exp, and the call is undefined exactly when sigma is zero or (x-mu)^2 or 6 sigma^2 overflows. On arrays, views and expressions normal_pdf, abs, sqrt, log, sin, cos and tanh apply the function to every element once, in column-major order; abs is exact, sqrt correctly rounded, abs of an integer undefined only for the least value of int or a wider type.", "quantifier": "all doubles and integers, all accurate exp functions, all arrays, views and expressions", "why_tests_cant": "all doubles: rounding errors of every argument", "anchors": ["include/jules/base/math.hpp: normal_pdf, pi, square, abs, sqrt", "include/jules/array/math.hpp: normal_pdf, abs, sqrt, log, sin, cos, tanh"]}
{"id": "C78", "title": "Matrix products of expressions", "statement": "product(lhs, rhs) with expressions as operands (and views mixed with expressions) evaluates each expression once and gives, for every element type, the matrix of the sums of the products of the elements of the two operands; inner sizes that differ stop the checked build. blas::product(alpha * lhs, rhs) reads lhs and rhs only inside their extents and gives the sums of (alpha * B(l,j)) * A(i,l): the same array as product(alpha * lhs, rhs) when multiplication is associative and commutative; for doubles each finite element is within ((1+2^-53)^(k+1)-1) times the sum of the magnitudes of the terms of the exact value (plus underflow terms), and it is exact for integers up to 2^53. It is not the same array in doubles in general: the factor is multiplied into the right operand first and may overflow where product(alpha * lhs, rhs) is exact.", "quantifier": "all element types, all expressions and views, all shapes, all factors", "why_tests_cant": "all element types and all expressions: rounding errors of every argument", "anchors": ["include/jules/array/numeric.hpp: product", "include/jules/array/blas.hpp: product(unary_expr_array, ref_array)", "include/jules/array/unary_expr_array.hpp: eval, first", "include/jules/array/binary_expr_array.hpp: eval"]}
{"id": "C79", "title": "Bernoulli and discrete samples have the right chances", "statement": "Every canonical draw is a double in [0,1) made from two outputs of the engine, within 2^-53 of their exact quotient and monotone in them. bernoulli_sample(p) is true with a chance within 2^-53 of p, never for p = 0 and always for p = 1. discrete_index_sample(weights) returns an index in range for every non-empty range of weights (even negative or NaN), and draws each of n weights (finite, not negative, with a finite positive sum, n up to 2^50) with the share of its weight up to 8 n 2^-53; a weight 0 is never drawn unless it is the first or the last. n samples are independent: the chance of a list of results is the product of the chances. A first weight 0 can be drawn (draw 0), a last weight 0 can be drawn (the cumulative sum rounds below 1), and an empty range gives index 0.", "quantifier": "all probabilities, all weights and numbers of weights, all outputs of a 32-bit engine, all numbers of samples", "why_tests_cant": "all outputs of the engine: 2^64 pairs per sample, and rounding of every weight", "anchors": ["include/jules/base/random.hpp: canon_sample, sample, bernoulli_sample, discrete_index_sample"]}
{"id": "C80", "title": "Uniform index samples are exactly uniform", "statement": "uniform_index_sample(end) with end >= 1 returns an index below end for every engine of 32-bit outputs; for every number n of outputs each index comes from exactly the same number of sequences of n outputs, and the same holds for every list of indices of uniform_index_sample(n, end), so the samples are exactly uniform and independent. The chance that 2k outputs are not enough is at most (3/4)^k, so the call returns with probability 1. With end = 0 the bound wraps around and the call returns an arbitrary 64-bit number.", "quantifier": "all ends below 2^64, all sequences of outputs, all numbers of samples", "why_tests_cant": "all sequences of outputs, of every length", "anchors": ["include/jules/base/random.hpp: uniform_index_sample, sample"]}
{"id": "C81", "title": "to_vector, to_matrix, write and head keep their temporaries alive and release them", "statement": "In every program over columns and dataframes, whatever allocation, copy or output throws: to_vector<T>, to_matrix<T>, write and head follow no pointer to released storage; they return what the conversions of the values give (or throw the exception of a coercion), and every temporary column is released, also when they throw. to_vector of an lvalue, to_matrix and write change no variable and no storage, so pointers and views stay valid; a failing head leaves everything as it was; a failing write has written a prefix of its text. to_vector of an rvalue leaves the column with elements of type T that have been moved from; when it fails, the column is as before, or coerced with some first elements moved from. to_matrix has a meaning whenever all columns have row_count() rows and their coercions return or throw.", "quantifier": "all programs over any number of columns and dataframes, all element types and coercion rules, all sets of failing operations", "why_tests_cant": "all programs and all points of failure of every allocation and copy", "anchors": ["include/jules/dataframe/numeric.hpp: to_vector, to_matrix", "include/jules/dataframe/dataframe.hpp: base_dataframe::write", "include/jules/dataframe/action.hpp: action::head"]}
{"id": "C82", "title": "A table of numbers in a text becomes the matrix of those numbers", "statement": "For every text whose non-empty lines have the same number of fields, with or without a header line: reading it and calling to_matrix<T> gives one row per data line and one column per field, and element (i, j) is the value of field j of data line i: for doubles the nearest double of the number the field begins with (or the infinity or NaN it spells), for integers that integer. A field that does not coerce makes to_matrix throw; nothing else can happen. Text after the number is ignored, so a field such as 1,5 is accepted as 1. Conversely, a dataframe of finite doubles and integers that is written, read and converted gives the matrix of the original, each element off by at most one millionth, and exact when it is a multiple of one millionth; smaller values are lost.", "quantifier": "all texts, all separators, all element types; all dataframes of finite doubles and integers", "why_tests_cant": "all texts and all doubles", "anchors": ["include/jules/dataframe/dataframe.hpp: base_dataframe::read, base_dataframe::write", "include/jules/dataframe/numeric.hpp: to_matrix", "include/jules/core/type.hpp: numeric_rule, integer_rule, string_rule"]}
{"id": "C83", "title": "Samples drawn by several threads", "statement": "The default engine of the sampling functions is an object of its own for every thread and every translation unit (a thread_local static in a header); a call may be given another engine, which can be reseeded as well. Whatever the threads do and however they are interleaved, as long as no engine object is used by two threads without a mutex: there is no data race; every thread gets its results in the order of its program; the calls made with one engine have the results that they have one after the other, every call with the outputs that follow those of the call before; results are in range; the samples of a thread that uses the default engines depend on its program and its seeds only; after a reseeding they depend on the seed only; no thread waits for ever. The default engine std::mt19937 gives the outputs of the standard's recurrence, below 2^32, for every seed. Two threads that use one engine object without a mutex race; and reseeding the default engine in one translation unit has no effect on the samples drawn in another.", "quantifier": "all programs of any number of threads, all seeds, all engines, all interleavings of single accesses to the engines", "why_tests_cant": "all schedules and all seeds", "anchors": ["include/jules/base/random.hpp: random_engine, construct_default_random_engine, canon_sample, bernoulli_sample, uniform_index_sample, discrete_index_sample"]}
{"id": "C84", "title": "Streams that fail, end or were cut off", "statement": "Reading from a stream: a stream that does not test true gives the empty dataframe (>> replaces the dataframe by the empty one) and is left alone; otherwise the whole rest of the stream is consumed, even when the text is malformed, the flags of the stream are unchanged (the end of the input is not recorded, so that while (is >> df) never ends), and >> replaces the dataframe or throws and leaves it as it was. Writing to a stream: whatever the device does, what reaches it is a beginning of the text of the dataframe, all of it or exactly as many characters as it takes; the stream is bad if that is not everything; a stream that is not good takes nothing; a field width pads the first field only; a failing coercion is reported before anything is written. A file cut off at any point: reading it throws, or gives columns without data named as far as the header goes, or the first rows, with every cell as it was written except that the last cell of the last row may be cut short. Neither an incomplete write (with the default exception mask) nor a file that ends inside its last field is reported.", "quantifier": "all dataframes, streams, states of the stream, points of failure and points at which a text is cut", "why_tests_cant": "all crash points: every number of characters the device takes, every length of the file", "anchors": ["include/jules/dataframe/dataframe.hpp: base_dataframe::read, base_dataframe::write, operator<<, operator>>"]}
{"id": "C85", "title": "Sources that can be read only once", "statement": "Given iterators of an input stream, the algorithms with one loop (min, max, which_min, which_max, sum, prod, count, which, all, any, none) give what they give for an array of the values the stream still delivers; all, any and none leave in the stream exactly the values after the one that decides. The algorithms that read the source more than once do not: the mean is the sum of the values or the first value over their number (the order of evaluation decides), variance and standard deviation of two or more numbers are 0 and the mean that meansd returns is the first value, freq is the number of true values or the first value's share, nth of any position but 0 is undefined behaviour, and array(begin, end) holds the first value only. array(it, dims...) holds the next values of the stream in column-major order and takes one value more than it has elements, so that two arrays filled in turn do not get consecutive values; too few values are undefined behaviour. array(generated, f, dims...) calls f exactly once per element, in column-major order, and never when the storage cannot be obtained; if call number j is the first that throws, f has been called j+1 times, and the exception reaches the caller, unless the elements are nothrow constructible: then the program ends with std::terminate.", "quantifier": "all sequences of values, element types, orders of evaluation, extents, function objects with state and points of failure", "why_tests_cant": "all inputs, all function objects with a state and all calls at which they may throw", "anchors": ["include/jules/base/numeric.hpp: max, min, which_max, which_min, sum, prod, mean, var, sd, meansd, nth, count, freq, which, all, none, any", "include/jules/array/array.hpp: array(It, Dims...), array(generated_t, F, Dims...), array(Iter, Sent)", "include/jules/array/allocator.hpp: construct"]}
{"id": "C86", "title": "Reading dataframes when memory runs out", "statement": "In a program of commands on column and dataframe variables, caught exceptions and reads from text, in which any operation that allocates or constructs text may throw: every text with any delimiters can be read; dataframe::read and is >> f return what reading gives when nothing fails (the new dataframe, or std::logic_error), or they throw the exception of the operation that failed. When they throw, no variable has changed, all other columns keep their storage and contents (pointers and views stay valid), and everything obtained for the partly read dataframe is released; f keeps its columns. When read returns, the new dataframe has storage of its own and nothing else is touched; when is >> f returns, exactly the storage of f's old columns has been released. No storage is leaked, shared between variables or used after its release.", "quantifier": "all texts, delimiters, header options, histories of commands, kinds of exception and sets of failing operations", "why_tests_cant": "all histories of commands and all points at which memory runs out", "anchors": ["include/jules/dataframe/dataframe.hpp: read, bind, operator>>", "include/jules/dataframe/column.hpp: base_column(Rng&&)", "include/jules/dataframe/detail/column_model.hpp: specific_column_model"]}
