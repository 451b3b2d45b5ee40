{"id": "C01", "title": "Row-major addressing is a bijection", "statement": "For a freshly constructed dense tensor, the element addresses of its multi-indices are exactly 0..size()-1, each used once: distinct in-range indices never share a storage cell, every cell belongs to exactly one index, and converting a flat position to indices and back (and vice versa) is the identity.", "quantifier": "every rank, every list of extents (including zeros), every in-range multi-index and every flat position", "why_tests_cant": "A test fixes one rank and a few extents; the claim ranges over all ranks, extents and indices.", "anchors": ["src/include/einsums/Tensor.hpp: Tensor(std::string, Dims...), operator()(MultiIndex...)", "src/include/einsums/utility/IndexUtils.hpp: dims_to_strides, sentinel_to_indices, indices_to_sentinel", "src/Utils.cpp: dims_to_strides"]}
{"id": "C02", "title": "Element read/write law", "statement": "Writing an element through operator() (indices in [-d, d)) succeeds inside the buffer, reading the same element (also via its non-negative or negative spelling) returns the value, and no other element of the tensor or any other memory changes.", "quantifier": "every tensor shape, every pair of in-range (possibly negative) indices, every previous memory content", "why_tests_cant": "Needs all pairs of indices of all shapes, and absence of any out-of-bounds access.", "anchors": ["src/include/einsums/Tensor.hpp: Tensor::operator(), data(MultiIndex...)"]}
{"id": "C03", "title": "Checked indexing rejects exactly the bad indices", "statement": "Element access on run-time tensors returns the element when every index lies in [-d, d) and throws otherwise; the container-index accessors of static tensors throw exactly when the number of indices differs from the rank and otherwise address the wrapped indices; a throwing call touches no memory.", "quantifier": "every rank, shape and index vector, including wrong length and arbitrarily negative or large entries", "why_tests_cant": "Infinitely many bad indices; silent acceptance of a single one is memory corruption.", "anchors": ["src/include/einsums/utility/IndexUtils.hpp: indices_to_sentinel_negative_check", "src/include/einsums/Tensor.hpp: operator()(const Container&)", "src/include/einsums/RuntimeTensor.hpp: operator()(const Storage&)"]}
{"id": "C04", "title": "Slicing denotes the selected sub-block", "statement": "A view made by T(args...) with a mix of All, Range and integer arguments has one dimension per non-integer argument, its element (j1,..) is the parent element obtained by fixing integer positions and adding each Range start, so reads and writes through the view are reads and writes of those parent elements and of no others.", "quantifier": "every parent shape, every admissible argument mix, every element of the view", "why_tests_cant": "Tests use a handful of slice patterns; the law is over every mix of argument kinds.", "anchors": ["src/include/einsums/Tensor.hpp: operator()(MultiIndex...) -> TensorView (540-628), operator()(Range...) (630-650)", "src/include/einsums/Tensor.hpp: TensorView::common_initialization"]}
{"id": "C05", "title": "View of a view composes", "statement": "Taking an offset/extent sub-view of a view gives the same elements as the single sub-view of the original tensor with the offsets added; a view never addresses memory outside its parent when its offsets and extents fit.", "quantifier": "every parent (tensor or strided view), every nesting of sub-views", "why_tests_cant": "Nesting depth and stride patterns are unbounded.", "anchors": ["src/include/einsums/Tensor.hpp: TensorView::common_initialization (1348-1430)"]}
{"id": "C06", "title": "Reshape preserves the element sequence or is rejected", "statement": "Moving a tensor into new extents keeps the row-major sequence of elements and the element count; a single -1 extent is inferred; shapes whose product differs from the element count, or with two -1, are rejected with an exception.", "quantifier": "every old shape, every requested shape, every content", "why_tests_cant": "All factorizations of all sizes.", "anchors": ["src/include/einsums/Tensor.hpp: Tensor(Tensor<T,OtherRank>&&, std::string, Dims...) (237-288)"]}
{"id": "C07", "title": "size() is the number of elements", "statement": "size() of a tensor or view equals the product of its extents.", "quantifier": "every list of extents representable in the address type", "why_tests_cant": "Failure needs more than 2^31 elements, out of reach of unit tests.", "anchors": ["src/include/einsums/Tensor.hpp: Tensor::size (921), TensorView::size (1324)"]}
{"id": "C08", "title": "Element-wise updates do not depend on the thread count", "statement": "The chunked OpenMP loops used for +=, -=, *=, /= with a scalar or a tensor update each element exactly once, for every number of threads and every interleaving, so the result equals the sequential element-wise operation.", "quantifier": "every size (including sizes smaller than the thread count), every thread count, every interleaving of the threads", "why_tests_cant": "Schedules and thread counts cannot be enumerated by testing.", "anchors": ["src/include/einsums/Tensor.hpp: OPERATOR macro (852-890)", "src/include/einsums/ElementOperations.hpp: detail::omp_loop"]}
{"id": "C09", "title": "Copying a view captures its elements and detaches from it", "statement": "Constructing or assigning a tensor from a view yields a tensor whose element at every index equals the view's, stored in fresh storage, so later writes to either are invisible to the other.", "quantifier": "every strided view and every later write", "why_tests_cant": "All stride patterns; aliasing is a property of all later histories.", "anchors": ["src/include/einsums/Tensor.hpp: Tensor(const TensorView&) (321-346), operator=(const TensorView&) (782-809)"]}
{"id": "C10", "title": "Forward iteration visits every element once in row-major order; stepping back undoes stepping forward", "statement": "Starting at begin() and applying ++ size() times visits all multi-indices in row-major order and ends one past the last (first index = dim(0), others 0); -- is the inverse of ++.", "quantifier": "every shape and every iterator position", "why_tests_cant": "All shapes and positions.", "anchors": ["src/include/einsums/utility/TensorIterator.hpp: operator++, operator--"]}
{"id": "C11", "title": "einsum computes the Einstein sum (reference path)", "statement": "einsum(c, C-indices, &C, ab, A-indices, A, B-indices, B) stores in every element of C the value c*C + ab*sum over all values of the contracted indices of A*B, with every label taking a single value, touching no memory outside C and reading only inside A and B.", "quantifier": "every choice of index labels (including repeated labels and labels only in C), all extents, strides and offsets (views), all prefactors, all contents", "why_tests_cant": "The set of index patterns times shapes is infinite; tests cover a few dozen patterns.", "anchors": ["src/include/einsums/tensor_algebra_backends/GenericAlgorithm.hpp: einsum_generic_algorithm", "src/include/einsums/_TensorAlgebraUtilities.hpp: construct_index, get_dim_ranges_for_many", "src/include/einsums/tensor_algebra_backends/Dispatch.hpp: einsum"]}
{"id": "C12", "title": "A zero C-prefactor overwrites C", "statement": "When the C prefactor is zero the previous contents of C do not influence the result of einsum, even when they are NaN or uninitialised.", "quantifier": "every index pattern and previous content, including non-finite values", "why_tests_cant": "Uninitialised memory differs from run to run.", "anchors": ["src/include/einsums/tensor_algebra_backends/GenericAlgorithm.hpp", "src/include/einsums/tensor_algebra_backends/Dispatch.hpp: dot and ger branches", "src/include/einsums/linear_algebra_imp/BaseLinearAlgebra.hpp: scale"]}
{"id": "C13", "title": "The GEMM fast path agrees with the reference sum", "statement": "Whenever the index classification selects the matrix-matrix path, the result equals the Einstein sum: same elements written, same values.", "quantifier": "every index pattern accepted by the classification, all extents, contents and prefactors", "why_tests_cant": "The classification accepts infinitely many patterns; an accepted-but-wrong pattern corrupts silently.", "anchors": ["src/include/einsums/tensor_algebra_backends/Dispatch.hpp: is_gemm_possible (96-113), gemm branch (390-490)"]}
{"id": "C14", "title": "The GEMV fast path agrees with the reference sum", "statement": "Whenever the classification selects the matrix-vector path, the result equals the Einstein sum.", "quantifier": "every index pattern accepted by the classification, all extents, contents and prefactors", "why_tests_cant": "As C13.", "anchors": ["src/include/einsums/tensor_algebra_backends/Dispatch.hpp: is_gemv_possible, gemv branches (276-388)"]}
{"id": "C15", "title": "The outer-product fast path agrees with the reference sum", "statement": "Whenever the classification selects the rank-one-update path, the result equals the Einstein sum.", "quantifier": "every index pattern accepted by the classification, all extents, contents and prefactors", "why_tests_cant": "As C13; interleaved patterns are easily missed by tests.", "anchors": ["src/include/einsums/tensor_algebra_backends/Dispatch.hpp: outer_product branch (230-274)"]}
{"id": "C16", "title": "The dot-product and element-wise fast paths agree with the reference sum", "statement": "Whenever all indices of A and B coincide and C is a scalar, or all three index lists coincide, the fast path result equals the Einstein sum.", "quantifier": "every rank, extents, strides, contents and prefactors", "why_tests_cant": "As C13.", "anchors": ["src/include/einsums/tensor_algebra_backends/Dispatch.hpp: dot (215-220), direct product", "src/include/einsums/linear_algebra_imp/BaseLinearAlgebra.hpp: dot, direct_product"]}
{"id": "C17", "title": "einsum is deterministic under any parallel schedule", "statement": "The parallel loop of the generic contraction gives the same C for every order in which target elements are processed.", "quantifier": "every schedule (permutation of the target elements), every pattern and content", "why_tests_cant": "Schedules cannot be enumerated.", "anchors": ["src/include/einsums/tensor_algebra_backends/GenericAlgorithm.hpp: EINSUMS_OMP_PARALLEL_FOR loop"]}
{"id": "C18", "title": "sort permutes exactly as the index strings say and is invertible", "statement": "sort(uc, C-indices, &C, ua, A-indices, A) sets each element of C to uc*C + ua*A at the correspondingly permuted index; sorting back with the inverse permutation restores the original.", "quantifier": "every rank, permutation, extents, contents and prefactors", "why_tests_cant": "All permutations of all ranks.", "anchors": ["src/include/einsums/tensor_algebra_backends/Sort.hpp: sort"]}
{"id": "C19", "title": "GEMM wrapper computes the row-major product for every layout", "statement": "gemm<TransA,TransB>(alpha,A,B,beta,&C) on row-major matrices with arbitrary leading strides sets each C(i,j) to alpha*sum op(A)(i,p)op(B)(p,j)+beta*C(i,j) and changes nothing else, including for empty contraction ranges.", "quantifier": "all m, n, k >= 0, all transposition flags, leading strides, contents", "why_tests_cant": "All sizes and strides; the k = 0 edge is rarely tested.", "anchors": ["src/backends/linear_algebra/vendor/Vendor.cpp: dgemm (200-234)", "src/include/einsums/linear_algebra_imp/BaseLinearAlgebra.hpp: gemm"]}
{"id": "C20", "title": "GEMV and GER wrappers compute the row-major operations", "statement": "gemv and ger on row-major matrices compute y = alpha*op(A)x + beta*y and A = A + alpha*x*y^T for every stride, changing nothing else; ger rejects invalid arguments.", "quantifier": "all sizes >= 0, transposition flags, vector increments, leading strides, contents", "why_tests_cant": "As C19.", "anchors": ["src/backends/linear_algebra/vendor/Vendor.cpp: dgemv, dger", "src/include/einsums/linear_algebra_imp/BaseLinearAlgebra.hpp: gemv, ger"]}
{"id": "C21", "title": "scale / axpy / axpby touch exactly the elements of their target", "statement": "scale(a,&A), axpy(a,X,&Y) and axpby update each element of the target tensor or view once and leave all other memory unchanged.", "quantifier": "every tensor or view (extents, strides), every content", "why_tests_cant": "Views have infinitely many stride patterns; the overrun is invisible when the neighbour is not inspected.", "anchors": ["src/include/einsums/linear_algebra_imp/BaseLinearAlgebra.hpp: scale (127-129), axpy, axpby (272-280)"]}
{"id": "C22", "title": "scale_row and scale_column touch exactly one row or column", "statement": "scale_row(i,a,&A) and scale_column(j,a,&A) multiply exactly row i / column j by a.", "quantifier": "every matrix, leading stride, row/column number", "why_tests_cant": "All shapes and strides.", "anchors": ["src/include/einsums/linear_algebra_imp/BaseLinearAlgebra.hpp: scale_row, scale_column"]}
{"id": "C23", "title": "dot equals the sum of products for every layout", "statement": "dot(A,B) equals the sum over all multi-indices of A*B for contiguous tensors and for arbitrary strided views, and for the three-operand form the sum of A*B*C.", "quantifier": "every rank, extents, strides of both operands, contents", "why_tests_cant": "All layouts.", "anchors": ["src/include/einsums/linear_algebra_imp/BaseLinearAlgebra.hpp: dot (147-191), 3-way dot (249-268)"]}
{"id": "C24", "title": "Determinant", "statement": "det(A) terminates and returns the determinant obtained from the LU factors (product of the diagonal of U times the sign of the row interchanges).", "quantifier": "every square matrix and every valid LAPACK pivot vector", "why_tests_cant": "All pivot vectors.", "anchors": ["src/include/einsums/LinearAlgebra.hpp: det (1017-1066)"]}
{"id": "C25", "title": "Block ranges always tile the diagonal", "statement": "After any sequence of block insertions (front/middle/end) and resizes, the block ranges are consecutive, non-overlapping, start at 0, end at dim(0), and block_of(i) returns the unique non-empty block containing i (throwing out of range).", "quantifier": "every history of push_block / insert_block / update_dims", "why_tests_cant": "Histories are unbounded.", "anchors": ["src/include/einsums/BlockTensor.hpp: update_dims, push_block, insert_block, block_of, block_range"]}
{"id": "C26", "title": "A block tensor reads as the block-diagonal dense tensor", "statement": "Element access returns the block's element when all indices fall in the same block and 0 otherwise, and conversion to a dense tensor agrees with element access everywhere.", "quantifier": "every block structure, rank, index and content", "why_tests_cant": "All block structures.", "anchors": ["src/include/einsums/BlockTensor.hpp: operator() (376-456), operator TensorType (673-724)"]}
{"id": "C27", "title": "Block-wise GEMM equals dense GEMM", "statement": "gemm on block tensors with equal block structure equals the dense gemm of the corresponding block-diagonal matrices.", "quantifier": "every block structure, contents, prefactors, transposition flags", "why_tests_cant": "All block structures.", "anchors": ["src/include/einsums/linear_algebra_imp/BlockLinearAlgebra.hpp: gemm"]}
{"id": "C28", "title": "Tile lookup is total and unique", "statement": "tile_of maps every in-range (possibly negative) index to the unique tile whose interval contains it and throws for every other index; the tile intervals partition each axis.", "quantifier": "every list of tile sizes (including zero-size tiles) and every index", "why_tests_cant": "All grids.", "anchors": ["src/include/einsums/TiledTensor.hpp: constructors (79-131), tile_of (300-388)"]}
{"id": "C29", "title": "A tiled tensor behaves like a zero-initialised dense tensor under any history", "statement": "For any sequence of element writes, whole-tensor scalings, zero() and tile creations, reading any element gives what a dense zero-initialised tensor subjected to the same sequence would give; missing tiles read as 0.", "quantifier": "every grid, every operation history, every index", "why_tests_cant": "Histories are unbounded; lazily created tiles depend on the history.", "anchors": ["src/include/einsums/TiledTensor.hpp: operator() (396-512), tile, zero, operator*=, operator+="]}
{"id": "C30", "title": "Tiled GEMM equals dense GEMM", "statement": "gemm over tiled tensors with compatible grids equals the dense gemm, whichever tiles are present, and every C tile is scaled by beta exactly once.", "quantifier": "every compatible triple of grids, every subset of present tiles, contents, prefactors, transposition flags", "why_tests_cant": "Exponentially many tile patterns.", "anchors": ["src/include/einsums/linear_algebra_imp/TiledLinearAlgebra.hpp: gemm (94-185)"]}
{"id": "C31", "title": "Tiled dot product equals the dense dot product", "statement": "dot of two tiled tensors with the same grid is the sum over all elements of the product; different numbers of tiles along an axis raise an exception.", "quantifier": "every grid shape, every subset of present tiles", "why_tests_cant": "All grids; square grids hide an index-order mistake.", "anchors": ["src/include/einsums/linear_algebra_imp/TiledLinearAlgebra.hpp: dot (14-48), true_dot (52-86)"]}
{"id": "C32", "title": "Tiled whole-tensor updates reach every element", "statement": "set_all(v), += v, -= v on a tiled tensor make every element v / increased by v / decreased by v.", "quantifier": "every grid and every subset of existing tiles", "why_tests_cant": "Depends on which tiles exist.", "anchors": ["src/include/einsums/TiledTensor.hpp: set_all (534-560), operator+= (614-640)"]}
{"id": "C33", "title": "Reductions sum / max / min are exact and schedule independent", "statement": "sum(T), max(T), min(T) equal the sum, maximum, minimum over all elements of the tensor or view for every number of threads.", "quantifier": "every shape, stride pattern, content, thread count", "why_tests_cant": "Schedules and layouts.", "anchors": ["src/include/einsums/ElementOperations.hpp: sum, max, min"]}
{"id": "C34", "title": "arange produces the half-open progression inside its buffer", "statement": "arange(start, stop, step) returns start, start+step, ... up to but not including stop, and writes only inside the returned tensor.", "quantifier": "every start <= stop and step > 0", "why_tests_cant": "All triples; the overrun only shows when step does not divide the span.", "anchors": ["src/include/einsums/Utilities.hpp: arange (650-666)"]}
{"id": "C35", "title": "fftfreq lists the DFT sample frequencies", "statement": "fftfreq(n,d) is [0,1,...,ceil(n/2)-1,-floor(n/2),...,-1]/(n d).", "quantifier": "every n >= 1 and d", "why_tests_cant": "All n of both parities.", "anchors": ["src/FFT.cpp: fftfreq"]}
{"id": "C36", "title": "The circular buffer keeps the most recent entries in order", "statement": "After any sequence of push_backs, the buffer contains the last min(n,capacity) pushed values in order of insertion.", "quantifier": "every capacity >= 1, every history", "why_tests_cant": "Histories are unbounded.", "anchors": ["src/include/einsums/STL.hpp: CircularBuffer (329-384)"]}
{"id": "C37", "title": "Timers count every completed region under its call path", "statement": "For every balanced sequence of push/pop (and for prefixes), the current timer equals the open path, each path's call count is the number of completed push/pop pairs with that path, and children are reported once in first-use order; time is attributed to the region popped.", "quantifier": "every push/pop history", "why_tests_cant": "Histories are unbounded.", "anchors": ["src/Timer.cpp: push, pop, report"]}
{"id": "C38", "title": "Compile-time index set operations are the set operations", "statement": "Intersect, Difference, unique of index tuples compute exactly the indices of the first tuple in / not in the second / without repeats, in order of first occurrence.", "quantifier": "every pair of index tuples, with repeats", "why_tests_cant": "All tuples.", "anchors": ["src/include/einsums/STL.hpp: Intersect, Difference, UniqueT (241-306)"]}
{"id": "C39", "title": "Unfold and Khatri-Rao index maps", "statement": "unfold<mode> is a bijection between tensor elements and matrix elements with the mode index as the row and the remaining indices in order as the column; khatri_rao(A,B) gives KR((i,m),r)=A(i,r)B(m,r).", "quantifier": "every rank, mode, extents, contents", "why_tests_cant": "All ranks and modes.", "anchors": ["src/include/einsums/tensor_algebra_backends/Unfold.hpp", "src/include/einsums/tensor_algebra_backends/KhatriRao.hpp"]}
{"id": "C40", "title": "Disk views write back exactly the viewed block", "statement": "A read-write disk view's destructor stores exactly its block in the file and nothing else; a read-only view leaves the file unchanged; reading a slice returns that block of the file with the extents requested.", "quantifier": "every file content, slice (including slices of length 1) and every modification of the view", "why_tests_cant": "Depends on histories of opens, writes and destruction.", "anchors": ["src/include/einsums/Tensor.hpp: DiskTensor::operator() (1761-1861), DiskView (1876-1989)"]}
{"id": "C41", "title": "Function tensors and their views evaluate at the right indices", "statement": "A function tensor evaluated at in-range (possibly negative) indices calls the function with the normalised indices and throws otherwise; a slice view of it evaluates the function at the composed indices.", "quantifier": "every function, shape, slice and index", "why_tests_cant": "All slices of all shapes.", "anchors": ["src/include/einsums/FunctionTensor.hpp: fix_indices, operator(), FunctionTensorView::apply_view"]}
{"id": "C42", "title": "Lazy arithmetic expressions evaluate element-wise", "statement": "Assigning an expression built from tensors, scalars and + - * / unary minus stores at every index the value of that expression on the operands' elements at that index.", "quantifier": "every expression tree, every shape, every content", "why_tests_cant": "Expression trees are unbounded.", "anchors": ["src/include/einsums/ArithmeticTensor.hpp: compute_arithmetic"]}
{"id": "C43", "title": "Run-time slicing selects the requested block or throws", "statement": "RuntimeTensor slicing with a vector of ranges returns the view of the requested block for in-range (possibly negative) ranges and throws otherwise; copying a strided view to a run-time tensor preserves its elements.", "quantifier": "every shape, every vector of ranges", "why_tests_cant": "All ranges incl. negative.", "anchors": ["src/include/einsums/RuntimeTensor.hpp: operator()(const std::vector<Range>&) (280-360), operator=(const TensorView&) (404-429)"]}
{"id": "C44", "title": "Block einsum over block-diagonal operands equals the dense contraction", "statement": "einsum on block tensors equals the Einstein sum of the block-diagonal dense tensors for every output kind (block, dense, scalar).", "quantifier": "every block structure, pattern, contents, prefactors", "why_tests_cant": "All block structures.", "anchors": ["src/include/einsums/tensor_algebra_backends/BlockAlgebra.hpp"]}
{"id": "C45", "title": "Laguerre series evaluation and differentiation", "statement": "value(x,c) equals the sum of c_k L_k(x), and derivative(c,m) has the coefficients of the m-th derivative of that series.", "quantifier": "every degree, coefficient vector, point and order m", "why_tests_cant": "All degrees.", "anchors": ["src/include/einsums/polynomial/Laguerre.hpp: value, derivative"]}
{"id": "C46", "title": "symm_gemm computes the congruence product", "statement": "symm_gemm<TransA,TransB>(A,B,&C) sets C to op(B)^T op(A) op(B) for all row-major matrices with arbitrary leading strides (inner extent 0 included) and changes only C.", "quantifier": "all extents, transposition flags, leading strides, contents", "why_tests_cant": "All sizes and strides.", "anchors": ["src/include/einsums/linear_algebra_imp/BaseLinearAlgebra.hpp: symm_gemm (292-327)"]}
{"id": "C47", "title": "einsum computes the Einstein sum whichever algorithm it picks", "statement": "A call einsum(cp, indices, &C, ab, indices, A, indices, B) sets every element of C to cp*C + ab*(sum over the labels absent from C of A*B) and changes nothing else, whichever of the dot, element-wise, outer-product, matrix-vector, matrix-matrix or loop algorithms it selects.", "quantifier": "all index patterns the call accepts, extents, layouts, contents, prefactors, layout flags and thread schedules", "why_tests_cant": "Index patterns, extents and layouts are unbounded, and the algorithm depends on them.", "anchors": ["src/include/einsums/tensor_algebra_backends/Dispatch.hpp: einsum", "src/include/einsums/tensor_algebra_backends/GenericAlgorithm.hpp: einsum_generic_algorithm"]}
{"id": "C48", "title": "Block-wise scale, axpy, axpby, dot and row/column scaling equal the dense operations", "statement": "On block tensors with the same block structure scale, axpy, axpby, scale_row and scale_column change the block-diagonal dense tensor exactly as the dense operation would, dot returns the sum over all elements of the product, and nothing outside the blocks of the written tensor changes.", "quantifier": "every block structure (including empty blocks), rank, contents, prefactors and order in which the parallel loop processes the blocks", "why_tests_cant": "the order of the blocks, the number and sizes of blocks and the contents are unbounded; tests fix a few block structures and compare one run", "anchors": ["src/include/einsums/linear_algebra_imp/BlockLinearAlgebra.hpp: scale, scale_row, scale_column, dot, axpy, axpby"]}
{"id": "C49", "title": "has_tile answers the same for every spelling of tile coordinates", "statement": "has_tile is true exactly when the addressed tile exists, for every spelling (negative coordinates count from the end) and for both the integer and the container overload; coordinates outside the grid give false.", "quantifier": "every tiled tensor, every subset of existing tiles, every coordinate tuple", "why_tests_cant": "All grids and tile subsets; the container overload is never tested with negative coordinates.", "anchors": ["src/include/einsums/TiledTensor.hpp: has_tile (276-292, 335-352)"]}
{"id": "C50", "title": "Assigning a tiled tensor makes an independent copy", "statement": "After t = u every element of t equals that element of u before the assignment, u is unchanged and the two share no memory; this includes t = t.", "quantifier": "every pair of tiled tensors (layouts may differ), every subset of tiles", "why_tests_cant": "Aliasing and tile subsets.", "anchors": ["src/include/einsums/TiledTensor.hpp: operator= (573-606)"]}
{"id": "C51", "title": "Adding and subtracting tiled tensors is element-wise", "statement": "t += u (t -= u) makes every element t[i]+u[i] (t[i]-u[i]) whichever tiles exist in either tensor, leaves u unchanged, and throws exactly on different layouts or exhausted memory.", "quantifier": "every layout, every pair of tile subsets, all contents", "why_tests_cant": "Exponentially many pairs of tile subsets.", "anchors": ["src/include/einsums/TiledTensor.hpp: operator+= (688-703), operator-= (705-721)"]}
{"id": "C52", "title": "Converting a tiled tensor to a dense one preserves all elements", "statement": "The conversion yields a dense tensor of the full extents whose every element equals the tiled tensor's element (0 in missing tiles); other memory is unchanged.", "quantifier": "every tiled tensor and every subset of tiles", "why_tests_cant": "All grids and tile subsets.", "anchors": ["src/include/einsums/TiledTensor.hpp: operator TensorType (873-884)"]}
{"id": "C53", "title": "Element-wise maps that return a new tensor", "statement": "abs, invert, exp and scale in their new-tensor form return a tensor of the operand's extents whose every element is the function applied to the operand's element at the same index; the operand and all other memory are unchanged, for every number of threads and every distribution of the loop.", "quantifier": "every shape, stride pattern, content, thread count and interleaving", "why_tests_cant": "All layouts and schedules.", "anchors": ["src/include/einsums/ElementOperations.hpp: new_tensor::abs, invert, exp, scale"]}
{"id": "C54", "title": "Inferred extent of a rank-1 view", "statement": "A rank-1 view created with the extent -1, an offset o and a stride s refers to exactly the elements number o, o+s, o+2s, ... of its parent, as many as the parent has: none is missed and none lies beyond the parent.  Without arguments, the rank-1 view of a tensor of any rank lists all its elements in row-major order.", "quantifier": "every parent layout and size, every offset and stride", "why_tests_cant": "The extent is computed in single precision: whether it is right depends on the sizes, beyond any a test allocates.", "anchors": ["src/include/einsums/Tensor.hpp: TensorView::common_initialization (1377-1385)"]}
{"id": "C55", "title": "Companion matrix of a Laguerre series", "statement": "companion(c) returns the square matrix of order degree(c) of which every root of the series c is an eigenvalue; fewer than two coefficients are rejected; no other memory is changed.", "quantifier": "every series c and every root of it, in every field of characteristic 0", "why_tests_cant": "All degrees and all coefficients; tests compare a few matrices.", "anchors": ["src/include/einsums/polynomial/Laguerre.hpp: companion"]}
{"id": "C56", "title": "Linear systems (gesv)", "statement": "gesv(&A, &B) with a square A leaves in every row of B the solution x of x A = b for that row b, and returns 0, whenever A is invertible; it returns a positive number only when A is singular; no other memory is changed.  This holds for tensors and for views alike.", "quantifier": "every n x n matrix A, k x n matrix B and memory layout; every LAPACK that meets its contract", "why_tests_cant": "For all matrices, sizes and strides, and for every result LAPACK may legally return; tests use a few small contiguous matrices.", "anchors": ["src/include/einsums/linear_algebra_imp/BaseLinearAlgebra.hpp: gesv", "src/backends/linear_algebra/vendor/Vendor.cpp: gesv"]}
{"id": "C57", "title": "Matrix inverse", "statement": "invert(&A) replaces A by its inverse when A is invertible and stops with an error exactly when LAPACK reports a singular matrix, for every row stride, and changes no other memory.", "quantifier": "every square matrix or view with row stride >= n", "why_tests_cant": "For all matrices, sizes and strides, and for every result LAPACK may legally return; tests use a few small contiguous matrices.", "anchors": ["src/include/einsums/LinearAlgebra.hpp: getrf, getri, invert", "src/backends/linear_algebra/vendor/Vendor.cpp: getrf, getri"]}
{"id": "C58", "title": "Symmetric eigenproblem", "statement": "syev(&A, &W) for the symmetric matrix given by the upper triangle of A leaves orthonormal eigenvectors in the rows of A and the eigenvalues in ascending order in W, and reports failure.", "quantifier": "every symmetric matrix, row stride and stride of W", "why_tests_cant": "For all matrices, sizes and strides, and for every result LAPACK may legally return; tests use a few small contiguous matrices.", "anchors": ["src/include/einsums/linear_algebra_imp/BaseLinearAlgebra.hpp: syev", "src/backends/linear_algebra/vendor/Vendor.cpp: syev", "src/include/einsums/LinearAlgebra.hpp: syev (documentation)"]}
{"id": "C59", "title": "Powers of symmetric matrices", "statement": "pow(a, alpha, cutoff) of a symmetric matrix returns the matrix that multiplies every eigenvector of a with eigenvalue lambda by lambda^alpha (by zero when that is not finite or when alpha < 0 and |lambda| is below cutoff times the largest magnitude of an eigenvalue), and leaves a and all other memory unchanged.", "quantifier": "every non-empty symmetric real matrix and row stride, every alpha and cutoff, every eigenvector, when the eigensolver converges", "why_tests_cant": "For all matrices, sizes and strides, and for every result LAPACK may legally return; tests use a few small contiguous matrices.", "anchors": ["src/include/einsums/linear_algebra_imp/BaseLinearAlgebra.hpp: pow"]}
{"id": "C60", "title": "Matrix norms", "statement": "norm(type, a) returns the largest magnitude, the largest column sum (One), the largest row sum (Infinity) or the Frobenius norm of the matrix a, and reads only a.", "quantifier": "every matrix, row stride and norm type", "why_tests_cant": "For all matrices, sizes and strides, and for every result LAPACK may legally return; tests use a few small contiguous matrices.", "anchors": ["src/include/einsums/LinearAlgebra.hpp: norm, Norm", "src/backends/linear_algebra/vendor/Vendor.cpp: lange"]}
{"id": "C61", "title": "Singular value decomposition", "statement": "svd_dd(A) and svd(A) return orthogonal U and Vt and non-negative descending S with A = U diag(S) Vt, leave A unchanged and report failure to converge.", "quantifier": "every m x n matrix and row stride", "why_tests_cant": "For all matrices, sizes and strides, and for every result LAPACK may legally return; tests use a few small contiguous matrices.", "anchors": ["src/include/einsums/LinearAlgebra.hpp: svd, svd_dd", "src/backends/linear_algebra/vendor/Vendor.cpp: gesdd, gesvd"]}
{"id": "C62", "title": "QR factorisation", "statement": "qr(A) and then q(F, tau) give an orthogonal (orthonormal) Q such that A = Q R with R the upper triangle of F, for every shape of A.", "quantifier": "every matrix shape and row stride", "why_tests_cant": "For all matrices, sizes and strides, and for every result LAPACK may legally return; tests use a few small contiguous matrices.", "anchors": ["src/include/einsums/LinearAlgebra.hpp: qr, q", "src/backends/linear_algebra/vendor/Vendor.cpp: geqrf, orgqr"]}
{"id": "C63", "title": "Lyapunov equation", "statement": "solve_continuous_lyapunov(A, Q) returns X with A X + X A^T = Q, and leaves A, Q and all other memory unchanged.", "quantifier": "every square A and Q of the same order and every row stride, when the Schur factorisation converges and the equation is solvable", "why_tests_cant": "For all matrices, sizes and strides, and for every result LAPACK may legally return; tests use a few small contiguous matrices.", "anchors": ["src/include/einsums/LinearAlgebra.hpp: solve_continuous_lyapunov", "src/backends/linear_algebra/vendor/Vendor.cpp: gees, trsyl"]}
{"id": "C64", "title": "General eigenproblem", "statement": "geev(&A, &W, &lvecs, &rvecs) leaves the eigenvalues in W, the right eigenvectors in the columns of rvecs and the left eigenvectors in the columns of lvecs, and reports failure.", "quantifier": "every square complex matrix, row strides of the matrices and stride of W", "why_tests_cant": "For all matrices, sizes and strides, and for every result LAPACK may legally return; tests use a few small contiguous matrices.", "anchors": ["src/include/einsums/linear_algebra_imp/BaseLinearAlgebra.hpp: geev", "src/backends/linear_algebra/vendor/Vendor.cpp: GEEV_complex"]}
{"id": "C65", "title": "einsum on tiled tensors", "statement": "einsum(cp, C-labels, &C, ab, A-labels, A, B-labels, B) on tiled tensors (or with a scalar C) gives the same elements as on the dense tensors they stand for: C(labels) = cp*C(labels) + ab*sum A*B, missing tiles counting as zero; it touches no memory outside C, for every schedule of its loop.", "quantifier": "every label pattern, every tiling with equal tile sizes on axes with the same label, every set of existing tiles of A, B and C, every order and distribution of the iterations", "why_tests_cant": "For every set of existing tiles, every tile size (also zero), every number of labels and every order of the loop; tests use a few fixed grids.", "anchors": ["src/include/einsums/tensor_algebra_backends/TileAlgebra.hpp: einsum_special_dispatch", "src/include/einsums/linear_algebra_imp/TiledLinearAlgebra.hpp: direct_product, dot", "src/include/einsums/tensor_algebra_backends/Dispatch.hpp: einsum"]}
{"id": "C66", "title": "einsum on block and tiled operands together", "statement": "einsum(cp, C-labels, &C, ab, A-labels, A, B-labels, B) where some operands are block-diagonal and some tiled gives the same elements as on the dense tensors they stand for (a block-diagonal result: in its blocks), and touches no memory outside C, for every schedule of its loop.", "quantifier": "every label pattern, every block and tile size, every set of existing tiles, every mixture of block and tiled operands, every order of the iterations", "why_tests_cant": "For every set of existing tiles, every tile size (also zero), every number of labels and every order of the loop; tests use a few fixed grids.", "anchors": ["src/include/einsums/tensor_algebra_backends/BlockTileAlgebra.hpp: einsum_special_dispatch", "src/include/einsums/linear_algebra_imp/BlockTiledLinearAlgebra.hpp: direct_product", "src/include/einsums/tensor_algebra_backends/Dispatch.hpp: einsum"]}
{"id": "C67", "title": "Arithmetic assignment of block-diagonal tensors", "statement": "t *= v, t += v, t -= v with a scalar and t += u, t -= u, t *= u with a block-diagonal tensor u (also t itself) change every element of the tensor t stands for accordingly; tensors with a different block structure are rejected before anything is written; set_all sets every stored element; no memory outside t changes.", "quantifier": "every rank, every list of block sizes, every contents, every scalar, every order of the parallel loop", "why_tests_cant": "For every block structure (also blocks of size zero), every rank, every element value and every order in which the parallel loop finishes; tests use a few fixed block sizes.", "anchors": ["src/include/einsums/BlockTensor.hpp: BlockTensorBase::operator*=, operator+=, operator-= (OPERATOR macro), set_all"]}
{"id": "C68", "title": "Tensors are values", "statement": "Constructing, copying, assigning (same or other element type), reshaping by move, resizing, writing, filling and arithmetic on dense tensors, in any order and number, gives every tensor the extents and elements it has when tensors are independent values; no two tensors share memory, no other memory changes, nothing leaks, nothing is freed twice, and the same statements throw.", "quantifier": "every program over tensor variables, every element type, every extent, every placement of buffers by the allocator", "why_tests_cant": "For every sequence of statements over any number of tensors, every extent (also zero) and every behaviour of the allocator; aliasing or a leak shows only in particular histories.", "anchors": ["src/include/einsums/Tensor.hpp: Tensor::Tensor, Tensor::operator=, Tensor::resize, Tensor::operator(), Tensor::operator+= (OPERATOR macro), ~Tensor"]}
{"id": "C69", "title": "Linear algebra on function tensors", "statement": "dot, true_dot, gemm, gemv, ger and direct_product with at least one operand that is computed by a function (or a slice of one) give the textbook result, alpha and beta included; they write only the output, and throw before writing anything when extents do not fit.", "quantifier": "every ring of elements, every function, slice and dense view as operand, all extents, scalars, transposition flags and schedules", "why_tests_cant": "For every extent (also zero), every function, every stride of the output, every distribution of the iterations over threads and every interleaving of their memory accesses.", "anchors": ["src/include/einsums/linear_algebra_imp/UnoptimizedLinearAlgebra.hpp: dot, true_dot, gemm, gemv, direct_product, ger"]}
{"id": "C70", "title": "CANDECOMP/PARAFAC building blocks", "statement": "parafac_reconstruct returns the tensor whose element i is the sum over r of the products of the factors' elements (i_n, r); weight_tensor multiplies every element by the weight of its first index; rmsd and norm are the root of the mean (sum) of squares; validate_cp_rank is the rounded quotient of the number of elements and the sum of the extents. None of them changes existing memory.", "quantifier": "every ring of elements, number of modes, extents, ranks, views, placements of the new tensor and schedules", "why_tests_cant": "For every number of modes, every extent and rank (also zero), every placement of the new memory, every distribution of the iterations over threads and every interleaving; tests use a few fixed small tensors and compare with stored decompositions.", "anchors": ["src/include/einsums/Decomposition.hpp: validate_cp_rank, norm, rmsd, weight_tensor, parafac_reconstruct"]}
{"id": "C71", "title": "Tucker reconstruction and projection", "statement": "tucker_reconstruct returns the core contracted with all factors and the projection in tucker_ho_svd returns the tensor contracted with all transposed factors; the chain of intermediate buffers is neither leaked nor freed twice nor read after it was freed, and existing memory is unchanged. With orthonormal rows projection followed by reconstruction is exact; with orthonormal columns reconstruction followed by projection is.", "quantifier": "every ring of elements, number of modes, extents, ranks, views and every behaviour of the memory allocator", "why_tests_cant": "For every number of modes, every extent and rank (also zero), every placement of the new memory, every distribution of the iterations over threads and every interleaving; tests use a few fixed small tensors and compare with stored decompositions.", "anchors": ["src/include/einsums/Decomposition.hpp: tucker_reconstruct, tucker_ho_svd"]}
{"id": "C72", "title": "Alternating least squares never makes the fit worse", "statement": "Each update of parafac and weighted_parafac replaces one factor by one for which no other choice gives a smaller (weighted) sum of squared differences to the tensor; so the result fits at least as well as the starting factors, whatever the number of iterations, and at most n_iter_max sweeps are made.", "quantifier": "every ordered ring of elements, number of modes (at least two), positive extents, rank, tensor, weights, starting factors, tolerance, number of iterations and every linear solver that solves when it reports success", "why_tests_cant": "A statement about every tensor, every starting point and every number of iterations (the error must not grow from sweep to sweep whatever the data); tests run a few fixed tensors to convergence and compare with stored factors.", "anchors": ["src/include/einsums/Decomposition.hpp: parafac, weighted_parafac"]}
{"id": "C73", "title": "A plan compiled from Python without a BLAS shortcut computes the Einstein sum", "statement": "Executing a plan that falls back on the loop sets C to cp*C + ab*(sum over the labels not in C of A*B) for every index pattern, including repeated labels, and every stride, and touches nothing else; operands with the wrong number of axes are rejected before anything is written.", "quantifier": "every ring of elements, extents (including zero), prefactors, buffer contents and number of threads, every index pattern and stride", "why_tests_cant": "A statement about every index pattern, every set of extents and strides and every thread schedule of the plan that compilation chooses; the Python tests run a handful of patterns (mostly square matrices) and compare with numpy.", "anchors": ["src/python/PyTensorAlgebra.cpp: compile_plan, PyEinsumGenericPlan::execute", "src/include/einsums/python/PyTensorAlgebra.hpp: PyEinsumGenericPlan::execute_generic"]}
{"id": "C74", "title": "Element-wise products from Python", "statement": "When the three index lists are equal and without repetition, executing the plan sets every element of C to cp*C + ab*A*B under every schedule, whatever the strides, and touches nothing else; operands with the wrong number of axes are rejected.", "quantifier": "every ring of elements, extents (including zero), prefactors, buffer contents and number of threads, every rank and stride, every schedule", "why_tests_cant": "A statement about every index pattern, every set of extents and strides and every thread schedule of the plan that compilation chooses; the Python tests run a handful of patterns (mostly square matrices) and compare with numpy.", "anchors": ["src/include/einsums/python/PyTensorAlgebra.hpp: PyEinsumDirectProductPlan::execute_imp", "src/python/PyTensorAlgebra.cpp: compile_plan"]}
{"id": "C75", "title": "Dot products from Python", "statement": "When C has no index and A and B have the same ones, executing the plan sets C to cp*C + ab*sum(A*B), whatever the strides and the partition of the reduction.", "quantifier": "every ring of elements, extents (including zero), prefactors, buffer contents and number of threads, every rank and stride", "why_tests_cant": "A statement about every index pattern, every set of extents and strides and every thread schedule of the plan that compilation chooses; the Python tests run a handful of patterns (mostly square matrices) and compare with numpy.", "anchors": ["src/include/einsums/python/PyTensorAlgebra.hpp: PyEinsumDotPlan::execute_imp"]}
{"id": "C76", "title": "Outer products from Python", "statement": "When A and B share no label and every buffer is contiguous, executing the plan sets C to cp*C + ab*A*B and touches nothing else.", "quantifier": "every ring of elements, extents (including zero), prefactors, buffer contents and number of threads, every pair of index lists without common label", "why_tests_cant": "A statement about every index pattern, every set of extents and strides and every thread schedule of the plan that compilation chooses; the Python tests run a handful of patterns (mostly square matrices) and compare with numpy.", "anchors": ["src/include/einsums/python/PyTensorAlgebra.hpp: PyEinsumGerPlan::execute_imp", "src/python/PyTensorAlgebra.cpp: compile_plan"]}
{"id": "C77", "title": "Matrix-vector products from Python", "statement": "When one operand's labels are all summed and the buffers are contiguous, executing the plan sets C to cp*C + ab*(sum of A*B) and touches nothing else.", "quantifier": "every ring of elements, extents (including zero), prefactors, buffer contents and number of threads, every matrix-vector index pattern, in either operand order", "why_tests_cant": "A statement about every index pattern, every set of extents and strides and every thread schedule of the plan that compilation chooses; the Python tests run a handful of patterns (mostly square matrices) and compare with numpy.", "anchors": ["src/include/einsums/python/PyTensorAlgebra.hpp: PyEinsumGemvPlan::execute_imp", "src/python/PyTensorAlgebra.cpp: compile_plan"]}
{"id": "C78", "title": "Matrix products from Python", "statement": "When the labels split into rows, columns and summed ones and the buffers are contiguous, executing the plan sets C to cp*C + ab*(sum of A*B) for each of the eight orders of the blocks and touches nothing else.", "quantifier": "every ring of elements, extents (including zero), prefactors, buffer contents and number of threads, every matrix-product index pattern", "why_tests_cant": "A statement about every index pattern, every set of extents and strides and every thread schedule of the plan that compilation chooses; the Python tests run a handful of patterns (mostly square matrices) and compare with numpy.", "anchors": ["src/include/einsums/python/PyTensorAlgebra.hpp: PyEinsumGemmPlan::execute_imp", "src/python/PyTensorAlgebra.cpp: compile_plan"]}
{"id": "C79", "title": "Subscripts from Python", "statement": "x[key] gives the element, or a view of the block, that Python's rules for integers and slices select: nothing is copied, and a key that selects nothing valid raises an exception instead of reading other memory.", "quantifier": "every tensor and strided view of every rank, every tuple of integers and slices, every single integer or slice", "why_tests_cant": "A statement about every rank, every set of extents and strides, every Python subscript or buffer and every thread schedule; the Python tests index and copy a few small C-contiguous arrays.", "anchors": ["src/include/einsums/python/PyTensor.hpp: subscript, subscript_to_view, subscript_to_val, __getitem__"]}
{"id": "C80", "title": "Assignments to subscripts from Python", "statement": "x[key] = value sets exactly the selected elements; x[key] = buffer sets element j of the selected block to item j; nothing else changes, and a wrong key or shape raises an exception before anything is written.", "quantifier": "every tensor and strided view without overlapping elements, every tuple of integers and slices, every buffer of a native format, every schedule", "why_tests_cant": "A statement about every rank, every set of extents and strides, every Python subscript or buffer and every thread schedule; the Python tests index and copy a few small C-contiguous arrays.", "anchors": ["src/include/einsums/python/PyTensor.hpp: assign_values, __setitem__, PyTensorView::operator=(buffer)"]}
{"id": "C81", "title": "Exchange with Python buffers", "statement": "A tensor made from or assigned a Python buffer has its shape and its items, converted to the element type, whatever the strides; the buffer a tensor offers describes its elements and a view made from it is the same view; formats that are not supported and read-only buffers for views raise an exception.", "quantifier": "every rank and shape, all strides including zero and negative ones, every format of the struct module, every schedule", "why_tests_cant": "A statement about every rank, every set of extents and strides, every Python subscript or buffer and every thread schedule; the Python tests index and copy a few small C-contiguous arrays.", "anchors": ["src/include/einsums/python/PyTensor.hpp: PyTensor(buffer), PyTensor::operator=(buffer), PyTensorView(buffer), copy_and_cast_assign, def_buffer"]}
{"id": "C82", "title": "In-place arithmetic from Python", "statement": "t OP= value, t OP= tensor, t OP= view and t OP= buffer set every element to itself OP the value or the corresponding element and change nothing else, for every number of threads; operands of another shape raise an exception.", "quantifier": "every element operation, rank, extents, strides of the operand, number of threads and schedule", "why_tests_cant": "A statement about every rank, every set of extents and strides, every Python subscript or buffer and every thread schedule; the Python tests index and copy a few small C-contiguous arrays.", "anchors": ["src/include/einsums/RuntimeTensor.hpp: RuntimeTensor::operator*=, /=, +=, -=", "src/include/einsums/python/PyTensor.hpp: operator OP(buffer), OPERATOR bindings"]}
{"id": "C83", "title": "Iteration over tensors", "statement": "for x in t visits every element once in row-major order and then stops; reversed(t) visits them in the opposite order; iter() of an iterator goes on where it is.", "quantifier": "every tensor and strided view with fewer than 2^31 elements, every rank and set of extents, both directions", "why_tests_cant": "A statement about every rank, every set of extents and strides, every Python subscript or buffer and every thread schedule; the Python tests index and copy a few small C-contiguous arrays.", "anchors": ["src/include/einsums/python/PyTensor.hpp: PyTensorIterator"]}
{"id": "C84", "title": "Views with new extents", "statement": "A view of a tensor with other extents of the same product has the same elements in the same row-major order, and to_rank_1_view is the vector of all elements.", "quantifier": "every rank and set of extents, every source tensor or view", "why_tests_cant": "A statement about every rank, every set of extents and strides, every Python subscript or buffer and every thread schedule; the Python tests index and copy a few small C-contiguous arrays.", "anchors": ["src/include/einsums/RuntimeTensor.hpp: RuntimeTensorView(RuntimeTensor&, dims), RuntimeTensorView(RuntimeTensorView&, dims), RuntimeTensor::to_rank_1_view"]}
{"id": "C85", "title": "Eigenvectors of a block-diagonal matrix", "statement": "syev of a symmetric block tensor replaces its rows by orthonormal eigenvectors of the whole matrix and stores the eigenvalue of row r in W(r), in ascending order as the dense syev does; nothing else changes.", "quantifier": "every number and size of blocks, every contents, every order of the blocks, every LAPACK that keeps its contract on each block", "why_tests_cant": "A statement about every number and size of blocks (also empty ones), every order in which the blocks are handled and every schedule of the threads; the tests use one or two fixed block tensors and compare with the dense result.", "anchors": ["src/include/einsums/linear_algebra_imp/BlockLinearAlgebra.hpp: syev(BlockTensor, W)"]}
{"id": "C86", "title": "Linear equations and inverse for block-diagonal matrices", "statement": "gesv of block tensors solves the equations of the whole matrix and returns 0, or returns a positive number if the matrix is singular, for every number of threads; invert replaces the matrix by its inverse or reports an error for a singular matrix, for all block sizes.", "quantifier": "every number and size of blocks, every contents, every order of the blocks, every schedule, every LAPACK that keeps its contract", "why_tests_cant": "A statement about every number and size of blocks (also empty ones), every order in which the blocks are handled and every schedule of the threads; the tests use one or two fixed block tensors and compare with the dense result.", "anchors": ["src/include/einsums/linear_algebra_imp/BlockLinearAlgebra.hpp: gesv(BlockTensor, BlockTensor)", "src/include/einsums/LinearAlgebra.hpp: invert"]}
{"id": "C87", "title": "Powers of a block-diagonal matrix", "statement": "pow of a symmetric block tensor has the same eigenvectors as the whole matrix, each eigenvalue replaced by its power; for a negative exponent eigenvalues below cutoff times the largest magnitude are dropped; the operand does not change.", "quantifier": "every number and size of blocks, every contents, exponent and cutoff, every order of the blocks, every LAPACK that keeps its contract", "why_tests_cant": "A statement about every number and size of blocks (also empty ones), every order in which the blocks are handled and every schedule of the threads; the tests use one or two fixed block tensors and compare with the dense result.", "anchors": ["src/include/einsums/linear_algebra_imp/BlockLinearAlgebra.hpp: pow(BlockTensor, alpha, cutoff)", "src/include/einsums/linear_algebra_imp/BaseLinearAlgebra.hpp: pow"]}
{"id": "C88", "title": "Truncated singular value decomposition", "statement": "truncated_svd(A, k) returns k singular triplets: U with orthonormal columns, Vt with orthonormal rows, S non-negative and descending, and U diag(S) Vt is A projected on the range of A times the random matrix (A itself if that range contains the columns of A); A is unchanged. This holds for every shape and for real and complex elements.", "quantifier": "every m x n matrix, row stride and k, every random matrix, every LAPACK that keeps its contract", "why_tests_cant": "A statement about every matrix, size and row stride, every random test matrix and every answer LAPACK may legally give; the repository tests call truncated_svd and truncated_syev on one random matrix without looking at the result, and compare only the eigenvalues of heev.", "anchors": ["src/include/einsums/LinearAlgebra.hpp: truncated_svd"]}
{"id": "C89", "title": "Truncated eigenvalue decomposition", "statement": "truncated_syev(A, k) of a symmetric matrix returns k columns U, orthonormal, and ascending w with U^T A U = diag(w); if the columns of A lie in the range of A times the random matrix, every column of U is an eigenvector of A for the corresponding w and A = U diag(w) U^T; A is unchanged.", "quantifier": "every symmetric n x n matrix, row stride and k, every random matrix, every LAPACK that keeps its contract", "why_tests_cant": "A statement about every matrix, size and row stride, every random test matrix and every answer LAPACK may legally give; the repository tests call truncated_svd and truncated_syev on one random matrix without looking at the result, and compare only the eigenvalues of heev.", "anchors": ["src/include/einsums/LinearAlgebra.hpp: truncated_syev"]}
{"id": "C90", "title": "Eigenvectors of Hermitian matrices", "statement": "heev(&A, &W) replaces the rows of the Hermitian matrix A by orthonormal eigenvectors and stores the real eigenvalues in ascending order in W; nothing else changes.", "quantifier": "every Hermitian n x n matrix and row stride, every LAPACK that keeps its contract", "why_tests_cant": "A statement about every matrix, size and row stride, every random test matrix and every answer LAPACK may legally give; the repository tests call truncated_svd and truncated_syev on one random matrix without looking at the result, and compare only the eigenvalues of heev.", "anchors": ["src/include/einsums/linear_algebra_imp/BaseLinearAlgebra.hpp: heev", "src/include/einsums/LinearAlgebra.hpp: heev"]}
{"id": "C91", "title": "Element-wise maps with any number of tensors", "statement": "element(f, &C, A, B, ...) throws if an extent differs and otherwise replaces every element of C by f(C[i], A[i], B[i], ...) evaluated on the old contents, whatever the number of threads; nothing else changes. element_transform(&C, f) is the case without further tensors; on a block tensor it maps every element of the dense tensor it stands for.", "quantifier": "every f, rank, extents, strides, number of tensors, distribution of indices over threads and schedule, every block structure", "why_tests_cant": "A statement about every schedule of the parallel loop and every kind of overlap; tests run one schedule on separate tensors.", "anchors": ["src/include/einsums/tensor_algebra_backends/ElementTransform.hpp: element, element_transform"]}
{"id": "C92", "title": "Contents made by the tensor factories", "statement": "create_incremented_tensor counts in row-major order; create_ones_tensor holds ones; create_identity_tensor holds one where all indices agree and zero elsewhere; diagonal and diagonal_like put a vector on the diagonal of a zero matrix. Only the new tensor is written.", "quantifier": "every rank, extents, element type, vector stride", "why_tests_cant": "A statement about every rank and shape; tests use square or equal extents.", "anchors": ["src/include/einsums/Utilities.hpp: create_incremented_tensor, create_identity_tensor, create_ones_tensor, diagonal, diagonal_like"]}
{"id": "C93", "title": "Random tensors are filled with drawn values", "statement": "create_random_tensor(name, dims...) (without normalisation) returns a new tensor every element of which was written with a value computed from states that the shared random engine reaches from its seed, so that it lies in the range the distribution has on engine states; no other tensor changes. With one thread element k is computed from the k-th group of consecutive engine states.", "quantifier": "every engine, distribution, size, number of threads and schedule", "why_tests_cant": "A statement about every schedule of racing accesses to a shared engine; a test sees one schedule and cannot predict the values.", "anchors": ["src/include/einsums/Utilities.hpp: create_random_tensor"]}
{"id": "C94", "title": "Random definite and semidefinite matrices", "statement": "create_random_definite(name, n, n, mean) returns a symmetric matrix with an orthonormal set of eigenvectors and only positive eigenvalues (negative for a negative mean), so that x^T A x has that sign for every x other than zero. create_random_semidefinite returns one with the requested number of zero eigenvalues and the rest of one sign or zero. Both throw if the matrix is not square.", "quantifier": "every sequence of draws, every extent, mean and number of zero eigenvalues, every conforming LAPACK", "why_tests_cant": "A statement about every draw and every vector x; a test checks a handful of random matrices.", "anchors": ["src/include/einsums/Utilities.hpp: create_random_definite, create_random_semidefinite"]}
{"id": "C95", "title": "Smallest and largest element of a vector", "statement": "For a vector x with at least one element, get_domain(x) returns elements lo and hi of x such that no element of x is smaller than lo or larger than hi, whatever the number of threads and the distribution of the elements over them.", "quantifier": "every strict weak order on the elements of x, length, stride, distribution over threads and order in which the threads merge", "why_tests_cant": "A statement about every distribution of a parallel reduction and every vector.", "anchors": ["src/include/einsums/polynomial/Utilities.hpp: get_domain"]}
{"id": "C96", "title": "Permutation of block tensors", "statement": "sort(uc, C_indices, &C, ua, A_indices, A) on block tensors replaces the dense tensor C stands for by uc C + ua times the permuted dense A, in whatever order the blocks are processed; nothing outside C changes.", "quantifier": "every rank, permutation, prefactors, list of block sizes and order of the blocks", "why_tests_cant": "A statement about every permutation, block structure and processing order.", "anchors": ["src/include/einsums/ContainerSort.hpp: sort"]}
{"id": "C97", "title": "Fourier transforms and their round trip", "statement": "fft(x, &y) on complex vectors of the same length n makes y the discrete Fourier transform of x, ifft the unnormalised inverse, and neither changes anything else; ifft(fft(x)) is n times x. fft of a real vector of length n into a complex one gives the first n/2+1 elements of the transform, and throws if the result has fewer elements; ifft of that half gives n times the real vector.", "quantifier": "every length, input, and every commutative ring of exact numbers with an n-th root of unity", "why_tests_cant": "A statement about every length and input, including the memory around the vectors.", "anchors": ["src/FFT.cpp: fft, ifft", "src/backends/fft/fftw3/fft.cpp", "src/include/einsums/FFT.hpp: fft, ifft"]}
{"id": "C98", "title": "Sections are timed once and leave the timer as it was", "statement": "A Section object starts the timing of a region named after it (blanks around the name removed) when it is defined by the main thread and stops it when end() is called or its scope is left, whichever is first, also by an exception; the region inside the one open before counts one call more and the time in between, no enclosing region changes, and afterwards the region open before is open again. Sections of other threads leave the timer alone.", "quantifier": "every program of nested scopes, sections, end() calls and exceptions; every clock; every earlier history", "why_tests_cant": "A statement about every nesting, exit path and order of ends.", "anchors": ["src/Section.cpp: begin, end", "src/include/einsums/Section.hpp: Section, LabeledSection"]}
{"id": "C99", "title": "Trimming of strings and number of digits", "statement": "trim removes exactly the blanks before and after the text of a string: the result neither begins nor ends with a blank, and what is removed are blanks only; a second trim changes nothing. ndigits(n) is the number of decimal digits of n.", "quantifier": "every string; every integer", "why_tests_cant": "A statement about every string and integer.", "anchors": ["src/include/einsums/STL.hpp: trim, trim_copy, ltrim, rtrim", "src/include/einsums/STL.hpp: ndigits"]}
{"id": "C100", "title": "Printed lines of several threads are not mixed", "statement": "println prints the text line by line (text without null characters). Whatever threads print at the same time, the output consists of whole lines, each behind the header of its thread and the indentation; the lines of a thread come in its order and none is lost. No thread waits for ever. indent and deindent in nested pairs leave the indentation as it was.", "quantifier": "every number of threads, program of print, indent and deindent calls, text and interleaving", "why_tests_cant": "A statement about every interleaving.", "anchors": ["src/Print.cpp: println, fprintln, print_line, indent, deindent", "src/include/einsums/Print.hpp: println, Indent"]}
{"id": "C101", "title": "Buffers of tensors are aligned, large enough and disjoint", "statement": "Whatever tensors are created and destroyed, and in whatever order, the buffer of every living tensor begins at a multiple of the alignment, has room for all its elements, and overlaps no other tensor's buffer; nothing is freed twice and the memory of destroyed tensors has been returned. A tensor that is too large or for which there is no memory throws and changes nothing. allocate(n) of the allocator delivers n elements for every n from 1 to max_size().", "quantifier": "every history of creations and destructions, element size, number of elements, alignment, and every behaviour of the C library's allocator within its contract", "why_tests_cant": "A statement about every history and size up to the end of the address space, and every heap layout.", "anchors": ["src/Memory.cpp: allocate_aligned_memory, deallocate_aligned_memory", "src/include/einsums/STL.hpp: AlignedAllocator"]}
{"id": "C102", "title": "einsum on the GPU equals the sum for every schedule", "statement": "einsum on device tensors computed by the library's own kernels sets C to the prefactor times C plus the prefactor times the Einstein sum of A and B, for every order in which the device runs blocks and threads; nothing outside C changes and the kernels end.", "quantifier": "every index pattern, extents, strides, prefactors, number of blocks and threads, and interleaving of all workers", "why_tests_cant": "The failing schedules depend on the device; a test sees one of them.", "anchors": ["src/include/einsums/tensor_algebra_backends/GPUTensorAlgebra.hpp: einsum_generic_algorithm_gpu, einsum_generic_zero_rank_gpu, einsum_generic_direct_product_gpu, einsum_special_dispatch", "src/include/einsums/_GPUUtils.hpp: block_size, blocks, get_worker_info"]}
{"id": "C103", "title": "Dot products on the GPU", "statement": "dot of device tensors is the sum of the products of their elements, for every schedule of the device; true_dot conjugates the first; the dot plan of the Python module gives the same.", "quantifier": "every shape, strides, contents and interleaving", "why_tests_cant": "The failing schedules depend on the device; a test sees one of them.", "anchors": ["src/include/einsums/linear_algebra_imp/GPULinearAlgebra.hpp: dot_kernel, dot, true_dot_kernel", "src/include/einsums/python/PyTensorAlgebra.hpp: dot_kernel"]}
{"id": "C104", "title": "symm_gemm on the GPU", "statement": "symm_gemm<TransA, TransB>(A, B, C) on device matrices makes C equal op(B)^T op(A) op(B) for every schedule of the device; nothing outside C changes.", "quantifier": "all sizes, leading dimensions, transpositions, contents and interleavings of the workers", "why_tests_cant": "A statement about every schedule of atomic additions.", "anchors": ["src/include/einsums/linear_algebra_imp/GPULinearAlgebra.hpp: symm_gemm_kernel, symm_gemm"]}
{"id": "C105", "title": "sort on the GPU", "statement": "sort on device tensors makes C equal to its prefactor times C plus the prefactor times A with its axes permuted, for every schedule of the device; nothing else changes.", "quantifier": "every rank, permutation, extents, strides, prefactors and interleaving", "why_tests_cant": "A statement about every permutation and schedule.", "anchors": ["src/include/einsums/DeviceSort.hpp: sort_kernel, sort"]}
{"id": "C106", "title": "Sum, maximum and minimum on the GPU", "statement": "sum, max and min of a device tensor combine all of its elements, whatever the schedule.", "quantifier": "every shape, strides, contents and interleaving", "why_tests_cant": "A statement about every shape and schedule.", "anchors": ["src/include/einsums/gpu/ElementKernels.hpp: sum_kernel, max_kernel, min_kernel", "src/include/einsums/ElementOperations.hpp: sum, max, min (device)"]}
{"id": "C107", "title": "Element-wise operations on the GPU", "statement": "Maps (abs, invert, exp, scale), assignment and arithmetic assignment between device tensors and views, fills, arithmetic assignment of scalars, direct_product and axpby do on the GPU what they do on the CPU, for every schedule; nothing else changes.", "quantifier": "every shape, strides, contents, number of workers and interleaving", "why_tests_cant": "A statement about every stride pattern and schedule.", "anchors": ["src/include/einsums/gpu/DeviceTensor.hpp: operator=, operator+=, set_all", "src/include/einsums/gpu/DeviceTensorView.hpp: set_all, operator*=", "src/include/einsums/gpu/ElementKernels.hpp: abs_kernel", "src/include/einsums/linear_algebra_imp/GPULinearAlgebra.hpp: direct_product, axpby"]}
{"id": "C108", "title": "BLAS on device tensors", "statement": "gemm, gemv, ger, scale, axpy, axpby, scale_row and scale_column on device tensors do what they do on host tensors: C = alpha op(A) op(B) + beta C, y = alpha op(A) x + beta y, A = A + alpha x y^T and the scalings, for every schedule of the kernels they launch; nothing outside the result changes.", "quantifier": "all sizes, leading dimensions, transpositions, scalars, contents and interleavings of the workers", "why_tests_cant": "A statement about every size, stride and schedule; no GPU is available to most test runs.", "anchors": ["src/include/einsums/linear_algebra_imp/GPULinearAlgebra.hpp: gemm, gemv, ger, scale, axpy, axpby, scale_row, scale_column", "src/GPULinearAlgebra.hip: gemm, gemv, ger, axpby"]}
{"id": "C109", "title": "Solving and diagonalising on device tensors", "statement": "gesv on device tensors overwrites the right-hand sides by the solutions; syev leaves orthonormal eigenvectors and ascending eigenvalues or reports failure; pow returns the matrix with the same eigenvectors and powers of the eigenvalues, treating eigenvalues under the cutoff and non-finite powers like the host version, for every schedule of the kernels.", "quantifier": "all sizes, leading strides, contents and schedules; every LAPACK that meets its documentation", "why_tests_cant": "A statement about every matrix, schedule and solver.", "anchors": ["src/include/einsums/linear_algebra_imp/GPULinearAlgebra.hpp: gesv, syev, eig_to_diag, pow", "src/GPULinearAlgebra.hip: gesv, syev"]}
{"id": "C110", "title": "GPU views of numpy arrays", "statement": "A GPU view of a Python array gives kernels the array's elements: through a mapped view kernels and Python see each other's writes; a copied view changes only by update_H2D or by kernels writing through it, and the array only by update_D2H, which changes elements of the view only; arrays that overlap can be viewed together; a view keeps its array usable; when the last view is gone nothing stays registered or allocated; no such use is undefined.", "quantifier": "every program that makes, uses and drops views in any order, over arrays of any shape, stride and element size", "why_tests_cant": "Quantifies over every history of views on one address space; needs a GPU.", "anchors": ["src/python/PyGPUView.hip: PyGPUView, MappingData, MappingList", "src/include/einsums/python/PyGPUView.hpp: PyGPUView"]}
{"id": "C111", "title": "Histories of device tensors", "statement": "A device tensor behaves as a value in every memory mode (MAPPED, PINNED, DEV_ONLY): construction from extents or a host tensor, copying, assignment between modes and from host tensors, resize, moving to another rank, fills, reads and stores of elements, in any order, give every tensor the elements the same program gives on plain arrays and change no other tensor; errors leave tensors usable; no such program is undefined; when the tensors are gone all memory is given back; copies of views are views.", "quantifier": "every program over any number of device tensors of any rank above 0 and any extents", "why_tests_cant": "Quantifies over every history of operations on device tensors; needs a GPU, and leaks show no wrong value.", "anchors": ["src/include/einsums/gpu/DeviceTensor.hpp: DeviceTensor, ~DeviceTensor, resize, assign, init, operator=, set_all, read, write, operator()", "src/include/einsums/gpu/DeviceTensorView.hpp: DeviceTensorView(const DeviceTensorView &), ~DeviceTensorView"]}
{"id": "C112", "title": "Tucker decompositions", "statement": "tucker_ho_svd and tucker_ho_oi return factors with orthonormal columns and as core the tensor contracted with them, so no other core fits better and the squared error is |tensor|^2 - |core|^2; each factor holds the leading singular vectors of the tensor contracted with the other factors of the iteration before; with full ranks reconstruction gives the tensor back; without the warning the last iteration changed core and factors by less than the tolerance, and at most n_iter_max iterations are made; no iteration fits worse than the one before; they return for any number of indices and any ranks.", "quantifier": "every tensor, extents, ranks, tolerance and number of iterations", "why_tests_cant": "Quantifies over all tensors and all iterations; a test can only compare final errors of a few examples.", "anchors": ["src/include/einsums/Decomposition.hpp: initialize_tucker, tucker_ho_svd, tucker_ho_oi"]}
{"id": "C113", "title": "Starting factors of the CP decompositions", "statement": "The factors parafac and weighted_parafac start from have one matrix per index with the requested number of columns: orthonormal eigenvectors of the matrix of products of slices, for the largest eigenvalues in ascending order; if more columns are requested than there are slices, all eigenvectors followed by random columns.  In the first factor each eigenvector is multiplied by the square root of its eigenvalue unless that is at most 1e-14.", "quantifier": "every tensor, extents and rank for which the eigenvalue solver succeeds", "why_tests_cant": "Quantifies over all tensors and ranks; the random columns and the order of eigenvectors hide mistakes in tests of the final fit.", "anchors": ["src/include/einsums/Decomposition.hpp: initialize_cp"]}
{"id": "C114", "title": "GPU backend BLAS against CPU backend", "statement": "The BLAS routines of the GPU backend are drop-in replacements: called with host arrays they leave host memory as the CPU backend does, for every shape, increment and leading dimension; they release the device memory they allocate; if a call of the GPU runtime fails they throw and host memory is as before or as after the routine.", "quantifier": "every routine, shape, increment, leading dimension, contents, placement of the device blocks, previous contents of device memory, and set of failing runtime calls", "why_tests_cant": "Quantifies over shapes, strides, placements of device blocks and failing calls; the GPU tests use square matrices with increment 1 and no failing calls.", "anchors": ["src/backends/linear_algebra/hipblas/hipblas.hip: gemm, gemv, scal, dot, axpy, ger", "src/backends/linear_algebra/hipblas/hipblas.hpp"]}
{"id": "C115", "title": "GPU backend solvers against CPU backend", "statement": "The solvers of the GPU backend (linear equations, symmetric eigenvalue problem, LU decomposition) return and leave host memory and the error code as the CPU backend does, release device memory, and leave the registration of host pointers as it was; if a runtime call fails, the result arrays are all new or all unchanged.", "quantifier": "every matrix, leading dimension, number of right-hand sides, placement of the device blocks, AMD or NVIDIA device, and LAPACK library whose results depend only on the numbers it is given", "why_tests_cant": "Quantifies over shapes, library results and placements; leaks and the failing release of a pointer show up only through the runtime's bookkeeping.", "anchors": ["src/backends/linear_algebra/hipblas/hipsolver.hip: syev, heev, gesv, getrf"]}
{"id": "C116", "title": "Tensors in files are read back as written", "statement": "A tensor or scalar written to a file is read back with the same extents and elements, whatever else is written to, read from or opened in this or other files in between; writing replaces what was stored under the name and disturbs nothing else; the named arguments count, offset, stride, block and current_dims select the part written as documented; a tensor that does not fit is rejected and the file stays as it was.", "quantifier": "every history of writes, reads and disk tensors over any files and names, every rank, extents, element values, offsets and strides", "why_tests_cant": "Ranges over histories, names, extents and selections; the tests write one 3 x 3 tensor, and two of the three copies of that test compare the tensor read with itself.", "anchors": ["src/include/einsums/Tensor.hpp: write, read", "src/include/einsums/H5.hpp"]}
{"id": "C117", "title": "Disk tensors show what their file holds", "statement": "Making a disk tensor of a name that is in its file leaves the file alone, reports that it existed and shows the stored elements; of a new name it adds zeros of the requested extents and nothing else; the same holds for a disk tensor made like an existing tensor.", "quantifier": "every file contents, name, extents, chunk sizes and selection", "why_tests_cant": "Ranges over file contents and extents; no test makes a disk tensor of a name that already exists or uses a second file.", "anchors": ["src/include/einsums/Tensor.hpp: DiskTensor constructors, DiskTensor::operator()", "src/State.cpp: data"]}
{"id": "C118", "title": "Tiled matrix times vector", "statement": "The product of a tiled matrix with a vector gives alpha * op(A) * x + beta * y exactly as if the matrix were dense, with missing tiles counting as zeros and tiles of size zero contributing nothing, however the threads share and order the products of tiles; the matrix, x and all other memory stay as they were.", "quantifier": "every tiling and subset of existing tiles, transposed or not, scalar factors, vector stride, contents and order of the products of tiles", "why_tests_cant": "Ranges over tilings, subsets of tiles and orders; the test uses one full 3 x 3 matrix with alpha 1 and beta 0.", "anchors": ["src/include/einsums/linear_algebra_imp/TiledLinearAlgebra.hpp: gemv"]}
{"id": "C119", "title": "Tiled matrix products by concurrent threads", "statement": "When the threads of a tiled matrix product are interleaved in any way, including the moments at which they create missing tiles of the output, no step fails unless memory runs out, no thread writes the tile of another, a tile whose thread has finished holds its final value alpha * op(A) * op(B) + beta * C, a tile whose thread has not started holds its old value, every thread finishes after a bounded number of its own steps, and memory in use outside the output is unchanged.", "quantifier": "every interleaving of the threads' steps, tiling, subsets of existing tiles, transposition flags, factors and contents", "why_tests_cant": "Ranges over all interleavings; a test run sees one schedule.", "anchors": ["src/include/einsums/linear_algebra_imp/TiledLinearAlgebra.hpp: gemm", "src/include/einsums/TiledTensor.hpp: tile, has_tile, lock, unlock"]}
{"id": "C120", "title": "Null space of a matrix", "statement": "svd_nullspace returns an orthonormal basis of the null space of the matrix: as many rows as the dimension of the null space, each mapped to zero by the matrix, every vector of the null space a combination of them; the matrix stays as it was.", "quantifier": "every m x n matrix, leading stride and contents, and everything LAPACK may return under its contract", "why_tests_cant": "Quantifies over all matrices and all vectors of the null space; the overflow of one element is usually not noticed by a test.", "anchors": ["src/include/einsums/LinearAlgebra.hpp: svd_nullspace", "src/backends/linear_algebra/vendor/Vendor.cpp: GESVD"]}
{"id": "C121", "title": "Sessions of the library", "statement": "After initialize the library can be shut down with any form of finalize and initialised again any number of times; each report lists exactly the regions timed since the initialize before it; nothing of a session stays allocated; timer calls outside a session do nothing.", "quantifier": "every number of sessions, sequence of timer calls inside and outside them, clock readings and form of finalize", "why_tests_cant": "Ranges over histories of sessions; the tests run each form of finalize once.", "anchors": ["src/InitializeFinalize.cpp: initialize, finalize", "src/Timer.cpp: initialize, finalize, report, push, pop"]}
{"id": "C122", "title": "Waiting for the GPU", "statement": "When stream_wait returns, all kernels, BLAS and solver calls the thread queued before it are finished, and when all_stream_wait returns those of all threads; the work of one thread is finished in the order it was queued; skip_next_wait makes exactly the next wait that may be skipped return at once; a waiting thread needs only the device to get out.", "quantifier": "every number of threads, every interleaving of their calls with the work of the device, every assignment of streams", "why_tests_cant": "Ranges over all interleavings of host threads and the device; the bug shows only when the device is slow.", "anchors": ["src/_GPUUtils.hip: stream_wait, all_stream_wait, skip_next_wait, get_stream, set_stream, get_blas_handle, get_solver_handle, initialize"]}
{"id": "C123", "title": "Gauss-Laguerre quadrature", "statement": "gauss_laguerre(n) returns n nodes and n weights such that the sum of w_i p(x_i) is the integral of p(t) exp(-t) over the positive numbers for every polynomial p of degree below 2n; the nodes are the n different roots of the n-th Laguerre polynomial in ascending order; nothing outside the matrix and the vectors it allocates is written.", "quantifier": "every n, every polynomial of degree below 2n, all element types with exact arithmetic, everything LAPACK may return under its contract", "why_tests_cant": "The claim is about all polynomials and all n; a test compares a few nodes with a table.", "anchors": ["src/include/einsums/polynomial/Laguerre.hpp: gauss_laguerre"]}
{"id": "C124", "title": "Iterating over the indices of a tensor in Python", "statement": "TensorIndices(t) gives every index of t once, in row-major order, then StopIteration; a copy of an iterator goes on where the original is and is independent of it; reversed() of it and the keyword reverse give the indices in the opposite order.", "quantifier": "every shape, every program that makes, copies, shares and advances any number of iterators in any order", "why_tests_cant": "Ranges over all shapes and all interleavings of several iterators.", "anchors": ["einsums/utils.py: TensorIndices"]}
{"id": "C125", "title": "Random tensors in Python", "statement": "create_random_tensor fills every element of the new tensor with values of its own from the random function, in row-major order: one value for each element, two real values for each complex element; imaginary parts are dropped for real elements; the function is called once more, first, as a trial; nothing else is written; other data types raise an exception.", "quantifier": "every shape, data type and sequence of values (Python floats, or Python complex numbers) the function gives", "why_tests_cant": "Ranges over all shapes and all sequences of random values.", "anchors": ["einsums/utils.py: create_tensor, create_random_tensor"]}
{"id": "C126", "title": "Timing file chosen in Python", "statement": "The argument given last to set_finalize_arg is passed to finalize when the interpreter exits; False if there was none.", "quantifier": "every sequence of calls", "why_tests_cant": "The value is used only after the test has ended.", "anchors": ["einsums/__init__.py: set_finalize_arg"]}
{"id": "C127", "title": "Sessions on the GPU", "statement": "initialize gives each thread a stream of its own and BLAS and solver handles of its own that use it; finalize releases everything; the two can be repeated any number of times with any number of threads; in a session exactly the waits are skipped that the thread asked to skip in that session; an error reported by the device leaves the library usable.", "quantifier": "every sequence of sessions, number of threads, order of waits and requests to skip, every pattern of failing device calls", "why_tests_cant": "Ranges over all histories of sessions and all points at which a device call can fail.", "anchors": ["src/_GPUUtils.hip: initialize, finalize, skip_next_wait, stream_wait, get_stream"]}
{"id": "C128", "title": "Sorting on the GPU through LibreTT", "statement": "sort of device tensors with LibreTT sets C to cp times its old contents plus ap times A with its axes permuted and touches nothing else.", "quantifier": "every rank, permutation of the axes, extents, prefactors, contents", "why_tests_cant": "Ranges over all shapes and permutations, including those LibreTT refuses.", "anchors": ["src/include/einsums/DeviceSort.hpp: sort", "src/DeviceSort.hip: gpu_sort"]}
{"id": "C129", "title": "einsum with different element types", "statement": "einsum of tensors A, B and C of different element types sets C to cp times its old contents plus ab times the sum of products, in the type of C, with the prefactors as given.", "quantifier": "every triple of element types, labels, views, prefactors, contents, number of threads and schedule", "why_tests_cant": "Ranges over all combinations of types, prefactors, index lists and schedules.", "anchors": ["src/include/einsums/tensor_algebra_backends/Dispatch.hpp: einsum", "src/include/einsums/tensor_algebra_backends/GenericAlgorithm.hpp: einsum_generic_algorithm"]}
{"id": "C130", "title": "Sums of squares", "statement": "sum_square of a vector or strided view replaces scale and sumsq so that scale^2 * sumsq grows by the sum of the squared magnitudes of the elements, each counted once.", "quantifier": "every extent, stride, contents, start values of scale and sumsq", "why_tests_cant": "Ranges over all sizes and strides, including those no test can allocate.", "anchors": ["src/include/einsums/LinearAlgebra.hpp: sum_square", "src/include/einsums/linear_algebra_imp/BaseLinearAlgebra.hpp: sum_square"]}
{"id": "C131", "title": "Python einsum on buffer objects", "statement": "plan.execute(C_prefactor, C, AB_prefactor, A, B) works on the elements of the three buffer objects where the buffer protocol puts them, for all strides, also negative ones, with the prefactors converted to the data type; a result that may not be written, different data types, data types other than the four of einsum, and prefactors that do not convert raise an exception before anything is written.", "quantifier": "every buffer object (format, address, shape, byte strides), every prefactor, every index pattern", "why_tests_cant": "Ranges over all byte strides, addresses and formats.", "anchors": ["src/python/PyTensorAlgebra.cpp: PyEinsumGenericPlan::execute, PyEinsumDotPlan::execute, PyEinsumDirectProductPlan::execute, PyEinsumGerPlan::execute, PyEinsumGemvPlan::execute, PyEinsumGemmPlan::execute", "src/include/einsums/python/PyTensorAlgebra.hpp: execute_generic, execute_imp"]}
{"id": "C132", "title": "Tiles by coordinates", "statement": "tile(coordinates) gives the tile at the addressed position for every spelling (negative coordinates count from the end): the tile has the extents of its position and the tensor's elements; on a tensor that may change a missing tile is created, filled with zeros, in memory nothing else uses, and nothing else changes; on a constant tensor a missing tile, and on both coordinates outside the grid, raise an exception.", "quantifier": "every tiled tensor, every subset of existing tiles, every coordinate tuple, every allocator", "why_tests_cant": "All grids, tile subsets and coordinates.", "anchors": ["src/include/einsums/TiledTensor.hpp: tile (168-268), add_tile (892-908)"]}
{"id": "C133", "title": "Hash of a container", "statement": "container_hash gives equal containers equal hashes, as the map of tiles needs, every hash is below 2^56, and different containers get different hashes as far as their bytes fit.", "quantifier": "every container, every element representation", "why_tests_cant": "Ranges over all containers.", "anchors": ["src/include/einsums/utility/HashFuncs.hpp: container_hash (20-54)", "src/include/einsums/TiledTensor.hpp: map_type (43)"]}
{"id": "C134", "title": "Scaling a tiled tensor", "statement": "scale(alpha, &A) on a tiled tensor multiplies every element by alpha, those of missing tiles (zeros) included, whichever tiles exist; no tile is created or removed and no other memory changes.", "quantifier": "every tiled tensor, every subset of existing tiles, every factor", "why_tests_cant": "All grids, tile subsets and factors.", "anchors": ["src/include/einsums/linear_algebra_imp/TiledLinearAlgebra.hpp: scale (350-356)"]}
