# Formal model of Einsums in Rocq (Coq 8.16.1)

The source in `/repo` is read as text; nothing is compiled or run.  The model is
a set of total, computable Gallina functions written after the C++ functions,
one by one.  Every definition of a model file carries a comment with the file
and lines it models and the simplifications made.  Paths below are relative to
`/repo/src/include/einsums`.

## 1. Layout

| file | content |
|---|---|
| `Base.v` | element operations record `Ops`, ring laws as a predicate, finite sums, index sets (`inb`, `indices`) |
| `Heap.v` | memory (partial map address -> element), descriptors, outcomes `Ok/Throw/UB`, sequential loops |
| `Conc.v` | threads: programs of single memory accesses, pools, all interleavings, the lemmas for data-race-free pools |
| `Num.v` | concrete element types for examples: rationals, C++ int, IEEE binary64 (stdlib `SpecFloat`) |
| `M_*.v` | model of one area of the code (definitions only) |
| `S_*.v` | specification of one area (small, independent of the model's helpers) |
| `L_*.v` | lemmas about the model |
| `T_*.v` | property theorems (`Cxx_...`), the concrete cases beside them, and `Print Assumptions` |

Theorem names: `Cxx_name` is a property proved as stated, `Cxx_name_partial`
the proved part of a property (its comment and the manifest say what is
missing), `Cxx_name_refuted` a computed witness that the property is false of
the code in the excluded case.

## 2. Trusted base

* Coq's kernel, and the reading of the C++ text: that each definition of an
  `M_*.v` file does what the cited lines do, under the simplifications written
  in its comment.
* `Print Assumptions` prints "Closed under the global context" for every theorem
  of the manifest except two, `C34_arange_double_partial` and
  `C35_fftfreq_double` (and those listed with axioms in the table of section 5):
  they are about IEEE doubles and use Flocq, hence the
  real numbers of the standard library and its axioms
  `ClassicalDedekindReals.sig_not_dec`, `ClassicalDedekindReals.sig_forall_dec`,
  `FunctionalExtensionality.functional_extensionality_dep`,
  `Classical_Prop.classic`.  No axiom of another library is used, and none is added here.
* No theorem depends on `vm_compute` on open terms; refutations and cases are
  computed on literals.
* External code, represented by functions with the published meaning:
  BLAS `gemm gemv ger scal axpy axpby dot` on column-major memory, with XERBLA's
  argument checks as `Throw` (M_Blas, S_Blas); HPTT's transposition (M_Sort);
  HDF5 hyperslab reads and writes (M_Disk); LAPACK `getrf` as an oracle with the
  pivots it returns (M_Blas, C24); `std::map` and `std::vector` as lists/finite
  maps; the other LAPACK routines as a record of arbitrary functions (M_Lapack),
  with what the LAPACK documentation promises about one call stated in S_Lapack and
  assumed as a hypothesis of each theorem (C56-C64); `std::mutex` as "each timer call is one step"; `operator new` as any
  function that returns unused cells or fails.

## 3. Modelling decisions

* **Elements.**  `Ops` is a record of an arbitrary carrier with 0, 1, +, *, -,
  unary minus, / and `==`, with *no* laws.  Theorems that reassociate sums
  assume `is_ring O` (commutative ring, Leibniz equality); C45 and the claims on
  polynomials a field of characteristic 0.  Theorems about which cells are
  written, about schedules or about overwriting need no laws and therefore also
  cover IEEE values and NaN.  Rounding is modelled only where a property is
  about it (C34, C35, the inferred extents of C54).
* **Memory.**  `heap := Z -> option T`; `None` is "not allocated".  A tensor, view
  or matrix is a descriptor (base address, extents, strides) in one heap, so
  aliasing, strides and overruns are expressible.  An access to an unallocated
  cell is the outcome `UB`; theorems conclude `Ok ...`, so the absence of
  out-of-bounds accesses is part of each statement.  Exceptions are the
  outcome `Throw`.  `assert` is off (release builds).
* **Integers.**  Indices, extents and strides are `Z`; 32/64-bit wrap-around is modelled
  where it matters for the outcome (`size()`, int loop counters of reductions and of
  the generic algorithm, unsigned run-time slices, int indices of function
  tensors); otherwise its absence is stated as a simplification or a hypothesis.
* **Compile-time indices** are `nat` labels; tuple metafunctions become list functions.
* **Threads.**  An OpenMP loop is a pool of programs, one per thread, for *any*
  distribution of the iterations over any number of threads, run under *any* interleaving of
  single memory accesses (`Conc.v`); a data race is an outcome to be excluded.  Loops whose bodies are whole
  dense calls on disjoint memory (blocks, tiles) run in any order
  (`forM order` for every permutation); nested parallel regions run on the
  calling thread (OpenMP's default of one active level).
* **Contents.**  `holds h d f`: the descriptor's element at every index in range is `f index`.
  Specifications are functions of such `f`s: Einstein sums over label environments,
  matrix products, dense meaning of block-diagonal and tiled tensors.

## 4. What is modelled, area by area

| area | modelled | not modelled |
|---|---|---|
| Addressing (`M_Addr`): Tensor.hpp, utility/IndexUtils.hpp, utility/TensorIterator.hpp | constructors, strides, subscripts (static, container, run-time), `size()`, slices, views of views, the view constructor, `to_rank_1_view`, reshape, iterators, `resize` | names, printing, HDF5 interface of Tensor.hpp |
| Tensors as values (`M_Value`): Tensor.hpp constructors, copy, `operator=`, `resize`, destruction | programs over any number of tensor variables; `std::vector` with an arbitrary allocator | vector capacity; indeterminate extents of a default-constructed tensor are arbitrary numbers |
| Buffers (`M_Alloc`): src/Memory.cpp, AlignedAllocator of STL.hpp | allocate, deallocate, max_size, histories of buffers | posix_memalign and free (any functions within their contracts) |
| Element-wise (`M_Elt`): Tensor.hpp operators, copies | scalar/tensor `OP=`, fills, view copies and assignments, thread chunks | SIMD |
| Generic einsum (`M_Einsum`): tensor_algebra_backends/GenericAlgorithm.hpp, _TensorAlgebraUtilities.hpp | the whole algorithm, index-set metafunctions | mixed element types: `M_Mixed` |
| einsum with mixed element types (`M_Mixed`): tensor_algebra_backends/Dispatch.hpp, GenericAlgorithm.hpp | conversion of the prefactors, the generic algorithm with any conversions and mixed operations | the rounding of particular C++ conversions (a parameter; exactness is a hypothesis) |
| BLAS wrappers (`M_Blas`): linear_algebra_imp/BaseLinearAlgebra.hpp, LinearAlgebra.hpp | gemm, gemv, ger, scale, axpy, axpby, dot, dot3, direct_product, scale_row/column, symm_gemm, determinant | - |
| Sums of squares (`M_SumSq`): LinearAlgebra.hpp, linear_algebra_imp/BaseLinearAlgebra.hpp | sum_square, the elements lassq looks at | lassq itself (any function within its contract) |
| LAPACK drivers (`M_Lapack`, `M_Trunc`): LinearAlgebra.hpp, linear_algebra_imp/BaseLinearAlgebra.hpp, /repo/src/backends/linear_algebra/vendor/Vendor.cpp | gesv, getrf, getri, invert, syev, pow, norm, svd, svd_dd, qr, q, solve_continuous_lyapunov, geev (complex, and real in `M_Geev`), truncated_svd, truncated_syev, heev: which memory reaches LAPACK, transpositions, leading dimensions, error codes | the numerical results of LAPACK (arbitrary functions with the contracts of S_Lapack and S_Trunc as hypotheses), svd_nullspace, pseudoinverse (does not compile) |
| Null space (`M_Null`): LinearAlgebra.hpp svd_nullspace, Vendor.cpp gesvd with jobu = 'N' | the buffers and their sizes, the LAPACK call, scaling of the rows | the count of singular values above 1e-12 and the view made from it (not used by the code) |
| Dispatch (`M_Dispatch`): tensor_algebra_backends/Dispatch.hpp | choice of path and every CPU path for dense operands | hipBLAS paths, mixed precision |
| sort (`M_Sort`, `M_BlockSort`): Sort.hpp, ContainerSort.hpp | HPTT and loop paths, axpby shortcut; block tensors | sort of tiled tensors (does not compile: a template argument of get_grid_ranges_for_many cannot be deduced) |
| Reductions (`M_Red`): ElementOperations.hpp | sum, max, min, new-tensor maps | |
| Maps (`M_Elem`): tensor_algebra_backends/ElementTransform.hpp | element, element_transform on dense and block tensors | device versions |
| Blocks (`M_Block`, `M_BlockEinsum`, `M_BlockArith`, `M_BlockLapack`): BlockTensor.hpp, linear_algebra_imp/BlockLinearAlgebra.hpp, tensor_algebra_backends/BlockAlgebra.hpp | bookkeeping, access, conversion, scalar and tensor `OP=`, fills, gemm, scale, axpy, axpby, dot, row/column scaling, direct product, einsum with block or scalar result, syev, gesv (also its shared `info_out`), invert, pow | dense-result einsum, gemv, geev, three-operand dot (do not compile), heev, GPU |
| Tiles (`M_Tiled`, `M_TileEinsum`): TiledTensor.hpp, linear_algebra_imp/TiledLinearAlgebra.hpp, tensor_algebra_backends/TileAlgebra.hpp | tile lookup, histories of accesses and updates, assignment, `+=`/`-=`, conversion, gemm, dot, true_dot, direct product, einsum with tiled or scalar result | TiledTensorView (insert_tile needs a default constructor that TensorView does not have, so no such view ever has a tile) |
| Threads over tiles (`M_TileConc`): gemm and gemv of TiledLinearAlgebra.hpp | gemm step by step for every interleaving of its threads; gemv with plain vectors, every order of the products of tiles | interleavings inside one step (steps of different threads write different tiles, C119_own_tile), gemv with tiled vectors and ger (do not compile) |
| Blocks and tiles together (`M_MixEinsum`): tensor_algebra_backends/BlockTileAlgebra.hpp, linear_algebra_imp/BlockTiledLinearAlgebra.hpp | einsum and direct_product on mixed operands | mixed gemm, dot, true_dot (use members that do not exist, so no call compiles) |
| Utilities (`M_Util`, `M_Create`): Utilities.hpp, STL.hpp, polynomial/Utilities.hpp | arange, fftfreq, circular buffer, incremented/identity/ones/diagonal tensors, random tensors, random (semi)definite matrices, get_domain | divmod, `Normalize` option of random tensors |
| Timer (`M_Timer`): src/Timer.cpp | push/pop/initialise/finalise tree | text report |
| Sessions (`M_Life`): src/InitializeFinalize.cpp, src/Timer.cpp | initialize, all forms of finalize, timer calls, lost trees | the GPU part, BLAS and HDF5 initialisation, text of the report |
| Streams (`M_Stream`): src/_GPUUtils.hip | streams and handles by thread, set_stream, skip_next_wait, both waits, the device working streams off in order | the wait on a given stream, set_blas_handle, the memory pool; kernels are assumed asynchronous and streams non-blocking |
| GPU sessions (`M_GpuLife`): src/_GPUUtils.hip | initialize, finalize, skip_next_wait, stream_wait, failing HIP calls, the mutex | all_stream_wait and set_stream with errors, events as resources, the properties of the pool |
| Sections and strings (`M_Section`): src/Section.cpp, Section.hpp, STL.hpp | Section objects in nested scopes with exceptions and `end()`, trim | VTune/domain hooks, locales other than C |
| Printing (`M_Print`): src/Print.cpp, Print.hpp | splitting into lines, indentation, the mutex and its interleavings, number of digits | format strings (fmt), the text of the thread header |
| Fourier (`M_Fft`): src/FFT.cpp, src/backends/fft/fftw3/fft.cpp | fft and ifft wrappers, complex and real | MKL backend; FFTW by its documentation over exact arithmetic |
| Fold (`M_Fold`): Unfold.hpp, KhatriRao.hpp | unfold, khatri_rao | |
| Disk (`M_Disk`): DiskTensor and DiskView of Tensor.hpp | open, read, write back, assignment | HDF5 file format |
| Files (`M_Store`): write, read and the DiskTensor constructors of Tensor.hpp, H5.hpp, State.cpp | whole and partial writes, reads, creation and opening of data sets, several files, histories mixed with disk views | HDF5 and h5cpp (documented meaning), element conversions, reading with another rank, write of a TensorView (does not compile) |
| Function tensors (`M_Fun`): FunctionTensor.hpp | evaluation, views, conversion, Kronecker delta | |
| Linear algebra on function tensors (`M_Generic`): linear_algebra_imp/UnoptimizedLinearAlgebra.hpp | dot, true_dot, gemm, gemv, ger, direct_product | scale (no writable tensor type of the library is accepted) |
| Decompositions (`M_Decomp`): Decomposition.hpp | validate_cp_rank, norm, rmsd, weight_tensor, parafac_reconstruct, tucker_reconstruct, the core tensor of tucker_ho_svd | see the next two rows |
| Alternating least squares (`M_Als`): Decomposition.hpp | the iterations of parafac and weighted_parafac on tensor values: each library call stands for the value its own property gives it (C39, C47, C56, C70) | memory (tensors are values here); the relative error and its test are arbitrary functions |
| Tucker iterations and starting factors (`M_Tucker`): Decomposition.hpp | initialize_tucker, tucker_ho_svd, tucker_ho_oi, initialize_cp on tensor values; singular vectors and eigenvectors from functions with the contracts of `S_Tucker` | memory; folds given by the caller with other row counts; NaN |
| GPU backend wrappers (`M_HipBlas`): backends/linear_algebra/hipblas/hipblas.hip, hipsolver.hip | allocation, copies, launch, copy back, release of gemm, gemv, scal, dot, axpy, ger, syev/heev, gesv, getrf; failing calls; hipBLAS/hipSOLVER as reference-semantics functions on device memory (column-major) | int overflow; contents of pivot arrays; pointer mode of the handle; asynchrony of launches |
| Lazy arithmetic (`M_Arith`): ArithmeticTensor.hpp | expression trees, dangling stored expressions, assignment | |
| Run-time tensors (`M_Runtime`): RuntimeTensor.hpp | subscripts, slices, copies, assignments | GPU |
| Run-time tensors from Python (`M_PyTensor`): PyTensor.hpp, RuntimeTensor.hpp | getitem/setitem, buffer import/export, in-place operators, overload choice for Python numbers, iterators, reshaped views | methods overridden in Python subclasses, lifetimes (keep-alive), partially overlapping items in a buffer (memory maps byte addresses of items to values); pybind11 conversions by their documentation |
| Python part (`M_PyUtils`): einsums/utils.py, einsums/__init__.py | TensorIndices, create_tensor, create_random_tensor, set_finalize_arg | random functions giving NumPy numbers, import of the module |
| Einsum plans from Python (`M_PyEinsum`): PyTensorAlgebra.cpp/.hpp | index analysis, choice of plan, execution of the six CPU plans on strided buffers, OpenMP loops under every schedule | dtype dispatch and conversion of prefactors (`M_PyCall`), GPU plans except the dot kernel (`M_Gpu`); BLAS by reference semantics |
| hash of containers (`M_Hash`): src/include/einsums/utility/HashFuncs.hpp | container_hash | size_t other than 64 bits |
| einsum on Python buffers (`M_PyCall`): src/python/PyTensorAlgebra.cpp, PyTensorAlgebra.hpp | execute of the six plans on buffers: data types, prefactors, byte strides, contiguity test | pybind11 conversions (any function), buffers for the GPU |
| Sorting through LibreTT (`M_Librett`): DeviceSort.hpp, src/DeviceSort.hip | sort of device tensors built with LibreTT, refused plans | LibreTT itself (documented meaning), plans that are never destroyed |
| GPU kernels (`GpuConc`, `M_Gpu`): tensor_algebra_backends/GPUTensorAlgebra.hpp, linear_algebra_imp/GPULinearAlgebra.hpp, gpu/*.hpp, DeviceSort.hpp, _GPUUtils.hpp | grids of blocks of threads with barriers and atomic additions under every interleaving; launch sizes; einsum, dot, true_dot, symm_gemm, sort, element-wise, direct_product, axpby and one-block reduction kernels | streams, transfers and allocation, hipBLAS/hipSOLVER/LibreTT, reductions with several blocks, block and tiled device tensors, mixed element types, weak memory (interleaving semantics) |
| Device linear algebra (`M_GpuLin`): linear_algebra_imp/GPULinearAlgebra.hpp, GPULinearAlgebra.hip | gemm, gemv, ger, scale, axpy, axpby, scale_row, scale_column, gesv (both vendors), syev, pow, as sequences of library calls and launches; hipBLAS/hipSolver by reference semantics | streams (every call is followed by a wait), pointer mode of hipBLAS (never set in the code although device pointers are passed; taken to be device mode), complex pow |
| GPU views of Python buffers (`M_GpuView`): python/PyGPUView.hip, python/PyGPUView.hpp | constructor in both modes, destructor, update_H2D, update_D2H, the list of mappings, the strides of views of device tensors; host and device memory byte by byte; hipHostRegister, hipMalloc, hipMemcpy by their documentation | running out of memory, page granularity of registration, the Python bindings around them |
| Device tensors and their memory (`M_DevMem`): gpu/DeviceTensor.hpp, DeviceTensor.hpp, gpu/DeviceTensorView.hpp | constructors, destructor, resize, assignment from device and host tensors, set_all, read, write, element access, the copy constructor and destructor of views, for ranks above 0; blocks of memory with their kind; kernels one element after the other (C107 covers schedules) | rank 0, construction and assignment from views and other element types, running out of memory, the unused mode argument of the copy constructor |
| Polynomials (`M_Laguerre`, `M_Infer`, `M_Gauss`): polynomial/Laguerre.hpp | value, derivative, companion, gauss_laguerre | weight (exp); rounding; max(abs(v)) is any function that is nonzero on vectors other than zero |
| Views with an inferred extent (`M_Infer`): Tensor.hpp 1377-1385 | the extent computed in binary32 (standard library SpecFloat) | - |

Not expressible here: floating-point error bounds, wall-clock values of timers,
the numerics inside LAPACK, hipBLAS/hipSOLVER and host-device transfers, the HDF5 file format,
random number distributions, format strings, C++ overload resolution and
template instantiation failures (the latter are noted where a function was
found not to compile).

## 5. Properties

For each property: status, theorems (with the file that contains them), what they cover and what is missing.
All are closed under the global context unless axioms are listed.

### C01 Row-major addressing is a bijection (proved)

For a freshly constructed dense tensor, the element addresses of its multi-indices are exactly 0..size()-1, each used once: distinct in-range indices never share a storage cell, every cell belongs to exactly one index, and converting a flat position to indices and back (and vice versa) is the identity.

* `T_Addr.v`: `C01_row_major_bijection`, `C01_flat_position_roundtrip`
* `T_TileScale.v`: `C01_pointer_view`

Addresses of a constructed tensor: bijection with [base,base+size), lexicographic order; flat position conversions inverse.

### C02 Element read/write law (proved)

Writing an element through operator() (indices in [-d, d)) succeeds inside the buffer, reading the same element (also via its non-negative or negative spelling) returns the value, and no other element of the tensor or any other memory changes.

* `T_Addr.v`: `C02_read_write`, `C02_constructed_tensor_ok`

For every allocated injective descriptor (tensors and views) and every spelling of indices.

### C03 Checked indexing rejects exactly the bad indices (proved)

Element access on run-time tensors returns the element when every index lies in [-d, d) and throws otherwise; the container-index accessors of static tensors throw exactly when the number of indices differs from the rank and otherwise address the wrapped indices; a throwing call touches no memory.

* `T_Addr.v`: `C03_checked_subscript`, `C03_container_subscript`, `C03_container_range_refuted`

Run-time tensors and container accessors. The static container accessor does not check ranges: C03_container_range_refuted.

### C04 Slicing denotes the selected sub-block (partial)

A view made by T(args...) with a mix of All, Range and integer arguments has one dimension per non-integer argument, its element (j1,..) is the parent element obtained by fixing integer positions and adding each Range start, so reads and writes through the view are reads and writes of those parent elements and of no others.

* `T_Addr.v`: `C04_slice_partial`, `C04_all_ranges`, `C04_slice_refuted`

False when an integer argument precedes a Range (C04_slice_refuted); proved for all other argument lists and for all-Range slices.

### C05 View of a view composes (proved)

Taking an offset/extent sub-view of a view gives the same elements as the single sub-view of the original tensor with the offsets added; a view never addresses memory outside its parent when its offsets and extents fit.

* `T_Addr.v`: `C05_view_of_view`

Offset/extent views compose; contained in the parent.

### C06 Reshape preserves the element sequence or is rejected (partial)

Moving a tensor into new extents keeps the row-major sequence of elements and the element count; a single -1 extent is inferred; shapes whose product differs from the element count, or with two -1, are rejected with an exception.

* `T_Addr.v`: `C06_reshape_partial`, `C06_reshape_refuted`

Proved except a -1 together with a zero extent, where the code divides by zero (C06_reshape_refuted).

### C07 size() is the number of elements (partial)

size() of a tensor or view equals the product of its extents.

* `T_Addr.v`: `C07_size_partial`, `C07_size_refuted`

Proved below 2^31 elements; the int accumulator wraps above (C07_size_refuted).

### C08 Element-wise updates do not depend on the thread count (proved)

The chunked OpenMP loops used for +=, -=, *=, /= with a scalar or a tensor update each element exactly once, for every number of threads and every interleaving, so the result equals the sequential element-wise operation.

* `T_Addr.v`: `C08_scalar_update`, `C08_tensor_update`, `C08_size_mismatch_throws`, `C08_view_update`, `C08_aliased_scalar_refuted`

All thread counts, all interleavings of single memory accesses. Needs the scalar not to be an element (C08_aliased_scalar_refuted).

### C09 Copying a view captures its elements and detaches from it (proved)

Constructing or assigning a tensor from a view yields a tensor whose element at every index equals the view's, stored in fresh storage, so later writes to either are invisible to the other.

* `T_Addr.v`: `C09_copy_from_view`, `C09_assign`

Copy construction, assignment sequential and parallel.

### C10 Forward iteration visits every element once in row-major order; stepping back undoes stepping forward (partial)

Starting at begin() and applying ++ size() times visits all multi-indices in row-major order and ends one past the last (first index = dim(0), others 0); -- is the inverse of ++.

* `T_Addr.v`: `C10_iterator_partial`, `C10_decrement_refuted`, `C10_decrement_no_borrow`

++ enumerates in row-major order; -- does not undo a ++ that carried (C10_decrement_refuted).

### C11 einsum computes the Einstein sum (reference path) (partial)

einsum(c, C-indices, &C, ab, A-indices, A, B-indices, B) stores in every element of C the value c*C + ab*sum over all values of the contracted indices of A*B, with every label taking a single value, touching no memory outside C and reading only inside A and B.

* `T_Einsum.v`: `C11_einsum_generic_partial`, `C11_repeated_link_refuted`

Generic path, any schedule. False when a contracted label is repeated inside A or B (C11_repeated_link_refuted).

### C12 A zero C-prefactor overwrites C (partial)

When the C prefactor is zero the previous contents of C do not influence the result of einsum, even when they are NaN or uninitialised.

* `T_Dispatch.v`: `C12_zero_prefactor_fast_paths_partial`, `C12_dot_refuted`, `C12_outer_refuted`
* `T_Einsum.v`: `C12_zero_prefactor_generic_partial`

Reference, matrix-matrix, matrix-vector and element-wise paths: C's old contents never matter, law-free (NaN covered). False for the dot and outer-product paths (C12_dot_refuted, C12_outer_refuted) and for an empty contraction on the BLAS paths (C13_empty_sum_refuted).

### C13 The GEMM fast path agrees with the reference sum (partial)

Whenever the index classification selects the matrix-matrix path, the result equals the Einstein sum: same elements written, same values.

* `T_Dispatch.v`: `C13_gemm_partial`, `C13_batch_refuted`, `C13_broadcast_refuted`, `C13_empty_sum_refuted`

Every accepted index pattern without batch or broadcast labels. False with a batch label (C13_batch_refuted), a label only in C (C13_broadcast_refuted), an empty contraction (C13_empty_sum_refuted).

### C14 The GEMV fast path agrees with the reference sum (partial)

Whenever the classification selects the matrix-vector path, the result equals the Einstein sum.

* `T_Dispatch.v`: `C14_gemv_partial`, `C14_broadcast_refuted`, `C14_empty_sum_refuted`

Every accepted pattern; false with a label only in C (C14_broadcast_refuted) and for an empty contraction (C14_empty_sum_refuted).

### C15 The outer-product fast path agrees with the reference sum (partial)

Whenever the classification selects the rank-one-update path, the result equals the Einstein sum.

* `T_Dispatch.v`: `C15_outer_partial`, `C15_interleaved_refuted`, `C15_strided_result_refuted`

C listing A's labels then B's or the reverse, C contiguous. False for interleaved labels (C15_interleaved_refuted) and strided C (C15_strided_result_refuted).

### C16 The dot-product and element-wise fast paths agree with the reference sum (proved)

Whenever all indices of A and B coincide and C is a scalar, or all three index lists coincide, the fast path result equals the Einstein sum.

* `T_Dispatch.v`: `C16_elementwise`, `C16_dot`

Dot path for every layout of A and B; element-wise path for every thread schedule.

### C17 einsum is deterministic under any parallel schedule (proved)

The parallel loop of the generic contraction gives the same C for every order in which target elements are processed.

* `T_Einsum.v`: `C17_schedule_independent`

Same result for every distribution of targets over threads and every interleaving of memory accesses.

### C18 sort permutes exactly as the index strings say and is invertible (partial)

sort(uc, C-indices, &C, ua, A-indices, A) sets each element of C to uc*C + ua*A at the correspondingly permuted index; sorting back with the inverse permutation restores the original.

* `T_Sort.v`: `C18_sort_partial`, `C18_sort_inverse`, `C18_view_refuted`

All ranks, permutations, prefactors, schedules, with or without HPTT, and inverse. False without HPTT when the index lists are equal and an operand is a strided view (C18_view_refuted).

### C19 GEMM wrapper computes the row-major product for every layout (partial)

gemm<TransA,TransB>(alpha,A,B,beta,&C) on row-major matrices with arbitrary leading strides sets each C(i,j) to alpha*sum op(A)(i,p)op(B)(p,j)+beta*C(i,j) and changes nothing else, including for empty contraction ranges.

* `T_Blas.v`: `C19_gemm_partial`, `C19_empty_sum_refuted`, `C19_column_stride_refuted`

All sizes, flags, leading strides; false for k = 0 with beta != 1 (C19_empty_sum_refuted) and for views with column stride != 1 (C19_column_stride_refuted).

### C20 GEMV and GER wrappers compute the row-major operations (partial)

gemv and ger on row-major matrices compute y = alpha*op(A)x + beta*y and A = A + alpha*x*y^T for every stride, changing nothing else; ger rejects invalid arguments.

* `T_Blas.v`: `C20_gemv_partial`, `C20_empty_sum_refuted`, `C20_ger`, `C20_ger_rejects`

gemv false for an empty sum with beta != 1 (C20_empty_sum_refuted); ger fully proved.

### C21 scale / axpy / axpby touch exactly the elements of their target (partial)

scale(a,&A), axpy(a,X,&Y) and axpby update each element of the target tensor or view once and leave all other memory unchanged.

* `T_Blas.v`: `C21_scale_partial`, `C21_axpby_partial`, `C21_scale_refuted`, `C21_axpy_refuted`

Contiguous operands; false for strided views (C21_scale_refuted, C21_axpy_refuted).

### C22 scale_row and scale_column touch exactly one row or column (proved)

scale_row(i,a,&A) and scale_column(j,a,&A) multiply exactly row i / column j by a.

* `T_Blas.v`: `C22_scale_row_column`

All strides, all rows and columns.

### C23 dot equals the sum of products for every layout (partial)

dot(A,B) equals the sum over all multi-indices of A*B for contiguous tensors and for arbitrary strided views, and for the three-operand form the sum of A*B*C.

* `T_Blas.v`: `C23_dot`, `C23_dot3_partial`, `C23_dot3_refuted`

Two-operand dot proved for all layouts; three-operand form false for strided views (C23_dot3_refuted).

### C24 Determinant (partial)

det(A) terminates and returns the determinant obtained from the LU factors (product of the diagonal of U times the sign of the row interchanges).

* `T_Blas.v`: `C24_det_terminates_iff_no_interchange`, `C24_det_partial`, `C24_det_value_refuted`, `C24_singular`, `C24_det_termination_refuted`

False: never terminates as soon as LAPACK exchanges a row (C24_det_terminates_iff_no_interchange), and multiplies the diagonal of A instead of U (C24_det_value_refuted). Right for lower triangular matrices.

### C25 Block ranges always tile the diagonal (partial)

After any sequence of block insertions (front/middle/end) and resizes, the block ranges are consecutive, non-overlapping, start at 0, end at dim(0), and block_of(i) returns the unique non-empty block containing i (throwing out of range).

* `T_Block.v`: `C25_ranges_partial`, `C25_stale_refuted`, `C25_insert`

Proved after every history whose last operation refreshes the bookkeeping, or without in-place resizes. C25_stale_refuted: block(i).resize() leaves the intervals stale.

### C26 A block tensor reads as the block-diagonal dense tensor (partial)

Element access returns the block's element when all indices fall in the same block and 0 otherwise, and conversion to a dense tensor agrees with element access everywhere.

* `T_Block.v`: `C26_read`, `C26_write`, `C26_out_of_range`, `C26_const_read_partial`, `C26_const_offblock_refuted`, `C26_to_dense`

Non-const access, writes and dense conversion (all thread interleavings) proved; const access proved inside blocks. C26_const_offblock_refuted: const access outside the blocks returns a dangling reference.

### C27 Block-wise GEMM equals dense GEMM (proved)

gemm on block tensors with equal block structure equals the dense gemm of the corresponding block-diagonal matrices.

* `T_Block.v`: `C27_gemm`, `C27_gemm_rejects`

All orders of the block loop; per-block gemm is the modelled dense wrapper.

### C28 Tile lookup is total and unique (proved)

tile_of maps every in-range (possibly negative) index to the unique tile whose interval contains it and throws for every other index; the tile intervals partition each axis.

* `T_Tiled.v`: `C28_tile_of`, `C28_partition`

All grids (zero-size tiles included) and all index spellings.

### C29 A tiled tensor behaves like a zero-initialised dense tensor under any history (proved)

For any sequence of element writes, whole-tensor scalings, zero() and tile creations, reading any element gives what a dense zero-initialised tensor subjected to the same sequence would give; missing tiles read as 0.

* `T_Tiled.v`: `C29_history`, `C29_no_spurious_failure`

Writes, tile accesses, scaling, zero(), zero_no_clear(), in any order and with throwing operations; allocator is any function returning unused cells. += and -= with scalars are C32.

### C30 Tiled GEMM equals dense GEMM (proved)

gemm over tiled tensors with compatible grids equals the dense gemm, whichever tiles are present, and every C tile is scaled by beta exactly once.

* `T_Tiled.v`: `C30_gemm`, `C30_rejects`

Any subset of tiles present, zero-size tiles, all transposition flags, any order of the parallel tile loop; the only failure is an exhausted allocator.

### C31 Tiled dot product equals the dense dot product (partial)

dot of two tiled tensors with the same grid is the sum over all elements of the product; different numbers of tiles along an axis raise an exception.

* `T_TileAcc.v`: `C31_dot_rejects`
* `T_Tiled.v`: `C31_dot_partial`, `C31_true_dot_partial`, `C31_dot_refuted`

Proved for grids that read the same backwards (dot) and for vectors / square matrix grids (true_dot), any summation order. Other grids: false, refuted with 1x2 and 2x2x2 grids (strides are stored in reversed places, TiledLinearAlgebra.hpp 26; wrong modulus at 76).

### C32 Tiled whole-tensor updates reach every element (partial)

set_all(v), += v, -= v on a tiled tensor make every element v / increased by v / decreased by v.

* `T_Tiled.v`: `C32_updates_partial`, `C32_updates_refuted`

Proved when all tiles exist (or the scalar is 0). With a missing tile the operations throw: refuted.

### C33 Reductions sum / max / min are exact and schedule independent (partial)

sum(T), max(T), min(T) equal the sum, maximum, minimum over all elements of the tensor or view for every number of threads.

* `T_Red.v`: `C33_sum_partial`, `C33_sum_large_refuted`, `C33_block_sum_partial`, `C33_extremum_partial`, `C33_max_nan_refuted`, `C33_max_large_refuted`, `C33_block_max_refuted`, `C33_block_extremum_partial`

Sum: proved for every layout and every distribution of the iterations over threads for extents whose product is below 2^31, refuted beyond (the element count is an int). Max/min: proved for comparisons that are a weak order on the contents and sizes + threads <= 2^31; refuted with NaN (result depends on the thread count), for large sizes (signed overflow), and for block tensors (off-block zeros are ignored, a tensor with no block is UB).

### C34 arange produces the half-open progression inside its buffer (partial)

arange(start, stop, step) returns start, start+step, ... up to but not including stop, and writes only inside the returned tensor.

* `T_Double.v`: `C34_arange_double_partial`
* `T_Util.v`: `C34_arange_int_partial`, `C34_int_overrun_refuted`, `C34_double_overrun_refuted`
* axioms of `C34_arange_double_partial`: `ClassicalDedekindReals.sig_not_dec`, `ClassicalDedekindReals.sig_forall_dec`, `FunctionalExtensionality.functional_extensionality_dep`, `Classical_Prop.classic`

Proved for int when step divides the span, and for double with integer ends and step 1; refuted otherwise: the element count truncates while the loop runs to stop, so arange(0,10,3) and, in doubles, arange(0,1,0.1) write past the end of the returned tensor.

### C35 fftfreq lists the DFT sample frequencies (proved)

fftfreq(n,d) is [0,1,...,ceil(n/2)-1,-floor(n/2),...,-1]/(n d).

* `T_Double.v`: `C35_fftfreq_double`
* `T_Util.v`: `C35_fftfreq`, `C35_fftfreq_exact`
* axioms of `C35_fftfreq_double`: `ClassicalDedekindReals.sig_not_dec`, `ClassicalDedekindReals.sig_forall_dec`, `FunctionalExtensionality.functional_extensionality_dep`, `Classical_Prop.classic`

Every n >= 1: exact over the rationals; in IEEE doubles (Flocq) each element is the rounded 1/(n d) times the exact integer.

### C36 The circular buffer keeps the most recent entries in order (partial)

After any sequence of push_backs, the buffer contains the last min(n,capacity) pushed values in order of insertion.

* `T_Util.v`: `C36_circular_partial`, `C36_order_refuted`

All observers, for every history of put/reset. operator[] indexes the raw array, so after an overwrite it is not in order of insertion (refuted); the exact position of each value is proved.

### C37 Timers count every completed region under its call path (proved)

For every balanced sequence of push/pop (and for prefixes), the current timer equals the open path, each path's call count is the number of completed push/pop pairs with that path, and children are reported once in first-use order; time is attributed to the region popped.

* `T_Timer.v`: `C37_timers`, `C37_balanced`

Every history of calls by any threads (each call runs under one mutex). Text formatting of the report is not modelled.

### C38 Compile-time index set operations are the set operations (proved)

Intersect, Difference, unique of index tuples compute exactly the indices of the first tuple in / not in the second / without repeats, in order of first occurrence.

* `T_Util.v`: `C38_intersect`, `C38_difference`, `C38_unique`

### C39 Unfold and Khatri-Rao index maps (partial)

unfold<mode> is a bijection between tensor elements and matrix elements with the mode index as the row and the remaining indices in order as the column; khatri_rao(A,B) gives KR((i,m),r)=A(i,r)B(m,r).

* `T_Fold.v`: `C39_unfold`, `C39_khatri_rao_partial`, `C39_khatri_rao_mismatch`, `C39_khatri_rao_order_refuted`, `C39_khatri_rao_empty_refuted`

unfold proved for every rank up to the library's 16 labels, mode, extents, contents and schedule. khatri_rao proved when both label lists end with the common labels in the same order and extents are positive; other label orders give wrong results (C39_khatri_rao_order_refuted) and empty extents throw or divide by zero (C39_khatri_rao_empty_refuted).

### C40 Disk views write back exactly the viewed block (partial)

A read-write disk view's destructor stores exactly its block in the file and nothing else; a read-only view leaves the file unchanged; reading a slice returns that block of the file with the extents requested.

* `T_Disk.v`: `C40_history_partial`, `C40_open_iff`, `C40_unit_slice_refuted`, `C40_assign_throws`, `C40_pointer_readonly_refuted`, `C40_pointer_assignment_lost_refuted`

Histories of opens, element writes, fills, whole-tensor assignments and destructions refine the block semantics when no sliced extent is 1 (C40_history_partial); a selection opens without undefined behaviour exactly when no All/Range has length 1 (C40_open_iff); assignment from a pointer writes through a read-only view and is undone by the destructor of a writable one (refuted).

### C41 Function tensors and their views evaluate at the right indices (partial)

A function tensor evaluated at in-range (possibly negative) indices calls the function with the normalised indices and throws otherwise; a slice view of it evaluates the function at the composed indices.

* `T_Fun.v`: `C41_eval_partial`, `C41_to_tensor`, `C41_wide_index_refuted`, `C41_slice_range_refuted`, `C41_kronecker`

Function tensors, slices, slices of slices: extents, evaluation at the composed indices with negative spellings, throw for int indices out of range (C41_eval_partial); parallel conversion to a tensor (C41_to_tensor); Kronecker delta. Refuted for indices beyond int (wrapped) and for out-of-range integers inside a slice (not rejected).

### C42 Lazy arithmetic expressions evaluate element-wise (partial)

Assigning an expression built from tensors, scalars and + - * / unary minus stores at every index the value of that expression on the operands' elements at that index.

* `T_Arith.v`: `C42_program_partial`, `C42_stored_refuted`, `C42_alias_refuted`, `C42_shape_refuted`

Programs of named expressions and assignments of arbitrary expression trees mean what they say (C42_program_partial), if named expressions are built from lasting operands, operands cover the target's indices and overlap it only as the target itself. Refuted: stored nested expressions dangle; overlapping views; extents are not checked.

### C43 Run-time slicing selects the requested block or throws (partial)

RuntimeTensor slicing with a vector of ranges returns the view of the requested block for in-range (possibly negative) ranges and throws otherwise; copying a strided view to a run-time tensor preserves its elements.

* `T_Runtime.v`: `C43_ranges_partial`, `C43_args_partial`, `C43_chain_partial`, `C43_assign_view`, `C43_from_view`, `C43_into_view`, `C43_negative_range_refuted`, `C43_unit_range_refuted`, `C43_far_index_refuted`, `C43_cast_refuted`, `C43_default_target_refuted`

Slicing run-time tensors and views (vector of ranges, mixed arguments, chains), assignment of views to tensors, construction from a TensorView, assignment into views proved for all shapes and schedules. Refuted: bounds counted from the back, documented Range{a,a}, indices below -d accepted, assignment with element conversion from a strided view, default-constructed target of a rank-0 view.

### C44 Block einsum over block-diagonal operands equals the dense contraction (partial)

einsum on block tensors equals the Einstein sum of the block-diagonal dense tensors for every output kind (block, dense, scalar).

* `T_BlockEinsum.v`: `C44_block_partial`, `C44_structure`, `C44_block_vec_partial`, `C44_vec_block_partial`, `C44_scalar_exact`, `C44_scalar_partial`, `C44_scalar_dot`, `C44_vec_scalar_exact`, `C44_scalar_refuted`, `C44_vector_outer_refuted`, `C44_broadcast_refuted`

Block result: proved for every block structure, thread order and prefactor on the element-wise, matrix, matrix-vector and generic dense paths (path_ok). Scalar result: the exact value is proved; it counts prefactor*C twice unless the dot path is taken (C44_scalar_refuted). Dense results of rank >= 1 do not compile (address of a temporary). Labels that only join through C (C44_vector_outer_refuted, C44_broadcast_refuted) give a result that is not block diagonal and lose elements.

### C45 Laguerre series evaluation and differentiation (partial)

value(x,c) equals the sum of c_k L_k(x), and derivative(c,m) has the coefficients of the m-th derivative of that series.

* `T_Laguerre.v`: `C45_value_partial`, `C45_derivative_partial`, `C45_constant_refuted`

Proved in every field of characteristic 0 for every non-empty coefficient vector, every point vector, order and scale. Missing: rounding; and empty vectors, where it is false: the derivative of a constant is an empty vector, whose evaluation is undefined (C45_constant_refuted).

### C46 symm_gemm computes the congruence product (proved)

symm_gemm<TransA,TransB>(A,B,&C) sets C to op(B)^T op(A) op(B) for all row-major matrices with arbitrary leading strides (inner extent 0 included) and changes only C.

* `T_Blas.v`: `C46_symm_gemm`

Release build (the debug asserts on the extents are stricter); inner extent 0 included.

### C47 einsum computes the Einstein sum whichever algorithm it picks (partial)

A call einsum(cp, indices, &C, ab, indices, A, indices, B) sets every element of C to cp*C + ab*(sum over the labels absent from C of A*B) and changes nothing else, whichever of the dot, element-wise, outer-product, matrix-vector, matrix-matrix or loop algorithms it selects.

* `T_Dispatch.v`: `C47_einsum_partial`

Whole call through the dispatcher, whichever path; the excluded patterns are the refuted ones of C11, C13, C14, C15.

### C48 Block-wise scale, axpy, axpby, dot and row/column scaling equal the dense operations (partial)

On block tensors with the same block structure scale, axpy, axpby, scale_row and scale_column change the block-diagonal dense tensor exactly as the dense operation would, dot returns the sum over all elements of the product, and nothing outside the blocks of the written tensor changes.

* `T_Block.v`: `C48_scale`, `C48_axpby`, `C48_dot`, `C48_dot_dense`, `C48_scale_row`, `C48_scale_column_refuted`

scale, axpy, axpby, dot (equal block structures, and different ones through dense copies), scale_row proved. False: scale_column multiplies elements of other columns (C48_scale_column_refuted).

### C49 has_tile answers the same for every spelling of tile coordinates (partial)

has_tile is true exactly when the addressed tile exists, for every spelling (negative coordinates count from the end) and for both the integer and the container overload; coordinates outside the grid give false.

* `T_Tiled.v`: `C49_has_tile`, `C49_has_tile_container_partial`, `C49_has_tile_container_refuted`

Integer overload proved in full; container overload proved for non-negative coordinates, refuted for negative ones (TiledTensor.hpp 343).

### C50 Assigning a tiled tensor makes an independent copy (partial)

After t = u every element of t equals that element of u before the assignment, u is unchanged and the two share no memory; this includes t = t.

* `T_Tiled.v`: `C50_assign_partial`, `C50_self_assign_refuted`

Proved for distinct tensors; self-assignment empties the tensor: refuted.

### C51 Adding and subtracting tiled tensors is element-wise (proved)

t += u (t -= u) makes every element t[i]+u[i] (t[i]-u[i]) whichever tiles exist in either tensor, leaves u unchanged, and throws exactly on different layouts or exhausted memory.

* `T_Tiled.v`: `C51_add_sub`, `C51_rejects`

Distinct tensors sharing no memory; any tile subsets.

### C52 Converting a tiled tensor to a dense one preserves all elements (proved)

The conversion yields a dense tensor of the full extents whose every element equals the tiled tensor's element (0 in missing tiles); other memory is unchanged.

* `T_Tiled.v`: `C52_to_dense`

Closed under the global context; no law on the element type is used.

### C53 Element-wise maps that return a new tensor (partial)

abs, invert, exp and scale in their new-tensor form return a tensor of the operand's extents whose every element is the function applied to the operand's element at the same index; the operand and all other memory are unchanged, for every number of threads and every distribution of the loop.

* `T_Red.v`: `C53_new_tensor_partial`, `C53_large_refuted`

Proved for every strided operand, every thread count and interleaving while size + threads <= 2^31. Beyond, the int loop counter of some thread overflows (C53_large_refuted, for all sizes below 2^31).

### C54 Inferred extent of a rank-1 view (partial)

A rank-1 view created with the extent -1, an offset o and a stride s refers to exactly the elements number o, o+s, o+2s, ... of its parent, as many as the parent has: none is missed and none lies beyond the parent.  Without arguments, the rank-1 view of a tensor of any rank lists all its elements in row-major order.

* `T_Infer.v`: `C54_contiguous_partial`, `C54_rest_partial`, `C54_flat_partial`, `C54_large_refuted`, `C54_strided_parent_refuted`, `C54_offset_refuted`
* axioms of `C54_contiguous_partial`: `ClassicalDedekindReals.sig_not_dec`, `ClassicalDedekindReals.sig_forall_dec`, `FunctionalExtensionality.functional_extensionality_dep`, `Classical_Prop.classic`
* axioms of `C54_rest_partial`: `ClassicalDedekindReals.sig_not_dec`, `ClassicalDedekindReals.sig_forall_dec`, `FunctionalExtensionality.functional_extensionality_dep`, `Classical_Prop.classic`
* axioms of `C54_flat_partial`: `ClassicalDedekindReals.sig_not_dec`, `ClassicalDedekindReals.sig_forall_dec`, `FunctionalExtensionality.functional_extensionality_dep`, `Classical_Prop.classic`

Proved: contiguous rank-1 parents with any offset and stride, strided rank-1 parents without a Stride argument, and the flat view of a tensor of any rank, each up to 2^24 elements (binary32 arithmetic proved exact there, against Flocq). False of the code: beyond 2^24 elements the extent is rounded; a Stride on a strided parent and an Offset on a parent of higher rank give a wrong extent (three refutations).

### C55 Companion matrix of a Laguerre series (partial)

companion(c) returns the square matrix of order degree(c) of which every root of the series c is an eigenvalue; fewer than two coefficients are rejected; no other memory is changed.

* `T_Infer.v`: `C55_companion_partial`, `C55_linear`, `C55_coefficients_refuted`
* axioms of `C55_companion_partial`: `ClassicalDedekindReals.sig_not_dec`, `ClassicalDedekindReals.sig_forall_dec`, `FunctionalExtensionality.functional_extensionality_dep`, `Classical_Prop.classic`
* axioms of `C55_coefficients_refuted`: `ClassicalDedekindReals.sig_not_dec`, `ClassicalDedekindReals.sig_forall_dec`, `FunctionalExtensionality.functional_extensionality_dep`, `Classical_Prop.classic`

Proved: degree 1 in full; degrees 2 to 4096 for series with only a leading coefficient, with all matrix entries and the frame. False of the code for other coefficients (the code's TODO): C55_coefficients_refuted. The element-wise operators and arange used inside are taken as proved in C08/C34.

### C56 Linear systems (gesv) (partial)

gesv(&A, &B) with a square A leaves in every row of B the solution x of x A = b for that row b, and returns 0, whenever A is invertible; it returns a positive number only when A is singular; no other memory is changed.  This holds for tensors and for views alike.

* `T_Lapack.v`: `C56_gesv_partial`, `C56_view_refuted`

Proved for contiguous row-major A and B.  False for views with a larger row stride: the extents are passed as leading dimensions (C56_view_refuted).

### C57 Matrix inverse (proved)

invert(&A) replaces A by its inverse when A is invertible and stops with an error exactly when LAPACK reports a singular matrix, for every row stride, and changes no other memory.

* `T_Lapack.v`: `C57_invert`

For n > 0 and LAPACK routines meeting S_Lapack.inv_contract (info > 0 only for singular matrices, otherwise getri gives the inverse).

### C58 Symmetric eigenproblem (partial)

syev(&A, &W) for the symmetric matrix given by the upper triangle of A leaves orthonormal eigenvectors in the rows of A and the eigenvalues in ascending order in W, and reports failure.

* `T_Lapack.v`: `C58_syev_partial`, `C58_upper_refuted`, `C58_strided_values_refuted`, `C58_no_convergence_refuted`

Proved for contiguous W when the eigensolver converges, for the matrix given by the lower triangle.  False otherwise: the row-major lower triangle is read instead of the documented upper one, the stride of W is ignored, and non-convergence is not reported.

### C59 Powers of symmetric matrices (proved)

pow(a, alpha, cutoff) of a symmetric matrix returns the matrix that multiplies every eigenvector of a with eigenvalue lambda by lambda^alpha (by zero when that is not finite or when alpha < 0 and |lambda| is below cutoff times the largest magnitude of an eigenvalue), and leaves a and all other memory unchanged.

* `T_Lapack.v`: `C59_pow`

Elements form an integral domain; the order, power and absolute value are arbitrary functions (a strict order).  Convergence of the eigensolver is a hypothesis.

### C60 Matrix norms (partial)

norm(type, a) returns the largest magnitude, the largest column sum (One), the largest row sum (Infinity) or the Frobenius norm of the matrix a, and reads only a.

* `T_Lapack.v`: `C60_norm_partial`, `C60_one_infinity_partial`, `C60_one_refuted`, `C60_wide_refuted`, `C60_tall_refuted`

Proved for MaxAbs and Frobenius of square matrices; One and Infinity are exchanged.  False for rectangular matrices: wide ones are read out of bounds, tall ones are not read completely.

### C61 Singular value decomposition (partial)

svd_dd(A) and svd(A) return orthogonal U and Vt and non-negative descending S with A = U diag(S) Vt, leave A unchanged and report failure to converge.

* `T_Lapack2.v`: `C61_svd_dd_partial`, `C61_svd_refuted`, `C61_no_convergence_refuted`

Proved for svd_dd (job All) when LAPACK converges.  svd never returns normally: its work vector is one element short (or its size wraps round) for every non-empty matrix, C61_svd_refuted.  Non-convergence of svd_dd is not reported.

### C62 QR factorisation (partial)

qr(A) and then q(F, tau) give an orthogonal (orthonormal) Q such that A = Q R with R the upper triangle of F, for every shape of A.

* `T_Lapack2.v`: `C62_qr_partial`, `C62_tall_refuted`, `C62_wide_refuted`

Proved for square matrices.  q exchanges the extents: for more rows than columns LAPACK rejects the call, for fewer the copy is read out of bounds.

### C63 Lyapunov equation (partial)

solve_continuous_lyapunov(A, Q) returns X with A X + X A^T = Q, and leaves A, Q and all other memory unchanged.

* `T_Lapack2.v`: `C63_lyapunov_general_partial`, `C63_lyapunov_partial`, `C63_transpose_refuted`, `C63_scale_refuted`

Proved: A X + X A = s^2 Q where s is the scale factor returned by trsyl; hence the statement for symmetric A and s = 1.  False for other A (C63_transpose_refuted) and whenever s^2 Q differs from Q (C63_scale_refuted: the factor is multiplied instead of divided out).

### C64 General eigenproblem (partial)

geev(&A, &W, &lvecs, &rvecs) leaves the eigenvalues in W, the right eigenvectors in the columns of rvecs and the left eigenvectors in the columns of lvecs, and reports failure.

* `T_Geev.v`: `C64_geev_real_results`, `C64_geev_real_partial`, `C64_double_refuted`
* `T_Lapack2.v`: `C64_geev_partial`, `C64_strided_values_refuted`, `C64_no_convergence_refuted`

Proved for complex and real element types and contiguous W when LAPACK converges (for real types: when the eigenvalues are exactly representable as float, which always holds for float).  False for strided W, for the reporting of failures, and for double, whose eigenvalues are rounded to single precision on their way into W.

### C65 einsum on tiled tensors (partial)

einsum(cp, C-labels, &C, ab, A-labels, A, B-labels, B) on tiled tensors (or with a scalar C) gives the same elements as on the dense tensors they stand for: C(labels) = cp*C(labels) + ab*sum A*B, missing tiles counting as zero; it touches no memory outside C, for every schedule of its loop.

* `T_TileEinsum.v`: `C65_einsum_partial`, `C65_scalar`, `C65_scalar_dot_partial`, `C65_elementwise_exact`, `C65_elementwise_partial`, `C65_elementwise_refuted`, `C65_scalar_dot_refuted`

Proved for the patterns whose dense calls are right (tile_path_ok, see C11-C16), for scalar results not computed by dot, and exactly what the element-wise product computes.  False: an element-wise product does not scale C by its prefactor where A or B lacks the tile (C65_elementwise_refuted); dot is wrong for grids that differ from themselves read backwards (C65_scalar_dot_refuted).

### C66 einsum on block and tiled operands together (partial)

einsum(cp, C-labels, &C, ab, A-labels, A, B-labels, B) where some operands are block-diagonal and some tiled gives the same elements as on the dense tensors they stand for (a block-diagonal result: in its blocks), and touches no memory outside C, for every schedule of its loop.

* `T_MixEinsum.v`: `C66_tiled_result_partial`, `C66_block_result_partial`, `C66_block_of_tiled_refuted`, `C66_elementwise_refuted`

Proved for every tiled result and for block results with a block operand, for the patterns whose dense calls are right (tile_path_ok).  False: with A and B tiled and C block-diagonal no contraction is performed (C66_block_of_tiled_refuted); the element-wise product reads and writes the tiles (i,0,..) (C66_elementwise_refuted).

### C67 Arithmetic assignment of block-diagonal tensors (partial)

t *= v, t += v, t -= v with a scalar and t += u, t -= u, t *= u with a block-diagonal tensor u (also t itself) change every element of the tensor t stands for accordingly; tensors with a different block structure are rejected before anything is written; set_all sets every stored element; no memory outside t changes.

* `T_BlockArith.v`: `C67_scalar`, `C67_scale`, `C67_shift_partial`, `C67_shift_refuted`, `C67_tensor`, `C67_tensor_rejects`, `C67_set_all`

True for *= with a scalar and for all operators with a block tensor.  += and -= with a scalar leave the elements outside the blocks at zero (C67_shift_partial, C67_shift_refuted).

### C68 Tensors are values (partial)

Constructing, copying, assigning (same or other element type), reshaping by move, resizing, writing, filling and arithmetic on dense tensors, in any order and number, gives every tensor the extents and elements it has when tensors are independent values; no two tensors share memory, no other memory changes, nothing leaks, nothing is freed twice, and the same statements throw.

* `T_Value.v`: `C68_values_partial`, `C68_moved_from_refuted`, `C68_resize_refuted`, `C68_cast_refuted`, `C68_size_refuted`

Proved for all programs except four cases that are false of the code: assigning to (C68_moved_from_refuted) or resizing (C68_resize_refuted) a moved-from tensor whose recorded extents are the new ones, assigning another element type to a moved-from matrix (C68_cast_refuted), arithmetic on 2^31 or more elements (C68_size_refuted).

### C69 Linear algebra on function tensors (partial)

dot, true_dot, gemm, gemv, ger and direct_product with at least one operand that is computed by a function (or a slice of one) give the textbook result, alpha and beta included; they write only the output, and throw before writing anything when extents do not fit.

* `T_Generic.v`: `C69_function_operand`, `C69_dot_partial`, `C69_gemm`, `C69_gemv`, `C69_ger`, `C69_direct_product_partial`, `C69_rejects`, `C69_beta_refuted`, `C69_dot_large_refuted`

gemm, gemv, ger and the exceptions proved in full. direct_product ignores beta (C69_beta_refuted), proved for beta = 0. dot, true_dot and direct_product narrow the position to int: proved for extents up to 2^31, dot false above (C69_dot_large_refuted). scale accepts no writable tensor type of the library.

### C70 CANDECOMP/PARAFAC building blocks (partial)

parafac_reconstruct returns the tensor whose element i is the sum over r of the products of the factors' elements (i_n, r); weight_tensor multiplies every element by the weight of its first index; rmsd and norm are the root of the mean (sum) of squares; validate_cp_rank is the rounded quotient of the number of elements and the sum of the extents. None of them changes existing memory.

* `T_Decomp.v`: `C70_reconstruct`, `C70_weights`, `C70_weights_rejects`, `C70_norm_partial`, `C70_rmsd`, `C70_norm_complex_refuted`, `C70_cp_rank_partial`, `C70_cp_rank_refuted`

parafac_reconstruct, weight_tensor and rmsd proved in full. norm squares without conjugating: false for complex elements (C70_norm_complex_refuted). validate_cp_rank adds and multiplies in int: proved below 2^31, false above (C70_cp_rank_refuted); division and rounding taken as exact.

### C71 Tucker reconstruction and projection (proved)

tucker_reconstruct returns the core contracted with all factors and the projection in tucker_ho_svd returns the tensor contracted with all transposed factors; the chain of intermediate buffers is neither leaked nor freed twice nor read after it was freed, and existing memory is unchanged. With orthonormal rows projection followed by reconstruction is exact; with orthonormal columns reconstruction followed by projection is.

* `T_Decomp.v`: `C71_reconstruct`, `C71_core`, `C71_exact`, `C71_project`

Given the factors. Outcomes: the result, or the exception of an allocator that refused.

### C72 Alternating least squares never makes the fit worse (partial)

Each update of parafac and weighted_parafac replaces one factor by one for which no other choice gives a smaller (weighted) sum of squared differences to the tensor; so the result fits at least as well as the starting factors, whatever the number of iterations, and at most n_iter_max sweeps are made.

* `T_Als.v`: `C72_update_partial`, `C72_iteration_partial`, `C72_last_partial`, `C72_singular_refuted`, `C72_one_mode_refuted`

Proved for runs in which every linear solve succeeds. The error code of gesv is dropped: with a singular normal matrix the fit can get worse (C72_singular_refuted); one-mode tensors use default-constructed matrices (C72_one_mode_refuted). Value-level model; initialize_cp is not modelled.

### C73 A plan compiled from Python without a BLAS shortcut computes the Einstein sum (partial)

Executing a plan that falls back on the loop sets C to cp*C + ab*(sum over the labels not in C of A*B) for every index pattern, including repeated labels, and every stride, and touches nothing else; operands with the wrong number of axes are rejected before anything is written.

* `T_PyEinsum.v`: `C73_loop_partial`, `C73_repeated_label`, `C73_not_blocks`, `C73_rank_mismatch`, `C73_race_refuted`, `C73_scalar_result_refuted`, `C73_extents_refuted`

Proved for one thread, and for any number of threads if nothing is summed (C73_loop_partial); contractions without matrix block structure always use the loop (C73_not_blocks). With several threads and a summed label the threads update one element of C without protection and updates can be lost (C73_race_refuted); a result without indices reads element 0 of an empty vector (C73_scalar_result_refuted); extents that disagree are not checked and lead to out-of-range reads (C73_extents_refuted).

### C74 Element-wise products from Python (proved)

When the three index lists are equal and without repetition, executing the plan sets every element of C to cp*C + ab*A*B under every schedule, whatever the strides, and touches nothing else; operands with the wrong number of axes are rejected.

* `T_PyEinsum.v`: `C74_direct_product`, `C74_rank_mismatch`

Proved for every rank above zero (the rank-0 case is compiled to the dot plan, C75).

### C75 Dot products from Python (partial)

When C has no index and A and B have the same ones, executing the plan sets C to cp*C + ab*sum(A*B), whatever the strides and the partition of the reduction.

* `T_PyEinsum.v`: `C75_dot_partial`, `C75_scalars_refuted`

Proved for every rank above zero; two scalars read element 0 of an empty vector (C75_scalars_refuted).

### C76 Outer products from Python (partial)

When A and B share no label and every buffer is contiguous, executing the plan sets C to cp*C + ab*A*B and touches nothing else.

* `T_PyEinsum.v`: `C76_outer_partial`, `C76_prefactor_refuted`, `C76_no_label_refuted`, `C76_sum_refuted`, `C76_interleaved_refuted`, `C76_broadcast_refuted`, `C76_empty_refuted`

Proved for C equal to the labels of A followed by those of B (or the reverse), with prefactor 0 or 1 of C and a non-empty fast factor. Otherwise false: other prefactors also scale the memory behind C, because a byte count is used as element count (C76_prefactor_refuted); labels of one operand that are not in C are not summed (C76_sum_refuted); interleaved labels (C76_interleaved_refuted), labels only in C (C76_broadcast_refuted), an operand sharing no label with C (C76_no_label_refuted) and empty operands (C76_empty_refuted).

### C77 Matrix-vector products from Python (partial)

When one operand's labels are all summed and the buffers are contiguous, executing the plan sets C to cp*C + ab*(sum of A*B) and touches nothing else.

* `T_PyEinsum.v`: `C77_gemv_partial`, `C77_more_sums_refuted`, `C77_more_free_refuted`, `C77_sum_refuted`, `C77_broadcast_refuted`, `C77_empty_refuted`

Proved when as many leading summed labels as there are free labels already give the whole summed extent (e.g. one free, one summed label) and the sum is not empty or cp is 1. Otherwise false: the number of summed labels is taken from the free ones (C77_more_sums_refuted, C77_more_free_refuted); labels of one operand only (C77_sum_refuted, C77_broadcast_refuted); an empty sum leaves C unscaled (C77_empty_refuted).

### C78 Matrix products from Python (partial)

When the labels split into rows, columns and summed ones and the buffers are contiguous, executing the plan sets C to cp*C + ab*(sum of A*B) for each of the eight orders of the blocks and touches nothing else.

* `T_PyEinsum.v`: `C78_gemm_partial`, `C78_transposed_A_refuted`, `C78_transposed_B_refuted`, `C78_more_sums_refuted`, `C78_more_free_refuted`, `C78_batch_refuted`, `C78_empty_refuted`

Proved for all eight orders when the counts of labels agree as in C77 and transposed operands are square. Otherwise false: a transposed non-square operand is passed with its two extents exchanged (C78_transposed_A_refuted, C78_transposed_B_refuted); different numbers of labels (C78_more_sums_refuted, C78_more_free_refuted); a label in all three (C78_batch_refuted); an empty sum (C78_empty_refuted).

### C79 Subscripts from Python (partial)

x[key] gives the element, or a view of the block, that Python's rules for integers and slices select: nothing is copied, and a key that selects nothing valid raises an exception instead of reading other memory.

* `T_PyIndex.v`: `C79_tuple_partial`, `C79_single_partial`, `C79_negative_refuted`, `C79_empty_refuted`, `C79_index_refuted`, `C79_huge_refuted`, `C79_no_axis_refuted`

Proved for tuples of non-negative integers and non-empty slices with step 1 (the rest throws) and for single integers, also counted from the end, and single slices (C79_tuple_partial, C79_single_partial). Otherwise false: negative integers in a tuple throw (C79_negative_refuted), empty slices throw (C79_empty_refuted), NumPy integers next to a slice throw (C79_index_refuted), integers from 2^63 on wrap around and are accepted (C79_huge_refuted), a slice of a tensor without axes reads an extent that does not exist (C79_no_axis_refuted).

### C80 Assignments to subscripts from Python (partial)

x[key] = value sets exactly the selected elements; x[key] = buffer sets element j of the selected block to item j; nothing else changes, and a wrong key or shape raises an exception before anything is written.

* `T_PyBuf.v`: `C80_value_partial`, `C80_buffer_partial`, `C80_key_refuted`, `C80_overlap_refuted`

Proved for tuples as in C79 (C80_value_partial, C80_buffer_partial). Otherwise false: a key that is not a tuple is refused although it may be read (C80_key_refuted); a buffer that shares memory with the block is read after it was overwritten (C80_overlap_refuted).

### C81 Exchange with Python buffers (partial)

A tensor made from or assigned a Python buffer has its shape and its items, converted to the element type, whatever the strides; the buffer a tensor offers describes its elements and a view made from it is the same view; formats that are not supported and read-only buffers for views raise an exception.

* `T_PyBuf.v`: `C81_from_buffer_partial`, `C81_assign_partial`, `C81_into_view_partial`, `C81_format_partial`, `C81_export_partial`, `C81_import_partial`, `C81_packed_refuted`, `C81_overlap_refuted`, `C81_no_axis_refuted`, `C81_pair_refuted`

Proved for strides that are whole numbers of items and buffers that share no memory with the target (C81_from_buffer_partial, C81_assign_partial, C81_into_view_partial, C81_format_partial, C81_export_partial, C81_import_partial). Otherwise false: strides are divided by the item size, so a field of a packed record is read at wrong addresses (C81_packed_refuted); assigning its own reverse to a tensor (C81_overlap_refuted); a view of a buffer without axes reads shape[0] (C81_no_axis_refuted); the second character of a format is ignored (C81_pair_refuted).

### C82 In-place arithmetic from Python (partial)

t OP= value, t OP= tensor, t OP= view and t OP= buffer set every element to itself OP the value or the corresponding element and change nothing else, for every number of threads; operands of another shape raise an exception.

* `T_PyBuf.v`: `C82_buffer_partial`, `C82_tensor_partial`, `C82_shape_refuted`, `C82_number_refuted`, `C82_integer`

Proved for values, tensors of the same shape (also the tensor itself), views and buffers (C82_tensor_partial, C82_buffer_partial) and for Python integers (C82_integer). Otherwise false: a tensor of another shape but the same size is accepted (C82_shape_refuted); a Python float goes to the single-precision overload, which is registered first, and of a complex number a real tensor silently uses the real part (C82_number_refuted).

### C83 Iteration over tensors (partial)

for x in t visits every element once in row-major order and then stops; reversed(t) visits them in the opposite order; iter() of an iterator goes on where it is.

* `T_PyIter.v`: `C83_iteration_partial`, `C83_copy_partial`, `C83_empty_refuted`

Proved for tensors with at least one element (C83_iteration_partial, C83_copy_partial). A tensor without elements raises an error instead of ending the loop (C83_empty_refuted).

### C84 Views with new extents (partial)

A view of a tensor with other extents of the same product has the same elements in the same row-major order, and to_rank_1_view is the vector of all elements.

* `T_PyIter.v`: `C84_tensor_partial`, `C84_rank1_partial`, `C84_view_refuted`, `C84_size_refuted`, `C84_no_axis_refuted`

Proved for tensors (C84_tensor_partial, C84_rank1_partial). Otherwise false: the strides of a source view are ignored (C84_view_refuted); the product of the extents is not checked (C84_size_refuted); to_rank_1_view of a tensor without axes is empty (C84_no_axis_refuted).

### C85 Eigenvectors of a block-diagonal matrix (partial)

syev of a symmetric block tensor replaces its rows by orthonormal eigenvectors of the whole matrix and stores the eigenvalue of row r in W(r), in ascending order as the dense syev does; nothing else changes.

* `T_BlockLapack.v`: `C85_syev_partial`, `C85_order_refuted`

Proved except for the order: eigenvalues ascend within each block only (C85_syev_partial; C85_order_refuted: diag(2, 1) in two blocks gives W = [2, 1]).

### C86 Linear equations and inverse for block-diagonal matrices (partial)

gesv of block tensors solves the equations of the whole matrix and returns 0, or returns a positive number if the matrix is singular, for every number of threads; invert replaces the matrix by its inverse or reports an error for a singular matrix, for all block sizes.

* `T_BlockLapack.v`: `C86_gesv_partial`, `C86_info_partial`, `C86_info_refuted`, `C86_invert_partial`, `C86_empty_block_refuted`

Proved: gesv with one thread (C86_gesv_partial); with several threads the returned number has only bits some call returned, so no false alarm (C86_info_partial); invert without empty blocks (C86_invert_partial). False: info_out |= info is not synchronised, so a singular block can go unreported (C86_info_refuted); invert of a tensor with an empty block fails with an invalid argument (C86_empty_block_refuted).

### C87 Powers of a block-diagonal matrix (partial)

pow of a symmetric block tensor has the same eigenvectors as the whole matrix, each eigenvalue replaced by its power; for a negative exponent eigenvalues below cutoff times the largest magnitude are dropped; the operand does not change.

* `T_BlockLapack.v`: `C87_pow_partial`, `C87_cutoff_refuted`

Proved for exponents that are not negative and, with the cutoff relative to each block, for all (C87_pow_partial). For a negative exponent the cutoff is relative to the largest eigenvalue of each block instead of the whole matrix (C87_cutoff_refuted).

### C88 Truncated singular value decomposition (partial)

truncated_svd(A, k) returns k singular triplets: U with orthonormal columns, Vt with orthonormal rows, S non-negative and descending, and U diag(S) Vt is A projected on the range of A times the random matrix (A itself if that range contains the columns of A); A is unchanged. This holds for every shape and for real and complex elements.

* `T_Trunc.v`: `C88_truncated_svd_partial`, `C88_few_rows_refuted`, `C88_count_refuted`
* `T_Trunc2.v`: `C88_complex_refuted`

Proved for real elements and k + 5 <= m, with k + 5 instead of k triplets (C88_truncated_svd_partial). False: the number of triplets (C88_count_refuted); with fewer than k + 5 rows no result is delivered (C88_few_rows_refuted); for complex elements A is multiplied by the transpose of Q instead of its conjugate transpose, so U diag(S) Vt is wrong already for the identity (C88_complex_refuted).

### C89 Truncated eigenvalue decomposition (partial)

truncated_syev(A, k) of a symmetric matrix returns k columns U, orthonormal, and ascending w with U^T A U = diag(w); if the columns of A lie in the range of A times the random matrix, every column of U is an eigenvector of A for the corresponding w and A = U diag(w) U^T; A is unchanged.

* `T_Trunc2.v`: `C89_truncated_syev_partial`, `C89_few_rows_refuted`, `C89_count_refuted`

Proved for k + 5 <= n, with k + 5 instead of k columns (C89_truncated_syev_partial). False: the number of columns (C89_count_refuted); smaller matrices give no result (C89_few_rows_refuted).

### C90 Eigenvectors of Hermitian matrices (partial)

heev(&A, &W) replaces the rows of the Hermitian matrix A by orthonormal eigenvectors and stores the real eigenvalues in ascending order in W; nothing else changes.

* `T_Trunc2.v`: `C90_heev_partial`, `C90_rows_refuted`

Proved for the conjugates of the rows: LAPACK reads the row-major matrix as its transpose, which is its conjugate (C90_heev_partial; only the lower triangle is referenced). The rows themselves are not eigenvectors (C90_rows_refuted).

### C91 Element-wise maps with any number of tensors (partial)

element(f, &C, A, B, ...) throws if an extent differs and otherwise replaces every element of C by f(C[i], A[i], B[i], ...) evaluated on the old contents, whatever the number of threads; nothing else changes. element_transform(&C, f) is the case without further tensors; on a block tensor it maps every element of the dense tensor it stands for.

* `T_Elem.v`: `C91_element_partial`, `C91_shape`, `C91_transform`, `C91_block_partial`, `C91_overlap_refuted`, `C91_block_refuted`

Proved if every further tensor is C itself or disjoint from it (C91_element_partial) and, for block tensors, if f maps zero to zero (C91_block_partial, which also gives the per-block result for all f). False for overlapping views (C91_overlap_refuted) and for block tensors with other f (C91_block_refuted).

### C92 Contents made by the tensor factories (partial)

create_incremented_tensor counts in row-major order; create_ones_tensor holds ones; create_identity_tensor holds one where all indices agree and zero elsewhere; diagonal and diagonal_like put a vector on the diagonal of a zero matrix. Only the new tensor is written.

* `T_Create.v`: `C92_incremented`, `C92_ones`, `C92_identity_partial`, `C92_identity_refuted`, `C92_diagonal`, `C92_diagonal_like_partial`, `C92_diagonal_like_refuted`

Proved for incremented, ones and diagonal; for the identity if no extent is smaller than the first (C92_identity_partial), for diagonal_like if the matrix is large enough (C92_diagonal_like_partial). Otherwise both write outside the buffer or to other elements (C92_identity_refuted, C92_diagonal_like_refuted).

### C93 Random tensors are filled with drawn values (proved)

create_random_tensor(name, dims...) (without normalisation) returns a new tensor every element of which was written with a value computed from states that the shared random engine reaches from its seed, so that it lies in the range the distribution has on engine states; no other tensor changes. With one thread element k is computed from the k-th group of consecutive engine states.

* `T_Random.v`: `C93_values`, `C93_one_thread`, `C93_threads_refuted`

Range of the values and frame for every schedule (C93_values), and the reproducible sequence of one thread (C93_one_thread). The engine is shared without synchronisation, so with two threads the contents depend on the schedule and two elements can receive the same draw (C93_threads_refuted). Normalisation of the columns is not part of this claim.

### C94 Random definite and semidefinite matrices (partial)

create_random_definite(name, n, n, mean) returns a symmetric matrix with an orthonormal set of eigenvectors and only positive eigenvalues (negative for a negative mean), so that x^T A x has that sign for every x other than zero. create_random_semidefinite returns one with the requested number of zero eigenvalues and the rest of one sign or zero. Both throw if the matrix is not square.

* `T_Definite.v`: `C94_definite_partial`, `C94_semidefinite_partial`, `C94_shape`, `C94_zero_mean_refuted`, `C94_repeat_refuted`

Proved for every run that ends, over exact ordered arithmetic (C94_definite_partial, C94_semidefinite_partial), and the shape check (C94_shape). Termination is false: a mean of zero never ends (C94_zero_mean_refuted), and if each attempt draws the same matrix, a singular one is drawn for ever (C94_repeat_refuted).

### C95 Smallest and largest element of a vector (proved)

For a vector x with at least one element, get_domain(x) returns elements lo and hi of x such that no element of x is smaller than lo or larger than hi, whatever the number of threads and the distribution of the elements over them.

* `T_Random.v`: `C95_domain`, `C95_empty_refuted`

Proved (C95_domain). For the empty vector element 0 is read, outside the buffer (C95_empty_refuted).

### C96 Permutation of block tensors (partial)

sort(uc, C_indices, &C, ua, A_indices, A) on block tensors replaces the dense tensor C stands for by uc C + ua times the permuted dense A, in whatever order the blocks are processed; nothing outside C changes.

* `T_BlockSort.v`: `C96_sort_partial`, `C96_more_blocks`, `C96_structure_refuted`

Proved if A and C have the same block sizes and are disjoint (C96_sort_partial). A with more blocks than C throws (C96_more_blocks). False if C has more blocks than A: they keep their contents although uc may be zero (C96_structure_refuted). The overload for tiled tensors is not modelled.

### C97 Fourier transforms and their round trip (proved)

fft(x, &y) on complex vectors of the same length n makes y the discrete Fourier transform of x, ifft the unnormalised inverse, and neither changes anything else; ifft(fft(x)) is n times x. fft of a real vector of length n into a complex one gives the first n/2+1 elements of the transform, and throws if the result has fewer elements; ifft of that half gives n times the real vector.

* `T_Fft.v`: `C97_fft`, `C97_ifft`, `C97_round_trip`, `C97_real_fft`, `C97_real_round_trip`, `C97_short_refuted`, `C97_input_refuted`

Proved over exact arithmetic with FFTW by its documentation. Outside the statement: the complex versions do not compare the lengths, so a shorter vector is overrun (C97_short_refuted); ifft to a real vector takes its input as const but FFTW may destroy it (C97_input_refuted). The MKL backend is not modelled.

### C98 Sections are timed once and leave the timer as it was (partial)

A Section object starts the timing of a region named after it (blanks around the name removed) when it is defined by the main thread and stops it when end() is called or its scope is left, whichever is first, also by an exception; the region inside the one open before counts one call more and the time in between, no enclosing region changes, and afterwards the region open before is open again. Sections of other threads leave the timer alone.

* `T_Section.v`: `C98_restored`, `C98_other_threads`, `C98_one_call`, `C98_order_refuted`

The timer is always restored, whatever the order of end() calls (C98_restored), other threads do nothing (C98_other_threads), and a section adds one call and its own time if sections are ended by their scopes (C98_one_call). False otherwise: end() of an outer section inside an inner one stops the inner region, and times are attributed to the wrong region (C98_order_refuted).

### C99 Trimming of strings and number of digits (partial)

trim removes exactly the blanks before and after the text of a string: the result neither begins nor ends with a blank, and what is removed are blanks only; a second trim changes nothing. ndigits(n) is the number of decimal digits of n.

* `T_Print.v`: `C99_digits_partial`, `C99_digits_zero_refuted`
* `T_Section.v`: `C99_trim`, `C99_trim_stable`

trim is proved for every string in the C locale (C99_trim, C99_trim_stable). ndigits is proved for every nonzero integer (C99_digits_partial); for 0, which has one digit, it gives 0 (C99_digits_zero_refuted).

### C100 Printed lines of several threads are not mixed (proved)

println prints the text line by line (text without null characters). Whatever threads print at the same time, the output consists of whole lines, each behind the header of its thread and the indentation; the lines of a thread come in its order and none is lost. No thread waits for ever. indent and deindent in nested pairs leave the indentation as it was.

* `T_Print.v`: `C100_lines`, `C100_whole_lines`, `C100_progress`, `C100_indent`, `C100_shown`, `C100_nul_refuted`, `C100_deindent_refuted`

Splitting into lines (C100_lines), whole lines in the order of each thread and completeness (C100_whole_lines, C100_shown), absence of deadlock (C100_progress), nested indentation (C100_indent). Outside the statement: text after a null character is lost if the line is printed with printf (C100_nul_refuted), and a deindent at level zero is not undone by indent (C100_deindent_refuted). Calls of indent by thread 0 while others print are a data race; the model lets the others read either level.

### C101 Buffers of tensors are aligned, large enough and disjoint (proved)

Whatever tensors are created and destroyed, and in whatever order, the buffer of every living tensor begins at a multiple of the alignment, has room for all its elements, and overlaps no other tensor's buffer; nothing is freed twice and the memory of destroyed tensors has been returned. A tensor that is too large or for which there is no memory throws and changes nothing. allocate(n) of the allocator delivers n elements for every n from 1 to max_size().

* `T_Alloc.v`: `C101_allocate`, `C101_buffers`, `C101_wrap_refuted`

Proved for every history (C101_buffers) and for allocate (C101_allocate). Outside the statement: allocate above max_size() does not notice that the number of bytes wraps round (C101_wrap_refuted); std::vector never asks for that. posix_memalign and free by their contracts.

### C102 einsum on the GPU equals the sum for every schedule (partial)

einsum on device tensors computed by the library's own kernels sets C to the prefactor times C plus the prefactor times the Einstein sum of A and B, for every order in which the device runs blocks and threads; nothing outside C changes and the kernels end.

* `T_Gpu.v`: `C102_gpu_einsum_partial`, `C102_one_block_partial`, `C102_blocks_race_refuted`, `C102_gemm_race_refuted`, `C102_repeated_label_refuted`

Proved for the launch the code makes and every schedule if C is a scalar, or C's labels are distinct and there are no summed labels (C102_gpu_einsum_partial), and for every pattern if the kernel had one block (C102_one_block_partial). False in general: number of blocks and threads are exchanged at the launch, so at least 32 blocks run; a block's barrier does not hold back another block's additions before C has been scaled (C102_blocks_race_refuted, C102_gemm_race_refuted). Results with a repeated label are wrong (C102_repeated_label_refuted).

### C103 Dot products on the GPU (partial)

dot of device tensors is the sum of the products of their elements, for every schedule of the device; true_dot conjugates the first; the dot plan of the Python module gives the same.

* `T_GpuOps.v`: `C103_dot_partial`, `C103_single_partial`, `C103_dot_refuted`, `C103_python_one_block_partial`, `C103_python_refuted`, `C103_true_dot_view_refuted`

For every schedule the call ends with the sum over the elements of some of the workers, worker 0 among them, each at most once (C103_dot_partial); right for at most one element (C103_single_partial). False: worker 0 clears the result without any barrier, so additions made before are lost (C103_dot_refuted). The Python kernel has a barrier and is right for one block (C103_python_one_block_partial), but is launched with 32 or more (C103_python_refuted). true_dot reads views as if they were contiguous (C103_true_dot_view_refuted).

### C104 symm_gemm on the GPU (proved)

symm_gemm<TransA, TransB>(A, B, C) on device matrices makes C equal op(B)^T op(A) op(B) for every schedule of the device; nothing outside C changes.

* `T_GpuOps.v`: `C104_gpu_symm_gemm`

C104_gpu_symm_gemm, over every ring (exact arithmetic); atomic additions are single steps.

### C105 sort on the GPU (partial)

sort on device tensors makes C equal to its prefactor times C plus the prefactor times A with its axes permuted, for every schedule of the device; nothing else changes.

* `T_GpuOps.v`: `C105_sort_partial`, `C105_accumulate_refuted`, `C105_view_refuted`

Proved for every schedule if C's prefactor is zero and A is contiguous (C105_sort_partial; the equal-index case is C107_axpby). False otherwise: every worker runs through all later elements, not only its own, so C is updated several times (C105_accumulate_refuted), and positions are computed from A's strides as if it were contiguous (C105_view_refuted).

### C106 Sum, maximum and minimum on the GPU (partial)

sum, max and min of a device tensor combine all of its elements, whatever the schedule.

* `T_GpuOps.v`: `C106_reduce_partial`, `C106_small_partial`, `C106_large_refuted`

Below 512 elements (one block) the result is, for every schedule, the combination of exactly the elements of the first 2^(log2 k - 1) of the k workers (C106_reduce_partial), which are all elements if there are at most 16 (C106_small_partial). False for every shape of 17 to 511 elements: one round of the reduction tree is missing (C106_large_refuted). Launches with several blocks are not modelled.

### C107 Element-wise operations on the GPU (partial)

Maps (abs, invert, exp, scale), assignment and arithmetic assignment between device tensors and views, fills, arithmetic assignment of scalars, direct_product and axpby do on the GPU what they do on the CPU, for every schedule; nothing else changes.

* `T_GpuOps.v`: `C107_gpu_map`, `C107_assign_op`, `C107_copy`, `C107_set_all_partial`, `C107_scalar_op_partial`, `C107_direct_product`, `C107_axpby`, `C107_view_scalar_refuted`, `C107_view_set_all_refuted`

Maps, copies, arithmetic assignment between tensors, direct_product and axpby are proved for every schedule (C107_gpu_map, C107_assign_op, C107_copy, C107_direct_product, C107_axpby); fills and scalar assignment for contiguous tensors (C107_set_all_partial, C107_scalar_op_partial). False for views: the number of elements is computed as first stride times first extent, so elements are updated repeatedly or left out (C107_view_scalar_refuted, C107_view_set_all_refuted).

### C108 BLAS on device tensors (partial)

gemm, gemv, ger, scale, axpy, axpby, scale_row and scale_column on device tensors do what they do on host tensors: C = alpha op(A) op(B) + beta C, y = alpha op(A) x + beta y, A = A + alpha x y^T and the scalings, for every schedule of the kernels they launch; nothing outside the result changes.

* `T_GpuLin.v`: `C108_gemm_partial`, `C108_gemv_partial`, `C108_ger_partial`, `C108_ger_complex_refuted`, `C108_ger_view_refuted`, `C108_scale_partial`, `C108_axpy_partial`, `C108_views_refuted`, `C108_scale_row_column`, `C108_gemv_refuted`

gemm with any positive leading strides and also for empty sums (C108_gemm_partial: empty matrices whose leading stride is 0 are rejected by the BLAS); gemv for non-empty matrices (C108_gemv_partial; false for empty sums, C108_gemv_refuted); ger for real elements and contiguous A under every schedule of its two transpositions (C108_ger_partial; complex ger conjugates y, unlike on the host, C108_ger_complex_refuted; on a view of a larger matrix elements are mixed up, C108_ger_view_refuted); scale, axpy, axpby for contiguous tensors (C108_scale_partial, C108_axpy_partial; on a column view they change elements outside it, C108_views_refuted); scale_row and scale_column for all strides (C108_scale_row_column).

### C109 Solving and diagonalising on device tensors (partial)

gesv on device tensors overwrites the right-hand sides by the solutions; syev leaves orthonormal eigenvectors and ascending eigenvalues or reports failure; pow returns the matrix with the same eigenvectors and powers of the eigenvalues, treating eigenvalues under the cutoff and non-finite powers like the host version, for every schedule of the kernels.

* `T_GpuLin.v`: `C109_gesv_partial`, `C109_gesv_nvidia_keeps`, `C109_gesv_nvidia_refuted`, `C109_syev_partial`, `C109_syev_no_convergence_refuted`, `C109_pow_partial`, `C109_pow_cutoff_refuted`

gesv on AMD devices solves the system for any leading strides (C109_gesv_partial; on the host only for contiguous matrices). On NVIDIA devices it never changes the right-hand sides: the solution goes to a temporary (C109_gesv_nvidia_keeps, C109_gesv_nvidia_refuted). syev is right for symmetric input if the solver converges (C109_syev_partial), but does not report failure (C109_syev_no_convergence_refuted). pow has the eigenvectors with powers of the eigenvalues under every schedule (C109_pow_partial), but ignores the cutoff and keeps infinities (C109_pow_cutoff_refuted).

### C110 GPU views of numpy arrays (partial)

A GPU view of a Python array gives kernels the array's elements: through a mapped view kernels and Python see each other's writes; a copied view changes only by update_H2D or by kernels writing through it, and the array only by update_D2H, which changes elements of the view only; arrays that overlap can be viewed together; a view keeps its array usable; when the last view is gone nothing stays registered or allocated; no such use is undefined.

* `T_GpuView.v`: `C110_map_coherent`, `C110_copy_isolated`, `C110_copy_updates`, `C110_copy_starts`, `C110_map_accepted`, `C110_map_starts`, `C110_released`, `C110_drop`, `C110_safe_partial`, `C110_elements_partial`, `C110_overlap_refuted`, `C110_rank0_refuted`, `C110_transposed_refuted`, `C110_between_refuted`, `C110_freed_refuted`, `C110_device_tensor_partial`, `C110_device_tensor_refuted`

After every history: mapped views are coherent with the host and with each other (C110_map_coherent); device copies change only by the named operations, and the updates copy exactly the view's bytes (C110_copy_isolated, C110_copy_updates, C110_copy_starts); when a mapping is accepted, exactly (C110_map_accepted, C110_map_starts); registered ranges are disjoint, each holds a live view, none and no allocation remains after the last view (C110_released, C110_drop); no undefined behaviour while the arrays live (C110_safe_partial); elements of C-ordered arrays are covered (C110_elements_partial). False: overlapping arrays are rejected depending on order (C110_overlap_refuted), 0-d arrays are undefined (C110_rank0_refuted), transposed arrays are not covered (C110_transposed_refuted), update_D2H overwrites bytes between the elements of a strided view (C110_between_refuted), a view does not keep the array alive (C110_freed_refuted); views of device tensors have right strides for 8-byte elements only (C110_device_tensor_partial, C110_device_tensor_refuted).

### C111 Histories of device tensors (partial)

A device tensor behaves as a value in every memory mode (MAPPED, PINNED, DEV_ONLY): construction from extents or a host tensor, copying, assignment between modes and from host tensors, resize, moving to another rank, fills, reads and stores of elements, in any order, give every tensor the elements the same program gives on plain arrays and change no other tensor; errors leave tensors usable; no such program is undefined; when the tensors are gone all memory is given back; copies of views are views.

* `T_DevMem.v`: `C111_values_partial`, `C111_memory_partial`, `C111_returned`, `C111_resize_refuted`, `C111_bounds_refuted`, `C111_move_refuted`, `C111_moved_refuted`, `C111_default_refuted`, `C111_zero_refuted`, `C111_view_refuted`

Programs with proper extents and ranks refine plain values: no exception, no undefined behaviour, all contents as specified (C111_values_partial); all memory is given back when no tensor was moved to another rank, and exactly one copy of the extents per such move stays otherwise (C111_returned, C111_memory_partial). False: resize to other extents with as many elements keeps the old extents on the device, so later kernels permute or read outside (C111_resize_refuted); one position after the end passes the bounds test (C111_bounds_refuted); a failed move loses the elements (C111_move_refuted); tensors whose elements were taken cannot be assigned in mode MAPPED or from host tensors (C111_moved_refuted); resize of a default constructed tensor throws and changes it (C111_default_refuted); resize to nothing in mode MAPPED ends in an error in the destructor (C111_zero_refuted); a copied view is a separate tensor that is never freed (C111_view_refuted).

### C112 Tucker decompositions (partial)

tucker_ho_svd and tucker_ho_oi return factors with orthonormal columns and as core the tensor contracted with them, so no other core fits better and the squared error is |tensor|^2 - |core|^2; each factor holds the leading singular vectors of the tensor contracted with the other factors of the iteration before; with full ranks reconstruction gives the tensor back; without the warning the last iteration changed core and factors by less than the tolerance, and at most n_iter_max iterations are made; no iteration fits worse than the one before; they return for any number of indices and any ranks.

* `T_Tucker.v`: `C112_iterations`, `C112_start`, `C112_fit`, `C112_exact`, `C112_returns_partial`, `C112_one_mode_refuted`, `C112_rank_refuted`, `C112_worse_refuted`, `C112_svd_contract`

Core, factors, number of iterations and meaning of convergence: C112_start, C112_iterations; error and best core: C112_fit; full ranks: C112_exact; both return when there are two or more indices, the ranks do not exceed the extents and the decompositions succeed: C112_returns_partial; what gesdd promises implies what is assumed of the singular vectors: C112_svd_contract. Tensors are values here (memory of the contraction is covered by C71). False: all factors are replaced at once, so an iteration can fit worse than the starting guess (C112_worse_refuted); a tensor with one index reads an uninitialised pointer (C112_one_mode_refuted); a rank above the extent reads past the singular vectors after a warning (C112_rank_refuted).

### C113 Starting factors of the CP decompositions (proved)

The factors parafac and weighted_parafac start from have one matrix per index with the requested number of columns: orthonormal eigenvectors of the matrix of products of slices, for the largest eigenvalues in ascending order; if more columns are requested than there are slices, all eigenvectors followed by random columns.  In the first factor each eigenvector is multiplied by the square root of its eigenvalue unless that is at most 1e-14.

* `T_Tucker.v`: `C113_start`

C113_start. Tensors are values here; the eigenvalue solver is required to succeed on the matrices of products of slices (its error code is dropped, see C58).

### C114 GPU backend BLAS against CPU backend (partial)

The BLAS routines of the GPU backend are drop-in replacements: called with host arrays they leave host memory as the CPU backend does, for every shape, increment and leading dimension; they release the device memory they allocate; if a call of the GPU runtime fails they throw and host memory is as before or as after the routine.

* `T_HipBlas.v`: `C114_scal_partial`, `C114_axpy_partial`, `C114_dot_partial`, `C114_dotc`, `C114_gemm_partial`, `C114_gemv_partial`, `C114_ger_partial`, `C114_fails`, `C114_order_refuted`, `C114_shape_refuted`, `C114_gap_refuted`, `C114_increment_refuted`, `C114_complex_refuted`, `C114_leak_refuted`

Same results as the CPU backend and device memory released, wherever the blocks are and whatever they held, when the host arrays cover n*inc elements: C114_scal_partial, C114_axpy_partial, C114_dot_partial; what dot returns for complex numbers: C114_dotc; for gemm, gemv, ger under the conditions that make the block sizes fit, against the CPU backend called for the transposed matrices: C114_gemm_partial, C114_gemv_partial, C114_ger_partial. Failing runtime calls: C114_fails. False: the CPU backend takes matrices by rows and this one by columns, so the same call gives B A (C114_order_refuted); products with more columns than rows are undefined (C114_shape_refuted); with beta = 0 cells between columns can be overwritten (C114_gap_refuted); vectors with an increment are read past their end (C114_increment_refuted); complex dot and ger conjugate (C114_complex_refuted); a failing call leaks the device blocks (C114_leak_refuted).

### C115 GPU backend solvers against CPU backend (partial)

The solvers of the GPU backend (linear equations, symmetric eigenvalue problem, LU decomposition) return and leave host memory and the error code as the CPU backend does, release device memory, and leave the registration of host pointers as it was; if a runtime call fails, the result arrays are all new or all unchanged.

* `T_HipSolver.v`: `C115_gesv_partial`, `C115_syev_partial`, `C115_getrf_throws`, `C115_getrf_never_returns`, `C115_rhs_refuted`, `C115_syev_leak_refuted`, `C115_half_refuted`

gesv (AMD and NVIDIA) with at most as many right-hand sides as unknowns and room for n*ldb: C115_gesv_partial; syev: C115_syev_partial, which also says that its two blocks stay allocated. getrf computes the CPU result but unregisters a pointer it has not registered, so it throws: C115_getrf_throws; it never returns, whatever the arguments: C115_getrf_never_returns. False: other numbers of right-hand sides (C115_rhs_refuted), release of device memory by syev (C115_syev_leak_refuted), results all new or all unchanged (C115_half_refuted).

### C116 Tensors in files are read back as written (partial)

A tensor or scalar written to a file is read back with the same extents and elements, whatever else is written to, read from or opened in this or other files in between; writing replaces what was stored under the name and disturbs nothing else; the named arguments count, offset, stride, block and current_dims select the part written as documented; a tensor that does not fit is rejected and the file stays as it was.

* `T_Store.v`: `C116_history_partial`, `C116_round_trip`, `C116_scalar_round_trip`, `C116_write_part`, `C116_shrink_refuted`, `C116_count_refuted`, `C116_current_dims_refuted`, `C116_block_refuted`, `C116_missing_aborts`

All histories in which a name is always written with the same extents: C116_history_partial; single round trips in any file: C116_round_trip, C116_scalar_round_trip; offset and stride, with the exact condition for rejection: C116_write_part. False: a smaller tensor written over a larger one leaves a mixture (C116_shrink_refuted); count stores the wrong elements (C116_count_refuted); current_dims alone throws (C116_current_dims_refuted); block is ignored (C116_block_refuted). A missing name ends the process (C116_missing_aborts). Writing a TensorView does not compile and is not modelled.

### C117 Disk tensors show what their file holds (partial)

Making a disk tensor of a name that is in its file leaves the file alone, reports that it existed and shows the stored elements; of a new name it adds zeros of the requested extents and nothing else; the same holds for a disk tensor made like an existing tensor.

* `T_Store.v`: `C117_construct`, `C117_view_partial`, `C117_extents_refuted`, `C117_other_file_refuted`, `C117_other_file_aborts`, `C117_like_partial`

Construction, exactly: C117_construct; views when the extents agree: C117_view_partial; like a tensor, in the program's data file: C117_like_partial; histories together with read and write: C116_history_partial. False: other extents are taken without complaint and views then throw (C117_extents_refuted); a disk tensor made like a tensor in another file than the program's data file opens the wrong file or ends the process (C117_other_file_refuted, C117_other_file_aborts).

### C118 Tiled matrix times vector (proved)

The product of a tiled matrix with a vector gives alpha * op(A) * x + beta * y exactly as if the matrix were dense, with missing tiles counting as zeros and tiles of size zero contributing nothing, however the threads share and order the products of tiles; the matrix, x and all other memory stay as they were.

* `T_TileConc.v`: `C118_gemv`

C118_gemv.  The vectors are plain ones: with tiled vectors the function does not compile (tile_sizes(0)).

### C119 Tiled matrix products by concurrent threads (proved)

When the threads of a tiled matrix product are interleaved in any way, including the moments at which they create missing tiles of the output, no step fails unless memory runs out, no thread writes the tile of another, a tile whose thread has finished holds its final value alpha * op(A) * op(B) + beta * C, a tile whose thread has not started holds its old value, every thread finishes after a bounded number of its own steps, and memory in use outside the output is unchanged.

* `T_TileConc.v`: `C119_gemm`, `C119_own_tile`, `C119_finishes`

C119_gemm, C119_own_tile, C119_finishes.  A step is a critical section, the zeroing or scaling of a tile, or the product of one pair of tiles.

### C120 Null space of a matrix (partial)

svd_nullspace returns an orthonormal basis of the null space of the matrix: as many rows as the dimension of the null space, each mapped to zero by the matrix, every vector of the null space a combination of them; the matrix stays as it was.

* `T_Null.v`: `C120_overflow_refuted`, `C120_value`, `C120_basis_partial`, `C120_rows_refuted`

False: the buffer superb is one element too short, so the call returns for no matrix, whatever LAPACK does (C120_overflow_refuted). If the element behind the buffer happens to be writable: all n rows of VT are returned, each multiplied by its norm (C120_value); the last n - r of them, r nonzero singular values, are an orthonormal basis of the null space (C120_basis_partial); but all n rows are one for no matrix other than zero (C120_rows_refuted).

### C121 Sessions of the library (partial)

After initialize the library can be shut down with any form of finalize and initialised again any number of times; each report lists exactly the regions timed since the initialize before it; nothing of a session stays allocated; timer calls outside a session do nothing.

* `T_Life.v`: `C121_sessions_partial`, `C121_outside`, `C121_quiet_refuted`, `C121_ub_refuted`

For finalize with a stream, a FILE pointer, true, or a file that can be opened: C121_sessions_partial; timer calls outside a session: C121_outside. False: finalize(false), the default, does nothing, so the next initialize loses the old timers (C121_quiet_refuted); finalize of a C string naming a file that cannot be opened, and finalize without initialize, are undefined (C121_ub_refuted).

### C122 Waiting for the GPU (partial)

When stream_wait returns, all kernels, BLAS and solver calls the thread queued before it are finished, and when all_stream_wait returns those of all threads; the work of one thread is finished in the order it was queued; skip_next_wait makes exactly the next wait that may be skipped return at once; a waiting thread needs only the device to get out.

* `T_Stream.v`: `C122_wait_partial`, `C122_all_partial`, `C122_order_partial`, `C122_progress`, `C122_skip`, `C122_other_thread_refuted`

For threads that change only their own stream, and for what was queued since the last change: C122_wait_partial, C122_all_partial, C122_order_partial; in general C122_progress, C122_skip. False when one thread sets the stream of another with set_stream(stream, thread_id): the handles changed are those of the caller (C122_other_thread_refuted).

### C123 Gauss-Laguerre quadrature (partial)

gauss_laguerre(n) returns n nodes and n weights such that the sum of w_i p(x_i) is the integral of p(t) exp(-t) over the positive numbers for every polynomial p of degree below 2n; the nodes are the n different roots of the n-th Laguerre polynomial in ascending order; nothing outside the matrix and the vectors it allocates is written.

* `T_Gauss.v`: `C123_quadrature_partial`, `C123_degree_0`
* axioms of `C123_quadrature_partial`: `ClassicalDedekindReals.sig_not_dec`, `ClassicalDedekindReals.sig_forall_dec`, `FunctionalExtensionality.functional_extensionality_dep`, `Classical_Prop.classic`

For n from 1 to 4096 and LAPACK returning 0: C123_quadrature_partial. n = 0 throws (C123_degree_0). Larger n are not covered: the extents of the companion's views are computed in floating point (C54_large_refuted). The arithmetic is exact; rounding is not modelled.

### C124 Iterating over the indices of a tensor in Python (partial)

TensorIndices(t) gives every index of t once, in row-major order, then StopIteration; a copy of an iterator goes on where the original is and is independent of it; reversed() of it and the keyword reverse give the indices in the opposite order.

* `T_PyUtils.v`: `C124_order_partial`, `C124_loop`, `C124_reversed_refuted`

Without reversal: C124_order_partial, C124_loop. False: reversed() gives only the index the iterator stands at and those before it - a single index for a new iterator - and the keyword reverse always raises AttributeError (C124_reversed_refuted).

### C125 Random tensors in Python (proved)

create_random_tensor fills every element of the new tensor with values of its own from the random function, in row-major order: one value for each element, two real values for each complex element; imaginary parts are dropped for real elements; the function is called once more, first, as a trial; nothing else is written; other data types raise an exception.

* `T_PyUtils.v`: `C125_random`, `C125_dtype`, `C125_mixed`

C125_random, C125_dtype. A function that changes from float to complex is refused for real tensors: C125_mixed.

### C126 Timing file chosen in Python (partial)

The argument given last to set_finalize_arg is passed to finalize when the interpreter exits; False if there was none.

* `T_PyUtils.v`: `C126_finalize_refuted`

False: finalize gets False for every sequence of calls (C126_finalize_refuted), because the function assigns a local variable and the argument was evaluated at import.

### C127 Sessions on the GPU (partial)

initialize gives each thread a stream of its own and BLAS and solver handles of its own that use it; finalize releases everything; the two can be repeated any number of times with any number of threads; in a session exactly the waits are skipped that the thread asked to skip in that session; an error reported by the device leaves the library usable.

* `T_GpuLife.v`: `C127_initialize`, `C127_finalize`, `C127_sessions_partial`, `C127_skip_refuted`, `C127_threads_refuted`, `C127_twice_refuted`, `C127_error_refuted`, `C127_lock_refuted`

C127_initialize, C127_finalize; C127_sessions_partial: any number of sessions without device errors, none with more threads than the first, requests to skip used up. False otherwise: a left-over request skips a wait of the next session (C127_skip_refuted), additional threads throw (C127_threads_refuted), repeated initialize loses a pool and repeated finalize destroys it twice (C127_twice_refuted), after a failed initialize the next one succeeds with null streams (C127_error_refuted), an error when recording an event leaves the mutex locked for ever (C127_lock_refuted).

### C128 Sorting on the GPU through LibreTT (partial)

sort of device tensors with LibreTT sets C to cp times its old contents plus ap times A with its axes permuted and touches nothing else.

* `T_Librett.v`: `C128_sort_partial`, `C128_refused_refuted`

C128_sort_partial: cp zero or equal index lists, and extents LibreTT accepts. Missing: a plan LibreTT refuses, where the result is ignored and an uninitialised handle used (C128_refused_refuted); cp not zero with permuted axes, where C is overwritten (C105_accumulate_refuted).

### C129 einsum with different element types (partial)

einsum of tensors A, B and C of different element types sets C to cp times its old contents plus ab times the sum of products, in the type of C, with the prefactors as given.

* `T_Mixed.v`: `C129_mixed_partial`, `C129_prefactor_refuted`

C129_mixed_partial: any three types between which the arithmetic used is exact. False otherwise: the AB prefactor is converted to the larger type of A and B, so with integer operands and a rational C a prefactor below one in magnitude adds nothing (C129_prefactor_refuted). A contracted label twice in A is C11_repeated_link_refuted.

### C130 Sums of squares (partial)

sum_square of a vector or strided view replaces scale and sumsq so that scale^2 * sumsq grows by the sum of the squared magnitudes of the elements, each counted once.

* `T_SumSq.v`: `C130_sum_square_partial`, `C130_extent_refuted`, `C130_stride_refuted`

C130_sum_square_partial: extent and stride below 2^31. False beyond: extents become negative and nothing is added (C130_extent_refuted), strides are truncated and wrong elements are counted (C130_stride_refuted).

### C131 Python einsum on buffer objects (partial)

plan.execute(C_prefactor, C, AB_prefactor, A, B) works on the elements of the three buffer objects where the buffer protocol puts them, for all strides, also negative ones, with the prefactors converted to the data type; a result that may not be written, different data types, data types other than the four of einsum, and prefactors that do not convert raise an exception before anything is written.

* `T_PyCall.v`: `C131_call_partial`, `C131_refused`, `C131_address`, `C131_packed_refuted`

C131_call_partial: arrays whose strides are whole items at an address that is a multiple of the item size; the call is the einsum of C73 to C78 on these elements. C131_address: the unsigned arithmetic of the code gives these addresses, also for negative strides. C131_refused: the exceptions. False for strides that are not whole items: other bytes are read (C131_packed_refuted).

### C132 Tiles by coordinates (proved)

tile(coordinates) gives the tile at the addressed position for every spelling (negative coordinates count from the end): the tile has the extents of its position and the tensor's elements; on a tensor that may change a missing tile is created, filled with zeros, in memory nothing else uses, and nothing else changes; on a constant tensor a missing tile, and on both coordinates outside the grid, raise an exception.

* `T_TileAcc.v`: `C132_const_tile`, `C132_tile`

C132_const_tile, C132_tile.

### C133 Hash of a container (partial)

container_hash gives equal containers equal hashes, as the map of tiles needs, every hash is below 2^56, and different containers get different hashes as far as their bytes fit.

* `T_Hash.v`: `C133_range`, `C133_short`, `C133_distinct_partial`, `C133_equal_partial`, `C133_equal_refuted`, `C133_spread_refuted`

C133_range: all containers. C133_short: the hash of at most seven bytes is the number they write; C133_distinct_partial: different ones of equal length hash differently. C133_equal_partial: equal elements with equal bytes, such as tile coordinates; false for 0.0 and -0.0 (C133_equal_refuted). C133_spread_refuted: for arrays of two or more ints every first coordinate from 1 to 255 gives the same hash.

### C134 Scaling a tiled tensor (proved)

scale(alpha, &A) on a tiled tensor multiplies every element by alpha, those of missing tiles (zeros) included, whichever tiles exist; no tile is created or removed and no other memory changes.

* `T_TileScale.v`: `C134_scale`

C134_scale. The parallel loop is modelled as the sequential one over the tiles, which share no memory.

## 6. Defects of the code established by a theorem

Each `_refuted` theorem is a computed run of the model on which the property fails, or a general statement about all inputs of the excluded kind:

* `C03_container_range_refuted`
* `C04_slice_refuted`
* `C06_reshape_refuted`
* `C07_size_refuted`
* `C08_aliased_scalar_refuted`
* `C10_decrement_refuted`
* `C11_repeated_link_refuted`
* `C12_dot_refuted`
* `C12_outer_refuted`
* `C13_batch_refuted`
* `C13_broadcast_refuted`
* `C13_empty_sum_refuted`
* `C14_broadcast_refuted`
* `C14_empty_sum_refuted`
* `C15_interleaved_refuted`
* `C15_strided_result_refuted`
* `C18_view_refuted`
* `C19_empty_sum_refuted`
* `C19_column_stride_refuted`
* `C20_empty_sum_refuted`
* `C21_scale_refuted`
* `C21_axpy_refuted`
* `C23_dot3_refuted`
* `C24_det_value_refuted`
* `C24_det_termination_refuted`
* `C25_stale_refuted`
* `C26_const_offblock_refuted`
* `C31_dot_refuted`
* `C32_updates_refuted`
* `C33_sum_large_refuted`
* `C33_max_nan_refuted`
* `C33_max_large_refuted`
* `C33_block_max_refuted`
* `C34_int_overrun_refuted`
* `C34_double_overrun_refuted`
* `C36_order_refuted`
* `C39_khatri_rao_order_refuted`
* `C39_khatri_rao_empty_refuted`
* `C40_unit_slice_refuted`
* `C40_pointer_readonly_refuted`
* `C40_pointer_assignment_lost_refuted`
* `C41_wide_index_refuted`
* `C41_slice_range_refuted`
* `C42_stored_refuted`
* `C42_alias_refuted`
* `C42_shape_refuted`
* `C43_negative_range_refuted`
* `C43_unit_range_refuted`
* `C43_far_index_refuted`
* `C43_cast_refuted`
* `C43_default_target_refuted`
* `C44_scalar_refuted`
* `C44_vector_outer_refuted`
* `C44_broadcast_refuted`
* `C45_constant_refuted`
* `C48_scale_column_refuted`
* `C49_has_tile_container_refuted`
* `C50_self_assign_refuted`
* `C53_large_refuted`
* `C54_large_refuted`
* `C54_strided_parent_refuted`
* `C54_offset_refuted`
* `C55_coefficients_refuted`
* `C56_view_refuted`
* `C58_upper_refuted`
* `C58_strided_values_refuted`
* `C58_no_convergence_refuted`
* `C60_one_refuted`
* `C60_wide_refuted`
* `C60_tall_refuted`
* `C61_svd_refuted`
* `C61_no_convergence_refuted`
* `C62_tall_refuted`
* `C62_wide_refuted`
* `C63_transpose_refuted`
* `C63_scale_refuted`
* `C64_double_refuted`
* `C64_strided_values_refuted`
* `C64_no_convergence_refuted`
* `C65_elementwise_refuted`
* `C65_scalar_dot_refuted`
* `C66_block_of_tiled_refuted`
* `C66_elementwise_refuted`
* `C67_shift_refuted`
* `C68_moved_from_refuted`
* `C68_resize_refuted`
* `C68_cast_refuted`
* `C68_size_refuted`
* `C69_beta_refuted`
* `C69_dot_large_refuted`
* `C70_norm_complex_refuted`
* `C70_cp_rank_refuted`
* `C72_singular_refuted`
* `C72_one_mode_refuted`
* `C73_race_refuted`
* `C73_scalar_result_refuted`
* `C73_extents_refuted`
* `C75_scalars_refuted`
* `C76_prefactor_refuted`
* `C76_no_label_refuted`
* `C76_sum_refuted`
* `C76_interleaved_refuted`
* `C76_broadcast_refuted`
* `C76_empty_refuted`
* `C77_more_sums_refuted`
* `C77_more_free_refuted`
* `C77_sum_refuted`
* `C77_broadcast_refuted`
* `C77_empty_refuted`
* `C78_transposed_A_refuted`
* `C78_transposed_B_refuted`
* `C78_more_sums_refuted`
* `C78_more_free_refuted`
* `C78_batch_refuted`
* `C78_empty_refuted`
* `C79_negative_refuted`
* `C79_empty_refuted`
* `C79_index_refuted`
* `C79_huge_refuted`
* `C79_no_axis_refuted`
* `C80_key_refuted`
* `C80_overlap_refuted`
* `C81_packed_refuted`
* `C81_overlap_refuted`
* `C81_no_axis_refuted`
* `C81_pair_refuted`
* `C82_shape_refuted`
* `C82_number_refuted`
* `C83_empty_refuted`
* `C84_view_refuted`
* `C84_size_refuted`
* `C84_no_axis_refuted`
* `C85_order_refuted`
* `C86_info_refuted`
* `C86_empty_block_refuted`
* `C87_cutoff_refuted`
* `C88_few_rows_refuted`
* `C88_count_refuted`
* `C88_complex_refuted`
* `C89_few_rows_refuted`
* `C89_count_refuted`
* `C90_rows_refuted`
* `C91_overlap_refuted`
* `C91_block_refuted`
* `C92_identity_refuted`
* `C92_diagonal_like_refuted`
* `C93_threads_refuted`
* `C94_zero_mean_refuted`
* `C94_repeat_refuted`
* `C95_empty_refuted`
* `C96_structure_refuted`
* `C97_short_refuted`
* `C97_input_refuted`
* `C98_order_refuted`
* `C99_digits_zero_refuted`
* `C100_nul_refuted`
* `C100_deindent_refuted`
* `C101_wrap_refuted`
* `C102_blocks_race_refuted`
* `C102_gemm_race_refuted`
* `C102_repeated_label_refuted`
* `C103_dot_refuted`
* `C103_python_refuted`
* `C103_true_dot_view_refuted`
* `C105_accumulate_refuted`
* `C105_view_refuted`
* `C106_large_refuted`
* `C107_view_scalar_refuted`
* `C107_view_set_all_refuted`
* `C108_ger_complex_refuted`
* `C108_ger_view_refuted`
* `C108_views_refuted`
* `C108_gemv_refuted`
* `C109_gesv_nvidia_refuted`
* `C109_syev_no_convergence_refuted`
* `C109_pow_cutoff_refuted`
* `C110_overlap_refuted`
* `C110_rank0_refuted`
* `C110_transposed_refuted`
* `C110_between_refuted`
* `C110_freed_refuted`
* `C110_device_tensor_refuted`
* `C111_resize_refuted`
* `C111_bounds_refuted`
* `C111_move_refuted`
* `C111_moved_refuted`
* `C111_default_refuted`
* `C111_zero_refuted`
* `C111_view_refuted`
* `C112_one_mode_refuted`
* `C112_rank_refuted`
* `C112_worse_refuted`
* `C114_order_refuted`
* `C114_shape_refuted`
* `C114_gap_refuted`
* `C114_increment_refuted`
* `C114_complex_refuted`
* `C114_leak_refuted`
* `C115_rhs_refuted`
* `C115_syev_leak_refuted`
* `C115_half_refuted`
* `C116_shrink_refuted`
* `C116_count_refuted`
* `C116_current_dims_refuted`
* `C116_block_refuted`
* `C117_extents_refuted`
* `C117_other_file_refuted`
* `C120_overflow_refuted`
* `C120_rows_refuted`
* `C121_quiet_refuted`
* `C121_ub_refuted`
* `C122_other_thread_refuted`
* `C124_reversed_refuted`
* `C126_finalize_refuted`
* `C127_skip_refuted`
* `C127_threads_refuted`
* `C127_twice_refuted`
* `C127_error_refuted`
* `C127_lock_refuted`
* `C128_refused_refuted`
* `C129_prefactor_refuted`
* `C130_extent_refuted`
* `C130_stride_refuted`
* `C131_packed_refuted`
* `C133_equal_refuted`
* `C133_spread_refuted`

Found while reading, outside the theorems (no model run): `linear_algebra_imp`'s
block and tiled helpers and `BlockAlgebra.hpp` 44-76, 202-227, 329-356 take the
address of a temporary and do not compile when instantiated;
`RuntimeTensor::operator=(TensorView)` (404-429) and
`operator-(const ArithmeticTensor&&)` do not compile for the arguments they
are written for; `direct_product` calls `zero()` which views lack;
`polynomial::detail::from_roots` loops forever from two roots on.

## 7. Testing the theorems

`seeded/LOG.jsonl` records edits of the model in the style of realistic bugs, one
per line, with the theorems that stopped proving and the theorems tightened when
one survived. `first_failures` are the lemmas at which the build stopped, one per
file; `theorems_failed` are those and the claims whose proofs use them (by name,
resolved through the files' `Require`s). So an entry shows that the proof no
longer goes through, not by itself that the statement has become false; later
lemmas of a stopped file are not checked separately. Edits found to preserve
behaviour carry a `note` and do not count as caught bugs.
