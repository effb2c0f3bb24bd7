{"id": "C01", "title": "Chebyshev forward inverts backward", "statement": "On a `chebyshev(n)` base, transforming spectral coefficients to physical space with `backward` and back with `forward` returns exactly the original coefficients (in exact arithmetic).", "quantifier": "every n >= 2 and every coefficient vector of length n", "why_tests_cant": "A test runs one n and one vector; the identity is about all sizes and all vectors.", "anchors": ["src/chebyshev/ortho.rs: Chebyshev::forward_slice, Chebyshev::backward_slice"]}
{"id": "C02", "title": "Chebyshev backward inverts forward", "statement": "On a `chebyshev(n)` base, `backward(forward(u))` equals u (exact arithmetic), so no physical information is lost.", "quantifier": "every n >= 2 and every physical vector of length n", "why_tests_cant": "Holds for all sizes and vectors; tests sample a handful.", "anchors": ["src/chebyshev/ortho.rs: forward_slice, backward_slice"]}
{"id": "C03", "title": "Chebyshev backward evaluates the series at the base's own coordinates", "statement": "`backward(a)[i]` is the value of the Chebyshev series sum_k a_k T_k(x) at x = coords()[i]; hence `forward` returns the coefficients of the interpolating polynomial.", "quantifier": "every n >= 2, every coefficient vector, every grid index", "why_tests_cant": "Universal over sizes, coefficients and grid points; ties three functions (backward, forward, coords) together.", "anchors": ["src/chebyshev/ortho.rs: backward_slice, forward_slice, nodes, coords"]}
{"id": "C04", "title": "Chebyshev coordinates", "statement": "`coords()` of every Chebyshev base has len_phys points x_k = -cos(pi k/(n-1)), strictly increasing from exactly -1 to exactly 1, and symmetric about 0; all composite bases share them.", "quantifier": "every n >= 2, every grid index (pair)", "why_tests_cant": "All sizes and all pairs of points.", "anchors": ["src/chebyshev/ortho.rs: chebyshev_nodes_2nd_kind, nodes", "src/chebyshev/compo.rs: coords"]}
{"id": "C05", "title": "Chebyshev gradient is the exact derivative", "statement": "`gradient(a, d)` returns the Chebyshev coefficients of the d-th derivative of the polynomial with coefficients a; differentiating d1 then d2 times is differentiating d1+d2 times.", "quantifier": "every n >= 3, every coefficient vector, every number of derivatives d >= 0, every evaluation point x", "why_tests_cant": "Infinitely many polynomials, orders and points.", "anchors": ["src/chebyshev/ortho.rs: gradient_slice", "src/chebyshev/compo.rs: gradient_slice"]}
{"id": "C06", "title": "Chebyshev differentiation matrices agree with gradient", "statement": "`diffmat(d)` (d = 1..4) applied to an orthogonal coefficient vector equals `gradient(.., d)`; for a composite base, `diffmat(d) @ to_ortho(x)` = `gradient(x, d)`; `laplacian()` is the second-derivative matrix.", "quantifier": "every n (subject to machine-integer range, see the next property), every coefficient vector, d in 1..4", "why_tests_cant": "Entry formulas are closed forms in (p,q) of degree up to 7; tests check one n.", "anchors": ["src/chebyshev/ortho.rs: _dmat, diffmat, laplacian", "src/chebyshev/compo.rs: diffmat"]}
{"id": "C07", "title": "Sizes for which Chebyshev diffmat works", "statement": "`diffmat(d)` returns the same matrix in debug and release builds for d=1 (n <= 2^63), d=2 (n <= 2642245), d=4 (n <= 566) and, for d=3, n <= 11 in debug and n <= 7131 in release builds. Beyond: in a debug build diffmat(3) panics for EVERY n >= 12 and diffmat(4) for every n >= 567 (64-bit integer under/overflow inside the entry formula), and the release diffmat(4) is numerically wrong (C06); orders 0 and > 4 panic. (The natural claim 'never fails on a constructible size' is false.)", "quantifier": "every n, every d in 1..4, debug and release arithmetic", "why_tests_cant": "The first failing size depends on machine-integer underflow/overflow inside an intermediate expression; tests use small n.", "anchors": ["src/chebyshev/ortho.rs: _dmat"]}
{"id": "C08", "title": "Chebyshev diffmat_pinv is a pseudo-inverse", "statement": "With (D_pinv, I_pinv) = diffmat_pinv(d): the rows d.. of D_pinv @ diffmat(d) are exactly I_pinv, and the first d rows of D_pinv are zero; the same for every composite base. D_pinv undoes gradient on all but the first d coefficients. This holds for 2d <= n and n up to 2^64-1, 2147483649, 1321124, 32770 (d = 1..4), the last sizes for which the usize products fit in 64 bits; smaller n and other orders panic, larger n panic in a debug build and give a wrong matrix in a release build.", "quantifier": "every n admitted, every d in 1..4, every entry (i,j)", "why_tests_cant": "Tests compare one 14x14 instance to 1e-2; truncation at the last rows/columns depends on n.", "anchors": ["src/chebyshev/ortho.rs: _pinv, _pinv_eye, diffmat_pinv", "src/chebyshev/compo.rs: diffmat_pinv"]}
{"id": "C09", "title": "to_ortho multiplies by the stencil matrix (not for biharmonic bases)", "statement": "For Dirichlet, Neumann and DirichletNeumann Chebyshev bases `to_ortho(v)` equals `stencil() @ v`. For BiHarmonicA/BiHarmonicB the same claim is false: every correctly sized to_ortho call reads out of bounds.", "quantifier": "every base kind, every admissible n, every composite coefficient vector (real or complex)", "why_tests_cant": "The boundary rows are hand unrolled; only particular vectors expose a wrong row.", "anchors": ["src/chebyshev/stencils/helpers.rs: dot_inplace, to_array", "src/chebyshev/compo.rs: to_ortho_slice, stencil"]}
{"id": "C10", "title": "Composite bases satisfy their boundary conditions", "statement": "The polynomial with coefficients `stencil() @ v` satisfies the base's boundary conditions, for all five kinds: Dirichlet u(+-1)=0, Neumann u'(+-1)=0, DirichletNeumann u(-1)=0,u'(1)=0, BiHarmonicA u=u'=0 at +-1, BiHarmonicB u=u''=0 at +-1; and so does the polynomial of `to_ortho(v)` for the non-biharmonic kinds (see C09 for why not the others).", "quantifier": "every base kind, every n, every v", "why_tests_cant": "Rational coefficient formulas in k, every k and every combination.", "anchors": ["src/chebyshev/stencils.rs: Dirichlet::new, Neumann::new, DirichletNeumann::new, BiHarmonicA::new, BiHarmonicB::new", "src/chebyshev/stencils/helpers.rs: dot_inplace"]}
{"id": "C11", "title": "from_ortho solves the normal equations", "statement": "`from_ortho(u)` returns the unique v with S^T S v = S^T u, i.e. the least-squares best approximation of u in the composite space; no pivot of the band solver is ever zero.", "quantifier": "every composite base kind, every n large enough for the solver, every u (real or complex)", "why_tests_cant": "Needs pivots nonzero for all n: a statement about an unbounded recurrence.", "anchors": ["src/chebyshev/stencils/helpers.rs: solve_inplace, get_tdma_diagonals, get_fdma_diagonals", "src/chebyshev/linalg/tdma.rs: tdma", "src/chebyshev/linalg/pdma.rs: pdma", "src/chebyshev/linalg/pdma2.rs: pdma2"]}
{"id": "C12", "title": "from_ortho inverts the stencil", "statement": "`from_ortho(stencil() @ v)` equals v for every composite Chebyshev base, hence `from_ortho(to_ortho(v))` equals v for the non-biharmonic kinds; for the biharmonic kinds the composition from_ortho(to_ortho(v)) is undefined behaviour (C09).", "quantifier": "every base kind, every admissible n, every v", "why_tests_cant": "All sizes and vectors; a wrong boundary row shows only when v's last entries are non-zero.", "anchors": ["src/chebyshev/stencils/helpers.rs: dot_inplace, solve_inplace", "src/chebyshev/compo.rs: to_ortho_slice, from_ortho_slice"]}
{"id": "C13", "title": "stencil_inv is a left inverse of stencil", "statement": "`stencil_inv() @ stencil()` is the identity of size len_spec. For Dirichlet its entry (i,j) is 1, for Neumann (j/i)^2 (1 on the diagonal), where j <= i have the same parity, and 0 elsewhere.", "quantifier": "every composite base kind, every admissible n, every entry", "why_tests_cant": "Tests check one n per kind to 1e-6.", "anchors": ["src/chebyshev/stencils/helpers.rs: pinv, to_array", "src/chebyshev/compo.rs: stencil, stencil_inv"]}
{"id": "C14", "title": "stencil_inv agrees with from_ortho exactly on the range of the stencil", "statement": "The documentation says `stencil_inv @ u` has the same effect as `from_ortho(u)`. For u in the range of the stencil both return the composite coefficients of u; but for every base kind and size there is a u (off the range) for which the two results differ.", "quantifier": "every base kind, n and u", "why_tests_cant": "Equality of two different algorithms on all inputs.", "anchors": ["src/space/traits.rs: BaseSpaceMatOpStencil::stencil_inv", "src/chebyshev/stencils/helpers.rs: pinv, solve_inplace"]}
{"id": "C15", "title": "Band solvers solve their system", "statement": "tdma (offsets -2,0,2), pdma (-2..2), pdma2 (-4,-2,0,2,4) overwrite rhs with the x such that A x = rhs whenever elimination without pivoting is possible, in particular for every strictly diagonally dominant A; the bounds-checked and unchecked variants return the same.", "quantifier": "every size above the asserted minimum, every band values with non-zero pivots, every right-hand side (real or complex)", "why_tests_cant": "All sizes including the small ones where the unrolled blocks overlap.", "anchors": ["src/chebyshev/linalg/tdma.rs: tdma, tdma_checked", "src/chebyshev/linalg/pdma.rs: pdma, pdma_checked", "src/chebyshev/linalg/pdma2.rs: pdma2, pdma2_checked"]}
{"id": "C16", "title": "Unchecked accesses on correctly sized slices: where they stay in bounds", "statement": "On correctly sized slices no unchecked access is out of bounds in from_ortho/forward of any composite base, nor in to_ortho/backward/gradient of the Dirichlet, Neumann and DirichletNeumann bases, nor in any method of the orthogonal base with n >= 3. The exceptions are exact: to_ortho, gradient and backward of both biharmonic bases always access out of bounds, and the orthogonal gradient does iff n = 2 and at least one derivative is taken.", "quantifier": "every base kind, every constructible n, every data", "why_tests_cant": "Undefined behaviour need not be visible in a test run; sizes near the minimum are the interesting ones.", "anchors": ["src/chebyshev/stencils/helpers.rs: dot_inplace, solve_inplace", "src/chebyshev/ortho.rs: gradient_slice", "src/chebyshev/linalg/*"]}
{"id": "C17", "title": "Safe slice methods and slices of arbitrary lengths", "statement": "The orthogonal base's slice methods never access out of bounds whatever slice lengths they are given (gradient: for n >= 3). The composite bases' safe methods are unsound: to_ortho_slice with an output slice longer than n, and from_ortho_slice with an input slice shorter than n, access out of bounds for every base kind and size.", "quantifier": "every pair of slice lengths", "why_tests_cant": "Soundness of a safe API is a statement about all callers.", "anchors": ["src/traits.rs: BaseFromOrtho", "src/chebyshev/stencils/helpers.rs: dot_inplace, solve_inplace", "src/chebyshev/ortho.rs: gradient_slice"]}
{"id": "C18", "title": "Composite transforms: round trip and projection", "statement": "For the Dirichlet, Neumann and DirichletNeumann bases, `forward(backward(v))` equals v, and `backward(forward(u))` is a projection (applying it twice equals applying it once) onto grid functions of polynomials that satisfy the boundary conditions. (backward of the biharmonic bases is undefined behaviour, C16.)", "quantifier": "every composite base kind, n, v and u", "why_tests_cant": "All sizes and vectors; composition of four algorithms.", "anchors": ["src/chebyshev/compo.rs: forward_slice, backward_slice"]}
{"id": "C19", "title": "Fourier r2c: backward inverts forward", "statement": "On `fourier_r2c(n)`, `backward(forward(u))` equals u for real u.", "quantifier": "every n >= 1 (odd and even), every real vector of length n", "why_tests_cant": "All sizes of both parities.", "anchors": ["src/fourier/r2c.rs: forward_slice, backward_slice"]}
{"id": "C20", "title": "Fourier r2c: forward after backward", "statement": "On `fourier_r2c(n)`, `forward(backward(c))` equals c after dropping the imaginary parts of the mean and (n even) of the Nyquist coefficient: the identity on exactly the spectra of real signals.", "quantifier": "every n >= 1, every complex vector of length n/2+1", "why_tests_cant": "All sizes/vectors; parity dependent.", "anchors": ["src/fourier/r2c.rs: forward_slice, backward_slice"]}
{"id": "C21", "title": "Fourier c2c round trips", "statement": "On `fourier_c2c(n)`, forward and backward are mutually inverse.", "quantifier": "every n >= 1, every complex vector of length n", "why_tests_cant": "All sizes and vectors.", "anchors": ["src/fourier/c2c.rs: forward_slice, backward_slice"]}
{"id": "C22", "title": "Fourier r2c gradient is the derivative", "statement": "`gradient(c, d)` on `fourier_r2c(n)` multiplies mode k by (ik)^d, equals `diffmat(d) @ c`, and gives the coefficients of the d-th derivative of the trigonometric function sum_k c_k e^{ikx}.", "quantifier": "every n, every coefficient vector, every d", "why_tests_cant": "All sizes, modes and orders.", "anchors": ["src/fourier/r2c.rs: gradient_slice, diffmat, wavenumber"]}
{"id": "C23", "title": "Fourier c2c differentiation: diffmat right, gradient only on non-negative frequencies", "statement": "On `fourier_c2c(n)`, `diffmat(d) @ c` gives the coefficients of the d-th derivative of sum_k c_k e^{i f_k x} (f = 0,1,2,..,-2,-1). Entry k of `gradient(c, d)`, d >= 1, agrees with it exactly when f_k >= 0 or c_k = 0: on negative frequencies the gradient multiplies by (i(n-1-k))^d instead of (i(k-n))^d, so it loses e^{-ix} altogether. (The natural claim 'gradient is the derivative' is false for every n >= 2.)", "quantifier": "every n, every coefficient vector, every d", "why_tests_cant": "Negative frequencies are stored in the second half; only some modes reveal a wrong wavenumber.", "anchors": ["src/fourier/c2c.rs: gradient_slice, diffmat, wavenumber"]}
{"id": "C24", "title": "Fourier laplacian, diffmat_pinv and laplacian_pinv", "statement": "Fourier `laplacian()` is diffmat(2); in `diffmat_pinv(d)`/`laplacian_pinv()`, rows 1.. of D_pinv @ D are I_pinv.", "quantifier": "every n, every d >= 1, every entry", "why_tests_cant": "All sizes and entries.", "anchors": ["src/fourier/r2c.rs: laplacian, diffmat_pinv, laplacian_pinv", "src/fourier/c2c.rs: laplacian, diffmat_pinv, laplacian_pinv"]}
{"id": "C25", "title": "Axis operations act lane by lane", "statement": "forward/backward/to_ortho/from_ortho/gradient of an n-dimensional array along `axis` apply the 1-D slice operation to every lane along that axis independently, and leave the other axes' structure unchanged.", "quantifier": "every dimension, shape, axis and content; contiguous and strided axis", "why_tests_cant": "All dimensions/axes; scratch buffers are shared between lanes so stale data must never leak.", "anchors": ["src/internal_macros.rs: apply_along_axis", "src/traits.rs: gradient_inplace"]}
{"id": "C26", "title": "Parallel variants equal serial variants under every schedule", "statement": "The *_par variants return the same array as the serial ones whatever order or interleaving the lanes are processed in.", "quantifier": "every schedule/interleaving of lane tasks, every shape, axis, content", "why_tests_cant": "A test observes one schedule.", "anchors": ["src/internal_macros.rs: par_apply_along_axis", "src/traits.rs: gradient_inplace_par"]}
{"id": "C27", "title": "Size mismatches are detected before anything is written", "statement": "If the input or output array has the wrong extent along the axis, the call panics without writing to the output; otherwise it never panics for size reasons.", "quantifier": "every shape, axis and base", "why_tests_cant": "All mismatching shapes.", "anchors": ["src/utils.rs: check_array_axis", "src/internal_macros.rs: apply_along_axis"]}
{"id": "C28", "title": "Results do not depend on the previous content of the output array", "statement": "Every `*_inplace` operation computes a result that is a function of the input only: whatever the output array contained before, the outcome is the same as the allocating variant.", "quantifier": "every previous output content, every base, shape and axis", "why_tests_cant": "All stale contents; a conditional write would leave stale data.", "anchors": ["src/traits.rs: BaseFromOrtho, BaseTransform, BaseGradient", "src/space/traits.rs: *_inplace"]}
{"id": "C29", "title": "Space1 and Space2 transforms", "statement": "Space1/Space2 forward, backward, to_ortho and from_ortho apply each axis' own base lane by lane along its axis and give arrays of the documented shapes; wrong extents are rejected. to_ortho, from_ortho and (whenever both element types agree: r2r x r2r, c2c x c2c) forward/backward give the same result in either axis order. forward(backward(a)) = a for the spectral arrays of the base kinds that round trip in 1-D, backward(forward(v)) = v for orthogonal bases, from_ortho(to_ortho(a)) = a, and forward . backward . forward = forward for every admissible pair. The *_par methods return what the serial methods return.", "quantifier": "every admissible pair of bases, every array", "why_tests_cant": "All sizes, all base combinations, all arrays.", "anchors": ["src/space/space1.rs: forward, backward, to_ortho, from_ortho", "src/space/space2.rs: forward, backward, to_ortho, from_ortho, *_par"]}
{"id": "C30", "title": "Space3 transforms", "statement": "Space3 forward, backward, to_ortho and from_ortho apply each axis' own base along its axis, give the documented shapes, reject wrong extents, do not depend on the order of the axes wherever the element types allow another order, round trip as in 1-D, satisfy forward . backward . forward = forward, and their *_par variants return what the serial methods return.", "quantifier": "every admissible triple of bases, every array", "why_tests_cant": "All sizes, all base combinations, all arrays.", "anchors": ["src/space/space3.rs: forward, backward, to_ortho, from_ortho, *_par"]}
{"id": "C31", "title": "Space gradients use each axis' own base (false for Space3)", "statement": "Space1 and Space2 `gradient(input, d, scale)` differentiates d_i times along axis i with base i, in either axis order. Space3 `gradient`/`gradient_par` never looks at its third base: it differentiates along axis 2 with base 1. It therefore panics whenever the extents of bases 1 and 2 differ, gives the intended result when base 2 equals base 1, and silently returns wrong values for some bases of equal extents (e.g. Dirichlet and Neumann). (The natural claim 'Space3 gradient uses base i along axis i' is false.)", "quantifier": "every admissible pair/triple of bases, every array, every d", "why_tests_cant": "Only shows when bases 1 and 2 differ.", "anchors": ["src/space/space1.rs: gradient", "src/space/space2.rs: gradient, gradient_par", "src/space/space3.rs: gradient, gradient_par"]}
{"id": "C32", "title": "Space gradient scale", "statement": "With scale Some([s_i]), s_i != 0 and d_i < 2^31, the gradient is the unscaled gradient divided by prod s_i^{d_i}; for Chebyshev-type and Fourier x Chebyshev spaces this is the (mixed partial) derivative of the represented function with respect to the stretched coordinates s_i x_i. With None it is unscaled. For d_i >= 2^31 the exponent is converted `as i32` and wraps, so the result is not divided by s_i^{d_i}.", "quantifier": "every array, derivative counts and non-zero scales", "why_tests_cant": "All values.", "anchors": ["src/space/space1.rs: gradient", "src/space/space2.rs: gradient", "src/space/space3.rs: gradient"]}
{"id": "C33", "title": "Distribution is a balanced partition", "statement": "Splitting n_global points over nprocs ranks gives contiguous, disjoint, covering blocks in rank order, sizes differ by at most one, and every rank computes the same table.", "quantifier": "every n_global >= nprocs >= 1, every rank", "why_tests_cant": "All (n, nprocs) pairs; off-by-one errors appear for particular remainders.", "anchors": ["src/space_mpi/decomp2d/distribute.rs: Distribution::new, distribute"]}
{"id": "C34", "title": "Distribution with more ranks than points", "statement": "With fewer points than ranks along a split axis, Distribution::new panics in a debug build. In a release build it returns: the first nprocs - n ranks get empty blocks (whose last index is usize::MAX) and the others one point each, but transpose_x_to_y on that decomposition then never returns on any rank. (The natural claim that such decompositions work is false.)", "quantifier": "every number of axes, every shape with n < nprocs along a split axis, every rank", "why_tests_cant": "The failing pairs are those with n_global < nprocs, which nobody tests.", "anchors": ["src/space_mpi/decomp2d/distribute.rs: distribute"]}
{"id": "C35", "title": "Pencil transposes move every element to its place", "statement": "transpose_x_to_y turns the x-pencil slices of a global array into its y-pencil slices, transpose_y_to_x the reverse; both orders compose to the identity; send and receive counts match between every pair of ranks.", "quantifier": "every global shape with n0,n1 >= nprocs, every number of ranks, every global array", "why_tests_cant": "All process counts; tests run with one.", "anchors": ["src/space_mpi/decomp2d/mod.rs: transpose_x_to_y, transpose_y_to_x, split_xy, merge_xy, split_yx, merge_yx", "src/space_mpi/decomp2d/distribute.rs: get_counts_all_to_all"]}
{"id": "C36", "title": "Gather, all_gather and scatter are exact", "statement": "gather_x/gather_y/all_gather_x/all_gather_y reassemble the global array from its pencils; scatter_x/scatter_y hand each rank exactly its pencil; gather after scatter is the identity. split_array cuts out the same pencils; split_array_inplace does so into a given array, which must have the pencil's shape (or the pencil is one element thick along the axis and repeated), otherwise it panics.", "quantifier": "every global shape, number of ranks, array", "why_tests_cant": "All process counts.", "anchors": ["src/space_mpi/decomp2d/mod.rs: gather_x*, gather_y*, scatter_x*, scatter_y*, all_gather_x, all_gather_y", "src/space_mpi/decomp2d/distribute.rs: get_counts_all_gather, split_array, split_array_inplace"]}
{"id": "C37", "title": "Shape checks reject wrong pencils", "statement": "Communication routines panic when a local array is not of the pencil shape the rank owns, and accept exactly the right shape.", "quantifier": "every local shape, rank, distribution", "why_tests_cant": "All wrong shapes.", "anchors": ["src/space_mpi/decomp2d/distribute.rs: check_shape"]}
{"id": "C38", "title": "DecompHandler histories", "statement": "After any sequence of inserts, looking up a global shape returns the first inserted decomposition of exactly that shape, and panics iff none was inserted. Inserting a shape again never panics and never changes the result of any lookup, but (contrary to what or_insert suggests) the public `decomp` map still grows by one entry: it always holds as many entries as there were inserts.", "quantifier": "every history of insert operations, every lookup", "why_tests_cant": "All histories.", "anchors": ["src/space_mpi/decomp_handler.rs: insert, get_decomp_from_global_shape"]}
{"id": "C39", "title": "Space2Mpi registers every decomposition it looks up", "statement": "Every decomposition that the Space2Mpi methods look up (physical, spectral, orthogonal and mixed shapes) was registered by the constructor, so lookups never panic.", "quantifier": "every pair of bases and sizes", "why_tests_cant": "All base-size combinations.", "anchors": ["src/space_mpi/space2.rs: Space2Mpi::new, forward_inplace_mpi, backward_inplace_mpi, to_ortho_inplace_mpi, from_ortho_inplace_mpi, gradient_mpi"]}
{"id": "C40", "title": "Distributed transforms equal serial transforms", "statement": "forward_mpi/backward_mpi/to_ortho_mpi/from_ortho_mpi/gradient_mpi on the pencils of a global array produce the pencils of the serial Space2 result.", "quantifier": "every base pair, every number of ranks, every array", "why_tests_cant": "All process counts and sizes.", "anchors": ["src/space_mpi/space2.rs: forward_inplace_mpi, backward_inplace_mpi, to_ortho_inplace_mpi, from_ortho_inplace_mpi, gradient_mpi", "src/space/space2.rs"]}
{"id": "C41", "title": "Scalar reductions", "statement": "all_gather_sum / gather_sum give every rank / the root the sum of all ranks' contributions; broadcast_scalar gives everyone the root's value.", "quantifier": "every number of ranks, every values", "why_tests_cant": "All process counts.", "anchors": ["src/space_mpi/decomp2d/functions.rs: all_gather_sum, gather_sum, broadcast_scalar"]}
{"id": "C42", "title": "approx_eq helpers accept only close vectors", "statement": "`approx_eq`/`approx_eq_ndarray` panic iff some pair of entries in the common prefix differs by 1e-3 or more; `approx_eq_complex`/`approx_eq_complex_ndarray` panic iff in some such pair both the real and the imaginary parts differ by 1e-3 or more. (The natural claim that they reject every pair of vectors that is not close is false: a length mismatch is ignored, and complex numbers that differ arbitrarily in one component are accepted.)", "quantifier": "every pair of vectors or arrays", "why_tests_cant": "All vectors.", "anchors": ["src/utils.rs: approx_eq, approx_eq_complex"]}
{"id": "C43", "title": "Number of Fourier coordinates", "statement": "In exact arithmetic `coords()` of a Fourier base has exactly len_phys = n points x_j = 2 pi j / n. In IEEE binary64 (n <= 2^51) it has n or n+1 points; it has n+1 exactly when round(2pi/round(2pi/n)) > n; powers of two are always right; n = 61*2^k (61, 122, 244, ...) always has one point too many, so coords().len() != len_phys. (The natural claim 'coords().len() == len_phys' is false.)", "quantifier": "every n >= 1, in exact arithmetic and in the IEEE binary64 arithmetic the code uses", "why_tests_cant": "Depends on a floating point ceil for each n; fails only for sparse n.", "anchors": ["src/fourier/r2c.rs: nodes", "src/fourier/c2c.rs: nodes"]}
{"id": "C44", "title": "Constructible sizes versus usable sizes", "statement": "A composite base can be constructed iff n >= 4 (biharmonic: n >= 8). Dirichlet/Neumann bases with n >= 5 and DirichletNeumann bases with n >= 6 support to_ortho, from_ortho, forward, backward and gradient without panicking. The constructible sizes below (n = 4; DirichletNeumann n = 4, 5; biharmonic n = 8, 9) always panic in from_ortho. (The natural claim 'every constructible base is usable' is false.)", "quantifier": "every base kind and n", "why_tests_cant": "The thresholds of constructor and methods differ; all small n.", "anchors": ["src/chebyshev/stencils.rs: *::new, get_m", "src/chebyshev/linalg/pdma2.rs: pdma2", "src/chebyshev/linalg/tdma.rs: tdma"]}
{"id": "C45", "title": "Transforms are linear", "statement": "forward, backward, to_ortho, from_ortho, gradient of every base are linear over the reals.", "quantifier": "every base kind, n, vectors and real scalars", "why_tests_cant": "All vectors.", "anchors": ["src/chebyshev/ortho.rs", "src/chebyshev/compo.rs", "src/fourier/r2c.rs", "src/fourier/c2c.rs"]}
{"id": "C46", "title": "Integer counts of the MPI layer", "statement": "The counts and displacements passed to MPI are the exact element counts and their prefix sums (no wrap-around of the i32 conversions) whenever both local pencils (transposes) or the global array (gather, all_gather, scatter) have fewer than 2^31 elements; above that bound each routine panics before it communicates, in debug and release builds.", "quantifier": "every shape, number of ranks and build mode", "why_tests_cant": "Huge sizes.", "anchors": ["src/space_mpi/decomp2d/distribute.rs: get_counts_all_gather, get_counts_all_to_all"]}
{"id": "C47", "title": "Fourier transforms evaluate and interpolate trigonometric series", "statement": "On Fourier bases `backward(c)` is the value of the trigonometric series with coefficients c (divided by n) at the points 2 pi j/n, `forward(u)` gives the coefficients of the interpolating series, and on r2c `backward(gradient(c, d))` is the d-th derivative of the series at these points, Nyquist mode included.", "quantifier": "every n >= 1 (odd and even), every vector, every d", "why_tests_cant": "All sizes, vectors and derivative orders.", "anchors": ["src/fourier/r2c.rs: forward_slice, backward_slice, gradient_slice", "src/fourier/c2c.rs: forward_slice, backward_slice"]}
{"id": "C48", "title": "Space2Mpi pencil helpers", "statement": "The physical and spectral pencil shapes, zero arrays, gather/all_gather/scatter and transposes of Space2Mpi use the decomposition of the matching global shape: each rank's array has exactly the shape of its pencil, gather reassembles the global array on the root (all_gather on every rank), scatter hands every rank its pencil of the root's array, and the transposes convert x-pencils to y-pencils and back.", "quantifier": "every base pair, every number of ranks, every array, every schedule", "why_tests_cant": "All process counts, sizes and histories.", "anchors": ["src/space_mpi/space2.rs: shape_*, ndarray_*, gather_*, all_gather_*, scatter_*, transpose_*"]}
{"id": "C49", "title": "Accessors answer for the requested axis", "statement": "base_kind, transform_kind, coords_axis, stencil, stencil_inv, laplacian and laplacian_pinv of Space1/2/3 return exactly what the base of the requested axis returns; coords returns one coordinate array per axis, which is the grid of that axis' base (Chebyshev points, or equispaced points on [0, 2 pi)). Space3 panics for an axis beyond 2; Space2 answers with its second base for every axis >= 1, and Space1 ignores the axis (no panic). The printed name of a base's kind determines its constructor; it is the documented name, except that the Chebyshev base prints 'Chebyhev'.", "quantifier": "every combination of bases, sizes and axis numbers", "why_tests_cant": "All base combinations, sizes and axis values.", "anchors": ["src/space/space1.rs: base_kind, transform_kind, coords_axis, coords, stencil, stencil_inv, laplacian, laplacian_pinv", "src/space/space2.rs: base_kind, transform_kind, coords_axis, coords, stencil, stencil_inv, laplacian, laplacian_pinv", "src/space/space3.rs: base_kind, transform_kind, coords_axis, coords, stencil, stencil_inv, laplacian, laplacian_pinv", "src/internal_macros.rs: base_kind, transform_kind, coords_axis, coords, stencil, stencil_inv, laplacian, laplacian_pinv"]}
{"id": "C50", "title": "to_ortho of a space is its stencils, from_ortho data is recovered by its stencil inverses", "statement": "For Space1/2/3, to_ortho(a) equals the product of the axes' stencil() matrices with a along their axes (a_ij -> sum_kl M0_ik M1_jl a_kl), and applying stencil_inv() along every axis to to_ortho(a) gives back a.", "quantifier": "every usable combination of bases, all sizes, all coefficient arrays", "why_tests_cant": "All sizes and coefficients; unit tests compare a few literals.", "anchors": ["src/space/space1.rs: stencil, stencil_inv, to_ortho", "src/space/space2.rs: stencil, stencil_inv, to_ortho", "src/space/space3.rs: stencil, stencil_inv, to_ortho"]}
{"id": "C51", "title": "laplacian and laplacian_pinv", "statement": "laplacian() applied to coefficients in the orthogonal space gives the coefficients of the second derivative of the represented function, for every base; it equals gradient with derivative order 2 along the matching axis in Space1, Space2 and Space3 (Space3 when its second and third bases are equal; not for FourierC2c, whose gradient is wrong); laplacian_pinv returns (P, J) with P @ laplacian = J and J the identity without its first rows (1 for Fourier, 2 for Chebyshev), so that solving laplacian u = f by P recovers all but the lowest modes of u.", "quantifier": "every base, every size n in the documented range, all coefficient vectors", "why_tests_cant": "All sizes and coefficients.", "anchors": ["src/chebyshev/ortho.rs: laplacian, laplacian_pinv", "src/chebyshev/compo.rs: laplacian, laplacian_pinv", "src/fourier/r2c.rs: laplacian, laplacian_pinv", "src/fourier/c2c.rs: laplacian, laplacian_pinv", "src/space/space1.rs: laplacian, laplacian_pinv", "src/space/space2.rs: laplacian, laplacian_pinv", "src/space/space3.rs: laplacian, laplacian_pinv"]}
{"id": "C52", "title": "backward of a space evaluates the represented function on the product grid", "statement": "backward(a)[i, j, ..] of Space1/2/3 is the value at (coords_axis(0)[i], coords_axis(1)[j], ..) of the function with coefficients a; for orthogonal bases forward(v) are the coefficients of a function that takes the values v at the grid points; gradient with scale followed by backward in the orthogonal space of the same sizes gives the mixed partial derivative, in the stretched coordinates, at the stretched grid points (bases other than FourierC2c; Space3 when its second and third bases are equal).", "quantifier": "every usable combination of bases, all sizes, all coefficient arrays, derivative orders and scales", "why_tests_cant": "All sizes, coefficients and derivative orders; tests sample a few functions.", "anchors": ["src/space/space1.rs: coords, forward, backward, gradient", "src/space/space2.rs: coords, forward, backward, gradient", "src/space/space3.rs: coords, forward, backward, gradient"]}
{"id": "C53", "title": "Structure is independent of the arithmetic and of the FFT library", "statement": "For every scalar arithmetic (including IEEE binary64 with rounding, NaN and infinities) and every FFT/DCT library that fills buffers of the planned length: each slice method (to_ortho, from_ortho, forward, backward, gradient) of a base terminates without panic or undefined behaviour on slices of the right lengths (for the stated sizes n), writes the whole output, and the output does not depend on its old content; the axis methods apply the slice method to each line along the axis, parallel equals serial and in-place equals allocating, bit for bit; Space1/2/3 methods apply each base's method on its axis in the documented order; the distributed Space2Mpi methods give on every schedule the pencils of exactly (bit for bit) the array that the serial Space2 methods give.", "quantifier": "every arithmetic, every library obeying its length contract, every base, size, array, axis, number of ranks and schedule", "why_tests_cant": "Tests run one arithmetic, one library and compare with tolerance; structure must hold bit for bit for all values including NaN.", "anchors": ["src/chebyshev/ortho.rs", "src/chebyshev/compo.rs", "src/fourier/r2c.rs", "src/fourier/c2c.rs", "src/internal_macros.rs", "src/space/space2.rs", "src/space/space3.rs", "src/space_mpi/space2.rs"]}
{"id": "C54", "title": "Rounding errors are bounded", "statement": "In IEEE floating-point arithmetic (f32, f64, any correctly rounding format) the results differ from the exact ones by proved bounds: the tridiagonal solver returns x whose residual is, row by row, at most 12 u times the row's own terms (plus subnormal terms); Dirichlet `to_ortho` makes at most one rounding per coefficient, so its result satisfies the boundary conditions up to 2 u sum|c|; `from_ortho` differs from the exact program by at most (n+1)^2 (u (|a| + 2|x|) + tiny); `from_ortho(to_ortho(c))` returns c up to (n+1)^2 2^-51 max|c| in f64 and never overflows for |c| <= 2^960, n <= 2^25; the Chebyshev `gradient` of order d differs from the exact derivative by at most ((1 + 2 n u)^d - 1) times the derivative of the absolute coefficients (plus subnormal terms), for real and complex coefficients; the Neumann base: `to_ortho` is the rounded stencil, the end-point derivatives of its result vanish up to 5 u sum j^2 |c_j|, `from_ortho(to_ortho(c))` returns c up to 13 n^2 u max|c| and never overflows for |c| <= 2^960, n <= 2^24 (f64); the Fourier derivatives of order d have relative error at most (1+u)^d - 1 in every mode; every coefficient of DirichletNeumann `to_ortho` is within 5 u times the sum of the sizes of its own three terms (plus subnormal terms).", "quantifier": "every size n in the stated range, every finite input, every derivative order, f32 and f64", "why_tests_cant": "A tolerance in a test says nothing about other inputs, sizes or magnitudes.", "anchors": ["src/chebyshev/linalg/tdma.rs: tdma", "src/chebyshev/ortho.rs: gradient_slice", "src/chebyshev/compo.rs: to_ortho_slice, from_ortho_slice", "src/chebyshev/stencils.rs: Dirichlet, Neumann", "src/fourier/r2c.rs, src/fourier/c2c.rs: gradient_slice"]}
{"id": "C55", "title": "Transforms are accurate in floating point", "statement": "If the DCT/FFT library returns the sums it documents up to a relative error dl (of the sum of the input magnitudes) and an absolute error zt, then in any correctly rounding arithmetic (f32, f64) with unit roundoff u: Chebyshev `backward` returns the values of the series at the nodes up to (2.1 dl + u) sum|a|, `forward` the interpolation coefficients up to (1.1 dl + 4 u) 2/(n-1) sum|x|, and the round trips return the input up to (16 dl + 24 u) sum|x| resp. (14 dl + 21 u) sum|a| (plus subnormal terms); the same for the Dirichlet and Neumann bases (with the factor (n+1)^2 resp. n^2 where `forward` solves its tridiagonal system) and for the complex and real-to-complex Fourier bases; DirichletNeumann `backward` returns the values of its series up to (5 dl + 9 u) sum|c|; in f64, for inputs with sum of magnitudes up to 2^900 (in f32: 2^60) and libraries that do not overflow themselves, every round trip returns finite numbers. A library of this accuracy exists (the correctly rounded sums).", "quantifier": "every size n in the stated range, every finite input, every library of the stated accuracy, every accuracy dl, zt; f64 and f32 instances", "why_tests_cant": "A tolerance in a test says nothing about other inputs, sizes, magnitudes or libraries.", "anchors": ["src/chebyshev/ortho.rs: forward_slice, backward_slice", "src/chebyshev/compo.rs: forward_slice, backward_slice", "src/fourier/r2c.rs: forward_slice, backward_slice", "src/fourier/c2c.rs: forward_slice, backward_slice"]}
{"id": "C56", "title": "Round trips of spaces are accurate in floating point", "statement": "In f64, with DCT/FFT libraries of relative error dl <= 1/2000 and absolute error zt <= 1 (C55), `backward(forward(a))` of Space1, Space2 and Space3 with Chebyshev and Fourier bases returns a proper array whose every entry is finite and differs from that of a by at most 33, 178 resp. 816 times (dl + 2^-53) times the sum of the sizes of all entries (plus a subnormal term of 29, 90, 218 times (number of points)^2 (2^-1075 + zt)); `forward(backward(c))` gives back c with the same bounds (on a FourierR2c first axis, without the imaginary parts of the modes 0 and n/2, which a real transform cannot carry), when the other axes have no real-to-complex base.", "quantifier": "every combination of Chebyshev, FourierR2c and FourierC2c bases the types admit, up to 2^20 points per axis, every array of finite entries whose sizes sum to at most 2^800, every order in which the axis methods visit the lanes", "why_tests_cant": "A tolerance in a test says nothing about other inputs, sizes, magnitudes or base combinations.", "anchors": ["src/space/space1.rs: forward, backward", "src/space/space2.rs: forward, backward", "src/space/space3.rs: forward, backward"]}
{"id": "C57", "title": "Spectral round trips with Dirichlet and Neumann bases are accurate in floating point", "statement": "In f64, with DCT/FFT libraries of relative error dl and absolute error zt <= 1 (C55), `forward(backward(c))` of Space1, Space2 and Space3, on any combination of Chebyshev, Fourier, Dirichlet and Neumann bases, returns a proper array whose every entry is finite and differs from that of c by at most 63, 385 resp. 2027 times K (dl + 2^-53) times the sum of the sizes of all coefficients (plus a subnormal term of 32, 100, 242 times K (number of points)^2 (2^-1075 + zt)), where K is the product over the Dirichlet and Neumann axes of (n+1)^2, provided K (dl + 2^-53) <= 1/2000; on a FourierR2c first axis, without the imaginary parts of the modes 0 and n/2.", "quantifier": "every combination of Chebyshev, Dirichlet, Neumann, FourierR2c (first axis) and FourierC2c bases the types admit, up to 2^20 points per axis, every array of finite coefficients whose sizes sum to at most 2^800, every order in which the axis methods visit the lanes", "why_tests_cant": "A tolerance in a test says nothing about other inputs, sizes, magnitudes or base combinations.", "anchors": ["src/space/space1.rs: forward, backward", "src/space/space2.rs: forward, backward", "src/space/space3.rs: forward, backward", "src/chebyshev/compo.rs: forward_slice, backward_slice"]}
{"id": "C58", "title": "Transforms of spaces compute the exact values and coefficients up to rounding", "statement": "In f64, with DCT/FFT libraries of relative error dl and absolute error zt <= 1 (C55): `backward` of Space1, Space2 and Space3 returns at every grid point a finite number that differs from the value of the represented function there (the sum over all coefficients of c times the products of the basis functions T_k, T_k - T_(k+2), T_k - (k/(k+2))^2 T_(k+2), T_k + r_k T_(k+1) - s_k T_(k+2) (DirichletNeumann: u(-1) = 0, u'(1) = 0), e^(ikx)/n at the points) by at most 5, 10.5 resp. 16.5 times K (dl + 2^-53) times the sum of the sizes of the coefficients, where K bounds the basis functions (1 Chebyshev, 2 Dirichlet/Neumann/DirichletNeumann, 2/n Fourier), plus a subnormal term; `forward` returns the coefficients of the function with the given values (on Dirichlet and Neumann axes, of the least-squares fit of the Chebyshev coefficients), each up to (1, 1.05, 1.1) times (sum of L) K (dl + 2^-53) times the sum of the sizes of the values plus a subnormal term, where L is 4, or 16 (n+1)^2 on Dirichlet and Neumann axes, as long as L (dl + 2^-53) <= 1/100.", "quantifier": "every combination of Chebyshev, Dirichlet, Neumann, FourierR2c (first axis) and FourierC2c bases the types admit, up to 2^20 points per axis, every array of finite entries whose sizes sum to at most 2^800, every order in which the axis methods visit the lanes", "why_tests_cant": "A tolerance in a test says nothing about other inputs, sizes, magnitudes or base combinations.", "anchors": ["src/space/space1.rs: forward, backward", "src/space/space2.rs: forward, backward", "src/space/space3.rs: forward, backward", "src/chebyshev/compo.rs: forward_slice, backward_slice"]}
{"id": "C59", "title": "Gradients of spaces compute the exact derivative up to rounding", "statement": "In f64, for every order of differentiation d per axis: `gradient` of Space1, Space2 and Space3 without scale returns finite coefficients, each close to the coefficient of the exact derivative of the represented function (Chebyshev series, Chebyshev series in the Dirichlet, Neumann or DirichletNeumann basis, Fourier series; the exact coefficients are the sums of GradSpec.v, which are proved to be those of the derivative). The error is at most L K 2^-53 (one axis), 1.05 (L0+L1) K0 K1 2^-53 (two axes), 1.1 (L0+L1+L2) K0 K1 K2 2^-53 (three axes) times the sum of the sizes of the coefficients, plus a subnormal term, where per axis L = 4 (d+1) n and K bounds the entries of the exact derivative: 2 n^(2d-1) Chebyshev, 4 n^(2d-1) Dirichlet, Neumann and DirichletNeumann, (n/2+1)^d Fourier; as long as L 2^-53 <= 1/100 and K (1 + sum) <= 2^900. On FourierC2c axes (K = n^d) the map approximated is the one the code stands for (C23): the derivative on the modes of frequency >= 0, the factor i (n-1-k) instead of -i (n-k) on the others; the result approximates the derivative of a mode if and only if its frequency is not negative or it vanishes. On three axes the base of axis 1 is used for axis 2 as well (C31). With a scale (finite factors whose powers lie between 2^-100 and 2^100, orders below 2^31) the result is close to the exact derivative divided by the exact product of the powers: error 1.2 (sum of the L and of the orders + 6) K 2^-53 times the sum of the sizes, divided by that product. A scale factor below 2^-540 makes every complex entry non-finite (num-complex divides by the square of the divisor), although the same factor is harmless for real entries.", "quantifier": "every order, every combination of Chebyshev (>= 3 points), Dirichlet and Neumann (>= 5 points) FourierR2c and FourierC2c bases the types admit, real and complex coefficients (also with the complex products and quotients of num-complex), every finite array within the range, every order in which the axis methods visit the lanes", "why_tests_cant": "A tolerance in a test says nothing about other orders, sizes, inputs or magnitudes; overflow depends on all of them.", "anchors": ["src/space/space1.rs: gradient", "src/space/space2.rs: gradient", "src/space/space3.rs: gradient", "src/chebyshev/compo.rs: gradient_slice"]}
{"id": "C60", "title": "to_ortho and from_ortho of spaces compute the exact change of basis up to rounding", "statement": "In f64, on Space1, Space2 and Space3: `to_ortho` returns finite coefficients, each within 6 u S (one axis), 12.6 u S (two), 19.8 u S (three), plus a subnormal term, of the exact expansion of the composite functions (T_k - q_k T_(k+2) on Dirichlet and Neumann, T_k + r_k T_(k+1) - s_k T_(k+2) on DirichletNeumann axes) in Chebyshev polynomials, where u = 2^-53 and S is the sum of the sizes of the coefficients; `from_ortho` returns finite coefficients, each within (1, 1.05, 1.1) (sum of L) (product of K) u S plus a subnormal term of the exact least-squares fit, where K = (n+1)^2, L = 8 (n+1)^2 on Dirichlet and Neumann axes and K = 1, L = 4 on orthogonal ones. The exact fit is the unique minimiser of the mean-square residual and the left inverse of the exact expansion. Hence `from_ortho` after `to_ortho` gives every coefficient back within (product of K) (c sum(L) + d N) u S plus a subnormal term, where N is the number of orthogonal coefficients and (c, d) = (2, 7), (5, 13), (9, 21) for one, two, three axes, for S <= 2^700.", "quantifier": "every combination of Chebyshev, Dirichlet, Neumann, FourierR2c and FourierC2c bases the types admit, up to 2^20 points per axis, real and complex coefficients, every array of finite entries whose sizes sum to at most 2^800, every order in which the axis methods visit the lanes", "why_tests_cant": "A tolerance in a test says nothing about other inputs, sizes, magnitudes or base combinations.", "anchors": ["src/space/space1.rs: to_ortho, from_ortho", "src/space/space2.rs: to_ortho, from_ortho", "src/space/space3.rs: to_ortho, from_ortho", "src/chebyshev/compo.rs: to_ortho_slice, from_ortho_slice"]}
{"id": "C61", "title": "The distributed example programs run to completion", "statement": "main() of examples/space_mpi.rs and examples/space_complex_mpi.rs - construct a Space2Mpi, scatter values from the root, `forward_inplace_mpi`, `backward_inplace_mpi`, `all_gather_from_y_pencil_phys`, the same computation with the serial methods, `assert_eq!` of the two results, `to_ortho_mpi`, `from_ortho_mpi` - returns on every rank: no deadlock, no panic, no mismatched collective and no undefined behaviour. In any arithmetic the assertion can fail only if the serial result contains a number not equal to itself; in f64, with DCT/FFT libraries of the accuracy of C55, it holds. In particular for the bases the programs use (Dirichlet 16 x Dirichlet 10, FourierR2c 32 x Dirichlet 10) on 1 to 8 ranks.", "quantifier": "every number of ranks not larger than an axis, every schedule of the ranks, every pair of usable bases the types admit with fewer than 2^31 points, every values function, both build modes, every lane order on every rank", "why_tests_cant": "One mpirun fixes the number of ranks, the schedule and the bases; the element-wise equality of the distributed and the serial result is bitwise and must not depend on them.", "anchors": ["examples/space_mpi.rs: main", "examples/space_complex_mpi.rs: main", "src/space_mpi/space2.rs: forward_inplace_mpi, backward_inplace_mpi, scatter_to_y_pencil_phys_root, all_gather_from_y_pencil_phys, to_ortho_mpi, from_ortho_mpi"]}
{"id": "C62", "title": "The field example wraps a space faithfully; its solver ingredients panic on Chebyshev axes", "statement": "FieldBase of examples/field.rs. (a) A new field holds zero arrays of the shapes of its space and, axis by axis, the grid of the base of that axis and its cell widths. `dx` holds the weights of the trapezoidal rule on `x`: sum f_i dx_i is the integral of the piecewise linear interpolant of f; on the grids of the library all cells are positive and add up to 2 (Chebyshev) or 2 pi (n-1)/n (Fourier: the cell that closes the period is missing). (b) `forward`, `backward`, `to_ortho`, `from_ortho`, `gradient` compute, whatever the worker threads do, exactly what the serial methods of the space compute from `v` / `vhat`, and change no other member. (c) On a Fourier axis `ingredients_for_hholtz` returns the identity, diag(-k^2) and no preconditioner, and `ingredients_for_poisson` adds true. (d) On every Chebyshev axis (orthogonal or composite, any size, any arithmetic, both build modes) both panic: they assign an (n-2) x n product to an n x n array. (e) main() returns in every schedule, with the field whose `v` is backward(forward(1)); in f64 with accurate DCT/FFT libraries all its values are finite.", "quantifier": "every grid, every usable space of one, two or three axes, every schedule of the worker threads, every axis and size, any arithmetic (b, d, e)", "why_tests_cant": "The example is never run with another space, the ingredients functions are never called, and a run shows one schedule.", "anchors": ["examples/field.rs: FieldBase::new, forward, backward, to_ortho, from_ortho, gradient, get_dx, ingredients_for_hholtz, ingredients_for_poisson, main"]}
{"id": "C63", "title": "Distributed transforms, basis changes and gradients are accurate in floating point", "statement": "In f64, with DCT/FFT libraries of relative error dl and absolute error zt <= 1 (C55): split a global field of finite values in pencils over p ranks. `forward_mpi`, `backward_mpi`, `to_ortho_mpi`, `from_ortho_mpi`, their `_inplace` forms and `gradient_mpi` (with or without scale) of Space2Mpi end on every rank, in every schedule, with the rank's own pencil of the result; every element is finite and differs from the exact value at its GLOBAL position (exact values, coefficients, derivatives and basis changes of C58-C60) by at most the error proved for the serial methods. `backward_mpi` after `forward_mpi` on orthogonal bases returns to every rank its input pencil up to 178 (dl + 2^-53) times the sum of the sizes plus a subnormal term; `from_ortho_mpi` after `to_ortho_mpi` returns it up to the error of C60. The same in f32, with the errors of C67 and C68.", "quantifier": "every number of ranks not larger than an axis, every schedule, every lane order on every rank, every combination of bases of C58-C60, every finite field in range, both build modes", "why_tests_cant": "A parallel run fixes the ranks, the schedule and the data; a tolerance says nothing about other sizes or magnitudes.", "anchors": ["src/space_mpi/space2.rs: forward_mpi, forward_inplace_mpi, backward_mpi, backward_inplace_mpi, to_ortho_mpi, to_ortho_inplace_mpi, from_ortho_mpi, from_ortho_inplace_mpi, gradient_mpi"]}
{"id": "C64", "title": "The matrices of a base are accurate in floating point", "statement": "In f64, diffmat returns (or panics) exactly when the same computation in exact arithmetic does, for every size, order and build, and each entry is finite and within 3*2^-53 of the exact entry relative to that entry; for n up to 2^52+1, 208064, 1553 and 191 points (orders 1 to 4) the entries are exact, so that the f64 matrix is the derivative. diffmat_pinv is within the same relative error entry by entry for the sizes whose integer products fit in 64 bits, its truncated identity is exact. The stencil matrix of each composite base with at most 2^17 points holds the exact entries, correctly rounded. For both Fourier bases diffmat is exact while max(1,n/2)^d is at most 2^53 (n up to 2^53), laplacian is correctly rounded, and the pseudo-inverses of both are within 3*2^-53 entry by entry. stencil_inv of a Dirichlet base is exact for every size; of a Neumann base (n up to 2^26) entry (i,j) is within 1.02 (i-j) 2^-53, relatively, of the exact (j/i)^2.", "quantifier": "all sizes, orders and builds (diffmat); all sizes up to the 64-bit limit (pinv); all composite kinds and sizes up to 2^17 (stencil); all entries", "why_tests_cant": "a test compares a few entries of small matrices with a tolerance; the relative accuracy of each entry, the coincidence of panics and the sizes up to which nothing is rounded range over all sizes", "anchors": ["src/chebyshev/ortho.rs: _dmat, diffmat, _pinv, diffmat_pinv", "src/chebyshev/compo.rs: stencil", "src/chebyshev/stencils.rs: the five constructors"]}
{"id": "C65", "title": "The grids are accurate and distinct in floating point", "statement": "In f64, with a sine within dl of sin on [-2,2]: `coords` of every Chebyshev base (orthogonal or composite) with 2 <= n <= 2^52 returns n finite points, point k within dl + 4*2^-53 of -cos(pi k/(n-1)); they increase strictly as soon as 2 (dl + 4*2^-53) (n-1)^2 < 1 (for dl = 2^-53: up to 2^24 points); if the sine is odd the grid is exactly symmetric, with 0 in the middle for odd n. `coords` of both Fourier bases (n <= 2^51) returns points within 3*2^-53, relatively, of 2 pi j/n, the first exactly 0, strictly increasing up to n = 2^50, also where there is one point too many (C43).", "quantifier": "all sizes up to the limits, all points, all composite kinds, every sine with the stated accuracy", "why_tests_cant": "a test looks at a few sizes with a tolerance; that no two points coincide and that symmetry is exact are statements on every size", "anchors": ["src/chebyshev/ortho.rs: nodes, coords", "src/chebyshev/compo.rs: coords", "src/fourier/r2c.rs: nodes, coords", "src/fourier/c2c.rs: nodes, coords"]}
{"id": "C66", "title": "Single precision: matrices and grids", "statement": "At A = f32 the library computes its Chebyshev matrices and Fourier nodes in f64 and converts. `diffmat` (every size, order and build mode), `diffmat_pinv` (sizes of C08; its truncated identity exactly) and `stencil` of every composite base (up to 2^17 points; Neumann, which computes in f32, up to 4096) return f32 matrices whose every entry is finite and within 2^-24 + 2^-50, relatively, of the exact one, and panic exactly when the exact computation does. `coords` of a Chebyshev base is within dl + 2^-24 + 2^-51 of -cos(pi k/(n-1)) for an f32 sine within dl; with a correctly rounded sine the points are strictly increasing up to 2300 points, but from 2^14 + 1 points on the first two coincide. `coords` of a Fourier base is within 2^-24 + 2^-50 relatively, starts at 0 and increases strictly up to 2^22 points. stencil_inv of a Dirichlet base is exact, of a Neumann base (n up to 4096) within 1.02 (i-j) 2^-24 relatively.", "quantifier": "all sizes up to the limits, all orders, all entries and points, both builds, every sine with the stated accuracy", "why_tests_cant": "tests use f64; which f32 grids have distinct points, and that conversion costs one rounding in every entry, are statements on all sizes", "anchors": ["src/chebyshev/ortho.rs: nodes, _dmat, _pinv, _pinv_eye", "src/chebyshev/compo.rs: stencil", "src/chebyshev/stencils.rs: new", "src/fourier/r2c.rs: nodes", "src/fourier/c2c.rs: nodes"]}
{"id": "C67", "title": "Spaces of f32: transforms and round trips", "statement": "In single precision, on axes of up to 2^10 points and for data of total size up to 2^60, with transform libraries of relative error dl and absolute error zt: `backward` of a Space1, Space2 or Space3 returns finite values within a stated multiple of K (dl + 2^-24) Sum of the exact values of the represented function at the grid points, and `forward` the exact coefficients (on Dirichlet and Neumann axes: of the least-squares fit) within L K (dl + 2^-24) Sum (`backward` also on DirichletNeumann axes); `backward(forward(v))` of a space of Chebyshev and Fourier axes is v, and `forward(backward(c))` is c (less what a real transform cannot represent), within 33, 178 or a larger constant times (dl + 2^-24) Sum; with Dirichlet and Neumann axes the factor grows by (n+1)^2 for each. No panic, no NaN, no infinity.", "quantifier": "all spaces of one to three axes over the f32 bases, all admissible sizes, all finite data of bounded sum, every transform library of the stated accuracy", "why_tests_cant": "the tests use f64 and a few vectors; a bound on the error of every input of every size cannot be sampled", "anchors": ["src/space/space1.rs", "src/space/space2.rs", "src/space/space3.rs", "src/internal_macros.rs", "src/chebyshev/ortho.rs: forward_slice, backward_slice", "src/chebyshev/compo.rs: forward_slice, backward_slice", "src/fourier/r2c.rs: forward_slice, backward_slice", "src/fourier/c2c.rs: forward_slice, backward_slice"]}
{"id": "C68", "title": "Spaces of f32: derivatives and changes of basis", "statement": "In single precision, on axes of up to 2^10 points (the composite solves up to 2^7) and for bounded data: `gradient` of any order of a Space1, Space2 or Space3 returns finite coefficients within L K 2^-24 Sum of those of the exact derivative; with a scale whose powers lie between 2^-10 and 2^10, of the exact derivative divided by the exact powers; `to_ortho` and `from_ortho` return finite coefficients close to the exact expansion and to the exact least-squares coefficients (`gradient` and `to_ortho` also on DirichletNeumann axes; `gradient` on FourierC2c axes approximates the map of C59). `from_ortho` after `to_ortho` gives the coefficients back within the bound of C60 with u = 2^-24, for coefficients of sum at most 2^45. A first derivative scaled by a factor of modulus at most 2^-76 has no finite complex entry, whatever the input (num-complex divides by the square of the factor), while real entries stay finite.", "quantifier": "all spaces of one to three axes over the f32 bases, all orders, all admissible sizes, all finite data of bounded sum, all admissible scales", "why_tests_cant": "the tests use f64 and a few vectors; a bound on the error of every input of every size and order cannot be sampled", "anchors": ["src/space/space1.rs", "src/space/space2.rs", "src/space/space3.rs", "src/internal_macros.rs", "src/chebyshev/ortho.rs: gradient_slice, to_ortho_slice", "src/chebyshev/compo.rs: gradient_slice, to_ortho_slice, from_ortho_slice", "src/fourier/r2c.rs: gradient_slice", "src/fourier/c2c.rs: gradient_slice"]}
{"id": "C69", "title": "Repeated transforms: the errors add up, they do not multiply", "statement": "Transform a field forward and backward (or coefficients backward and forward) q times, as a time-stepping code does, on a Space1, Space2 or Space3, in f64 or in f32. If one trip is allowed a relative error e (the constants of C56, C57 and C67 times dl plus the unit roundoff, on Dirichlet and Neumann axes times their condition) and 2 q e times the number of points is at most 1, then all q trips return, every value is finite, and the result differs from the field one started with - from the coefficients one started with, less the two imaginary parts that a real transform drops - by at most 2 q (e Sum + t) with the absolute error t of one trip: a growth linear in q, although each trip starts from the rounded result of the previous one and its error bound depends on that result's size. The same holds for q trips `to_ortho` then `from_ortho` with the constants of C60 and C68.", "quantifier": "all numbers of trips q, all spaces of one to three axes over the bases of C56/C57/C67, all finite data of bounded sum, every transform library of the stated accuracy", "why_tests_cant": "a test makes one trip; drift over thousands of trips, for every field, size and library, is a statement on an unbounded history", "anchors": ["src/space/space1.rs", "src/space/space2.rs", "src/space/space3.rs", "src/internal_macros.rs", "src/chebyshev/ortho.rs: forward_slice, backward_slice", "src/chebyshev/compo.rs: forward_slice, backward_slice", "src/fourier/r2c.rs: forward_slice, backward_slice", "src/fourier/c2c.rs: forward_slice, backward_slice"]}
{"id": "C70", "title": "Programs over the distributed API behave like the serial programs", "statement": "Write any program over Space2: a sequence of calls of forward, backward, to_ortho, from_ortho (and their in-place forms), gradient (any supported orders, with or without scale), transposes, scatter and all_gather on any number of arrays and of spaces, with arithmetic of your own along whole lines in between, where what happens next may depend on everything gathered so far (time loops, stopping criteria, adaptive steps). Run it with Space2Mpi on p ranks, physical arrays in y-pencils and spectral arrays in x-pencils as the API prescribes. Every schedule of the ranks ends on every rank (no deadlock, no panic, no message of one call taken for that of another), every rank has gathered exactly the data the serial program produces, and at the end every array is exactly the pencil of the serial one. What is gathered does not depend on the number of ranks, on the build mode, or on the order in which a rank visits its lanes. For instance, scatter a field, transform it forward and backward (or coefficients backward and forward, or to the orthogonal basis and back) q times on p ranks in f64 or f32 and gather it: every rank gets finite values within the linear drift of C69 of what was scattered.", "quantifier": "all programs (any length, branching on gathered data), all numbers of spaces and arrays, all numbers of ranks not larger than an axis, all schedules, all lane orders per rank and call, all element types and arithmetics, both build modes", "why_tests_cant": "a parallel test fixes one program, one number of ranks and one schedule; that calls compose, in any order and number, ranges over all programs and interleavings", "anchors": ["src/space_mpi/space2.rs: new, forward_mpi, forward_inplace_mpi, backward_mpi, backward_inplace_mpi, to_ortho_mpi, to_ortho_inplace_mpi, from_ortho_mpi, from_ortho_inplace_mpi, gradient_mpi, transpose_x_to_y_phys, transpose_y_to_x_phys, transpose_x_to_y_spec, transpose_y_to_x_spec, scatter_to_*_pencil_*, all_gather_from_*_pencil_*", "src/space/space2.rs: forward, backward, to_ortho, from_ortho, gradient", "src/space_mpi/decomp_handler.rs: insert, get_decomp_from_global_shape"]}
{"id": "C71", "title": "Programs that mix serial and parallel calls have one outcome", "statement": "Write any program over any number of Space1, Space2 and Space3 spaces: a sequence of calls of forward, backward, to_ortho, from_ortho (allocating or in place) and gradient (any orders, with or without scale), each in its serial or in its `_par` form as you please, on any number of arrays, with any arithmetic of your own in between, where what happens next may depend on the contents of all arrays (time loops, stopping criteria). On every schedule of the worker threads of every parallel call, and whatever order the serial calls visit the lanes in, the program has one and the same outcome - the same arrays bit for bit, or the same panic - namely that of the program in which every call is serial. In particular q round trips in f64 or f32, any of the 2q calls parallel, end within the drift bound of C69.", "quantifier": "all programs (any length, branching on all data), all numbers of spaces and arrays, all mixes of serial and parallel calls, all schedules, all lane orders, all constructible bases, arrays of any shape (also wrong ones), all arithmetics", "why_tests_cant": "a test fixes one program and sees the schedules of one machine; determinism of a whole program ranges over every interleaving of every call in it", "anchors": ["src/space/space1.rs", "src/space/space2.rs", "src/space/space3.rs", "src/internal_macros.rs", "src/traits.rs: forward_inplace_par, backward_inplace_par, to_ortho_inplace_par, from_ortho_inplace_par, gradient_inplace_par", "src/internal_macros.rs: apply_along_axis, par_apply_along_axis"]}
