# Formal model of preiter93/funspace in Rocq (Coq 8.16.1): design

Files: `rocq/theories/*.v`.  Model files (each definition cites the file and lines of `/repo`
it models): `Base`, `Num`, `Linalg`, `Stencils`, `Cheb`, `Compo`, `Fourier`, `FourierF64`,
`ExtLib`, `NdArray`, `Bases`, `Space`, `Elements`, `Utils`, `MpiSem`, `Decomp`, `SpaceMpi`, `Examples`, `Field`.
Specification files (independent of the code): `LinalgSpec`, `ChebPoly` (T_k, derivatives),
`FourierSpec` (trigonometric series), `MpiSpec` (blocks and pencils), and the definitions at the
head of the `Prop*` files.  Theorems named `Cnn_*` live in the `Prop*.v` files and are the ones
listed in `MANIFEST.json`; everything else is proof infrastructure.

## 1. Modelling decisions

* **Outcomes.** `res A := Ok a | Panic | UB`.  A failed `assert!`, a bounds-checked index out of
  range, an arithmetic underflow in debug mode, `todo!()` are `Panic`; an out-of-range
  `get_unchecked(_mut)` is `UB`.  A theorem that says "returns `Ok`" says both "no panic" and "no
  undefined behaviour".
* **Slices / Vec** are lists; reads and writes carry the access mode of the Rust text
  (`Checked`/`Unchecked`).  Loops run over the same index ranges in the same order over the same
  mutable state.
* **Scalars.** The code is generic over `A: FloatNum` and `T in {A, Complex<A>}`; so is the model,
  over a record of operations (`Num A`, `Vec A T`) *without laws*.  The numerical theorems take
  `A := R` (exact arithmetic) and `T` any coordinate space over R (in particular R and C).
  Rounding is modelled where the property is about floats: C42, C43 and C54-C69 use IEEE
  binary64 (Flocq's `binary_float 53 1024`), C07/C46/C32 use machine integers.  Theorems about
  control flow, layout, memory safety and distribution (C25-C28, C33-C41, C46, C48 and the
  refutations) hold for any scalars or need no arithmetic at all; C53 states termination, memory
  safety, independence of the old output, line-by-line action and distributed = serial for *every*
  arithmetic (so for f64 with rounding, NaN, infinities) and *every* FFT library that keeps its
  length contract (`ExtLib.v`: the slice programs with the library calls abstracted).
* **usize** is `nat` where no overflow is possible before memory is exhausted; polynomially
  growing expressions (`_dmat`, `_pinv`), `distribute` and the MPI counts use `Z` with explicit debug-panic /
  release-wrap semantics.  Subtractions that can underflow are explicit (`usub`).
* **ndarray.** An array is shape, layout flag (standard or not) and row-major data.  `Zip` over
  lanes may visit lanes in any order (`zip_order`, an arbitrary permutation); `into_slice`
  succeeds only when the lane is contiguous, as in the Rust code.
* **rayon**: `par_for_each` is every interleaving of the single memory accesses of the lane tasks
  (small-step semantics, C26).
* **MPI** (`MpiSem.v`): a rank is a program that returns, panics, is UB or calls a collective
  with its buffers; the world is the vector of all ranks' programs; a step lets any rank run or
  completes a collective when every rank has arrived at it.  `every_schedule ps xs` says that every
  maximal run of the world ends with exactly the results xs (so no deadlock, mismatch or
  truncation error on any schedule).  A collective with non-matching counts is an error state.
  rsmpi's own checks (`Partition::new` asserts `c + d <= n`; counts must fit `i32`) are modelled.
* **HashMap** is an association list with `insert`/`entry().or_insert`/`get` semantics.

## 2. What is modelled, what is not

| source | modelled in | not modelled |
|---|---|---|
| chebyshev/ortho.rs | Cheb.v | Display, Clone; DCT-I itself (rustdct: by its documented formula) |
| chebyshev/linalg/{tdma,pdma,pdma2}.rs | Linalg.v | – |
| chebyshev/stencils.rs, stencils/{helpers,traits}.rs | Stencils.v | overflow of `k.pow(2)` in the Neumann coefficients (exact up to n = 2^32) |
| chebyshev/compo.rs | Compo.v | – |
| fourier/{r2c,c2c}.rs | Fourier.v (exact), FourierF64.v (`nodes` in binary64) | FFT itself (rustfft/realfft: documented DFT); n = 0 |
| traits.rs, internal_macros.rs, enums.rs | Bases.v (slice + axis methods, dispatch), Elements.v (accessors), Display.v (names of the kinds) | doc text, `From` boilerplate |
| utils.rs | NdArray.v (checks, apply_along_axis), Utils.v (approx_eq*) | panic message text |
| space/{space1,space2,space3,traits}.rs | Space.v, Elements.v | – |
| space_mpi/decomp2d/*, decomp_handler.rs | Decomp.v, SpaceMpi.v | MPI library (semantics in MpiSem.v) |
| space_mpi/space2.rs, traits.rs | SpaceMpi.v; the serial methods (`impl_space2`, lines 71-465) are line by line the text of space/space2.rs, so the `s2_*` definitions of Space.v model both | – |
| lib.rs | constructors in Bases.v/Elements.v | re-exports |
| examples/{space_mpi,space_complex_mpi}.rs | Examples.v | – |
| examples/field.rs | Field.v (ndarray `dot` adds in an unspecified order: its values are only meant for exact arithmetic) | – |
| benches, tests | – | not library code |

**Trusted base**: Coq's kernel; the axioms of section 4; that the model is what the Rust text
says (comments cite the lines; definitions follow the text statement by statement); the
semantics of external crates listed above; for C42/C43/C54-C69, Flocq's definition of binary64 and
binary32.  Exact-real theorems say what the algorithms compute, not how rounding perturbs it; C54
bounds the perturbation for the parts listed there, and C55 for the transforms: there the accuracy of
rustdct/rustfft/realfft (relative error dl, absolute error zt, no overflow on sums in range,
`LibAcc.v`) is a hypothesis of each theorem, not an axiom; `LibIdeal.v` constructs a library that meets
it.  What dl and zt are for the real crates is outside the model.

## 3. Properties: model, statement, proof

Status in `MANIFEST.json`.  Where the natural claim is false of the code, the property states what
is true (with exact thresholds) and the refutation is itself a theorem.

| id | theorem(s) say | proof |
|----|-------|-------|
| C01-C02 | forward/backward of the Chebyshev base invert each other, any n >= 2, any T | discrete orthogonality of cosines |
| C03 | backward evaluates sum a_k T_k at coords, forward interpolates; T_k(cos t) = cos kt | cos(k acos x) = T_k |
| C04 | coords are -cos(pi j/(n-1)), increasing, end points included | trigonometry |
| C05 | gradient gives coefficients of the d-th derivative (derivative in Coquelicot's sense) | loop invariant = backward recurrence |
| C06 | diffmat @ u = gradient(u); laplacian; release overflow for d = 4 gives wrong entries | closed forms of iterated derivative coefficients |
| C07 | exact ranges of n where diffmat is computed without overflow, and panics beyond (debug) | machine-integer reading of `_dmat` |
| C08 | diffmat_pinv @ diffmat = pinv_eye, and diffmat_pinv undoes gradient, for 2d <= n <= the size where the 64-bit products of `_pinv` still fit (32770 for d = 4); smaller n panics; larger n panics (debug) or returns a wrong matrix (release) | entrywise band product, machine-integer reading of `_pinv` |
| C09, C10 | to_ortho = stencil matrix, which satisfies the boundary conditions; biharmonic UB | loop invariants, T_k^(d)(+-1) |
| C11-C12 | from_ortho solves the least-squares problem, uniquely; inverts to_ortho | pivots of S^T S positive |
| C13-C14 | stencil_inv left inverse; equals from_ortho exactly on the range (refuted off it) | row recurrences |
| C15 | tdma/pdma/pdma2 solve the banded system when pivots are non-zero; sufficient conditions; uniqueness; checked = unchecked | LU invariants, diagonal dominance, positive definiteness |
| C16-C17 | every unchecked access in range for constructible sizes, with the exact exceptions; safe slice methods with wrong lengths reach UB | `Ok` results; witnesses for every size |
| C18 | composite transforms | composition |
| C19-C24, C47 | Fourier transforms, derivatives, laplacian; c2c gradient wrong on negative modes | roots of unity, induction |
| C25 | axis methods apply the slice method to each line | frame reasoning on lanes, arbitrary visiting order |
| C26 | `_par` = serial on every schedule, termination | commuting lane steps, confluence |
| C27-C28 | size mismatch panics before any write; old output irrelevant | case analysis, determinism |
| C29-C30 | Space1/2/3 transforms: tensor products, shapes, round trips, axis order, par, zero arrays of ndarray_physical/spectral | composition of axis operators |
| C31-C32 | space gradients, scale; Space3 axis-2 bug characterised | commuting linear operators |
| C33-C34, C46 | distribution of points, machine integers, both build modes | arithmetic |
| C35-C37, C41 | transposes, gather, scatter, reductions on every schedule; shape checks | confluence of the world semantics + index bijections; the MPI model itself: a collective completes only if every block fits its buffers, and writes nothing outside the blocks (`PropMpiSem.v`) |
| C38-C39 | decomposition handler: lookup = first registered for that shape, every lookup of Space2Mpi is registered | induction on histories |
| C40, C48 | distributed transforms = serial transforms on the gathered array, every schedule; pencil helpers | C25 + C35 |
| C42 | approx_eq on reals and binary64; `||` in the complex version, length mismatch ignored (refuted) | case analysis, Flocq |
| C43 | number of Fourier coords, exact and in binary64 (n = 61*2^k has n+1) | Flocq error analysis + computation |
| C44 | constructible versus usable sizes | case analysis |
| C45 | linearity of every operator | matrix representation |
| C49 | accessors by axis, grids, printed names (Display.v) | case analysis; C04, C43 |
| C50 | to_ortho of a space is the product of its stencil() matrices; stencil_inv() undoes it | C09, C13, axis operators as matrices |
| C51 | laplacian() differentiates twice, pinv inverts it up to the lowest modes, equals gradient | C06, C08, C24 |
| C52 | backward evaluates on the product grid, forward interpolates, gradient+backward = partial derivative on the (stretched) grid | C03, C47, C29, C32 |
| C53 | slice, axis, space and distributed methods for any arithmetic (f64 instance) and any FFT library keeping its length contract | `fnop` (function of the input, total, right length) closed under the programs; C25-C30, C40 re-proved over it |
| C54 | rounding errors of tdma, the Dirichlet and Neumann bases, DirichletNeumann to_ortho (`RndDN.v`, `PropDN.v`) and the Chebyshev and Fourier derivatives in f32/f64 (`Rounding.v`: what is used of the arithmetic, proved for Flocq's IEEE formats) | any-arithmetic step lemmas (`ArithSteps.v`), componentwise backward error of the elimination, discrete maximum principle (Dirichlet), strict diagonal dominance with slack 12/n^2 (Neumann), induction on the order |
| C55 | the transforms in floating point over a library of given accuracy (`LibAcc.v`; `LibIdeal.v`: one exists for every IEEE format) | what the programs hand to the library, step by step (`RndCheb.v`, `RndFft.v`, `RndR2c.v`), exact inverses of the sums (C01, C02, C19-C21), from_ortho perturbation (`RndCompo.v`), range bounds (`RndFinite2.v`); instances for f64 (`PropTrans2.v`) and f32 (`PropTrans6.v`); DirichletNeumann backward in `PropDN.v` |
| C56 | Space1/2/3 round trips in f64 over libraries of given accuracy (`SpaceAcc.v`: how entries are read, which bases are accurate) | C53 (each base along its axis) turns the array programs into rows of slice programs (`axis_rows`); an error calculus for one more axis around an inner round trip (`rt_step`, `rt_good` in `RndAxis.v`); C55's bounds give its constants (`RndOps.v`); ranges and three axes in `RndSpace.v` |
| C57 | the same with Dirichlet and Neumann bases (`SpaceAcc2.v`: which bases, and the factor (n+1)^2 by which solving the normal equations can magnify errors) | the inner round trip no longer acts on values but on least-squares systems: `near_sol`/`good_spec` in `RndAxis2.v` carry a solution of a perturbed system through one more axis; `RndOps2.v` supplies the constants from C54/C55; `RndSpace2.v` composes up to three axes |
| C58 | Space1/2/3 `backward` and `forward` in f64 against the exact sums over basis functions (`SpaceVal.v`: the sums of cosines and sines, the least-squares condition, which bases, the bounds K and L) | the exact maps of C55 are those sums (`RndVal.v`: `*_values_eq`, `*_coefs_eq`, normal equations have one solution); C53 turns the array programs into rows; an error bound carried through one more axis (`stage`), up to three axes in `RndVal2.v`; DirichletNeumann axes (backward only) in `RndDN2.v`, `PropDN.v` |
| C59 | Space1/2/3 `gradient` in f64, any order, against the exact derivative (`GradSpec.v`: the derivative sums of Chebyshev and Fourier series, the Dirichlet/Neumann combination, which bases, K and L) | the sums are proved to be those of the derivative (`C59_exact_maps_are_derivatives`); column sums bound the powers of the derivative matrix (`GradOp.v`); forward error and absence of overflow of the recurrences, by induction on the order (`RndGrad2.v`..`RndGrad5.v`); carried through the axes like C58 (`RndGrad6.v`, `PropGrad.v`); with a scale: the powers carry d roundings, the quotient one (real) or three (num-complex) more (`RndScale.v`, `PropGrad2.v`); FourierC2c axes: `PropC2c.v` |
| C60 | Space1/2/3 `to_ortho` and `from_ortho` in f64 against the exact change of basis (`OrthoSpec.v`) | the exact maps are characterised (`C60_exact_maps`: expansion, unique mean-square minimiser, left inverse); forward error of the stencil product and of the banded solve (C54) carried through the axes like C58 (`RndOrtho.v`, `PropOrtho.v`); there and back: the exact maps are inverse, the error of `to_ortho` passes through the bounded exact `from_ortho` (`RndOrtho3.v`, `PropOrtho3.v`) |
| C61 | main() of the two MPI example programs (`Examples.v`; collectives on mixed element types: `MpiMix.v`) | composition of the runs of C35/C36/C40 for any arithmetic (`PropExample.v`); in f64 finite values by C58, hence IEEE == holds (`PropExample2.v`) |
| C62 | FieldBase and main() of examples/field.rs (`Field.v`), ndarray `dot`, `assign` with broadcasting | loop invariant and summation by parts for dx, C53 for the methods, matrix shapes for the panics (`FieldFacts.v`), C53 + C58 for main (`PropField.v`, `PropField2.v`), direct computation for new (`PropField3.v`) |
| C63 | the methods of Space2Mpi in f64, pencils per rank (`x_pencils_near`, `y_pencils_near`) | C53_distributed_* (distributed = serial) composed with C56 and C58-C60 (`PropDistF64.v`); the space of examples/space_mpi.rs meets the hypotheses (`C63_example`); in f32 with C67 and C68 (`PropDistF32.v`); distributed from_ortho after to_ortho (`PropDistOrtho.v`, `C63_example_there_and_back`) |
| C64 | the matrices diffmat, diffmat_pinv, stencil with scalars f64 against the same functions with scalars R | one relational run of the program in both arithmetics (`MatRel.v`: both return related results or both stop), entries by rounding lemmas (`MatF64.v`), loops in `MatCheb.v`, `MatPinv.v`, `MatSten.v`, `MatFourier.v` (Gaussian integers with one zero part are exact under every order of multiplications, so the repeated product stands for num_complex's repeated squaring); statements in `PropMat.v`, `PropMat2.v` |
| C65 | the grids with scalars f64: every operation rounded, sine an external function of stated accuracy, the constant PI the f64 one | error of the argument of the sine (`GridF64.v`: rounding lemmas, PI by Machin's formula of the standard library), sine 1-Lipschitz, gap between neighbouring nodes >= 1/(n-1)^2; statements in `PropGrid.v` |
| C66 | the matrices and nodes at A = f32, with the conversion `as f32` (`to_f32` in `F32.v`: round to nearest even, overflow to infinity) where the code converts | entries in range of f32 (`moderate`), one more rounding on top of C64/C65; collision of points by `1 - cos` below a quarter ulp; statements in `PropF32.v` |
| C67 | the space methods of C56-C58 with scalars f32 (sizes up to 2^10 per axis, data sums up to 2^60, where no intermediate result leaves the range of f32) | the proofs of C56-C58 with u = 2^-24 and eta = 2^-150; statements in `PropTrans7.v`, `PropTrans8.v`, `PropTrans9.v`, vocabulary in `SpaceVal32.v` |
| C68 | the space methods of C59 and C60 with scalars f32 | the proofs of C59 and C60 with u = 2^-24 and eta = 2^-150 (`RndGrad32.v`, `RndOrtho32.v`, `RndScale32.v`); statements in `PropGrad3.v`, `PropGrad4.v`, `PropOrtho2.v`, `PropOrtho4.v`, vocabulary in `GradSpec32.v` |
| C69 | q round trips of a space in f64 and f32, values or coefficients (`repeat_trip`, Trips.v) | `many_trips` (Trips.v): from a bound e size + t on one trip that is within `top`, by induction on q the drift D_q obeys D_{q+1} <= e (Sum + N D_q) + t + D_q <= 2 (q+1) (e Sum + t) and the field stays in range; instantiated with C56/C57 (`PropTrips.v`), C67 (`PropTrips2.v`) and the there-and-back of C60 and C68 (`PropTrips3.v`, `PropTrips4.v`); `C69_example_thousand_trips` |
| C70 | user programs over Space2 / Space2Mpi: a program is a tree of API calls whose continuation reads everything gathered (MpiProgram.v); `serial_run` on global arrays, `rank_run` on pencils | one lemma per call (`forward_call` ... `lines_call`) from C35, C36, C40; `step_run`: one step keeps `pencils`; induction on the serial run gives the joint run, and `brun_every_schedule` turns it into a statement on every schedule (PropProgram.v); `C70_hyps_met`; with C69, MPI programs of q round trips in f64 and f32 (PropProgram2.v) |
| C71 | user programs over Space1/2/3 that mix serial and `_par` calls: a tree of calls whose continuation reads all arrays (ParProgram.v); `outcomes` = the set of outcomes over all schedules, `serial_program` = every call serial | per call C53 (par = serial) used with both lane orders; the serial methods keep arrays well-formed (`apply_wf`, `gradient_axis_wf`); induction on the program (PropParProgram.v); with C69, q round trips with any mix of serial and parallel calls are accurate in f64 and f32 (PropParProgram2.v, `C71_example_thousand_trips`) |

Hypotheses: each `Prop*` file ends with `Example ..._hyps_met` (or uses the instances of
`Witness.v`) exhibiting concrete non-trivial bases, arrays and worlds that meet the hypotheses;
`Cases.v` runs the theorems on single bases (C01-C28, C47, C49-C51) on literal coefficients.

## 4. Axioms

`ASSUMPTIONS.md` (generated by `tools/assumptions.py`) gives the output of `Print Assumptions` for
each theorem.  In total only these, all of the standard library:

* `ClassicalDedekindReals.sig_forall_dec`, `ClassicalDedekindReals.sig_not_dec`,
  `FunctionalExtensionality.functional_extensionality_dep`: the construction of the classical reals;
* `Classical_Prop.classic`: used by Flocq's and some Coquelicot lemmas.

A tool that lists every opaque constant of loaded libraries also shows the abstract fields of
`Rdefinitions.RbaseSymbolsImpl`/`RinvImpl` and `ssr.ssrunder.Under_rel`: these are sealed module
signatures of the standard library, not axioms used by the theorems.

## 5. Testing the theorems against wrong programs

`seeded/LOG.jsonl` has one line per wrong program.  `tools/mutate.py` applies an edit to a model
definition in a scratch copy, rebuilds, replaces each proof that no longer goes through by an axiom
(in the scratch copy only), and finally asks `Print Assumptions` of every `Cnn` theorem: a theorem
"failed" when its own proof broke or it depends on a broken one.  Surviving edits led to
tightened or new theorems (C44 sizes, C46, C49-C52, ...), recorded in the log.
