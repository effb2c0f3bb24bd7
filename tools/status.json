{
 "C15": {
  "status": "proved",
  "note": "for exact real arithmetic; any real or complex right-hand side"
 },
 "C01": {
  "status": "proved",
  "note": "exact real arithmetic; DCT-I by its documented formula"
 },
 "C02": {
  "status": "proved",
  "note": "exact real arithmetic; DCT-I by its documented formula"
 },
 "C03": {
  "status": "proved",
  "note": "exact real arithmetic"
 },
 "C04": {
  "status": "proved",
  "note": "orthogonal and composite bases"
 },
 "C05": {
  "status": "proved",
  "note": "orthogonal (n >= 3) and non-biharmonic composite bases; n = 2 and biharmonic are UB, see C16"
 },
 "C06": {
  "status": "proved",
  "note": "on the size range of C07, and proved wrong for d=4 release beyond it"
 },
 "C07": {
  "status": "proved",
  "note": "positive range and exact debug failure range; the natural claim (never fails) is refuted"
 },
 "C08": {
  "status": "proved",
  "note": "2d <= n <= exact overflow bound; below: panic; above: debug panic, release wrong (proved). Integer overflow of _pinv modelled."
 },
 "C09": {
  "status": "proved",
  "note": "non-biharmonic proved; biharmonic refuted (UB on every call)"
 },
 "C10": {
  "status": "proved",
  "note": ""
 },
 "C11": {
  "status": "proved",
  "note": "all five kinds; also least-squares optimality and uniqueness"
 },
 "C12": {
  "status": "proved",
  "note": "all kinds with the stencil matrix; to_ortho version for non-biharmonic; biharmonic to_ortho refuted"
 },
 "C13": {
  "status": "proved",
  "note": "all five kinds; explicit entries for Dirichlet and Neumann (PropMat3.v)"
 },
 "C14": {
  "status": "proved",
  "note": "equal on the range; refuted off it for every kind and size"
 },
 "C16": {
  "status": "proved",
  "note": "positive part and exact exceptions"
 },
 "C17": {
  "status": "proved",
  "note": "orthogonal bases sound and every wrong length refused (any arithmetic, PropLen.v); composite bases proved unsound"
 },
 "C18": {
  "status": "proved",
  "note": "non-biharmonic kinds"
 },
 "C44": {
  "status": "proved",
  "note": "exact thresholds; natural claim refuted"
 },
 "C19": {
  "status": "proved",
  "note": "exact real arithmetic; rustfft/realfft by the DFT they document; n = 0 not modelled"
 },
 "C20": {
  "status": "proved",
  "note": "exact real arithmetic; rustfft/realfft by the DFT they document; n = 0 not modelled"
 },
 "C21": {
  "status": "proved",
  "note": "exact real arithmetic; rustfft/realfft by the DFT they document; n = 0 not modelled"
 },
 "C22": {
  "status": "proved",
  "note": "exact real arithmetic; rustfft/realfft by the DFT they document; n = 0 not modelled; diffmat for 1 <= d < 2^31, otherwise proved to panic"
 },
 "C47": {
  "status": "proved",
  "note": "exact real arithmetic; rustfft/realfft by the DFT they document; n = 0 not modelled"
 },
 "C23": {
  "status": "proved",
  "note": "characterisation; the natural claim is refuted for every n >= 2, d >= 1"
 },
 "C24": {
  "status": "proved",
  "note": "both Fourier bases"
 },
 "C43": {
  "status": "proved",
  "note": "exact arithmetic: n points; binary64: n or n+1, characterised, natural claim refuted for n = 61*2^k"
 },
 "C25": {
  "status": "proved",
  "note": "all bases, shapes, axes; Zip may visit lanes in any order"
 },
 "C26": {
  "status": "proved",
  "note": "every interleaving of individual memory accesses of the lane tasks; termination; rayon/ndarray themselves are trusted"
 },
 "C27": {
  "status": "proved",
  "note": "for arbitrary slice methods"
 },
 "C28": {
  "status": "proved",
  "note": "all bases, exact real arithmetic"
 },
 "C45": {
  "status": "proved",
  "note": "slice and array level, exact real arithmetic"
 },
 "C29": {
  "status": "proved",
  "note": "tensor product, shapes, rejection, axis-order independence, round trips, F B F = F, par = serial; exact real arithmetic"
 },
 "C30": {
  "status": "proved",
  "note": "as C29, three axes"
 },
 "C31": {
  "status": "proved",
  "note": "Space1/2 correct; Space3 characterised and the natural claim refuted"
 },
 "C32": {
  "status": "proved",
  "note": "division law for all spaces; derivative w.r.t. stretched coordinates for Chebyshev-type Space1/Space2 and r2c x Chebyshev Space2; wrap-around for d >= 2^31 proved"
 },
 "C33": {
  "status": "proved",
  "note": "any number of axes and ranks; machine integers"
 },
 "C34": {
  "status": "proved",
  "note": "debug panics, release table, release transpose; natural claim refuted"
 },
 "C35": {
  "status": "proved",
  "note": "every schedule of the ranks, any array already in the output"
 },
 "C36": {
  "status": "proved",
  "note": "every schedule of the ranks"
 },
 "C37": {
  "status": "proved",
  "note": "all routines"
 },
 "C41": {
  "status": "proved",
  "note": "every schedule; sum in rank order for any scalar type, equal to the mathematical sum over the reals"
 },
 "C46": {
  "status": "proved",
  "note": "both build modes"
 },
 "C38": {
  "status": "proved",
  "note": "every history of inserts; duplicate inserts are invisible to lookups but grow the public map (documented panic does not exist)"
 },
 "C39": {
  "status": "proved",
  "note": "any bases, any ranks; constructor returns whenever the shapes can be distributed"
 },
 "C40": {
  "status": "proved",
  "note": "forward, backward, to_ortho, from_ortho, gradient, allocating and in-place, every schedule"
 },
 "C42": {
  "status": "proved",
  "note": "exact reals and IEEE binary64 (NaN, infinities); natural claim refuted"
 },
 "C48": {
  "status": "proved",
  "note": "all helpers in both flavours"
 },
 "C49": {
  "status": "proved",
  "note": "all accessors; behaviour for out-of-range axes stated"
 },
 "C50": {
  "status": "proved",
  "note": "Space1/2/3"
 },
 "C51": {
  "status": "proved",
  "note": "every base; identification with gradient for Space1/2/3 (Space3 with equal second and third base, C31), except FourierC2c whose gradient is wrong (C23); n <= 2642245 for Chebyshev (overflow beyond, C07)"
 },
 "C52": {
  "status": "proved",
  "note": "Space1/2/3: evaluation and interpolation for every base; derivatives on the grid for every space of Chebyshev-family axes and for FourierR2c x Chebyshev-family axes (Space3 with equal second and third base because of the axis-2 bug, C31; FourierC2c gradients are wrong, C23)"
 },
 "C53": {
  "status": "proved",
  "note": "any record of scalar operations, any ext library with ext_ok; IEEE binary64 instance via Flocq (NaN payloads not distinguished)"
 },
 "C54": {
  "status": "proved",
  "note": "tridiagonal solver, Dirichlet and Neumann bases, Chebyshev and Fourier gradients of every order; f64 and f32 instances; transforms: C55"
 },
 "C55": {
  "status": "proved",
  "note": "relative to an accuracy assumption on rustdct/rustfft/realfft (LibAcc.v), which is shown satisfiable (LibIdeal.v); Chebyshev, Dirichlet, Neumann, FourierR2c, FourierC2c"
 },
 "C56": {
  "status": "proved",
  "note": "f64; accuracy of the libraries is a hypothesis (LibAcc.v), shown satisfiable by C56_accurate_bases_exist; composite bases: C55 in one dimension"
 },
 "C57": {
  "status": "proved",
  "note": "f64; accuracy of the libraries is a hypothesis (LibAcc.v), shown satisfiable by C57_accurate_bases_exist; the provided size condition excludes systems so large that the bound would exceed the data"
 },
 "C58": {
  "status": "proved",
  "note": "f64; accuracy of the libraries is a hypothesis (LibAcc.v), shown satisfiable by C58_accurate_bases_exist; the exact values and coefficients are the sums written out in SpaceVal.v; DirichletNeumann axes: backward"
 },
 "C59": {
  "status": "proved",
  "note": "f64; no hypothesis on libraries; with and without scale (PropGrad.v, PropGrad2.v; `powi` is modelled as the repeated product, the compiler's is unspecified in the last bits); on FourierC2c axes the exact map is the code's, which is not the derivative (C23, PropC2c.v); Space3 uses base 1 on axis 2 (C31)"
 },
 "C60": {
  "status": "proved",
  "note": "f64; no hypothesis on libraries; to_ortho: all composites but the biharmonic ones (whose to_ortho is UB, C16); from_ortho: Dirichlet and Neumann (not DirichletNeumann)"
 },
 "C61": {
  "status": "proved",
  "note": "every_schedule over MpiSem; collectives on different element types in one run via MpiMix.v; f64 part with accurate libraries (C55)"
 },
 "C62": {
  "status": "proved",
  "note": "The ingredients functions panic on every Chebyshev-kind axis (a defect of the example, proved). PropField3.v: what a new field holds, axis by axis."
 },
 "C63": {
  "status": "proved",
  "note": "composition of C53 (distributed = serial, bit for bit) with C56, C58-C60; gradient with and without scale; f64 and f32"
 },
 "C64": {
  "status": "proved",
  "note": "f64 against exact arithmetic by a relational run of the same program (MatRel.v): outcome and entries. diffmat for all n, d, builds (also where the release build wraps); pinv up to psafe (C08); stencil up to 2^17 points, correctly rounded; diffmat exact up to exact_size. Fourier bases (PropMat2.v): diffmat exact while max(1,n/2)^d <= 2^53, laplacian correctly rounded, both pseudo-inverses within 3*2^-53. stencil_inv (PropMat3.v, StencilInv.v): Dirichlet and Neumann bases; the other three kinds are not part of it."
 },
 "C65": {
  "status": "proved",
  "note": "PropGrid.v, GridF64.v. The sine of the standard library is external: its accuracy is a hypothesis, met by the correctly rounded sine (C65_case_sine). pi64 against pi by Machin's formula."
 },
 "C66": {
  "status": "proved",
  "note": "F32.v (the code at A = f32: f64 results converted), PropF32.v. The f32 sine is external: its accuracy is a hypothesis, met by the correctly rounded sine (C66_case_sine)."
 },
 "C67": {
  "status": "proved",
  "note": "PropTrans7.v (values and coefficients), PropTrans8.v (round trips of Chebyshev and Fourier axes), PropTrans9.v (with Dirichlet and Neumann axes); vocabulary in SpaceVal32.v. The accuracy of the external transforms is a hypothesis on E, met by correctly rounded transforms (C67_accurate_*_bases_exist)."
 },
 "C68": {
  "status": "proved",
  "note": "PropGrad3.v (gradients), PropGrad4.v (with a scale, and the scales that ruin complex results), PropOrtho2.v (to_ortho, from_ortho); vocabulary in GradSpec32.v; the exact maps are those of C59 and C60. On FourierC2c axes as in C59 (PropC2c.v)."
 },
 "C69": {
  "status": "proved",
  "note": "Trips.v (repeat_trip and the induction), PropTrips.v (f64), PropTrips2.v (f32), PropTrips3.v and PropTrips4.v (to_ortho/from_ortho). The one-trip bounds are C56/C57/C67 and C60/C68; C69_example_thousand_trips runs a thousand trips of the field of the C56 example."
 },
 "C70": {
  "status": "proved",
  "note": "MpiProgram.v (programs, their serial and distributed meaning, admissibility), PropProgram.v. Every step is one call of Space2/Space2Mpi; the user's own arithmetic is restricted to functions of whole lines along the undivided axis. C70_hyps_met: a nonlinear time loop with a stopping criterion. PropProgram2.v: whole programs of q round trips (scatter, q trips, all_gather): in any arithmetic every rank gathers the serial result; in f64 and f32 it is within the drift bound of C69 of what the root scattered (C70_example_thousand_trips: a thousand trips on one to three ranks)."
 },
 "C71": {
  "status": "proved",
  "note": "ParProgram.v (programs, all their outcomes, their serial version), PropParProgram.v. The memory accesses of each slice method are any program that computes it (base_implements; C53_implementation_exists). C71_hyps_met: a time loop on a 2-D and a 1-D space with a stopping criterion, and a program that runs to the end. Hypotheses: arrays have as many elements as their shape says (every ndarray), also those that the user's steps make. PropParProgram2.v: q round trips (values or coefficients, 1-3 axes, f64 and f32), each call serial or parallel: one outcome, within the drift bound of C69."
 }
}