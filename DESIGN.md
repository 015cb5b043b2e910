# Formal model of PythonicDISORT: design

Source under study: `/repo` (LDEO-CREW/Pythonic-DISORT, pinned commit).  The model and
proofs live in `rocq/theories` (logical name `Verif`).  The code was read as text; nothing
of it was run.

## 1. How the code is modelled

* **Numbers.** float64 is modelled by the real numbers of Coq's standard library, without rounding,
  overflow and underflow; `M_Float.v` models part of the code a second time in binary64 with them.  A division whose denominator the code does not guard
  and that *can* be zero for an accepted input is modelled as the error value
  `Err ENonFinite` (NumPy would produce nan or inf there), so no theorem is true merely because
  Coq's `/` is total.  The square root of a negative eigenvalue is treated in the same way.
* **Exceptions** are values of the result type `res A = Ok a | Err e`
  (`EValue msg`, `EShape`, `EIndex`, `EType`, `ELinAlg`, `ENonFinite`).
* **Arrays.** User-facing arrays are `list R`.  Inside the eigen/boundary solver arrays are index
  functions (`nat -> R`, `nat -> nat -> R`) with explicit bounds.  In the output closures
  (`u`, `u0`, fluxes, `_mathscr_v`, TMS, IMS), where the shape depends on the caller's `tau`
  and `phi`, arrays are *tensors* (shape and element function) with NumPy's broadcasting rules
  (`Tensor.v`), so that a shape mismatch is an error and a silent mis-broadcast is visible.
* **np.empty** buffers are initialised by an arbitrary `junk` argument of the model.
* **Strided views** are modelled on the flat column-major buffer, with wrap-around visible.
* **External routines** (`np.linalg.eig/solve/inv`, `scipy.linalg.solve_banded`,
  `np.polynomial.legendre.leggauss`, `scipy.integrate.quad_vec`) are arguments of the model.
  Their contracts are premises of the theorems, never axioms:
  * `linalg_ok`: an answer satisfies its defining equation;
  * `linalg_unique` (only C24, C51, C59, C63 equilibrium, C64, C65, C81, C82, C84 converse, C89, C90, C93, C102 and C103 no rejection): an answer of the linear solvers is the only solution;
  * `linalg_complete` (only C24, C51 split, C58, C65, C66, C81, C82, C84, C90, C93, C103 no rejection): they answer whenever there is exactly one solution;
  * `linalg_total` (only C51 split, C65, C66, C80, C81, C82, C84, C90, C93): eig finds a full set of real eigenvectors if there is one, and inv inverts every regular matrix;
  * `leggauss_ok n`: n distinct nodes in (-1, 1), positive weights, exact for degree <= 2n-1.
* **Special functions** (`lpmv`, `poch`, `Legendre`, `pascal`, `idct`, `BarycentricInterpolator`)
  are defined by their mathematical definition.

| file | models |
|------|--------|
| `M_Subroutines.v` | `subroutines.py` except `_mathscr_v`, `interpolate`, `generate_diff_act_flux_funcs`, `_compare` |
| `M_MathscrV.v` | `subroutines._mathscr_v`; its factorials are a parameter (class `IntModel`), by default those of unbounded integers |
| `M_Ints.v` | those factorials in the integers of a machine with b bits, where products wrap around |
| `M_Interp.v` | `subroutines.interpolate`: the two shared interpolator objects, calls as sequences of atomic accesses to them, interleavings |
| `M_LinAlg.v` | interfaces and contracts of external routines; Legendre functions |
| `M_GenPart.v` | `_solve_for_gen_and_part_sols.py` |
| `M_Coeffs.v` | `_solve_for_coeffs.py` (dense and banded assembly, buffers reused over modes) |
| `M_Assemble.v` | `_assemble_intensity_and_fluxes.py` (solve and the closures u, u0, flux_up, flux_down), `generate_diff_act_flux_funcs` |
| `M_Pydisort.v` | `pydisort.py` (checks, delta-M scaling, rescaling, TMS, IMS, `u_corrected`) |
| `M_Float.v` | in IEEE-754 binary64 (Flocq), operation by operation: the checks of `tau_arr`, `omega_arr`, `f_arr`, the delta-M scaling, the TMS correction and `u_corrected` of `pydisort.py` for one entry |
| `M_FloatSol.v` | in binary64: the branch on delta-M scaling, the depth in the scaled atmosphere and every `np.exp` of the main solution (`_assemble_intensity_and_fluxes.py`) and of the linear system (`_solve_for_coeffs.py`) |
| `M_FloatNu.v` | in binary64: one entry of `calculate_nu` (`subroutines.py` 106-112), with `np.cos` an oracle of error at most 2^-52 |
| `M_FloatPlanck.v` | in binary64: `subroutines.Planck` for one temperature |
| `M_Compare.v` | `subroutines._compare` and the assertions the test-suite makes about its result (`pydisotest/*_test.py`) |
| `M_Warn.v` | the warnings of `pydisort.py`, in order among the checks |
| `M_IntDepth.v` | the returned functions at depths given as integers, whose powers are taken in the integers of a machine with b bits |
| `M_WarnSource.v` | the warnings of `subroutines.py` (lines 519 and 824): how often an answered call, an evaluation of a returned function and `cache_BDRF_Fourier_modes` issue them |
| `M_History.v` | the functions returned by `pydisort`, reading the present contents of the arrays they share with the caller |
| `M_Shared.v` | what a call leaves in the caller's `Leg_coeffs_all`, returned from or not; sequences of calls on one array |
| `M_Conc.v` | calls that run at the same time on one `Leg_coeffs_all`: each read and write of an element of the first column is a step, steps interleave in any order. Memory is sequentially consistent and an element is read or written at once; the other arguments are private to a call; what a call does between these accesses is one step |

Every definition of these files cites the lines it models.

**Not modelled:** floating-point rounding (except in the parts listed for `M_Float.v`, `M_FloatSol.v`, `M_FloatNu.v` and `M_FloatPlanck.v`); NumPy's RuntimeWarnings; complex results of `eig`;
the docstring-only parts; everything outside `src/PythonicDISORT` (tests, notebooks) except the assertions mentioned above; autograd tracing itself (both
branches of `_autograd_compatible` are modelled as plain computations); boundary arrays with more
than two dimensions (the model rejects them; NumPy would fail later or broadcast);
dtype conversions (`np.atleast_1d` of lists, integers), except at integer depths. The only integer computations whose size grows with
the input are the product of factorials in `_mathscr_v` and, at depths given as integers without delta-M scaling, its powers of the
depths. The theorems on whole calls take depths to be floats and the integers
to be unbounded, except those of C106, which say at which integer depths the answers are the same, and those of C103, which say for which sources the factorials make no difference (up to 21 coefficients
with 64 bits) and what happens beyond. With very many coefficients (from 67 with 64 bits) the factorials wrap to 0
and the code divides by 0; the model has 1/0 there and C103 says nothing about it.

## 2. Statements

`Spec*.v` hold the vocabulary of the statements: quadrature rules, the discretised radiative
transfer problem, the physical problem described by the caller's arguments (`Spec_Sol.v`:
layers, scaled depth, `solves_rte`, `top_condition`, `bottom_condition`, what a returned function
*reports*), accepted arguments (`Spec_Valid.v`), comparison of two calls (`Spec_Calls.v`),
antiderivatives (`Spec_Anti.v`), corrections (`Spec_NT.v`), interpolation (`Spec_Interp.v`),
the boundary-value problem of one mode and refinement of layers (`Spec_Unique.v`), physical atmospheres (`Spec_Phys.v`), solvability
(`Spec_Solved.v`), the azimuth-dependent problem (`Spec_Full.v`), comparison with references (`Spec_Compare.v`),
pairs of atmospheres (`Spec_Mono.v`), symmetries (`Spec_Sym.v`), positions of the sun (`Spec_Sun.v`),
changes of the optical properties and of the layer boundaries (`Spec_Depend.v`, `Spec_DependAz.v`, `Spec_Stretch.v`), double precision (`Spec_Float.v`, `Spec_FloatSol.v`, `Spec_FloatNu.v`).  They use the types of the arguments and
results of the model, not its computations.

`Properties_*.v` contain the property theorems `Cnn_...` and nothing else; beneath each one
`Print Assumptions` and an example that meets the hypotheses (a complete call in most cases, with
concrete layers, sources and solvers).  Whole-call theorems have the form

    forall p lg la jk out, linalg_ok la -> leggauss_ok (half p) (lg (half p)) ->
      pydisort p lg la jk = Ok out -> ...

and speak about the functions in `out`, for all arguments of these functions.

A property that is false of the faithful model is kept in its full form and answered by a theorem
`..._refuted` (a witness, and where possible a universal failure theorem) plus the strongest restricted theorem,
`..._partial`.

## 3. Properties

| id | what is modelled | proof |
|----|------------------|-------|
| C01 | `prepend` | case analysis over lists |
| C02, C03 | `transform_*`, `Gauss_Legendre_quad` | substitution in polynomial integrals |
| C04 | `Clenshaw_Curtis_quad` incl. idct | discrete cosine orthogonality for all n |
| C05 | `generate_FD_mat` as successive writes | algebra per class of rows |
| C06 | `calculate_nu` | trigonometry, Cauchy-Schwarz |
| C07, C08 | `affine_transform_poly_coeffs` | binomial theorem; C08 refuted (np.any) |
| C09-C11 | splines, Planck, thermal source | list induction; monotonicity of exp |
| C12, C13 | emissivity, caching closures, whole calls with cached modes | algebra; C13 refuted for NQuad = 2 with mu0 caching and for scalar modes under a beam; otherwise the call is the same (`P_Cache2`) |
| C14-C16 | `interpolate` as state machine over the two interpolator objects | Lagrange uniqueness; independence of the initial objects; C15 refuted for u0 |
| C53 | interleavings of the steps of several calls | invariant of conflict-free schedules; explicit run of two calls in turn (refuted) |
| C17 | `to_diag_ordered_form` with wrapped indices | index arithmetic |
| C18, C19 | `_mathscr_v` with broadcasting | derivative of polynomial sums; C19 refuted for several layers |
| C20-C23 | `_solve_for_gen_and_part_sols` incl. index lists | parity of associated Legendre functions; block algebra; loop invariants |
| C24-C28 | `_solve_for_coeffs` incl. strided writes | refinement dense/banded; block rows from the solver contract |
| C29-C33 | output closures | derivative of the assembled solution; search lemmas |
| C34-C37 | checks, delta-M, rescaling | case analysis; real algebra (`P_Scaled` for the values the program itself computes); C37 refuted (two divisions) |
| C38, C39 | rescaling, actinic fluxes | congruence of the whole computation under scaling; C39 refuted |
| C40-C44 | u, u0, fluxes | refinement between closures; trigonometric sums; quadrature exactness; derivatives |
| C41 with corrections | mean over the azimuth of the corrected intensity (`Spec_NTMean`) | the addition theorem turns the mean of the lost source into a Legendre series in both polar cosines; it is not zero in general, so the mean is not u0: `C41_corrected_mean_refuted` (`P_NTMean`) |
| C45-C47 | boundary shapes, aliasing, Fourier error | universal failure theorems with witnesses, and what holds |
| C48-C50 | TMS, IMS, `u_corrected` | telescoping of the layer sums into one ODE; double integral; refuted for unequal layers / scalings / two streams |
| C51 | two calls, one cutting homogeneous layers more finely (`refines`, `split` in Spec_Unique) | the field of the coarse call solves the boundary-value problem of the fine one; uniqueness (C59); with the corrections the intensities differ by the IMS term only, refuted by an explicit three-layer case |
| C52 | `flux_down` | unfolding |
| C54 | rescaling with sources of any sign | case analysis on the rescaling factor |
| C55-C57 | two calls with different junk / flag / NFourier | relational congruence through all stages |
| C58 | calls without scattering | explicit solution of the boundary system, hence regular |
| C59 | the modes of a successful call; two calls with different linear algebra oracles | a solution of the homogeneous problem yields a null vector of the boundary system; `linalg_unique` makes it 0. Completeness of the eigenbasis: the exponentials span all solutions of the layer ODE (P_LinA, P_Unique) |
| C60 | two Gauss rules of one order | the node polynomials are monic and orthogonal to all lower degrees, hence equal; weights by Lagrange interpolation |
| C61, C62 | one or two calls; non-negative mean phase function, passive surface (`Spec_Phys`) | minimum principle for the discrete-ordinate system: at a negative minimum over directions and depths the transfer equation and the boundary conditions contradict each other; the comparison of two calls applies it to the difference |
| C63 | calls without beam | the minimum principle applied to B minus the field; the constant field solves the problem, which has one solution (C59) |
| C64 | three calls | the combination of the fields solves the combined problem; C59. With the corrections (`C64_superposition_corrected`): the added term of C50 is the beam intensity times a function of the medium alone |
| C65 | every accepted physical input | spectrum of each layer's matrix from symmetry and diagonal dominance (real, non-zero, diagonalisable), dissipativity of the boundary system, converse from the particular solution |
| C66 | the same | zero is the only solution of the homogeneous problem, without `linalg_unique` |
| C67 | every call with all modes, without corrections | addition theorem of the Legendre polynomials (induction on the degree through their differential equation and recurrence), integrals of products of azimuthal series, C29; uniqueness from the minimum principle of C68 applied to the difference |
| C68 | the same | minimum principle on depth x azimuth: a negative minimum is attained (compactness), and contradicts the equation at that point; comparison with constant fields |
| C69 | `_compare`, the assertions | row-major indexing and squeezing; maxima over lists; refuted for references <= 0 |
| C70 | pairs of calls | minimum principle of C61 applied to e minus the difference of the two solutions |
| C71 | pairs of calls | minimum principle of C61 applied to the difference; the change of the scaled depths and of the delta-M scaled albedos is a non-negative source |
| C72 | pairs of calls | the bilinear form sum w mu F(i) G(opposite i) has derivative 0 in every layer (symmetry and parity of the scattering kernel), is continuous, and is evaluated with the boundary conditions |
| C73 | pairs of calls | the reversed solution solves the reversed boundary-value problem; uniqueness (C59) |
| C74 | the rule, pydisort | zeros of the Legendre polynomials by induction with sign changes, interpolatory weights, exactness by orthogonality (Legendre's equation), positivity by squares; uniqueness; combined with C65 and C66 |
| C75 | pydisort for varying mu0 | resonances are eigenvalues of one matrix per mode and layer; eigenvectors of distinct eigenvalues are independent and eigenvalues come in pairs of opposite sign |
| C76 | pydisort for pairs of atmospheres | the solution of one atmosphere put into the equation of the other leaves a defect bounded by the change of the coefficients (Legendre polynomials are at most 1 by the addition theorem); the maximum principle bounds the difference by the defect over the absorption |
| C77 | checks, scaling, TMS and `u_corrected` in binary64 | refuted: behind a layer boundary deeper than 748 mu the product of attenuations is 0 and 0/0 or 0*inf follows, for every accepted atmosphere (monotone rounding, error bounds of sums); below 690 mu all quantities stay finite (ratios of attenuations bounded), with the antiderivative if no layer scatters more than half of what it removes into the forward peak |
| C78 | checks and delta-M scaling in binary64 | rounding is monotone and exact at 0, 1 and at the arguments; differences of distinct floats do not vanish |
| C79 | depths and attenuation factors of the main solution in binary64 | forward error analysis: rounded running sums, products and differences; the boundary depths are monotone because rounding is; relative error of `exp` under a small change of its argument |
| C80 | every accepted input with a layer and mode that scatter radiation of one symmetry back in full | the eigenvalue problem of the layer is a product of a positive definite and a symmetric matrix; by simultaneous diagonalisation it has a full set of real eigenvectors, which `eig` finds, and by inertia an eigenvalue <= 0, at which the square root or the division by the rate fails. Refuted by a Henyey-Greenstein layer (generating function of the Legendre polynomials for its positivity) |
| C81 | every accepted input in whose layers radiation of either symmetry loses, over a surface that does not amplify | the same spectral argument, and an energy estimate: the flux-weighted square of a solution without sources grows with depth, is >= 0 at the top and <= 0 at the bottom. For two streams the matrices are explicit, and C80 covers the remaining cases |
| C82 | every accepted input with NQuad >= 2 NLeg | the values of the associated Legendre functions at the nodes are orthogonal (double Gauss is exact for their products; the integrals follow from Legendre's differential equation by induction on the order), so Bessel's inequality bounds what is scattered back component by component; the albedo times each coefficient is below 1. Then C81 |
| C83 | every call | the checks and warnings are a list of steps whose result is that of the modelled checks (`steps_agree`); conditions of the warnings are rewritten to the caller's terms |
| C84 | every accepted call | refuted by the call of C80, which passes every threshold; for two streams below the warning threshold and with scaled albedos up to 0.935 the rates of C81 are real |
| C85 | same atmosphere, growing NQuad | `exact_field` (`Spec_Exact.v`): the transfer equation with the integral over all directions. The quadrature error of the source of the exact field goes to zero uniformly in direction and depth (Bernstein approximation of the equicontinuous family of exact fields away from the horizon, exactness of Gauss rules), and the minimum principle of C61 turns it into an error of the answer. That the exact field exists and is unique (`C85_exact_field`): integrating along each direction gives a map of fields that shrinks their largest distance by a fixed factor, because every albedo and the reflected share are below 1; its iterates converge uniformly |
| C86 | pairs of answered calls for the same atmosphere | both are close to the exact field of C85, whose existence is proved, so no premise about it remains |
| C87 | `Planck` in real arithmetic | the value is rewritten to Planck's law in m^-1 at 100 times the wavenumber; refuted at h c W = kT / 100 |
| C88 | `Planck` in binary64 (`M_FloatPlanck.v`) | forward error analysis: relative errors of the factors are counted in units of 2^-52, then the cancellation in `1 - expterm` costs 1/x, the argument of `exp` costs x, where x is the photon energy over kT; refuted where `exp` rounds to 1 |
| C89 | pairs of answered calls for the same atmosphere | `same_physics` (`Spec_Physics.v`) lists what has to agree. Both calls report solutions of boundary-value problems (C26 to C29), a solution of the one problem solves the other, and solutions are unique (C59, or C81 if the atmosphere loses); without a beam the higher modes vanish, so that azimuth and number of modes do not matter |
| C90 | the same, well-formed | solved if and only if no layer resonates (C81), which is a property of the atmosphere; refuted without a beam by the check of mu0 that belongs to NT_cor |
| C91 | accepted inputs with nowhere negative phase function and absorbing surface | `exact_intensity` (`Spec_Azimuth.v`) is the transfer equation with integrals over both angles. Existence: every azimuthal mode is a fixed point of a contraction in the supremum norm (`P_Az1`, `P_Az2`; each mode scatters at most as much as mode 0, `P_Az3`), and the sum of the modes solves the equation by the addition theorem. Uniqueness: the difference of two solutions shrinks by a factor below 1 (`P_Az4`) |
| C92 | answered calls with all modes, NT_cor not applying | the reported intensity solves the discrete problem (C67); the exact radiation solves it up to quadrature errors, which are uniformly small because the integrands are equicontinuous; the maximum principle of C68 bounds the difference (`P_Az5`) |
| C93 | any input with a beam | for each number of streams the resonant sun angles are finitely many (C65, C81); countably many finite sets leave a point of every interval free (`P_Az6`) |
| C94 | any pair of accepted calls with the same medium | the envelope e + d1 exp(-a(t)) + d2 exp(-(a(T)-a(t))) is a supersolution: its slope is at most (1-albedo) times itself and directions have cosine at most 1; maximum principles of C61 (mean) and C68 (every azimuth) (`Spec_Fade`, `P_Fade`) |
| C95 | any accepted call without a beam | C94 against the constant field, which solves the problem whose sources are all B (`P_Fade`) |
| C96 | heap of the caller's and the returned arrays, aliasing through np.atleast_1d, closures that read the present contents (`M_History`); histories of writes and calls | induction over the history; `_refuted` for tau_arr (every call) and for the returned mu_arr (`P_History`, `P_History2`, `Examples10`) |
| C97 | the calls of the surface modes in `_solve_for_coeffs` (`M_Coeffs`), whole call (`M_Pydisort`) | the right- and left-hand sides read the reflection terms at the nodes only, hence equal states of the loop over the modes; equality of the two calls (`P_Cache`, `P_Cache2`). Also gives C13 for whole calls |
| C98 | contents of Leg_coeffs_all after a call, answered or rejected, and sequences of calls on one array (`M_Shared`) | the solver reads the phase function multiplied by the albedo only, the checks and warnings read the first column only for the correction; induction over the calls. `C98_same_warnings_refuted`: the correction is announced once only (`P_Shared`, `P_Shared2`, `Examples12`) |
| C99 | two calls that differ in phi0 (`Spec_Turn`) | the solver does not read phi0; the multiple-angle formula turns equal cosines into equal factors of every mode; congruence of all later array operations, exceptions included (`P_Turn`) |
| C100 | concurrent calls on one array, any number, any schedule (`M_Conc`) | an invariant of the column and of each call, monotone in the column because a coefficient only ever becomes 1: what a call reads after its check is 1 or belongs to a layer that does not scatter; a decreasing measure for `C100_no_waiting`. `C100_warned_once_refuted`: two calls can both warn (`P_Conc`, `P_Conc2`, `P_Conc3`) |
| C101 | the fluxes of physical calls at two depths (`Spec_Budget`) | the net flux of every layer has a derivative at least minus the emission, because the intensities are not negative (C61) and at most the single-scattering albedo is scattered, cut-off layers included; mean value theorem and chaining over the layers; the surface by exchanging sums (`P_Budget`) |
| C102 | two calls with complementary sources | the constant field minus the field of one call solves the boundary value problem of the other; uniqueness (C59) (`P_Kirch`) |
| C103 | `M_Ints.v`: the whole call with machine integers | factorials that fit are exact and the rest of the call is a function of them; solvability depends on the matrix, not on the right-hand side; beyond, the error of the particular solution is computed (one monomial source more) and shown not to solve the equation (`P_Ints`, `P_Ints2`, `P_Ints3`) |
| C104 | `M_FloatNu.v`: one entry of `calculate_nu` in binary64 | forward error analysis; `1 - mu**2` is never negative because rounding is monotone; near the vertical the square root loses half of the digits, hence the two error bounds; the claim that the result is at most 1 is refuted by one direction, computed in the kernel |
| C105 | `M_WarnSource.v`, `M_Ints.v` | case analysis; the factorials of up to 10 coefficients fit into 23 bits, so the outcomes can differ only beyond |
| C106 | `M_IntDepth.v` | powers that fit are exact and everything else is the same; beyond, the difference is the last coefficient times the error of the power times a vector that is not zero, because it solves a linear system whose right-hand side is not (`P_IntDepth`, `P_IntDepth2`) |
| C107 | pydisort for pairs of atmospheres, `u` at every azimuth | as C76, for the transfer equation with the integral over the azimuth (C67): the intensity of one atmosphere put into the equation of the other leaves a defect bounded by the change of the coefficients; the minimum principle behind C68 bounds the difference (`Spec_DependAz`, `P_DependAz`, `P_DependAz2`) |
| C108 | pydisort for pairs of atmospheres that differ in any numerical argument: layer boundaries, optical properties, emission, boundary values, beam, sun and surface | as C76, after the radiation of one atmosphere is carried over to the depths of the other by the piecewise linear map of the layers; the derivative picks up the ratio of the thicknesses, and what this adds to the defect is bounded by all that the layer extinguishes, scatters and emits; the change of the beam source follows from Lipschitz bounds of the Legendre polynomials and of the exponential (`Spec_Stretch`, `P_Stretch`, `P_Stretch2`) |
| C109 | pydisort's intensity at every azimuth for pairs of atmospheres that differ in any numerical argument | as C107 and C108 together: the field of one atmosphere is carried over to the depths of the other, the kernels are compared under the azimuthal integrals, and the angle between a direction and the sun moves by at most a square root of the distance (`Spec_StretchAz`, `P_StretchAz`, `P_StretchAz2`) |
| C110 | pydisort's mean intensity for pairs of atmospheres, one of which scatters too weakly for the code to keep it | false: a layer of any thickness with isotropic scattering, lit from above, solved well enough to bound the upward radiation from below, which is 0 up to an albedo of 2e-8 and jumps there (`Examples18`, `P_Cutoff`); `_partial`: C76 above the cut-off, and for all atmospheres with a bound on the jump, from the comparison of C76 with the scattering that is left out as a further defect (`P_Cutoff2`) |
| C111 | `blackbody_contrib_to_BCs`, with an exact integrator | Planck's law is integrable down to wavenumber 0 and strictly increasing in the temperature; the ends of the spline of C10 (`P_SubApi`) |
| C112 | pydisort's mean intensity and fluxes against the boundary value problem that keeps all scattering (`Spec_Cutoff`) | the kernels differ by at most 1e-8 per coefficient, and the maximum principle turns this defect into a bound on the difference; the two-stream solution of one layer is written out as the example (`P_Cutoff3`); the maximum principle for the full kernel gives uniqueness and the bound by what is reported (`P_Cutoff4`); existence is the convergence of successive orders of scattering (`P_Cutoff5`); what is left out is a source that is not negative, so the error has a sign (`P_Cutoff6`) |

## 4. Trusted base

* Coq 8.16.1 kernel (and `coqchk` as a second check of the compiled files).
* Axioms: `Print Assumptions` beneath each theorem lists at most
  `ClassicalDedekindReals.sig_forall_dec`, `ClassicalDedekindReals.sig_not_dec`,
  `FunctionalExtensionality.functional_extensionality_dep` and `Classical_Prop.classic`, all from the standard library (real numbers,
  Coquelicot's use of them).  No axiom is added, no kernel check switched off, no functor or module type defined.
* That the model transcribes the Python (section 1) and that the vocabulary files say what the English says.
* The contracts of the external routines, premises of the theorems that need them.  `Examples*.v` contain
  solvers that provably meet the contracts (`la_ex`, `la_id`, `lg_12`), so the premises are consistent.
  `la_full` (Examples5.v) meets the strongest of them for all matrices, `gauss_rule` is a Gauss-Legendre rule of every order.
* Exact arithmetic, except for C77 to C79 and C88: these rest on Flocq's definition of IEEE-754 binary64 (computed definitions,
  no axioms) and on the stated accuracy of `exp` and `expm1` (`libm_ok`; `libm0`, which rounds correctly, meets it; likewise `cube_ok` for `WVNM**3`).
* Purity: the model has no mutable caller arrays except the one the code really overwrites
  (`Leg_coeffs_all`, returned as `po_Leg`); that nothing else is modified (C46) is read off the text.

## 5. Where the code departs from the documented behaviour

1. `_mathscr_v` antiderivative: error or wrong values with several layers (C19).
2. `u0(..., is_antiderivative_wrt_tau=True)` is ignored without a beam (C43).
3. `return_Fourier_error` fails for most numbers of depths with a beam and several layers (C47).
4. `flux_down` antiderivative: broadcasting error for several layers (C43).
5. Actinic flux: the reclassified beam is not multiplied back by the rescaling factor (C39).
6. `affine_transform_poly_coeffs`: `np.any(a_arr) == 0` only rejects the all-zero array (C08).
7. `f_arr` = 1 accepted together with the NT corrections: division by zero (C37).
8. `Leg_coeffs_all` of the caller is overwritten (C46).
9. Rescaling by zero for an isotropic source that vanishes at both ends (C37).
10. Boundary values given as matrices fail (C45).
11. `cache_BDRF_Fourier_modes` differs from the uncached modes for NQuad = 2 with mu0 caching, and
    a cached scalar mode makes every call with a beam fail with a TypeError (C13).
12. `interpolate(u0)` passes its flags to the wrong parameters (C15).
13. TMS: contributions of other layers use the source of the layer of the depth asked for; the intensity jumps at interfaces (C48); the antiderivative uses the wrong scaling (C49).
14. IMS: wrong shape, hence an error, for two streams and two or more azimuths (C50).
15. Direct flux is the scalar 0 for I0 = 0 (C52).
16. Negative boundary sources without any positive source are dropped (C54).
17. Interpolator objects are shared between calls in progress (C53).
18. IMS: the averages over the layers are weighted by the depths of the lower boundaries instead of the layers' thicknesses, so cutting a homogeneous layer changes the corrected intensity (C51).
19. A beam that resonates with a layer (1/mu0 equal to an eigenvalue of the layer) ends in a singular-matrix error although every input check passes; for two streams and isotropic scattering with scaled albedo 3/4 this is the overhead sun (C65). Near such a mu0 the particular solution is ill-conditioned.
20. `_compare`: relative differences are set to 0 where the reference is 0 (and are negative where it is negative), so the test-suite's assertions cannot fail there (C69).
21. TMS for several layers divides products of attenuations by each other: where the scaled optical depth of an inner layer boundary exceeds about 745 mu (for 16 streams: depth 15) they underflow and the corrected intensity is NaN (C77).
22. Strongly peaked phase functions without delta-M scaling: the truncated phase function scatters a mode back in full and the rate of decay is the square root of a negative number; for two streams as soon as the scaled albedo times asymmetry reaches 8/9, e.g. Henyey-Greenstein with g = 0.9 and albedo 0.99. Every input check passes (C80), and for g = 0.9 no warning is issued: the warning of the phase function starts at 0.95 (C84). Scaling with f = g^2 repairs it (C81), and so does NQuad >= 2 NLeg (C82).
23. `Planck` and the functions built on it take wavenumbers in cm^-1; the documentation says m^-1 (C87).
24. `Planck` divides by `1 - expterm`, which is 0 in double precision when the photon energy is below about 2^-54 kT (C88).
25. With NT_cor a `mu0` at a quadrature angle is rejected even without a beam, where it is not used (C90).
26. The returned functions go on reading the caller's `tau_arr` and, with the NT corrections, `f_arr` and the returned `mu_arr`: writing into them later changes the results (C96).
27. Sources with 22 or more polynomial coefficients (14 with 32-bit integers): the factorials overflow and the reported field does not satisfy the equation (C103).
28. `calculate_nu` can return a value above 1 in double precision, whose arccosine does not exist (C104).
29. Depths given as integers: powers of the depth overflow silently, for example depth 128 with 10 source coefficients (C106).
30. Scattering is left out where half the scaled albedo is at most 1e-8: the intensity jumps there (C110).

## 6. Mutation tests

`seeded/LOG.jsonl`: one line per deliberate error put into a copy of the model, with the theorems that
then fail.  Theorems found too weak were tightened; the line says which.
