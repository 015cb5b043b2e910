{"id": "C01", "title": "prepend is cons", "statement": "prepend(arr, len(arr), v) returns the array of length len(arr)+1 whose entry 0 is v and whose entry i+1 is arr[i]; with any other arr_len it either broadcasts a length-1 arr or raises.", "quantifier": "every array, declared length and value", "why_tests_cant": "arrays of every length and every mismatched declared length", "anchors": ["src/PythonicDISORT/subroutines.py:prepend"]}
{"id": "C02", "title": "Affine change of interval is exact on polynomials", "statement": "transform_interval/transform_weights carry a quadrature rule on [a,b] to one on [c,d]: endpoints map to endpoints, order is preserved, and if the source rule integrates every polynomial of degree <= k exactly on [a,b] then the transformed rule integrates every polynomial of degree <= k exactly on [c,d].", "quantifier": "every rule, degree, polynomial and pair of non-degenerate intervals", "why_tests_cant": "ranges over all polynomials and intervals", "anchors": ["src/PythonicDISORT/subroutines.py:transform_interval", "src/PythonicDISORT/subroutines.py:transform_weights"]}
{"id": "C03", "title": "Gauss-Legendre rule on [c,d]", "statement": "Gauss_Legendre_quad(N,c,d) has N nodes strictly inside (c,d), positive weights that sum to d-c, and integrates every polynomial of degree <= 2N-1 exactly, given that numpy leggauss(N) does so on [-1,1].", "quantifier": "every N, every interval c<d, every polynomial of degree <= 2N-1", "why_tests_cant": "all N, all polynomials", "anchors": ["src/PythonicDISORT/subroutines.py:Gauss_Legendre_quad"]}
{"id": "C04", "title": "Clenshaw-Curtis rule", "statement": "Clenshaw_Curtis_quad(Nphi,c,d) raises ValueError unless Nphi is odd and > 2; otherwise it returns Nphi nodes running from c to d in increasing order and Nphi weights, symmetric, and the rule integrates every polynomial of degree <= Nphi-1 exactly over [c,d].", "quantifier": "every integer Nphi, every interval, every polynomial of degree <= Nphi-1", "why_tests_cant": "all odd Nphi and all polynomials; tests sample one integrand", "anchors": ["src/PythonicDISORT/subroutines.py:Clenshaw_Curtis_quad"]}
{"id": "C05", "title": "Finite-difference matrix is second order at every grid point", "statement": "For every Ntau >= 3 and a<>b, generate_FD_mat(Ntau,a,b) returns the uniform grid from a to b and a matrix which applied to samples of any quadratic returns its exact derivative at every grid point including both ends; for Ntau < 3 it raises.", "quantifier": "every Ntau, a, b and every quadratic", "why_tests_cant": "all grid sizes and all quadratics, including boundary rows", "anchors": ["src/PythonicDISORT/subroutines.py:generate_FD_mat"]}
{"id": "C06", "title": "Cosine of the scattering angle", "statement": "calculate_nu returns at index (i,j,k,l) the dot product of the unit vectors with directions (mu_i,phi_j) and (mu_p_k,phi_p_l); it lies in [-1,1], equals 1 for identical and -1 for opposite directions, and is symmetric under exchange of incidence and outgoing direction.", "quantifier": "all arrays of cosines in [-1,1] and all azimuths", "why_tests_cant": "real-valued arguments", "anchors": ["src/PythonicDISORT/subroutines.py:calculate_nu"]}
{"id": "C07", "title": "Affine change of variable in the source polynomial", "statement": "affine_transform_poly_coeffs(C,a,b): for every row with a<>0 the returned row D satisfies D(a*x+b) = C(x) for all x.", "quantifier": "every number of coefficients, every row, every a<>0, b, x", "why_tests_cant": "polynomials of every degree and all x", "anchors": ["src/PythonicDISORT/subroutines.py:affine_transform_poly_coeffs"]}
{"id": "C08", "title": "Zero scale factors are rejected", "statement": "affine_transform_poly_coeffs raises ValueError whenever some scale factor is zero.", "quantifier": "every array of scale factors", "why_tests_cant": "arrays with a zero among non-zero entries", "anchors": ["src/PythonicDISORT/subroutines.py:affine_transform_poly_coeffs"]}
{"id": "C09", "title": "Linear spline interpolates and is continuous", "statement": "linear_spline_coefficients(x,y) raises unless len(x)>1, len(x)=len(y) and x is strictly increasing; otherwise row i gives the unique affine function through (x_i,y_i) and (x_{i+1},y_{i+1}), so adjacent segments agree at the knots.", "quantifier": "all x,y", "why_tests_cant": "all lengths and values", "anchors": ["src/PythonicDISORT/subroutines.py:linear_spline_coefficients"]}
{"id": "C10", "title": "Thermal source generator", "statement": "generate_s_poly_coeffs(tau_arr,TEMPER,..) raises unless len(TEMPER)=len(tau_arr)+1; otherwise it returns one row per layer whose affine source equals the band-integrated Planck emission of the layer's top and bottom temperature at the layer's top and bottom optical depth, so the source is continuous across layers and non-negative inside every layer.", "quantifier": "all increasing tau_arr, temperatures and bands", "why_tests_cant": "all atmospheres", "anchors": ["src/PythonicDISORT/subroutines.py:generate_s_poly_coeffs", "src/PythonicDISORT/subroutines.py:Planck"]}
{"id": "C11", "title": "Planck function", "statement": "Planck(T,WVNM) is 0 at T=0, equals 2e8 h c^2 WVNM^3/(exp(100 h c WVNM/(k T))-1) for T>0, is positive, and strictly increasing in T, for every WVNM>0; entries are computed independently.", "quantifier": "all arrays T>=0 and WVNM>0", "why_tests_cant": "all temperatures and mixed zero/non-zero arrays", "anchors": ["src/PythonicDISORT/subroutines.py:Planck"]}
{"id": "C12", "title": "Emissivity of a Lambertian surface", "statement": "generate_emissivity_from_BDRF gives the same emissivity 1-rho for a scalar Fourier mode rho and for the constant function rho, for every number of nodes; for any mode the emissivity of node i is 1 - 2*sum_j rho(mu_i,mu_j) mu_j W_j and lies in [0,1] when the reflectances are non-negative and the directional albedo is at most 1.", "quantifier": "every N >= 1 and every BDRF mode", "why_tests_cant": "all N and all BDRFs", "anchors": ["src/PythonicDISORT/subroutines.py:generate_emissivity_from_BDRF"]}
{"id": "C13", "title": "BDRF caching is transparent", "statement": "Passing cache_BDRF_Fourier_modes(N,modes,mu0) to pydisort in place of modes makes every evaluation pydisort performs return the same value as the original modes.", "quantifier": "every N, every list of scalar/function modes, every mu0", "why_tests_cant": "all N including N=1, scalar modes, with and without mu0 caching; no test calls this function", "anchors": ["src/PythonicDISORT/subroutines.py:cache_BDRF_Fourier_modes", "src/PythonicDISORT/_solve_for_coeffs.py:_solve_for_coeffs"]}
{"id": "C14", "title": "Interpolation reproduces the discrete solution", "statement": "interpolate(u)(mu,tau,phi) equals u(tau,phi) at every quadrature cosine (both hemispheres) and, when u is in each hemisphere a polynomial of degree < N in mu, equals it at every mu of that hemisphere; it raises for |mu|>1.", "quantifier": "every N, every u, every mu", "why_tests_cant": "all N and continuous mu", "anchors": ["src/PythonicDISORT/subroutines.py:interpolate"]}
{"id": "C15", "title": "interpolate keeps the optional outputs", "statement": "interpolate(u)(..., return_tau_arr=True) and interpolate(u0)(..., return_tau_arr=True) return tau_arr as the last output; return_Fourier_error only adds the Fourier error.", "quantifier": "all flag combinations, u and u0", "why_tests_cant": "flag combinations on u0 are not tested", "anchors": ["src/PythonicDISORT/subroutines.py:interpolate", "src/PythonicDISORT/_assemble_intensity_and_fluxes.py:u0"]}
{"id": "C16", "title": "Interpolated function has no memory", "statement": "Every call of the function returned by interpolate gives the same answer as a first call, whatever calls were made before.", "quantifier": "all finite histories of calls (and, for concurrent use, all interleavings)", "why_tests_cant": "histories and interleavings", "anchors": ["src/PythonicDISORT/subroutines.py:interpolate"]}
{"id": "C17", "title": "Diagonal ordered form", "statement": "to_diag_ordered_form(A,u,l) satisfies ab[u+i-j, j] = A[i,j] for every entry inside the band, has u+l+1 rows, and never reads outside A, for every n and bandwidths below n.", "quantifier": "every matrix, every size, every bandwidth pair", "why_tests_cant": "all sizes and bandwidths; relies on index wrap-around", "anchors": ["src/PythonicDISORT/subroutines.py:to_diag_ordered_form"]}
{"id": "C18", "title": "Isotropic-source particular solution solves the ODE", "statement": "For every number of polynomial coefficients (1, 2 or more) the particular solution v(tau) used by u, u0 and the fluxes satisfies v' = A v - s(tau)/mu exactly, when (G,K) diagonalises A; the three code branches compute the same function.", "quantifier": "every degree, size, layer, tau", "why_tests_cant": "all degrees; branches 1, 2, >2 must agree", "anchors": ["src/PythonicDISORT/subroutines.py:_mathscr_v"]}
{"id": "C19", "title": "Isotropic-source antiderivative", "statement": "With is_antiderivative_wrt_tau=True the isotropic contribution at each requested tau is an antiderivative (with respect to unscaled tau) of the isotropic contribution without the flag, for every number of layers and requested optical depths.", "quantifier": "every number of layers, array of tau and number of coefficients", "why_tests_cant": "only single-layer cases are tested", "anchors": ["src/PythonicDISORT/subroutines.py:_mathscr_v"]}
{"id": "C20", "title": "Scattering matrix parity", "statement": "The matrices built from associated Legendre values at upward nodes with alternating signs equal the documented D^m(mu_i,mu_j) and D^m(-mu_i,mu_j) (and X^m at +-mu_i) at both hemispheres, for every Fourier mode.", "quantifier": "every m, NLeg, N, nodes, coefficients", "why_tests_cant": "all modes and orders", "anchors": ["src/PythonicDISORT/_solve_for_gen_and_part_sols.py:_solve_for_gen_and_part_sols"]}
{"id": "C21", "title": "Eigenvector assembly", "statement": "The block eigenvector matrix and the eigenvalues built from the eigen-decomposition of (alpha-beta)(alpha+beta) satisfy A G = G diag(K) with A=[[-alpha,-beta],[beta,alpha]] and K = (-k,k), for every layer and Fourier mode, including layers taking the no-scattering shortcut (where A is diagonal).", "quantifier": "every layer, mode, N", "why_tests_cant": "all matrices", "anchors": ["src/PythonicDISORT/_solve_for_gen_and_part_sols.py:_solve_for_gen_and_part_sols"]}
{"id": "C22", "title": "Beam particular solution", "statement": "B computed by the code satisfies (A + I/mu0) B = X for every non-shortcut layer and mode, whichever of the two code paths (inverse eigenvector matrix / linear solve) is taken, and is 0 for shortcut layers.", "quantifier": "every layer, mode, mix of shortcut and non-shortcut layers, with/without isotropic source", "why_tests_cant": "all index-bookkeeping combinations", "anchors": ["src/PythonicDISORT/_solve_for_gen_and_part_sols.py:_solve_for_gen_and_part_sols"]}
{"id": "C23", "title": "No uninitialised memory reaches the solution", "statement": "The arrays returned by the eigen-solver stage do not depend on the initial contents of any np.empty buffer.", "quantifier": "every initial buffer content, every pattern of shortcut layers", "why_tests_cant": "memory contents cannot be enumerated", "anchors": ["src/PythonicDISORT/_solve_for_gen_and_part_sols.py:_solve_for_gen_and_part_sols", "src/PythonicDISORT/_solve_for_coeffs.py:_solve_for_coeffs"]}
{"id": "C24", "title": "Banded assembly equals dense assembly", "statement": "For every NLayers >= 3, N >= 1 the diagonal-ordered matrix written through the strided view holds exactly the dense boundary-condition matrix, every strided write stays inside the buffer, and the dense matrix is zero outside bandwidth 3N-1; hence the result does not depend on use_banded_solver_NLayers.", "quantifier": "every N, NLayers >= 3, every block content", "why_tests_cant": "all sizes; raw pointer arithmetic", "anchors": ["src/PythonicDISORT/_solve_for_coeffs.py:_view_slanted", "src/PythonicDISORT/_solve_for_coeffs.py:_solve_for_coeffs"]}
{"id": "C25", "title": "Fourier modes do not leak into each other", "statement": "The buffers LHS, LHS_dof and RHS are reused over Fourier modes, yet the coefficients obtained for mode m are those obtained when mode m is assembled in fresh zeroed buffers.", "quantifier": "every sequence of modes and previous buffer contents", "why_tests_cant": "histories of buffer contents", "anchors": ["src/PythonicDISORT/_solve_for_coeffs.py:_solve_for_coeffs"]}
{"id": "C26", "title": "Top boundary condition", "statement": "If the top boundary source has no negative entry, each Fourier mode of the returned downward intensity at tau=0 equals it (b_neg for mode 0 if scalar/vector, 0 for higher modes).", "quantifier": "every accepted input and mode", "why_tests_cant": "all atmospheres", "anchors": ["src/PythonicDISORT/_solve_for_coeffs.py:_solve_for_coeffs", "src/PythonicDISORT/_assemble_intensity_and_fluxes.py:u0"]}
{"id": "C27", "title": "Bottom boundary condition", "statement": "If the bottom boundary source has no negative entry, each Fourier mode of the returned upward intensity at the bottom equals b_pos (mode 0) plus reflected diffuse downward intensity plus reflected direct beam as in the documentation.", "quantifier": "every accepted input, BDRF and mode", "why_tests_cant": "all atmospheres and BDRFs", "anchors": ["src/PythonicDISORT/_solve_for_coeffs.py:_solve_for_coeffs", "src/PythonicDISORT/_assemble_intensity_and_fluxes.py:u0"]}
{"id": "C28", "title": "Continuity across layer interfaces", "statement": "The intensity modes computed from the layer above and from the layer below coincide at every interior interface.", "quantifier": "every number of layers, interface, mode, direction", "why_tests_cant": "all atmospheres", "anchors": ["src/PythonicDISORT/_solve_for_coeffs.py:_solve_for_coeffs", "src/PythonicDISORT/_assemble_intensity_and_fluxes.py:u"]}
{"id": "C29", "title": "Returned modes solve the discretised radiative transfer equation", "statement": "Inside each layer each returned Fourier mode satisfies the documented system of ODEs with delta-scaled optical properties, beam source and isotropic source.", "quantifier": "every accepted input, layer, mode, tau", "why_tests_cant": "all tau and atmospheres", "anchors": ["src/PythonicDISORT/_assemble_intensity_and_fluxes.py:u", "src/PythonicDISORT/_assemble_intensity_and_fluxes.py:u0", "src/PythonicDISORT/_solve_for_gen_and_part_sols.py:_solve_for_gen_and_part_sols"]}
{"id": "C30", "title": "No growing exponentials", "statement": "Every exponential of an eigenvalue evaluated while assembling or evaluating the solution has a non-positive exponent.", "quantifier": "every accepted input and tau in range", "why_tests_cant": "overflow freedom for all optical thicknesses", "anchors": ["src/PythonicDISORT/_assemble_intensity_and_fluxes.py:u0", "src/PythonicDISORT/_solve_for_coeffs.py:_solve_for_coeffs"]}
{"id": "C31", "title": "Layer lookup", "statement": "For every tau in [0,tau_BoA] the layer used is the unique l with tau_{l-1} < tau <= tau_l (l=0 for tau=0).", "quantifier": "every increasing tau_arr and tau", "why_tests_cant": "all tau incl. interfaces", "anchors": ["src/PythonicDISORT/_assemble_intensity_and_fluxes.py:u0"]}
{"id": "C32", "title": "Scaled optical depth", "statement": "The delta-scaled optical depth used inside the output functions is continuous, strictly increasing in tau, 0 at 0 and the scaled boundary at each boundary; with no scaling it is tau.", "quantifier": "every accepted input and tau", "why_tests_cant": "all tau", "anchors": ["src/PythonicDISORT/_assemble_intensity_and_fluxes.py:u0", "src/PythonicDISORT/pydisort.py:pydisort"]}
{"id": "C33", "title": "Out-of-range optical depth is rejected", "statement": "u, u0, flux_up and flux_down raise ValueError iff some requested tau is negative or beyond the bottom of the atmosphere.", "quantifier": "every array of tau", "why_tests_cant": "all arrays", "anchors": ["src/PythonicDISORT/_assemble_intensity_and_fluxes.py:u", "src/PythonicDISORT/_assemble_intensity_and_fluxes.py:u0", "src/PythonicDISORT/_assemble_intensity_and_fluxes.py:flux_up", "src/PythonicDISORT/_assemble_intensity_and_fluxes.py:flux_down"]}
{"id": "C34", "title": "Input validation is sound", "statement": "If pydisort does not raise then tau_arr is positive and strictly increasing, 0 <= omega < 1, NQuad is even and >= 2, 0 < NFourier <= NLeg <= min(NQuad, supplied coefficients), shapes match, |g_l| < 1 for l >= 1, f in [0,1], I0 >= 0 and (beam on) mu0 in (0,1], phi0 in [0,2pi). With the NT corrections asked for, a call with an upward quadrature cosine within 1e-8 of mu0 is rejected, and an answered one has none.", "quantifier": "every input", "why_tests_cant": "all inputs", "anchors": ["src/PythonicDISORT/pydisort.py:pydisort"]}
{"id": "C35", "title": "Delta-M scaling preserves the physics", "statement": "For accepted inputs with f<1 scaled layer depths are strictly increasing, 0 <= scaled omega < 1, the scaled thickness is (1 - omega f) dtau, the scaled albedo (1 - f) omega / (1 - omega f) and (where there is scattering) the scaled coefficients are (g - f) / (1 - f), the zeroth being 1, absorption optical thickness is preserved ((1-omega*)dtau* = (1-omega)dtau), and the scaled source satisfies scale*s*(tau*) = (1-omega) s(tau).", "quantifier": "every accepted input", "why_tests_cant": "all inputs", "anchors": ["src/PythonicDISORT/pydisort.py:pydisort"]}
{"id": "C36", "title": "Unit scaling shortcut", "statement": "When no layer has f>0 the shortcut branch computes exactly what the general delta-M formulas give at f=0.", "quantifier": "every accepted input with f=0", "why_tests_cant": "all inputs", "anchors": ["src/PythonicDISORT/pydisort.py:pydisort"]}
{"id": "C37", "title": "Accepted input never divides by zero", "statement": "Every input accepted by the checks leads to finite scaled optical properties, sources and corrections (no division by zero in delta-M scaling, source rescaling or NT averages).", "quantifier": "every accepted input", "why_tests_cant": "all accepted inputs, including boundary values", "anchors": ["src/PythonicDISORT/pydisort.py:pydisort"]}
{"id": "C38", "title": "Outputs scale with the sources", "statement": "Multiplying I0, b_pos, b_neg and s_poly_coeffs by the same c>0 multiplies u, u0, flux_up, flux_down (direct and diffuse) by c.", "quantifier": "every accepted input and c>0", "why_tests_cant": "all inputs and scales", "anchors": ["src/PythonicDISORT/pydisort.py:pydisort", "src/PythonicDISORT/_assemble_intensity_and_fluxes.py:u0"]}
{"id": "C39", "title": "Diffuse actinic flux scales with the sources", "statement": "The diffuse actinic fluxes built from u0 satisfy: downward diffuse = 2pi sum W u0 + I0(exp(-tau*/mu0)-exp(-tau/mu0)) with the user's I0, and scale with the sources.", "quantifier": "every accepted input and tau", "why_tests_cant": "I0 <> rescale factor 1 with delta scaling is never tested", "anchors": ["src/PythonicDISORT/subroutines.py:generate_diff_act_flux_funcs", "src/PythonicDISORT/_assemble_intensity_and_fluxes.py:u0"]}
{"id": "C40", "title": "Fluxes are the quadrature moments of u0", "statement": "flux_up(tau) = 2pi sum mu_i W_i u0(tau)[i]; flux_down diffuse + direct = 2pi sum mu_i W_i u0(tau)[N+i] + I0 mu0 exp(-tau*/mu0); direct = I0 mu0 exp(-tau/mu0).", "quantifier": "every accepted input and tau", "why_tests_cant": "all inputs", "anchors": ["src/PythonicDISORT/_assemble_intensity_and_fluxes.py:flux_up", "src/PythonicDISORT/_assemble_intensity_and_fluxes.py:flux_down"]}
{"id": "C41", "title": "Azimuthal structure", "statement": "u(tau,phi) is 2pi-periodic in phi, symmetric about phi0, and its azimuthal average is u0(tau).", "quantifier": "every accepted input, tau, phi", "why_tests_cant": "continuous phi", "anchors": ["src/PythonicDISORT/_assemble_intensity_and_fluxes.py:u"]}
{"id": "C42", "title": "only_flux does not change the fluxes", "statement": "flux_up, flux_down and u0 are identical with only_flux True and False.", "quantifier": "every input accepted in both modes", "why_tests_cant": "all inputs", "anchors": ["src/PythonicDISORT/pydisort.py:pydisort"]}
{"id": "C43", "title": "Antiderivatives of the fluxes and of u", "statement": "With is_antiderivative_wrt_tau=True, inside every layer the tau-derivative of flux_up, flux_down (both), u0 and u is the corresponding function without the flag.", "quantifier": "every accepted input, every tau array", "why_tests_cant": "only single-layer beam cases are tested", "anchors": ["src/PythonicDISORT/_assemble_intensity_and_fluxes.py:flux_up", "src/PythonicDISORT/_assemble_intensity_and_fluxes.py:flux_down", "src/PythonicDISORT/_assemble_intensity_and_fluxes.py:u0", "src/PythonicDISORT/_assemble_intensity_and_fluxes.py:u"]}
{"id": "C44", "title": "Energy balance", "statement": "In every layer the divergence of the net flux of mode 0 equals absorption minus emission: d(F+ - F-)/dtau* = 4pi(1-omega*) mean intensity-type balance with beam and isotropic source.", "quantifier": "every accepted input, tau", "why_tests_cant": "all inputs", "anchors": ["src/PythonicDISORT/_assemble_intensity_and_fluxes.py:flux_up", "src/PythonicDISORT/_assemble_intensity_and_fluxes.py:flux_down"]}
{"id": "C45", "title": "Matrix boundary conditions are honoured", "statement": "b_pos and b_neg given as an (NQuad/2 x NFourier) matrix prescribe the m-th column for Fourier mode m.", "quantifier": "every matrix-valued boundary condition", "why_tests_cant": "no test passes a matrix", "anchors": ["src/PythonicDISORT/pydisort.py:pydisort", "src/PythonicDISORT/_solve_for_coeffs.py:_solve_for_coeffs"]}
{"id": "C46", "title": "Caller arrays are not modified", "statement": "pydisort does not modify the arrays passed by the caller.", "quantifier": "every input", "why_tests_cant": "aliasing", "anchors": ["src/PythonicDISORT/pydisort.py:pydisort"]}
{"id": "C47", "title": "Fourier convergence estimate", "statement": "return_Fourier_error returns max over the grid of |u^{last} cos((NFourier-1)(phi0-phi))|/|u|.", "quantifier": "every accepted input", "why_tests_cant": "no test uses the flag", "anchors": ["src/PythonicDISORT/_assemble_intensity_and_fluxes.py:u"]}
{"id": "C48", "title": "TMS correction formula", "statement": "The TMS correction equals the documented formula: own-layer term with B_l plus for each other layer j its own B_j term; it is continuous across interfaces and vanishes for incoming directions at the boundaries.", "quantifier": "every accepted NT input, tau, phi", "why_tests_cant": "layers with different scattering; tests compare averages only", "anchors": ["src/PythonicDISORT/pydisort.py:TMS_correction"]}
{"id": "C49", "title": "TMS antiderivative", "statement": "The TMS correction with the antiderivative flag has the TMS correction as tau-derivative inside every layer.", "quantifier": "every accepted NT input", "why_tests_cant": "multi-layer antiderivatives untested", "anchors": ["src/PythonicDISORT/pydisort.py:TMS_correction"]}
{"id": "C50", "title": "IMS correction", "statement": "chi solves the documented double integral, vanishes at tau=0, its flagged version is an antiderivative; the correction has shape (N,Ntau,Nphi) for every N.", "quantifier": "every accepted NT input, tau, phi", "why_tests_cant": "N=1 and continuous arguments", "anchors": ["src/PythonicDISORT/pydisort.py:IMS_correction"]}
{"id": "C51", "title": "How a homogeneous layer is cut does not matter", "statement": "Two accepted inputs that describe the same atmosphere, one cutting homogeneous layers into more layers than the other, give the same quadrature directions, fluxes, mean intensities and intensities at every optical depth and azimuth, including the same rejections of depths out of range.", "quantifier": "every atmosphere, every finer cutting, every depth and azimuth array", "why_tests_cant": "The cut points are arbitrary reals; the project's test draws a few at random for one atmosphere.", "anchors": ["src/PythonicDISORT/pydisort.py:pydisort", "src/PythonicDISORT/_solve_for_coeffs.py:_solve_for_coeffs", "src/PythonicDISORT/_assemble_intensity_and_fluxes.py"]}
{"id": "C52", "title": "Direct beam flux", "statement": "The direct flux is I0 mu0 exp(-tau/mu0), independent of scattering, delta scaling and layering; it has the shape of tau.", "quantifier": "every accepted input", "why_tests_cant": "all inputs; shape without beam", "anchors": ["src/PythonicDISORT/_assemble_intensity_and_fluxes.py:flux_down"]}
{"id": "C53", "title": "Interpolated functions are independent of the call history", "statement": "The function returned by interpolate(u) gives, for the same arguments, the same answer whatever calls were made before or are in progress.", "quantifier": "every sequence and interleaving of calls", "why_tests_cant": "Depends on the schedule of calls sharing one interpolator object; tests run one call after the other.", "anchors": ["src/PythonicDISORT/subroutines.py:interpolate"]}
{"id": "C54", "title": "Negative boundary sources are honoured or rejected", "statement": "If pydisort accepts b_pos or b_neg with negative entries, the returned intensity still satisfies the prescribed boundary values.", "quantifier": "every accepted boundary source", "why_tests_cant": "The tests only use non-negative sources; the statement ranges over all sign patterns.", "anchors": ["src/PythonicDISORT/pydisort.py:pydisort", "src/PythonicDISORT/_solve_for_coeffs.py:_solve_for_coeffs"]}
{"id": "C55", "title": "Results do not depend on uninitialised memory", "statement": "Two calls of pydisort with the same arguments give the same outcome (same exception, or functions that answer alike for all arguments and flags) whatever the contents of the buffers allocated with np.empty.", "quantifier": "every input and every pair of contents of uninitialised buffers", "why_tests_cant": "np.empty usually returns zeros or stale values of the same shape in a test run; the dependence would show only for particular memory histories.", "anchors": ["src/PythonicDISORT/_assemble_intensity_and_fluxes.py", "src/PythonicDISORT/_solve_for_gen_and_part_sols.py:_solve_for_gen_and_part_sols", "src/PythonicDISORT/_solve_for_coeffs.py:_solve_for_coeffs"]}
{"id": "C56", "title": "The autograd flag does not change results", "statement": "pydisort with _autograd_compatible=True and False returns functions that give the same mean intensities and fluxes (values, antiderivatives, optional outputs) and the same intensities at one or more azimuth angles; the antiderivative of the intensity agrees too unless corrections are used with NQuad=2.", "quantifier": "every accepted input, every tau and phi array, all flags", "why_tests_cant": "The two settings run different code for accumulating arrays; agreement on sample inputs says nothing about other shapes and sources.", "anchors": ["src/PythonicDISORT/_assemble_intensity_and_fluxes.py", "src/PythonicDISORT/pydisort.py:pydisort"]}
{"id": "C57", "title": "Mean intensity and fluxes do not depend on NFourier", "statement": "Lowering NFourier leaves flux_up, flux_down and u0 unchanged for all arguments and flags, and the call still succeeds.", "quantifier": "every accepted input and every smaller NFourier", "why_tests_cant": "Tests compare a few mode counts; the claim is for all counts and inputs.", "anchors": ["src/PythonicDISORT/pydisort.py:pydisort", "src/PythonicDISORT/_solve_for_coeffs.py:_solve_for_coeffs"]}
{"id": "C58", "title": "A non-scattering atmosphere is always solved", "statement": "If no layer scatters (omega = 0, or all scattering is in the forward peak removed by delta-M scaling), every accepted input with well-shaped boundary values yields results: the eigenvalue and boundary systems are regular for any number of layers, modes and streams and any surface reflection.", "quantifier": "every accepted input without scattering", "why_tests_cant": "Regularity of the linear systems must hold for all depths, layer counts and reflection functions.", "anchors": ["src/PythonicDISORT/pydisort.py:pydisort", "src/PythonicDISORT/_solve_for_coeffs.py:_solve_for_coeffs", "src/PythonicDISORT/_solve_for_gen_and_part_sols.py:_solve_for_gen_and_part_sols"]}
{"id": "C59", "title": "The answer is the only solution", "statement": "Each Fourier mode of the returned intensity is the only continuous field that satisfies the discrete-ordinate transfer equation in every layer together with the requested boundary conditions at top and bottom. In particular the results do not depend on which eigenvectors, eigenvalue order or intermediate solutions the linear algebra library picks, nor on uninitialised memory.", "quantifier": "every successful call, every mode, every competing field and every pair of correct linear algebra libraries", "why_tests_cant": "Ranges over all functions and all correct LAPACK behaviours; a test sees one library.", "anchors": ["src/PythonicDISORT/pydisort.py:pydisort", "src/PythonicDISORT/_solve_for_gen_and_part_sols.py:_solve_for_gen_and_part_sols", "src/PythonicDISORT/_solve_for_coeffs.py:_solve_for_coeffs"]}
{"id": "C60", "title": "NQuad determines the quadrature", "statement": "The double-Gauss nodes and weights are determined by NQuad up to order (and fully if sorted): any two rules that integrate polynomials of degree below NQuad exactly on each half-range have the same nodes with the same weights, so all calls with the same NQuad report the same directions.", "quantifier": "every NQuad and every pair of Gauss rules", "why_tests_cant": "Uniqueness over all rules and all orders.", "anchors": ["src/PythonicDISORT/subroutines.py:Gauss_Legendre_quad", "src/PythonicDISORT/pydisort.py:pydisort"]}
{"id": "C61", "title": "No negative radiation", "statement": "If beam, boundary sources and isotropic source are not negative, the (truncated, scaled) phase function has a non-negative azimuthal mean between the discrete directions, and the surface reflects no more than it receives, then u0, the upward flux and both downward fluxes are not negative at every depth.", "quantifier": "every successful call with such a medium, every number of layers and streams, every depth", "why_tests_cant": "The sign must hold at every real depth and for every atmosphere; a discrete-ordinate solver can produce negative values in single cases that a sample misses.", "anchors": ["src/PythonicDISORT/pydisort.py:pydisort", "src/PythonicDISORT/_assemble_intensity_and_fluxes.py:u0", "src/PythonicDISORT/_assemble_intensity_and_fluxes.py:flux_up", "src/PythonicDISORT/_assemble_intensity_and_fluxes.py:flux_down"]}
{"id": "C62", "title": "More source, more radiation", "statement": "For two calls with the same layers, phase functions and surface as in C61, if no source (beam, boundary values, isotropic source) of the first exceeds that of the second, no value of u0, flux_up or diffuse flux_down of the first exceeds that of the second.", "quantifier": "every pair of such calls, every depth", "why_tests_cant": "Ranges over all pairs of inputs and all depths.", "anchors": ["src/PythonicDISORT/pydisort.py:pydisort", "src/PythonicDISORT/_assemble_intensity_and_fluxes.py"]}
{"id": "C63", "title": "Radiation is bounded by its sources; thermal equilibrium", "statement": "Without a beam, if the isotropic source and the incoming intensities are at most B (and the surface emits at most its emissivity times B), intensities are at most B and fluxes at most pi B. If all of them equal B, the intensity is exactly B in every direction at every depth and the fluxes are pi B.", "quantifier": "every successful call of this kind, every B, every depth", "why_tests_cant": "An exact invariant over all media and depths.", "anchors": ["src/PythonicDISORT/pydisort.py:pydisort", "src/PythonicDISORT/_assemble_intensity_and_fluxes.py", "src/PythonicDISORT/_solve_for_gen_and_part_sols.py:_solve_for_gen_and_part_sols"]}
{"id": "C64", "title": "Superposition of sources", "statement": "If the beam intensity, boundary values and isotropic source of one call are a times those of a second plus b times those of a third, on the same medium, then its u0, diffuse fluxes and intensities are the same combination of theirs (with the Nakajima-Tanaka corrections in all three calls or in none, wherever the corrections are finite, see C50), although the code rescales the sources of each call by its own factor.", "quantifier": "all a, b, all triples of such calls, all depths and azimuths", "why_tests_cant": "Linearity over all reals and inputs; the rescaling factors differ between calls.", "anchors": ["src/PythonicDISORT/pydisort.py:pydisort", "src/PythonicDISORT/_solve_for_coeffs.py:_solve_for_coeffs"]}
{"id": "C65", "title": "Which physical atmospheres are solved", "statement": "An accepted input with a non-negative phase function (between the discrete directions), a surface that reflects non-negatively and no more than it receives, and boundary values of a documented form is solved if and only if no layer resonates with the beam, that is, if exp(-tau/mu0) is not the decay of a free solution of a layer that scatters. Without a beam, or with a beam cosine far enough from every quadrature cosine (relative to the layer's albedo), it is always solved; every number of streams, modes and layers, any optical thickness.", "quantifier": "every such input, every correct linear algebra library", "why_tests_cant": "Regularity of every eigenvalue problem and of the global boundary system for all atmospheres; the failing inputs have measure zero and a sample misses them.", "anchors": ["src/PythonicDISORT/pydisort.py:pydisort", "src/PythonicDISORT/_solve_for_gen_and_part_sols.py:_solve_for_gen_and_part_sols", "src/PythonicDISORT/_solve_for_coeffs.py:_solve_for_coeffs"]}
{"id": "C66", "title": "The answer for a physical atmosphere exists and is the only one", "statement": "For such an atmosphere each reported mode is the only solution of the transfer equation with the requested boundary conditions, and the results do not depend on the linear algebra library, even on one that would answer singular systems.", "quantifier": "every such input, mode, competing field and pair of libraries whose answers satisfy the equations", "why_tests_cant": "Ranges over all functions and all libraries.", "anchors": ["src/PythonicDISORT/pydisort.py:pydisort", "src/PythonicDISORT/_solve_for_gen_and_part_sols.py:_solve_for_gen_and_part_sols", "src/PythonicDISORT/_solve_for_coeffs.py:_solve_for_coeffs"]}
{"id": "C67", "title": "The intensity solves the azimuth-dependent radiative transfer equation", "statement": "If all azimuthal modes of the (truncated, delta-M scaled) phase function and of the surface take part, the intensity u(tau, phi) solves the radiative transfer equation with scattering over the whole sphere: quadrature over the polar cosines, integral over azimuth of the phase function at the true scattering angle, single scattering of the beam, emission, boundary conditions at the top and reflection over all azimuths at the bottom. For a non-negative phase function and a surface that does not amplify, any jointly continuous, periodic field that solves this problem is the one u reports.", "quantifier": "every such call without Nakajima-Tanaka corrections, every depth, direction and azimuth; every competing field", "why_tests_cant": "A differential-integral equation at every point, for every phase function (addition theorem for all degrees); uniqueness ranges over all functions.", "anchors": ["src/PythonicDISORT/pydisort.py:pydisort", "src/PythonicDISORT/_assemble_intensity_and_fluxes.py:u", "src/PythonicDISORT/_solve_for_gen_and_part_sols.py:_solve_for_gen_and_part_sols"]}
{"id": "C68", "title": "Sign and size of the intensity at every azimuth", "statement": "For a phase function that is not negative at any scattering angle, a surface that reflects non-negatively and no more than it receives, and non-negative sources, the intensity u(tau, phi) is not negative at any depth, direction and azimuth. It grows with the sources; without a beam it does not exceed the strongest emission, and equals it if everything emits the same.", "quantifier": "every such call with all azimuthal modes and without corrections; all depths, directions, azimuths", "why_tests_cant": "A truncated Fourier series can undershoot between the sampled azimuths; ranges over all atmospheres.", "anchors": ["src/PythonicDISORT/pydisort.py:pydisort", "src/PythonicDISORT/_assemble_intensity_and_fluxes.py:u"]}
{"id": "C69", "title": "What the comparison with reference results establishes", "statement": "The comparison helper of the test-suite pairs every reported flux and every selected intensity with the reference of the same depth, direction and azimuth, returns the absolute and relative differences, and prints their maxima together with a depth where they occur. If the assertions of the test-suite pass, every compared value agrees with its reference within the tolerances.", "quantifier": "all reference data, masks, orders of directions and reported values; all tolerances", "why_tests_cant": "It is the test oracle itself: passing runs cannot show that a wrong value would be noticed.", "anchors": ["src/PythonicDISORT/subroutines.py:_compare", "pydisotest/1_test.py:test_1a"]}
{"id": "C70", "title": "Stability under changes of the sources", "statement": "If two calls share the layers, the surface and the beam, and their isotropic emission and downward boundary values differ by at most e (and the upward boundary values by at most e times the share the surface does not reflect), then the mean intensities they report differ by at most e and the fluxes by at most pi times e, at every depth and in every direction. Scattering and reflection never amplify a change of the sources.", "quantifier": "all pairs of such calls with a phase function that is non-negative in the azimuthal mean and a surface that does not amplify; all e, depths and directions", "why_tests_cant": "A bound over all pairs of inputs and all perturbation sizes.", "anchors": ["src/PythonicDISORT/pydisort.py:pydisort", "src/PythonicDISORT/_assemble_intensity_and_fluxes.py:_assemble_intensity_and_fluxes"]}
{"id": "C71", "title": "Monotone in scattering, emission, illumination and reflection", "statement": "Let two calls share the layer boundaries, the phase functions and the direction of the beam. If the second has single-scattering albedos, emission, beam, boundary sources and surface reflection that are nowhere smaller, then the mean intensities, the upward flux and the diffuse downward flux it reports are nowhere smaller.", "quantifier": "all pairs of such calls with non-negative sources, phase functions and reflection; all depths and directions", "why_tests_cant": "Ranges over all pairs of atmospheres; the scaling of optical depth with the albedo acts against the claim in intermediate quantities.", "anchors": ["src/PythonicDISORT/pydisort.py:pydisort", "src/PythonicDISORT/_assemble_intensity_and_fluxes.py:_assemble_intensity_and_fluxes"]}
{"id": "C72", "title": "Reciprocity", "statement": "If two calls share the layers and a surface that reflects reciprocally, and are lit only by boundary sources, then the radiation leaving the first (at the top upwards, at the bottom downwards), summed with the quadrature weights, the direction cosines and the incoming radiation of the second, equals the same sum with the two calls exchanged.", "quantifier": "all pairs of such calls", "why_tests_cant": "An identity between two runs for all layer stacks and all pairs of illuminations.", "anchors": ["src/PythonicDISORT/pydisort.py:pydisort", "src/PythonicDISORT/_assemble_intensity_and_fluxes.py:_assemble_intensity_and_fluxes"]}
{"id": "C73", "title": "The atmosphere upside down", "statement": "Without a beam and without a surface, reversing the order of the layers (and their emission profiles) and exchanging the sources at top and bottom exchanges upward and downward: the mean intensity at depth t in a direction is that of the original at depth T - t in the opposite direction, and upward and downward fluxes change places.", "quantifier": "all such pairs of calls, all depths and directions", "why_tests_cant": "Must hold for every layer stack, emission profile and depth.", "anchors": ["src/PythonicDISORT/pydisort.py:pydisort", "src/PythonicDISORT/_assemble_intensity_and_fluxes.py:_assemble_intensity_and_fluxes"]}
{"id": "C74", "title": "Any number of streams", "statement": "The quadrature rule asked of numpy exists for every number of nodes and, in increasing order, is unique (the nodes are the zeros of the Legendre polynomial). A rule and a linear algebra that meet all their contracts exist together, and with them every physical input is solved exactly if its beam does not resonate, whatever NQuad is. The values returned for a physical atmosphere depend on the inputs alone, not on which libraries compute the rule and the linear algebra.", "quantifier": "all numbers of nodes, all physical inputs and NQuad, all conforming libraries", "why_tests_cant": "Tests use a few values of NQuad and one version of numpy; existence for every NQuad and independence of the library are statements about all of them.", "anchors": ["src/PythonicDISORT/subroutines.py:Gauss_Legendre_quad", "src/PythonicDISORT/pydisort.py:pydisort"]}
{"id": "C75", "title": "Almost every position of the sun is solved", "statement": "For a fixed atmosphere with a beam, all positions of the sun mu0 are solved except those in a list of at most NFourier * NLayers * NQuad / 2 values, which is the same for all conforming linear algebra libraries.", "quantifier": "all physical atmospheres, all mu0, all conforming libraries", "why_tests_cant": "The exceptional angles are a set of measure zero that sampling never meets; only a proof shows that it is finite and how large it can be.", "anchors": ["src/PythonicDISORT/pydisort.py:pydisort", "src/PythonicDISORT/_solve_for_gen_and_part_sols.py:_solve_for_gen_and_part_sols"]}
{"id": "C76", "title": "Results depend continuously on the optical properties", "statement": "For an atmosphere over a surface that does not reflect everything: for every wanted accuracy there is a distance such that all physical atmospheres with the same layers, beam and surface whose albedos, phase function coefficients, forward peaks, emission and boundary values are within that distance have mean intensities and fluxes within the accuracy, at all depths; the bound is explicit (change in scattering, extinction and emission over absorption). Layers whose scattering is below the cut-off of the code (albedo in (0, 2e-8] after delta-M scaling) and pure forward peaks are excluded.", "quantifier": "all pairs of physical atmospheres, all accuracies, all depths, all conforming libraries", "why_tests_cant": "Continuity is a statement about all nearby inputs; a test compares finitely many pairs and cannot exclude a jump between them.", "anchors": ["src/PythonicDISORT/pydisort.py:pydisort", "src/PythonicDISORT/_assemble_intensity_and_fluxes.py:_assemble_intensity_and_fluxes"]}
{"id": "C77", "title": "The corrected intensity is a finite number", "statement": "In double precision, the corrected intensity returned by pydisort is finite for all accepted optical properties, depths and directions. False of the code: for several layers it is NaN in every direction mu and layer whose lower (upwards) or upper (downwards) boundary, if it is an inner one, is deeper than 748 mu after delta-M scaling. True when the whole atmosphere is at most 690 mu deep. The same holds of its antiderivative if moreover no layer scatters more than half of what it removes into the forward peak.", "quantifier": "all accepted atmospheres of any number of layers, all depths, directions, sources and all exp/expm1 of the stated accuracy, with every rounding", "why_tests_cant": "Whether some combination of depths and directions under- or overflows cannot be sampled; the test-suite's thick cases have one layer or no corrections.", "anchors": ["src/PythonicDISORT/pydisort.py:pydisort"]}
{"id": "C78", "title": "Input checks and delta-M scaling are safe under rounding", "statement": "In double precision, for finite arguments, the checks accept exactly the increasing positive depths, albedos in [0,1) and forward peaks in [0,1] (no difference of depths is lost to rounding); delta-M scaling yields factors in (0,1], albedos in [0, omega] (never 1) and thicknesses within 2^-50 of the exact ones.", "quantifier": "all finite double-precision arrays of any length", "why_tests_cant": "Rounding errors depend on the bits of the arguments; a test tries a few of 2^64 per entry.", "anchors": ["src/PythonicDISORT/pydisort.py:pydisort"]}
{"id": "C79", "title": "The attenuation factors cannot overflow and are accurate", "statement": "In double precision, the depths of the scaled atmosphere are not negative, those of the layer boundaries never decrease, and all are within (NLayers + 8) 2^-51 of the exact ones relative to the total depth. All exponentials in the linear system and of the direct beam are in [0, 1], however thick the layers. At every depth the exponentials that multiply the homogeneous solutions are finite and equal the exact attenuation up to the relative error K (NLayers + 8) depth 2^-49 + 2^-50, whichever branch of the delta-M scaling is taken.", "quantifier": "all accepted double-precision atmospheres (up to 2^20 layers, depth up to 2^900), all depths in them, all attenuation rates and sun cosines, every exp of the stated accuracy, with every rounding", "why_tests_cant": "That no combination of layer boundaries and depths makes a rounded difference of depths positive enough to matter cannot be sampled.", "anchors": ["src/PythonicDISORT/_assemble_intensity_and_fluxes.py:u", "src/PythonicDISORT/_solve_for_coeffs.py:_solve_for_coeffs", "src/PythonicDISORT/pydisort.py:pydisort"]}
{"id": "C80", "title": "Every accepted atmosphere with a positive phase function is solved or rejected by a check", "statement": "If the phase function of every layer is positive in every direction, the albedos are below 1 and the surface does not amplify, an accepted call gives an answer, also without delta-M scaling. (False: the truncated phase function may scatter a mode back in full, so that its rate of decay with depth is not real. Whenever radiation of one symmetry about the horizontal is scattered back in full in some layer and mode, while that of the other symmetry loses, there is no answer; with two streams this happens as soon as albedo times asymmetry, both scaled, reaches 8/9.)", "quantifier": "all accepted inputs, layers, modes, numbers of streams and of coefficients, and all linear algebra libraries that meet their contracts", "why_tests_cant": "Whether the rates are real depends on the spectrum of a matrix for every combination of albedo, phase function and number of streams; tests sample a few benign ones.", "anchors": ["src/PythonicDISORT/pydisort.py:pydisort", "src/PythonicDISORT/_solve_for_gen_and_part_sols.py:_solve_for_gen_and_part_sols", "src/PythonicDISORT/_solve_for_coeffs.py:_solve_for_coeffs"]}
{"id": "C81", "title": "An atmosphere that loses energy is solved, and its answer is the only one", "statement": "If in every layer and azimuthal mode that scatter, radiation symmetric or antisymmetric about the horizontal loses more than is scattered back, and the surface does not amplify the flux-weighted square of the intensity, then the call is answered exactly if the beam resonates with no layer; the reported modes are the only solutions of the transfer equation and do not depend on the linear algebra library. Physical atmospheres over reciprocal surfaces are of this kind, but phase functions with negative truncations may be, too. With two streams a call is answered exactly if all rates of decay are real and differ from that of the beam; Henyey-Greenstein layers scaled with f = g^2 always have real rates.", "quantifier": "all accepted inputs that lose, all depths, modes and directions, all linear algebra libraries that meet their contracts", "why_tests_cant": "Solvability and uniqueness range over all combinations of layers, modes, surfaces and sun angles.", "anchors": ["src/PythonicDISORT/pydisort.py:pydisort", "src/PythonicDISORT/_solve_for_gen_and_part_sols.py:_solve_for_gen_and_part_sols", "src/PythonicDISORT/_solve_for_coeffs.py:_solve_for_coeffs"]}
{"id": "C82", "title": "With NQuad at least twice NLeg every accepted atmosphere is solved, unless its beam resonates", "statement": "If NQuad >= 2 NLeg, then whatever the accepted albedos, phase functions and scaling fractions, radiation loses in every layer and mode; over a surface that does not amplify, the call is answered exactly if the beam resonates with no layer, and for given optical properties at most NFourier * NLayers * NQuad / 2 positions of the sun are not solved. NLeg = NQuad / 2 + 1 is already too much: some such accepted calls have no answer.", "quantifier": "all accepted inputs with NQuad >= 2 NLeg, all layers, modes and sun angles, all libraries that meet their contracts", "why_tests_cant": "Solvability must hold for every number of streams and every combination of coefficients, albedos and scaling fractions.", "anchors": ["src/PythonicDISORT/pydisort.py:pydisort", "src/PythonicDISORT/_solve_for_gen_and_part_sols.py:_solve_for_gen_and_part_sols", "src/PythonicDISORT/_solve_for_coeffs.py:_solve_for_coeffs"]}
{"id": "C83", "title": "Warnings are issued exactly under their conditions, and the announced correction is made", "statement": "An answered call issues no warning twice. It warns of the zeroth phase coefficient exactly if in some scattering layer it is not 1, of NFourier exactly if the intensity is computed with more than 64 modes, of the albedo exactly if some scaled albedo exceeds 1 - 1e-6, and of the phase function exactly if some scaled coefficient used (other than the zeroth) exceeds 0.95 in magnitude or is undefined. A call rejected for its input warns at most of the first two. When the zeroth coefficient is warned of, the call gives exactly what it gives with all zeroth coefficients set to 1.", "quantifier": "all calls, accepted or not", "why_tests_cant": "Tests cannot cover every combination of inputs with a warning, nor show the absence of warnings in all others.", "anchors": ["src/PythonicDISORT/pydisort.py:pydisort"]}
{"id": "C84", "title": "A call that passes every check without a warning is answered", "statement": "If the input is accepted and no warning is issued, the call is answered. (False: a Henyey-Greenstein layer with g = 0.9, albedo 0.99 and two streams is accepted silently and has no answer. With two streams, no warning of the phase function and scaled albedos up to 0.935 the call is answered exactly if the beam resonates with no layer.)", "quantifier": "all accepted calls without a warning, all libraries that meet their contracts", "why_tests_cant": "Tests sample a few benign inputs; the failing ones depend on the spectrum of a matrix.", "anchors": ["src/PythonicDISORT/pydisort.py:pydisort", "src/PythonicDISORT/_solve_for_gen_and_part_sols.py:_solve_for_gen_and_part_sols"]}
{"id": "C85", "title": "The results converge to the exact radiation field as the number of streams grows", "statement": "For an atmosphere whose phase functions are not negative, in which no layer scatters so weakly that the scattering is left out, and whose surface reflects less than it receives: for every wanted accuracy there is a number N0 such that every answered call with NQuad >= 2*N0 returns azimuthally averaged intensities and fluxes, at all depths, within that accuracy of the solution of the transfer equation with the integral over all directions.", "quantifier": "all accepted atmospheres of the kind described, all accuracies, all NQuad from some number on, all libraries that meet their contracts, all depths", "why_tests_cant": "Convergence is a limit: no finite set of NQuad decides it, and the exact field is known in closed form only in special cases.", "anchors": ["src/PythonicDISORT/pydisort.py:pydisort", "src/PythonicDISORT/_assemble_intensity_and_fluxes.py:_assemble_intensity_and_fluxes", "src/PythonicDISORT/subroutines.py:Gauss_Legendre_quad"]}
{"id": "C86", "title": "The results settle as the number of streams grows", "statement": "For an atmosphere whose phase functions are not negative, in which no layer scatters so weakly that the scattering is left out, and whose surface reflects less than it receives: for every wanted accuracy there is a number N0 such that any two answered calls with NQuad >= 2*N0 return upward and diffuse downward fluxes that differ by less than that accuracy at all depths.", "quantifier": "all accepted atmospheres of the kind described, all accuracies, all pairs of NQuad from some number on, all libraries that meet their contracts, all depths", "why_tests_cant": "A run that compares NQuad = 16 and 32 says nothing about the values beyond; the claim is about all pairs of values from some number on.", "anchors": ["src/PythonicDISORT/pydisort.py:pydisort", "src/PythonicDISORT/_assemble_intensity_and_fluxes.py:_assemble_intensity_and_fluxes"]}
{"id": "C87", "title": "Units of the Planck function", "statement": "Planck(T, WVNM) is Planck's law for the documented unit (WVNM in m^-1, result in W m^-2 per m^-1).", "quantifier": "all temperatures and wavenumbers > 0", "why_tests_cant": "the formula has to hold for all arguments", "anchors": ["src/PythonicDISORT/subroutines.py:Planck", "src/PythonicDISORT/subroutines.py:blackbody_contrib_to_BCs", "src/PythonicDISORT/subroutines.py:generate_s_poly_coeffs"]}
{"id": "C88", "title": "The Planck function is a finite, accurate number in double precision", "statement": "In double precision Planck(T, WVNM) never overflows or becomes NaN, is not negative and is Planck's law up to a small relative error that grows only with the photon energy over kT and its inverse.", "quantifier": "all binary64 temperatures and wavenumbers between 2^-100 and 2^100, all exponential functions accurate to one unit in the last place", "why_tests_cant": "overflow, underflow and cancellation occur for particular arguments among 2^64", "anchors": ["src/PythonicDISORT/subroutines.py:Planck"]}
{"id": "C89", "title": "Only the atmosphere matters, not how it is written down", "statement": "Two answered calls whose arguments describe the same atmosphere report the same directions, fluxes and intensities: numbers or arrays of equal values, numbers or constant functions, zeros left out or listed, layers cut or not, unused Legendre coefficients, unused beam angles, unused phase functions of layers that do not scatter, default or explicit orders.", "quantifier": "all pairs of accepted arguments that describe the same atmosphere, all depths and azimuths", "why_tests_cant": "the ways to write down an atmosphere are unbounded in number and combine", "anchors": ["src/PythonicDISORT/pydisort.py:pydisort"]}
{"id": "C90", "title": "Descriptions of the same atmosphere are solved together", "statement": "Of two accepted descriptions of the same atmosphere either both are answered or neither is.", "quantifier": "all pairs of accepted arguments that describe the same atmosphere", "why_tests_cant": "whether a call fails depends on spectra and singularities of unboundedly many matrices", "anchors": ["src/PythonicDISORT/pydisort.py:pydisort"]}
{"id": "C91", "title": "The exact radiation in every direction is well defined", "statement": "For a phase function that is nowhere negative and a surface that absorbs a share of what falls on it, the radiative transfer equation with scattering between all directions of the sphere has exactly one bounded solution; it is symmetric about the vertical plane through the sun, and its average over azimuth is the exact mean radiation to which u0 and the fluxes converge.", "quantifier": "all accepted atmospheres of that kind, all boundary values that vary continuously with direction, all depths, directions and azimuths", "why_tests_cant": "the exact solution is a function on a continuum of directions that no test computes", "anchors": ["src/PythonicDISORT/pydisort.py:pydisort"]}
{"id": "C92", "title": "The intensity converges at every azimuth as the number of streams grows", "statement": "For every wanted accuracy there is a number of streams from which on every answered call with all azimuthal modes and without Nakajima-Tanaka corrections reports an intensity u that is within the accuracy of the exact radiation at all depths, all azimuths and all its directions.", "quantifier": "all accepted atmospheres with a nowhere negative phase function and an absorbing surface, all accuracies, all larger numbers of streams, all depths and azimuths", "why_tests_cant": "a limit over unboundedly many numbers of streams", "anchors": ["src/PythonicDISORT/pydisort.py:pydisort", "src/PythonicDISORT/_assemble_intensity_and_fluxes.py"]}
{"id": "C93", "title": "Some sun angle near any wanted one works with every number of streams", "statement": "In every interval of sun angles there is one at which a call for an atmosphere that loses radiation succeeds whatever the number of streams.", "quantifier": "all atmospheres with a beam, all intervals of sun angles, all numbers of streams", "why_tests_cant": "for each number of streams other sun angles resonate, and there are infinitely many numbers of streams", "anchors": ["src/PythonicDISORT/pydisort.py:pydisort", "src/PythonicDISORT/_solve_for_gen_and_part_sols.py"]}
{"id": "C94", "title": "The influence of the boundaries fades exponentially with the absorption", "statement": "Two calls with the same layers, surface and beam, whose emission differs by at most e, whose downward boundary values differ by at most e + d1 and whose upward boundary values differ by at most what a surface emitting e + d2 adds, report intensities that differ at optical depth t by at most e + d1 exp(-a(t)) + d2 exp(-(a(T) - a(t))), where a(t) is the absorption optical depth above t and T the bottom; the fluxes differ by at most pi times this. The same holds for u at every azimuth.", "quantifier": "all accepted calls with a nowhere negative phase function and a surface that reflects no more than it receives, all depths, directions and azimuths", "why_tests_cant": "a decay law for every atmosphere, depth and pair of boundary values", "anchors": ["src/PythonicDISORT/pydisort.py:pydisort", "src/PythonicDISORT/_solve_for_coeffs.py"]}
{"id": "C95", "title": "Away from the boundaries the radiation is thermal", "statement": "Without a beam, if all layers emit within e of B, the reported intensity differs from B at optical depth t, in every direction and at every azimuth, by at most e plus what is left at t of the disturbances d1 at the top and d2 at the bottom, each reduced by the exponential of the absorption optical depth on the way.", "quantifier": "all accepted calls with all azimuthal modes, a nowhere negative phase function and a surface that reflects no more than it receives, all boundary values, depths and azimuths", "why_tests_cant": "a bound for every atmosphere and depth", "anchors": ["src/PythonicDISORT/pydisort.py:pydisort", "src/PythonicDISORT/_assemble_intensity_and_fluxes.py"]}
{"id": "C96", "title": "The returned functions answer for the atmosphere of the call, whatever the caller does later", "statement": "After pydisort has returned, the caller may write into any of the arrays passed to it or received from it, in any order and interleaved with calls of the returned functions. Every call gives the result it would have given right after pydisort returned.", "quantifier": "every solved call, every finite history of writes (any array, index, value) and calls (any function, depths, azimuths, flags), every combination of arguments given as arrays or as lists", "why_tests_cant": "tests never reuse their arrays after the call; the effect depends on the history and on which arrays are aliased", "anchors": ["src/PythonicDISORT/pydisort.py:pydisort (tau_arr, f_arr, mu_arr captured by the closures)", "src/PythonicDISORT/pydisort.py:TMS_correction", "src/PythonicDISORT/_assemble_intensity_and_fluxes.py:u, u0, flux_up, flux_down"]}
{"id": "C97", "title": "A surface is seen in the quadrature directions only", "statement": "Two lists of BDRF_Fourier_modes of the same length whose modes have the same values for outgoing and incoming cosines equal to the quadrature cosines, and for light from mu0 if I0 > 0, give the same call: the same error or the same five results. In particular a number and a constant function are the same mode.", "quantifier": "every call, every pair of surfaces (numbers and functions mixed), every quadrature, every behaviour of LAPACK and content of uninitialised memory", "why_tests_cant": "ranges over all surfaces that agree on finitely many directions; tests use one surface at a time", "anchors": ["src/PythonicDISORT/_solve_for_coeffs.py:_solve_for_coeffs (BDRF_Fourier_modes)", "src/PythonicDISORT/pydisort.py:pydisort (BDRF_Fourier_modes)"]}
{"id": "C98", "title": "Calls that share the phase function array do not disturb each other", "statement": "A program may pass the same array Leg_coeffs_all to any number of calls, although a call may overwrite its first column. Every call returns the same directions and functions, or raises the same exception, as if it were made first on the original array; it issues the same warnings except that of the zeroth coefficient, which is issued once at most. After the calls the array is unchanged if none of them warned of the zeroth coefficient, and has its first column set to 1 otherwise. The coefficients of layers that do not scatter have no effect.", "quantifier": "every array, every finite sequence of calls with arbitrary other arguments, rejected calls included, every behaviour of LAPACK and content of uninitialised memory", "why_tests_cant": "ranges over all histories of calls with all arguments; the state carried by the array shows only in particular sequences", "anchors": ["src/PythonicDISORT/pydisort.py:pydisort (Leg_coeffs_all, lines 186, 246-248)"]}
{"id": "C99", "title": "Only the bearing relative to the sun matters", "statement": "Turning the sun (phi0) changes neither whether and why a call is rejected nor the directions, fluxes and mean intensities. The intensity at azimuth phi, corrected or not, its antiderivative, its error estimate and the exceptions it raises depend on phi and phi0 only through cos(phi - phi0): turning the sun and the observer together changes nothing, nor do full turns and the mirror image in the vertical plane of the sun.", "quantifier": "every call, accepted or rejected, every allowed azimuth of the sun, all lists of depths and azimuths, all flags, every behaviour of LAPACK and content of uninitialised memory", "why_tests_cant": "continuous angles, all inputs and all optional outputs; tests compare a few angles of one azimuth of the sun", "anchors": ["src/PythonicDISORT/_assemble_intensity_and_fluxes.py:_assemble_intensity_and_fluxes.u", "src/PythonicDISORT/pydisort.py:pydisort (phi0)", "src/PythonicDISORT/subroutines.py:calculate_nu"]}
{"id": "C100", "title": "Concurrent calls that share the phase function array", "statement": "Threads may call pydisort at the same time with one array Leg_coeffs_all, although a call may overwrite its first column: however their reads and writes of it interleave, each call returns the same directions and functions, or raises the same exception, as if it were alone on the original array. No call waits for another. At every moment a zeroth coefficient is the original one or 1; none changes unless a call warns. A call warns only if a scattering layer had a zeroth coefficient other than 1, and if a call with such a layer returns, some call has warned; more than one may.", "quantifier": "every number of calls with any other arguments, accepted or rejected, every interleaving of the element accesses, every moment, every behaviour of LAPACK and content of uninitialised memory", "why_tests_cant": "schedules cannot be enumerated or forced by tests, and a race shows only for particular interleavings", "anchors": ["src/PythonicDISORT/pydisort.py:pydisort (Leg_coeffs_all)"]}
{"id": "C101", "title": "Energy budget", "statement": "For an answered physical call, the net flux (upward minus downward diffuse minus direct) changes from one depth to a greater one by at least minus what the layers between can emit: without emission it never decreases downwards, so every slab absorbs a non-negative amount. What enters at the top is the prescribed illumination plus the beam. A surface that does not emit sends up at most the flux that arrives, so that without any emission what the surface absorbs lies between 0 and what enters at the top minus what leaves there: no atmosphere reflects more than it receives.", "quantifier": "every answered call with non-negative sources, non-negative phase function and a surface that does not amplify, every number of layers and streams, every two depths, also layers whose scattering is dropped as negligible", "why_tests_cant": "a bound over all atmospheres and all pairs of depths; a test compares a few", "anchors": ["src/PythonicDISORT/_assemble_intensity_and_fluxes.py:flux_up", "src/PythonicDISORT/_assemble_intensity_and_fluxes.py:flux_down", "src/PythonicDISORT/pydisort.py:pydisort"]}
{"id": "C102", "title": "Emission and illumination are complementary (Kirchhoff)", "statement": "Two answered calls for the same layers and surface without a beam, whose sources add up to those of thermal equilibrium at an intensity B (inside the layers, from above, and at a surface of emissivity 1 minus reflectance), report mean intensities that add up to B in every direction at every depth and fluxes that add up to pi B. In particular, what an atmosphere emits in a direction is what it does not reflect or transmit of an isotropic illumination.", "quantifier": "every medium and surface (no sign condition on the phase function), every split of the equilibrium sources, every B, direction and depth", "why_tests_cant": "an identity between two calls for every medium and every split", "anchors": ["src/PythonicDISORT/pydisort.py:pydisort", "src/PythonicDISORT/_solve_for_coeffs.py:_solve_for_coeffs"]}
{"id": "C103", "title": "Sources with many coefficients", "statement": "The number of polynomial coefficients of the isotropic source is not limited: the answer solves the transfer equation with that source however many there are, also though the factorials involved are computed in the integers of the machine. (This is so up to 21 coefficients with 64-bit integers and 13 with 32-bit integers, where the answer is exactly that of unbounded integers; beyond, no call is rejected for it, but with one coefficient more the answer is wrong, and all that tells is the general warning about many coefficients.)", "quantifier": "every width of the integers, every call, every number of coefficients that fits; for the failure every call with 22 (14) coefficients, every layer whose last coefficient is not zero and every depth inside it", "why_tests_cant": "it ranges over all sources and all machines; a test with few coefficients never overflows", "anchors": ["src/PythonicDISORT/subroutines.py:_mathscr_v", "src/PythonicDISORT/pydisort.py:pydisort"]}
{"id": "C104", "title": "Cosine of the scattering angle in double precision", "statement": "calculate_nu, computed in double precision, returns the cosine of the angle between the two directions up to rounding, and a number between -1 and 1, so that its arccosine is defined. (It is always finite, within 2^-37 of the true cosine, within 2^-48/s of it if both sines are at least s, and of magnitude at most 1 + 2^-49; but it can exceed 1, already for a direction and itself.)", "quantifier": "every pair of directions with cosines in [-1, 1] and azimuths that do not overflow, the vertical ones included, every cosine function with error at most 2^-52", "why_tests_cant": "tests compare with a tolerance at chosen angles; the range and the error bound concern every pair of doubles, and the excess over 1 occurs only for some of them", "anchors": ["src/PythonicDISORT/subroutines.py:calculate_nu"]}
{"id": "C105", "title": "Warnings about the source and about caching", "statement": "A call of pydisort that is answered, and each evaluation of a function it returns, warns that the source has many coefficients exactly if it has more than 10 and is not zero. Whenever overflow of the factorials of the source in the integers of the machine changes the outcome of a call, this warning is issued. Caching of a reflection function warns exactly if no cosine of the sun in (0, 1] is given.", "quantifier": "every call, every width of the integers from 23 bits, every cosine", "why_tests_cant": "that no such overflow goes without a warning ranges over all sources and all machines", "anchors": ["src/PythonicDISORT/subroutines.py:_mathscr_v", "src/PythonicDISORT/subroutines.py:cache_BDRF_Fourier_modes", "src/PythonicDISORT/_solve_for_coeffs.py:_solve_for_coeffs", "src/PythonicDISORT/_assemble_intensity_and_fluxes.py:_assemble_intensity_and_fluxes"]}
{"id": "C106", "title": "Depths given as integers", "statement": "The functions pydisort returns accept depths given as integers and give there what they give at the equal floats. (They do if there is no internal source, if delta-M scaling changes the depths, or if the depth to the power of the degree of the source, plus 1 for antiderivatives, fits the integers of the machine. Otherwise this power wraps around: the answer differs, and with up to 10 coefficients there is no warning; 128 with 64 bits and 10 coefficients is such a depth.)", "quantifier": "every call that is answered, every list of integer depths, all flags, every width of the integers", "why_tests_cant": "an overflow needs a particular combination of depth and degree; that all the others are safe ranges over all inputs", "anchors": ["src/PythonicDISORT/subroutines.py:_mathscr_v", "src/PythonicDISORT/_assemble_intensity_and_fluxes.py:_assemble_intensity_and_fluxes"]}
{"id": "C107", "title": "The intensity at every azimuth depends continuously on the optical properties", "statement": "For an answered call with all azimuthal modes, without Nakajima-Tanaka corrections, over a surface that absorbs a share of what falls on it: for every wanted accuracy there is a distance such that every answered call with the same layers, beam and surface whose albedos, phase function coefficients, forward peaks, emission and boundary values differ by at most this distance, and whose phase function is nowhere negative, reports intensities u(tau, phi) within the accuracy at all depths, directions and azimuths. The change is at most e if, in every layer, what is scattered, extinguished and emitted differently is at most what the absorption removes from radiation of size e, and likewise at the boundaries.", "quantifier": "all pairs of answered calls in the same setting, all depths, directions and azimuths, every accuracy", "why_tests_cant": "continuity relates infinitely many nearby inputs at all depths and azimuths; tests compare single inputs with tolerances", "anchors": ["src/PythonicDISORT/pydisort.py:pydisort", "src/PythonicDISORT/_assemble_intensity_and_fluxes.py:_assemble_intensity_and_fluxes"]}
{"id": "C108", "title": "The radiation depends continuously on all numerical arguments, the layer boundaries and the sun included", "statement": "For an answered call over a surface that absorbs a share of what falls on it: for every wanted accuracy there is a distance such that every answered call with the same number of layers and streams whose layer boundaries, albedos, phase function coefficients, forward peaks, boundary values, emission (compared at the same place of each layer), beam strength, cosine of the solar zenith angle and surface reflection differ by at most this distance, and whose phase function and surface are physical, reports mean intensities and fluxes (the direct flux included, if there is a beam) within the accuracy at depths that divide the same layer in the same ratio. The change is at most e if, in every layer, what is scattered, extinguished and emitted differently, and all that a layer does more because it is thicker, is at most what the absorption removes from radiation of size e, and likewise at the boundaries.", "quantifier": "all pairs of answered calls with the same number of layers and streams, all corresponding depths, every accuracy", "why_tests_cant": "continuity relates infinitely many nearby atmospheres at all depths; tests compare single inputs with tolerances", "anchors": ["src/PythonicDISORT/pydisort.py:pydisort", "src/PythonicDISORT/_assemble_intensity_and_fluxes.py:_assemble_intensity_and_fluxes"]}
{"id": "C109", "title": "The intensity at every azimuth depends continuously on all numerical arguments", "statement": "For an atmosphere over a surface that does not reflect everything and for every wanted accuracy there is a distance such that every atmosphere with the same numbers of layers, streams and surface modes and a phase function that is nowhere negative, whose layer boundaries, albedos, phase coefficients, truncation fractions, emission, boundary values, beam strength, beam direction (polar cosine and azimuth) and surface modes are within that distance, has intensities u(tau, phi) within the wanted accuracy at the same places of the same layers, in every direction and at every azimuth. The change is at most the explicit bound given by the ratio of what is scattered, extinguished and emitted differently to the absorption.", "quantifier": "all pairs of accepted inputs of the same shape with non-negative scattering, all lists of corresponding depths and all lists of azimuths, all accuracies; all LAPACK and quadrature routines that meet their contracts", "why_tests_cant": "A test compares finitely many pairs of runs; continuity is a statement about every accuracy and every small enough joint perturbation of all arguments, at every azimuth.", "anchors": ["src/PythonicDISORT/pydisort.py:pydisort", "src/PythonicDISORT/_assemble_intensity_and_fluxes.py:_assemble_intensity_and_fluxes"]}
{"id": "C110", "title": "The radiation depends continuously on the albedo also where scattering is weak", "statement": "For an atmosphere over a surface that does not reflect everything and every wanted accuracy there is a distance such that every physical atmosphere with the same layers, beam and surface whose optical properties, emission and boundary values are within that distance has mean intensities within the accuracy, however weakly a layer scatters.", "quantifier": "all pairs of answered calls with the same layers, beam and surface, all depths, all accuracies; all LAPACK and quadrature routines that meet their contracts", "why_tests_cant": "a jump sits at a single value of the albedo and is small; tests compare single inputs with tolerances and never both sides of it", "anchors": ["src/PythonicDISORT/_solve_for_gen_and_part_sols.py:_solve_for_gen_and_part_sols", "src/PythonicDISORT/pydisort.py:pydisort"]}
{"id": "C111", "title": "Thermal emission of a boundary", "statement": "For every list of temperatures and every band of wavenumbers, blackbody_contrib_to_BCs returns for each temperature the integral of Planck's law over the band: never negative, 0 at absolute zero, strictly larger for a warmer boundary, and for a band cut in two the sum of the parts. A boundary as warm as the atmosphere next to it emits what the polynomial of generate_s_poly_coeffs gives at that end.", "quantifier": "all lists of non-negative temperatures, all bands 0 <= lo <= hi, every exact integrator", "why_tests_cant": "monotonicity and additivity relate all temperatures and all bands; tests evaluate a few", "anchors": ["src/PythonicDISORT/subroutines.py:blackbody_contrib_to_BCs", "src/PythonicDISORT/subroutines.py:generate_s_poly_coeffs"]}
{"id": "C112", "title": "Leaving out weak scattering is a small error", "statement": "pydisort drops the scattering of a layer if every scaled coefficient times half the albedo is at most 1e-8. The mean intensity it reports differs, at every depth and in every direction, from the solution of the equation that keeps this scattering by at most 2e-8 NLeg (M + I0/(4 pi)) divided by the smallest share of absorption of a layer, where M bounds that solution or what is reported. The fluxes differ by at most pi times this. With sources that are not negative, what is reported lies between 0 and that solution: nothing is added. That solution always exists and is the only one, and it is what is reported if no layer scatters a positive share up to 2e-8.", "quantifier": "all answered calls with non-negative scattering and a passive surface, all solutions of the equation with all scattering, all depths and directions; all LAPACK and quadrature routines that meet their contracts", "why_tests_cant": "the bound compares the result with a solution the program never computes, for every atmosphere; tests compare with reference values to a relative tolerance", "anchors": ["src/PythonicDISORT/_solve_for_gen_and_part_sols.py:_solve_for_gen_and_part_sols", "src/PythonicDISORT/pydisort.py:pydisort"]}
