{"id": "C01", "title": "Sample construction accepts exactly the consistent inputs", "statement": "Sample(eps_stack, beta_stack, t_stack, eps_env, nu_vac) raises ValueError unless exactly one of eps_stack / beta_stack is given and (layers of eps_stack) = (layers of t_stack)+2, resp. (interfaces of beta_stack) = (layers of t_stack)+1; a missing t_stack counts as zero layers. When it returns, the object satisfies n_layers = len(t_stack)+2 >= 2, multilayer is True exactly when t_stack is non-empty, and eps_env equals the first entry of eps_stack.", "quantifier": "all eps_stack/beta_stack/t_stack/eps_env/nu_vac arguments, each possibly None, of any length", "why_tests_cant": "there are infinitely many length combinations; the tests try four rejected and thirteen accepted literals", "anchors": ["snompy/sample.py:Sample.__init__", "snompy/sample.py:Sample._check_layers_valid", "snompy/sample.py:Sample.n_layers", "snompy/sample.py:Sample.multilayer", "snompy/sample.py:Sample.eps_env"]}
{"id": "C02", "title": "Every reachable Sample is consistent as long as no assignment has raised", "statement": "Starting from any successful construction, after any sequence of assignments to t_stack, eps_stack, beta_stack and nu_vac all of which return normally, len(eps_stack) = len(t_stack)+2 still holds (so the number of layers never changes) and refl_coef_qs, trans_coef_qs and beta_stack use one thickness per inner layer.", "quantifier": "all operation histories (lists of assignments) of any length from any constructor call", "why_tests_cant": "histories are unbounded; tests never assign to an attribute after construction", "anchors": ["snompy/sample.py:Sample.t_stack", "snompy/sample.py:Sample.eps_stack", "snompy/sample.py:Sample.beta_stack", "snompy/sample.py:Sample._check_layers_valid"]}
{"id": "C03", "title": "What a rejected assignment leaves behind", "statement": "An assignment to t_stack or eps_stack that raises the layer-count ValueError has nevertheless stored the new value: the sample is left inconsistent (a failed setter is NOT atomic), and later reflection-coefficient calls silently use a truncated stack. Assignments that fail while converting/broadcasting the value leave the sample untouched. Re-assigning the other attribute with a matching length restores consistency.", "quantifier": "all samples, all rejected assignments, all continuations", "why_tests_cant": "the crash point is inside a property setter after a partial update; no test looks at an object after a raise", "anchors": ["snompy/sample.py:Sample.t_stack", "snompy/sample.py:Sample.eps_stack", "snompy/sample.py:Sample._check_layers_valid"]}
{"id": "C04", "title": "Single-interface permittivity <-> reflection coefficient conversions are mutually inverse", "statement": "permitivitty(refl_coef_qs_single(eps_i, eps_j), eps_i) = eps_j whenever eps_i != 0 and eps_i + eps_j != 0, and refl_coef_qs_single(eps_i, permitivitty(beta, eps_i)) = beta whenever eps_i != 0 and beta != 1; refl_coef_qs_single is antisymmetric in its arguments and invariant under a common rescaling of both permittivities.", "quantifier": "all complex eps_i, eps_j, beta", "why_tests_cant": "equality over all complex pairs; tests use three literals", "anchors": ["snompy/sample.py:refl_coef_qs_single", "snompy/sample.py:permitivitty"]}
{"id": "C05", "title": "beta_stack assignment/readback round trip for any number of interfaces", "statement": "After Sample(beta_stack=b, t_stack=t, eps_env=e) (or an assignment to beta_stack) reading beta_stack returns b, eps_stack[0] is e, and eps_stack[k+1] = eps_stack[k]*(1+b_k)/(1-b_k) for each interface, provided no b_k is 1 or -1 and e != 0.", "quantifier": "all stacks of any length with scalar layers", "why_tests_cant": "needs induction over the number of layers", "anchors": ["snompy/sample.py:Sample.beta_stack", "snompy/sample.py:permitivitty", "snompy/sample.py:refl_coef_qs_single"]}
{"id": "C06", "title": "Rebuilding a sample from its own beta_stack keeps permittivities only up to the environment", "statement": "Sample(beta_stack=s.beta_stack, t_stack=s.t_stack, eps_env=e) has eps_stack equal to s.eps_stack multiplied by e/s.eps_stack[0]; hence it equals s exactly when e is s's environment, and with any e it has the same quasistatic reflection coefficient at every q.", "quantifier": "all samples with any number of layers, all e != 0", "why_tests_cant": "needs induction over the number of layers; the test only uses stacks whose first permittivity is 1", "anchors": ["snompy/sample.py:Sample.beta_stack", "snompy/sample.py:Sample.refl_coef_qs"]}
{"id": "C07", "title": "Quasistatic reflection of a stack is the interface-by-interface (Airy/Parratt) recursion", "statement": "For every layered sample and momentum q with all |q t_i| below the overflow clip, refl_coef_qs(q) equals r_0 where r_last = beta of the bottom interface and r_k = (beta_k + r_{k+1} e^{-2 q t_k})/(1 + beta_k r_{k+1} e^{-2 q t_k}) going up through the stack (whenever the denominators are nonzero).", "quantifier": "all layer counts, permittivities, thicknesses and momenta", "why_tests_cant": "unbounded stacks; tests have no independent reference for a stack of more than one interface", "anchors": ["snompy/sample.py:Sample.transfer_matrix_qs", "snompy/sample.py:Sample.refl_coef_qs"]}
{"id": "C08", "title": "Far-field reflection of a stack is the Fresnel interface coefficient composed by the Airy recursion, for both polarizations", "statement": "refl_coef(q, nu_vac, polarization) equals the Airy recursion over interface Fresnel coefficients r_p = (eps_j k_i - eps_i k_j)/(eps_j k_i + eps_i k_j), r_s = (k_i - k_j)/(k_i + k_j) with phase e^{2 i k t} per inner layer, where k = sqrt(eps nu_vac^2 - q^2) on the principal branch.", "quantifier": "all layer counts, permittivities, thicknesses, wavenumbers, momenta, both polarizations", "why_tests_cant": "unbounded stacks; no test compares refl_coef with any reference value", "anchors": ["snompy/sample.py:Sample.transfer_matrix", "snompy/sample.py:Sample.refl_coef"]}
{"id": "C09", "title": "At zero momentum the inner layers are invisible", "statement": "refl_coef_qs() (q=0) of any stack equals refl_coef_qs_single(eps_stack[0], eps_stack[-1]) and trans_coef_qs() equals 2 eps_last/(eps_0+eps_last), whatever the inner layers are; consequently pdm.eff_pol, pdm.eff_pol_n and pdm.eff_pol_n_taylor accept multilayer samples without error and return the value for the bare substrate.", "quantifier": "all stacks of any length, all PDM parameters", "why_tests_cant": "needs induction over layers; tests only pass bulk samples to the PDM", "anchors": ["snompy/sample.py:Sample.refl_coef_qs", "snompy/sample.py:Sample.trans_coef_qs", "snompy/pdm.py:eff_pol", "snompy/pdm.py:eff_pol_n"]}
{"id": "C10", "title": "Physically equivalent stacks give the same quasistatic response", "statement": "Inserting a zero-thickness layer anywhere, or splitting a layer of thickness a+b into two layers of the same material of thicknesses a and b (a,b >= 0, q>=0, below the clip), does not change transfer_matrix_qs(q) and hence refl_coef_qs and trans_coef_qs.", "quantifier": "all stacks, all positions, all thicknesses, all momenta", "why_tests_cant": "relates two calls on different-length stacks for every position", "anchors": ["snompy/sample.py:Sample.transfer_matrix_qs"]}
{"id": "C11", "title": "Same equivalences for the far-field transfer matrix", "statement": "Zero-thickness insertion and same-material splitting leave transfer_matrix(q, nu_vac, pol) unchanged for both polarizations (when every normal wavevector is nonzero); and refl_coef does not depend on which square-root branch is used inside the finite layers.", "quantifier": "all stacks, positions, thicknesses, wavenumbers, momenta, polarizations", "why_tests_cant": "relates two calls on different-length stacks for every position; branch choice is invisible to a test", "anchors": ["snompy/sample.py:Sample.transfer_matrix", "snompy/sample.py:Sample.refl_coef"]}
{"id": "C12", "title": "Bulk samples reflect independently of momentum", "statement": "For every bulk sample and every q, refl_coef_qs(q) = refl_coef_qs_single(eps_env, eps_sub) = beta_stack[0], trans_coef_qs(q) = 1 + refl_coef_qs(q).", "quantifier": "all bulk samples, all q", "why_tests_cant": "equality over all inputs; tests sample 64 momenta of one sample", "anchors": ["snompy/sample.py:Sample.refl_coef_qs", "snompy/sample.py:Sample.trans_coef_qs", "snompy/sample.py:bulk_sample"]}
{"id": "C13", "title": "At large momentum only the top interface is seen", "statement": "For a stack whose first inner layer has positive thickness, refl_coef_qs(q) differs from beta_stack[0] by at most C e^{-2 q t_0} for an explicit C when the substack reflection is bounded, and the un-clipped value converges to beta_stack[0] as q grows.", "quantifier": "all stacks, all q", "why_tests_cant": "a limit statement", "anchors": ["snompy/sample.py:Sample.refl_coef_qs"]}
{"id": "C14", "title": "Passive stacks absorb: the near-field reflection has non-negative imaginary part", "statement": "If the environment permittivity is real and positive and every other layer has positive imaginary permittivity (a passive, lossy medium), then for every q >= 0 below the clip refl_coef_qs(q) is finite and has imaginary part >= 0 (> 0 for lossy substrate), for any number of layers and any thicknesses; the effective coefficient refl_coef_qs_above_surf inherits this.", "quantifier": "all passive stacks of any length, all thicknesses, all momenta, all charge heights", "why_tests_cant": "unbounded stacks and continuous parameters; needs an invariant carried through the recursion", "anchors": ["snompy/sample.py:Sample.refl_coef_qs", "snompy/sample.py:Sample.refl_coef_qs_above_surf"]}
{"id": "C15", "title": "Conjugation symmetry: lossless samples have real near-field response", "statement": "Conjugating every permittivity conjugates refl_coef_qs, trans_coef_qs, refl_coef_qs_above_surf, surf_pot_and_field and pdm/fdm eff_pol (with real tip parameters / conjugated g_factor); in particular all-real permittivities give real results.", "quantifier": "all samples, momenta, heights and tip parameters", "why_tests_cant": "relates two calls for every input", "anchors": ["snompy/sample.py:Sample.refl_coef_qs", "snompy/sample.py:Sample.refl_coef_qs_above_surf", "snompy/sample.py:Sample.surf_pot_and_field", "snompy/fdm.py:eff_pol", "snompy/pdm.py:eff_pol"]}
{"id": "C16", "title": "Transfer-matrix determinants and reciprocity", "statement": "det transfer_matrix_qs(q) = eps_first/eps_last for every stack and q; far-field det = (eps_first k_last)/(eps_last k_first) for p and k_last/k_first for s; reversing the stack scales the transmission coefficient by exactly that ratio.", "quantifier": "all stacks, momenta, wavenumbers", "why_tests_cant": "needs induction over the number of layers", "anchors": ["snompy/sample.py:Sample.transfer_matrix_qs", "snompy/sample.py:Sample.transfer_matrix", "snompy/sample.py:Sample.trans_coef", "snompy/sample.py:Sample.trans_coef_qs"]}
{"id": "C17", "title": "Length units do not matter for samples", "statement": "Rescaling all thicknesses by s and all momenta/wavenumbers by 1/s leaves refl_coef_qs, trans_coef_qs, refl_coef and trans_coef unchanged; rescaling z_Q and thicknesses by s leaves refl_coef_qs_above_surf and the image charge unchanged, scales the image depth by s, the potential by 1/s and the field by 1/s^2.", "quantifier": "all samples, momenta, heights, all s > 0", "why_tests_cant": "relates two calls for every scale factor", "anchors": ["snompy/sample.py:Sample.refl_coef_qs", "snompy/sample.py:Sample.refl_coef", "snompy/sample.py:Sample.surf_pot_and_field", "snompy/sample.py:Sample.image_depth_and_charge"]}
{"id": "C18", "title": "Argument validation of the far-field calls", "statement": "transfer_matrix/refl_coef/trans_coef raise ValueError exactly when: nu_vac is missing both at the call and on a multilayer sample; or both q and theta_in are given; or polarization is not 'p' or 's'; the first applicable message in that order is the one raised. A call-time nu_vac overrides the sample's; nu_vac=0, q=0 and theta_in=0 count as given.", "quantifier": "all combinations of arguments and samples", "why_tests_cant": "the full cross product of optional arguments is not enumerated by the tests", "anchors": ["snompy/sample.py:Sample.transfer_matrix"]}
{"id": "C19", "title": "When the wavenumber is irrelevant for a bulk sample, and when it is not", "statement": "For a bulk sample called with theta_in, or with neither q nor theta_in, refl_coef and trans_coef do not depend on nu_vac > 0 (and omitting it is the same as any positive value). With an explicit nonzero q they DO depend on nu_vac, so omitting it silently computes with nu_vac = 1.", "quantifier": "all bulk samples, angles, wavenumbers, polarizations", "why_tests_cant": "equality for all positive wavenumbers; the test suite only checks that no error is raised", "anchors": ["snompy/sample.py:Sample.transfer_matrix", "snompy/sample.py:Sample.refl_coef"]}
{"id": "C20", "title": "Fresnel laws for a single interface", "statement": "For every bulk sample: t = 1 + r for both polarizations; at normal incidence r_s = -r_p = (n_0 - n_1)/(n_0 + n_1); theta_in and -theta_in agree; for real positive permittivities below the critical angle 1 = r^2 + t^2 * (k_1 resp. k_1 eps_0/eps_1)/k_0 (energy conservation), and under total internal reflection |r| = 1.", "quantifier": "all bulk samples, angles, polarizations", "why_tests_cant": "identities over continuous parameters", "anchors": ["snompy/sample.py:Sample.refl_coef", "snompy/sample.py:Sample.trans_coef"]}
{"id": "C21", "title": "The quasistatic response is the zero-wavenumber limit of the p-polarized far-field response", "statement": "For every stack, q > 0 and un-clipped thicknesses, transfer_matrix(q=q, nu_vac=0, polarization='p') = transfer_matrix_qs(q), hence refl_coef and trans_coef equal their quasistatic counterparts.", "quantifier": "all stacks, all q > 0", "why_tests_cant": "relates two different code paths for all inputs; never compared by tests", "anchors": ["snompy/sample.py:Sample.transfer_matrix", "snompy/sample.py:Sample.transfer_matrix_qs"]}
{"id": "C22", "title": "Angle of incidence and film phase conventions", "statement": "theta_in selects q = nu_vac*sin|theta_in| (no factor of the environment's refractive index) and a layer of thickness t contributes phase k t (no factor 2 pi). Consequently, for eps_env != 1 grazing incidence does not give |r| = 1, and a film of optical thickness half a vacuum wavelength (n nu t = 1/2 with nu = 1/lambda) is in general not invisible, while one with n nu t = pi is.", "quantifier": "existence of witnesses, plus all films for the positive part", "why_tests_cant": "physics-level contract across an infinite family of films; tests have no reference value", "anchors": ["snompy/sample.py:Sample.transfer_matrix", "docs/guide/far-field.rst"]}
{"id": "C23", "title": "Gauss-Laguerre averaging is exact for bulk samples", "statement": "For every bulk sample, every z_Q > 0 and every n_lag whose rule integrates constants and x exactly: refl_coef_qs_above_surf(z_Q) = beta, surf_pot_and_field(z_Q) = (beta/(2 z_Q), beta/(4 z_Q^2)), and (for beta != 0) image_depth_and_charge(z_Q) = (z_Q, beta).", "quantifier": "all bulk samples, heights, quadrature orders", "why_tests_cant": "holds for all orders and heights", "anchors": ["snompy/sample.py:Sample.refl_coef_qs_above_surf", "snompy/sample.py:Sample.surf_pot_and_field", "snompy/sample.py:Sample.image_depth_and_charge"]}
{"id": "C24", "title": "Effective reflection coefficient is an average of the momentum-dependent one", "statement": "refl_coef_qs_above_surf(z_Q) lies in the convex hull of the sampled refl_coef_qs(q) values: if |refl_coef_qs(q)| <= B for all sampled q then |refl_coef_qs_above_surf| <= B; bounds on real and imaginary parts carry over too. It always equals 4 z_Q^2 times the field returned by surf_pot_and_field.", "quantifier": "all samples, heights, quadrature orders with positive nodes and weights", "why_tests_cant": "an inequality over all inputs", "anchors": ["snompy/sample.py:Sample.refl_coef_qs_above_surf", "snompy/sample.py:Sample.surf_pot_and_field"]}
{"id": "C25", "title": "The three finite-dipole methods agree on bulk samples", "statement": "For every bulk sample and every tip/height parameters, fdm.eff_pol with method 'bulk', 'multi' (beta != 0) and 'Q_ave' return the same value, hence so do fdm.eff_pol_n demodulated at any harmonic with any n_trapz, and method=None is 'bulk'.", "quantifier": "all bulk samples, all parameters, all harmonics", "why_tests_cant": "the tests compare one sample to 1e-4", "anchors": ["snompy/fdm.py:eff_pol", "snompy/fdm.py:eff_pol_n", "snompy/fdm.py:geom_func", "snompy/fdm.py:geom_func_multi"]}
{"id": "C26", "title": "FDM inversion is exact", "statement": "If fdm.eff_pol(bulk sample) = a then fdm.refl_coef_qs_from_eff_pol(a) with the same parameters returns the sample's reflection coefficient (if f_0 != 0); conversely eff_pol of bulk_sample(beta=refl_coef_qs_from_eff_pol(a)) returns a. eff_pol is injective in beta.", "quantifier": "all bulk samples / all complex a, all tip parameters", "why_tests_cant": "identity over all complex numbers; test uses ten values and a tolerance", "anchors": ["snompy/fdm.py:eff_pol", "snompy/fdm.py:refl_coef_qs_from_eff_pol"]}
{"id": "C27", "title": "PDM inversion is exact", "statement": "If pdm.eff_pol(sample) = a then pdm.refl_coef_qs_from_eff_pol(a) with the same parameters returns sample.refl_coef_qs() (alpha_tip != 0); conversely eff_pol of bulk_sample(beta=that) returns a (a != 0).", "quantifier": "all samples / all complex a, all tip parameters", "why_tests_cant": "identity over all complex numbers", "anchors": ["snompy/pdm.py:eff_pol", "snompy/pdm.py:refl_coef_qs_from_eff_pol"]}
{"id": "C28", "title": "FDM Taylor series: exact remainder, convergence and truncation order", "statement": "For a bulk sample (or any beta held fixed) fdm.eff_pol_n - fdm.eff_pol_n_taylor(n_tayl=J) equals the demodulation of (beta f_0/2)(beta f_1)^(J-1)/(1 - beta f_1); it is bounded by the maximum of that over the sampled heights and tends to 0 as J grows if |beta f_1| < 1 at each of them (n = 0 or n not a multiple of n_trapz). The highest power used is J-1, not J as documented.", "quantifier": "all bulk samples, parameters, harmonics, all J", "why_tests_cant": "a convergence statement over all orders", "anchors": ["snompy/fdm.py:eff_pol_n_taylor", "snompy/fdm.py:taylor_coef", "snompy/fdm.py:geom_func_taylor", "snompy/fdm.py:eff_pol_n"]}
{"id": "C29", "title": "PDM Taylor series approximates the polarizability divided by alpha_tip", "statement": "pdm.eff_pol_n_taylor(n_tayl=J) multiplied by alpha_tip converges to pdm.eff_pol_n when |beta f| < 1 at all sampled heights; without that factor it does not (documented as the Taylor version of eff_pol_n, but off by exactly alpha_tip).", "quantifier": "all bulk samples, parameters, harmonics", "why_tests_cant": "convergence over all orders; test suite omits the PDM from the comparison", "anchors": ["snompy/pdm.py:eff_pol_n_taylor", "snompy/pdm.py:taylor_coef", "snompy/pdm.py:eff_pol_n"]}
{"id": "C30", "title": "Everything the Taylor inversion returns unmasked is a genuine, admissible solution", "statement": "Every unmasked entry b returned by fdm/pdm.refl_coef_qs_from_eff_pol_n satisfies |b| <= beta_threshold, re-evaluates to the requested alpha_eff_n through the Taylor polynomial, and if requested has Im permitivitty(b, eps_env) >= 0 / |permitivitty(b, eps_env)| >= 1.", "quantifier": "all inputs, all polynomial root finders returning the true root multiset, all (unstable) sort orders", "why_tests_cant": "depends on tie-breaking in an unstable sort and on root order, which a test cannot enumerate", "anchors": ["snompy/fdm.py:refl_coef_qs_from_eff_pol_n", "snompy/pdm.py:refl_coef_qs_from_eff_pol_n"]}
{"id": "C31", "title": "The Taylor inversion loses no admissible solution", "statement": "If numpy's stacking of the root lists succeeds (all columns have finite coefficients of one common degree), every b with |b| <= beta_threshold that passes the requested filters and solves the Taylor equation appears unmasked, exactly as often as its multiplicity as a root; in particular inverting eff_pol_n_taylor of a bulk sample with admissible beta returns that beta among the unmasked values. Without the common degree the claim is false: a column may lose its solution silently or the call may raise.", "quantifier": "all inputs, root orders and sort orders", "why_tests_cant": "completeness over all root multisets", "anchors": ["snompy/fdm.py:refl_coef_qs_from_eff_pol_n", "snompy/pdm.py:refl_coef_qs_from_eff_pol_n", "snompy/fdm.py:eff_pol_n_taylor"]}
{"id": "C32", "title": "Layout of the inversion result", "statement": "For array inputs the result's first axis has length equal to the maximum number of admissible solutions over all elements (each element's masked slots make up the rest), each column is sorted by increasing magnitude, and for a scalar input nothing is masked.", "quantifier": "all arrays of inputs, all root orders and sort orders", "why_tests_cant": "depends on the interplay of three unstable sorts over all columns", "anchors": ["snompy/fdm.py:refl_coef_qs_from_eff_pol_n", "snompy/pdm.py:refl_coef_qs_from_eff_pol_n"]}
{"id": "C33", "title": "FDM method dispatch", "statement": "fdm.eff_pol: method=None means 'multi' for multilayer and 'bulk' for bulk samples; 'bulk' on a multilayer sample and any unknown name raise ValueError, nothing else does. fdm.eff_pol_n_taylor: None means 'Q_ave'/'bulk', 'multi' is rejected.", "quantifier": "all method strings, all samples", "why_tests_cant": "all strings", "anchors": ["snompy/fdm.py:eff_pol", "snompy/fdm.py:eff_pol_n_taylor"]}
{"id": "C34", "title": "Defaults are read at call time and only fill in missing arguments", "statement": "A call that leaves an argument out gives the same result as passing the current snompy.defaults attribute explicitly; explicitly passed values (including 0) are never replaced; a call with every argument explicit does not depend on snompy.defaults; d_Q0's default is 1.31 L/(L+2r) computed from the r_tip and L_tip actually used.", "quantifier": "all default tables, all subsets of omitted arguments, all functions", "why_tests_cant": "2^k subsets times mutable global state", "anchors": ["snompy/_defaults.py:Defaults", "snompy/fdm.py:eff_pol", "snompy/pdm.py:eff_pol", "snompy/demodulate.py:demod"]}
{"id": "C35", "title": "PDM tip material selection", "statement": "alpha_tip is used as given if specified alone; from eps_tip it is 4 pi r^3 (eps_tip-1)/(eps_tip+2); with neither it is the perfect conductor 4 pi r^3, which is the limit of the former as |eps_tip| grows; giving both raises ValueError (although the docstring says eps_tip is then ignored).", "quantifier": "all r_tip, eps_tip, alpha_tip, present or not", "why_tests_cant": "limit and all-input statement", "anchors": ["snompy/_defaults.py:Defaults._pdm_defaults", "snompy/pdm.py:eff_pol"]}
{"id": "C36", "title": "demod is linear and annihilates constants at nonzero harmonics", "statement": "demod(a f + b g) = a demod(f) + b demod(g); demod of a constant c is c if n = 0 and 0 for every harmonic n not divisible by n_trapz; with zero amplitude it is f(x_0) at n = 0 and 0 at those harmonics.", "quantifier": "all functions, centres, amplitudes, harmonics, interval counts", "why_tests_cant": "all functions f", "anchors": ["snompy/demodulate.py:demod"]}
{"id": "C37", "title": "demod of a polynomial is the exact Fourier coefficient", "statement": "For f(x) = sum of c_m (x - x_0)^m of degree d and n_trapz > d + |n|, demod(f, x_0, A, n) equals sum_m c_m A^m 2^-m binom(m, (m-n)/2) over m >= |n| of the same parity as n; in particular it is 0 for |n| > d.", "quantifier": "all polynomials, centres, amplitudes, harmonics and interval counts", "why_tests_cant": "all degrees; tests check degree 0 and 1", "anchors": ["snompy/demodulate.py:demod"]}
{"id": "C38", "title": "demod aliases harmonics", "statement": "demod at harmonic n + k*n_trapz equals (-1)^(k*n_trapz) times demod at n, for every function: harmonics at or above n_trapz/2 are aliases of lower ones (with the default 32 intervals n = 32 returns the mean signal instead of 0).", "quantifier": "all functions, harmonics, interval counts", "why_tests_cant": "all functions f", "anchors": ["snompy/demodulate.py:demod"]}
{"id": "C39", "title": "demod symmetries", "statement": "demod at -n equals demod at n; for a real-valued f the result is real; conjugating f conjugates the result; flipping the sign of the amplitude multiplies by (-1)^n when n_trapz is even.", "quantifier": "all functions, harmonics, interval counts", "why_tests_cant": "all functions f", "anchors": ["snompy/demodulate.py:demod"]}
{"id": "C40", "title": "demod converges to the documented Fourier integral", "statement": "For every f continuous on the swept interval, as n_trapz grows demod(f, x_0, A, n) tends to (1/2 pi) times the integral over [-pi, pi] of f(x_0 + A cos t) e^{-i n t} dt.", "quantifier": "all continuous functions, all harmonics", "why_tests_cant": "a limit statement", "anchors": ["snompy/demodulate.py:demod"]}
{"id": "C41", "title": "Tapping motion never goes below the requested height", "statement": "fdm.eff_pol_n and pdm.eff_pol_n evaluate eff_pol only at heights in [z_tip, z_tip + 2 A_tip] (A_tip >= 0), reach both ends (n_trapz even), and the result is the harmonic of the z_tip + A_tip(1+cos) modulation; with A_tip = 0 they give eff_pol at n=0 and 0 at other harmonics.", "quantifier": "all samples, parameters, harmonics, interval counts", "why_tests_cant": "all parameter values", "anchors": ["snompy/fdm.py:eff_pol_n", "snompy/pdm.py:eff_pol_n", "snompy/demodulate.py:demod"]}
{"id": "C42", "title": "Length units do not matter for the tip models", "statement": "Rescaling z_tip, A_tip, r_tip, L_tip and all layer thicknesses by one factor s > 0 leaves fdm.eff_pol, fdm.eff_pol_n, fdm.eff_pol_n_taylor and the FDM inversions unchanged for every method, and multiplies pdm.eff_pol and pdm.eff_pol_n (tip material given by eps_tip or default) by s^3.", "quantifier": "all samples, parameters, methods, all s > 0", "why_tests_cant": "relates two calls for every scale factor", "anchors": ["snompy/fdm.py:eff_pol", "snompy/fdm.py:eff_pol_n", "snompy/pdm.py:eff_pol", "snompy/pdm.py:eff_pol_n"]}
{"id": "C43", "title": "No sample, no near-field signal", "statement": "If the sample's reflection coefficient is 0 (substrate identical to environment) then fdm.eff_pol = 1 and pdm.eff_pol = alpha_tip at every height, and every harmonic n != 0 (|n| < n_trapz) of eff_pol_n is 0.", "quantifier": "all tip parameters, heights, harmonics", "why_tests_cant": "all parameters", "anchors": ["snompy/fdm.py:eff_pol", "snompy/fdm.py:eff_pol_n", "snompy/pdm.py:eff_pol", "snompy/pdm.py:eff_pol_n"]}
{"id": "C44", "title": "PDM approach curves decay to the bare tip", "statement": "pdm.eff_pol tends to alpha_tip as z_tip grows; its magnitude strictly decreases with z_tip >= 0 for the perfectly conducting tip whenever |beta|^2 < 4 Re beta (in particular for real beta in (0,4)), and increases if Re beta < 0.", "quantifier": "all samples, all heights", "why_tests_cant": "monotonicity over a continuum", "anchors": ["snompy/pdm.py:eff_pol", "snompy/pdm.py:geom_func"]}
{"id": "C45", "title": "FDM approach curves do not decay to the bare tip", "statement": "fdm.geom_func vanishes at z = L - r(1+2d)/4 and then grows without bound, so for beta != 0 fdm.eff_pol tends to 1/2, not to 1 (the value with no sample), as z_tip grows: the finite dipole formula is meaningful only for heights below about L_tip.", "quantifier": "all parameters", "why_tests_cant": "a limit statement; the tests stop at 100 nm", "anchors": ["snompy/fdm.py:eff_pol", "snompy/fdm.py:geom_func"]}
{"id": "C46", "title": "Lorentz and Drude permittivities", "statement": "lorentz_perm = eps_inf + A/(nu_j^2 - nu^2 - i gamma nu) with A = A_j or f_j nu_plasma^2; raises ValueError exactly when A_j and nu_plasma are both or neither given; drude_perm = eps_inf - nu_plasma^2/(nu^2 + i gamma nu); for A, gamma, nu > 0 and real eps_inf the imaginary part is positive (passive), eps(-nu) = conj eps(nu), and eps -> eps_inf as nu grows. A bulk sample of such a material in a real positive environment has Im beta > 0.", "quantifier": "all parameter values", "why_tests_cant": "all real parameters", "anchors": ["snompy/sample.py:lorentz_perm", "snompy/sample.py:drude_perm"]}
{"id": "C47", "title": "Vectorised sample calls are elementwise with NumPy broadcasting", "statement": "For array-valued eps_stack, t_stack layers and q, refl_coef_qs/trans_coef_qs succeed exactly when the shapes broadcast; the result has the broadcast shape and each entry equals the scalar call on the corresponding entries. Likewise refl_coef_qs_above_surf, surf_pot_and_field, image_depth_and_charge in z_Q.", "quantifier": "all shapes of all ranks, all entries", "why_tests_cant": "all ranks and shapes", "anchors": ["snompy/sample.py:Sample.transfer_matrix_qs", "snompy/sample.py:Sample.refl_coef_qs", "snompy/sample.py:Sample.refl_coef_qs_above_surf", "snompy/_utils.py:_pad_for_broadcasting"]}
{"id": "C48", "title": "Vectorised demodulation and effective polarizability are elementwise with NumPy broadcasting", "statement": "For array-valued x_0, x_amplitude, n and function arguments demod has the broadcast shape and each entry is the scalar demodulation of the corresponding entries; hence so do fdm/pdm eff_pol, eff_pol_n and eff_pol_n_taylor.", "quantifier": "all shapes of all ranks, all elementwise functions", "why_tests_cant": "all ranks and shapes", "anchors": ["snompy/demodulate.py:demod", "snompy/_utils.py:_pad_for_broadcasting", "snompy/fdm.py:eff_pol_n", "snompy/pdm.py:eff_pol_n", "snompy/fdm.py:eff_pol_n_taylor"]}
{"id": "C49", "title": "Array-valued environments are mis-aligned when a sample is given by beta_stack", "statement": "With array-valued eps_env and beta_stack, the environment is broadcast against the layer axis: bulk_sample(beta=b, eps_env=[e0,e1]) with scalar b does not represent the two samples with environments e0 and e1 (its eps_stack is [e0, e1*(1+b)/(1-b)]); with scalar eps_env, or eps_env of the same shape as each beta layer, entries are correct.", "quantifier": "existence of witnesses; all scalar environments for the positive part", "why_tests_cant": "a silent shape confusion that depends on the particular rank", "anchors": ["snompy/sample.py:Sample.beta_stack", "snompy/sample.py:bulk_sample"]}
{"id": "C50", "title": "Q_ave Taylor series freezes the sample response at the lowest tip position", "statement": "fdm.eff_pol_n_taylor(method='Q_ave') evaluates the sample at z_tip + r_tip d_Qa only, whereas fdm.eff_pol_n(method='Q_ave') re-evaluates it along the tapping motion; for bulk samples they agree in the limit, for multilayer samples there are inputs where they differ at every truncation order.", "quantifier": "all bulk samples (positive part); existence for the negative part", "why_tests_cant": "non-convergence at every order cannot be observed by finitely many runs", "anchors": ["snompy/fdm.py:eff_pol_n_taylor", "snompy/fdm.py:eff_pol_n"]}
{"id": "C51", "title": "bulk_sample is the two-layer Sample", "statement": "bulk_sample(eps_sub, eps_env=e) has eps_stack (e, eps_sub), no thickness, multilayer False; bulk_sample(beta=b, eps_env=e) has eps_sub = e(1+b)/(1-b) for b != 1, and refl_coef_qs() = b if moreover b != -1 and e != 0; giving both or neither raises ValueError.", "quantifier": "all complex arguments", "why_tests_cant": "all complex arguments", "anchors": ["snompy/sample.py:bulk_sample"]}
{"id": "C52", "title": "The momentum clip does not keep the quasistatic transfer matrix in the range of a double", "statement": "In exact arithmetic with the range of a double: every propagation factor is representable; a stack of any size is computed exactly as long as its amplification times e^(sum of exponents) stays in range, and a film of real permittivity between environment and substrate is exact at every q t. But for a thick film (q t >= 709.78) on a substrate of lower permittivity refl_coef_qs silently returns 0, or nan, although the exact value is the top interface's coefficient to 1e-615; and with two or more inner layers it is nan as soon as the exponents of the topmost layers add up to slightly more than 709.78.", "quantifier": "all stacks (safe region); all real single films and all positive real stacks (failure regions)", "why_tests_cant": "depends on extreme q t reached only by particular combinations of thickness, height and quadrature order", "anchors": ["snompy/sample.py:Sample.transfer_matrix_qs", "snompy/sample.py:_MAX_EXP_ARG"]}
{"id": "C53", "title": "A single overflowing quadrature node makes all averaged quantities nan", "statement": "If at the momentum x/(2 z_Q) of one Gauss-Laguerre node the topmost inner layers exceed the range of a double, then refl_coef_qs_above_surf, the potential and the field of surf_pot_and_field are not finite and the image depth and charge are nan, however negligible the weight of that node is (with the default 32 nodes: two layers together thicker than about 13 z_Q).", "quantifier": "all positive real stacks with at least two inner layers, all node lists, weights and heights", "why_tests_cant": "the tests probe only thin films; the failing region is a relation between thickness, height and node", "anchors": ["snompy/sample.py:Sample.refl_coef_qs_above_surf", "snompy/sample.py:Sample.surf_pot_and_field", "snompy/sample.py:Sample.image_depth_and_charge", "snompy/sample.py:Sample.transfer_matrix_qs"]}
{"id": "C54", "title": "The far-field coefficients are those of Maxwell's boundary value problem", "statement": "refl_coef and trans_coef return r and t if and only if there is an electromagnetic field, solving Maxwell's equations in every material of the stack with continuous tangential components, that consists of an incident wave of amplitude 1 plus a reflected wave r above the stack and of a single outgoing or decaying wave t below it (electric field for s, magnetic field for p).", "quantifier": "all stacks of any length with complex permittivities and positive thicknesses, all wavenumbers and momenta, both polarizations; no layer above the substrate with exactly zero normal wavevector", "why_tests_cant": "tests compare with closed formulas for a few interfaces; this is agreement with the differential equations themselves", "anchors": ["snompy/sample.py:Sample.refl_coef", "snompy/sample.py:Sample.trans_coef", "snompy/sample.py:Sample.transfer_matrix"]}
{"id": "C55", "title": "The quasistatic coefficients are those of the electrostatic boundary value problem", "statement": "refl_coef_qs and trans_coef_qs return beta and t if and only if there is an electrostatic potential with continuous V and continuous displacement across all interfaces of the stack that is e^(-q z) - beta e^(q z) above the stack and (eps_env/eps_sub) t e^(-q z) below it. So beta is minus the ratio of the reflected potential and the code's t is not the ratio of potentials but of displacements.", "quantifier": "all stacks of nonzero complex permittivities and positive thicknesses, all q > 0 below the momentum clip", "why_tests_cant": "infinite family of stacks; the meaning of t is only visible for different end media", "anchors": ["snompy/sample.py:Sample.refl_coef_qs", "snompy/sample.py:Sample.trans_coef_qs", "snompy/sample.py:Sample.transfer_matrix_qs"]}
{"id": "C56", "title": "Far-field energy conservation", "statement": "For a propagating wave in a transparent environment: reflected plus transmitted power is at most the incident power when no inner layer amplifies, and equal to it when the inner layers are lossless; |r| <= 1 for a passive sample, and |r| = 1 if the stack is lossless and the wave cannot propagate in the substrate.", "quantifier": "all stacks of any length, both polarizations, all propagating momenta", "why_tests_cant": "a quantitative law over all stacks; tests check numbers for a few", "anchors": ["snompy/sample.py:Sample.refl_coef", "snompy/sample.py:Sample.trans_coef"]}
{"id": "C57", "title": "Evanescent waves: the imaginary part of r is the absorbed power", "statement": "For a momentum beyond the light line of a transparent environment: the power carried into the substrate is at most 2 Im r, equal to it for lossless inner layers, and Im r >= 0 for a passive sample.", "quantifier": "all stacks of any length, both polarizations, all evanescent momenta", "why_tests_cant": "a law over all stacks and momenta", "anchors": ["snompy/sample.py:Sample.refl_coef", "snompy/sample.py:Sample.trans_coef"]}
{"id": "C58", "title": "The documented Gauss-Laguerre rule exists, is unique and is exact", "statement": "For every order J >= 1 there is exactly one list (up to order) of J distinct roots of the documented Laguerre polynomial L_J with the documented weights x_j / ((J+1) L_(J+1)(x_j))^2; its nodes and weights are positive and it integrates every power below x^(2J) against e^-x over [0, oo) exactly. Hence the assumption about laggauss made by the averaging properties (C14, C23-C25) is met by the rule the docstring describes.", "quantifier": "all orders J >= 1", "why_tests_cant": "no number of orders tried establishes existence, positivity and exactness for all orders", "anchors": ["snompy/sample.py:Sample.refl_coef_qs_above_surf", "snompy/sample.py:Sample.surf_pot_and_field"]}
{"id": "C59", "title": "The momentum sums converge to the documented integrals as n_lag grows", "statement": "If the sample's quasistatic reflection coefficient is finite at every momentum q >= 0, then the integrals documented for surf_pot_and_field and refl_coef_qs_above_surf exist and the values returned with n_lag = n converge to them; image_depth_and_charge converges to the documented depth and charge of those integrals whenever the field integral is non-zero. For passive samples on a lossy substrate under a transparent medium nothing has to be assumed.", "quantifier": "all stacks of any length, all thicknesses, all heights z_Q > 0, n_lag -> infinity", "why_tests_cant": "a limit n_lag -> infinity", "anchors": ["snompy/sample.py:Sample.refl_coef_qs_above_surf", "snompy/sample.py:Sample.surf_pot_and_field", "snompy/sample.py:Sample.image_depth_and_charge"]}
{"id": "C60", "title": "Effective polarisability converges to the documented model as n_lag grows", "statement": "For multilayer samples the effective polarisability returned by fdm.eff_pol with method Q_ave (multi) converges, as n_lag grows, to the documented closed form evaluated with the documented momentum integrals (the image depths and charges of those integrals) whenever that closed form has a non-zero denominator; all calls beyond some n_lag return finite values. The demodulated values eff_pol_n and the Taylor version converge to the corresponding sums.", "quantifier": "all stacks, tip parameters, heights, harmonics; n_lag -> infinity", "why_tests_cant": "a limit n_lag -> infinity over all samples", "anchors": ["snompy/fdm.py:eff_pol", "snompy/fdm.py:eff_pol_n", "snompy/fdm.py:eff_pol_n_taylor", "snompy/sample.py:Sample.image_depth_and_charge"]}
{"id": "C61", "title": "What the image charge of image_depth_and_charge reproduces, and where", "statement": "The returned image charge at the returned depth produces, at the height of the inducing charge (distance d_image + z_Q), a potential and a field of exactly the magnitudes returned by surf_pot_and_field; the complex potential itself is reproduced iff phi/E is a positive real number and the complex field iff phi/E is real, which holds whenever the sample's coefficient is real and of one sign. The docstring's claim that surf_pot_and_field gives the values at the sample surface is refuted: for a bulk sample they are the image's potential and field at height h iff h = z_Q.", "quantifier": "all samples, heights, quadrature orders", "why_tests_cant": "holds for every stack, height and rule", "anchors": ["snompy/sample.py:Sample.image_depth_and_charge", "snompy/sample.py:Sample.surf_pot_and_field"]}
{"id": "C62", "title": "Graded lossless stacks are bounded and monotone; a distant charge sees only the substrate", "statement": "For lossless layers of increasing (or decreasing) permittivity the quasistatic coefficient is real with the sign of the gradient, its magnitude does not grow with the momentum, and it lies between that of the first interface and that of the substrate alone; the effective coefficient of refl_coef_qs_above_surf obeys the same bounds for any number of nodes and its magnitude does not fall with the height of the charge. For any stack with finite coefficient, when the height of the charge tends to infinity the effective coefficient and the image charge tend to the bare substrate's coefficient and the image depth divided by the height tends to 1.", "quantifier": "all stacks of any length, all thicknesses >= 0, all momenta >= 0, all heights, all quadrature orders", "why_tests_cant": "unbounded number of layers, all momenta; a limit z_Q -> infinity", "anchors": ["snompy/sample.py:Sample.refl_coef_qs", "snompy/sample.py:Sample.refl_coef_qs_above_surf", "snompy/sample.py:Sample.surf_pot_and_field", "snompy/sample.py:Sample.image_depth_and_charge"]}
{"id": "C63", "title": "Passive samples never make the tip active, up to the height where the finite-dipole loop changes sign", "statement": "Over every passive stack on a lossy substrate under a transparent medium, the point-dipole effective polarizability of a passive tip is finite with positive imaginary part. For the finite-dipole methods 'bulk' and 'Q_ave', if Im g_factor >= 0 and the tip is below the height where ln(4 L/(r + 4 z + 2 r d_Q1)) changes sign, the effective polarizability is finite; with real g_factor and positive geometry factor its imaginary part is positive. Above that height, with Im g_factor > 0, there is an absorbing substrate for which eff_pol is not finite.", "quantifier": "all passive stacks of any length, all tip parameters, all heights, all quadrature orders", "why_tests_cant": "a pole is a single point of the parameter space; its absence has to be shown for all of it", "anchors": ["snompy/pdm.py:eff_pol", "snompy/fdm.py:eff_pol", "snompy/fdm.py:geom_func", "snompy/_defaults.py:Defaults"]}
{"id": "C64", "title": "For small tapping amplitudes harmonic n scales as A^|n| times the |n|-th height derivative", "statement": "Any quantity with a Taylor expansion of order |n| above the lowest tip position, demodulated at harmonic n with more than 2|n| samples, divided by A^|n| tends to its |n|-th Taylor coefficient over 2^|n| when A -> 0; such an expansion is unique, and exists for the point-dipole and the (bulk) finite-dipole effective polarizability wherever they are finite. For the point dipole the first harmonic over A tends to -(3/2) alpha f beta / ((r+z)(1 - f beta)^2).", "quantifier": "all harmonics, all sample counts above 2|n|, all bulk samples, all tip parameters where the effective polarizability is finite", "why_tests_cant": "a limit A -> 0 (tests at small A run into rounding), all harmonics", "anchors": ["snompy/demodulate.py:demod", "snompy/pdm.py:eff_pol_n", "snompy/fdm.py:eff_pol_n"]}
{"id": "C65", "title": "The root-finding inverses are consistent: with growing n_tayl they return the true reflection coefficient and permittivity", "statement": "Near every number x whose Taylor signal differs from the requested one by delta there is a solution, at distance at most d*delta/|slope| (d the degree, slope the derivative at x), returned unmasked if it meets the restrictions. Hence, applied to the exact signal of a bulk sample (fdm.eff_pol_n, or pdm.eff_pol_n divided by the tip polarizability) for which the series converges and whose signal responds to first order to beta, and which meets the restrictions strictly, the inverse returns for all sufficiently large n_tayl an unmasked value arbitrarily close to the sample's reflection coefficient; permitivitty of it is arbitrarily close to the sample's permittivity. Strictness is needed: a lossless sample under reject_negative_eps_imag with a complex g_factor is lost for arbitrarily large n_tayl.", "quantifier": "all bulk samples, tip parameters, harmonics, sample counts, restrictions; all n_tayl above some bound; all library root finders and sorters meeting their contracts", "why_tests_cant": "a limit over n_tayl and a statement about every root finder; the failing values of n_tayl form an infinite sparse set", "anchors": ["snompy/fdm.py:refl_coef_qs_from_eff_pol_n", "snompy/pdm.py:refl_coef_qs_from_eff_pol_n", "snompy/fdm.py:taylor_coef", "snompy/fdm.py:eff_pol_n", "snompy/sample.py:permitivitty"]}
{"id": "C66", "title": "Every returned value reproduces the measured signal up to the truncation error", "statement": "If the finite-dipole inverse returns b unmasked at an element, every bulk sample with reflection coefficient b has, in the exact model fdm.eff_pol_n, the requested signal of that element up to B*rho^(n_tayl-1)/(2(1-rho)), where |b f_0| <= B and |b f_1| <= rho < 1 at the sampled heights. For the point dipole, in units of the tip polarizability, up to rho^n_tayl/(1-rho).", "quantifier": "all array arguments, all elements, all unmasked entries, all n_tayl and n_trapz", "why_tests_cant": "a quantitative bound for all inputs, geometries and returned roots", "anchors": ["snompy/fdm.py:refl_coef_qs_from_eff_pol_n", "snompy/pdm.py:refl_coef_qs_from_eff_pol_n", "snompy/fdm.py:eff_pol_n", "snompy/pdm.py:eff_pol_n"]}
{"id": "C67", "title": "Opaque layers hide what is below them in the far field; transparent layers never do", "statement": "If the normal wavevector of some inner layer has a positive imaginary part (absorption or total internal reflection), then as the thickness t of that layer grows, refl_coef tends to the reflection coefficient of the stack cut off at that layer with error at most K exp(-2 Im(k) t), and trans_coef tends to zero as K exp(-Im(k) t). If the wavevector k of the layer is real, refl_coef is exactly periodic in t with period pi/k and trans_coef changes sign.", "quantifier": "all stacks of any number of layers above and below, both polarizations, all momenta and wavenumbers, all thicknesses", "why_tests_cant": "a limit and an exact periodicity over all stacks", "anchors": ["snompy/sample.py:Sample.refl_coef", "snompy/sample.py:Sample.trans_coef", "snompy/sample.py:Sample.transfer_matrix"]}
{"id": "C68", "title": "Opaque layers make the far-field coefficients nan", "statement": "In arithmetic with the range of a double: if Im(k) t of one inner layer exceeds the logarithm of the largest double by more than ln(2)/2, refl_coef and trans_coef are nan for both polarizations whatever the rest of the stack is (although C67 gives them a limit). Conversely, while twice the interface amplification times exp(sum of Im(k) t) stays below the largest double, both are exactly the values of the exact arithmetic.", "quantifier": "all stacks, positions of the layer, polarizations, momenta and wavenumbers within the range of a double", "why_tests_cant": "statement about every opaque stack; also the boundary of the region where the function works", "anchors": ["snompy/sample.py:Sample.transfer_matrix", "snompy/sample.py:Sample.refl_coef", "snompy/sample.py:Sample.trans_coef"]}
{"id": "C69", "title": "Lossless contrast: every harmonic has a fixed sign, grows with the permittivity, decays with height, and determines the permittivity", "statement": "For a lossless tip and sample (real reflection coefficient >= 0, real positive polarizability; for the finite dipole model a real g factor and a stroke that stays below the heights where its geometry factors change sign and with loop gain below 1 at the lowest point), harmonic n of eff_pol_n is real with sign (-1)^n, its magnitude grows strictly with the reflection coefficient (hence with the permittivity of a bulk sample) and decays strictly with the tip height. Hence any single harmonic determines a lossless permittivity uniquely.", "quantifier": "all harmonics, all numbers of sampling points, all amplitudes, tip parameters, samples and permittivities within the stated region", "why_tests_cant": "strict monotonicity and sign for every harmonic and every number of trapezium points; needs an argument for all n at once", "anchors": ["snompy/pdm.py:eff_pol_n", "snompy/fdm.py:eff_pol_n", "snompy/demodulate.py:demod"]}
{"id": "C70", "title": "The effective polarizabilities are the equilibrium of the tip-sample loop the guide describes", "statement": "pdm.eff_pol and fdm.eff_pol (all three methods) are the response of the unique equilibrium of the loop equations of the guide (the dipole, respectively the charge Q1, is induced by the field of all images including its own); where the returned value is nan a driven tip has no equilibrium. Adding the reflections one after the other converges to it exactly when the loop gain is below 1, and diverges above 1 although the closed form is finite. The Taylor functions return the demodulated response after n_tayl - 1 reflections. Keeping the exact dipole lengths 2(L - z_Q0) and L - z_Q1, which the guide approximates, only multiplies each harmonic by one constant.", "quantifier": "all samples, tips, methods, quadrature rules, charges and fields, all numbers of reflections", "why_tests_cant": "uniqueness of the equilibrium and convergence of an infinite process cannot be observed on a sample of inputs; tests only compare the closed form with stored numbers", "anchors": ["snompy/pdm.py:eff_pol", "snompy/fdm.py:eff_pol", "snompy/pdm.py:eff_pol_n_taylor", "snompy/fdm.py:eff_pol_n_taylor"]}
{"id": "C71", "title": "Fresnel's formulas in angles, Brewster's angle and the surface polariton of one interface", "statement": "refl_coef of a bulk sample called with theta_in is the textbook Fresnel coefficient with angles given by n0 sin th0 = n1 sin th1 = sin|theta_in|. The guide's r_p and r_s are exchanged (its r_p is what the code returns for s and vice versa; they differ for all different media), and its worked number belongs to c_r = 0.3 instead of 0.9. The p reflection of a real interface vanishes exactly at q^2 (e0+e1) = nu^2 e0 e1, in vacuum exactly at tan theta = n; the s reflection never does. With an environment such that 1/e0 + 1/e1 < 1 no theta_in reaches it. Beyond both light lines r_p is nan exactly at the surface polariton (permittivities of opposite sign, same equation), r_s is always finite.", "quantifier": "all refractive indices, permittivities, angles, momenta and wavenumbers within the stated region", "why_tests_cant": "exactly-when statements about zeros and poles on a continuum", "anchors": ["snompy/sample.py:Sample.refl_coef", "snompy/sample.py:Sample.transfer_matrix"]}
{"id": "C72", "title": "The reflection and transmission coefficients are nan exactly at the modes of the stack; passive stacks have none under illumination, absorbing stacks none at all", "statement": "refl_coef and trans_coef (refl_coef_qs and trans_coef_qs) of any stack are nan exactly when Maxwell's (the electrostatic) equations in that stack have a nonzero field without incident wave. If the environment is transparent, the wave propagates in it and no layer has gain, both coefficients are finite. If the wave is evanescent in the environment, both are finite as soon as no layer has gain and at least one inner layer or the substrate absorbs.", "quantifier": "all stacks of any number of layers, both polarizations, all momenta, wavenumbers and thicknesses", "why_tests_cant": "poles are isolated points that sampling never hits; absence of poles is a statement about all parameters", "anchors": ["snompy/sample.py:Sample.refl_coef", "snompy/sample.py:Sample.trans_coef", "snompy/sample.py:Sample.refl_coef_qs", "snompy/sample.py:Sample.trans_coef_qs"]}
{"id": "C73", "title": "Rounding error of a demodulation, with constants", "statement": "In any arithmetic in which every operation and library function has relative error at most u, and for any order in which the trapezoid sum is added, demod returns a value within 2F + 2SB of the exact trapezoid rule, where B bounds the demodulated function on the swept interval, F is the error with which it is computed at slightly misplaced heights and S = (depth of the summation tree + 36 + 67|n|) u. In particular the harmonics of a constant c are computed as at most 2S|c| (noise floor), and not necessarily as zero; with u = 0 the rounded program is the exact model.", "quantifier": "all functions, centres, amplitudes, harmonics, numbers of intervals, arithmetics and summation orders with S at most 1/2", "why_tests_cant": "a test runs one machine and one order of summation; the bound holds for every rounding behaviour allowed by the error model", "anchors": ["snompy/demodulate.py:demod"]}
{"id": "C74", "title": "The effective polarizabilities and signals survive rounding", "statement": "fdm.eff_pol, fdm.eff_pol_n (every method), fdm.eff_pol_n_taylor and their point-dipole counterparts, executed operation by operation in rounding arithmetic, raise exactly when the exact functions do and with the same exception, and wherever the exact value is finite return it with an error of at most a constant times u, the constant and the admissible u depending on the arguments but not on the machine. The same holds for the contrast of two samples if the reference signal is not zero. No such bound holds relative to the signal: over a sample with the permittivity of its environment the exact harmonic is zero, the computed one need not be.", "quantifier": "all samples, tips, heights, harmonics, methods and quadrature rules; all machines of relative error u", "why_tests_cant": "forward error of a composition of dozens of operations for every machine and argument; a test sees one rounding", "anchors": ["snompy/fdm.py:eff_pol", "snompy/fdm.py:eff_pol_n", "snompy/fdm.py:eff_pol_n_taylor", "snompy/pdm.py:eff_pol", "snompy/pdm.py:eff_pol_n", "snompy/pdm.py:eff_pol_n_taylor"]}
{"id": "C75", "title": "Sample functions and closed-form inverses survive rounding", "statement": "refl_coef_qs and trans_coef_qs of stacks of any depth, refl_coef_qs_above_surf, surf_pot_and_field, image_depth_and_charge, lorentz_perm and drude_perm in rounding arithmetic raise exactly when the exact functions do and otherwise have errors of order u wherever the exact value is finite. The whole way from a permittivity to the effective polarizability and back through the closed-form inverse and permitivitty, computed in rounding arithmetic, recovers the permittivity with an error of order u.", "quantifier": "all stacks, heights, momenta, quadrature rules, tips and machines of relative error u", "why_tests_cant": "quantifies over all machines and all stacks; a round-trip test compares one rounding with a tolerance chosen by hand", "anchors": ["snompy/sample.py:Sample.refl_coef_qs", "snompy/sample.py:Sample.trans_coef_qs", "snompy/sample.py:Sample.refl_coef_qs_above_surf", "snompy/sample.py:Sample.surf_pot_and_field", "snompy/sample.py:Sample.image_depth_and_charge", "snompy/sample.py:lorentz_perm", "snompy/sample.py:drude_perm", "snompy/sample.py:permitivitty", "snompy/fdm.py:refl_coef_qs_from_eff_pol", "snompy/pdm.py:refl_coef_qs_from_eff_pol"]}
{"id": "C76", "title": "Bulk reflection: the direct formula keeps all digits, the transfer matrix only the absolute ones", "statement": "refl_coef_qs_single has relative error at most 16u for all permittivities whose sum is not zero. refl_coef_qs of a bulk sample, computed through the transfer matrix, has absolute error at most 320 u kappa^2 with kappa = (|e0| + |e1|)/|e0 + e1| as soon as 140 u kappa is at most 1, and no error bound relative to the result: for weak contrast it can return 0 where the direct formula is right.", "quantifier": "all permittivities of environment and substrate, all machines of relative error u", "why_tests_cant": "cancellation shows only at permittivity contrasts of order u; the constants hold for all complex permittivities", "anchors": ["snompy/sample.py:refl_coef_qs_single", "snompy/sample.py:Sample.refl_coef_qs", "snompy/sample.py:Sample.transfer_matrix_qs"]}
{"id": "C77", "title": "Far-field coefficients survive rounding, except at the light lines where half of the digits do", "statement": "Computed in arithmetic of relative error u, refl_coef and trans_coef raise the same exceptions as in exact arithmetic and have an error of order u for every stack, polarization, angle or momentum at which no layer is at its light line (eps k^2 = q^2), also across the branch cut of the square root (metals, evanescent waves). At a light line the error is still of order sqrt(u), and not of order u: a lossless interface at the critical angle loses half of the digits.", "quantifier": "all stacks, polarizations, angles, momenta and wavenumbers, all machines of relative error u", "why_tests_cant": "the loss occurs only at exact criticality and grows as the square root of the machine error; away from it the claim covers all machines and stacks", "anchors": ["snompy/sample.py:Sample.transfer_matrix", "snompy/sample.py:Sample.refl_coef", "snompy/sample.py:Sample.trans_coef"]}
{"id": "C78", "title": "The default number of Taylor terms is enough for the default tip", "statement": "With the default tip (r = 20 nm, L = 300 nm, g = 0.7 exp(0.06i)) and the default n_tayl = 16, fdm.eff_pol_n_taylor differs from fdm.eff_pol_n by at most 1e-4 for every bulk sample with |beta| <= beta_threshold = 1.01, at every resolved harmonic and every tapping cycle that stays below 280 nm; hence everything fdm.refl_coef_qs_from_eff_pol_n returns with these settings reproduces the given signal within 1e-4. For the conducting point dipole tip of any radius the corresponding number is 4e-10 (in units of alpha_tip) at all heights. The height limit matters: at 2 um the default series is off by more than 10.", "quantifier": "all bulk samples within the default threshold, all heights and amplitudes in range, all resolved harmonics, all sampling numbers, arrays of any shape for the inverses", "why_tests_cant": "the bound is a worst case over a continuum of samples, heights, amplitudes and all harmonics; tests compare single points with loose tolerances", "anchors": ["snompy/fdm.py:eff_pol_n_taylor", "snompy/fdm.py:refl_coef_qs_from_eff_pol_n", "snompy/pdm.py:eff_pol_n_taylor", "snompy/pdm.py:refl_coef_qs_from_eff_pol_n", "snompy/_defaults.py:Defaults"]}
{"id": "C79", "title": "Sampling error of a demodulation; closed form of the point-dipole harmonics", "statement": "The n_trapz-point demodulation differs from the documented Fourier integral by at most twice the distance, on the swept interval, between the function and any polynomial of degree below n_trapz - |n|. For the point-dipole model both are elementary: with p_1,p_2,p_3 the cube roots of alpha beta/(16 pi) and w_j the point inside the unit circle with (r+z+A-p_j)/A = -(w_j+1/w_j)/2, pdm.eff_pol_n returns alpha (delta_n0 + sum_j p_j K_N(w_j)/(3A)) with K_N(w) = -2w/(1-w^2) (w^|n| + (-1)^N w^(N-|n|))/(1-(-1)^N w^N), and the integral is the same with K(w) = -2w/(1-w^2) w^|n|; the error decays geometrically with ratio |w_j|. For a conducting tip with the default 32 samples, |beta| <= 1.01, amplitudes up to 1.5 tip radii and any height, harmonics |n| <= 4 are within 1e-7 alpha_tip of the integrals.", "quantifier": "all continuous functions, centres, amplitudes, harmonics and sample numbers (polynomial bound); all samples, tips, heights, amplitudes and |n| < n_trapz (closed forms); all samples with |beta| <= 1.01, all radii, heights and amplitudes in range (default bound)", "why_tests_cant": "the reference is an integral that the tests can only approximate by another quadrature, and the claim ranges over a continuum of functions or of samples and tips", "anchors": ["snompy/demodulate.py:demod", "snompy/pdm.py:eff_pol_n", "snompy/pdm.py:eff_pol", "snompy/pdm.py:geom_func"]}
{"id": "C80", "title": "The default number of samples is enough for the default finite-dipole tip", "statement": "For a bulk sample and any s > 1 such that the explicit bound rho_1 = |beta| (|g - (r+2(z+A)+r d)/(2L)| + (A/L) s) ln(4L/X ((1-w)/(1-ws))^2)/ln(4L/r), X = r+4z+2rd, 1+X/(4A) = (w+1/w)/2, is below 1 for d = d_Q1, fdm.eff_pol_n differs from the documented integral of eff_pol by at most rho_0/(1-rho_1) s^-(n_trapz-|n|). With the default tip and the default 32 samples the error of harmonics |n| <= 4 is at most 2e-5 for every bulk sample with |beta| <= 1.01, amplitudes up to 30 nm and cycles below 280 nm.", "quantifier": "all bulk samples, tips, amplitudes, heights, harmonics and sample numbers satisfying the stated inequalities; all of them for the default tip in the stated range", "why_tests_cant": "worst case over a continuum of permittivities, heights and amplitudes against an integral with no closed form", "anchors": ["snompy/fdm.py:eff_pol_n", "snompy/fdm.py:eff_pol", "snompy/fdm.py:geom_func", "snompy/demodulate.py:demod", "snompy/_defaults.py:Defaults"]}
{"id": "C81", "title": "Samples keep their own data", "statement": "For every program that makes arrays, writes to them, makes Samples from arrays or rows of arrays, assigns to the attributes of Samples and reads them: a Sample is exactly what the constructor arguments and the assignments to its own attributes say, as long as the program does not write to the arrays that are its attributes; no constructor or assignment changes the contents of an array that existed before, whether it returns or raises; two Samples never share an array, and an array of the program never becomes part of a Sample, unless it is assigned to nu_vac after construction (the one attribute that is not copied: then a later write to the array changes the Sample); a write to eps_stack or t_stack changes exactly that entry; no program, even with such writes, makes a Sample inconsistent or changes its number of layers without an exception; beta_stack is a new array on every read.", "quantifier": "all programs of the listed statements, all numbers of samples and arrays, shapes and contents", "why_tests_cant": "quantifies over all programs and all interleavings of writes, assignments and exceptions", "anchors": ["snompy/sample.py:Sample.__init__", "snompy/sample.py:Sample.t_stack", "snompy/sample.py:Sample.eps_stack", "snompy/sample.py:Sample.beta_stack", "snompy/sample.py:Sample.eps_env", "snompy/sample.py:Sample._check_layers_valid"]}
{"id": "C82", "title": "Signs of zeros and the branch of the far-field wavevectors", "statement": "Reals whose zeros carry a sign, with the IEEE sign rules and NumPy's complex operations (naive product, Smith's division, C99 square root). No sign changes the value of a permittivity or of a quasistatic quantity. refl_coef and trans_coef give the value of the real-number model whenever neither the environment nor the substrate is a negative real permittivity with imaginary part -0, whatever the inner layers are; otherwise the half space concerned has the opposite wavevector (growing instead of decaying wave). permitivitty of a real beta has imaginary part -0 exactly for beta > 1, so a substrate made from beta_stack with one beta > 1 and |beta| < 1 otherwise is such a half space, also if the beta_stack was read from a Sample; then the reflection coefficient of a propagating wave is the complex conjugate of the right one, that of an evanescent wave its reciprocal, and at wavenumber 0 it is 1/beta instead of beta. The claim that equal permittivities have equal reflection coefficients is refuted.", "quantifier": "all stacks, thicknesses, permittivities (either side of the cut), momenta, wavenumbers, both polarizations", "why_tests_cant": "the sign of a zero is invisible in any comparison of permittivities; tests of the far field with lossless metals through beta_stack are one line of a continuum of inputs", "anchors": ["snompy/sample.py:permitivitty", "snompy/sample.py:refl_coef_qs_single", "snompy/sample.py:Sample.beta_stack", "snompy/sample.py:Sample.transfer_matrix", "snompy/sample.py:Sample.refl_coef", "snompy/sample.py:Sample.trans_coef"]}
{"id": "C83", "title": "Conventions of the inversion of measured harmonics", "statement": "For fdm.refl_coef_qs_from_eff_pol_n and pdm.refl_coef_qs_from_eff_pol_n on arrays: leaving out any subset of the optional arguments gives the roots and mask of the call with the missing ones filled in from the current defaults (d_Q0 = 1.31 L/(L + 2 r) from the arrays in use), after which the table of defaults does not matter. Measuring all lengths, including the stored ones, in another unit changes neither roots nor mask; in the point dipole model alpha_tip is converted as a volume and the measured harmonics are not, i.e. they are taken in units of alpha_tip. There eps_tip is the same as alpha_tip = 4 pi r^3 (eps-1)/(eps+2), neither is a perfectly conducting sphere, and both raise ValueError.", "quantifier": "all arrays and shapes, all tables of defaults, all units k > 0, every subset of omitted arguments, any root finder and any sort", "why_tests_cant": "the roots are found numerically and sorted, so a test compares a few values to tolerance; equality of the whole result for every unit and every subset of omitted arguments is a statement about all inputs", "anchors": ["snompy/fdm.py:refl_coef_qs_from_eff_pol_n", "snompy/pdm.py:refl_coef_qs_from_eff_pol_n", "snompy/_defaults.py:Defaults._fdm_defaults", "snompy/_defaults.py:Defaults._pdm_defaults"]}
{"id": "C84", "title": "Which solution the root-finding inverses put first, for lossless samples", "statement": "For a lossless sample with real reflection coefficient b >= 0 (finite dipole model: bulk sample, real g factor, stroke below the heights where the geometry functions change sign; point dipole model: any sample, positive tip polarizability) and two or more Taylor terms, inverting the signal of the Taylor series returns b as first value, exactly once, unmasked, and every other returned value is strictly larger in magnitude. Two such samples whose Taylor signals differ by delta have reflection coefficients that differ by at most delta/|c_1|, with c_1 the first Taylor coefficient, which is never 0. Inverting the exact signal overestimates: the series with J terms has a non-negative solution est J >= b (strictly larger if b > 0), which decreases with J, is off by at most the truncation error divided by |c_1|, tends to b, and is returned first if it meets the requested restrictions.", "quantifier": "all lossless samples, harmonics, numbers of samples and Taylor terms, tip geometries in the stated range, restrictions, environments, any root finder and any sort meeting their contracts", "why_tests_cant": "a statement about all complex roots of polynomials of every degree with coefficients that are averages over any number of samples", "anchors": ["snompy/fdm.py:refl_coef_qs_from_eff_pol_n", "snompy/fdm.py:eff_pol_n_taylor", "snompy/fdm.py:taylor_coef", "snompy/pdm.py:refl_coef_qs_from_eff_pol_n", "snompy/pdm.py:eff_pol_n_taylor", "snompy/pdm.py:taylor_coef"]}
{"id": "C85", "title": "Comparison of lossless stacks, and the permittivity a layered sample appears to have", "statement": "For stacks of positive real permittivities and any momentum q >= 0 the quasistatic coefficient is real with |r| < 1; with the thicknesses fixed it does not decrease when any permittivity below the environment is raised or that of the environment is lowered, and increases strictly if q and all thicknesses are positive; if all permittivities below the environment lie in [m, M] the stack responds like a half space with a permittivity in [m, M]; with everything else fixed it is a monotone function of the thickness of any one layer (increasing if nothing further down exceeds that layer's permittivity, decreasing if nothing is below it). The averages of refl_coef_qs_above_surf obey the same order and bounds for any number of nodes, and so, up to the sign (-1)^n, do the harmonics of the finite-dipole Taylor series (method Q_ave, no layer below the environment's permittivity). Inverting such a harmonic with the root-finding inverse gives as first value the coefficient of a permittivity between the smallest and the largest one of the stack.", "quantifier": "all numbers of layers, permittivities, thicknesses, momenta, heights, quadrature orders, harmonics, tip geometries in the stated range", "why_tests_cant": "order relations between pairs of stacks with any number of layers, for every momentum and height", "anchors": ["snompy/sample.py:Sample.refl_coef_qs", "snompy/sample.py:Sample.transfer_matrix_qs", "snompy/sample.py:Sample.refl_coef_qs_above_surf", "snompy/fdm.py:eff_pol_n_taylor", "snompy/fdm.py:refl_coef_qs_from_eff_pol_n"]}
{"id": "C86", "title": "Stacks of reciprocal permittivities", "statement": "Replacing every permittivity of a stack (complex, nonzero, environment included) by its reciprocal changes the sign of refl_coef_qs at every momentum and multiplies trans_coef_qs by the ratio of the outer permittivities eps_env/eps_sub, nan at the same momenta; refl_coef_qs_above_surf, the surface potential and the surface field change sign, the image charge changes sign and its depth stays the same.", "quantifier": "all numbers of layers, complex permittivities, thicknesses, momenta, heights and quadrature orders, including momenta where the result is nan", "why_tests_cant": "an exact symmetry of all stacks, including resonant ones, that no sampled comparison establishes", "anchors": ["snompy/sample.py:Sample.refl_coef_qs", "snompy/sample.py:Sample.trans_coef_qs", "snompy/sample.py:Sample.transfer_matrix_qs", "snompy/sample.py:Sample.surf_pot_and_field", "snompy/sample.py:Sample.image_depth_and_charge"]}
{"id": "C87", "title": "Python sequences as arguments", "statement": "With harmonics given as a Python sequence, eff_pol_n of both models and pdm.eff_pol_n_taylor return what the same array gives. fdm.eff_pol_n_taylor broadcasts likewise but its result at harmonic 0 lacks the constant 1, and fdm.refl_coef_qs_from_eff_pol_n then solves for the signal plus one there; other harmonics are right. refl_coef_qs_above_surf of a sequence of heights returns twice as many values, each for half the height, for samples without inner layers or with array thicknesses, and raises TypeError otherwise; surf_pot_and_field and image_depth_and_charge always raise. A sequence for one of z_tip and A_tip with a number for the other raises TypeError; sequences for both are concatenated.", "quantifier": "all samples, sequences of any length, arrays of any shapes for the other arguments, all tip parameters, quadrature orders and truncations", "why_tests_cant": "the repository's tests use arrays and single numbers only, and one list-valued test would not show which functions and which entries are affected", "anchors": ["snompy/fdm.py:taylor_coef", "snompy/fdm.py:eff_pol_n_taylor", "snompy/fdm.py:eff_pol_n", "snompy/fdm.py:refl_coef_qs_from_eff_pol_n", "snompy/pdm.py:eff_pol_n", "snompy/pdm.py:eff_pol_n_taylor", "snompy/sample.py:Sample.refl_coef_qs_above_surf", "snompy/sample.py:Sample.surf_pot_and_field", "snompy/demodulate.py:demod"]}
{"id": "C88", "title": "Integer arguments wrap around", "statement": "Integer arguments give what the equal floats give as long as the squares, products and cubes formed from them fit into the integer type: nu_vac**2 and q**2 in the far field, q*t in the near field, 2*z_Q and 4*z_Q**2 in surf_pot_and_field, nu_j**2 - nu_vac**2 in the permittivity models, (r_tip + z_tip)**3 and r_tip**3 in the point-dipole model. Otherwise only the low bits count and nothing is raised: momenta whose square is a multiple of 2^bits are treated as normal incidence, such wavenumbers make every far-field coefficient nan, wavenumbers whose square needs the sign bit (46341 to 65535 per metre in 32 bits) make every lossless stack reflect a real amplitude without interference, and radius plus height whose cube is a multiple of 2^bits makes the point-dipole polarisability non-finite. With unsigned integers the Lorentz contribution above resonance and the Drude contribution at all frequencies have the wrong sign, and refl_coef_qs_single from a denser to a thinner medium is positive.", "quantifier": "all samples, polarizations, integer types of any width, signed or not, all integers and floats mixed in any way", "why_tests_cant": "the repository's tests use a handful of small integers on one platform; overflow depends on the word size and on which intermediate results are integers", "anchors": ["snompy/sample.py:Sample.transfer_matrix", "snompy/sample.py:Sample.transfer_matrix_qs", "snompy/sample.py:Sample.surf_pot_and_field", "snompy/sample.py:lorentz_perm", "snompy/sample.py:drude_perm", "snompy/sample.py:refl_coef_qs_single", "snompy/pdm.py:geom_func", "snompy/pdm.py:eff_pol", "snompy/_defaults.py:Defaults._pdm_defaults"]}
{"id": "C89", "title": "Sensitivity of the inverses to the measured signal", "statement": "Closed forms: two signals a, a' of one finite-dipole tip give reflection coefficients with (b'-b) f_0 = 2 (1 - f_1 b)(1 - f_1 b')(a'-a); for the point dipole (b'-b) f alpha = (1 - f b)(1 - f b')(a'-a); and permitivitty gives (e'-e)(1+b)(1-b') = 2 e (b'-b). No constant bounds the relative error of the permittivity by the error of the signal for all samples. Root finding: where the linear Taylor coefficient outweighs the others on the disc |beta| <= beta_threshold by a margin m = |c_1| - sum_(j>=2) j |c_j| rho^(j-1) > 0, at most one value per element is returned, of size at most |signal - c_0|/m, exactly one if d |signal - c_0| <= rho |c_1| and no further restriction is requested, and values returned for two signals differ by at most |a'-a|/m. For a point dipole no more polarisable than a perfect sphere, above the surface, and the mean signal (n = 0), this holds for every oscillation, number of samples and number of Taylor terms, with beta_threshold up to its default 1.01 and m = f/5.", "quantifier": "all tips, heights, amplitudes, harmonics, signals, arrays of all shapes, all root finders and sorts meeting the library contracts", "why_tests_cant": "tests invert a few exact signals; how much an error of the signal is amplified, and that no second solution exists, is a statement about all pairs of signals", "anchors": ["snompy/fdm.py:refl_coef_qs_from_eff_pol", "snompy/pdm.py:refl_coef_qs_from_eff_pol", "snompy/fdm.py:refl_coef_qs_from_eff_pol_n", "snompy/pdm.py:refl_coef_qs_from_eff_pol_n", "snompy/sample.py:permitivitty"]}
{"id": "C90", "title": "Resonance of tip and sample", "statement": "Point dipole with real polarisability alpha at height r+z, coupling f = alpha/(16 pi (r+z)^3) <> 1, over a bulk sample of any complex permittivity e1 in an environment e0: eff_pol is not finite exactly at e1 = -e0 (1+f)/(1-f), and equals alpha/(1-f) (e1+e0)/(e1 - e_res) elsewhere. For 0 < f < 1 each height has exactly one resonating lossless sample, with e_res < -e0 and e_res increasing with height; the response of a lossless sample is negative exactly for e_res < e1 < -e0; with loss g the absorption is the Lorentzian 2 alpha e0 f/(1-f)^2 g/((x-e_res)^2+g^2). A lossless oscillator resonates at nu^2 = nu_j^2 + A/(eps_inf - e_res), which decreases on approach and stays between nu_j and the surface mode nu_j^2 + A/(eps_inf+e0); a lossless Drude metal at nu^2 (eps_inf (1-f) + e0 (1+f)) = nu_p^2 (1-f). A harmonic is not finite exactly if one of the sampled heights resonates, hence finite outside the interval of resonances of the tapping range. Finite dipole: not finite exactly at e1 = -e0 (1+f_1)/(1-f_1); never for a passive sample if Im g_factor > 0. Finiteness for every lossless sample is refuted (sphere in contact, -5/3).", "quantifier": "all permittivities, tips, heights, amplitudes, harmonics, numbers of samples, oscillator parameters", "why_tests_cant": "the failing inputs form a set of measure zero whose position depends on every tip parameter; tests evaluate fixed spectra and cannot show that no other input fails or that the peak moves monotonically", "anchors": ["snompy/pdm.py:eff_pol", "snompy/pdm.py:eff_pol_n", "snompy/pdm.py:geom_func", "snompy/fdm.py:eff_pol", "snompy/fdm.py:geom_func", "snompy/sample.py:lorentz_perm", "snompy/sample.py:drude_perm", "snompy/sample.py:refl_coef_qs"]}
{"id": "C91", "title": "Films: thin and thick limits of the averaged near-field response, image series, and what a fixed number of nodes loses", "statement": "For a film of thickness t on a substrate, refl_coef_qs_above_surf with the documented Gauss-Laguerre rule of n_lag >= 2 nodes differs from the bare substrate's quasistatic reflection coefficient by at most 2|K|/(1-k)^2 t/z, and from the substrate value minus 2(t/z)K/(1+bc)^2 by at most 6|K|/(1-k)^3 (t/z)^2, where b and c are the coefficients of the film's two interfaces, K = c(1-b^2) and |b||c| <= k < 1. It differs from the coefficient b of a bulk sample of the film material by at most |K|/(1-k)(z/t + e^{-2 MAX_EXP_ARG}), and by at most |K|/(1-k)(e^{-t/(n_lag z)} + e^{-2 MAX_EXP_ARG}). The FDM effective polarizability with the Q_ave method over the film differs from that over the substrate by at most |f_0|/(2(1-p)^2) times the first bound. As n_lag grows the values converge to a limit that equals the series of images b + K sum (-bc)^m/(1+(m+1)t/z)^2, with an explicit truncation bound plus the floor left by the clipping of exponents. Because the second thick-film bound decays exponentially while the documented limit decays as (z/t)^2, there is a film for which every n_lag up to 1000 (the default is 32) returns less than a hundredth of the substrate's documented contribution.", "quantifier": "all complex permittivities with |b||c| < 1 and nonzero sums, all thicknesses and heights z > 0, all n_lag, all documented rules, all tip parameters in the regular range", "why_tests_cant": "The statements are bounds over continua of permittivities, thicknesses, heights and rule orders, and a limit as n_lag grows; tests compare a few stacks only.", "anchors": ["snompy/sample.py:472-590", "snompy/sample.py:181-256", "snompy/fdm.py:115-263"]}
{"id": "C92", "title": "The cached quadrature rule: what a session can and cannot notice of it", "statement": "laggauss is numpy.polynomial.laguerre.laggauss behind functools.cache, shared by all calls of a session. After any program whatsoever (calls with any n_lag arguments, assignments to any defaults), a call whose Laguerre order is an integer of any type (int, bool, NumPy integer) returns or raises exactly what the same function returns or raises without a cache. With any other order a call either does what it does in a fresh session, or what it does for the positive integer of the same value, the latter only if that value was used before as a NumPy integer or NumPy bool. It is refuted that a call's outcome is independent of the session's past: n_lag=4.0 raises TypeError in a fresh session and after n_lag=4, but is accepted after n_lag=np.int64(4), and is then accepted for good. Calls with unusable orders never change the cache. NumPy's function runs at most twice per order in a whole session and at most once if no NumPy integer of that value is used.", "quantifier": "all programs (lists of calls and assignments), all samples, all arguments, all defaults, all orders of every Python type, all rules", "why_tests_cant": "The property ranges over all histories of a session; a test runs one history, and pytest itself shares one cache over all tests.", "anchors": ["snompy/sample.py:41", "snompy/sample.py:577-590", "snompy/sample.py:712-726", "snompy/fdm.py:225-263"]}
{"id": "C93", "title": "Calls while another thread changes the defaults: what is atomic and what is not", "statement": "Let the state of snompy.defaults at each attribute read be given by an arbitrary schedule (any interleaving with other threads). Then every call of refl_coef_qs_above_surf, surf_pot_and_field, image_depth_and_charge, fdm/pdm eff_pol, eff_pol_n, eff_pol_n_taylor and refl_coef_qs_from_eff_pol returns, or raises, exactly what it does with some fixed Defaults object each attribute of which was in force at some instant of the call; for fdm calls of the 'multi' method without n_lag this needs n_lag to stay unchanged, because that default is read twice. One assignment to one attribute during a call is atomic (the result is the one before or the one after), an undisturbed call is the sequential one for every method, and a call with every argument given is not affected by any assignment. It is refuted that two assignments are atomic (pdm.eff_pol can combine the old z_tip with the new r_tip, giving a value of no state that ever existed) and that changing n_lag is atomic for 'multi' (the two charges are then treated with different rules and the result is that of neither order). The same three guarantees hold for the two root-finding inverses refl_coef_qs_from_eff_pol_n with array arguments, whatever the solver and the sorts do; they read every default at most once, the threshold before the environment.", "quantifier": "all schedules (all interleavings), all samples, all arguments given or defaulted, all methods, all harmonics, all defaults", "why_tests_cant": "The property ranges over all interleavings of attribute reads and assignments; the test suite is single-threaded and no test can enumerate schedules.", "anchors": ["snompy/_defaults.py:114-138", "snompy/fdm.py:62-263", "snompy/fdm.py:535-659", "snompy/fdm.py:814-889", "snompy/pdm.py:60-212", "snompy/pdm.py:321-407", "snompy/pdm.py:555-616", "snompy/demodulate.py:29-112", "snompy/sample.py:577", "snompy/sample.py:712", "snompy/fdm.py:763-811", "snompy/pdm.py:509-552"]}
{"id": "C94", "title": "Superlattices: many thin periods respond like one film, with an explicit 1/N bound", "statement": "For a sample whose film consists of N periods of the same lossless layers c (any number of layers in any order, permittivities and substrate between m > 0 and M, total thickness T kept fixed) refl_coef_qs differs at every momentum q >= 0 from that of the sample with one layer of permittivity sqrt(<eps>/<1/eps>) and thickness T sqrt(<eps><1/eps>) by at most 3 (M/m)^4 (qT)^2/N (plus (M/m)^2 exp(-2 _MAX_EXP_ARG) beyond the momentum where the code clips the exponent of that layer). refl_coef_qs_above_surf at height z with the documented rule of at least two nodes differs by at most 9/2 (M/m)^4 (T/z)^2/N plus the same floor, and the FDM effective polarizability (Q_ave) by |f_0|/(2(1-p)^2) times that, |f_1| <= p < 1. The film of the mean permittivity and the total thickness is not the limit.", "quantifier": "all lists of layers, all environments, substrates, momenta, heights and numbers of periods; all documented rules of at least two nodes; all tips with |f_1| < 1", "why_tests_cant": "The claim is a uniform bound over the number of periods (stacks of unbounded length) and over all lists of layers and momenta; a test sees finitely many stacks and cannot distinguish slow convergence from convergence to the wrong film.", "anchors": ["snompy/sample.py:181-253", "snompy/sample.py:472-590", "snompy/fdm.py:115-263"]}
{"id": "C95", "title": "Normalised spectra with the far-field factor: bounded correction, self-reference, units, and what the phase of lossless samples says", "statement": "For the calculation of the guide and of the t_dependent_spectra script, eta = (1+c_r r)^2 alpha / ((1+c_r r_ref)^2 alpha_ref) with r from refl_coef(theta_in): (a) for sample and reference stacks that do not amplify light, every angle at which the beam propagates in the environment, both polarizations and |c_r| = c < 1, eta exists whenever the two signals do and the reference signal is not zero, and equals the uncorrected contrast times a number of modulus between ((1-c)/(1+c))^2 and ((1+c)/(1-c))^2 and of phase at most 4 arcsin c; (b) a sample against itself gives exactly 1, or nan when its harmonic vanishes; (c) the unit of length cancels, for both tip models; (d) for lossless bulk samples and references eta is real and non-negative for every harmonic (phase zero), and for p polarization and 0 <= c_r < 1 it grows strictly with the permittivity from 2 sin(theta)^2 upwards; (e) zero phase does not extend to lossless films: the corrected contrast of a lossless film against its substrate has a positive imaginary part for every c_r > 0, although the signals are real.", "quantifier": "all passive stacks and thicknesses, angles, wavenumbers, c_r with |c_r| < 1, signals (a)-(b); all samples, tips and units (c); all lossless bulk permittivities and tips of C69 (d); all c_r > 0 and all real signals of equal sign (e)", "why_tests_cant": "The bounds hold for stacks of any length and any passive permittivities, and the phase statement compares all harmonics of all lossless materials with one explicit exception; sampled stacks only give sampled corrections.", "anchors": ["docs/examples/scripts/t_dependent_spectra.py:35-51", "docs/guide/far-field.rst:104-192", "snompy/sample.py:274-420", "snompy/fdm.py:62-112", "snompy/pdm.py:60-146"]}
{"id": "C96", "title": "Superlattices of metals and absorbing materials respond like a uniaxial film, resonances included", "statement": "For a sample whose film consists of N periods of the same layers c (any number and order, any nonzero complex permittivities, gain and negative values included, total thickness T fixed) compare refl_coef_qs at momentum q > 0 with the electrostatic boundary value problem of a homogeneous uniaxial film of permittivity <eps> along and inverse permittivity <1/eps> across the surface. (a) If that problem has fields with reflection beta and transmission t, and err = k^2 e^k (1+|en/e0|) |t| / N <= 1 with k = q sum t_i max(|eps_i/e0|, |e0/eps_i|), the call returns a coefficient within err (1+|beta|) of beta (no layer beyond the clipped exponent); hence the results converge to beta. (b) If the film has a mode (fields without an incoming wave), the call returns nan or a coefficient r with 1+|r| >= 2/err, growing with N. (c) Every film has either a response, which is unique, or a mode, never both. (d) Layers 4 and -1, neither absorbing, form a film that reflects q = pi/3 with beta = 3 on a substrate 2 and has a mode there on a substrate 4.", "quantifier": "all lists of layers with complex nonzero permittivities, all environments, substrates, momenta q > 0 and numbers of periods", "why_tests_cant": "The bound is uniform over stacks of unbounded length and all complex materials, close to and at resonances where sampled comparisons are ill-conditioned; the limit is the solution of a boundary value problem of differential equations, which no sampled call can decide.", "anchors": ["snompy/sample.py:181-253", "snompy/sample.py:41-44"]}
{"id": "C97", "title": "Contrast, phase and identifiability of absorbing samples", "statement": "For a real tip (PDM: polarizability alpha > 0; FDM: real g, stroke below the sign changes of the geometry functions) over samples with arbitrary complex quasistatic reflection coefficients of modulus at most rho, loop gain below 1 at the lowest point, every harmonic n and any number of samples N: with c and d the n-th cosine coefficients along the stroke of F and of F/(1 - rho G)^2 (PDM: F = alpha g, G = g; FDM: F = f0/2, G = f1), 0 < c <= d and (a) the results of eff_pol_n for two samples satisfy |a1 - a2 - (-1)^n c (b1 - b2)| <= (d - c)|b1 - b2|, hence (2c - d)|b1 - b2| <= |a1 - a2| <= d |b1 - b2|; (b) |(-1)^n Im a - c Im b| <= (d - c)|Im b|: below the threshold d < 2c absorption appears with its own sign; (c) |a| is at most the value for the lossless sample with b = rho; (d) below the threshold one harmonic determines the complex permittivity of a bulk sample; (e) the threshold holds for the first PDM harmonic of a conducting tip whenever |b| <= 3/5, and for every FDM harmonic for small enough rho; (f) it cannot be dropped: for every real tip, amplitude and N >= 2 some absorbing bulk sample near eps = -eps_env has a first PDM harmonic with the wrong sign of the phase.", "quantifier": "all samples with complex reflection coefficients in the stated disc, all harmonics, amplitudes, heights, tips in the stated range and numbers of sampling points", "why_tests_cant": "a test compares single spectra; the bounds hold for all complex reflection coefficients and every harmonic and sample count, and uniqueness quantifies over pairs of materials", "anchors": ["snompy/pdm.py:60-146", "snompy/pdm.py:149-212", "snompy/fdm.py:62-112", "snompy/fdm.py:115-263", "snompy/demodulate.py:29-112"]}
{"id": "C98", "title": "Total error of the default signals, rounding and sampling together", "statement": "For the default tip over bulk samples admitted by the default beta_threshold (|beta| <= 1.01), harmonics |n| <= 4 and every height and amplitude in the stated range, the value that fdm.eff_pol_n, pdm.eff_pol_n (and 16-term eff_pol_n_taylor) compute on any machine whose operations have relative error at most u, with the sums formed in any order, is compared with the Fourier integral over one tapping cycle that the documentation defines: the distance is at most 2e-5 + 3800 u + 3 delta (FDM), (1e-7 + 1310 u + delta) alpha_tip (PDM), 1.2e-4 + 3600 u + 2 delta (FDM Taylor), (1e-7 + 4e-10 + 1420 u + delta) alpha_tip (PDM Taylor), delta being the error of the computed quasistatic reflection coefficient; for bulk samples delta is eliminated (320 u kappa^2 with kappa = (|e0|+|e1|)/|e0+e1|), and in double precision with kappa <= 100 the total is 2.001e-5, 1.02e-7 alpha_tip and 1.2001e-4: sampling and truncation dominate, rounding adds less than two percent.", "quantifier": "all machines of relative precision u and all summation orders, all bulk permittivities in the stated range, all heights, amplitudes and harmonics |n| <= 4, all tip radii (PDM)", "why_tests_cant": "a test compares two floating-point results; the reference here is the exact integral, and the bound holds for every rounding behaviour and every order of summation", "anchors": ["snompy/fdm.py:62-112", "snompy/fdm.py:115-263", "snompy/fdm.py:535-659", "snompy/pdm.py:60-146", "snompy/pdm.py:321-407", "snompy/demodulate.py:29-112", "snompy/_defaults.py:77-141"]}
{"id": "C99", "title": "Optical coatings: admittances, antireflection, Bragg mirrors, etalons, photonic bands", "statement": "The far-field coefficients of any stack are those of the characteristic-matrix theory of coatings (both polarizations, absorbing and evanescent layers included): with (F, G) the tangential fields on top of the coating and y the admittance of the ambient, refl_coef = (yF - G)/(yF + G) and trans_coef = 2y/(yF + G). Lossless coatings transmit 4 y0 ys/(2 y0 ys + y0^2 A^2 + ys^2 D^2 + y0^2 ys^2 B^2 + C^2) and reflect the rest; coatings of quarter-wave layers reflect (y0 - Y)/(y0 + Y); a single film is antireflecting exactly when it is a quarter-wave film of geometric-mean admittance, a half-wave film between matched media or invisible; N-period Bragg mirrors tend geometrically to total reflection with sign set by the first layer; a film in a symmetric surrounding obeys Airy's formula; N periods of an arbitrary lossless cell transmit at most 8 y0 ys/min(y0, ys)^2 lambda^(-2N) when half the trace of the cell exceeds 1 in magnitude, and at least a positive constant for every N when it is below 1. The textbook statement with vacuum wavelength 1/nu is refuted.", "quantifier": "all stacks of any number of layers and periods, all thicknesses, permittivities, momenta and wavenumbers, both polarizations", "why_tests_cant": "existing tests compare two code paths on a few stacks; the antireflection condition is an equivalence over all films and the band statements quantify over all numbers of periods and all unit cells", "anchors": ["snompy/sample.py:274-384", "snompy/sample.py:386-420", "snompy/sample.py:422-456"]}
{"id": "C100", "title": "The root-finding inverses survive rounding", "statement": "On any machine of relative precision u <= 1e-6 and with any polynomial solver of normwise backward error eta <= 1e-3, every unmasked root b returned by fdm.refl_coef_qs_from_eff_pol_n (default tip and settings, |n| <= 4, amplitude up to 30 nm) obeys |b| <= 1.01(1+2u), and any sample whose reflection coefficient is within delta of b has the documented signal alpha_eff_n to 1.2e-4 + 3600u + 25 eta + 2 delta; for pdm the bound is (1.004e-7 + 1420u + 13 eta + delta) 4 pi r^3 for any radius. Unmasked roots have Im eps >= -20u|eps| and |eps| >= 1 - 22u when the corresponding rejections are on. A double-precision forward computation followed by the inverse returns only samples whose signal is that of the original to 1.41e-4.", "quantifier": "all machines, all backward stable solvers, all measured values, samples, heights and amplitudes in range, harmonics |n| <= 4", "why_tests_cant": "tests invert a few forward values on one machine and only ask that one root be close; that every returned root reproduces the signal, with an error budget in the precision and the solver, is a statement about all values and arithmetics", "anchors": ["snompy/fdm.py:662-811", "snompy/pdm.py:410-552", "snompy/sample.py:883-911", "snompy/_defaults.py:77-141"]}
{"id": "C101", "title": "Complementary media and the near-field lens", "statement": "Inserting, anywhere in a stack, any sequence of layers followed by its mirror image with negated permittivities leaves the quasistatic transfer matrix, reflection and transmission unchanged at every momentum (clip included), hence also the momentum averages, the image charge and the signals of the finite dipole model in the methods that accept layers. A film of permittivity minus that of the environment on any sample multiplies its reflection by e^(2qd) and its transmission by e^(qd); alone it does not reflect. With permittivity -1 + i delta the transmission differs from e^(qd) by at most a fraction delta^2 (e^(2qd) - 1)/4, never exceeds it, and is at most 4 sqrt(1+delta^2)/(delta^2 (e^(2qd)-1)) of it. If the lens is at least as thick as the charge is high, the documented average of the reflection coefficient is a divergent integral, and refl_coef_qs_above_surf with n nodes returns a number at least n(2n-1) times the reflection of the sample.", "quantifier": "all stacks, all sequences of layers, complex permittivities, thicknesses, momenta, heights and orders of the rule", "why_tests_cant": "tests compare a handful of ordinary stacks; the cancellation is an identity over all layer sequences and momenta, and the divergence with the number of nodes is a statement about every order", "anchors": ["snompy/sample.py:181-232", "snompy/sample.py:234-272", "snompy/sample.py:472-590", "snompy/sample.py:592-726", "snompy/sample.py:728-798", "snompy/fdm.py:62-263"]}
{"id": "C102", "title": "The near-field spectrum of an oscillator is an oscillator: its centre, peak and area", "statement": "Let the sample be a damped Lorentz oscillator (or Drude metal) of strength A, frequency nu_j, damping gamma, background eps_inf, as returned by lorentz_perm. The quasistatic reflection coefficient is again exactly what lorentz_perm returns, with the same damping, for the frequency of the surface mode, nu_s^2 = nu_j^2 + A/(eps_inf + e0). The effective polarizability in the point dipole model is, at every height, the value of lorentz_perm with the same damping at the frequency nu_t of the resonance of tip and lossless sample (C90). In the finite dipole model the squared frequency is shifted by a complex p, whose imaginary part is positive when the charge factor absorbs: the tip widens the line. nu Im of an oscillator is largest exactly at its centre, where it is strength over damping; nu_j < nu_t < nu_s and nu_t falls as the tip approaches. The area under nu Im eps is pi A / 2 (pi nu_p^2 / 2 for drude_perm) whatever the other parameters; the areas under nu Im beta and nu Im alpha_eff are pi e0 A/(eps_inf+e0)^2 and pi alpha f e0 A/((1-f) eps_inf + (1+f) e0)^2.", "quantifier": "for all frequencies, dampings, strengths, backgrounds, environments, tip heights, radii, polarizabilities and charge factors (real arithmetic)", "why_tests_cant": "The areas are integrals over an infinite range of frequency and the peak is a statement about every frequency at once; a test can only sample a spectrum.", "anchors": ["snompy/sample.py:831-880", "snompy/sample.py:914-988", "snompy/pdm.py:149-212", "snompy/fdm.py:115-263"]}
{"id": "C103", "title": "Infinite arguments: perfect conductors, infinite thicknesses, distant and infinitely long tips", "statement": "With a substrate of infinite permittivity (np.inf, or a complex number with one infinite component) refl_coef_qs computes exactly the limit of the reflection coefficient as the permittivity grows in any phase, for every stack whose exact values stay in the range of a double; over a bulk conductor it is 1. A layer of infinite permittivity anywhere else makes it nan, whatever the other layers, although the coefficient of such a film has the limit 1. An infinite thickness is read as any thickness beyond the clip at every positive momentum, and makes it nan at zero momentum. The point dipole model at infinite height returns the polarizability of the tip alone, and at every finite height, with overflow of (r+z)**3 allowed, the exact value or the tip alone, which then differs by at most 4|alpha|^2|beta| over the largest double. The finite dipole model at infinite height or for an infinitely long tip is nan over every sample, although for the length the geometry function tends to g and the default d_Q0 to 1.31. A tip of infinite permittivity is nan, although its polarizability tends to the 4 pi r^3 of the default conducting tip.", "quantifier": "for all stacks, permittivities, thicknesses, momenta, heights, radii, lengths and polarizabilities in the stated ranges, every kind of infinite permittivity (range-limited exact arithmetic)", "why_tests_cant": "The statements compare a value at infinity with a limit over all large arguments, for stacks of any length; a test can only see one infinite argument at a time and cannot see the limit.", "anchors": ["snompy/sample.py:181-272", "snompy/pdm.py:149-254", "snompy/fdm.py:115-325", "snompy/_defaults.py:114-138"]}
{"id": "C104", "title": "Line widths and the static sum rule of oscillator spectra", "statement": "For every Lorentz oscillator (A > 0, gamma > 0, any nu_c, over- or underdamped) the weighted absorption nu Im eps(nu) is at least half its maximum exactly for nu between sqrt(nu_c^2+gamma^2/4)-gamma/2 and sqrt(nu_c^2+gamma^2/4)+gamma/2, so its full width at half maximum is exactly gamma. The point-dipole effective polarizability of a tip at any height over such a material has a line of exactly the same width around its own shifted centre: the near field shifts a resonance but never broadens it. The integral of Im X(nu)/nu over all positive frequencies is pi/2 times the difference between the static and the high-frequency value of X, for X the permittivity, the quasistatic reflection coefficient and the point-dipole polarizability.", "quantifier": "all oscillator strengths, resonance wavenumbers, dampings, high-frequency permittivities, positive environments, tip radii and heights with a gain below one; all frequencies; improper integrals over (0, infinity)", "why_tests_cant": "The width is an equivalence over a continuum of frequencies and parameters, and the sum rule is an improper integral; a test can only sample a spectrum and compare with a tolerance.", "anchors": ["snompy/sample.py:914-988", "snompy/sample.py:234-252", "snompy/sample.py:831-880", "snompy/pdm.py:149-254"]}
{"id": "C105", "title": "Inversion by minimisation: what a residual says about the recovered permittivity", "statement": "The example script recovers eps by handing |alpha - eff_pol_n(bulk_sample(x0 + i|x1|))| to a general optimiser. Whatever the optimiser does, the objective is never negative, is even in x1, equals the noise at the true passive material, and every returned permittivity has a non-negative imaginary part, one per signal. For any tip, also with the complex default g factor, and reflection coefficients of modulus at most rho, any stopping point satisfies (|c| - F(1/(1-kappa)^2 - 1)) |b' - b| <= residual + noise and |eps' - eps| <= 2|eps_env|/(1-rho)^2 (residual + noise)/margin, with c the n-th cosine coefficient of f0/2, F and kappa bounds of |f0|/2 and rho|f1| over the stroke. If the real part of g exceeds the reach of the stroke such a rho > 0 with positive margin exists, in particular for the tip of the script with any harmonic and any amplitude up to 90 nm: a zero residual then means the exact permittivity. The script's sum of oscillators is absorbing at every positive frequency and its mask |beta| >= 1 marks exactly the frequencies with Re eps <= 0.", "quantifier": "all optimisers (arbitrary functions), all targets and noise, all parameters of fdm.eff_pol_n for a bulk sample, all passive materials, all harmonics and sample counts, all lists of oscillators", "why_tests_cant": "The guarantee is over every behaviour of an external optimiser and every noise; a test runs one optimiser on one spectrum and cannot exclude another material with the same signal.", "anchors": ["docs/examples/scripts/inversion.py:9-77", "docs/examples/scripts/inversion.py:81-100", "snompy/fdm.py:62-112", "snompy/sample.py:801-880"]}
{"id": "C106", "title": "Lower harmonics are stronger", "statement": "For a lossless tip and a sample with real reflection coefficient b > 0 (point dipole: positive polarizability, any sample; finite dipole: bulk sample, real g factor, whole stroke below the heights where a factor of the geometry functions vanishes; loop gain below 1 at the lowest point) and any harmonics with |n| < |m| <= n_trapz/2, the magnitude of harmonic m of eff_pol_n is positive and strictly smaller than that of harmonic n. The same holds, whatever the loop gain, for each coefficient of taylor_coef from the second on and for eff_pol_n_taylor with two or more terms. The bound n_trapz/2 is needed: harmonic n_trapz - n has the magnitude of harmonic n. For an absorbing sample harmonic m is smaller than harmonic n of the lossless sample with the same modulus of the reflection coefficient. For the approach-curve script (silicon, harmonics 2 to 4) the normalised point-dipole curves lie strictly between 0 and 1 after the first point. For complex g factors and absorbing samples the order 0 < |n| < |m| holds below a threshold: for each tip and stroke there is rho > 0 such that every bulk sample with 0 < |b| <= rho (finite dipole, b of any phase; in particular the default tip with amplitudes up to 90 nm) and every tip and sample with 0 < |alpha b| <= rho (point dipole, any phases, rho depending on the stroke only) give a stronger harmonic n.", "quantifier": "all amplitudes, heights, radii, lengths, charge positions, real g factors, numbers of samples, pairs of harmonics, samples and sample permittivities meeting the stated inequalities", "why_tests_cant": "The order of the harmonics must hold for every discretisation and every height; it follows from a cone of functions whose discrete cosine coefficients decrease, closed under products and limits, not from sampled values. The test suite compares no two harmonics.", "anchors": ["snompy/fdm.py:62-112", "snompy/fdm.py:115-263", "snompy/pdm.py:60-146", "snompy/pdm.py:149-212", "snompy/fdm.py:452-532", "snompy/fdm.py:535-659", "snompy/pdm.py:257-318", "snompy/pdm.py:321-407", "snompy/demodulate.py:29-112", "docs/examples/scripts/si_approach.py:7-29"]}
