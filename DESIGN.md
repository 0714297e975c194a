# Formal model of snompy in Rocq (Coq 8.16.1)

Source modelled: `/repo/snompy/{_defaults,_utils,demodulate,sample,pdm,fdm}.py`.

## 1. Shape of the model

Several layers, all shallow embeddings written function by function.

* **Scalar layer** (`Num.v`, `Model*.v`): every public function on scalar
  arguments.  Numbers are exact reals / complexes.  A *numeric value* is
  `option R` / `option C`: `None` means "NumPy produced a non-finite
  intermediate" (division by zero, log of a non-positive real...).  Every
  arithmetic operation propagates `None`, so a theorem concluding `= Some x`
  also proves that no such thing happened.  (NumPy can turn an infinity back
  into a finite number, e.g. 1/inf = 0; the model says `None` there and no
  theorem claims anything about those runs.)
  Python exceptions are values: `res A := Ok a | Raise e`.
* **Array layer** (`NArr.v`, `Arr*.v`): n-dimensional arrays as shape + index
  function with NumPy broadcasting, `_pad_for_broadcasting`, stacking,
  reductions along axis 0, the trailing 2x2 matrix axes and batched `@`.
  Theorems say that each array function succeeds exactly on broadcastable
  shapes, has the broadcast shape and is entrywise the scalar function.

* **Object layer** (`ModelObj.v`, `SpecObj.v`, `ProofsObj*.v`): `Sample` objects
  as states; construction and attribute assignment as transitions that may
  raise and leave a half-updated state behind.
* **Memory layer** (`ModelHeap.v`, `SpecHeap.v`, `ProofsHeap.v`): the same
  objects with their arrays in a heap of buffers that programs can write to;
  which operations copy and which share.  One element per write statement,
  views other than rows of a stacked array are not distinguished, dtypes are not
  modelled.  Only `Sample` objects, not the temporaries of the other functions.
* **Sequence layer** (`ModelSeq.v`, `SpecSeq.v`, `ProofsSeq*.v`): arguments as
  Python sees them, numbers, sequences or arrays; `+` concatenates sequences, an
  integer literal times a sequence repeats it, `seq == 0` is False, and a
  sequence becomes an array where it meets one.  Flat sequences, Python numbers
  as floats, thicknesses floats, tip parameters arrays or defaults; `eff_pol`,
  the closed-form inverses and the PDM root-finding inverse are not repeated in
  this layer.
* **Integer layer** (`ModelInt.v`, `SpecInt.v`, `ProofsInt*.v`): numbers that
  remember whether they are integers; sums, products and powers of integers keep
  the low bits of their type (or all of them, for Python integers).  One integer
  type per call, numbers rather than arrays; permittivities are converted by the
  `eps_stack` setter and stay complex.  The finite-dipole geometry functions,
  where integers are only added and doubled, are not repeated in this layer.
* **Inversion layer** (`ModelInv.v`, `SpecInv.v`, `SpecPoly.v`, `ProofsInv*.v`):
  the two `refl_coef_qs_from_eff_pol_n` functions with the transposes,
  `np.apply_along_axis`, NaN padding, masking and sorting as written, over
  arrays; a polynomial solver (`Polynomial.roots`) and a sort as oracles.
  `FTA.v` proves the fundamental theorem of algebra, so the contract asked of
  the solver is satisfiable and the theorems are not vacuous.
* **Range layer** (`ModelRange.v`, `ModelRangeFF.v`, `SpecRange*.v`, `ProofsRange*.v`): numbers are
  exact reals, plus/minus infinity or NaN; a result beyond the largest double
  overflows.  Complex multiplication and division are written out as NumPy's
  loops do it (naive product, Smith's division).  No rounding, no underflow,
  no signed zero; division by an exact zero is NaN; `np.sum` from the left;
  scalar layers; `@` as the naive sum of products (a BLAS kernel could
  evaluate the same products in another order and produce NaN where this
  model produces 0).

* **Rounding layer** (`SpecRound.v`, `SpecAccurate.v`, `ModelRound*.v`,
  `Round*.v`, `SpecLightLine.v`, `ProofsRounding*.v`): the scalar code
  (demodulation, both transfer matrices, quadrature, both tip models, Taylor
  sums, closed-form inverses, permittivity formulas) once more, with one rounded operation per
  operation of the source, on a *machine*: any arithmetic whose results have
  relative error at most u, and any order of adding the terms of a sum.
  Simplified: everything computed from permittivities is complex from the start
  (NumPy stays real for real permittivities), no fused multiply-add, no
  overflow or underflow, no signed zero, products with exact zeros are exact
  where NumPy multiplies a real by a purely imaginary number, integer complex
  powers by repeated squaring (NumPy's choice for exponents below 100), signs
  and comparisons exact.  The arguments, the defaults and the quadrature nodes
  are taken as they are stored (their own representation error is not counted);
  `np.pi`, 1.31 and the clip bound are rounded.  The complex square root is the
  textbook algorithm (half-sum of modulus and real part, then a division), the
  complex exponential one real exponential times cosine and sine.  Not covered:
  arrays. The root-finding inverses in rounded arithmetic are in `ModelRoundInv.v`
  (scalars; the polynomial solver is a parameter characterised by its backward error,
  `SpecSolver.v`; the sorting of the roots and the masked array are left out).
* **Session layer** (`ModelCache.v`, `SpecCache.v`, `ProofsCache*.v`): the cache
  of the Laguerre rule as state that lives as long as the interpreter, with the
  order as a Python object (int, NumPy integer or bool, float, complex, other
  hashable, unhashable). Modelled from CPython's documented behaviour: an exact
  `int` is its own key, anything else is wrapped in a tuple and compared with
  `==`. The arrays stored in the cache are never written to by the code (they are
  only read, sample.py:577-590 and 712-726), so they are values here; threads that
  fill the cache at the same time are not modelled.
* **Thread layer** (`ModelThread.v`, `SpecThread.v`, `ProofsThread*.v`): the
  functions that read `defaults`, with the state of `defaults` at the i-th
  read given by an arbitrary schedule. A single attribute read or assignment is taken to be atomic
  (CPython). Shared are the defaults only: samples are values, the cached rule is a
  function. The root-finding inverses, with arrays, are in `ModelThreadInv.v`
  and `SpecThreadInv.v`. Not covered: the construction of samples (one read).
* **Spectrum layer** (`ModelScatter.v`, `SpecScatter.v`, `ProofsScatter*.v`): the
  calculation the guide and the example script build on the library, one line each
  of the script: signal, reflection coefficient, scattered field, ratio. The call of
  `eff_pol_n` is a parameter (any function of the sample), so the statements hold for
  each tip model and method; plotting and the array axes of the script are not modelled.
* **Coating layer** (`SpecCoating.v`): tangential fields, admittances and the real characteristic matrix of lossless layers, the textbook theory the far-field coefficients are compared with in C99. No part of the code is modelled here; the code side is `refl_coef`/`trans_coef` of `ModelSample.v`.
* **Infinity layer** (`ModelInf.v`, `SpecInf.v`): both tip models over a bulk sample, the default `d_Q0` and the two tip polarizabilities
  in the arithmetic of `ModelRange.v` (exact, limited range, infinities and nan; no signed zeros, so every division by zero is nan).  Method 'multi', the Taylor series and the demodulation are not
  modelled there.  Python floats raise OverflowError in `**` where NumPy numbers give inf; the model follows NumPy.
* **Inversion script layer** (`ModelFit.v`, `ProofsFit.v` to `ProofsFit3.v`): the two functions and
  the simulated sample of `docs/examples/scripts/inversion.py`. `scipy.optimize.minimize` is a
  parameter, any map from an objective and a start to a point or an exception; arrays are lists of
  the same length; the random noise is an arbitrary complex number; plotting, and the array dtype of
  `np.zeros_like`, are not modelled.
* **Signed-zero layer** (`ModelSigned.v`, `SpecSigned.v`, `ProofsSigned.v`): the permittivity
  conversions and the wavevectors of the far-field code with exact reals whose zeros have a
  sign (IEEE 754 rules, C99 `csqrt`), scalar samples.  The matrices themselves are formed by the plain
  model from the values of the wavevectors: sums, products, quotients and exponentials of
  finite values do not depend on signs of zeros (a division by a zero gives no
  number here, whatever its sign).  No rounding.
* **Wave specification** (`SpecWave.v`, `WaveLemmas*.v`, `ProofsWave*.v`): the
  differential equations, interface and radiation conditions that the
  transfer-matrix functions are supposed to solve, independent of any matrix.

Oracles (never axioms; always a quantified argument whose contract is a
hypothesis visible in the theorem): Gauss-Laguerre nodes/weights
(`numpy.polynomial.laguerre.laggauss`), polynomial roots
(`Polynomial.roots`), the order chosen by the unstable `argsort`.

Not modelled: (except in the rounding layer) floating-point rounding, (except in
the signed-zero layer) signs of zeros, (except in the range layer) overflow of floats; (except in the integer layer) dtypes; warnings, memory outside `Sample`; the
`_version.py`/versioneer glue; docs scripts (apart from the parts of the Scattering and Inversion script layers).

Known deviations of the model from NumPy, all on non-finite values:
`nan ** 0` is 1 in NumPy, `None` in the model; comparisons with a non-finite
number are `False` in the model (`inf >= 1` is `True` in NumPy, which matters
only for a root that is exactly 1); an infinity is `None` immediately, although
NumPy can turn it back into a finite number (`1/inf = 0`; what then happens to infinite arguments is C103, in the
infinity layer).

## 2. Trusted base

* Coq's kernel (8.16.1), `coqc`/`coqchk`.
* Axioms printed by `Print Assumptions` under each theorem: only the standard
  library's (classical reals: `ClassicalDedekindReals.sig_forall_dec`,
  `ClassicalDedekindReals.sig_not_dec`,
  `FunctionalExtensionality.functional_extensionality_dep`, and
  `Classical_Prop.classic` where Coquelicot needs it).  No axiom of ours.
* The faithfulness of our reading of the Python source (each definition
  cites file and lines).

## 3. Plan per property

| id | modelled | proof |
|----|----------|-------|
| C01 | `Sample.__init__`, setters, check, properties as a state machine with exceptions | case analysis |
| C02 | same, histories = lists of assignments | induction over the history |
| C03 | same, state kept after `Raise` | case analysis + witness |
| C04 | `refl_coef_qs_single`, `permitivitty` | field algebra with guards |
| C05, C06 | beta setter (`cumprod`), getter | induction over layers |
| C07, C08 | `transfer_matrix_qs`, `transfer_matrix` vs. independent Airy recursion | induction over layers |
| C09-C12, C16 | transfer matrices | group laws of interface / propagation matrices, induction |
| C13 | Airy recursion | estimate + limit |
| C14 | quasistatic stack | invariant "surface admittance in upper half plane" through a pi-network decomposition |
| C15 | all near-field functions | conjugation commutes with every operation |
| C17, C42 | all | algebra; clip acts on the invariant product q t |
| C18, C19, C20, C21, C22 | `transfer_matrix` argument handling, principal square root | case analysis, algebra, witnesses |
| C23, C24 | quadrature functions with oracle rule | sum algebra with moments 0 and 1 |
| C25 | `fdm.eff_pol`, `geom_func*` | from C23 |
| C26, C27 | inverse functions | field algebra |
| C28, C29 | Taylor functions | finite geometric sums, linearity of `demod`, limits |
| C30-C32 | inversion pipeline over arrays with root and sort oracles | root multiplicities (`FTA.v`), permutation reasoning, witness for lost solutions |
| C33-C35 | dispatch, `Defaults` | case analysis; limit |
| C36-C39 | `demod` | root-of-unity sums, induction |
| C40 | `demod` | Riemann sums (Coquelicot) |
| C41, C43 | `eff_pol_n` | from `demod` |
| C44, C45 | `geom_func` | monotonicity, limits |
| C46 | `lorentz_perm`, `drude_perm` | algebra, limit |
| C47, C48 | array layer | refinement to scalar layer |
| C49 | array-level beta setter | witness + positive part |
| C50 | Taylor Q_ave | witness, all truncation orders |
| C51 | `bulk_sample` | algebra |
| C52 | `transfer_matrix_qs`, `refl_coef_qs` in range arithmetic | magnitude bounds through the product (safe region); lower bounds that force overflow (NaN stacks); exact evaluation of thick films (silent 0) |
| C53 | `refl_coef_qs_above_surf`, `surf_pot_and_field` in range arithmetic | NaN propagation through the sums |
| C54 | `refl_coef`, `trans_coef` against Maxwell's equations (`SpecWave`) | the transfer matrix carries the solution across each interface and layer; uniqueness by constancy of products with e^(+-ikz) |
| C55 | `refl_coef_qs`, `trans_coef_qs` against electrostatics (`SpecWave`) | as C54, with exponentials |
| C56, C57 | `refl_coef`, `trans_coef` | from C54: the flux Im(conj F * G) decreases with depth (mean value theorem) |
| C58 | the rule documented for `laggauss` (sample.py:529-551) | difference calculus for L_J, three-term recurrence, Christoffel-Darboux, orthogonality on coefficient lists, interlacing roots by the intermediate value theorem |
| C59 | `surf_pot_and_field`, `refl_coef_qs_above_surf`, `image_depth_and_charge` | beta(q) is continuous and, because of the clip, finally constant; positive exact rules converge for such functions (Weierstrass approximation by polynomials in e^-x, each of which converges); substitution x = 2 z_Q q |
| C60 | `fdm.eff_pol` ("Q_ave", "multi"), `eff_pol_n`, `eff_pol_n_taylor` | C59 for the momentum sums, limits through the closed form (denominator non-zero in the limit, hence finally non-zero), finite sums of limits for harmonics |
| C61 | `image_depth_and_charge`, `surf_pot_and_field` | potential c/l and field c/l^2 of a point charge as specification; algebra of \|phi/E\|; one-sign samples by positivity of the rule |
| C62 | `refl_coef_qs`, `refl_coef_qs_above_surf`, `surf_pot_and_field`, `image_depth_and_charge` | Parratt recursion with the clipped round trip over the reals, x -> (a+x)/(1+ax) increasing; weighted sums; continuity of beta at q = 0 |
| C63 | `pdm.eff_pol`, `fdm.eff_pol` ('bulk', 'Q_ave'), default `g_factor` | C14 gives Im beta > 0; 1/alpha - beta/G has negative imaginary part; 1 - beta f cannot vanish when Im beta > 0 and Im f >= 0; above the sign change of the log the pole is constructed |
| C64 | `demod`, `pdm.eff_pol_n`, `fdm.eff_pol_n` ('bulk') | spec `expands` (Taylor-Young from the right); exact harmonics of (1+cos)^m up to order n; class of functions closed under + * / and ln with expansions of every order; uniqueness of the coefficients |
| C65 | `fdm.refl_coef_qs_from_eff_pol_n`, `pdm.refl_coef_qs_from_eff_pol_n`, `permitivitty` | root nearest to x: P'/P is a sum of d terms 1/(x - root), so one root is within d\|P/P'\|; geometric tails of the series and of its derivative; restrictions are open conditions; completeness (C31); spec `pderiv`, `interior`, `as_array` |
| C66 | the same and `eff_pol_n` | soundness (C30) and the truncation bounds of C28/C29 |
| C67 | `transfer_matrix`, `refl_coef`, `trans_coef` | the matrix product cut at the layer; the part below enters only multiplied by the round-trip factor |
| C68 | the same in range arithmetic (`ModelRangeFF.v`: complex `exp` and `sqrt` as in C99) | NaN propagation (an infinite exponential times the zeros of `np.eye`); magnitude bounds through the product (safe region); spec `SpecRangeFF.v` |
| C69 | scalar models of both tips, real data | `PosDef.v`: functions on the N-th roots of unity whose discrete Fourier coefficients are all >= 0 are closed under +, *, 1/(1-x) and -ln(1-x); the tip motion makes the geometry functions such functions of -cos, so (-1)^n times harmonic n is a sum of non-negative terms, strictly so for the term of the right order; monotone in every factor |
| C70 | scalar models of both tips, every method | spec `SpecTip.v` (loop equations of the guide: induced dipole/charge = response to the field of the images; iteration of one reflection); linear equation solved, uniqueness from the nonzero denominator of the model; iteration is a geometric sum |
| C71 | far-field model of bulk samples | spec `SpecFresnel.v` (textbook and guide formulas); one-interface coefficients in closed form, zeros and poles by factoring e1^2 k0^2 - e0^2 k1^2 |
| C72 | far-field and quasistatic stacks of any depth | spec `SpecMode.v` (source-free field of `SpecWave.v`); modes correspond to zeros of the transfer-matrix element M00; energy flux at both ends rules them out for passive stacks, an absorbing layer without field propagates zero to the whole stack |
| C73 | `ModelRound.v`: `demod` operation by operation in an arithmetic `rounds u A` (`SpecRound.v`), any summation tree | per-operation bounds (`RoundLemmas.v`: naive complex product 4u, Smith division 13u), absolute-value majorants through the tree, phases and heights by Lipschitz bounds of cos; compared with `demod` of the scalar layer |
| C74 | `ModelRound2.v`: both tip models, demodulated and Taylor | calculus of "computed with error O(u) whenever the exact value is finite" (`RoundTends.v`) closed under every operation of the model incl. lists, sums, exceptions; refutation on an arithmetic that is exact except for cos 0 |
| C75 | `ModelRound2.v`: sample functions, closed-form inverses, permittivities | same calculus (`RoundTends2.v`), composed with the exact round trips C26 and C27 |
| C76 | `ModelRound2.v`: bulk sample | explicit constants by absolute-value majorants; refutation on an arithmetic exact except for divisions |
| C77 | `ModelRound3.v`: far-field transfer matrix, `refl_coef`, `trans_coef` | calculus of C74 generalised to a gauge (`RoundTends3.v`): the square root is accurate off the branch point because a zero imaginary part stays zero on the cut; light lines defined in `SpecLightLine.v`; the same calculus at scale sqrt u gives half of the digits everywhere; refutation on an arithmetic exact except for one power |
| C78 | scalar Taylor functions and the root-finding inverses with `defaults0` | worst case of the default geometry functions (explicit bounds of ln 30, ln 60, ln 2, cos 0.06) in C28, C29, C30, C66; refutation at 2 um from the exact remainder C28 |
| C79 | `demod`, `pdm.eff_pol_n` (scalar); documented integral in `SpecSampling.v` (`fourier_coefficient`, Coquelicot `RInt`) | polynomials are demodulated exactly (C37) and the samples converge to the integral (C40), so both sides are within the distance of the polynomial's value; point dipole by partial fractions and geometric sums over roots of unity; poles exist by k-th roots of `FTA.v` and a square root |
| C80 | `fdm.eff_pol_n` (scalar, bulk) | `PolyBall.v`: uniform limits of sums of polynomials weighted by s^degree form an algebra closed under 1/(1-F); `ChebLog.v`: Chebyshev expansion of the logarithm with remainder; then C79; explicit numbers for the default tip |
| C81 | `ModelHeap.v`: `Sample.__init__`, setters, getters over a heap of buffers; programs as lists of statements; spec `SpecHeap.v` | simulation: every setter on the heap refines the setter of ModelObj.v; invariant (stacks allocated, references in range) under all legal programs; freshness of allocated buffers |
| C82 | `ModelSigned.v`: `permitivitty`, `refl_coef_qs_single`, `beta_stack` getter and setter, `nu_z`, `refl_coef`, `trans_coef` on reals with signed zeros; spec `SpecSigned.v` (side of the cut, branch of a half space) | sign rules give the side of the cut of eps nu^2 - q^2; transfer matrix as a product over (permittivity, wavevector) pairs, invariant under inner sign flips (as C11), also when a factor is undefined; sign bookkeeping along `np.cumprod`; closed forms for a lossless metal |
| C83 | `ModelInv.v`: both root-finding inverses on arrays; spec `SpecConv.v` (arrays in another unit, filled-in arguments, default charge position, polarizability of spheres) | a ufunc of rescaled arrays is the rescaled (or the same) array (`lift2_hom`, `lift2_inv`), applied through geometry functions, demodulation and Taylor coefficients; equality of whole results, so the root finder and the sorts are arbitrary |
| C84 | `ModelInv.v`: both root-finding inverses on single numbers, with `ModelTip.v` for the signals; spec `SpecFirst.v` (first value, others larger) | all Taylor coefficients of order 1 and more have the sign (-1)^n (`PosDef.v`, as for C69); a polynomial with positive coefficients has one non-negative solution, simple and strictly smallest in magnitude (`PosPoly.v`), with slope at least c_1; the truncation remainder is a positive harmonic; completeness (C31), soundness (C30) and layout (C32) carry this to the returned array. Not claimed for complex g (see C65, refuted there) or b < 0 |
| C85 | `ModelSample.v` refl_coef_qs, refl_coef_qs_above_surf on lossless stacks; `ModelTip.v` Taylor series with method Q_ave; `ModelInv.v` inverse | bottom-up recursion for the permittivity of the half space with the same response, e (x + e T)/(e + x T) with T = tanh(q t) (clip included), monotone in e and x and fixed at e = x, hence order and bounds; sign of e - x decides the monotonicity in t; positive weights carry this to the averages; positive Taylor coefficients (C84) to the signals and the inverse |
| C86 | `ModelSample.v` transfer_matrix_qs and everything derived from it; spec `SpecDual.v` | conjugation of every interface matrix with diag(1,-1), a factor that telescopes to eps_sub/eps_env; nan cases included |
| C87 | `ModelSeq.v`: Python numbers, sequences and arrays as arguments of the momentum integrals, the demodulated functions and the FDM root-finding inverse; spec `SpecSeq.v` | reduction to the array layer (C47, C48); the coefficient array without its constant term is again vectorised; results of broadcasting are determined by shape and entries, so equalities of calls follow by functional extensionality |
| C88 | `ModelInt.v`: the functions in which integers meet in integer arithmetic, with a word size; spec `SpecInt.v` (ranges, low bits) | a stored result is determined by range and residue; in range every call reduces to the float model, out of range to congruent squares or cubes; a stack whose wavevectors are all imaginary has a real transfer matrix |
| C89 | the inverses of `ModelTip.v` and `ModelInv.v`; spec `SpecSens.v` (the margin of the linear Taylor coefficient over the others on a disc) | difference identities of the closed forms; difference of the series at two points of the disc bounded below by the margin, its derivative too, so every root is simple and alone; existence by the near-root bound of C65; for the point-dipole mean signal the coefficients are means of powers of a coupling at most 1/4, so the tail sums to less than 4/5 of the linear term |
| C90 | `pdm_eff_pol(_n)`, `fdm_eff_pol`, `lorentz_perm`, `drude_perm`; spec `SpecReson.v` (coupling, resonant permittivity and frequency) | bulk reflection inserted in the closed form gives a Moebius function of the permittivity, whose only pole is read off; monotonicity of the coupling in the height moves it; lossless oscillators are solved for the frequency; a harmonic is a mean, not finite iff a term is not |
| C91 | `refl_coef_qs_above_surf` over a two-interface stack, `fdm.eff_pol` with Q_ave | The integrand of the film is written as b + K·e^{−2qt}/(1 + bc·e^{−2qt}); thin side: one- and two-term expansions in the thickness, averaged with the rule's moments 0, 1, 2 (exact from two nodes on); thick side: e^{−y} ≤ 1/y and the smallest Laguerre node is at least 1/n_lag; the series of images from the convergence of the rule (C59) on each exponential |
| C92 | `functools.cache` around `laggauss` (sample.py:41) as session state: keys of the cache, hits, stored values, exceptions not stored; every function that uses the rule rewritten over that state; programs as lists of calls and assignments to defaults | Each function asks the cache only for its own order, so its outcome is a function of the cache's answer (`step_det`); invariant `sound`: every entry is the rule of the integer its key equals; the bounds on recomputation from the keys being pairwise different (`tally`) |
| C93 | every read of `defaults` as an event with its own state (`ModelThread.v`): which attributes are read, in which order and how often, per call; arrays of heights evaluated in one call as in `demod` | What a function raises does not depend on the height (`uniform`), so the two evaluations inside `demod` agree on exceptions; the fixed defaults are assembled from the instants of the reads; the refutations by computing one dipole and one film. The root-finding inverses read every default at most once, so the instants of the reads give the fixed defaults directly (`ProofsThread4.v`) |
| C94 | `SpecLattice.v` (averages over a period, the equivalent film, N periods), unclipped and clipped `refl_coef_qs` of `ModelSample.v`, its average and `fdm_eff_pol` | through the admittance recursion of C85 the stack is a composition of flows of `y' = q (eps - y^2/eps)`, each of them non-expansive on [m, M]; one period differs from the flow of the averaged equation by a second-order term, and the errors of N periods add up to 1/N; the average uses the third moment of the rule; the wrong film (mean permittivity) is refuted on one superlattice for all N |
| C95 | the script's ratio of scattered fields (`ModelScatter.v`), with the call of `eff_pol_n` as a parameter and `refl_coef` of `ModelSample.v`; `SpecScatter.v` (passive layers, polar form) | existence from C72 and modulus at most 1 from C56; a number within c of 1 has phase at most arcsin c; units from C17 and C42; lossless bulk from C69 and the monotonicity of Fresnel's p coefficient; the lossless film with a phase by computing one transfer matrix |
| C96 | `SpecUniaxial.v` (averages of complex periods, boundary value problem of a uniaxial film), clipped `refl_coef_qs` of `ModelSample.v` | potential and displacement turn the transfer matrix into a product of matrices `1 + generator + O(k^2)`; the remainder of a product is the exponential remainder of the summed strengths (`small_mul`), the film's matrix is a semigroup, telescoping N factors gives k^2 e^k / N; complex cosh and sinh are dominated by the real ones through their derivatives; the fields of the film are solved and glued explicitly |
| C97 | `SpecMajor.v` (cosine coefficients along the stroke), `pdm_eff_pol_n`, `fdm_eff_pol_n` of `ModelTip.v` | a complex sequence is majorised by a real one when its discrete cosine coefficients are bounded one by one (`Majorant.v`); majorisation is tested in every direction of the complex plane, so it is preserved by the multipliers of `PosDef.v`, by sums, limits and hence by division by 1 - b G; 1/((1-u)(1-v)) - 1 is a sum of such quotients; the phase follows from comparing b with its conjugate; the first-harmonic threshold from monotonicity in the cosine; the counterexample from the limit b -> i infinity, where the signal becomes proportional to a cubic of the height |
| C98 | `k_fdm_eff_pol_n`, `k_pdm_eff_pol_n`, `k_fdm_eff_pol_n_taylor`, `k_pdm_eff_pol_n_taylor` of `ModelRound2.v` with `defaults0`; `fourier_coefficient` of `SpecSampling.v` | the sample positions as computed differ from the exact ones by a few u (`demod_within`); each quantity of one evaluation is followed with a relative or absolute error (`near`, `cnear`, `ap`); the computed mean is compared with the exact 32-point mean by C73, that one with the integral by C79 and C80; powers and sums of the Taylor series are followed by weights B^j ((1 + k u)^j - 1) and added in the order of the machine (`ksum_ap_w`), truncation by C78; delta is eliminated for bulk samples by C76 |
| C99 | `transfer_matrix`, `refl_coef`, `trans_coef` of `ModelSample.v`; `surface_fields`, `admittance`, `char_matrix`, `half_trace` of `SpecCoating.v` | induction over the layers turns the code's product of interface and phase matrices into tangential fields (`Mff_fields`), which for lossless layers are the entries of the real characteristic matrix (`fields_char`); its determinant is 1, so the denominator is 4 y0 ys plus two squares and never vanishes; quarter-wave layers send G/F to y^2 F/G; periods multiply the characteristic matrix (`char_repeat`), Cayley-Hamilton gives the two-term recurrence of all four entries, solved by lambda^N + lambda^-N in a gap and by sines in a pass band; the refutation of the vacuum-wavelength reading is the iff evaluated at phase 1/4 |
| C100 | `k_fdm_refl_coef_qs_from_eff_pol_n`, `k_pdm_refl_coef_qs_from_eff_pol_n`, `k_valid` of `ModelRoundInv.v`; `backward_stable` of `SpecSolver.v`; `fdm_signal`, `pdm_signal` (Fourier integrals) | the rounded Taylor coefficients are close to the exact ones (C98), an unmasked root solves a nearby polynomial, and the exact Taylor sum is close to the Fourier integral (C78-C80); perturbation of the polynomial inside the disc of radius 1.01 (`inverse_rounding`) adds up the three errors |
| C101 | `transfer_matrix_qs`, `refl_coef_qs`, `trans_coef_qs`, `refl_coef_qs_above_surf`, `fdm_eff_pol*` of `ModelSample.v`/`ModelTip.v`; `complement` of `SpecLens.v` | each layer becomes a matrix between copies of one reference medium (`Mqs_Np`), which negation of the permittivity inverts (`Nl_cancel`); induction over the block; exactness of the Laguerre rule on the Taylor polynomial of the exponential bounds the sums from below |
| C102 | The near-field spectrum of an oscillator is an oscillator: lorentz_perm / drude_perm, refl_coef_qs, pdm and fdm eff_pol over a bulk sample. | A Moebius map of an oscillator is an oscillator with the same damping (partial fractions in C); peak by completing the square; area by the substitution nu -> c/nu, which folds the integral onto the derivative of atan, and a squeeze. `integral_to_infinity` from SpecQuad.v. ProofsOsc.v, ProofsOsc2.v. |
| C103 | Infinite arguments in sample.py:181-272 and in both tip models over a bulk sample (pdm.py:202-209, 254, fdm.py:225-262, 320-325, _defaults.py:118-134), in the range-limited arithmetic of ModelRange.v, extended by ModelInf.v. | Conductor as substrate: the last transfer matrix is exactly pT 0, the rest as in C52; the limit is read off from c00 K and c10 K (uniqueness of limits). Elsewhere the infinity poisons a column (zsick) and every later product is nan. Point dipole: Smith's division by a real number, with both branches of the overflow. Limits by explicit epsilon bounds. SpecInf.v, ProofsInf.v, ProofsInf2.v, ProofsInf3.v. |
| C104 | Line widths and the static sum rule of oscillator spectra: lorentz_perm, refl_coef_qs and pdm.eff_pol over a bulk sample. | Half maximum: (nu^2 - c^2)^2 <= gamma^2 nu^2 split into two quadratics whose roots are the stated ends. Static area: partial integration is avoided by the same substitution nu -> c/nu as in C102; reflection coefficient and tip by the C102 oscillator forms. ProofsOsc3.v. |
| C105 | Inversion by minimisation, docs/examples/scripts/inversion.py:9-100 (`ModelFit.v`): objective, loop, sum of oscillators and mask; the optimiser is an arbitrary function; `cosine` of `SpecMajor.v`. | The difference of two signals is (b' - b) times the demodulated f0/2 plus a remainder bounded sample by sample (1/((1-u)(1-v)) - 1); the first coefficient is non-zero because its real part is positive definite (C97 machinery with Re g); permittivity error from C89's identity. ProofsFit.v, ProofsFit2.v, ProofsFit3.v. |
| C106 | Order of the harmonics of pdm.eff_pol_n and fdm.eff_pol_n (bulk), of taylor_coef and of eff_pol_n_taylor; demod with any n_trapz; the inputs and the normalisation of docs/examples/scripts/si_approach.py:7-29 (one point of the curve at a time; point dipole). | `UniMod.v`: the cone of sequences whose discrete cosine coefficients decrease up to N/2; multipliers of it contain 1 + cos and are closed under sums, products, limits, hence contain the resolvents, the logarithm and the loop factor; strictness by subtracting a multiple of (1 + cos)^j. Absorbing samples by C97. Taylor coefficients and truncated series term by term with the C84 forms. Complex g and absorbing samples below a threshold: real and imaginary part of the first Taylor coefficient are ordered separately, the rest is bounded by the loop factor of C105 (ProofsHarm3.v). ProofsHarm.v, ProofsHarm2.v, ProofsHarm3.v. |

No property is judged inexpressible; parts that live in floating-point
rounding outside the rounding layer are idealised away as stated in section 1.

Every claim `Cnn` has its theorems `Cnn_*` in a generated `Prop*.v` (statement
only; proof in the `Proofs*.v` of the same name) and at least one
`Example Cnn_example*` showing concrete inputs that meet the hypotheses.
A name ending in `_refuted` proves that a claim one would expect (usually
from the documentation) is false of the code.

## 4. What the proofs found in the code

* `pdm.eff_pol_n_taylor` and `pdm.refl_coef_qs_from_eff_pol_n` leave out the
  factor `alpha_tip` that `pdm.eff_pol_n` has (C29, C42).
* `Sample` attribute setters are not atomic: a rejected assignment keeps the
  new value and can leave an object whose momentum dependence, or whose lower
  layers, are silently ignored (C03).
* The `beta_stack` setter aligns an array-valued `eps_env` with the wrong axis (C49).
* `Q_ave` Taylor coefficients are taken at the lowest tip height only (C50), and
  the default method of the Taylor functions differs from `eff_pol`'s for
  multilayers.
* `n_tayl` counts the constant term: one order fewer than documented (C28);
  `n_tayl = 0` raises, deep inside NumPy.
* `eps_tip` together with `alpha_tip` raises although documented as ignored (C33).
* The point-dipole functions ignore all inner layers (C09).
* `nu_vac` has an effect for bulk samples when `q` is given (C19); the momentum
  of an angle lacks the refractive index of the environment and phases lack
  2 pi (C22).
* Harmonics alias at `n_trapz` (C38).
* `method="multi"` is non-finite for zero contrast (C43); far from the sample the
  finite-dipole model tends to 1/2 instead of a sample-free value (C45).
* `drude_perm` is non-finite at zero frequency (C46).
* The inversion can lose a valid root when array elements have different numbers
  of valid roots (C31).
* The clip in the quasistatic transfer matrix does not prevent overflow: a thick
  film on a substrate of lower permittivity returns 0 or NaN, stacks of two or
  more films NaN (C52), and one such quadrature node spoils all averages (C53).
* `trans_coef_qs` is not the ratio of transmitted to incident potential but
  eps_sub/eps_env times it; `refl_coef_qs` is minus the ratio of the reflected
  potential (C55).
* `r_p` and `t_p` are ratios of magnetic fields (C54).  A layer with exactly zero
  normal wavevector makes the far-field functions non-finite although the
  boundary value problem has a solution; C54 excludes it by hypothesis.
* `surf_pot_and_field` documents its values as those "at the sample surface";
  they are the values at the position of the inducing charge (C61).  Because the
  image depth is forced to be real, the image charge reproduces a complex
  potential and field in magnitude only (C61).
* The default `g_factor` has a positive imaginary part.  Above
  z = L - r (1 + 2 d_Q1)/4 (290 nm at the defaults) the logarithm in the
  geometry function changes sign, the loop gain turns active, and a passive
  absorbing sample can sit exactly on a pole (C63).
* `reject_negative_eps_imag=True` can lose a lossless sample however many Taylor
  terms are used: with a complex g-factor (the default is complex) the truncated
  series moves the solution slightly off the real axis, for infinitely many
  `n_tayl` to the rejected side (C65).
* The far-field transfer matrix has no clip at all: a layer with Im(k) t above 710
  (a thick metal or absorbing layer, or an evanescent momentum) makes
  `refl_coef` and `trans_coef` nan instead of the interface value and 0 (C67,
  C68).

* **Lossless contrast.** In the region of C69 every harmonic is a strictly monotone function of a
  lossless permittivity, whatever n and n_trapz; nothing is claimed above the height where the
  finite-dipole geometry factor changes sign (C45, C63).
* **Reflections that do not settle.** Both closed forms stay finite where the successive reflections
  they sum up diverge (loop gain above 1); nothing warns about it, and there the Taylor functions
  move away from the closed form with every further term (C70).
* **Guide: Fresnel formulas.** `docs/guide/far-field.rst:55-56` has s and p exchanged (and the angle of
  reflection where the angle of refraction is meant); the code is right (C71).
* **Guide: far-field factor.** The printed value 1.173379279716862 is that of c_r = 0.3; with the
  c_r = 0.9 of the text the code's coefficient gives 1.5617 (C71).
* **No Brewster angle in dense environments.** As theta_in counts outside (C22), a sample with
  1/eps_env + 1/eps < 1 has no angle without p reflection at all (C71).
* **nan only at genuine modes.** Within exact arithmetic the division by M00 fails only at modes of the
  stack, which passive stacks lit from outside do not have (C72).
* **Noise floor.** Harmonics that vanish exactly (constant response, sample like its environment) are
  computed as numbers of order u times the response; ratios of such signals are noise (C73, C74).
* **Weak contrast.** `Sample.refl_coef_qs` forms (1 - e0/e1)/2 and loses the relative accuracy of a small
  reflection coefficient, which `refl_coef_qs_single` keeps; on some machines of relative error u a
  sample with e1 = (1 + u) e0 reflects exactly nothing (C76).
* **Light lines.**  Where a layer has zero normal wavenumber (grazing
  incidence, critical angle) the far-field coefficients lose half of the digits:
  an error u in the squared wavenumber is an error sqrt(u) in the wavenumber
  (C77).  Everywhere else the error is of order u.
* **Range of the default Taylor series.**  With the default tip, 16 terms are good to 10^-4 for all
  samples up to |beta| = 1.01 as long as the tip stays below 280 nm; at 2 um the same call is off by more than 10
  (C78).
* **Range of the default sampling.**  With the default tips, 32 samples give harmonics up to the fourth to
  10^-7 alpha_tip (point dipole) and 2 10^-5 (finite dipole) for amplitudes up to 1.5 tip radii (C79, C80); the
  error grows with the amplitude, as the ratio |w| of the geometric series tends to 1.
* **`nu_vac` is copied by the constructor but shared by assignment.**  `t_stack`, `eps_stack` and `beta_stack` are
  copied by constructor and setters; after `s.nu_vac = a` a later write to `a` changes the sample (C81).
* **A lossless metal given by beta is on the wrong side of the branch cut.**  `permitivitty(b)` for real b > 1 is a
  negative permittivity with imaginary part -0, so `bulk_sample(beta=b).refl_coef(...)` uses the growing wave:
  conjugate of the right coefficient for propagating waves, reciprocal for evanescent ones, and 1/b instead of b at
  wavenumber 0; the same permittivity through `eps` is right, and so is any beta with loss (C82).  By the same rules
  `Sample(beta_stack=s.beta_stack, ...)` may reflect differently from `s`.
* **The first row is the lossless solution, and it is too large** (C84): the inverses sort by magnitude, and for a lossless sample with b >= 0 (real g) the solution of smallest magnitude is the physical one; with a truncated series it always overestimates b, less with every further term.  With the default complex g there is no such guarantee (C65).
* **A layered lossless sample inverts to something in between** (C85): the apparent permittivity found by the root-finding inverse from a Q_ave Taylor signal always lies between the extreme permittivities of the stack; a value outside cannot come from lossless layers.
* **Lists instead of arrays** (C87): most demodulated calls accept a list of harmonics, but `fdm.eff_pol_n_taylor` with `n=[0, 1, 2]` silently returns a value one too small at harmonic 0, because `n == 0` is False for a list (fdm.py:532); `fdm.refl_coef_qs_from_eff_pol_n` then inverts the signal plus one there.  `sample.refl_coef_qs_above_surf([z1, z2])` for bulk samples returns four values, for the heights z1/2, z2/2, z1/2, z2/2 (`np.asanyarray(2 * z_Q)` repeats the list, sample.py:583).  `eff_pol_n` with `z_tip` and `A_tip` both lists concatenates them.
* **Integers wrap** (C88): `transfer_matrix` squares `nu_vac` and `q` as they are.  Where NumPy's default integer has 32 bits (Windows before NumPy 2), `Sample(..., nu_vac=50000)` or `nu_vac=np.arange(...)` in inverse metres overflows silently from 464 cm^-1 on: lossless films then show no interference (a quarter-wave film of permittivity 4 reflects less than 1/3 instead of 3/5), and `nu_vac=65536` gives nan.  The same holds for `lorentz_perm` with integer arrays.  With 64 bits the limit is 3.04e9 per metre.  Unsigned wavenumbers make `drude_perm` return a dielectric at any size, and `refl_coef_qs_single` of unsigned 8-bit permittivities 3 and 1 is 63.5.
* **Inverting metals is ill-conditioned** (C89): the relative error of the permittivity is 2 |b'-b| / |(1+b)(1-b')|, unbounded as b tends to 1 (metals) or -1, while the error of b itself is bounded by 2 |1 - f_1 b|^2/|f_0| times that of the signal.  The uniqueness margin of the root-finding inverses is a hypothesis on tip, amplitude and threshold, shown to hold only for the point-dipole mean signal.
* **Lossless samples can make the response infinite** (C90): a default `pdm` tip in contact divides by zero at permittivity -5/3, any height at -e0 (1+f)/(1-f); the harmonics fail for as many permittivities as there are sampled heights.  The complex default `g_factor` of `fdm` excludes this for all passive samples.
* **Deep substrates vanish from the sum** (C91). The documented average of a thick film approaches the film's own coefficient like (z/t)², but the sum with n_lag nodes approaches it like exp(−t/(n_lag·z)), because no node lies below 1/n_lag. Beyond t/z ≈ n_lag·ln(t/z) the code's substrate contribution is a vanishing fraction of the documented one (`C91_subsurface_lost` for t/z = 40000 and every n_lag ≤ 1000). The absolute error there is small (below 1e-9), so the finding matters for subsurface contrast only.
* **A float as the Laguerre order works only after a NumPy integer** (C92). `n_lag=4.0` raises TypeError in a fresh session, also after `n_lag=4` was used, but is accepted from the moment `n_lag=np.int64(4)` has been used anywhere in the process, because the cache then finds the stored rule before NumPy sees the float (`C92_history_matters_refuted`, `C92_float_after_numpy`). Integer orders are never affected (`C92_integer_orders`).
* **Changing two defaults is not atomic** (C93). A call that runs in another thread can combine the old value of one attribute with the new value of another and return a number that belongs to no state of the defaults (`C93_torn_update_refuted`); the 'multi' method even reads `n_lag` twice in one call, so changing that single attribute can give a result of neither order (`C93_n_lag_torn_refuted`). Calls with explicit arguments are immune (`C93_explicit_arguments`).
* A fine lossless superlattice is seen by the quasistatic code as one isotropic film of the geometric-mean permittivity `sqrt(<eps>/<1/eps>)`, *stretched* by `sqrt(<eps><1/eps>)`; replacing it by a film of the mean permittivity gives a wrong limit (C94).
* **Phase of corrected spectra** (C95, `C95_phase_is_absorption_refuted`): the documented
  far-field correction gives lossless films a phase, although their near-field signal is
  real; with c_r = 0.3 the correction can shift phases by up to 4 arcsin 0.3, about 70 degrees
  (this is a bound; it is not claimed to be attained).
* Superlattices with metallic or absorbing layers (C96): the quasistatic code converges to
  a uniaxial film that may be hyperbolic.  Layers of 4 and -1, neither of which absorbs,
  reflect with coefficients near 3, or without bound where the film has a mode; the
  bound `|beta| <= 1` of lossless dielectrics does not carry over.
* **C97 (phase of absorbing samples).** The positive phase that users read as absorption is guaranteed only below a threshold on |beta| that depends on the harmonic; close to a resonance of the interface (eps near -eps_env) the point dipole model returns the opposite sign for absorbing samples (`C97_pdm_phase_refuted`). No line of the code is at fault; it limits how the output may be interpreted.
* **C98 (size of the errors).** With the default 32 samples the bound on the sampling error exceeds the bound on rounding in double precision by a factor of fifty or more (kappa at most 100); truncating the finite-dipole series at the default 16 terms enlarges the bound by a factor of six. These are upper bounds, not claimed to be attained. The numbers in the defaults (`r_tip`, `L_tip`, `g_factor`, `d_Q1`) are taken as given numbers, and overflow and underflow are excluded by the rounding model (`SpecRound.v`).
* **C99 (units of the wavenumber).** `C99_quarter_wavelength_refuted`: a film one quarter of the vacuum wavelength 1/nu_vac thick with n1^2 = n0 ns is not antireflecting in the code; the film that is has thickness pi/(2 n1 nu_vac), since a layer's phase is n nu t without the factor 2 pi (the same reading of `nu_vac` as in C22).
* **C100 (rejections are not exact).** With `reject_negative_eps_imag` a returned root may belong to a permittivity with a slightly negative imaginary part and with `reject_subvacuum_eps_abs` to one slightly smaller than 1 in modulus: the comparisons are made on the rounded permittivity (bounds 20u|eps| and 22u). The threshold on |beta| is likewise obeyed up to 2u.
* **C101 (lenses).** For a film of permittivity minus that of the environment, at least as thick as the charge is high, `refl_coef_qs_above_surf` returns a finite number although the documented integral diverges; the number is set by `n_lag` (at least n(2n - 1) times the reflection of the sample below) and has no meaning.
* C102: seen through a tip, a phonon stays a single Lorentzian of unchanged damping in the point dipole model; only its centre and strength change with the height, and the area under nu Im alpha_eff is independent of damping and phonon frequency. In the finite dipole model the default complex charge factor also widens the line.
* C103: `np.inf` works as the permittivity of the substrate (it gives exactly the perfect-conductor limit) but as a film permittivity or as `eps_tip` it gives nan; `z_tip=np.inf` works in the point dipole model and is nan in the finite dipole model; `L_tip=np.inf` is nan although the documented expression has the limit g.
* C104: in the point dipole model the width of a phonon line is the damping exactly, at every tip height, so broadening in a measured spectrum cannot come from the tip-sample coupling of this model; the static sum rule ties the area under Im/nu to the difference of two calls, one at nu = 0 and one far above the resonance.
* C105: with the script's parameters a vanishing residual identifies the material as long as its reflection coefficient is small enough, for every harmonic; the script's comment says the imaginary part is constrained to be positive, but 0 is allowed, and a material with gain can only be answered by a passive one. The mask labelled |beta| > 1 is |beta| >= 1, exactly Re eps <= 0, which is not the library's own validity bound beta_threshold = 1.01.
* C106: over lossless samples the harmonics fall strictly with their order, for every n_trapz, up to n_trapz/2; beyond that they rise again (aliases), so a request such as n = 20 with the default n_trapz = 32 returns the strength of harmonic 12 and not a weak signal. In the guide, fdm.rst writes the first image charge as -beta Q_0 and the second with +beta; the code, and the equation for Q_1 in the same guide, use +beta for both.

## Appendix: what `Print Assumptions` lists for each theorem

Generated by `tools/gen_assumptions.py`.  D = `ClassicalDedekindReals.sig_forall_dec`,
N = `ClassicalDedekindReals.sig_not_dec`,
F = `FunctionalExtensionality.functional_extensionality_dep`, C = `Classical_Prop.classic`.

* **CDFN** (332): `C03_momentum_ignored`, `C03_truncated_stack`, `C06_rebuilt`, `C07_refl_coef_qs_is_parratt`, `C09_pdm_ignores_inner_layers`, `C09_zero_momentum_sees_only_ends`, `C100_fdm_inverse`, `C100_pdm_inverse`, `C100_rejections`, `C100_round_trip`, `C101_complementary`, `C101_invisible_to_the_tip`, `C101_lens_amplifies`, `C101_perfect_lens`, `C101_resolution`, `C101_thick_lens`, `C102_fdm`, `C102_near_field_area`, `C102_pdm`, `C102_reflection`, `C102_sum_rule`, `C103_buried_conductor_refuted`, `C103_buried_limit`, `C103_conducting_tip`, `C103_fdm_nan_refuted`, `C103_infinite_thickness`, `C103_long_tip`, `C103_metal_sample`, `C103_pdm_any_height`, `C103_perfect_conductor`, `C104_static`, `C104_width`, `C105_objective`, `C105_passive`, `C105_residual`, `C105_script`, `C105_weak`, `C106_absorbing`, `C106_alias`, `C106_fdm_order`, `C106_fdm_taylor`, `C106_pdm_order`, `C106_pdm_taylor`, `C106_script`, `C106_weak`, `C106_weak_default`, `C106_weak_pdm`, `C10_split_layer_invisible`, `C10_zero_thickness_layer_invisible`, `C12_bulk_refl_independent_of_q`, `C12_bulk_trans_is_one_plus_refl`, `C13_limit_is_top_interface`, `C13_top_interface_dominates`, `C14_average_absorbs`, `C14_lossy_substrate_absorbs`, `C14_passive_stack`, `C15_conj_averages`, `C15_conj_fdm_eff_pol`, `C15_conj_pdm_eff_pol`, `C15_conj_refl_trans_qs`, `C15_lossless_is_real`, `C16_det_transfer_matrix_qs`, `C16_reciprocity_qs`, `C17_units_averages`, `C17_units_refl_trans_qs`, `C21_quasistatic_is_zero_wavenumber`, `C22_half_wave_film_not_invisible`, `C23_bulk_averages_exact`, `C24_average_in_convex_hull`, `C24_average_is_scaled_field`, `C25_methods_agree`, `C25_methods_agree_demodulated`, `C26_eff_pol_after_inverse`, `C26_injective`, `C26_inverse_after_eff_pol`, `C27_eff_pol_after_inverse`, `C27_inverse_after_eff_pol`, `C28_converges`, `C28_error_bound`, `C28_exact_remainder`, `C28_order_one_ignores_sample`, `C28_order_zero`, `C29_converges_to_normalised`, `C29_exact_remainder`, `C29_taylor_of_eff_pol_n_refuted`, `C30_fdm_sound`, `C30_pdm_sound`, `C31_fdm_complete`, `C31_fdm_recovers`, `C31_pdm_recovers`, `C31_solution_lost_refuted`, `C32_fdm_layout`, `C33_default_method`, `C33_eff_pol_raises`, `C33_taylor_dispatch`, `C34_fdm`, `C34_pdm`, `C34_sample_averages`, `C35_both_raise`, `C35_conductor_limit`, `C35_material`, `C40_converges_to_fourier_integral`, `C41_ends_are_reached`, `C41_fdm_tapping_range`, `C41_no_tapping`, `C41_pdm_tapping_range`, `C42_fdm_units`, `C42_pdm_units`, `C43_multi_method_refuted`, `C43_no_harmonics`, `C43_no_sample`, `C44_decays_to_bare_tip`, `C44_monotonic`, `C45_far_limit_is_half`, `C45_geometry_grows`, `C45_geometry_zero`, `C46_absorbing_bulk`, `C47_integrals_broadcast`, `C47_qs_broadcast`, `C48_fdm_eff_pol_broadcast`, `C48_fdm_eff_pol_n_broadcast`, `C48_fdm_rejected`, `C48_fdm_taylor_broadcast`, `C48_inverse_broadcast`, `C48_pdm_broadcast`, `C48_pdm_rejected`, `C50_bulk_agrees`, `C50_multilayer_series_refuted`, `C51_coefficient`, `C52_graded_film_safe`, `C52_safe_region`, `C52_thick_film_nan_refuted`, `C52_thick_film_reflects_nothing_refuted`, `C52_thick_stack_nan`, `C53_one_node_spoils_average`, `C54_maxwell`, `C55_electrostatic`, `C56_energy_balance`, `C56_reflects_at_most_everything`, `C57_evanescent_absorption`, `C58_documented_rule_exact`, `C59_average_converges`, `C59_image_converges`, `C59_lossy_substrate_converges`, `C59_surf_pot_and_field_converges`, `C60_harmonics_converge`, `C60_multi_converges`, `C60_q_ave_converges`, `C60_taylor_converges`, `C61_image_charge`, `C61_not_at_surface_refuted`, `C61_one_sign`, `C62_graded_average`, `C62_graded_stack`, `C62_high_charge`, `C63_far_resonance_refuted`, `C63_fdm_absorbs`, `C63_pdm_absorbs`, `C63_pdm_passive_stack`, `C64_fdm_bulk`, `C64_pdm`, `C64_pdm_first_harmonic`, `C65_fdm_consistent`, `C65_lossless_lost_refuted`, `C65_near_solution`, `C65_pdm_consistent`, `C65_permittivity`, `C66_fdm_round_trip`, `C66_pdm_round_trip`, `C67_opaque_layer_hides`, `C68_opaque_layer_nan_refuted`, `C68_safe_region`, `C69_fdm_approach`, `C69_fdm_contrast`, `C69_fdm_permittivity`, `C69_pdm_approach`, `C69_pdm_contrast`, `C69_pdm_permittivity`, `C69_unique_permittivity`, `C70_fdm_lengths`, `C70_fdm_rounds`, `C70_fdm_self_consistent`, `C70_fdm_taylor_rounds`, `C70_pdm_rounds`, `C70_pdm_self_consistent`, `C70_pdm_taylor_rounds`, `C72_evanescent_finite`, `C72_poles_are_modes`, `C72_propagating_finite`, `C72_qs_poles_are_modes`, `C73_constant_noise_refuted`, `C73_demod_error`, `C73_exact_arithmetic`, `C73_noise_floor`, `C74_contrast`, `C74_digits`, `C74_fdm_eff_pol`, `C74_fdm_eff_pol_n`, `C74_fdm_taylor`, `C74_pdm_eff_pol`, `C74_pdm_eff_pol_n`, `C74_pdm_taylor`, `C74_relative_error_refuted`, `C75_above_surf`, `C75_drude`, `C75_fdm_round_trip`, `C75_image_depth_and_charge`, `C75_lorentz`, `C75_pdm_round_trip`, `C75_refl_coef_qs`, `C75_surf_pot_and_field`, `C75_trans_coef_qs`, `C76_bulk`, `C76_bulk_relative_refuted`, `C76_single`, `C76_single_vs_transfer`, `C77_half_digits`, `C77_light_line_refuted`, `C77_refl_coef`, `C77_trans_coef`, `C78_fdm_default`, `C78_fdm_inverse`, `C78_high_tip_refuted`, `C78_pdm_default`, `C78_pdm_inverse`, `C79_best_polynomial`, `C79_pdm_closed_form`, `C79_pdm_default`, `C79_pdm_error`, `C79_pdm_fourier`, `C79_poles_exist`, `C80_fdm_default`, `C80_fdm_error`, `C83_fdm_defaults`, `C83_fdm_units`, `C84_fdm_first`, `C84_fdm_overestimates`, `C84_fdm_stable`, `C84_pdm_first`, `C84_pdm_overestimates`, `C84_pdm_stable`, `C85_apparent`, `C85_average`, `C85_between`, `C85_order`, `C85_signal_order`, `C85_strict`, `C85_thickness`, `C86_reciprocal`, `C86_reciprocal_image`, `C87_centre_concatenated`, `C87_centre_rejected`, `C87_converted`, `C87_heights_doubled`, `C87_inverse_harmonics`, `C87_list_harmonics_refuted`, `C87_potential_rejected`, `C87_taylor_harmonics`, `C88_near_field_in_range`, `C88_point_dipole_in_range`, `C88_point_dipole_lost`, `C89_bounded_relative_error_refuted`, `C89_fdm_sensitivity`, `C89_fdm_taylor_stable`, `C89_fdm_taylor_unique`, `C89_mean_signal`, `C89_pdm_taylor_unique`, `C90_always_finite_refuted`, `C90_fdm_pole`, `C90_pdm_approach`, `C90_pdm_harmonics`, `C90_pdm_lorentzian`, `C90_pdm_one_resonance`, `C90_pdm_phonon`, `C90_pdm_plasmon`, `C90_pdm_pole`, `C90_pdm_sign`, `C90_red_shift`, `C91_fdm_thin_film`, `C91_image_series`, `C91_subsurface_lost`, `C91_thick_film`, `C91_thin_film`, `C92_computed_once`, `C92_float_after_numpy`, `C92_history_matters_refuted`, `C92_integer_orders`, `C92_other_orders`, `C92_rejected_orders`, `C93_assembled`, `C93_explicit_arguments`, `C93_n_lag_torn_refuted`, `C93_one_assignment`, `C93_roots_assembled`, `C93_roots_explicit`, `C93_roots_one_assignment`, `C93_torn_update_refuted`, `C93_undisturbed`, `C94_average`, `C94_effective_film`, `C94_fdm`, `C94_mean_permittivity_refuted`, `C95_bounded_correction`, `C95_fdm_lossless`, `C95_pdm_lossless`, `C95_self_reference`, `C95_units`, `C96_every_film`, `C96_limit`, `C96_mode`, `C96_response`, `C97_fdm_bound`, `C97_fdm_contrast`, `C97_fdm_phase`, `C97_fdm_weak`, `C97_pdm_bound`, `C97_pdm_contrast`, `C97_pdm_first_harmonic`, `C97_pdm_phase`, `C97_pdm_phase_refuted`, `C97_pdm_unique`, `C98_fdm_bulk`, `C98_fdm_double`, `C98_fdm_taylor`, `C98_fdm_total`, `C98_pdm_bulk`, `C98_pdm_double`, `C98_pdm_taylor`, `C98_pdm_total`, `C98_taylor_bulk`, `C99_pass_band`, `C99_quarter_wavelength_refuted`
* **DF** (42): `C01_accepted_calls`, `C01_constructed`, `C01_rejected_calls`, `C02_history_consistent`, `C02_normal_return_consistent`, `C03_failed_assignment`, `C03_restored`, `C04_permitivitty_inverts_refl`, `C04_refl_antisymmetric`, `C04_refl_inverts_permitivitty`, `C04_refl_scale_invariant`, `C05_assignment_round_trip`, `C05_round_trip`, `C46_drude_static`, `C46_drude_value`, `C46_lorentz_raises`, `C46_lorentz_value`, `C46_passive`, `C46_passive_drude`, `C46_reality`, `C49_aligned`, `C49_environment_axis`, `C49_two_environments_refuted`, `C51_permittivity`, `C51_rejected`, `C58_documented_rule_unique`, `C81_arguments_kept`, `C81_beta_written`, `C81_consistent`, `C81_constructed`, `C81_results`, `C81_separate`, `C81_value_semantics`, `C81_written_through`, `C82_from_reflection_coefficients`, `C82_round_trip`, `C82_values`, `C88_permittivity_in_range`, `C88_unsigned_drude`, `C88_unsigned_interface`, `C88_unsigned_lorentz`, `C89_permittivity_sensitivity`
* **DFN** (76): `C08_refl_coef_is_fresnel_parratt`, `C102_peak`, `C105_mask`, `C11_refl_coef_branch_independent`, `C11_split_layer_invisible`, `C11_zero_thickness_layer_invisible`, `C16_det_transfer_matrix`, `C16_reciprocity`, `C17_units_far_field`, `C18_call_nu_overrides`, `C18_far_field_errors`, `C19_missing_wavenumber_is_one`, `C19_wavenumber_irrelevant`, `C19_wavenumber_matters_for_explicit_q`, `C20_angle_sign_irrelevant`, `C20_energy_conservation`, `C20_normal_incidence`, `C20_total_reflection`, `C20_trans_is_one_plus_refl`, `C22_angle_to_momentum`, `C22_grazing_incidence_not_total`, `C22_pi_phase_layer_invisible`, `C31_pdm_complete`, `C32_pdm_layout`, `C34_demod`, `C36_constants`, `C36_linear`, `C36_zero_amplitude`, `C37_high_harmonics_vanish`, `C37_polynomials_exact`, `C38_aliasing`, `C38_default_aliases_mean`, `C39_amplitude_sign`, `C39_conjugation`, `C39_negative_harmonic`, `C39_real`, `C46_high_frequency`, `C47_far_broadcast`, `C47_far_rejected`, `C48_demod_broadcast`, `C58_documented_rule_exists`, `C64_expansion_unique`, `C64_small_amplitude`, `C67_transparent_layer_periodic`, `C71_brewster`, `C71_brewster_angle`, `C71_dense_environment_no_brewster`, `C71_fresnel_angles`, `C71_guide_formulas_swapped_refuted`, `C71_guide_number_refuted`, `C71_surface_polariton`, `C81_nu_vac_shared_refuted`, `C82_far_field`, `C82_lossless_metal`, `C82_recursion`, `C82_same_permittivities_refuted`, `C82_zero_wavenumber`, `C83_pdm_defaults`, `C83_pdm_material`, `C83_pdm_units`, `C88_far_field_in_range`, `C88_integers_are_floats_refuted`, `C88_no_interference`, `C88_normal_incidence`, `C88_only_low_bits`, `C88_wavenumber_lost`, `C89_pdm_sensitivity`, `C89_pdm_taylor_stable`, `C95_phase_is_absorption_refuted`, `C99_admittance`, `C99_antireflection`, `C99_band_gap`, `C99_bragg_mirror`, `C99_fabry_perot`, `C99_lossless_coating`, `C99_quarter_wave`
* **none** (1): `C88_low_bits`
