# Formal model of sklykov/zernpy in Rocq (Coq 8.16.1)

Source modelled: `/repo/src/zernpy` at the pinned commit. Line references in the Coq comments are to
files under that directory. This file is generated by `tools/design.py` from `tools/design_head.md`,
`tools/design_tail.md`, `properties.jsonl` and `MANIFEST.json`.

## Layout of `rocq/theories`

| files | content |
|---|---|
| `Py.v` | exceptions as results (`Ok`/`Raise`), Python ranges, dictionaries |
| `Spec*.v` | the specification: what the English property means. No formulas copied from the code. `SpecIndex` valid orders and the three index conventions as orders; `SpecRadial` the factorial sum; `SpecSum`, `SpecGeo`, `SpecPhases`, `SpecCrop`, `SpecFit` (least squares), `SpecPsf` (the quadrature sum), `SpecDiff` (the diffraction integral, Bessel's integral), `SpecImg`, `SpecDisp` and `SpecThreads` (schedules, fairness), `SpecPsfClass` and `SpecCoeffs` (objects / cache states that some history of calls reaches), `SpecJson`, ... |
| `M_*.v` | the model: one Gallina definition per Python function, citing file and lines |
| `RadialMath.v`, `L_*.v` | lemmas and proofs |
| `P_*.v` | the property theorems, each followed by `Print Assumptions`, and `Example`s that meet the hypotheses of each theorem with concrete data |

| Python file | model |
|---|---|
| `zernikepol.py` (ZernPol, generate_polynomials, generate_phases_image, generate_random_phases, fit_polynomials*) | `M_Index`, `M_Init`, `M_Coeffs` (evaluation), `M_Sum`, `M_Polar`, `M_Phases`, `M_Fit` |
| `calculations/calc_zernike_pol.py` | `M_Radial`, `M_Coeffs` |
| `calculations/find_pols_coeffs.py` | `M_Coeffs` (sequential, caches as state), `M_Threads` (atomic actions) |
| `calculations/fit_zernike_pols.py` | `M_Crop`, `M_Fit` |
| `calculations/calc_psfs.py` | `M_Psf`, `M_Img`, `M_PsfClass` (save/read), `M_Json` (text of the files) |
| `calculations/calc_psfs_numba.py` | `M_Numba` |
| `zernpsf.py` (ZernPSF) | `M_PsfClass`, `M_Img` |
| `utils/intmproc.py` | `M_Disp` |
| `props/properties.py` | `M_Init` (names), `M_Geo` |

## Modelling conventions

* Python `int` -> `Z` (unbounded), `//` and `%` by a positive divisor -> `Z.div`, `Z.modulo` (both floor).
* Python `float`/numpy float64 -> Coq `R` (exact arithmetic) unless a file says otherwise. Where rounding
  decides the property (end point of `arange`, node placement, radii of cropped images, casts of convolved
  images, decimal text of floats) the operation carries an explicit rounding function, instantiated with the
  identity and with Flocq's `round radix2 (FLT_exp -1074 53) ZnearestE` (no overflow: values stay small).
  NaN, infinities and non-finite inputs are constructors of `M_Sum.fl` where a property is about them.
* Exceptions are values `Raise e`; warnings and prints are not modelled.
* numpy vectors -> lists, 2-D arrays -> lists of rows.
* Python's recursion limit is the argument `fuel`; theorems hold for every value of it.
* External routines (`numpy.linalg.lstsq`, `scipy.ndimage.convolve`, `scipy.special.jv`, `numpy.round`, the
  decimal printing of floats, `random`) are universally quantified functions with their documented contract as
  a visible hypothesis of the theorem; where it is not obvious that the contract can be met, a theorem exhibits
  a function that meets it (`C28_contract_satisfiable`, `SpecJson`).
* A property that the code violates has status `partial`: the strongest true statement is proved
  (`..._partial` or an exact characterisation) and the violation is a theorem `..._refuted` about the same model.

## Properties: what is modelled, how it is proved, what is left

| id | property | model | proof | status | remark |
|---|---|---|---|---|---|
| C01 | OSA/ANSI index is a bijection | `M_Index` | bijection and strict monotonicity by `nia` on triangular numbers; no bound on n | proved | bijection onto Z>=0 and order, every n |
| C02 | Noll index is a bijection | `M_Index` | same; the four parity branches of the code against a declarative order | proved | bijection, order, even index <-> cosine, every n |
| C03 | Fringe index is a bijection | `M_Index` | same, with the integer square root for surjectivity | proved | bijection, order, every n |
| C04 | index2orders inverts the index functions | `M_Index (search loops)` | loop invariants: a match is returned iff it exists below the loop limit; uniqueness from C01-C03 | proved | every index in the code's search range (osa<=1595, noll<=1596, fringe range characterised) |
| C05 | index2orders never invents orders | `M_Index` | false of the code: witness, and the exact value returned past the end of the loops | partial | the claim is false of the code; the refutation and the exact out-of-range behaviour are proved |
| C06 | OSA<->Noll conversions are mutually inverse | `M_Index` | from C01, C02, C04 | partial | round trip proved in the search range; refuted beyond it |
| C07 | OSA<->Fringe conversions are mutually inverse | `M_Index` | from C01, C03, C04; the literal composition fails on the type of the result (numpy integer) | partial | round trip proved when the numpy integer is converted with int(); the literal composition is refuted |
| C08 | Constructor accepts exactly the valid polynomials | `M_Init` | exact acceptance set by case analysis over arbitrary keyword lists; refutation (abs m > n) | partial | refuted (abs m > n accepted for n > 0); the exact acceptance set is proved |
| C09 | All constructor spellings agree | `M_Init` | permutations of keywords, aliases; SpecInit says what a keyword set denotes | proved | all keyword spellings |
| C10 | Comparison operators form a total order compatible with equality | `M_Init` | order laws; refutation of trichotomy for the accepted abs m > n objects | partial | equality and transitivity proved; trichotomy only for valid orders, refuted for the accepted abs m > n objects |
| C11 | Radial value equals the factorial definition | `M_Radial, M_Coeffs` | strong induction on n, RadialMath: three-term recurrence of the factorial sum; tables by `ring` | proved | exact arithmetic |
| C12 | All evaluation routes agree | `M_Radial, M_Coeffs` | each route equals the factorial sum | proved | exact arithmetic |
| C13 | radial_dr is the derivative of radial | `M_Radial, M_Coeffs` | Coquelicot `is_derive`; exact error of the wrong route from R'(1) <> 1 | partial | proved for n-\|m\|<=38; refuted for every polynomial with n-\|m\|>=40 (calc_zernike_pol.py 550-551) |
| C14 | Radial boundary value, parity and bound | `M_Radial` | bound by rotation invariance of the Bombieri norm (L_Bound) | proved | exact arithmetic |
| C15 | Normalisation makes the polynomials orthonormal | `M_Radial` | Riemann integrals (Coquelicot), iterated integration by parts | proved | Coquelicot Riemann integrals |
| C16 | Angular part and its derivative | `M_Radial` | trigonometry, `is_derive` | proved |  |
| C17 | Polynomial value is bounded by its normalisation factor | `M_Coeffs` | from C14, C16 | proved |  |
| C18 | Coefficient caches are transparent | `M_Coeffs` | invariant of the module-level tables over every history of calls, aborted ones included | proved | all histories of calls, including calls aborted by RecursionError; mutation of a returned dict by the caller is not modelled here |
| C19 | Coefficient tables have the right support | `M_Coeffs` | support and values of the dictionaries, induction on n | proved | every valid (m,n), any history |
| C20 | sum_zernikes_series computes the weighted sum | `M_Sum` | list induction; SpecSum is a plain sum | proved | number/number, vector/number, number/vector, vector/vector and surface requests; exact arithmetic on finite values |
| C21 | sum_zernikes is linear and order independent | `M_Sum` | Permutation, linearity | proved | for calls at one point; vectors and surfaces follow pointwise from C20; dropping zero coefficients needs at least one non-zero one (an empty list is rejected) |
| C22 | gen_polar_coordinates validates its steps | `M_Polar` | false of the code; each branch of the step checks characterised | partial | the claim is false of the code: no step is ever rejected with ValueError; the actual behaviour of each kind of bad step is proved |
| C23 | gen_polar_coordinates covers the unit disk | `M_Polar` | exact and Flocq binary64 `arange`; `interval`-free error analysis; refuting steps by computation | partial | proved in exact arithmetic; in binary64 start, order, range and density (every radius and angle within the step of a generated one) are proved, strict increase and the end point 1.0 are refuted for gen_polar_coordinates; gen_equal_polar_mesh is proved in binary64 as well |
| C24 | Radii outside [0,1] are rejected before evaluation | `M_Sum` | induction over the container; NaN as a value of the float type | partial | proved for arrays, lists, tuples and numbers without NaN (radial_dr acceptance for n-\|m\|<=38); refuted with NaN, for sets and for all-zero surfaces |
| C25 | generate_polynomials enumerates all polynomials | `M_Init` | loop invariant | proved |  |
| C26 | generate_phases_image draws the phase on the inscribed disk | `M_Phases` | pixel geometry over R; SpecPhases is independent of the loops | proved | exact arithmetic; every image size, any history |
| C27 | crop_phases_img returns aligned vectors in the unit disk | `M_Crop` | for every monotone faithful rounding; instantiated with exact and binary64 arithmetic | proved | every image size >= 3, every sane rounding (exact arithmetic and binary64); angles in exact arithmetic |
| C28 | Fitting recovers exact phases | `M_Fit` | least squares: uniqueness under independence; independence from orthogonality (L_Indep) | proved | for every solver meeting the lstsq contract (one is constructed), every coefficient vector, every list of distinct polynomials, paired and mesh sampling, and images; independence at the sampled points is a hypothesis, and for every list of distinct valid polynomials sampling points with independence exist (C28_sampling_exists). Exact arithmetic; the returned values are rounded to the requested digits |
| C29 | Fitting is well defined and equivariant | `M_Fit` | normal equations (L_LinAlg) | proved | uniqueness, permutation, linearity (before the final rounding), rejection of empty/repeated/foreign polynomials and of N-D arrays; exact arithmetic |
| C30 | PSF values are in [0,1] | `M_Psf` | triangle inequality on complex sums; binary64 node placement (L_PsfNodes) | partial | proved (even < 1) in exact arithmetic; with binary64 node placement non-negativity and the bound (1+2/n_r+2^-49)^2 are proved and the bound 1 is refuted (n_r = 24) |
| C31 | PSF quadrature integrates constants exactly | `M_Psf` | false of the code; closed form of the focus value | partial | the claim is false of the code: the exact focus value ((n-2)/n)^2 (even n) or ((n-1)/n)^2 (odd n) is proved, never 1 |
| C32 | Kernel geometry | `M_Psf` | loops of the kernel functions | proved | explicit kernel size >= 3 (single polynomial) or >= 1 (list); normalised maximum is 1 unless every value is 0 (then 0/0) |
| C33 | Single polynomial and list interfaces agree | `M_Psf` | list of one = single | proved | amplitude of the list is the amplitude divided by the wavelength, as the class passes it; exact and binary64 node placement |
| C34 | Piston does not change the PSF | `M_Psf` | common phase factor has modulus one | proved | exact and binary64 node placement |
| C35 | Sign of aberration rotates the kernel | `M_Psf` | reindexing the angle sum by pi | proved | every polynomial and every list, exact and binary64 node placement |
| C36 | Accelerated PSF equals the normal PSF | `M_Numba` | table comparison; refutation for abs m = n in 8..10 | partial | Equality of the accelerated and the normal kernel proved for single polynomials and lists of every accepted order (n <= 10) except \|m\| = n with n = 8, 9, 10; for these it is false in the code (calc_psfs_numba.py 153-154 returns r^n without normalisation and angular part): refuted at the level of values and with a concrete kernel. Documented acceptance of n > 10 with \|m\| = n or n-2 is refuted (the condition in 337/345 is always true), and so is an integer amplitude. |
| C37 | Parallel PSF equals the sequential PSF | `M_Psf, M_PsfClass` | the three evaluation strategies; class level refutations | partial | loop, vectorised and joblib evaluation agree, and get_kernel_parallel (with workers) performs the same steps as calculate_psf_kernel when its wavenumber is that of the stored wavelength; refuted for a paralleljobs object that is not a joblib Parallel, for get_kernel_parallel after a change of the wavelength (kernel of another pixel size), with kernel_size < 3 (TypeError) and with several polynomials (0/0) |
| C38 | ZernPSF constructor validates its argument | `M_PsfClass` | case analysis on the argument | partial | sequences of length other than 1 and single ZernPols as documented; refuted: a non-sequence that is not a ZernPol is silently accepted, [x] with x not a ZernPol raises AttributeError |
| C39 | Physical properties stay consistent | `M_PsfClass` | invariant over all histories (SpecPsfClass.reachable) | partial | which calls are accepted, what they store, and the ranges after every history (accepted and rejected calls of all methods) are proved; refuted: the wavenumber is that of the previous wavelength (C39_wavenumber_lags says exactly when it is right), NA = 0 passes the check and is stored, rejected calls change attributes (C41) |
| C40 | Kernel size is always odd and positive | `M_PsfClass` | same | partial | kernel_size is odd and positive after every history, the calculated kernel is square of odd size with values >= 0 and has size kernel_size if that is >= 3; refuted: size 1 after an accepted call, kernel_size 1 with a larger kernel, several polynomials without properties |
| C41 | Rejected setter calls leave the object unchanged | `M_PsfClass` | state before and after every rejected call | partial | calls rejected for NA, wavelength, kernel size change nothing, and which attributes every rejected call keeps; refuted for the pixel size and the number of points |
| C42 | crop_kernel keeps the centre and only removes dark borders | `M_PsfClass` | loop of crop_kernel | proved | every reachable object, kernels of numbers and with NaN; moreover cropping keeps the maximum and is idempotent |
| C43 | JSON save/read round-trip | `M_PsfClass` | file as a dictionary; writer and reader arbitrary | partial | kernel, physical properties, integration points, polynomial(s) and coefficient(s) are restored for every configured writer and every reader; refuted for kernel_size (re-estimated), the Airy flag, and files kept by overwrite=False. C43_names, C43_other_file: different polynomials or one polynomial with another coefficient are different files (several polynomials that differ in the coefficients only may share one: the printed array has 8 digits) |
| C44 | Convolution keeps image geometry | `M_Img` | SpecImg: mirrored extension and convolution sum; scipy as a contract; one binary64 refutation | partial | Exact arithmetic: shape, convolution formula, linearity, identity kernel, bounds, unsigned images, scaling proved for every image and kernel (scipy's convolve is a contract: reflect mode, weights up to DBL_EPSILON dropped). Refuted: black image with scale2original gives NaN; a kernel of weights up to DBL_EPSILON turns the image black; in binary64 the one-pixel kernel [[0.1]] turns the uint8 pixel 43 into 42. Rounding of general convolutions is not bounded. |
| C45 | Dispenser returns results in order under every schedule | `M_Disp` | interleaving semantics, inductive invariant for safety, ranking for fair termination | proved | interleaving model of manager, workers, queues with feeder threads and events; safety for every schedule, termination for every fair schedule; hang when f raises or os.cpu_count() = 1 proved |
| C46 | A second DispenserManager works after closing the first | `M_Disp` | false of the code: what a second manager returns, for every schedule | partial | the claim is false of the code: the exact wrong behaviour of a second manager (parameters returned as results, IndexError, endless wait, other manager's function) is proved for every history of calls before and every schedule, with concrete runs |
| C47 | Bumped circle image is well formed | `M_Img` | pixel geometry and roundings | proved | Exact arithmetic for exp, sqrt and the powers; roundings to 6 digits and to integers are modelled. max_intensity above 65535 raises OverflowError (C47_overflow; older NumPy wraps around instead). |
| C48 | Human-readable names are injective on orders | `M_Init` | finite table | partial | names distinct and present for n<=7; refuted for str() of higher orders |
| C49 | generate_random_phases returns consistent data | `M_Phases` | random source as an arbitrary oracle | proved | random module and np.round as arbitrary oracles |
| C50 | Evaluation from several threads | `M_Threads` | rely-guarantee over atomic cache operations; refinement to M_Coeffs; fair termination | proved | actions are single dictionary or lru_cache operations (CPython with the interpreter lock); safety for every schedule by rely-guarantee, termination for every fair one; coefficient dictionaries are values because no code in the package mutates one after it is shared |
| C51 | Sensitivity of values to the coordinates | `M_Radial, M_Coeffs` | Bernstein/Markov-type bound R' <= n^2 via the coefficients of the Chebyshev-like expansion, mean value theorem | proved | exact arithmetic |
| C52 | The PSF is the diffraction integral up to an explicit error | `M_Psf` | Riemann-sum error of a Lipschitz integrand in both variables | proved | first-order error bound (the order is sharp, see C31) and limit; rounding of the nodes is modelled, other rounding is not |
| C53 | Without aberration the PSF is the Airy pattern | `M_Psf` | differentiation under the integral sign: (x J1)' = x J0 | proved | the Bessel function is a parameter of the model (scipy.special.jv(1, .)); the theorems assume it returns Bessel's integral, over real numbers. Kernels compared before normalisation. The identity is proved by differentiating under the integral sign: (x J1)' = x J0. |
| C54 | A crash while saving never leaves a file that reads as something else | `M_Json` | character-level printer and parser; prefix-freeness; file as a sequence of writes with a crash after any of them | partial | json.dump and json.load are modelled on characters (Python's number, string, list and dict grammar); the printed form of floats is any decimal text that rounds back to the float (such texts exist for every binary64 number). Proved: round trip through text, every strict prefix is rejected, never other data. Refuted: atomicity (overwriting destroys the old file at the first instant) and repair (a broken file is kept by the default overwrite=False). Strings with escapes are not modelled (none is written). |
| C55 | Kernels calculated by worker processes, under every schedule | `M_PsfPar, M_Disp` | the calls that ZernPSF makes on its manager, run by the dispenser model; invariant for several managers with one function; refinement to M_PsfClass.get_kernel_parallel | partial | Proved for any number of live objects (as long as the number of angles suffices for the common pool of workers), every schedule, with termination under fairness. False of the code, and proved so: workers cannot be started again after deinitialize_workers() (TypeError), another object's workers do not answer correctly after the first object's were closed, too many objects give IndexError (the fifth with 36 angles, the 38th with the default 300), and without initialisation (or for the piston) a wrong kernel is returned without an error. |
| C56 | From the user's calls to the diffraction integral | `M_PsfClass` | composition: state invariant of every history (attributes = last accepted arguments) + C32/C36/C52/C53 for the calculation | partial | Proved for every history without read_json, kernel_size >= 3 (C40: smaller sizes are estimated again), and, if accelerated, the orders that the compiled functions calculate properly (C36). Refuted for objects that read the file of another polynomial: they keep their Airy flag, so that a piston object that reads a tilt returns the Airy pattern whatever the coefficient. Real arithmetic apart from the placement of the integration nodes. |
| C57 | Accuracy of the values in double precision | `M_Float` | standard model of rounding (Flocq FLT) along each route: table, coefficients, recurrences; condition number 4^n of the coefficient form; the refutation runs the rounded program on dyadics in the kernel | proved | Every operation of the value routes is rounded (Flocq, binary64 with gradual underflow, no overflow); power/cos/sin are parameters within one ulp. C57_unrounded ties the rounded programs to the exact ones of C11. C57_bounded_refuted: with a correctly rounded power radial() of (0,40) returns a value above 1.02 and of (0,42) above 1.05, so the source's own stability check (\|R\| <= 1) fails for some radii. |
| C58 | Surfaces and plots show the polynomials | `M_Plot` | composition of C20 and C23; Z depends on (rho cos phi, rho sin phi) only; density of the mesh | partial | Everything proved except two clauses that are false of the code: a surface that does not fit its coordinates clears the figure before the error, and plot_profile of something that is no ZernPol silently draws nothing. Matplotlib is a contract (what it is given, and its check of shapes). Mesh in exact arithmetic and binary64; values and the products r*cos(theta) exact. |
| C59 | The PSF in binary64 | `M_FloatPsf` | rounded copy of M_Psf; forward error analysis: phase (C57 values, rounded sums), field (Lipschitz), np.sum of any bracketing, trapezoid, Simpson, modulus; pixel coordinates by relative errors; combined with C52 | proved | Every arithmetic operation of the point, pixel and normalisation formulas is rounded (binary64 with gradual underflow, no overflow); numpy's functions are parameters within one ulp (C59_functions_exist: correctly rounded ones satisfy this), np.sum any order and bracketing. C59_unrounded ties the rounded programs to M_Psf. The aberration of a single-polynomial kernel has the rounded quotient alpha/wavelength as amplitude. Kernel sizes below 3 (estimated) and the Airy option are C28/C53. |
| C60 | Containers shared with the caller | `M_Alias` | heap of arrays and lists, objects with references; step-indexed simulation with a machine of values (SpecAlias) for careful programs, a weaker simulation that forgets kernels and coefficients for all programs; refuting programs | partial | Heap model: arrays and lists are references, views of cropped kernels included. Proved for every program: no method writes into an existing container; programs that do not write into containers in use see what private copies would give; setters and calculations of objects made from ZernPol instances or tuples are immune to any write (if kernels are not cropped). False of the code, each with a program: the list given to the constructor (emptied: a one-point kernel without an error), the coefficient array (saved file shows coefficients the kernel was not calculated with), the returned kernel, the window kept by crop_kernel and the class-wide default kernel stay shared with the caller. |
| C61 | Accuracy of the derivatives in double precision | `M_FloatDr` | as C57 along each derivative route: table, direct formulas, recurrences (n times the bound of C57 dominates the recurrence), dictionaries and exact equation up to order 38 with computed error constants; triangular_dtheta from the Lipschitz bound | proved | Every operation of the three derivative routes (table and recurrences, exact equation, coefficient dictionaries) is rounded (binary64 with gradual underflow, no overflow); power/cos/sin are parameters within one ulp (correctly rounded ones satisfy this). C61_unrounded ties the rounded programs to the exact ones of C13 and C16. Orders for which the algorithm itself is wrong (C13_radial_dr_refuted) are excluded. |
| C62 | Images with enough pixels determine the coefficients, and noise stays bounded | `M_Crop, M_Fit, M_Sum` | Zernike sums as polynomials in x and y of degree N; the selected pixels contain N+1 points on each of N+1 lines through the centre (integer slopes), a polynomial that vanishes there is zero, and distinct Zernike polynomials are independent; noise: positive lower bound of the quadratic form by induction over the columns, minimality of the solution | proved | Independence is proved at the actual pixels (two-dimensional polynomial argument on lines through the centre with integer slopes), for every image size and list of polynomials; K is the inverse of the smallest singular value times sqrt of the number of pixels (its existence is proved, no number is computed). lstsq is any function with numpy's documented contract, values are exact reals, the crop's arithmetic has any sane rounding. (N+1)(N+3) pixels is sufficient, not necessary. |
| C63 | Round trip from generated phase image to fitted coefficients | `M_Phases, M_Crop, M_Fit` | exact pixel coordinates of both programs for odd sides, Lipschitz constant of the wavefront in the radius, then the noise bound of C62; refutations: normal equation of one polynomial (tilt on small images, piston on even sides, where a diagonal pixel outside the disk is selected) | partial | Proved: odd sides up to 1601 pixels come back within the steepest radial slope times the mismatch of the radii (mean square over the pixels). False of the code: generate_phases_image scales the radius with 1 + min//2 and the fit with (size-1)/2, so that a tilt on 3 to 21 pixels comes back at most 0.92 times as large (C63_tilt_refuted); for even sides of 88 pixels or more the default border takes background zeros into the fit (C63_background_fitted), so that even a constant comes back too small (C63_piston_refuted). |
| C64 | Sums and phase images are accurate in double precision | `M_FloatSum, M_Float` | sum loop: induction on the list with the accumulated error, value errors of C57; aperture: integers up to 2^53 and monotone rounding give exactness; pixel coordinates: Lipschitz constants of the wavefront (C51, C52) | proved | Every operation of the sum loops and of the pixel coordinates is rounded (binary64 with gradual underflow, no overflow); power, cos, sin and arctan2 are parameters within one ulp (correctly rounded ones satisfy this, C59_functions_exist). C64_unrounded_* tie the rounded programs to the exact ones of C20 and C26. Arrays are handled element by element; the radius given by the user must be a float. |
| C65 | Coefficients are root-mean-square wavefront errors, and what they say about the PSF | `M_Sum, M_FloatPsf` | orthonormality of C19 as integrals over the disk (separation of variables), linearity and Cauchy-Schwarz for the mean; |e^{ia}-e^{ib}| <= |a-b|; cos x >= 1-x^2/2; kernels by C59 | proved | Mean over the disk is Coquelicot's Riemann integral in polar coordinates. The bounds are proved for the diffraction integral of C52 and carried over to the binary64 kernels (normalize=False) by C52 and C59. size is the sum of \|c\|N, a bound of the wavefront. |
| C66 | A tilt moves the PSF without changing it | `M_Psf, M_FloatPsf` | the phase at every pupil point is the one of the moved pixel, so every quadrature node contributes the same; binary64 by C59 and the sensitivity of C65 | proved | Exact for the calculated kernels (exact arithmetic, and with binary64 placement of the radial nodes); binary64 up to the stated errors. Positive coefficients of (1,1) move the content of the kernel to smaller column numbers (the x axis of the kernel points to the left, unlike that of generate_phases_image). |
| C67 | Turned and mirrored aberrations give turned and mirrored PSFs | `M_FloatPsf` | substitution phi -> +-phi + a in the integral over a period; parity and periodicity of cos(m phi), sin(m phi); kernels by C59 | proved | Exact for the diffraction integral; for calculated kernels the symmetry cannot be exact because the angular rule leaves out nodes on one side (C31), so the theorems give it up to total_error. Normalised kernels are not covered. |
| C68 | Default (normalised) kernels are accurate, and pixel values change slowly | `M_FloatPsf` | maximum of perturbed values; lower bound of the maximum by the central pixel (C65); tilts as shifts (C66) and the sensitivity of C65 for the slope | proved | Binary64 kernels of get_psf_kernel_zerns; T is any number that bounds total_error on the kernel and is below the Strehl bound (1-s^2/2)^2. Normalised values may be below 0 only by the stated error (numpy's power is only assumed to be within one ulp). |
| C69 | Accelerated PSF kernels in floating-point arithmetic | `M_FloatNumba: zernpol_value with its table of expressions, pol_sums, get_psf_kernel_comp, every operation rounded` | Table of expressions equal to the normal one except np.power(r, 0); congruence of the whole program in the phase (pure in the caches for n <= 12); bounds from C59; agreement through the common exact quadrature sum | proved | Rounded model of the compiled functions; bit-for-bit equality with the rounded model of the normal calculation for any rounding function; error bounds with numba's own functions; pow(x, 0) = 1 is assumed (C standard). np.arange of numba is taken as numpy's. Orders outside the list are refuted in C36. |
| C70 | Convolution of images in binary64 | `convolute_img_psf with every operation rounded and np.sum any bracketing of any permutation` | forward error analysis: additions of binary64 numbers have no underflow error (Flocq), products and quotients do; the accumulating loop is one bracketing; concrete rounding computed with Flocq for the refutation | partial | Proved: the distance from the exact image (C70_value, C70_scaled), the range of integer images, and that a uniform image and the brightest scaled pixel lose at most one. False of the code: with scale2original the largest pixel of an integer image is kept only up to truncation - [[255, 0]] with the kernel [[15, 34, 15]] comes back with the maximum 254 (C70_scaled_maximum_refuted). Overflow is excluded by hypotheses; scipy's convolve is a contract (products accumulated one by one). |
| C71 | Noise in a fitted image is amplified by an explicit factor | `the models of crop_phases_img (M_Crop), fit_zernikes and fit_polynomials (M_Fit)` | a wavefront with coefficient squares 1 reaches 0.99 somewhere in the disk (mean square, C68); it changes by at most 0.49 over w pixels (slopes of the polynomials, Cauchy-Schwarz), so w*w pixels have values of 1/2 or more; this bounds the least-squares matrix from below | proved | Default crop radius and border margin 0.001 only; C62_noise covers the other radii with a factor that is not explicit. Exact arithmetic on values, crop arithmetic with any sane rounding; lstsq is a parameter with its documented contract. |
| C72 | Fitting an image in binary64: error of the coefficients | `M_FloatFit: fcrop, fcolumn, ffit_zernikes, fround, ffit_polynomials (binary64)` | entrywise error of the matrix from C57 and the angle error; Frobenius norms and the lower bound of C71; perturbation of the least-squares solution; numpy.round in binary64 | proved | Default crop radius and border margin 0.001 (as C71). The solver is a parameter with a backward-stability contract; overflow is not modelled. |
| C73 | compare_performances, the half-pyramid figure and check_conformity do what they say for every order range and every earlier computation | `compare_performances, _plot_zernikes_half_pyramid, check_conformity` | induction over the rows; OSA numbering for completeness; the C24 evaluation lemmas and the C58 mesh lemmas for the calls | proved | Real arithmetic for the values. C73_polynomials, C73_result and C73_rejects cover all pairs of integer orders; the off-by-one of the message is part of C73_result. The two timed sums at the end of check_conformity (results dropped) are not modelled. |
| C74 | The normalised kernel of a weak aberration is proper: finite values in [0, 1] with maximum 1 | `get_psf_kernel, get_psf_kernel_zerns, get_psf_kernel_comp (real and binary64 versions)` | at the focus every term of the real part is non-negative and the outermost is positive, as all phases are below a quarter period; in binary64 the value at the focus is at least 3/4 cos^2(size) minus the rounding bound of C59, x/x = 1 and rounding is monotone | proved | Values in real arithmetic, node positions exact or binary64. C32_normalized_range had 'not all values are 0' as hypothesis; here it is proved from the size of the coefficients. The accelerated versions are for the polynomials it calculates correctly (C36). C74_binary64*: the same with every operation rounded to binary64 (numpy's functions within one ulp, np.power(x, 2) never negative), as long as the rounding bound of C59 at the focus is below 3/4 cos^2 of the size; C74_binary64_usual shows this for orders up to 10, amplitude times norm up to 1.5 and up to 1000 x 1000 nodes. C74_object: the same from the calls of the user (exact values), C74_cropped: after crop_kernel. |
| C75 | force_get_psf_compilation returns two usable PSF objects after any history, or None without numba | `force_get_psf_compilation` | physical_ok (C41) for the set-up, C36 for the two kernels, C74 for their values | partial | C75_objects is proved for all histories and versions that pass the check; C75_version states what the check does for all versions of three numbers; the claim about older versions is false: C75_version_refuted, C75_short_version_refuted. Printing, timing and the compilation by numba are not modelled. |
| C76 | The bundled self-checks test what they say and pass for every order range and every earlier computation | `calc_zernike_pol.py 563-777, find_pols_coeffs.py 358-449 (M_Selfcheck.v)` | tested orders enumerated through the OSA index; zero differences from C12/C13, error bounds of C57/C61 for binary64; tables only grow over histories, with the invariant of C18 | proved | The binary64 theorems cover max_order up to 15 (radial) and 12 (derivatives); for the larger ranges only the exact-arithmetic theorems hold, since the proved bound on the rounding errors exceeds the tolerance there. |
| C77 | The figures of a ZernPSF object show its current kernel and the image blurred by it | `plot_kernel, visualize_convolution (M_PlotPsf.v), convolute_img_psf, get_bumped_circle (M_Img.v), kernels of M_PsfClass.v` | figures as a list with one entry per title; every window of n pixels of the mirrored disk contains the middle pixel, so the blurred disk is not black and the scaling is defined; weights up to DBL_EPSILON only drop terms | proved | Exact arithmetic. Titles are given by their parts; colours, layout and colour bars are not modelled. Kernels with NaN are excluded (C74 says when there are none). |
| C78 | Peak-to-valley values of surfaces | `gen_zernikes_surface (M_Plot), np.max and np.min over a matrix, the two loops of define_pv_values.py (M_Pv)` | the mesh is dense in the disk (C58), so by the Lipschitz bounds of the polynomials its extremes are close to those on the disk; exact values from R(1) = 1, R_n^0(0) = (-1)^(n/2) and the extremes of cosine and sine; the lower bound N|c| by contradiction with the orthogonality to the piston; the search by induction over the amplitudes, its success by 35 integer inequalities checked by computation | proved | The values on the surfaces are exact (their rounding error: C57); coordinates, amplitudes and goals exact or binary64. C78_found says of all smaller amplitudes that they had not passed the goal by more than the mesh hides. |
| C79 | From a measured phase image to its PSF | `M_ImgPsf.measured_psf: the two calls one after the other, on the state of the module` | perturbation of the coefficients (C72) and rounding to decimals, sensitivity of the diffraction integral (C65), accuracy of the kernel (C59), monotonicity of its error bound in the coefficients | proved | binary64 throughout: C79_measured_psf gives a bound computable from the fitted coefficients and one computable from the true ones before the measurement (C79 composes C72, C65 and C59 through the state left by the fit); C79_strehl does the same for the central pixel (Strehl ratio) in terms of the true coefficients. Preconditions on the image as in C71/C72 (default crop radius, resolved polynomials). |
| C80 | Estimated kernel size | `M_Psf.get_kernel_size, M_PsfClass.estimate_size (written for C39/C40)` | case analysis of the code against the specification, uniqueness of rounding, invariant of reachable objects | proved | C80_single/C80_several: the stored size against an independent specification (SpecSize.v: rounding to nearest even as a relation, factor by kind of polynomial, extra pixels), C80_exists/C80_unique: it is determined; C80_symmetric, C80_units, C80_pixel, C80_amplitude, C80_order, C80_largest, C80_covers. What a user might expect beyond that is refuted: C80_amplitude_refuted (0.49 wavelengths: 39 pixels, 0.5: 31), C80_covers_refuted. Exact arithmetic. |
| C81 | Warnings of a PSF object | `M_Warn (the three methods and the three kernel functions with the list of their warnings)` | erasure lemmas relating them to M_PsfClass, case analysis, invariant of settled objects, bound of the Airy pattern | proved | C81_outcome (the functions with warnings return what those of C39 return), C81_coefficients, C81_rejected, C81_size, C81_calculate (against cut_off of SpecWarn.v), C81_suppressed, C81_only_warnings, C81_pixel_quiet, C81_airy_quiet (needs \|J1(x)/x\| below 1/9 far out, from \|J1\| <= 1; for NA < 1 sharper bounds of the Bessel function would be needed and nothing is claimed). The exceptions: C81_only_warnings_refuted (1 against 19 pixels), C81_pixel_quiet_refuted (the pixel warning appears after a rejected call). The texts and the filters of module warnings are not modelled. Exact arithmetic. |

## Defects of the pinned commit that the model exhibits (each is a theorem)

1. `ZernPol(n=.., m=..)` accepts |m| > n for n > 0 (C08); comparison of such objects is not trichotomous (C10).
2. `index2orders` and the `*2*` conversions return orders of another polynomial past the end of their search loops (C05, C06); `fringe2osa(osa2fringe(i))` raises because the intermediate value is a numpy integer (C07).
3. `radial_dr` is wrong for every polynomial with n-|m| >= 40 (calc_zernike_pol.py 550-551) (C13).
4. `gen_polar_coordinates` never rejects a step (C22); in binary64 a radius can repeat and the end can differ from 1.0 (C23).
5. NaN radii, sets and all-zero surfaces escape the check of radii (C24).
6. The Simpson weights of the PSF drop points: focus value ((n-2)/n)^2 or ((n-1)/n)^2 (C31); an extra binary64 node puts values above 1 (C30).
7. Accelerated values of (+-8,8), (+-9,9), (+-10,10) lack normalisation and angular part; every n > 10 is rejected; an int amplitude fails (C36).
8. ZernPSF: wavenumber of the previous wavelength (C39), NA = 0 accepted (C39), kernel_size 1 (C40), rejected calls that change attributes (C41), stale k and TypeError in get_kernel_parallel (C37), non-sequence arguments accepted (C38).
9. JSON: kernel_size re-estimated, Airy flag not stored (a piston object that reads a tilt calculates the Airy pattern, C56), stale file kept by `overwrite=False` (C43); overwriting is not atomic and a broken file is never repaired by a default save (C54).
10. Convolution: black image with scale2original gives NaN; weights up to DBL_EPSILON are dropped; uint8 cast truncates (C44).
11. DispenserManager: class-level lists are shared and survive close(), so a second manager returns parameters as results, raises IndexError or hangs (C46); a worker exception or one CPU hangs compute() (C45).
12. ZernPSF workers: no restart after deinitialize_workers() (TypeError), a second object after closing the first gets no or wrong answers, IndexError for too many objects, a silently wrong kernel without initialisation (C55).
13. `str()` is the same for every n > 7 (C48).
14. In binary64 radial() of (0, 40) returns a value above 1.02 and of (0, 42) above 1.05 at radii near 1 (|R| <= 1 in exact arithmetic) (C57).
15. plot_sum_zernikes_on_fig clears the figure before it fails on a surface that does not fit its coordinates; plot_profile ignores an argument that is no ZernPol (C58).
16. ZernPSF shares containers with its caller: the list of polynomials, the coefficient array, the returned kernel, the window left by crop_kernel and the class-wide default kernel (C60).
17. generate_phases_image and the fit scale the radius differently (1 + min//2 against (size-1)/2): generated coefficients do not come back; for even sides from 88 pixels the default border of crop_phases_img feeds background zeros to the fit (C63).
18. Rescaling a convolved uint8 image to the range of the original can lose the maximum (254 instead of 255) through rounding and truncation (C70).
19. compare_performances reports one polynomial too few, and ends in UnboundLocalError for an empty range of orders (C73).
20. force_get_psf_compilation does not warn about numba 0.56.4 and the like, and raises IndexError for a version of two parts (C75).
21. The bundled check of the derivative tables (compare_recursive_coeffs_radials_dr) stops at n = 39, one radial order before the wrong derivative of finding C13; compare_radial_calculations(max_order) tests n < max_order although its docstring promises max_order, and its replacement of small max_order never applies to an int (C76).
22. Titles of composed kernels do not name the coefficients, so plot_kernel draws different aberrations over each other in one figure; visualize_convolution with max_intensity <= 0 divides 0 by 0 (C77).
23. The estimated kernel size shrinks when the amplitude passes half a wavelength (spherical aberration of 0.49 wavelengths: 39 pixels, of 0.5: 31), ignores NA for every polynomial but piston (defocus at NA 0.5: 19 pixels of a tenth of a wavelength, the central disk alone has 24), and jumps between NA = 0.25 and just above it (C80).
24. The warning that the pixel is larger than half the Airy radius cannot appear while the calls of set_physical_props are accepted: that method already rejects pixels above 0.25 wavelength / NA, the warning starts at 0.305 wavelength / NA. It does appear after a rejected call, which leaves NA and wavelength changed. suppress_warnings=True also changes the result: an object without physical properties gets a kernel of 1 pixel instead of 19 (C81).

## Not modelled

* rendering by matplotlib (colours, layout, windows), the texts and filters of warnings and the warnings outside of the three methods of C81, printing, timing, progress output, `__del__`, sleep and join timeouts of the dispenser (a join that times out is a scheduling choice of the model);
* test helpers: `_estimate_high_order_calc_times`, `calc_psfs_check.py`;
* numba compilation (the compiled functions mean their Python text);
* aliasing of the coefficient dictionaries of find_pols_coeffs (values in the model; no code of the package mutates one); ZernPSF's containers are references in C60;
* JSON string escapes (none is written);
* rounding error of the evaluation formulas, except where a row above says binary64 (C57: radial() and polynomial_value(), C59, C65-C69: PSF points and kernels, C61: derivatives, C64: sums and phase images, C70: convolution, C72: the image fit);
* weak memory: actions of threads and processes interleave.

## Trusted base

* Coq 8.16.1 kernel, including `vm_compute`; no plugin, no native compilation.
* The reading of the Python source recorded in the comments of `M_*.v`.
* Libraries used: the standard library, Flocq (rounding operators, binary64 format), Coquelicot (derivatives,
  Riemann integrals). Flocq and Coquelicot add no axioms.
* Axioms, as listed by `Print Assumptions` (complete list per theorem in `ASSUMPTIONS.md`, generated by
  `tools/assumptions.py`), all of the standard library: `ClassicalDedekindReals.sig_forall_dec`,
  `ClassicalDedekindReals.sig_not_dec`, `FunctionalExtensionality.functional_extensionality_dep`,
  `Classical_Prop.classic`. Tools that list opaque module fields also show `Rdefinitions.RbaseSymbolsImpl.*`,
  `RinvImpl.*` and `ssrunder.Under_rel.*`: these are definitions sealed by module signatures of the standard
  library, not axioms.
* No axioms of our own, no functors, no `Admitted`.

## Tests of the theorems

`tools/mutate.py` applies an edit to a model definition in a scratch copy, rebuilds and records which theorems
fail; results are in `seeded/LOG.jsonl`.
