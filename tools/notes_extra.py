NOTES["C20"] = ("proved", "number/number, vector/number, number/vector, vector/vector and surface requests; exact arithmetic on finite values")
NOTES["C21"] = ("proved", "for calls at one point; vectors and surfaces follow pointwise from C20; dropping zero coefficients needs at least one non-zero one (an empty list is rejected)")
NOTES["C22"] = ("partial", "the claim is false of the code: no step is ever rejected with ValueError; the actual behaviour of each kind of bad step is proved")
NOTES["C23"] = ("partial", "proved in exact arithmetic; in binary64 start, order, range and density (every radius and angle within the step of a generated one) are proved, strict increase and the end point 1.0 are refuted for gen_polar_coordinates; gen_equal_polar_mesh is proved in binary64 as well")
NOTES["C24"] = ("partial", "proved for arrays, lists, tuples and numbers without NaN (radial_dr acceptance for n-|m|<=38); refuted with NaN, for sets and for all-zero surfaces")
NOTES["C26"] = ("proved", "exact arithmetic; every image size, any history")
NOTES["C49"] = ("proved", "random module and np.round as arbitrary oracles")
NOTES["C27"] = ("proved", "every image size >= 3, every sane rounding (exact arithmetic and binary64); angles in exact arithmetic")
NOTES["C28"] = ("proved", "for every solver meeting the lstsq contract (one is constructed), every coefficient vector, every list of distinct polynomials, paired and mesh sampling, and images; independence at the sampled points is a hypothesis, and for every list of distinct valid polynomials sampling points with independence exist (C28_sampling_exists). Exact arithmetic; the returned values are rounded to the requested digits")
NOTES["C29"] = ("proved", "uniqueness, permutation, linearity (before the final rounding), rejection of empty/repeated/foreign polynomials and of N-D arrays; exact arithmetic")
NOTES["C30"] = ("partial", "proved (even < 1) in exact arithmetic; with binary64 node placement non-negativity and the bound (1+2/n_r+2^-49)^2 are proved and the bound 1 is refuted (n_r = 24)")
NOTES["C31"] = ("partial", "the claim is false of the code: the exact focus value ((n-2)/n)^2 (even n) or ((n-1)/n)^2 (odd n) is proved, never 1")
NOTES["C32"] = ("proved", "explicit kernel size >= 3 (single polynomial) or >= 1 (list); normalised maximum is 1 unless every value is 0 (then 0/0)")
NOTES["C33"] = ("proved", "amplitude of the list is the amplitude divided by the wavelength, as the class passes it; exact and binary64 node placement")
NOTES["C34"] = ("proved", "exact and binary64 node placement")
NOTES["C35"] = ("proved", "every polynomial and every list, exact and binary64 node placement")
NOTES["C37"] = ("partial", "loop, vectorised and joblib evaluation agree; refuted for a paralleljobs object that is not a joblib Parallel")
NOTES["C36"] = ("partial", "Equality of the accelerated and the normal kernel proved for single polynomials and lists of every accepted order (n <= 10) except |m| = n with n = 8, 9, 10; for these it is false in the code (calc_psfs_numba.py 153-154 returns r^n without normalisation and angular part): refuted at the level of values and with a concrete kernel. Documented acceptance of n > 10 with |m| = n or n-2 is refuted (the condition in 337/345 is always true), and so is an integer amplitude.")

NOTES["C37"] = ("partial", "loop, vectorised and joblib evaluation agree, and get_kernel_parallel (with workers) performs the same steps as calculate_psf_kernel when its wavenumber is that of the stored wavelength; refuted for a paralleljobs object that is not a joblib Parallel, for get_kernel_parallel after a change of the wavelength (kernel of another pixel size), with kernel_size < 3 (TypeError) and with several polynomials (0/0)")
NOTES["C38"] = ("partial", "sequences of length other than 1 and single ZernPols as documented; refuted: a non-sequence that is not a ZernPol is silently accepted, [x] with x not a ZernPol raises AttributeError")
NOTES["C39"] = ("partial", "which calls are accepted, what they store, and the ranges after every history (accepted and rejected calls of all methods) are proved; refuted: the wavenumber is that of the previous wavelength (C39_wavenumber_lags says exactly when it is right), NA = 0 passes the check and is stored, rejected calls change attributes (C41)")
NOTES["C40"] = ("partial", "kernel_size is odd and positive after every history, the calculated kernel is square of odd size with values >= 0 and has size kernel_size if that is >= 3; refuted: size 1 after an accepted call, kernel_size 1 with a larger kernel, several polynomials without properties")
NOTES["C41"] = ("partial", "calls rejected for NA, wavelength, kernel size change nothing, and which attributes every rejected call keeps; refuted for the pixel size and the number of points")
NOTES["C42"] = ("proved", "every reachable object, kernels of numbers and with NaN; moreover cropping keeps the maximum and is idempotent")
NOTES["C43"] = ("partial", "kernel, physical properties, integration points, polynomial(s) and coefficient(s) are restored for every configured writer and every reader; refuted for kernel_size (re-estimated), the Airy flag, and files kept by overwrite=False. C43_names, C43_other_file: different polynomials or one polynomial with another coefficient are different files (several polynomials that differ in the coefficients only may share one: the printed array has 8 digits)")

NOTES["C44"] = ("partial", "Exact arithmetic: shape, convolution formula, linearity, identity kernel, bounds, unsigned images, scaling proved for every image and kernel (scipy's convolve is a contract: reflect mode, weights up to DBL_EPSILON dropped). Refuted: black image with scale2original gives NaN; a kernel of weights up to DBL_EPSILON turns the image black; in binary64 the one-pixel kernel [[0.1]] turns the uint8 pixel 43 into 42. Rounding of general convolutions is not bounded.")
NOTES["C47"] = ("proved", "Exact arithmetic for exp, sqrt and the powers; roundings to 6 digits and to integers are modelled. max_intensity above 65535 raises OverflowError (C47_overflow; older NumPy wraps around instead).")

NOTES["C45"] = ("proved", "interleaving model of manager, workers, queues with feeder threads and events; safety for every schedule, termination for every fair schedule; hang when f raises or os.cpu_count() = 1 proved")
NOTES["C46"] = ("partial", "the claim is false of the code: the exact wrong behaviour of a second manager (parameters returned as results, IndexError, endless wait, other manager's function) is proved for every history of calls before and every schedule, with concrete runs")
NOTES["C50"] = ("proved", "actions are single dictionary or lru_cache operations (CPython with the interpreter lock); safety for every schedule by rely-guarantee, termination for every fair one; coefficient dictionaries are values because no code in the package mutates one after it is shared")
NOTES["C51"] = ("proved", "exact arithmetic")
NOTES["C52"] = ("proved", "first-order error bound (the order is sharp, see C31) and limit; rounding of the nodes is modelled, other rounding is not")

NOTES["C53"] = ("proved", "the Bessel function is a parameter of the model (scipy.special.jv(1, .)); the theorems assume it returns Bessel's integral, over real numbers. Kernels compared before normalisation. The identity is proved by differentiating under the integral sign: (x J1)' = x J0.")

NOTES["C54"] = ("partial", "json.dump and json.load are modelled on characters (Python's number, string, list and dict grammar); the printed form of floats is any decimal text that rounds back to the float (such texts exist for every binary64 number). Proved: round trip through text, every strict prefix is rejected, never other data. Refuted: atomicity (overwriting destroys the old file at the first instant) and repair (a broken file is kept by the default overwrite=False). Strings with escapes are not modelled (none is written).")

NOTES["C55"] = ("partial", "Proved for any number of live objects (as long as the number of angles suffices for the common pool of workers), every schedule, with termination under fairness. False of the code, and proved so: workers cannot be started again after deinitialize_workers() (TypeError), another object's workers do not answer correctly after the first object's were closed, too many objects give IndexError (the fifth with 36 angles, the 38th with the default 300), and without initialisation (or for the piston) a wrong kernel is returned without an error.")

NOTES["C56"] = ("partial", "Proved for every history without read_json, kernel_size >= 3 (C40: smaller sizes are estimated again), and, if accelerated, the orders that the compiled functions calculate properly (C36). Refuted for objects that read the file of another polynomial: they keep their Airy flag, so that a piston object that reads a tilt returns the Airy pattern whatever the coefficient. Real arithmetic apart from the placement of the integration nodes.")
NOTES["C57"] = ("proved", "Every operation of the value routes is rounded (Flocq, binary64 with gradual underflow, no overflow); power/cos/sin are parameters within one ulp. C57_unrounded ties the rounded programs to the exact ones of C11. C57_bounded_refuted: with a correctly rounded power radial() of (0,40) returns a value above 1.02 and of (0,42) above 1.05, so the source's own stability check (|R| <= 1) fails for some radii.")
NOTES["C58"] = ("partial", "Everything proved except two clauses that are false of the code: a surface that does not fit its coordinates clears the figure before the error, and plot_profile of something that is no ZernPol silently draws nothing. Matplotlib is a contract (what it is given, and its check of shapes). Mesh in exact arithmetic and binary64; values and the products r*cos(theta) exact.")
NOTES["C59"] = ("proved", "Every arithmetic operation of the point, pixel and normalisation formulas is rounded (binary64 with gradual underflow, no overflow); numpy's functions are parameters within one ulp (C59_functions_exist: correctly rounded ones satisfy this), np.sum any order and bracketing. C59_unrounded ties the rounded programs to M_Psf. The aberration of a single-polynomial kernel has the rounded quotient alpha/wavelength as amplitude. Kernel sizes below 3 (estimated) and the Airy option are C28/C53.")
NOTES["C60"] = ("partial", "Heap model: arrays and lists are references, views of cropped kernels included. Proved for every program: no method writes into an existing container; programs that do not write into containers in use see what private copies would give; setters and calculations of objects made from ZernPol instances or tuples are immune to any write (if kernels are not cropped). False of the code, each with a program: the list given to the constructor (emptied: a one-point kernel without an error), the coefficient array (saved file shows coefficients the kernel was not calculated with), the returned kernel, the window kept by crop_kernel and the class-wide default kernel stay shared with the caller.")

NOTES["C61"] = ("proved", "Every operation of the three derivative routes (table and recurrences, exact equation, coefficient dictionaries) is rounded (binary64 with gradual underflow, no overflow); power/cos/sin are parameters within one ulp (correctly rounded ones satisfy this). C61_unrounded ties the rounded programs to the exact ones of C13 and C16. Orders for which the algorithm itself is wrong (C13_radial_dr_refuted) are excluded.")
NOTES["C62"] = ("proved", "Independence is proved at the actual pixels (two-dimensional polynomial argument on lines through the centre with integer slopes), for every image size and list of polynomials; K is the inverse of the smallest singular value times sqrt of the number of pixels (its existence is proved, no number is computed). lstsq is any function with numpy's documented contract, values are exact reals, the crop's arithmetic has any sane rounding. (N+1)(N+3) pixels is sufficient, not necessary.")
NOTES["C63"] = ("partial", "Proved: odd sides up to 1601 pixels come back within the steepest radial slope times the mismatch of the radii (mean square over the pixels). False of the code: generate_phases_image scales the radius with 1 + min//2 and the fit with (size-1)/2, so that a tilt on 3 to 21 pixels comes back at most 0.92 times as large (C63_tilt_refuted); for even sides of 88 pixels or more the default border takes background zeros into the fit (C63_background_fitted), so that even a constant comes back too small (C63_piston_refuted).")
NOTES["C64"] = ("proved", "Every operation of the sum loops and of the pixel coordinates is rounded (binary64 with gradual underflow, no overflow); power, cos, sin and arctan2 are parameters within one ulp (correctly rounded ones satisfy this, C59_functions_exist). C64_unrounded_* tie the rounded programs to the exact ones of C20 and C26. Arrays are handled element by element; the radius given by the user must be a float.")
NOTES["C65"] = ("proved", "Mean over the disk is Coquelicot's Riemann integral in polar coordinates. The bounds are proved for the diffraction integral of C52 and carried over to the binary64 kernels (normalize=False) by C52 and C59. size is the sum of |c|N, a bound of the wavefront.")
NOTES["C66"] = ("proved", "Exact for the calculated kernels (exact arithmetic, and with binary64 placement of the radial nodes); binary64 up to the stated errors. Positive coefficients of (1,1) move the content of the kernel to smaller column numbers (the x axis of the kernel points to the left, unlike that of generate_phases_image).")
NOTES["C67"] = ("proved", "Exact for the diffraction integral; for calculated kernels the symmetry cannot be exact because the angular rule leaves out nodes on one side (C31), so the theorems give it up to total_error. Normalised kernels are not covered.")
NOTES["C68"] = ("proved", "Binary64 kernels of get_psf_kernel_zerns; T is any number that bounds total_error on the kernel and is below the Strehl bound (1-s^2/2)^2. Normalised values may be below 0 only by the stated error (numpy's power is only assumed to be within one ulp).")
NOTES["C69"] = ("proved", "Rounded model of the compiled functions; bit-for-bit equality with the rounded model of the normal calculation for any rounding function; error bounds with numba's own functions; pow(x, 0) = 1 is assumed (C standard). np.arange of numba is taken as numpy's. Orders outside the list are refuted in C36.")
NOTES["C70"] = ("partial", "Proved: the distance from the exact image (C70_value, C70_scaled), the range of integer images, and that a uniform image and the brightest scaled pixel lose at most one. False of the code: with scale2original the largest pixel of an integer image is kept only up to truncation - [[255, 0]] with the kernel [[15, 34, 15]] comes back with the maximum 254 (C70_scaled_maximum_refuted). Overflow is excluded by hypotheses; scipy's convolve is a contract (products accumulated one by one).")
NOTES["C71"] = ("proved", "Default crop radius and border margin 0.001 only; C62_noise covers the other radii with a factor that is not explicit. Exact arithmetic on values, crop arithmetic with any sane rounding; lstsq is a parameter with its documented contract.")
NOTES["C72"] = ("proved", "Default crop radius and border margin 0.001 (as C71). The solver is a parameter with a backward-stability contract; overflow is not modelled.")
NOTES["C73"] = ("proved", "Real arithmetic for the values. C73_polynomials, C73_result and C73_rejects cover all pairs of integer orders; the off-by-one of the message is part of C73_result. The two timed sums at the end of check_conformity (results dropped) are not modelled.")
NOTES["C74"] = ("proved", "Values in real arithmetic, node positions exact or binary64. C32_normalized_range had 'not all values are 0' as hypothesis; here it is proved from the size of the coefficients. The accelerated versions are for the polynomials it calculates correctly (C36). C74_binary64*: the same with every operation rounded to binary64 (numpy's functions within one ulp, np.power(x, 2) never negative), as long as the rounding bound of C59 at the focus is below 3/4 cos^2 of the size; C74_binary64_usual shows this for orders up to 10, amplitude times norm up to 1.5 and up to 1000 x 1000 nodes. C74_object: the same from the calls of the user (exact values), C74_cropped: after crop_kernel.")
NOTES["C75"] = ("partial", "C75_objects is proved for all histories and versions that pass the check; C75_version states what the check does for all versions of three numbers; the claim about older versions is false: C75_version_refuted, C75_short_version_refuted. Printing, timing and the compilation by numba are not modelled.")
NOTES["C76"] = ("proved", "The binary64 theorems cover max_order up to 15 (radial) and 12 (derivatives); for the larger ranges only the exact-arithmetic theorems hold, since the proved bound on the rounding errors exceeds the tolerance there.")
NOTES["C77"] = ("proved", "Exact arithmetic. Titles are given by their parts; colours, layout and colour bars are not modelled. Kernels with NaN are excluded (C74 says when there are none).")
NOTES["C78"] = ("proved", "The values on the surfaces are exact (their rounding error: C57); coordinates, amplitudes and goals exact or binary64. C78_found says of all smaller amplitudes that they had not passed the goal by more than the mesh hides.")
NOTES["C79"] = ("proved", "binary64 throughout: C79_measured_psf gives a bound computable from the fitted coefficients and one computable from the true ones before the measurement (C79 composes C72, C65 and C59 through the state left by the fit); C79_strehl does the same for the central pixel (Strehl ratio) in terms of the true coefficients. Preconditions on the image as in C71/C72 (default crop radius, resolved polynomials).")
NOTES["C80"] = ("proved", "C80_single/C80_several: the stored size against an independent specification (SpecSize.v: rounding to nearest even as a relation, factor by kind of polynomial, extra pixels), C80_exists/C80_unique: it is determined; C80_symmetric, C80_units, C80_pixel, C80_amplitude, C80_order, C80_largest, C80_covers. What a user might expect beyond that is refuted: C80_amplitude_refuted (0.49 wavelengths: 39 pixels, 0.5: 31), C80_covers_refuted. Exact arithmetic.")
NOTES["C81"] = ("proved", "C81_outcome (the functions with warnings return what those of C39 return), C81_coefficients, C81_rejected, C81_size, C81_calculate (against cut_off of SpecWarn.v), C81_suppressed, C81_only_warnings, C81_pixel_quiet, C81_airy_quiet (needs |J1(x)/x| below 1/9 far out, from |J1| <= 1; for NA < 1 sharper bounds of the Bessel function would be needed and nothing is claimed). The exceptions: C81_only_warnings_refuted (1 against 19 pixels), C81_pixel_quiet_refuted (the pixel warning appears after a rejected call). The texts and the filters of module warnings are not modelled. Exact arithmetic.")
