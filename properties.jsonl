{"id": "C01", "title": "OSA/ANSI index is a bijection", "statement": "ZernPol.get_osa_index(m,n) maps the valid Zernike orders (n>=0, |m|<=n, n-|m| even) one-to-one onto the integers 0,1,2,...", "quantifier": "all valid integer order pairs (m,n) and all non-negative indices, no bound on n", "why_tests_cant": "an infinite family of pairs; a test samples a few radial orders and cannot exclude a collision or a gap above them", "anchors": ["src/zernpy/zernikepol.py:ZernPol.get_osa_index"]}
{"id": "C02", "title": "Noll index is a bijection", "statement": "ZernPol.get_noll_index(m,n) maps the valid orders one-to-one onto 1,2,3,..., orders polynomials by radial order, and even indices are exactly the cosine (m>0) ones as in Noll's convention", "quantifier": "all valid order pairs, all positive indices", "why_tests_cant": "the n mod 4 case split can be wrong for one residue/sign combination; only a proof covers all residues for all n", "anchors": ["src/zernpy/zernikepol.py:ZernPol.get_noll_index"]}
{"id": "C03", "title": "Fringe index is a bijection", "statement": "ZernPol.get_fringe_index(m,n) maps the valid orders one-to-one onto 1,2,3,...", "quantifier": "all valid order pairs, all positive indices", "why_tests_cant": "the inverse needs an integer square root; collisions can appear only at large orders", "anchors": ["src/zernpy/zernikepol.py:ZernPol.get_fringe_index"]}
{"id": "C04", "title": "index2orders inverts the index functions", "statement": "For every index inside the supported range (OSA 0..1595, Noll 1..1596, Fringe index of any polynomial with n<=249) ZernPol.index2orders returns the unique valid orders having exactly this index", "quantifier": "all supported indices of the three conventions", "why_tests_cant": "the search loop and its early exits must return the right pair for each index; the inverse relation is a universally quantified statement", "anchors": ["src/zernpy/zernikepol.py:ZernPol.index2orders"]}
{"id": "C05", "title": "index2orders never invents orders", "statement": "For every integer index that no supported polynomial has (negative, Noll 0, beyond the search limit, or an unknown keyword) index2orders must not silently return the orders of another polynomial", "quantifier": "all integers and keywords", "why_tests_cant": "the failing inputs are outside the range any test enumerates", "anchors": ["src/zernpy/zernikepol.py:ZernPol.index2orders", "src/zernpy/zernikepol.py:ZernPol.osa2noll"]}
{"id": "C06", "title": "OSA<->Noll conversions are mutually inverse", "statement": "noll2osa(osa2noll(j))=j and osa2noll(noll2osa(j))=j, and the converted index denotes the same polynomial", "quantifier": "all indices of polynomials inside the search range (and a precise description of what happens beyond it)", "why_tests_cant": "must hold for every index", "anchors": ["src/zernpy/zernikepol.py:ZernPol.osa2noll", "src/zernpy/zernikepol.py:ZernPol.noll2osa"]}
{"id": "C07", "title": "OSA<->Fringe conversions are mutually inverse", "statement": "fringe2osa(osa2fringe(j))=j and vice versa, and the converted index denotes the same polynomial", "quantifier": "all indices of polynomials inside the search range", "why_tests_cant": "must hold for every index", "anchors": ["src/zernpy/zernikepol.py:ZernPol.osa2fringe", "src/zernpy/zernikepol.py:ZernPol.fringe2osa"]}
{"id": "C08", "title": "Constructor accepts exactly the valid polynomials", "statement": "ZernPol(**kwargs) succeeds exactly when the keywords denote a valid Zernike polynomial of radial order at most 54 and otherwise raises ValueError; in particular |m|>n is rejected", "quantifier": "all keyword argument sets: names, number of keywords, values of any type", "why_tests_cant": "unbounded set of argument combinations", "anchors": ["src/zernpy/zernikepol.py:ZernPol.__init__"]}
{"id": "C09", "title": "All constructor spellings agree", "statement": "Building a polynomial by (n,m) in any keyword alias and order, by OSA, by Noll or by Fringe index of the same polynomial gives objects with the same orders and same three indices, and get_indices is consistent with get_mn_orders", "quantifier": "all supported polynomials, all keyword aliases", "why_tests_cant": "cross product of spellings and polynomials", "anchors": ["src/zernpy/zernikepol.py:ZernPol.__init__", "src/zernpy/zernikepol.py:ZernPol.get_indices", "src/zernpy/zernikepol.py:ZernPol.get_mn_orders"]}
{"id": "C10", "title": "Comparison operators form a total order compatible with equality", "statement": "a==b iff same orders, exactly one of a<b, a==b, a>b holds, < is transitive and sorts by OSA index", "quantifier": "all triples of polynomials", "why_tests_cant": "universally quantified algebraic law", "anchors": ["src/zernpy/zernikepol.py:ZernPol.__eq__", "src/zernpy/zernikepol.py:ZernPol.__gt__", "src/zernpy/zernikepol.py:ZernPol.__lt__", "src/zernpy/zernikepol.py:ZernPol.__le__", "src/zernpy/zernikepol.py:ZernPol.__ge__", "src/zernpy/zernikepol.py:ZernPol.__ne__"]}
{"id": "C11", "title": "Radial value equals the factorial definition", "statement": "ZernPol.radial(r) (table and recurrence path, and coefficient path) equals sum_k (-1)^k (n-k)!/(k!((n+|m|)/2-k)!((n-|m|)/2-k)!) r^(n-2k) in exact arithmetic", "quantifier": "all valid (m,n) with no bound on n, all real r", "why_tests_cant": "a test compares at sampled orders and radii; the recurrence must be right at every order", "anchors": ["src/zernpy/calculations/calc_zernike_pol.py:radial_polynomial", "src/zernpy/calculations/calc_zernike_pol.py:radial_polynomial_coeffs", "src/zernpy/zernikepol.py:ZernPol.radial"]}
{"id": "C12", "title": "All evaluation routes agree", "statement": "radial_polynomial, radial_polynomial_eq (exact equation) and the coefficient route return the same number; use_exact_eq does not change the result of ZernPol.radial / polynomial_value wherever it is honoured, and where it is not (n>40) the code returns zeros with a warning", "quantifier": "all valid (m,n), all real r", "why_tests_cant": "floating comparisons on samples cannot establish identity of polynomials", "anchors": ["src/zernpy/calculations/calc_zernike_pol.py:radial_polynomial", "src/zernpy/calculations/calc_zernike_pol.py:radial_polynomial_eq", "src/zernpy/calculations/calc_zernike_pol.py:radial_polynomial_coeffs", "src/zernpy/zernikepol.py:ZernPol.radial"]}
{"id": "C13", "title": "radial_dr is the derivative of radial", "statement": "For every valid polynomial ZernPol.radial_dr(r) equals d/dr of ZernPol.radial(r) (table, recursion, exact-equation and coefficient route)", "quantifier": "all valid (m,n), all real r", "why_tests_cant": "finite differences at samples cannot decide a derivative identity; the coefficient recurrences only start above n=38, where tests are few", "anchors": ["src/zernpy/calculations/calc_zernike_pol.py:radial_derivative", "src/zernpy/calculations/calc_zernike_pol.py:radial_derivative_eq", "src/zernpy/calculations/calc_zernike_pol.py:radial_polynomial_coeffs_dr", "src/zernpy/calculations/find_pols_coeffs.py:find_coeffs_orders_dr", "src/zernpy/zernikepol.py:ZernPol.radial_dr"]}
{"id": "C14", "title": "Radial boundary value, parity and bound", "statement": "R(1)=1, R(-r)=(-1)^n R(r), and |R(r)|<=1 for r in [0,1] for every polynomial", "quantifier": "all valid (m,n), all r in [0,1]", "why_tests_cant": "a sup-norm bound over a continuum for all orders", "anchors": ["src/zernpy/zernikepol.py:ZernPol.radial"]}
{"id": "C15", "title": "Normalisation makes the polynomials orthonormal", "statement": "norm_factor is sqrt(2(n+1)/(1+delta_m0)) and with it the polynomials are orthonormal over the unit disk: (1/pi) integral Z_i Z_j r dr dtheta = delta_ij", "quantifier": "all pairs of valid polynomials", "why_tests_cant": "an integral identity for all pairs of orders", "anchors": ["src/zernpy/calculations/calc_zernike_pol.py:normalization_factor", "src/zernpy/zernikepol.py:ZernPol.normf"]}
{"id": "C16", "title": "Angular part and its derivative", "statement": "triangular(theta) is cos(m theta) for m>=0 and -sin(m theta)=sin(|m| theta) for m<0, 2pi-periodic, bounded by 1; triangular_dtheta is its derivative", "quantifier": "all integer m, all real theta", "why_tests_cant": "continuum of angles and all azimuthal orders", "anchors": ["src/zernpy/calculations/calc_zernike_pol.py:triangular_function", "src/zernpy/calculations/calc_zernike_pol.py:triangular_derivative", "src/zernpy/zernikepol.py:ZernPol.triangular", "src/zernpy/zernikepol.py:ZernPol.triangular_dtheta"]}
{"id": "C17", "title": "Polynomial value is bounded by its normalisation factor", "statement": "|polynomial_value(r,theta)| <= normf for r in [0,1], and the value depends on theta only modulo 2pi", "quantifier": "all valid polynomials, all r in [0,1], all theta", "why_tests_cant": "continuum of points", "anchors": ["src/zernpy/zernikepol.py:ZernPol.polynomial_value"]}
{"id": "C18", "title": "Coefficient caches are transparent", "statement": "The coefficient functions return the same coefficients whatever calls were made before them in the process (module-level dictionaries and lru_cache never change a result)", "quantifier": "all histories of calls with any valid orders", "why_tests_cant": "a property of all call histories; tests run one history", "anchors": ["src/zernpy/calculations/find_pols_coeffs.py:find_coeffs_orders", "src/zernpy/calculations/find_pols_coeffs.py:find_coeffs_orders_dr", "src/zernpy/calculations/calc_zernike_pol.py:radial_polynomial_coeffs", "src/zernpy/calculations/calc_zernike_pol.py:radial_polynomial_coeffs_dr"]}
{"id": "C19", "title": "Coefficient tables have the right support", "statement": "The coefficient dictionary returned for (m,n) gives, for each power p, the coefficient of r^p of the radial polynomial: it is zero unless |m|<=p<=n and p has the parity of n, every coefficient is an integer and they sum to 1", "quantifier": "all valid (m,n)", "why_tests_cant": "unbounded family of orders", "anchors": ["src/zernpy/calculations/find_pols_coeffs.py:find_coeffs_orders", "src/zernpy/calculations/find_pols_coeffs.py:make_orders_coeffs", "src/zernpy/calculations/find_pols_coeffs.py:sum_orders_coeffs"]}
{"id": "C20", "title": "sum_zernikes_series computes the weighted sum", "statement": "ZernPol.sum_zernikes(coeffs, pols, r, theta) returns at each point sum_i coeffs[i]*pols[i].polynomial_value(r,theta); on a surface request entry (i,j) is the value at (r_i,theta_j) in the layout the code documents", "quantifier": "all lists of polynomials and coefficients, all coordinate vectors of any sizes", "why_tests_cant": "row/column branches depend on the relative sizes of the vectors", "anchors": ["src/zernpy/zernikepol.py:ZernPol.sum_zernikes", "src/zernpy/zernikepol.py:ZernPol._sum_zernikes_meshgrid"]}
{"id": "C21", "title": "sum_zernikes is linear and order independent", "statement": "The sum is linear in the coefficients, invariant under permuting (coefficient,polynomial) pairs, and zero coefficients can be dropped without changing it", "quantifier": "all lists and coordinates", "why_tests_cant": "universally quantified algebraic law", "anchors": ["src/zernpy/zernikepol.py:ZernPol.sum_zernikes"]}
{"id": "C22", "title": "gen_polar_coordinates validates its steps", "statement": "Steps outside the documented ranges (r_step<=0 or >0.5, theta_step<=0 or >2pi/3... as documented) raise ValueError", "quantifier": "all step values", "why_tests_cant": "all real inputs", "anchors": ["src/zernpy/zernikepol.py:ZernPol.gen_polar_coordinates"]}
{"id": "C23", "title": "gen_polar_coordinates covers the unit disk", "statement": "For valid steps the returned radii start at 0, increase, stay in [0,1] and end at 1 (angles: 0..2pi), consecutive points at most one step apart", "quantifier": "all valid steps", "why_tests_cant": "all real inputs; end-point handling of arange", "anchors": ["src/zernpy/zernikepol.py:ZernPol.gen_polar_coordinates", "src/zernpy/zernikepol.py:ZernPol.gen_equal_polar_mesh"]}
{"id": "C24", "title": "Radii outside [0,1] are rejected before evaluation", "statement": "polynomial_value, radial, radial_dr raise ValueError exactly when some radius is <0 or >1, in every accepted container shape", "quantifier": "all radii containers", "why_tests_cant": "all inputs", "anchors": ["src/zernpy/zernikepol.py:ZernPol._check_radii", "src/zernpy/zernikepol.py:ZernPol.radial"]}
{"id": "C25", "title": "generate_polynomials enumerates all polynomials", "statement": "generate_polynomials(N) returns (N+1)(N+2)/2 polynomials, the i-th having OSA index i, i.e. each polynomial with n<=N exactly once; N outside 0..54 raises ValueError", "quantifier": "all N", "why_tests_cant": "all N and positions", "anchors": ["src/zernpy/zernikepol.py:generate_polynomials"]}
{"id": "C26", "title": "generate_phases_image draws the phase on the inscribed disk", "statement": "Each pixel inside the aperture holds the weighted sum at the pixel's polar coordinates, radii lie in [0,1], angles in [0,2pi), pixels outside are zero, and the same input gives the same image", "quantifier": "all image sizes, coefficient lists", "why_tests_cant": "all sizes/pixels", "anchors": ["src/zernpy/zernikepol.py:generate_phases_image"]}
{"id": "C27", "title": "crop_phases_img returns aligned vectors in the unit disk", "statement": "The returned value, radius and angle vectors have equal non-zero lengths, enumerate exactly the selected pixels in row-major order, radii lie in [0,1] and angles in [0,2pi)", "quantifier": "all images of every size >=3x3, crop radii, strict borders or not", "why_tests_cant": "pixel geometry, rounding tolerance and renormalisation interact for specific sizes", "anchors": ["src/zernpy/calculations/fit_zernike_pols.py:crop_phases_img"]}
{"id": "C28", "title": "Fitting recovers exact phases", "statement": "If the phases vector is exactly a combination of the given polynomials at the sampled points and the polynomials are linearly independent there, fit returns the combination coefficients", "quantifier": "all coefficient vectors, all polynomial lists and points", "why_tests_cant": "all linear combinations", "anchors": ["src/zernpy/calculations/fit_zernike_pols.py:fit_zernikes", "src/zernpy/zernikepol.py:fit_polynomials", "src/zernpy/zernikepol.py:fit_polynomials_vectors"]}
{"id": "C29", "title": "Fitting is well defined and equivariant", "statement": "fit_polynomials rejects an empty list and repeated polynomials; permuting the polynomials permutes the coefficients; the fit is linear in the phases", "quantifier": "all lists of polynomials and phase vectors", "why_tests_cant": "all permutations and inputs", "anchors": ["src/zernpy/calculations/fit_zernike_pols.py:fit_zernikes", "src/zernpy/zernikepol.py:fit_polynomials"]}
{"id": "C30", "title": "PSF values are in [0,1]", "statement": "Every (non-normalised) PSF point value computed from a phase profile is a non-negative number not larger than 1", "quantifier": "all polynomials, amplitudes, points, numbers of integration nodes", "why_tests_cant": "continuum of inputs and all quadrature sizes", "anchors": ["src/zernpy/calculations/calc_psfs.py:get_psf_point_r", "src/zernpy/calculations/calc_psfs.py:radial_integral"]}
{"id": "C31", "title": "PSF quadrature integrates constants exactly", "statement": "The aberration-free PSF has value 1 at the focus for every number of integration points (the composite rule has total weight 1)", "quantifier": "all numbers of integration points", "why_tests_cant": "the rule is assembled from strided ranges whose end conditions depend on parity", "anchors": ["src/zernpy/calculations/calc_psfs.py:get_psf_point_r", "src/zernpy/calculations/calc_psfs.py:get_psf_point_r_parallel"]}
{"id": "C32", "title": "Kernel geometry", "statement": "PSF kernels are square with odd size, position (i,j) holds the PSF at the pixel's distance and angle from the centre pixel, and normalised kernels have maximum exactly 1 with all values in [0,1]", "quantifier": "all sizes, polynomials, amplitudes", "why_tests_cant": "all sizes and pixels", "anchors": ["src/zernpy/calculations/calc_psfs.py:get_psf_kernel", "src/zernpy/calculations/calc_psfs.py:get_psf_kernel_zerns", "src/zernpy/calculations/calc_psfs.py:get_kernel_size"]}
{"id": "C33", "title": "Single polynomial and list interfaces agree", "statement": "The PSF of the one-element list [p] with amplitude [a] equals the PSF of p with amplitude a", "quantifier": "all polynomials and amplitudes", "why_tests_cant": "all inputs", "anchors": ["src/zernpy/calculations/calc_psfs.py:get_psf_point_r", "src/zernpy/calculations/calc_psfs.py:get_psf_point_r_zerns"]}
{"id": "C34", "title": "Piston does not change the PSF", "statement": "Adding piston of any amplitude to the aberrations leaves every PSF value unchanged", "quantifier": "all aberration lists, amplitudes, points", "why_tests_cant": "all inputs; phase invariance of the quadrature", "anchors": ["src/zernpy/calculations/calc_psfs.py:get_psf_kernel_zerns", "src/zernpy/calculations/calc_psfs.py:diffraction_integral_r_zerns"]}
{"id": "C35", "title": "Sign of aberration rotates the kernel", "statement": "The PSF for aberration -a of an even... polynomial set equals the PSF for a rotated by 180 degrees as predicted by the diffraction integral symmetry", "quantifier": "all polynomials, amplitudes, points, node counts", "why_tests_cant": "all inputs", "anchors": ["src/zernpy/calculations/calc_psfs.py:diffraction_integral_r", "src/zernpy/calculations/calc_psfs.py:get_psf_kernel"]}
{"id": "C36", "title": "Accelerated PSF equals the normal PSF", "statement": "The numba-accelerated kernel uses the same polynomial values as the normal one for every polynomial it accepts, and it accepts every polynomial it documents", "quantifier": "all polynomials accepted by the accelerated path", "why_tests_cant": "case tables for specific orders", "anchors": ["src/zernpy/calculations/calc_psfs_numba.py:zernpol_value", "src/zernpy/calculations/calc_psfs_numba.py:get_psf_kernel_comp"]}
{"id": "C37", "title": "Parallel PSF equals the sequential PSF", "statement": "get_psf_point_r_parallel / the parallel kernel computes the same value as the sequential one", "quantifier": "all parameters", "why_tests_cant": "all inputs", "anchors": ["src/zernpy/calculations/calc_psfs.py:get_psf_point_r_parallel", "src/zernpy/zernpsf.py:ZernPSF.get_kernel_parallel"]}
{"id": "C38", "title": "ZernPSF constructor validates its argument", "statement": "ZernPSF(x) raises ValueError when x is neither a ZernPol nor a sequence of distinct ZernPols", "quantifier": "all argument values", "why_tests_cant": "all argument shapes", "anchors": ["src/zernpy/zernpsf.py:ZernPSF.__init__"]}
{"id": "C39", "title": "Physical properties stay consistent", "statement": "After any sequence of set_physical_props / set_calculation_props calls the object's wavenumber equals 2*pi/wavelength of the stored wavelength and stored values satisfy the documented ranges; a rejected call changes nothing", "quantifier": "all histories of setter calls, including rejected ones", "why_tests_cant": "property of all histories", "anchors": ["src/zernpy/zernpsf.py:ZernPSF.set_physical_props", "src/zernpy/zernpsf.py:ZernPSF.set_calculation_props"]}
{"id": "C40", "title": "Kernel size is always odd and positive", "statement": "After any history of calls the kernel size used by calculate_psf_kernel is odd and >= 3, and the kernel has this size", "quantifier": "all histories", "why_tests_cant": "property of all histories", "anchors": ["src/zernpy/zernpsf.py:ZernPSF.set_calculation_props", "src/zernpy/zernpsf.py:ZernPSF.calculate_psf_kernel", "src/zernpy/calculations/calc_psfs.py:get_kernel_size"]}
{"id": "C41", "title": "Rejected setter calls leave the object unchanged", "statement": "When set_physical_props or set_calculation_props raises ValueError the object is as before the call", "quantifier": "all states and arguments", "why_tests_cant": "all states x arguments", "anchors": ["src/zernpy/zernpsf.py:ZernPSF.set_physical_props", "src/zernpy/zernpsf.py:ZernPSF.set_calculation_props"]}
{"id": "C42", "title": "crop_kernel keeps the centre and only removes dark borders", "statement": "crop_kernel returns a centred odd square sub-kernel, never removes a border containing a value >= min_part of the maximum, and the size attribute follows", "quantifier": "all kernels and thresholds", "why_tests_cant": "all matrices", "anchors": ["src/zernpy/zernpsf.py:ZernPSF.crop_kernel"]}
{"id": "C43", "title": "JSON save/read round-trip", "statement": "Reading a file written by save_json restores the same calculator state (orders, amplitude, physical and calculation properties, kernel) whatever the state of the reading object. Objects with different polynomials, or one polynomial with different coefficients, save under different names, so that neither save changes the other's file", "quantifier": "all writer and reader states, all pairs of objects that save, all files", "why_tests_cant": "two arbitrary states", "anchors": ["src/zernpy/zernpsf.py:ZernPSF.save_json", "src/zernpy/zernpsf.py:ZernPSF.read_json", "src/zernpy/calculations/calc_psfs.py:save_psf", "src/zernpy/calculations/calc_psfs.py:read_psf"]}
{"id": "C44", "title": "Convolution keeps image geometry", "statement": "convolute_img_psf returns an image of the same shape and dtype whose pixels are the convolution of the mirrored image with the kernel divided by the kernel sum; it is linear in the image, a kernel with a single weight in its middle returns the image, nonnegative kernels keep the bounds of the image, and scale2original makes the maximum that of the image", "quantifier": "all images and kernels", "why_tests_cant": "all matrices", "anchors": ["src/zernpy/calculations/calc_psfs.py:convolute_img_psf", "src/zernpy/zernpsf.py:ZernPSF.convolute_img"]}
{"id": "C45", "title": "Dispenser returns results in order under every schedule", "statement": "For every interleaving of the manager process, the workers and the queue feeder threads, compute() of a DispenserManager returns [f(p) for p in params] in order whenever it returns, update_params/close/compute after close answer as documented, and under every fair schedule every call comes to an end when there is at least one worker and f raises for no parameter; if f raises for some parameter compute() never returns", "quantifier": "all functions, parameter lists, worker counts, sequences of calls and interleavings", "why_tests_cant": "schedules cannot be enumerated by tests", "anchors": ["src/zernpy/utils/intmproc.py:DispenserManager.compute", "src/zernpy/utils/intmproc.py:IndiWorker.run", "src/zernpy/utils/intmproc.py:DispenserManager.update_params", "src/zernpy/utils/intmproc.py:DispenserManager.close"]}
{"id": "C46", "title": "A second DispenserManager works after closing the first", "statement": "Creating a manager, closing it and creating another one, or using two managers at a time, computes correctly (false: the worker list is shared by all instances)", "quantifier": "all histories of managers", "why_tests_cant": "class-level shared mutable state across histories", "anchors": ["src/zernpy/utils/intmproc.py:DispenserManager.__init__", "src/zernpy/utils/intmproc.py:DispenserManager.close"]}
{"id": "C47", "title": "Bumped circle image is well formed", "statement": "get_bumped_circle(radius, max_intensity) returns a square image of odd size 4*round(max(radius,1))+1 whose pixels are integers between 0 and max_intensity, max_intensity in the middle, symmetric under mirroring and transposition, not increasing with the distance from the middle and black along the border", "quantifier": "all radii and intensities", "why_tests_cant": "all sizes", "anchors": ["src/zernpy/calculations/calc_psfs.py:get_bumped_circle"]}
{"id": "C48", "title": "Human-readable names are injective on orders", "statement": "Two different polynomials with tabulated names never share get_polynomial_name, and the textual representation contains its orders", "quantifier": "all supported polynomials", "why_tests_cant": "all orders", "anchors": ["src/zernpy/zernikepol.py:ZernPol.get_polynomial_name", "src/zernpy/zernikepol.py:ZernPol.__str__"]}
{"id": "C49", "title": "generate_random_phases returns consistent data", "statement": "generate_random_phases(max_order, w, h) returns the image, amplitudes and polynomials such that the polynomials are all those up to max_order, there is one amplitude per polynomial, at least one amplitude has absolute value >= 0.08, and the image is the one generate_phases_image draws for these polynomials and amplitudes", "quantifier": "all radial orders 0..54, image sizes and all outcomes of the random number generator", "why_tests_cant": "depends on the outcome of the random draws, which tests cannot enumerate", "anchors": ["src/zernpy/zernikepol.py:generate_random_phases"]}
{"id": "C50", "title": "Evaluation from several threads", "statement": "Several threads may call polynomial_value, radial and radial_dr of ZernPol objects (any valid orders, with or without the exact equations) at the same time in one process. However the interpreter switches between them, each call that returns has the outcome it has when it is the only call in a fresh process - in particular the value of the polynomial (orders within the documented ranges), never a KeyError, a half-written coefficient table or another polynomial's coefficients - and every call returns if no thread is starved.", "quantifier": "every number of threads, every list of calls per thread (valid orders, any radius and angle), every state the caches were left in by earlier calls, every schedule at the granularity of single dictionary/lru-cache operations, every moment", "why_tests_cant": "A race needs a particular switch point between a membership test and the access or store it guards; tests run one of the exponentially many schedules.", "anchors": ["src/zernpy/calculations/find_pols_coeffs.py: find_coeffs_orders, find_coeffs_orders_dr, precalculated dictionaries", "src/zernpy/calculations/calc_zernike_pol.py: radial_polynomial_coeffs, radial_polynomial_coeffs_dr", "src/zernpy/zernikepol.py: ZernPol.polynomial_value, ZernPol.radial, ZernPol.radial_dr"]}
{"id": "C51", "title": "Sensitivity of values to the coordinates", "statement": "On the unit disk radial_dr never exceeds (n(n+2) - m^2)/2 in absolute value and equals it at r = 1; two calls of radial at r and r' differ by at most that slope times |r - r'|; two calls of polynomial_value differ by at most normf*(slope*|r - r'| + |m|*|theta - theta'|).", "quantifier": "all valid orders (radial_dr: n-|m| <= 38, or n <= 38 with the exact equations), all radii in [0,1], all angles, all histories of earlier calls", "why_tests_cant": "a bound over a continuum of points and an unbounded family of polynomials; sampled radii can miss the steepest place", "anchors": ["src/zernpy/zernikepol.py: ZernPol.radial, ZernPol.radial_dr, ZernPol.polynomial_value"]}
{"id": "C52", "title": "The PSF is the diffraction integral up to an explicit error", "statement": "The value that the PSF calculation returns for a point (single polynomial by any of the three ways, or list of polynomials), and every pixel of a kernel that is not normalised, differs from |1/pi * integral over the pupil of exp(i*(aberration - r*p*cos(phi - theta)))*p|^2 by at most 20*(2 + Lr + |r|)/n_int_r + 110*(1 + Lt + |r|)/n_int_phi, with Lr and Lt the slopes of the aberration; hence with more integration points the calculated values tend to the integral.", "quantifier": "all polynomials and amplitudes, all points and pixels, all numbers of integration points n_int_r >= 2, n_int_phi >= 3, exact and binary64 placement of the radial nodes, all histories", "why_tests_cant": "the exact integral has no closed form to compare with, and convergence is a statement about all numbers of points", "anchors": ["src/zernpy/calculations/calc_psfs.py: get_psf_point_r, get_psf_point_r_parallel, get_psf_point_r_pols, get_psf_kernel_zerns, radial_integral"]}
{"id": "C53", "title": "Without aberration the PSF is the Airy pattern", "statement": "For piston (a constant phase of any amplitude) the diffraction integral that the PSF calculation approximates is exactly (2*J1(r)/r)^2, 1 in the focus and never above 1 (J1: Bessel's integral). The analytical option airy_pattern returns this value up to 5e-11 for every distance (the code rounds the distance to 12 digits and uses 1e-11 in place of 0), so that every pixel of the kernel made with airy_pattern=True and of the kernel integrated numerically for the same piston agree up to the accuracy of the quadrature.", "quantifier": "all distances, angles, amplitudes, sizes of kernels, optical properties, numbers of integration points, exact or binary64 placement of radial nodes, ways of calculation", "why_tests_cant": "An identity between a double integral over the pupil and a Bessel function for every real distance; tests compare a few values with tolerances.", "anchors": ["src/zernpy/calculations/calc_psfs.py: airy_ref_pattern, get_psf_kernel (airy_pattern), diffraction_integral_r, get_psf_point_r"]}
{"id": "C54", "title": "A crash while saving never leaves a file that reads as something else", "statement": "The text that save_json writes loads back to the same data. If the process stops (or json.dump raises) after any number of written characters, no other file is changed and the file is either as before the call, or complete, or read_json raises ValueError (JSONDecodeError) and leaves the reading object unchanged; it never loads with other data. A user would also expect that saving over an existing file is atomic and that a broken file is replaced by the next save_json.", "quantifier": "all objects, kernels and properties, file names, existing files, crash points (every prefix of the text), values of overwrite, reading objects", "why_tests_cant": "Crash points and file contents are unbounded; a test sees a few complete files.", "anchors": ["src/zernpy/calculations/calc_psfs.py: save_psf, read_psf", "src/zernpy/zernpsf.py: ZernPSF.save_json, ZernPSF.read_json"]}
{"id": "C55", "title": "Kernels calculated by worker processes, under every schedule", "statement": "In a program with any number of ZernPSF objects whose worker processes were started by initialize_parallel_workers() and are still open, whatever the interleaving of the processes, get_kernel_parallel() of each object either still waits or gives the kernel of the sequential calculation (never a mixture of the answers for different objects, points or angles), and under every fair schedule all of them end. The workers can be closed and started again.", "quantifier": "all numbers of objects and kernels, all polynomials, amplitudes and sizes, all schedules of manager, workers and queue feeder threads, all cache contents of the worker processes", "why_tests_cant": "interleavings of several processes and queues, shared class-level state, any number of objects", "anchors": ["src/zernpy/zernpsf.py:ZernPSF.initialize_parallel_workers", "src/zernpy/zernpsf.py:ZernPSF.get_psf_point_r_parallel", "src/zernpy/zernpsf.py:ZernPSF.get_kernel_parallel", "src/zernpy/zernpsf.py:ZernPSF.deinitialize_workers", "src/zernpy/utils/intmproc.py:DispenserManager"]}
{"id": "C56", "title": "From the user's calls to the diffraction integral", "statement": "Whatever was done with a ZernPSF object before, after an accepted set_physical_props(NA, wavelength, coefficient(s), pixel size) and any later calculations, croppings and set_calculation_props calls, calculate_psf_kernel() - accelerated or not, for one polynomial, the piston or several polynomials - returns a square kernel of the object's kernel_size whose pixel (i, j) is, before normalisation and up to the stated accuracy for the object's numbers of integration points, the diffraction integral of exactly that aberration, aperture, wavelength and pixel size at the pixel's distance and angle from the middle.", "quantifier": "all histories of calls (accepted or rejected) before and after, all accepted optical properties, all polynomials, coefficients, sizes and numbers of points, all cache contents", "why_tests_cant": "histories of a mutable object, a continuum of parameters, and an integral on the specification side", "anchors": ["src/zernpy/zernpsf.py:ZernPSF.set_physical_props", "src/zernpy/zernpsf.py:ZernPSF.set_calculation_props", "src/zernpy/zernpsf.py:ZernPSF.calculate_psf_kernel", "src/zernpy/calculations/calc_psfs.py:get_psf_kernel", "src/zernpy/calculations/calc_psfs_numba.py:get_psf_kernel_comp"]}
{"id": "C57", "title": "Accuracy of the values in double precision", "statement": "For every supported order (m, n) and every double r in [0, 1], the double returned by ZernPol.radial(r) (either route, n <= 40 with use_exact_eq) differs from the mathematical R_n^m(r) by at most 2.42^n * 2^-50: below 1e-11 up to n = 10, 1e-7 up to n = 20, 3e-4 up to n = 30; polynomial_value(r, theta) is within norm * (4 * that + |m*theta| * 2^-52) of Z(m, n). The bound holds for any math library whose power, cosine and sine are within one unit in the last place. From n = 40 on the bound gives nothing, and rightly so: values above 1 are returned although |R| <= 1.", "quantifier": "all orders, all radii that are doubles in [0, 1], all angles, both routes, all cache states, all math libraries with 1-ulp power/cos/sin", "why_tests_cant": "there are 2^62 doubles in [0, 1] per order and the result depends on the libm; a test compares a few radii with a second implementation that has the same rounding errors", "anchors": ["src/zernpy/zernikepol.py:ZernPol.radial", "src/zernpy/zernikepol.py:ZernPol.polynomial_value", "src/zernpy/calculations/calc_zernike_pol.py:radial_polynomial", "src/zernpy/calculations/calc_zernike_pol.py:radial_polynomial_eq", "src/zernpy/calculations/calc_zernike_pol.py:radial_polynomial_coeffs", "src/zernpy/calculations/calc_zernike_pol.py:normalization_factor", "src/zernpy/calculations/calc_zernike_pol.py:triangular_function"]}
{"id": "C58", "title": "Surfaces and plots show the polynomials", "statement": "gen_zernikes_surface returns a matrix with one row per radius and one column per angle whose entry (i,j) is sum_k c_k Z_k(R[i],Theta[j]), on a mesh that fills the unit disk at the requested steps. plot_profile and plot_sum_zernikes_on_fig hand matplotlib, in 2D and 3D, only points of the unit disk, each with the value of the sum at that point of the plane, and no point of the disk is farther than 1/30 from such a point (default mesh); afterwards the figure contains this drawing only, and a call that raises leaves the figure as it was.", "quantifier": "all lists of polynomials and coefficients, all steps and numbers of points, both projections, every previous figure and cache state", "why_tests_cant": "a test looks at a picture for a few polynomials; that every shown point carries the value belonging to its position in the plane (no transposed mesh, no rotated angle) ranges over all surfaces and meshes", "anchors": ["src/zernpy/zernikepol.py:gen_zernikes_surface", "src/zernpy/zernikepol.py:plot_profile", "src/zernpy/zernikepol.py:plot_sum_zernikes_on_fig", "src/zernpy/plotting/plot_zerns.py"]}
{"id": "C59", "title": "The PSF in binary64", "statement": "Computed with binary64 arithmetic (every operation rounded, numpy's power, cos, sin, abs and arctan2 accurate to one unit in the last place, np.sum adding in any order), every PSF value and every pixel of a kernel differs from the squared modulus of the diffraction integral by at most the accuracy of the quadrature (C52) plus an explicit rounding term sum of c_k-weighted value errors plus a multiple of (1 + size of the aberration + its steepness + k*NA*distance + number of points) * 2^-53; for orders up to 10, amplitudes up to 10 and up to 1000 x 1000 points the term is below 2e-7. The loop, the vectorised and the parallel calculation agree up to twice this term. A normalised kernel with positive maximum has the largest entry exactly 1.", "quantifier": "all valid polynomials (and lists of up to 2^20 of them), amplitudes, positions, wavelengths, apertures, pixel sizes, kernel sizes, 20..2^24 radial and 36..2^24 angular points, every accuracy-conforming numpy, every cache state", "why_tests_cant": "rounding errors depend on every input and on the order numpy chooses for its sums; no test sees the worst case", "anchors": ["src/zernpy/calculations/calc_psfs.py:get_psf_point_r", "src/zernpy/calculations/calc_psfs.py:get_psf_point_r_parallel", "src/zernpy/calculations/calc_psfs.py:get_psf_point_r_pols", "src/zernpy/calculations/calc_psfs.py:get_psf_kernel", "src/zernpy/calculations/calc_psfs.py:get_psf_kernel_zerns"]}
{"id": "C60", "title": "Containers shared with the caller", "statement": "ZernPSF objects own their data: nothing that a program writes later into a list of polynomials or an array of coefficients it passed in, or into a kernel it was given, changes what any object calculates, saves, crops or convolves with; and no method writes into an array or list that existed before the call. A program that never writes into containers that objects still use sees exactly what it would see if every object had private copies.", "quantifier": "all programs: any number of objects, any sequence of constructor calls, setters, calculations (loop, accelerated, parallel), crops, saves, reads, convolutions, accepted or rejected, interleaved with any writes of the caller into arrays and lists it holds, every cache state", "why_tests_cant": "aliasing shows only for particular interleavings of calls and writes; absence of interference ranges over all programs", "anchors": ["src/zernpy/zernpsf.py:ZernPSF.__init__", "src/zernpy/zernpsf.py:ZernPSF.set_physical_props", "src/zernpy/zernpsf.py:ZernPSF.calculate_psf_kernel", "src/zernpy/zernpsf.py:ZernPSF.crop_kernel", "src/zernpy/zernpsf.py:ZernPSF.read_json", "src/zernpy/zernpsf.py:ZernPSF.save_json", "src/zernpy/zernpsf.py:ZernPSF.convolute_img", "src/zernpy/zernpsf.py:ZernPSF.get_kernel_parallel"]}
{"id": "C61", "title": "Accuracy of the derivatives in double precision", "statement": "For every order for which radial_dr is right at all (C13: n <= 38 with use_exact_eq, n - |m| <= 38 otherwise) and every double r in [0, 1], the double returned by ZernPol.radial_dr(r) differs from the derivative of R_n^m at r by at most n * 2.42^n * 2^-50: below 1e-10 up to n = 10, 2e-6 up to n = 20, 1e-2 up to n = 30; triangular_dtheta(theta) is within |m| * (|m*theta| * 2^-52 + 2^-50) of the derivative of the azimuthal part. The bounds hold for any math library whose power, cosine and sine are within one unit in the last place.", "quantifier": "all orders, all radii that are doubles in [0, 1], all angles, both routes, all cache states, all math libraries with 1-ulp power/cos/sin", "why_tests_cant": "there are 2^62 doubles in [0, 1] per order and the result depends on the libm; a finite-difference test is much less accurate than the bound", "anchors": ["src/zernpy/zernikepol.py:ZernPol.radial_dr", "src/zernpy/zernikepol.py:ZernPol.triangular_dtheta", "src/zernpy/calculations/calc_zernike_pol.py:radial_derivative", "src/zernpy/calculations/calc_zernike_pol.py:radial_derivative_eq", "src/zernpy/calculations/calc_zernike_pol.py:radial_polynomial_coeffs_dr", "src/zernpy/calculations/calc_zernike_pol.py:triangular_derivative"]}
{"id": "C62", "title": "Images with enough pixels determine the coefficients, and noise stays bounded", "statement": "fit_polynomials on an image of any shape with (N+1)(N+3) or more pixels across the cropped circle (for sides above 4000 pixels: N <= 22) is well posed for every list of distinct polynomials of order at most N: the values of the polynomials at the pixels that crop_phases_img selects are linearly independent, so exact data returns the exact coefficients (rounded to the requested digits) without any further condition, and an error of at most eps in every pixel changes every coefficient by at most K*eps plus the rounding, with K depending only on image size, crop radius, border mode and polynomials - not on the image or the solver. For images of any size the fitted wavefront differs from the true one in the root mean square over the pixels by at most eps.", "quantifier": "all image sizes, all images, all lists of distinct polynomials, all coefficients, all noise patterns bounded by eps, all crop radii in [0.5, 1], both border modes, every rounding of the crop's arithmetic (binary64 included), every least-squares solver", "why_tests_cant": "linear independence at the actual pixel grid for every size and every set of polynomials, and a noise bound for every noise pattern, quantify over infinitely many images", "anchors": ["src/zernpy/calculations/fit_zernike_pols.py:crop_phases_img", "src/zernpy/calculations/fit_zernike_pols.py:fit_zernikes", "src/zernpy/zernikepol.py:fit_polynomials"]}
{"id": "C63", "title": "Round trip from generated phase image to fitted coefficients", "statement": "Fitting the image made by generate_phases_image with the same polynomials returns the coefficients it was generated with: exactly for a constant wavefront, and for any wavefront up to the discretisation of the radius (the radius used by the fit and the one used by the generator differ by at most 1/(half+1) + 0.0025 on an image of 2*half+1 pixels).", "quantifier": "all lists of distinct polynomials, all coefficients, all image sizes, both border modes, all crop radii in [0.5, 1], every rounding of the crop's arithmetic, every least-squares solver, every cache state", "why_tests_cant": "the repository tests a few sizes with loose tolerances; the claim is about every size, wavefront and solver", "anchors": ["src/zernpy/zernikepol.py:generate_phases_image", "src/zernpy/zernikepol.py:fit_polynomials", "src/zernpy/calculations/fit_zernike_pols.py:crop_phases_img"]}
{"id": "C64", "title": "Sums and phase images are accurate in double precision", "statement": "In double precision, sum_zernikes (at a point or as a surface) differs from the exact sum of the polynomials by at most 2*sum|c_k|N_k(4*2.42^n_k*2^-50+|m_k|*2^-49) + 4*K*(sum|c_k|N_k+1)*2^-53 for K terms; generate_phases_image puts every pixel on the correct side of the aperture edge (rounding never moves a pixel across it), background pixels are exactly zero, and pixels inside differ from the exact wavefront at the pixel by at most that plus (4*radial slope + 24*angular slope)*2^-53. For orders up to 10, amplitudes adding up to 10 and up to 1000 polynomials this is below 3e-9.", "quantifier": "all lists of up to 2^20 polynomials, all coefficients, all radii and angles within (-7, 7), all image sizes up to 2^25 x 2^25, all pixels, all cache states, every implementation of power, cos, sin and arctan2 that is accurate to one unit in the last place", "why_tests_cant": "accuracy at every point, for every list of polynomials and for every mathematical library; a pixel on the wrong side of the edge would appear for isolated sizes only", "anchors": ["src/zernpy/zernikepol.py:ZernPol.sum_zernikes", "src/zernpy/zernikepol.py:generate_phases_image", "src/zernpy/zernikepol.py:ZernPol._sum_zernikes_meshgrid"]}
{"id": "C65", "title": "Coefficients are root-mean-square wavefront errors, and what they say about the PSF", "statement": "The mean over the aperture of the surface given by sum_zernikes is the coefficient of the piston, and its mean square is the sum of the squared coefficients. The intensity that the PSF approximates is everywhere between 0 and 1; changing the coefficients by e (root sum of squares) changes it nowhere by more than 2e; its central value (Strehl ratio) is at least (1-s^2/2)^2, with s^2 the sum of squared coefficients without piston, and for small aberrations without piston it lies between 1-s^2 and 1-s^2(1-2/5 size^2). The unnormalised kernels calculated in double precision satisfy the same up to the errors of C52 and C59.", "quantifier": "all lists of distinct polynomials, all coefficients, all points of the image plane, all kernel sizes, numbers of integration points and physical parameters, all cache states", "why_tests_cant": "orthonormality, Cauchy-Schwarz and bounds at every point and for every wavefront are statements about integrals", "anchors": ["src/zernpy/zernikepol.py:ZernPol.sum_zernikes", "src/zernpy/calculations/calc_psfs.py:diffraction_integral_r", "src/zernpy/calculations/calc_psfs.py:get_psf_kernel", "src/zernpy/zernpsf.py:ZernPSF.calculate_psf_kernel"]}
{"id": "C66", "title": "A tilt moves the PSF without changing it", "statement": "Adding a tilt (1,1) or (-1,1) to any list of aberrations moves the unnormalised kernel: with coefficient a such that 2a = (2 pi/wavelength) NA px d for a whole number d, every pixel value of the new kernel is exactly the value d columns (rows) further in the kernel without the tilt; a single tilt with alpha = pi NA px d gives the unaberrated PSF moved by d pixels; in double precision this holds up to |2a - (2 pi/wavelength) NA px d| and the errors of C52 and C59. The underlying intensity moves by (2a, 2b) for any coefficients.", "quantifier": "all lists of polynomials, positions of the tilt in the list, amplitudes, physical parameters, whole numbers of pixels, kernel sizes, numbers of integration points, pixels, calculation methods and cache states", "why_tests_cant": "equality of all pixels for every aberration and parameter", "anchors": ["src/zernpy/calculations/calc_psfs.py:get_psf_kernel_zerns", "src/zernpy/calculations/calc_psfs.py:get_psf_kernel", "src/zernpy/zernpsf.py:ZernPSF.calculate_psf_kernel"]}
{"id": "C67", "title": "Turned and mirrored aberrations give turned and mirrored PSFs", "statement": "If one aberration is another one turned by an angle and possibly mirrored, the PSF is turned and mirrored in the same way. In particular for unnormalised kernels, up to twice the errors of C52 and C59: changing the sign of the sine terms turns the kernel upside down; changing the sign of odd azimuthal orders turns it by 180 degrees; both mirror it left-right; with even orders only the kernel is symmetric under half a turn and does not depend on the sign of the aberration; with orders divisible by four it is symmetric under a quarter turn; with spherical terms only, pixels at the same distance from the centre have the same value.", "quantifier": "all lists of polynomials, coefficients, angles, physical parameters, kernel sizes, numbers of integration points, pixels and cache states", "why_tests_cant": "symmetry of every pixel for every aberration; the quadrature itself is not symmetric (C31), so that the symmetry holds only up to its error", "anchors": ["src/zernpy/calculations/calc_psfs.py:get_psf_kernel_zerns", "src/zernpy/zernpsf.py:ZernPSF.calculate_psf_kernel"]}
{"id": "C68", "title": "Default (normalised) kernels are accurate, and pixel values change slowly", "statement": "The kernel returned by default (divided by its maximum) has values at most 1, contains the value 1, and differs at every pixel from the exact intensity divided by the largest exact intensity on the kernel by at most 3T/((1-s^2/2)^2-T) + 2^-52, where T bounds the errors of C52 and C59 on the kernel and s is the root-mean-square aberration without piston. Exact intensities at two points differ by at most the distance of the points; unnormalised values of two pixels differ by at most (2 pi/wavelength) NA px times their distance in pixels, up to the errors.", "quantifier": "all lists of distinct polynomials with s^2 <= 2, physical parameters, kernel sizes, integration points, pixels and cache states", "why_tests_cant": "the error of the quotient depends on how small the maximum can become, which needs the Strehl bound for every aberration", "anchors": ["src/zernpy/calculations/calc_psfs.py:get_psf_kernel_zerns", "src/zernpy/zernpsf.py:ZernPSF.calculate_psf_kernel"]}
{"id": "C69", "title": "Accelerated PSF kernels in floating-point arithmetic", "statement": "For every polynomial the accelerated calculation handles (n <= 10 except |m| = n = 8, 9, 10), get_psf_kernel with acceleration performs, rounding included, the same operations as the normal vectorised calculation: with the same library functions every entry of the kernel has the same bits, for one polynomial and for lists, whatever the parameters. With numba's own versions of the library functions (accurate to one unit in the last place, any order of summation) every pixel is still within the proven quadrature error plus the proven rounding error of the diffraction integral, and the accelerated and the normal kernel differ by at most twice the rounding bound.", "quantifier": "all polynomials handled, amplitudes, wavelengths, apertures, pixel sizes, kernel sizes, numbers of integration points, all library functions with the stated accuracy, all orders of summation", "why_tests_cant": "agreement of the two code paths must hold for every input and every admissible behaviour of two mathematical libraries; tests compare a few kernels with a tolerance on one machine", "anchors": ["src/zernpy/calculations/calc_psfs_numba.py: zernpol_value, diffraction_integral_r_comp, radial_integral_comp, get_psf_point_r_comp, get_psf_kernel_comp, pol_sums", "src/zernpy/calculations/calc_psfs.py: get_psf_kernel, get_psf_kernel_zerns"]}
{"id": "C70", "title": "Convolution of images in binary64", "statement": "In binary64 arithmetic, convolute_img with a kernel of nonnegative weights returns at every pixel a value within (6n+3) 2^-53 times the largest pixel of the exact weighted mean (n weights, in whatever order numpy sums the kernel); integer images keep their range and, with scale2original, their largest pixel.", "quantifier": "every image, every kernel of up to 2^42 nonnegative binary64 weights above DBL_EPSILON or zero, every order of summation, every pixel", "why_tests_cant": "rounding errors depend on all weights and on the unspecified order of numpy's sum; a test sees one kernel and one order", "anchors": ["src/zernpy/calculations/calc_psfs.py:convolute_img_psf", "src/zernpy/zernpsf.py:ZernPSF.convolute_img"]}
{"id": "C71", "title": "Noise in a fitted image is amplified by an explicit factor", "statement": "fit_polynomials on a phase image (default crop radius 1, strict borders or an image for which the border is not widened) with pixel values = wavefront of the coefficients a + noise returns the rounded values of coefficients whose distance from a (root of the sum of squared differences) is at most 2/w times the root of the sum of squares of the noise over the used pixels, for every w such that the image resolves the polynomials over w pixels; all sets of distinct polynomials of order up to 1, 2, 3, 4 are resolved when the radius of the circle is at least 12.5 w, 50 w, 175 w, 430 w pixels. In particular without noise the coefficients come back up to the documented rounding.", "quantifier": "all image sizes, noise values, coefficient values, sets of distinct polynomials, w, rounding functions of the crop (sane), least-squares solvers that meet numpy's documented contract, module states", "why_tests_cant": "The factor is a worst case over all coefficient vectors and all noise patterns (smallest singular value of a matrix whose size grows with the image); a test sees one noise realisation.", "anchors": ["src/zernpy/zernikepol.py: fit_polynomials", "src/zernpy/calculations/fit_zernike_pols.py: crop_phases_img, fit_zernikes"]}
{"id": "C72", "title": "Fitting an image in binary64: error of the coefficients", "statement": "With crop coordinates, polynomial values and the final rounding computed in binary64 (numpy's power, cosine, sine, arctan2 within one unit in the last place) and a least-squares solver that is backward stable with relative error eta, fit_polynomials on an image with pixel values = wavefront of coefficients a + noise returns coefficients whose distance from a (root of the sum of squares, before the rounding to digits) is at most 4/w ((1+eta) |noise| + (matrix error + eta sqrt(pixels) size) |a|), with an explicit matrix error (at most 11 sqrt(pixels) (2^-42 + eta) for orders up to 4); after numpy.round every coefficient is off by at most that, half a unit of the last kept digit and relative 2^-51. Without rounding the program is the exact one. Empty, repeated and foreign polynomials are rejected as in the exact model.", "quantifier": "all image sizes up to 2^25, noise, coefficients, sets of distinct polynomials resolved over w pixels, eta >= 0, functions within one ulp, backward stable solvers, module states, 0 <= digits <= 22", "why_tests_cant": "A worst case over all images, coefficients and admissible library roundings; tests see one platform and a few images.", "anchors": ["src/zernpy/zernikepol.py: fit_polynomials", "src/zernpy/calculations/fit_zernike_pols.py: crop_phases_img, fit_zernikes"]}
{"id": "C73", "title": "compare_performances, the half-pyramid figure and check_conformity do what they say for every order range and every earlier computation", "statement": "compare_performances(min_order, max_order) with 0 <= min_order <= max_order <= 54 times every valid polynomial with min_order <= n <= max_order exactly once, in both modes, and returns both elapsed times in ms; the number in its 'Used polynomials' message is one less than the number of polynomials timed. An empty range ends in UnboundLocalError, an order outside 0..54 in ValueError. The half-pyramid figure shows in row i exactly the polynomials with n = i+1, each once, ordered by m and right-aligned. check_conformity passes all its assertions whatever was computed before.", "quantifier": "all integer order ranges, all clock readings, all reachable states of the coefficient tables, all cells of the figure", "why_tests_cant": "the order range and the history of the coefficient tables are unbounded; the figure is only looked at by eye", "anchors": ["src/zernpy/zernikepol.py:compare_performances", "src/zernpy/zernikepol.py:ZernPol._plot_zernikes_half_pyramid", "src/zernpy/zernikepol.py:check_conformity"]}
{"id": "C74", "title": "The normalised kernel of a weak aberration is proper: finite values in [0, 1] with maximum 1", "statement": "If the sum over the polynomials of |coefficient in wavelengths| times the norm of the polynomial is below pi/2, the normalised kernel has only finite values in [0, 1] and attains 1, so that no division 0/0 can produce NaN - for every method, every kernel size, every number of nodes, one or several polynomials, with and without acceleration; also when every operation is rounded to double precision, as long as the rounding error at the focus stays below 3/4 cos^2 of that sum. In particular calculate_psf_kernel() of a ZernPSF object with such coefficients returns a proper kernel and stores it, whatever was done with the object before, and crop_kernel() keeps it proper.", "quantifier": "all polynomials and coefficients below the bound, all physical parameters, all kernel sizes and numbers of integration nodes, all methods, all earlier computations", "why_tests_cant": "the parameters are real numbers and the sizes unbounded; a zero maximum would only show at special parameters", "anchors": ["src/zernpy/calculations/calc_psfs.py:get_psf_kernel", "src/zernpy/calculations/calc_psfs.py:get_psf_kernel_zerns", "src/zernpy/calculations/calc_psfs_numba.py:get_psf_kernel_comp"]}
{"id": "C75", "title": "force_get_psf_compilation returns two usable PSF objects after any history, or None without numba", "statement": "Without numba force_get_psf_compilation() warns and returns None. With numba, whatever was computed before, it returns a pair of ZernPSF objects with the documented parameters whose kernels are [[1.0]] and a proper 3 x 3 kernel, and marks the methods as compiled. It should warn about numba exactly for versions older than 0.57.1; it misses older ones with a patch number (0.56.4), and a two-part version up to 0.57 makes it fail with IndexError.", "quantifier": "all states of the coefficient tables, all version strings (as lists of parts), both installation states", "why_tests_cant": "a test runs with the one installed version of numba and from one history", "anchors": ["src/zernpy/zernpsf.py:force_get_psf_compilation"]}
{"id": "C76", "title": "The bundled self-checks test what they say and pass for every order range and every earlier computation", "statement": "compare_radial_calculations(max_order) and compare_radial_derivatives(max_order) test every valid polynomial with n < max_order exactly once (at least (0,0)), in OSA order, at 21 radii; whatever two implementations such a check compares, if it returns a matrix every entry is the difference rounded to the stated number of digits and no difference reaches the tolerance by more than the rounding, and if it raises AssertionError some difference does come that close. In exact arithmetic all five checks (radial, derivatives, coefficient tables, their derivatives, high orders) pass for every max_order and after every history of calls, the first four with a matrix of zeros; in binary64 the first passes with exact zeros for max_order <= 15 and the second for max_order <= 12. check_equal_coeffs returns True exactly for dictionaries with the same items in any order, and raises only KeyError, when the numbers of items agree but a key is missing; test_coeffs_calc and test_coeffs_dr_calc succeed after any history; and whatever the tables contain, success means that each of the named polynomials was computed and agreed with its table entry, and an AssertionError that one did not. The check of the derivative tables stops at n = 39 and therefore cannot see the wrong derivative of (0, 40).", "quantifier": "all max_order arguments, all histories of calls, all pairs of dictionaries, all compared implementations; binary64: every accurate power function", "why_tests_cant": "these functions are the tests; whether they pass for another max_order, after other calls, or on another numpy, and what a pass implies, is a statement over all of those", "anchors": ["src/zernpy/calculations/calc_zernike_pol.py: compare_radial_calculations, compare_radial_derivatives, compare_recursive_coeffs_radials, compare_recursive_coeffs_radials_dr, check_high_orders_recursion", "src/zernpy/calculations/find_pols_coeffs.py: check_equal_coeffs, test_coeffs_calc, test_coeffs_dr_calc"]}
{"id": "C77", "title": "The figures of a ZernPSF object show its current kernel and the image blurred by it", "statement": "plot_kernel() draws exactly the kernel that the object has - after calculate_psf_kernel() the one it returned - on the figure with its title, and changes no other open figure. Two objects use the same figure only if they have the same identifier and the same polynomial with coefficients that differ by at most 0.01, are both Airy patterns, or have the same list of polynomials (whatever their coefficients: these kernels are drawn over each other). visualize_convolution(radius, max_intensity) with an intensity of 1..65535 and any proper kernel (C74) never fails and draws two square pictures of the same size: the disk of C47, and its convolution with the kernel rescaled so that the maximum is max_intensity, rounded down, with values 0..max_intensity; for a new object both pictures are the same. Larger intensities raise OverflowError before a figure is opened; for intensities up to 0 the second picture is the conversion of NaN everywhere.", "quantifier": "all objects, kernels, identifiers, open figures, radii and intensities, and every history of the object before the call", "why_tests_cant": "Figures depend on the whole history of open figures and of the object, and the brightness of the blurred disk on every kernel; tests draw one example and nobody compares the picture.", "anchors": ["src/zernpy/zernpsf.py: ZernPSF.plot_kernel, ZernPSF.visualize_convolution, ZernPSF.convolute_img", "src/zernpy/calculations/calc_psfs.py: get_bumped_circle, convolute_img_psf"]}
{"id": "C78", "title": "Peak-to-valley values of surfaces", "statement": "The peak-to-valley value of a sum of polynomials (the least upper bound of the differences between its values on the unit disk) exists and is unique; the difference between the largest and the smallest element of the surface that gen_zernikes_surface returns never exceeds it and misses it by at most 2*(steepness along the radius * r_step + steepness along the angle * theta_step). It is 2*N*|c| for every polynomial with m <> 0 or n = 2, 6, 10, ..., 0 for the piston, and between N*|c| and 2*N*|c| otherwise; it scales with |a| when all coefficients are multiplied by a, obeys the triangle inequality and does not depend on the piston. The script define_pv_values.py prints for each of the 36 polynomials up to order 7 this value up to the mesh and its rounding, and finds for each of the 35 others a coefficient that is the first of 0.02, 0.04, ..., 3 for which the value passes the goal.", "quantifier": "all lists of coefficients and valid polynomials, all steps accepted by gen_polar_coordinates (exact or binary64 coordinates), all numbers of points up to 2^26, all reachable module states", "why_tests_cant": "the peak-to-valley value is an extremum over a continuum, for all sums and all meshes; tests see single meshes", "anchors": ["src/zernpy/examples/define_pv_values.py", "src/zernpy/zernikepol.py: gen_zernikes_surface, sum_zernikes"]}
{"id": "C79", "title": "From a measured phase image to its PSF", "statement": "Fitting a phase image (fit_polynomials) and passing the fitted coefficients to the PSF calculation (get_psf_kernel_zerns) gives, at every pixel of the kernel, the diffraction integral of the true wavefront up to twice the root mean square error of the fitted coefficients plus the error of the quadrature and of the rounding; the error of the fitted coefficients is bounded by the noise of the pixels, the accuracy of the solver and half a unit of the last decimal kept.", "quantifier": "every image (size, values, noise at the pixels), every set of polynomials the image resolves, true coefficients, number of decimals, solver accuracy, PSF parameters, pixel, and history of earlier calls", "why_tests_cant": "a continuum of images, noise and wavefronts and the composition of two numerical methods; a test compares two numbers for one image", "anchors": ["src/zernpy/zernikepol.py: fit_polynomials", "src/zernpy/calculations/fit_zernike_pols.py: crop_phases_img, fit_zernikes", "src/zernpy/calculations/calc_psfs.py: get_psf_kernel_zerns"]}
{"id": "C80", "title": "Estimated kernel size", "statement": "After every accepted call of set_physical_props, kernel_size is the documented empirical estimate: for one polynomial determined by |m|, n, the amplitude in wavelengths without sign, wavelength/pixel size and (for piston only) NA; for several polynomials the largest of their estimates plus pixels that depend on the largest amplitude. Hence it does not depend on signs, on the unit of length or on the order of the polynomials, never decreases with smaller pixels or (within amplitudes below or from half a wavelength) larger amplitudes, and covers the central disk of the diffraction limited spot for piston with NA >= 0.1 and for every polynomial with NA >= 1. Across half a wavelength it may shrink, and at lower NA it need not cover the disk.", "quantifier": "every object reachable by any history of calls, every polynomial or list of polynomials, all accepted physical properties and coefficients, every permutation of a list and every unit of length", "why_tests_cant": "the parameters are continuous and the lists arbitrary; the exceptions (0.49 against 0.5 wavelengths, disk not covered) are only visible when the ranges are compared as a whole", "anchors": ["src/zernpy/zernpsf.py: ZernPSF.set_physical_props (235-262)", "src/zernpy/calculations/calc_psfs.py: get_kernel_size (285-335)"]}
{"id": "C81", "title": "Warnings of a PSF object", "statement": "The calls of a ZernPSF object warn exactly when they should, and only warn. An accepted set_physical_props warns at most once, exactly if some coefficient is more than ten wavelengths, and a rejected one not at all. set_calculation_props warns about the size exactly if the requested size (made odd) is below the size in the object, or that the physical properties are not set. A successful calculate_psf_kernel reports a bright border exactly if a pixel on the border of the returned kernel exceeds 5 percent of every pixel, a too large pixel exactly if the pixel is larger than half the Airy radius, and the defaults, the missing numba and the long calculation exactly in those situations. With suppress_warnings=True nothing is shown and, once the physical properties are set, result and object are the same. The size estimated for an Airy pattern with NA >= 1 never gives the border warning. Two exceptions are in the code: before set_physical_props the flag decides whether the kernel is 1 or 19 pixels, and the pixel warning is unreachable as long as every set_physical_props is accepted.", "quantifier": "every object reachable by any history of calls, all arguments of the three methods (accepted or rejected), every kernel, every state of the shared containers", "why_tests_cant": "exactly-when statements over continuous properties and whole kernels; that a warning cannot appear (dead code) holds for all histories of calls", "anchors": ["src/zernpy/zernpsf.py: ZernPSF.set_physical_props, set_calculation_props, calculate_psf_kernel, _sanity_check_expansion_coefficient (187-319, 368-421, 766-791)", "src/zernpy/calculations/calc_psfs.py: get_psf_kernel, get_psf_kernel_zerns (338-488, 606-705)", "src/zernpy/calculations/calc_psfs_numba.py: get_psf_kernel_comp (273-406)"]}
