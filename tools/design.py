"""design.py: DESIGN.md = tools/design_head.md + one row per property (from properties.jsonl, MANIFEST.json, ROWS below) + tools/design_tail.md."""
import json, re
ROWS = {
"C01": ("M_Index", "bijection and strict monotonicity by `nia` on triangular numbers; no bound on n"),
"C02": ("M_Index", "same; the four parity branches of the code against a declarative order"),
"C03": ("M_Index", "same, with the integer square root for surjectivity"),
"C04": ("M_Index (search loops)", "loop invariants: a match is returned iff it exists below the loop limit; uniqueness from C01-C03"),
"C05": ("M_Index", "false of the code: witness, and the exact value returned past the end of the loops"),
"C06": ("M_Index", "from C01, C02, C04"),
"C07": ("M_Index", "from C01, C03, C04; the literal composition fails on the type of the result (numpy integer)"),
"C08": ("M_Init", "exact acceptance set by case analysis over arbitrary keyword lists; refutation (abs m > n)"),
"C09": ("M_Init", "permutations of keywords, aliases; SpecInit says what a keyword set denotes"),
"C10": ("M_Init", "order laws; refutation of trichotomy for the accepted abs m > n objects"),
"C11": ("M_Radial, M_Coeffs", "strong induction on n, RadialMath: three-term recurrence of the factorial sum; tables by `ring`"),
"C12": ("M_Radial, M_Coeffs", "each route equals the factorial sum"),
"C13": ("M_Radial, M_Coeffs", "Coquelicot `is_derive`; exact error of the wrong route from R'(1) <> 1"),
"C14": ("M_Radial", "bound by rotation invariance of the Bombieri norm (L_Bound)"),
"C15": ("M_Radial", "Riemann integrals (Coquelicot), iterated integration by parts"),
"C16": ("M_Radial", "trigonometry, `is_derive`"),
"C17": ("M_Coeffs", "from C14, C16"),
"C18": ("M_Coeffs", "invariant of the module-level tables over every history of calls, aborted ones included"),
"C19": ("M_Coeffs", "support and values of the dictionaries, induction on n"),
"C20": ("M_Sum", "list induction; SpecSum is a plain sum"),
"C21": ("M_Sum", "Permutation, linearity"),
"C22": ("M_Polar", "false of the code; each branch of the step checks characterised"),
"C23": ("M_Polar", "exact and Flocq binary64 `arange`; `interval`-free error analysis; refuting steps by computation"),
"C24": ("M_Sum", "induction over the container; NaN as a value of the float type"),
"C25": ("M_Init", "loop invariant"),
"C26": ("M_Phases", "pixel geometry over R; SpecPhases is independent of the loops"),
"C27": ("M_Crop", "for every monotone faithful rounding; instantiated with exact and binary64 arithmetic"),
"C28": ("M_Fit", "least squares: uniqueness under independence; independence from orthogonality (L_Indep)"),
"C29": ("M_Fit", "normal equations (L_LinAlg)"),
"C30": ("M_Psf", "triangle inequality on complex sums; binary64 node placement (L_PsfNodes)"),
"C31": ("M_Psf", "false of the code; closed form of the focus value"),
"C32": ("M_Psf", "loops of the kernel functions"),
"C33": ("M_Psf", "list of one = single"),
"C34": ("M_Psf", "common phase factor has modulus one"),
"C35": ("M_Psf", "reindexing the angle sum by pi"),
"C36": ("M_Numba", "table comparison; refutation for abs m = n in 8..10"),
"C37": ("M_Psf, M_PsfClass", "the three evaluation strategies; class level refutations"),
"C38": ("M_PsfClass", "case analysis on the argument"),
"C39": ("M_PsfClass", "invariant over all histories (SpecPsfClass.reachable)"),
"C40": ("M_PsfClass", "same"),
"C41": ("M_PsfClass", "state before and after every rejected call"),
"C42": ("M_PsfClass", "loop of crop_kernel"),
"C43": ("M_PsfClass", "file as a dictionary; writer and reader arbitrary"),
"C44": ("M_Img", "SpecImg: mirrored extension and convolution sum; scipy as a contract; one binary64 refutation"),
"C45": ("M_Disp", "interleaving semantics, inductive invariant for safety, ranking for fair termination"),
"C46": ("M_Disp", "false of the code: what a second manager returns, for every schedule"),
"C47": ("M_Img", "pixel geometry and roundings"),
"C48": ("M_Init", "finite table"),
"C49": ("M_Phases", "random source as an arbitrary oracle"),
"C50": ("M_Threads", "rely-guarantee over atomic cache operations; refinement to M_Coeffs; fair termination"),
"C51": ("M_Radial, M_Coeffs", "Bernstein/Markov-type bound R' <= n^2 via the coefficients of the Chebyshev-like expansion, mean value theorem"),
"C52": ("M_Psf", "Riemann-sum error of a Lipschitz integrand in both variables"),
"C53": ("M_Psf", "differentiation under the integral sign: (x J1)' = x J0"),
"C54": ("M_Json", "character-level printer and parser; prefix-freeness; file as a sequence of writes with a crash after any of them"),
"C55": ("M_PsfPar, M_Disp", "the calls that ZernPSF makes on its manager, run by the dispenser model; invariant for several managers with one function; refinement to M_PsfClass.get_kernel_parallel"),
"C56": ("M_PsfClass", "composition: state invariant of every history (attributes = last accepted arguments) + C32/C36/C52/C53 for the calculation"),
"C57": ("M_Float", "standard model of rounding (Flocq FLT) along each route: table, coefficients, recurrences; condition number 4^n of the coefficient form; the refutation runs the rounded program on dyadics in the kernel"),
"C58": ("M_Plot", "composition of C20 and C23; Z depends on (rho cos phi, rho sin phi) only; density of the mesh"),
"C59": ("M_FloatPsf", "rounded copy of M_Psf; forward error analysis: phase (C57 values, rounded sums), field (Lipschitz), np.sum of any bracketing, trapezoid, Simpson, modulus; pixel coordinates by relative errors; combined with C52"),
"C60": ("M_Alias", "heap of arrays and lists, objects with references; step-indexed simulation with a machine of values (SpecAlias) for careful programs, a weaker simulation that forgets kernels and coefficients for all programs; refuting programs"),
"C61": ("M_FloatDr", "as C57 along each derivative route: table, direct formulas, recurrences (n times the bound of C57 dominates the recurrence), dictionaries and exact equation up to order 38 with computed error constants; triangular_dtheta from the Lipschitz bound"),
"C62": ("M_Crop, M_Fit, M_Sum", "Zernike sums as polynomials in x and y of degree N; the selected pixels contain N+1 points on each of N+1 lines through the centre (integer slopes), a polynomial that vanishes there is zero, and distinct Zernike polynomials are independent; noise: positive lower bound of the quadratic form by induction over the columns, minimality of the solution"),
"C63": ("M_Phases, M_Crop, M_Fit", "exact pixel coordinates of both programs for odd sides, Lipschitz constant of the wavefront in the radius, then the noise bound of C62; refutations: normal equation of one polynomial (tilt on small images, piston on even sides, where a diagonal pixel outside the disk is selected)"),
"C64": ("M_FloatSum, M_Float", "sum loop: induction on the list with the accumulated error, value errors of C57; aperture: integers up to 2^53 and monotone rounding give exactness; pixel coordinates: Lipschitz constants of the wavefront (C51, C52)"),
"C65": ("M_Sum, M_FloatPsf", "orthonormality of C19 as integrals over the disk (separation of variables), linearity and Cauchy-Schwarz for the mean; |e^{ia}-e^{ib}| <= |a-b|; cos x >= 1-x^2/2; kernels by C59"),
"C66": ("M_Psf, M_FloatPsf", "the phase at every pupil point is the one of the moved pixel, so every quadrature node contributes the same; binary64 by C59 and the sensitivity of C65"),
"C67": ("M_FloatPsf", "substitution phi -> +-phi + a in the integral over a period; parity and periodicity of cos(m phi), sin(m phi); kernels by C59"),
"C68": ("M_FloatPsf", "maximum of perturbed values; lower bound of the maximum by the central pixel (C65); tilts as shifts (C66) and the sensitivity of C65 for the slope"),
"C69": ("M_FloatNumba: zernpol_value with its table of expressions, pol_sums, get_psf_kernel_comp, every operation rounded", "Table of expressions equal to the normal one except np.power(r, 0); congruence of the whole program in the phase (pure in the caches for n <= 12); bounds from C59; agreement through the common exact quadrature sum"),
"C70": ("convolute_img_psf with every operation rounded and np.sum any bracketing of any permutation", "forward error analysis: additions of binary64 numbers have no underflow error (Flocq), products and quotients do; the accumulating loop is one bracketing; concrete rounding computed with Flocq for the refutation"),
"C71": ("the models of crop_phases_img (M_Crop), fit_zernikes and fit_polynomials (M_Fit)", "a wavefront with coefficient squares 1 reaches 0.99 somewhere in the disk (mean square, C68); it changes by at most 0.49 over w pixels (slopes of the polynomials, Cauchy-Schwarz), so w*w pixels have values of 1/2 or more; this bounds the least-squares matrix from below"),
"C72": ("M_FloatFit: fcrop, fcolumn, ffit_zernikes, fround, ffit_polynomials (binary64)", "entrywise error of the matrix from C57 and the angle error; Frobenius norms and the lower bound of C71; perturbation of the least-squares solution; numpy.round in binary64"),
"C73": ("compare_performances, _plot_zernikes_half_pyramid, check_conformity", "induction over the rows; OSA numbering for completeness; the C24 evaluation lemmas and the C58 mesh lemmas for the calls"),
"C74": ("get_psf_kernel, get_psf_kernel_zerns, get_psf_kernel_comp (real and binary64 versions)", "at the focus every term of the real part is non-negative and the outermost is positive, as all phases are below a quarter period; in binary64 the value at the focus is at least 3/4 cos^2(size) minus the rounding bound of C59, x/x = 1 and rounding is monotone"),
"C75": ("force_get_psf_compilation", "physical_ok (C41) for the set-up, C36 for the two kernels, C74 for their values"),
"C76": ("calc_zernike_pol.py 563-777, find_pols_coeffs.py 358-449 (M_Selfcheck.v)", "tested orders enumerated through the OSA index; zero differences from C12/C13, error bounds of C57/C61 for binary64; tables only grow over histories, with the invariant of C18"),
"C77": ("plot_kernel, visualize_convolution (M_PlotPsf.v), convolute_img_psf, get_bumped_circle (M_Img.v), kernels of M_PsfClass.v", "figures as a list with one entry per title; every window of n pixels of the mirrored disk contains the middle pixel, so the blurred disk is not black and the scaling is defined; weights up to DBL_EPSILON only drop terms"),
"C78": ("gen_zernikes_surface (M_Plot), np.max and np.min over a matrix, the two loops of define_pv_values.py (M_Pv)", "the mesh is dense in the disk (C58), so by the Lipschitz bounds of the polynomials its extremes are close to those on the disk; exact values from R(1) = 1, R_n^0(0) = (-1)^(n/2) and the extremes of cosine and sine; the lower bound N|c| by contradiction with the orthogonality to the piston; the search by induction over the amplitudes, its success by 35 integer inequalities checked by computation"),
"C79": ("M_ImgPsf.measured_psf: the two calls one after the other, on the state of the module", "perturbation of the coefficients (C72) and rounding to decimals, sensitivity of the diffraction integral (C65), accuracy of the kernel (C59), monotonicity of its error bound in the coefficients"),
"C80": ("M_Psf.get_kernel_size, M_PsfClass.estimate_size (written for C39/C40)", "case analysis of the code against the specification, uniqueness of rounding, invariant of reachable objects"),
"C81": ("M_Warn (the three methods and the three kernel functions with the list of their warnings)", "erasure lemmas relating them to M_PsfClass, case analysis, invariant of settled objects, bound of the Airy pattern"),
}
try:
    from design_rows import ROWS as MORE
    ROWS.update(MORE)
except ImportError: pass
props = [json.loads(l) for l in open('/verif/properties.jsonl')]
man = {c['property']: c for c in json.load(open('/verif/MANIFEST.json'))['claims']}
out = open('/verif/tools/design_head.md').read()
out += '\n## Properties: what is modelled, how it is proved, what is left\n\n| id | property | model | proof | status | remark |\n|---|---|---|---|---|---|\n'
for p in props:
    i = p['id']; m, h = ROWS[i]; c = man[i]
    out += f"| {i} | {p['title']} | `{m}` | {h} | {c['status']} | {c['note'].replace('|', chr(92)+'|')} |\n"
out += '\n' + open('/verif/tools/design_tail.md').read()
open('/verif/DESIGN.md', 'w').write(out)
