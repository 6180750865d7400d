## Defects of the pinned commit that the model exhibits (each is a theorem)

1. `ZernPol(n=.., m=..)` accepts |m| > n for n > 0 (C08); comparison of such objects is not trichotomous (C10).
2. `index2orders` and the `*2*` conversions return orders of another polynomial past the end of their search loops (C05, C06); `fringe2osa(osa2fringe(i))` raises because the intermediate value is a numpy integer (C07).
3. `radial_dr` is wrong for every polynomial with n-|m| >= 40 (calc_zernike_pol.py 550-551) (C13).
4. `gen_polar_coordinates` never rejects a step (C22); in binary64 a radius can repeat and the end can differ from 1.0 (C23).
5. NaN radii, sets and all-zero surfaces escape the check of radii (C24).
6. The Simpson weights of the PSF drop points: focus value ((n-2)/n)^2 or ((n-1)/n)^2 (C31); an extra binary64 node puts values above 1 (C30).
7. Accelerated values of (+-8,8), (+-9,9), (+-10,10) lack normalisation and angular part; every n > 10 is rejected; an int amplitude fails (C36).
8. ZernPSF: wavenumber of the previous wavelength (C39), NA = 0 accepted (C39), kernel_size 1 (C40), rejected calls that change attributes (C41), stale k and TypeError in get_kernel_parallel (C37), non-sequence arguments accepted (C38).
9. JSON: kernel_size re-estimated, Airy flag not stored (a piston object that reads a tilt calculates the Airy pattern, C56), stale file kept by `overwrite=False` (C43); overwriting is not atomic and a broken file is never repaired by a default save (C54).
10. Convolution: black image with scale2original gives NaN; weights up to DBL_EPSILON are dropped; uint8 cast truncates (C44).
11. DispenserManager: class-level lists are shared and survive close(), so a second manager returns parameters as results, raises IndexError or hangs (C46); a worker exception or one CPU hangs compute() (C45).
12. ZernPSF workers: no restart after deinitialize_workers() (TypeError), a second object after closing the first gets no or wrong answers, IndexError for too many objects, a silently wrong kernel without initialisation (C55).
13. `str()` is the same for every n > 7 (C48).
14. In binary64 radial() of (0, 40) returns a value above 1.02 and of (0, 42) above 1.05 at radii near 1 (|R| <= 1 in exact arithmetic) (C57).
15. plot_sum_zernikes_on_fig clears the figure before it fails on a surface that does not fit its coordinates; plot_profile ignores an argument that is no ZernPol (C58).
16. ZernPSF shares containers with its caller: the list of polynomials, the coefficient array, the returned kernel, the window left by crop_kernel and the class-wide default kernel (C60).
17. generate_phases_image and the fit scale the radius differently (1 + min//2 against (size-1)/2): generated coefficients do not come back; for even sides from 88 pixels the default border of crop_phases_img feeds background zeros to the fit (C63).
18. Rescaling a convolved uint8 image to the range of the original can lose the maximum (254 instead of 255) through rounding and truncation (C70).
19. compare_performances reports one polynomial too few, and ends in UnboundLocalError for an empty range of orders (C73).
20. force_get_psf_compilation does not warn about numba 0.56.4 and the like, and raises IndexError for a version of two parts (C75).
21. The bundled check of the derivative tables (compare_recursive_coeffs_radials_dr) stops at n = 39, one radial order before the wrong derivative of finding C13; compare_radial_calculations(max_order) tests n < max_order although its docstring promises max_order, and its replacement of small max_order never applies to an int (C76).
22. Titles of composed kernels do not name the coefficients, so plot_kernel draws different aberrations over each other in one figure; visualize_convolution with max_intensity <= 0 divides 0 by 0 (C77).
23. The estimated kernel size shrinks when the amplitude passes half a wavelength (spherical aberration of 0.49 wavelengths: 39 pixels, of 0.5: 31), ignores NA for every polynomial but piston (defocus at NA 0.5: 19 pixels of a tenth of a wavelength, the central disk alone has 24), and jumps between NA = 0.25 and just above it (C80).
24. The warning that the pixel is larger than half the Airy radius cannot appear while the calls of set_physical_props are accepted: that method already rejects pixels above 0.25 wavelength / NA, the warning starts at 0.305 wavelength / NA. It does appear after a rejected call, which leaves NA and wavelength changed. suppress_warnings=True also changes the result: an object without physical properties gets a kernel of 1 pixel instead of 19 (C81).

## Not modelled

* rendering by matplotlib (colours, layout, windows), the texts and filters of warnings and the warnings outside of the three methods of C81, printing, timing, progress output, `__del__`, sleep and join timeouts of the dispenser (a join that times out is a scheduling choice of the model);
* test helpers: `_estimate_high_order_calc_times`, `calc_psfs_check.py`;
* numba compilation (the compiled functions mean their Python text);
* aliasing of the coefficient dictionaries of find_pols_coeffs (values in the model; no code of the package mutates one); ZernPSF's containers are references in C60;
* JSON string escapes (none is written);
* rounding error of the evaluation formulas, except where a row above says binary64 (C57: radial() and polynomial_value(), C59, C65-C69: PSF points and kernels, C61: derivatives, C64: sums and phase images, C70: convolution, C72: the image fit);
* weak memory: actions of threads and processes interleave.

## Trusted base

* Coq 8.16.1 kernel, including `vm_compute`; no plugin, no native compilation.
* The reading of the Python source recorded in the comments of `M_*.v`.
* Libraries used: the standard library, Flocq (rounding operators, binary64 format), Coquelicot (derivatives,
  Riemann integrals). Flocq and Coquelicot add no axioms.
* Axioms, as listed by `Print Assumptions` (complete list per theorem in `ASSUMPTIONS.md`, generated by
  `tools/assumptions.py`), all of the standard library: `ClassicalDedekindReals.sig_forall_dec`,
  `ClassicalDedekindReals.sig_not_dec`, `FunctionalExtensionality.functional_extensionality_dep`,
  `Classical_Prop.classic`. Tools that list opaque module fields also show `Rdefinitions.RbaseSymbolsImpl.*`,
  `RinvImpl.*` and `ssrunder.Under_rel.*`: these are definitions sealed by module signatures of the standard
  library, not axioms.
* No axioms of our own, no functors, no `Admitted`.

## Tests of the theorems

`tools/mutate.py` applies an edit to a model definition in a scratch copy, rebuilds and records which theorems
fail; results are in `seeded/LOG.jsonl`.
