(** A measured phase image and the PSF of its aberrations, two calls of the library one after the other:
    coefficients, _ = fit_polynomials(image, polynomials, crop_radius, suppress_warnings, strict_circle_border, round_digits, return_cropped)  (zernikepol.py 1502-1551)
    kernel = get_psf_kernel_zerns(polynomials, coefficients, pixel, wavelength, NA, size, n_r, n_phi, normalize)  (calculations/calc_psfs.py 606-666);
    the second call starts from the state of the module that the first one leaves (the shared tables of M_Coeffs.v). *)
From Coq Require Import Reals.
From Verif Require Import Py M_Radial M_Coeffs M_Sum M_Polar M_Float M_FloatSum M_Crop M_Fit M_FloatFit M_Psf M_FloatPsf.
Local Open Scope R_scope.

Definition measured_psf rnd pw fcos fsin npsum fhyp fsq fatan2 lstsq (fuel : nat) (img : img_arg R) (ps : list (Z * Z)) (crop_radius : radius_arg) (strict : bool) (digits : Z)
  (return_cropped : bool) (px wavelength NA : R) (kernel_size n_r n_phi : Z) (normalize : bool) :=
  run r <- ffit_polynomials rnd pw fcos fsin fatan2 lstsq fuel img (map Some ps) crop_radius strict digits return_cropped;
  run K <- fget_psf_kernel_zerns rnd pw fcos fsin npsum fhyp fsq fatan2 fuel ps (fst r) px wavelength NA kernel_size n_r n_phi normalize;
  mret (fst r, K).
