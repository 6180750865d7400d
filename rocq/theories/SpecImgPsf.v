(** Specification for C79: how far the coefficients fitted to a measured image (binary64, rounded to [digits] decimals) are from the true ones. *)
From Coq Require Import Reals.
From Verif Require Import Py SpecRadial SpecDisk SpecFit SpecFitK SpecFitF.
Local Open Scope R_scope.

(** the error before the rounding to decimals (the bound of C72): [n] pixels, noise at the pixels, eta of the solver *)
Definition fitted_error (n w : nat) (ps : list (Z * Z)) (eta : R) (a noise : list R) : R :=
  4 / INR w * ((1 + eta) * sqrt (sum_squares noise) + (matrix_error n ps eta + eta * (sqrt (INR n) * fit_size ps)) * sqrt (squares a)).
(** root mean square of the wavefront error caused by the fit: with half a unit of the last decimal for every coefficient *)
Definition measured_error (n w : nat) (ps : list (Z * Z)) (eta : R) (a noise : list R) (digits : Z) : R :=
  (1 + / 2 ^ 51) * fitted_error n w ps eta a noise + sqrt (INR (length ps)) * ((/ 2 + / 2 ^ 50) * powerRZ 10 (- digits)) + sqrt (squares a) / 2 ^ 51.
