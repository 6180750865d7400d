(** Specification for C64: accuracy of sums of polynomials and of phase images in binary64. *)
From Coq Require Import Reals.
From Verif Require Import Py SpecRadial M_Sum SpecSum SpecDiff SpecFloat SpecFloatPsf.
Local Open Scope R_scope.

(** twice the rounding errors of the values of the polynomials, and 4 units of rounding per term (of the size of the sum, plus one
    for underflow) *)
Definition sum_error (cs : list R) (ps : list (Z * Z)) : R :=
  2 * values_error cs ps + 4 * INR (length ps) * (size_of cs ps + 1) / 2 ^ 53.
(** errors of the pixel coordinates: 4 units of rounding in the radius, 20 in the angle *)
Definition image_error (cs : list R) (ps : list (Z * Z)) : R :=
  sum_error cs ps + (4 * steep_r cs ps + 24 * steep_t cs ps) / 2 ^ 53.
