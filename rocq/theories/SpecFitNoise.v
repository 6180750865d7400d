(** Specification for the fit of images: how large the image has to be, and how noise enters (C62, C63). *)
From Coq Require Import Reals.
From Verif Require Import Py SpecIndex SpecRadial SpecFit M_Sum SpecSum SpecDiff.
Local Open Scope R_scope.

(** the image is large enough for polynomials of order at most [N] and a crop radius [c]:
    (N + 1)(N + 3) pixels or more across the circle (for sides of more than 4000 pixels: N <= 22) *)
Definition enough_pixels (rows cols N : Z) (c : R) : Prop :=
  (0 <= N)%Z /\ IZR ((N + 1) * (N + 3)) <= c * (IZR (Z.min rows cols) - 1) /\ (N <= 22 \/ Z.min rows cols <= 4000)%Z.

(** sum over the points of the squared difference of two wavefronts *)
Fixpoint square_difference (a b : list R) (ps : list (Z * Z)) (pts : list (R * R)) : R :=
  match pts with
  | [] => 0
  | (r, t) :: pts' => (zsum a ps r t - zsum b ps r t) * (zsum a ps r t - zsum b ps r t) + square_difference a b ps pts'
  end.

(** how far the radial coordinates of generate_phases_image and of the fit are apart, image of 2 half + 1 pixels *)
Definition radius_mismatch (half : Z) : R := 101 / 100 / (IZR half + 1) + 25 / 10000.
