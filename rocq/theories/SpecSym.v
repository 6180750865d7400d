(** Specification for C66 and C67: positions of pixels, and wavefronts turned or mirrored. *)
From Coq Require Import Reals.
From Verif Require Import Py SpecGeo.
From Coq Require Import List.
Local Open Scope R_scope.

(** one pixel is that many units of the image plane *)
Definition pixel_units (wavelength NA px : R) : R := 2 * PI / wavelength * NA * px.
(** coefficients with signs that depend on the azimuthal order *)
Definition signed (f : Z -> R) (cs : list R) (ps : list (Z * Z)) : list R := map (fun q => f (fst (snd q)) * fst q) (combine cs ps).
(** sin terms (m < 0) change sign: the wavefront mirrored at the horizontal axis *)
Definition flip_up_down (m : Z) : R := if (m <? 0)%Z then -1 else 1.
(** odd azimuthal orders change sign: the wavefront turned by 180 degrees *)
Definition half_turn (m : Z) : R := if Z.even m then 1 else -1.
(** both: the wavefront mirrored at the vertical axis *)
Definition flip_left_right (m : Z) : R := half_turn m * flip_up_down m.
(** the point (x, y) after phi -> e phi + a *)
Definition moved_x (e a x y : R) : R := cos a * x - sin a * (e * y).
Definition moved_y (e a x y : R) : R := sin a * x + cos a * (e * y).
