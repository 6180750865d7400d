(** Specification of crop_phases_img (C27). *)
From Coq Require Import Reals.
From Verif Require Import Py SpecGeo.
Local Open Scope R_scope.

(** What is assumed of floating-point rounding: monotone, exact on integers up to 10^4 and on 1/2,
    with a relative and absolute error of at most 10^-12. Exact arithmetic and binary64 satisfy it. *)
Definition sane (rnd : R -> R) : Prop :=
  (forall x y, x <= y -> rnd x <= rnd y) /\
  (forall z, (Z.abs z <= 10000)%Z -> rnd (IZR z) = IZR z) /\ rnd (1 / 2) = 1 / 2 /\
  (forall x, Rabs (rnd x - x) <= / 10 ^ 12 * (1 + Rabs x)).

(** pixels of an image in row-major order *)
Definition row_major (rows cols : Z) : list (Z * Z) :=
  flat_map (fun i => map (fun j => (i, j)) (zrange 0 (Z.to_nat cols))) (zrange 0 (Z.to_nat rows)).

(** cartesian offsets of a pixel from the geometric centre (y upwards) *)
Definition off_x (cols : Z) (ij : Z * Z) : R := IZR (snd ij) - (IZR cols - 1) / 2.
Definition off_y (rows : Z) (ij : Z * Z) : R := (IZR rows - 1) / 2 - IZR (fst ij).
(** radius of the circle in pixels: half of (size - 1), the size being the larger one when the image
    is square or differs by one pixel, the smaller one otherwise *)
Definition circle_radius (rows cols : Z) : R :=
  (IZR (if (Z.abs (rows - cols) <? 2)%Z then Z.max rows cols else Z.min rows cols) - 1) / 2.
(** normalised distance from the centre *)
Definition rel_dist (rows cols : Z) (ij : Z * Z) : R :=
  sqrt (off_x cols ij * off_x cols ij + off_y rows ij * off_y rows ij) / circle_radius rows cols.
(** how far beyond the circle pixels still count: 0.055 of the radius in the lenient mode for images with two even sides
    or sides that differ by one, else 0.001 *)
Definition border_margin (rows cols : Z) (strict : bool) : R :=
  if (negb strict && (Z.even rows && Z.even cols || (Z.abs (rows - cols) =? 1)%Z))%bool then 55 / 1000 else 1 / 1000.
