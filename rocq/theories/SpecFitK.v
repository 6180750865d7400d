(** Specification for C71: how well the pixels of an image resolve a set of polynomials. *)
From Coq Require Import Reals.
From Verif Require Import Py SpecRadial SpecDiff SpecCrop.
Local Open Scope R_scope.

(** the steepest wavefront with coefficients of square sum 1: along the radius, and in any direction *)
Definition steepest_radial (ps : list (Z * Z)) : R :=
  sqrt (fold_right (fun p s => Rsqr (norm_nm (fst p) (snd p) * slope (fst p) (snd p)) + s) 0 ps).
Definition steepest (ps : list (Z * Z)) : R :=
  sqrt (fold_right (fun p s => Rsqr (norm_nm (fst p) (snd p) * slope (fst p) (snd p) * (1 + IZR (Z.abs (fst p)))) + s) 0 ps).
(** such a wavefront changes by at most 0.49 over [w] pixels (and over the distance by which the crop rounds and rescales the radii) *)
Definition resolves (rows cols : Z) (ps : list (Z * Z)) (w : nat) : Prop :=
  (1 <= w)%nat /\ INR w / (14 / 10 * circle_radius rows cols) <= 1 / 2 /\
  steepest_radial ps * (13 / 10000) + (steepest_radial ps + steepest ps) * (INR w / (14 / 10 * circle_radius rows cols)) <= 49 / 100.
(** sum of the squares of the entries of [e] *)
Definition sum_squares (e : list R) : R := fold_right (fun v s => v * v + s) 0 e.
(** the radius (in pixels) that resolves all polynomials of order at most [N] with [w] = 1 *)
Definition resolving_radius (N : Z) : R := if (N <=? 1)%Z then 25 / 2 else if (N <=? 2)%Z then 50 else if (N <=? 3)%Z then 175 else 430.
