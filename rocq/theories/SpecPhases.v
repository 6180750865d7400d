(** Specification of the phase images (C26, C49). *)
From Coq Require Import Reals.
From Verif Require Import Py SpecIndex SpecRadial M_Sum SpecSum SpecGeo.
Local Open Scope R_scope.

(** pixel (i, j) of an image *)
Definition pixel (img : list (list fl)) (i j : Z) : fl := nth (Z.to_nat j) (nth (Z.to_nat i) img []) NaN.
(** the image shows the sum of the polynomials on the disk, and zero outside *)
Definition shows (img : list (list fl)) (cs : list R) (ps : list (Z * Z)) (w h : Z) : Prop :=
  length img = Z.to_nat h /\ (forall row, In row img -> length row = Z.to_nat w) /\
  forall i j, (0 <= i < h)%Z -> (0 <= j < w)%Z ->
    let x := (j - w / 2)%Z in let y := (h / 2 - i)%Z in let a := (1 + Z.min w h / 2)%Z in
    ((x * x + y * y <= a * a)%Z -> forall rho phi, polar (IZR x) (IZR y) rho phi ->
        0 <= rho / IZR a <= 1 /\ pixel img i j = Fin (zsum cs ps (rho / IZR a) phi)) /\
    ((a * a < x * x + y * y)%Z -> pixel img i j = Fin 0).

