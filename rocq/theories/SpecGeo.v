(** Polar coordinates, stated without arctan2. *)
From Coq Require Import Reals.
Local Open Scope R_scope.

(** (rho, phi) are the polar coordinates of the point (x, y): phi in [0, 2pi), counter-clockwise from the x axis *)
Definition polar (x y rho phi : R) : Prop :=
  0 <= rho /\ 0 <= phi < 2 * PI /\ rho * cos phi = x /\ rho * sin phi = y.
