(** numpy.arctan2 and the polar angle used by the image functions, exact arithmetic.
    Negative zero is not modelled: every caller passes differences of integers and half-integers,
    which are never -0.0. *)
From Coq Require Import Reals.
From Verif Require Import Py.
Local Open Scope R_scope.

(** numpy.arctan2(y, x) *)
Definition arctan2 (y x : R) : R :=
  if Rlt_dec 0 x then atan (y / x)
  else if Rlt_dec x 0 then (if Rlt_dec y 0 then atan (y / x) - PI else atan (y / x) + PI)
  else if Rlt_dec 0 y then PI / 2 else if Rlt_dec y 0 then - (PI / 2) else 0.

(** [theta = arctan2(y, x); if theta < 0.0: theta += 2.0*np.pi]
    (zernikepol.py 1433-1435, 1490-1492; fit_zernike_pols.py 115-123) *)
Definition pixel_theta (y x : R) : R :=
  let t := arctan2 y x in if Rlt_dec t 0 then t + 2 * PI else t.
