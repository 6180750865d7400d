(** Specification of C61: error bounds of the derivatives in binary64. *)
From Coq Require Import Reals.
From Verif Require Import SpecFloat.
Local Open Scope R_scope.

(** error bound for the derivative of the radial part: n times that of the radial part *)
Definition derivative_error (n : Z) : R := IZR n * radial_error n.
