(** Specification for C78: the peak-to-valley value of a sum of polynomials. *)
From Coq Require Import Reals List.
From Verif Require Import Py SpecSum.
Import ListNotations.
Local Open Scope R_scope.

(** D is the peak-to-valley value of sum_k c_k Z_k on the unit disk: the least upper bound of the differences of its values *)
Definition peak_to_valley (cs : list R) (ps : list (Z * Z)) (D : R) : Prop :=
  is_lub (fun y => exists x t x' t', 0 <= x <= 1 /\ 0 <= x' <= 1 /\ y = zsum cs ps x t - zsum cs ps x' t') D.

(** the peak-to-valley values that the script define_pv_values.py looks for, for the polynomials with OSA indices 1 to 35 *)
Definition pv_goals : list R :=
  [8; 8; 51/10; 5; 51/10; 36/10; 3; 3; 36/10; 2; 18/10; 15/10; 18/10; 2; 13/10; 11/10; 11/10; 11/10; 11/10; 13/10;
   1; 9/10; 9/10; 7/10; 9/10; 9/10; 1; 7/10; 6/10; 5/10; 5/10; 5/10; 5/10; 6/10; 7/10].
