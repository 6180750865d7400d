(** Specification for C72: the fit of an image in binary64. *)
From Coq Require Import Reals.
From Verif Require Import Py SpecRadial SpecFit SpecDisk SpecFitK SpecFloat.
Local Open Scope R_scope.

(** a matrix is the list of its columns: sum of the squares of its entries, and of the differences of two matrices *)
Definition matrix_squares (cols : list (list R)) : R := fold_right (fun c s => sum_squares c + s) 0 cols.
Fixpoint matrix_diff (cols cols' : list (list R)) : R :=
  match cols, cols' with c :: l, c' :: l' => squares_diff c c' + matrix_diff l l' | _, _ => 0 end.

(** a backward stable solver: it returns the exact least-squares solution (of minimal norm) of a problem that differs from the
    given one by a relative error of at most [eta] (which includes singular values that the solver treats as zero) *)
Definition lstsq_backward_stable (eta : R) (lstsq : list (list R) -> list R -> list R) : Prop :=
  forall cols b, Forall (fun c => length c = length b) cols -> exists cols' b',
    length cols' = length cols /\ Forall (fun c => length c = length b) cols' /\ length b' = length b /\
    sqrt (matrix_diff cols' cols) <= eta * sqrt (matrix_squares cols) /\
    sqrt (squares_diff b' b) <= eta * sqrt (sum_squares b) /\
    lstsq_solution cols' b' (lstsq cols b).

(** per pixel: the size of the values of the polynomials, and of their rounding errors (C57; angles are off by up to 24 units) *)
Definition fit_size (ps : list (Z * Z)) : R := sqrt (fold_right (fun p s => Rsqr (norm_nm (fst p) (snd p)) + s) 0 ps).
Definition fit_error (ps : list (Z * Z)) : R :=
  sqrt (fold_right (fun p s => Rsqr (norm_nm (fst p) (snd p) * (4 * radial_error (snd p) + IZR (Z.abs (fst p)) / 2 ^ 47)) + s) 0 ps).
(** by how much the matrix of the solved problem differs from the one of the exact values at [n] pixels *)
Definition matrix_error (n : nat) (ps : list (Z * Z)) (eta : R) : R := sqrt (INR n) * (fit_error ps + eta * (fit_size ps + fit_error ps)).
