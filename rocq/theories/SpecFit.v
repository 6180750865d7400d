(** Least squares, stated without any algorithm (C28, C29). A matrix is the list of its columns. *)
From Coq Require Import Reals.
From Verif Require Import Py SpecIndex SpecRadial.
Local Open Scope R_scope.

Fixpoint dot (u v : list R) : R :=
  match u, v with a :: u', b :: v' => a * b + dot u' v' | _, _ => 0 end.
Definition vadd (u v : list R) : list R := map (fun p => fst p + snd p) (combine u v).
Definition vscale (a : R) (u : list R) : list R := map (Rmult a) u.
Definition vsub (u v : list R) : list R := vadd u (vscale (-1) v).
(** A x = sum_j x_j column_j, vectors of length [n] *)
Fixpoint mulmv (n : nat) (cols : list (list R)) (x : list R) : list R :=
  match cols, x with c :: cols', a :: x' => vadd (vscale a c) (mulmv n cols' x') | _, _ => repeat 0 n end.
Definition normsq (u : list R) : R := dot u u.

(** [x] is the least-squares solution of minimal norm of A x = b (what numpy.linalg.lstsq documents) *)
Definition lstsq_solution (cols : list (list R)) (b x : list R) : Prop :=
  length x = length cols /\
  forall y, length y = length cols ->
    let err z := normsq (vsub b (mulmv (length b) cols z)) in
    err x <= err y /\ (err x = err y -> normsq x <= normsq y).
(** columns are linearly independent *)
Definition independent (n : nat) (cols : list (list R)) : Prop :=
  forall x, length x = length cols -> mulmv n cols x = repeat 0 n -> x = repeat 0 (length cols).

(** ** the sampled points: radii and angles of equal length are paired, of different length they span a
    mesh (all angles of the first radius, then of the second, ...) *)
Definition sample_points (rs ts : list R) : list (R * R) :=
  if Nat.eqb (length rs) (length ts) then combine rs ts else list_prod rs ts.
(** values of the polynomials at the points, one column per polynomial *)
Definition design (pts : list (R * R)) (ps : list (Z * Z)) : list (list R) :=
  map (fun p => map (fun q => Z_nm (fst p) (snd p) (fst q) (snd q)) pts) ps.
(** the documented contract of numpy.linalg.lstsq: for a matrix with columns of the length of the data
    it returns the least-squares solution of minimal norm *)
Definition lstsq_contract (lstsq : list (list R) -> list R -> list R) : Prop :=
  forall cols b, Forall (fun c => length c = length b) cols -> lstsq_solution cols b (lstsq cols b).
