(** Specification of Zernike orders and of the three single-index conventions,
    written without reference to the formulas of the code. *)
From Verif Require Import Py.

(** (m, n) are orders of a Zernike polynomial *)
Definition valid (m n : Z) : Prop :=
  0 <= n /\ Z.abs m <= n /\ exists k, n - Z.abs m = 2 * k.

(** A numbering [f] of the valid orders is a bijection onto { first, first+1, ... } *)
Definition numbering (first : Z) (f : Z -> Z -> Z) : Prop :=
  (forall m n, valid m n -> first <= f m n) /\
  (forall m n m' n', valid m n -> valid m' n' -> f m n = f m' n' -> m = m' /\ n = n') /\
  (forall j, first <= j -> exists m n, valid m n /\ f m n = j).

(** Precedence of polynomials in the OSA/ANSI standard: by n, then by m. *)
Definition osa_before (m n m' n' : Z) : Prop := n < n' \/ (n = n' /\ m < m').

(** Noll: by n, then by |m|; the two polynomials with equal n and |m| > 0 are
    numbered so that the cosine one (m > 0) gets the even number. *)
Definition noll_before (m n m' n' : Z) : Prop :=
  n < n' \/ (n = n' /\ Z.abs m < Z.abs m').

(** Fringe / University of Arizona: by (n+|m|)/2, then larger |m| first,
    then the cosine one (m > 0) before the sine one. *)
Definition fringe_before (m n m' n' : Z) : Prop :=
  n + Z.abs m < n' + Z.abs m' \/
  (n + Z.abs m = n' + Z.abs m' /\ (Z.abs m' < Z.abs m \/ (Z.abs m = Z.abs m' /\ m' < m))).
