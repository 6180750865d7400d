(** Specification for C65: averages over the unit disk (the pupil), and the root mean square of a wavefront. *)
From Coq Require Import Reals.
From Coquelicot Require Import Coquelicot.
From Verif Require Import Py SpecSum SpecDiff SpecFloatPsf.
Local Open Scope R_scope.

(** the average of f(p, phi) over the unit disk: 1/pi int_0^{2 pi} int_0^1 f(p, phi) p dp dphi *)
Definition disk_mean (f : R -> R -> R) : R := / PI * RInt (fun phi => RInt (fun p => p * f p phi) 0 1) 0 (2 * PI).
(** sum of the squares of the coefficients *)
Definition squares (cs : list R) : R := fold_right (fun c s => c * c + s) 0 cs.
(** the same without the piston (0, 0); and the coefficients of the piston *)
Fixpoint squares_no_piston (cs : list R) (ps : list (Z * Z)) : R :=
  match cs, ps with
  | c :: cs', (m, n) :: ps' => (if Z.eqb m 0 && Z.eqb n 0 then 0 else c * c) + squares_no_piston cs' ps'
  | _, _ => 0
  end.
Fixpoint pistons (cs : list R) (ps : list (Z * Z)) : R :=
  match cs, ps with
  | c :: cs', (m, n) :: ps' => (if Z.eqb m 0 && Z.eqb n 0 then c else 0) + pistons cs' ps'
  | _, _ => 0
  end.
(** sum of the squared differences *)
Fixpoint squares_diff (cs ds : list R) : R :=
  match cs, ds with c :: cs', d :: ds' => (c - d) * (c - d) + squares_diff cs' ds' | _, _ => 0 end.
(** what the calculated values may differ from the diffraction integral: quadrature (C52) and rounding (C59) *)
Definition total_error (n_r n_phi : Z) (cs : list R) (ps : list (Z * Z)) (r : R) : R :=
  accuracy n_r n_phi (steep_r cs ps) (steep_t cs ps) r + rounding n_r n_phi cs ps (steep_t cs ps) r.
