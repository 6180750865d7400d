(** The diffraction integral that the PSF calculation approximates (C52), and the slopes of the polynomials (C51). *)
From Coq Require Import Reals.
From Coquelicot Require Import Coquelicot.
From Verif Require Import Py SpecIndex SpecRadial SpecSum.
Local Open Scope R_scope.

(** the largest slope of the radial polynomial on the unit disk *)
Definition slope (m n : Z) : R := IZR (n * (n + 2) - m * m) / 2.

(** | 1/pi int_0^{2 pi} int_0^1 exp(i (Phi(p, phi) - r p cos(phi - theta))) p dp dphi |^2 *)
Definition diffraction_integral (Phi : R -> R -> R) (r theta : R) : R :=
  let psi p phi := Phi p phi - r * p * cos (phi - theta) in
  let re := RInt (fun phi => RInt (fun p => p * cos (psi p phi)) 0 1) 0 (2 * PI) in
  let im := RInt (fun phi => RInt (fun p => p * sin (psi p phi)) 0 1) 0 (2 * PI) in
  (re * re + im * im) / (PI * PI).

(** how fast the aberration changes along the radius and along the angle *)
Fixpoint steep_r (cs : list R) (ps : list (Z * Z)) : R :=
  match cs, ps with
  | c :: cs', (m, n) :: ps' => Rabs c * norm_nm m n * slope m n + steep_r cs' ps'
  | _, _ => 0
  end.
Fixpoint steep_t (cs : list R) (ps : list (Z * Z)) : R :=
  match cs, ps with
  | c :: cs', (m, n) :: ps' => Rabs c * norm_nm m n * IZR (Z.abs m) + steep_t cs' ps'
  | _, _ => 0
  end.
(** the guaranteed accuracy of the quadrature with [n_r] and [n_phi] points *)
Definition accuracy (n_r n_phi : Z) (Lr Lt r : R) : R :=
  20 * (2 + Lr + Rabs r) / IZR n_r + 110 * (1 + Lt + Rabs r) / IZR n_phi.

(** the Bessel function of the first kind of order 1, by Bessel's integral (C53) *)
Definition bessel_J1 (x : R) : R := / PI * RInt (fun t => cos (t - x * sin t)) 0 PI.
