(** Floating-point version of the sums of polynomials and of the phase images (zernikepol.py 955-988, 1455-1499): the programs of
    M_Sum.v and M_Phases.v with a rounding [rnd] after every arithmetic operation. numpy's functions are parameters: np.power
    [pw], np.cos [fcos], np.sin [fsin], np.arctan2 [fatan2]. Array arguments are handled element by element (numpy evaluates every
    polynomial on the whole array; the elements do not interact). The polynomials are ZernPol instances. Overflow is not modelled. *)
From Coq Require Import Reals.
From Verif Require Import Py M_Radial M_Coeffs M_Sum M_Polar M_Float M_Phases.
Local Open Scope R_scope.

Section FloatSum.
Variable rnd : R -> R.
Variable pw : R -> Z -> R.
Variables fcos fsin : R -> R.
Variable fatan2 : R -> R -> R.

(** zernikepol.py 398-428 with the check of the radius 1275-1289 *)
Definition fvalue (fuel : nat) (p : Z * Z) (r theta : R) : M R :=
  if Rltb 1 r || Rltb r 0 then mlift (Raise ValueError)
  else fzp_polynomial_value rnd pw fcos fsin fuel (fst p) (snd p) false r theta.

(** zernikepol.py 968-969 (iterations with i >= 1), 980-987 *)
Fixpoint fsum_tl (fuel : nat) (cs : list R) (ps : list (Z * Z)) (r theta W : R) : M R :=
  match cs, ps with
  | c :: cs', p :: ps' =>
      if nonzero c then
        run v <- fvalue fuel p r theta;
        fsum_tl fuel cs' ps' r theta (rnd (W + rnd (c * v)))
      else fsum_tl fuel cs' ps' r theta W
  | _, _ => mret W
  end.
(** zernikepol.py 955-969: one element of sum_zernikes *)
Definition fsum_point (fuel : nat) (cs : list R) (ps : list (Z * Z)) (r theta : R) : M R :=
  if negb (Nat.eqb (length cs) (length ps)) then mlift (Raise ValueError)
  else match cs, ps with
  | c :: cs', p :: ps' => run v <- fvalue fuel p r theta; fsum_tl fuel cs' ps' r theta (rnd (c * v))
  | _, _ => mlift (Raise ValueError)
  end.
(** zernikepol.py 955-958, 976-987 (and 901-916): one element of a surface, starting from np.zeros *)
Definition fsurface_point (fuel : nat) (cs : list R) (ps : list (Z * Z)) (r theta : R) : M R :=
  if negb (Nat.eqb (length cs) (length ps)) then mlift (Raise ValueError)
  else match cs with [] => mlift (Raise ValueError) | _ => fsum_tl fuel cs ps r theta 0 end.

(** 1487, 1496: np.linalg.norm of an integer vector: squares and sum (exact below 2^53), then the root *)
Definition fdist (w h i j : Z) : R := rnd (sqrt (rnd (IZR ((h / 2 - i) * (h / 2 - i) + (w / 2 - j) * (w / 2 - j))))).
(** 1488, 1497 *)
Definition finside (w h i j : Z) : bool := if Rle_dec (fdist w h i j) (IZR (img_radius w h)) then true else false.
(** 1489 *)
Definition frad (w h i j : Z) : R := if finside w h i j then rnd (fdist w h i j / IZR (img_radius w h)) else 0.
(** 1490-1492 *)
Definition fang (w h i j : Z) : R :=
  if finside w h i j then
    let t := fatan2 (IZR (h / 2 - i)) (IZR (j - w / 2)) in if Rlt_dec t 0 then rnd (t + two_pi rnd) else t
  else 0.
(** 1484-1499: one pixel; background pixels are evaluated at (0, 0), then set to zero *)
Definition fpixel (fuel : nat) (cs : list R) (ps : list (Z * Z)) (w h i j : Z) : M R :=
  run v <- fsum_point fuel cs ps (frad w h i j) (fang w h i j); mret (if finside w h i j then v else 0).
(** 1455-1499 (for images without columns see M_Phases.v) *)
Definition fphases_image (fuel : nat) (ps : list (Z * Z)) (cs : list R) (w h : Z) : M (list (list R)) :=
  if (w <? 0)%Z || (h <? 0)%Z then mlift (Raise ValueError)
  else mapM (fun i => mapM (fun j => fpixel fuel cs ps w h i j) (zrange 0 (Z.to_nat w))) (zrange 0 (Z.to_nat h)).
End FloatSum.
