(** Floating-point version of the accelerated PSF calculation (calculations/calc_psfs_numba.py 36-545): the programs of
    M_Numba.v with a rounding [rnd] after every arithmetic operation, as in M_FloatPsf.v. numba compiles without fastmath: the
    operations are those of the source, in this order. numba's versions of the functions are parameters. Array
    arguments are handled element by element; np.arange as in M_FloatPsf.v. *)
From Coq Require Import Reals.
From Verif Require Import Py M_Radial M_Coeffs M_Sum M_Polar M_Float M_Psf M_FloatPsf M_Numba.
Local Open Scope R_scope.

(** 70-152: the expressions of the radial functions, in source order (line of the condition in the comment) *)
Definition comp_src (m n : Z) : option expr :=
  if ((m =? 0) && (n =? 0))%Z then Some (Pow 0) else (* 70 *)
  if ((m =? -1) && (n =? 1) || (m =? 1) && (n =? 1))%Z then Some (Rad) else (* 73 *)
  if ((m =? -2) && (n =? 2) || (m =? 2) && (n =? 2))%Z then Some (Pow 2) else (* 76 *)
  if ((m =? 0) && (n =? 2))%Z then Some (Sub (Mul (Num 2) (Pow 2)) (Num 1)) else (* 78 *)
  if ((m =? -3) && (n =? 3) || (m =? 3) && (n =? 3))%Z then Some (Pow 3) else (* 81 *)
  if ((m =? -1) && (n =? 3) || (m =? 1) && (n =? 3))%Z then Some (Sub (Mul (Num 3) (Pow 3)) (Mul (Num 2) Rad)) else (* 83 *)
  if ((m =? -4) && (n =? 4) || (m =? 4) && (n =? 4))%Z then Some (Pow 4) else (* 86 *)
  if ((m =? -2) && (n =? 4) || (m =? 2) && (n =? 4))%Z then Some (Sub (Mul (Num 4) (Pow 4)) (Mul (Num 3) (Pow 2))) else (* 88 *)
  if ((m =? 0) && (n =? 4))%Z then Some (Add (Sub (Mul (Num 6) (Pow 4)) (Mul (Num 6) (Pow 2))) (Num 1)) else (* 90 *)
  if ((m =? -5) && (n =? 5) || (m =? 5) && (n =? 5))%Z then Some (Pow 5) else (* 93 *)
  if ((m =? -3) && (n =? 5) || (m =? 3) && (n =? 5))%Z then Some (Sub (Mul (Num 5) (Pow 5)) (Mul (Num 4) (Pow 3))) else (* 95 *)
  if ((m =? -1) && (n =? 5) || (m =? 1) && (n =? 5))%Z then Some (Add (Sub (Mul (Num 10) (Pow 5)) (Mul (Num 12) (Pow 3))) (Mul (Num 3) Rad)) else (* 97 *)
  if ((m =? -6) && (n =? 6) || (m =? 6) && (n =? 6))%Z then Some (Pow 6) else (* 100 *)
  if ((m =? -4) && (n =? 6) || (m =? 4) && (n =? 6))%Z then Some (Sub (Mul (Num 6) (Pow 6)) (Mul (Num 5) (Pow 4))) else (* 102 *)
  if ((m =? -2) && (n =? 6) || (m =? 2) && (n =? 6))%Z then Some (Add (Sub (Mul (Num 15) (Pow 6)) (Mul (Num 20) (Pow 4))) (Mul (Num 6) (Pow 2))) else (* 104 *)
  if ((m =? 0) && (n =? 6))%Z then Some (Sub (Add (Sub (Mul (Num 20) (Pow 6)) (Mul (Num 30) (Pow 4))) (Mul (Num 12) (Pow 2))) (Num 1)) else (* 106 *)
  if ((m =? -7) && (n =? 7) || (m =? 7) && (n =? 7))%Z then Some (Pow 7) else (* 109 *)
  if ((m =? -5) && (n =? 7) || (m =? 5) && (n =? 7))%Z then Some (Sub (Mul (Num 7) (Pow 7)) (Mul (Num 6) (Pow 5))) else (* 111 *)
  if ((m =? -3) && (n =? 7) || (m =? 3) && (n =? 7))%Z then Some (Add (Sub (Mul (Num 21) (Pow 7)) (Mul (Num 30) (Pow 5))) (Mul (Num 10) (Pow 3))) else (* 113 *)
  if ((m =? -1) && (n =? 7) || (m =? 1) && (n =? 7))%Z then Some (Sub (Add (Sub (Mul (Num 35) (Pow 7)) (Mul (Num 60) (Pow 5))) (Mul (Num 30) (Pow 3))) (Mul (Num 4) Rad)) else (* 115 *)
  if ((m =? -6) && (n =? 8) || (m =? 6) && (n =? 8))%Z then Some (Sub (Mul (Num 8) (Pow 8)) (Mul (Num 7) (Pow 6))) else (* 118 *)
  if ((m =? -4) && (n =? 8) || (m =? 4) && (n =? 8))%Z then Some (Add (Sub (Mul (Num 28) (Pow 8)) (Mul (Num 42) (Pow 6))) (Mul (Num 15) (Pow 4))) else (* 120 *)
  if ((m =? -2) && (n =? 8) || (m =? 2) && (n =? 8))%Z then Some (Sub (Add (Sub (Mul (Num 56) (Pow 8)) (Mul (Num 105) (Pow 6))) (Mul (Num 60) (Pow 4))) (Mul (Num 10) (Pow 2))) else (* 122 *)
  if ((m =? 0) && (n =? 8))%Z then Some (Add (Sub (Add (Sub (Mul (Num 70) (Pow 8)) (Mul (Num 140) (Pow 6))) (Mul (Num 90) (Pow 4))) (Mul (Num 20) (Pow 2))) (Num 1)) else (* 125 *)
  if ((m =? -7) && (n =? 9) || (m =? 7) && (n =? 9))%Z then Some (Sub (Mul (Num 9) (Pow 9)) (Mul (Num 8) (Pow 7))) else (* 129 *)
  if ((m =? -5) && (n =? 9) || (m =? 5) && (n =? 9))%Z then Some (Add (Sub (Mul (Num 36) (Pow 9)) (Mul (Num 56) (Pow 7))) (Mul (Num 21) (Pow 5))) else (* 131 *)
  if ((m =? -3) && (n =? 9) || (m =? 3) && (n =? 9))%Z then Some (Sub (Add (Sub (Mul (Num 84) (Pow 9)) (Mul (Num 168) (Pow 7))) (Mul (Num 105) (Pow 5))) (Mul (Num 20) (Pow 3))) else (* 133 *)
  if ((m =? -1) && (n =? 9) || (m =? 1) && (n =? 9))%Z then Some (Add (Sub (Add (Sub (Mul (Num 126) (Pow 9)) (Mul (Num 280) (Pow 7))) (Mul (Num 210) (Pow 5))) (Mul (Num 60) (Pow 3))) (Mul (Num 5) Rad)) else (* 136 *)
  if ((m =? -8) && (n =? 10) || (m =? 8) && (n =? 10))%Z then Some (Sub (Mul (Num 10) (Pow 10)) (Mul (Num 9) (Pow 8))) else (* 140 *)
  if ((m =? -6) && (n =? 10) || (m =? 6) && (n =? 10))%Z then Some (Add (Sub (Mul (Num 45) (Pow 10)) (Mul (Num 72) (Pow 8))) (Mul (Num 28) (Pow 6))) else (* 142 *)
  if ((m =? -4) && (n =? 10) || (m =? 4) && (n =? 10))%Z then Some (Sub (Add (Sub (Mul (Num 120) (Pow 10)) (Mul (Num 252) (Pow 8))) (Mul (Num 168) (Pow 6))) (Mul (Num 35) (Pow 4))) else (* 144 *)
  if ((m =? -2) && (n =? 10) || (m =? 2) && (n =? 10))%Z then Some (Add (Sub (Add (Sub (Mul (Num 210) (Pow 10)) (Mul (Num 504) (Pow 8))) (Mul (Num 420) (Pow 6))) (Mul (Num 140) (Pow 4))) (Mul (Num 15) (Pow 2))) else (* 147 *)
  if ((m =? 0) && (n =? 10))%Z then Some (Sub (Add (Sub (Add (Sub (Mul (Num 252) (Pow 10)) (Mul (Num 630) (Pow 8))) (Mul (Num 560) (Pow 6))) (Mul (Num 210) (Pow 4))) (Mul (Num 30) (Pow 2))) (Num 1)) else (* 150 *)
  None.

Section FloatNumba.
Variable rnd : R -> R.
Variable pw : R -> Z -> R.
Variables fcos fsin : R -> R.
Variable npsum : list R -> R.
Variable fhyp : R -> R -> R.
Variable fsq : R -> R.
Variable fatan2 : R -> R -> R.

(** 37-158 *)
Definition fzernpol_value (orders : Z * Z) (r theta : R) : res R :=
  let '(m, n) := orders in
  let norm := if (m =? 0)%Z then rnd (sqrt (rnd (IZR (n + 1)))) else rnd (sqrt (rnd (IZR (2 * (n + 1))))) in   (* 58-61 *)
  let triangular := if (0 <=? m)%Z then fcos (rnd (IZR m * theta)) else - fsin (rnd (IZR m * theta)) in        (* 63-66 *)
  match comp_src m n with
  | Some e => Ok (rnd (rnd (norm * triangular) * feval rnd pw e r))                                            (* 158 *)
  | None =>
      if ((7 <? n) && (Z.abs m =? n))%Z then Ok (pw r n)                                                        (* 153-154 *)
      else if ((10 <? n) && (Z.abs m =? n - 2))%Z
           then Ok (rnd (rnd (rnd (IZR n) * pw r n) - rnd (rnd (IZR (n - 1)) * pw r (n - 2))))                  (* 155-156 *)
      else Raise UnboundLocalError
  end.
(** 193: alpha*zernpol_value(orders, p, phi) *)
Definition fphase_pol_comp (p : Z * Z) (alpha : R) : fphase :=
  fun x phi => mlift (do v <- fzernpol_value p x phi; Ok (rnd (alpha * v))).
(** 431-435, iterations with i >= 1 (numba reads outside of the array where IndexError stands, as in M_Numba.v) *)
Fixpoint fpol_sums_tl (ps : list (Z * Z)) (amps : list R) (x phi W : R) : res R :=
  match ps, amps with
  | [], _ => Ok W
  | _ :: _, [] => Raise IndexError
  | p :: ps', a :: amps' => do v <- fzernpol_value p x phi; fpol_sums_tl ps' amps' x phi (rnd (W + rnd (a * v)))
  end.
(** 410-436 and 473 *)
Definition fphase_pols_comp (ps : list (Z * Z)) (amps : list R) : fphase :=
  fun x phi => mlift
  match ps, amps with
  | [], _ => Raise UnboundLocalError
  | _ :: _, [] => Raise IndexError
  | p :: ps', a :: amps' => do v <- fzernpol_value p x phi; fpol_sums_tl ps' amps' x phi (rnd (a * v))
  end.

(** 273-406: get_psf_kernel_comp for kernel sizes from 0 on. 162-269 and 440-545 are the vectorised programs of calc_psfs.py with
    the phase replaced ([fpoint_by Vectorized]). *)
Definition fget_psf_kernel_comp (zernike_pol : target) (len2pixels : R) (alpha : alpha_arg) (wavelength NA : R)
  (n_int_r n_int_phi : Z) (normalize : bool) (kernel_size : Z) : M kernel :=
  run k <- mlift (if Req_EM_T wavelength 0 then Raise ZeroDivisionError else Ok (rnd (two_pi rnd / wavelength)));
  let size := odd_size kernel_size in
  run ph <- mlift
    (match zernike_pol, alpha with
     | Single p, AFloat a => if rejected_comp p then Raise ValueError else Ok (fphase_pol_comp p (rnd (a / wavelength)))
     | Single _, _ => Raise TypeError
     | Several ps, AArr amps => if existsb rejected_comp ps then Raise ValueError else Ok (fphase_pols_comp ps amps)
     | Several ps, _ => if existsb rejected_comp ps then Raise ValueError else Raise TypeError
     end);
  run _ <- mlift (if Req_EM_T NA 0 then Raise ZeroDivisionError else Ok tt);
  run l <- ffill_kernel rnd fatan2 (fpoint_by rnd fcos fsin npsum fhyp fsq Vectorized ph n_int_r n_int_phi) k NA len2pixels size;
  mret (ffinish rnd normalize l).
End FloatNumba.
