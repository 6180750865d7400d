(** Floating-point version of the derivatives: the programs of M_Radial.v / M_Coeffs.v with a rounding after every arithmetic
    operation, as in M_Float.v. The numbers 1.0, 2.0, ... and float(n) in the source: literals are exact, float(n) is rounded. *)
From Coq Require Import Reals.
From Verif Require Import Py M_Radial M_Coeffs M_Float.
Local Open Scope R_scope.

(** calc_zernike_pol.py 228-314: the returned expressions, in source order (line of the condition in the comment) *)
Definition derivative_src (m n : Z) : option expr :=
  if ((m =? 0) && (n =? 0))%Z then Some (Num 0) else (* 228 *)
  if ((m =? -1) && (n =? 1) || (m =? 1) && (n =? 1))%Z then Some (Num 1) else (* 234 *)
  if ((m =? -2) && (n =? 2) || (m =? 2) && (n =? 2))%Z then Some (Mul (Num 2) Rad) else (* 240 *)
  if ((m =? 0) && (n =? 2))%Z then Some (Mul (Num 4) Rad) else (* 242 *)
  if ((m =? -3) && (n =? 3) || (m =? 3) && (n =? 3))%Z then Some (Mul (Num 3) (Pow 2)) else (* 245 *)
  if ((m =? -1) && (n =? 3) || (m =? 1) && (n =? 3))%Z then Some (Sub (Mul (Num 9) (Pow 2)) (Num 2)) else (* 247 *)
  if ((m =? -4) && (n =? 4) || (m =? 4) && (n =? 4))%Z then Some (Mul (Num 4) (Pow 3)) else (* 250 *)
  if ((m =? -2) && (n =? 4) || (m =? 2) && (n =? 4))%Z then Some (Sub (Mul (Num 16) (Pow 3)) (Mul (Num 6) Rad)) else (* 252 *)
  if ((m =? 0) && (n =? 4))%Z then Some (Sub (Mul (Num 24) (Pow 3)) (Mul (Num 12) Rad)) else (* 254 *)
  if ((m =? -5) && (n =? 5) || (m =? 5) && (n =? 5))%Z then Some (Mul (Num 5) (Pow 4)) else (* 257 *)
  if ((m =? -3) && (n =? 5) || (m =? 3) && (n =? 5))%Z then Some (Sub (Mul (Num 25) (Pow 4)) (Mul (Num 12) (Pow 2))) else (* 259 *)
  if ((m =? -1) && (n =? 5) || (m =? 1) && (n =? 5))%Z then Some (Add (Sub (Mul (Num 50) (Pow 4)) (Mul (Num 36) (Pow 2))) (Num 3)) else (* 261 *)
  if ((m =? -6) && (n =? 6) || (m =? 6) && (n =? 6))%Z then Some (Mul (Num 6) (Pow 5)) else (* 264 *)
  if ((m =? -4) && (n =? 6) || (m =? 4) && (n =? 6))%Z then Some (Sub (Mul (Num 36) (Pow 5)) (Mul (Num 20) (Pow 3))) else (* 266 *)
  if ((m =? -2) && (n =? 6) || (m =? 2) && (n =? 6))%Z then Some (Add (Sub (Mul (Num 90) (Pow 5)) (Mul (Num 80) (Pow 3))) (Mul (Num 12) Rad)) else (* 268 *)
  if ((m =? 0) && (n =? 6))%Z then Some (Add (Sub (Mul (Num 120) (Pow 5)) (Mul (Num 120) (Pow 3))) (Mul (Num 24) Rad)) else (* 270 *)
  if ((m =? -7) && (n =? 7) || (m =? 7) && (n =? 7))%Z then Some (Mul (Num 7) (Pow 6)) else (* 273 *)
  if ((m =? -5) && (n =? 7) || (m =? 5) && (n =? 7))%Z then Some (Sub (Mul (Num 49) (Pow 6)) (Mul (Num 30) (Pow 4))) else (* 275 *)
  if ((m =? -3) && (n =? 7) || (m =? 3) && (n =? 7))%Z then Some (Add (Sub (Mul (Num 147) (Pow 6)) (Mul (Num 150) (Pow 4))) (Mul (Num 30) (Pow 2))) else (* 277 *)
  if ((m =? -1) && (n =? 7) || (m =? 1) && (n =? 7))%Z then Some (Sub (Add (Sub (Mul (Num 245) (Pow 6)) (Mul (Num 300) (Pow 4))) (Mul (Num 90) (Pow 2))) (Num 4)) else (* 279 *)
  if ((m =? -6) && (n =? 8) || (m =? 6) && (n =? 8))%Z then Some (Sub (Mul (Num 64) (Pow 7)) (Mul (Num 42) (Pow 5))) else (* 282 *)
  if ((m =? -4) && (n =? 8) || (m =? 4) && (n =? 8))%Z then Some (Add (Sub (Mul (Num 224) (Pow 7)) (Mul (Num 252) (Pow 5))) (Mul (Num 60) (Pow 3))) else (* 284 *)
  if ((m =? -2) && (n =? 8) || (m =? 2) && (n =? 8))%Z then Some (Sub (Add (Sub (Mul (Num 448) (Pow 7)) (Mul (Num 630) (Pow 5))) (Mul (Num 240) (Pow 3))) (Mul (Num 20) Rad)) else (* 286 *)
  if ((m =? 0) && (n =? 8))%Z then Some (Sub (Add (Sub (Mul (Num 560) (Pow 7)) (Mul (Num 840) (Pow 5))) (Mul (Num 360) (Pow 3))) (Mul (Num 40) Rad)) else (* 289 *)
  if ((m =? -5) && (n =? 9) || (m =? 5) && (n =? 9))%Z then Some (Add (Sub (Mul (Num 324) (Pow 8)) (Mul (Num 392) (Pow 6))) (Mul (Num 105) (Pow 4))) else (* 293 *)
  if ((m =? -3) && (n =? 9) || (m =? 3) && (n =? 9))%Z then Some (Sub (Add (Sub (Mul (Num 756) (Pow 8)) (Mul (Num 1176) (Pow 6))) (Mul (Num 525) (Pow 4))) (Mul (Num 60) (Pow 2))) else (* 296 *)
  if ((m =? -1) && (n =? 9) || (m =? 1) && (n =? 9))%Z then Some (Add (Sub (Add (Sub (Mul (Num 1134) (Pow 8)) (Mul (Num 1960) (Pow 6))) (Mul (Num 1050) (Pow 4))) (Mul (Num 180) (Pow 2))) (Num 5)) else (* 299 *)
  if ((m =? -6) && (n =? 10) || (m =? 6) && (n =? 10))%Z then Some (Add (Sub (Mul (Num 450) (Pow 9)) (Mul (Num 576) (Pow 7))) (Mul (Num 168) (Pow 5))) else (* 303 *)
  if ((m =? -4) && (n =? 10) || (m =? 4) && (n =? 10))%Z then Some (Sub (Add (Sub (Mul (Num 1200) (Pow 9)) (Mul (Num 2016) (Pow 7))) (Mul (Num 1008) (Pow 5))) (Mul (Num 140) (Pow 3))) else (* 306 *)
  if ((m =? -2) && (n =? 10) || (m =? 2) && (n =? 10))%Z then Some (Add (Sub (Add (Sub (Mul (Num 2100) (Pow 9)) (Mul (Num 4032) (Pow 7))) (Mul (Num 2520) (Pow 5))) (Mul (Num 560) (Pow 3))) (Mul (Num 30) Rad)) else (* 309 *)
  if ((m =? 0) && (n =? 10))%Z then Some (Add (Sub (Add (Sub (Mul (Num 2520) (Pow 9)) (Mul (Num 5040) (Pow 7))) (Mul (Num 3360) (Pow 5))) (Mul (Num 840) (Pow 3))) (Mul (Num 60) Rad)) else (* 312 *)
  None.

Section Float.
Variable rnd : R -> R.
Variable pw : R -> Z -> R.
Variable fcos fsin : R -> R.

(** calc_zernike_pol.py 317, 548: float(n)*np.power(r, n-1) *)
Definition fdiag (n : Z) (r : R) : R := rnd (rnd (IZR n) * pw r (n - 1)).
(** calc_zernike_pol.py 319, 553: float(n)*float(n)*np.power(r, n-1) - float(n-1)*float(n-2)*np.power(r, n-3) *)
Definition fsub (n : Z) (r : R) : R :=
  rnd (rnd (rnd (rnd (IZR n) * rnd (IZR n)) * pw r (n - 1)) - rnd (rnd (rnd (IZR (n - 1)) * rnd (IZR (n - 2))) * pw r (n - 3))).
(** calc_zernike_pol.py 322, 550-551: 2.0*(p + r*x) - y *)
Definition frec0 (r p x y : R) : R := rnd (rnd (2 * rnd (p + rnd (r * x))) - y).
(** calc_zernike_pol.py 325-327, 556-558: (p + q) + r*(x + y) - z *)
Definition frec (r p q x y z : R) : R := rnd (rnd (rnd (p + q) + rnd (r * rnd (x + y))) - z).

(** calc_zernike_pol.py 208-327 *)
Fixpoint fradial_derivative (fuel : nat) (m n : Z) (r : R) : res R :=
  match fuel with
  | O => Raise RecursionError
  | S f =>
    match derivative_src m n with
    | Some e => Ok (feval rnd pw e r)
    | None =>
      if ((7 <? n) && (Z.abs m =? n))%Z then Ok (fdiag n r)
      else if ((8 <? n) && (Z.abs m =? n - 2))%Z then Ok (fsub n r)
      else if ((10 <? n) && (m =? 0))%Z then
        do p <- fradial_polynomial rnd pw f 1 (n - 1) r;
        do x <- fradial_derivative f 1 (n - 1) r;
        do y <- fradial_derivative f 0 (n - 2) r;
        Ok (frec0 r p x y)
      else
        do p <- fradial_polynomial rnd pw f (Z.abs (m - 1)) (n - 1) r;
        do q <- fradial_polynomial rnd pw f (m + 1) (n - 1) r;
        do x <- fradial_derivative f (Z.abs (m - 1)) (n - 1) r;
        do y <- fradial_derivative f (m + 1) (n - 1) r;
        do z <- fradial_derivative f m (n - 2) r;
        Ok (frec r p q x y z)
    end
  end.

(** calc_zernike_pol.py 386-394: value += ((-1)**k)*(quotient*np.power(r, n-2k-1))*(n-2k) *)
Fixpoint feq_loop_dr (ks : list Z) (m n : Z) (r value : R) : res R :=
  match ks with
  | [] => Ok value
  | k :: tl =>
      let a := ((n + m) / 2)%Z in
      let b := ((n - m) / 2)%Z in
      if (0 <? n - 2 * k)%Z then
        do f0 <- py_factorial (n - k);
        do f1 <- py_factorial k;
        do f2 <- py_factorial (a - k);
        do f3 <- py_factorial (b - k);
        feq_loop_dr tl m n r (rnd (value + rnd (rnd (powerRZ (-1) k * rnd (rnd (f0 / (f1 * f2 * f3)) * pw r (n - 2 * k - 1))) * rnd (IZR (n - 2 * k)))))
      else feq_loop_dr tl m n r value
  end.
(** calc_zernike_pol.py 365-395 *)
Definition fradial_derivative_eq (m n : Z) (r : R) : res R :=
  if (0 <? n)%Z then feq_loop_dr (zrange 0 (Z.to_nat ((n - Z.abs m) / 2 + 1))) m n r 0 else Ok 0.

(** calc_zernike_pol.py 509-559 (the sum over the dictionary is that of radial_polynomial_coeffs) *)
Fixpoint fradial_polynomial_coeffs_dr (fuel : nat) (m n : Z) (r : R) : M R :=
  match fuel with
  | O => mlift (Raise RecursionError)
  | S f =>
    if (n <=? MAX_RADIAL_ORDER_COEFFS_dR)%Z then
      run d <- find_coeffs_orders_dr f NoFlag m n; mret (feval_dict rnd pw d r 0)
    else if (Z.abs m =? n)%Z then mret (fdiag n r)
    else if (m =? 0)%Z then
      run p <- fradial_polynomial_coeffs_dr f 1 (n - 1) r;
      run x <- fradial_polynomial_coeffs_dr f 1 (n - 1) r;
      run y <- fradial_polynomial_coeffs_dr f 0 (n - 2) r;
      mret (frec0 r p x y)
    else if (Z.abs m =? n - 2)%Z then mret (fsub n r)
    else
      run p <- fradial_polynomial_coeffs rnd pw f (Z.abs (m - 1)) (n - 1) r;
      run q <- fradial_polynomial_coeffs rnd pw f (m + 1) (n - 1) r;
      run x <- fradial_polynomial_coeffs_dr f (Z.abs (m - 1)) (n - 1) r;
      run y <- fradial_polynomial_coeffs_dr f (m + 1) (n - 1) r;
      run z <- fradial_polynomial_coeffs_dr f m (n - 2) r;
      mret (frec r p q x y z)
  end.

(** zernikepol.py 567-585, after the check of the radius *)
Definition fzp_radial_dr (fuel : nat) (m n : Z) (use_exact_eq : bool) (r : R) : M R :=
  if use_exact_eq then
    if (MAX_RADIAL_ORDER_COEFFS_dR <? n)%Z then mret 0 else mlift (fradial_derivative_eq m n r)
  else if (n <=? 12)%Z then mlift (fradial_derivative fuel m n r)
  else fradial_polynomial_coeffs_dr fuel m n r.

(** calc_zernike_pol.py 446-453: m = float(m_order); -m*np.sin(m*theta) or -m*np.cos(m*theta) *)
Definition ftriangular_derivative (m : Z) (theta : R) : R :=
  let fm := rnd (IZR m) in
  if (0 <=? m)%Z then rnd (- fm * fsin (rnd (fm * theta))) else rnd (- fm * fcos (rnd (fm * theta))).
End Float.
