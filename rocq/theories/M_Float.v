(** Floating-point version of the values of the radial and full polynomials: the same programs as
    M_Radial.v / M_Coeffs.v, with a rounding [rnd] after every arithmetic operation, in the order
    Python evaluates them, and with numpy's power, cosine and sine as parameters [pw], [fcos], [fsin].
    (np.sqrt is correctly rounded.) Overflow is not modelled: [rnd] has no largest value. With [rnd]
    the identity and exact functions these are the functions of M_Radial.v and M_Coeffs.v
    (L_Float.v, [fzp_radial_exact], [fzp_value_exact]). *)
From Coq Require Import Reals.
From Verif Require Import Py M_Radial M_Coeffs.
Local Open Scope R_scope.

(** the arithmetic expressions of calc_zernike_pol.py 110-195: a literal, r, np.power(r, k), a+b, a-b, a*b *)
Inductive expr : Type :=
| Num (z : Z) | Rad | Pow (k : Z)
| Add (a b : expr) | Sub (a b : expr) | Mul (a b : expr).

(** calc_zernike_pol.py 110-195: the returned expressions, in source order (line of the condition in the comment) *)
Definition radial_src (m n : Z) : option expr :=
  if ((m =? 0) && (n =? 0))%Z then Some (Num 1) else (* 110 *)
  if ((m =? -1) && (n =? 1) || (m =? 1) && (n =? 1))%Z then Some (Rad) else (* 116 *)
  if ((m =? -2) && (n =? 2) || (m =? 2) && (n =? 2))%Z then Some (Pow 2) else (* 119 *)
  if ((m =? 0) && (n =? 2))%Z then Some (Sub (Mul (Num 2) (Pow 2)) (Num 1)) else (* 121 *)
  if ((m =? -3) && (n =? 3) || (m =? 3) && (n =? 3))%Z then Some (Pow 3) else (* 124 *)
  if ((m =? -1) && (n =? 3) || (m =? 1) && (n =? 3))%Z then Some (Sub (Mul (Num 3) (Pow 3)) (Mul (Num 2) Rad)) else (* 126 *)
  if ((m =? -4) && (n =? 4) || (m =? 4) && (n =? 4))%Z then Some (Pow 4) else (* 129 *)
  if ((m =? -2) && (n =? 4) || (m =? 2) && (n =? 4))%Z then Some (Sub (Mul (Num 4) (Pow 4)) (Mul (Num 3) (Pow 2))) else (* 131 *)
  if ((m =? 0) && (n =? 4))%Z then Some (Add (Sub (Mul (Num 6) (Pow 4)) (Mul (Num 6) (Pow 2))) (Num 1)) else (* 133 *)
  if ((m =? -5) && (n =? 5) || (m =? 5) && (n =? 5))%Z then Some (Pow 5) else (* 136 *)
  if ((m =? -3) && (n =? 5) || (m =? 3) && (n =? 5))%Z then Some (Sub (Mul (Num 5) (Pow 5)) (Mul (Num 4) (Pow 3))) else (* 138 *)
  if ((m =? -1) && (n =? 5) || (m =? 1) && (n =? 5))%Z then Some (Add (Sub (Mul (Num 10) (Pow 5)) (Mul (Num 12) (Pow 3))) (Mul (Num 3) Rad)) else (* 140 *)
  if ((m =? -6) && (n =? 6) || (m =? 6) && (n =? 6))%Z then Some (Pow 6) else (* 143 *)
  if ((m =? -4) && (n =? 6) || (m =? 4) && (n =? 6))%Z then Some (Sub (Mul (Num 6) (Pow 6)) (Mul (Num 5) (Pow 4))) else (* 145 *)
  if ((m =? -2) && (n =? 6) || (m =? 2) && (n =? 6))%Z then Some (Add (Sub (Mul (Num 15) (Pow 6)) (Mul (Num 20) (Pow 4))) (Mul (Num 6) (Pow 2))) else (* 147 *)
  if ((m =? 0) && (n =? 6))%Z then Some (Sub (Add (Sub (Mul (Num 20) (Pow 6)) (Mul (Num 30) (Pow 4))) (Mul (Num 12) (Pow 2))) (Num 1)) else (* 149 *)
  if ((m =? -7) && (n =? 7) || (m =? 7) && (n =? 7))%Z then Some (Pow 7) else (* 152 *)
  if ((m =? -5) && (n =? 7) || (m =? 5) && (n =? 7))%Z then Some (Sub (Mul (Num 7) (Pow 7)) (Mul (Num 6) (Pow 5))) else (* 154 *)
  if ((m =? -3) && (n =? 7) || (m =? 3) && (n =? 7))%Z then Some (Add (Sub (Mul (Num 21) (Pow 7)) (Mul (Num 30) (Pow 5))) (Mul (Num 10) (Pow 3))) else (* 156 *)
  if ((m =? -1) && (n =? 7) || (m =? 1) && (n =? 7))%Z then Some (Sub (Add (Sub (Mul (Num 35) (Pow 7)) (Mul (Num 60) (Pow 5))) (Mul (Num 30) (Pow 3))) (Mul (Num 4) Rad)) else (* 158 *)
  if ((m =? -6) && (n =? 8) || (m =? 6) && (n =? 8))%Z then Some (Sub (Mul (Num 8) (Pow 8)) (Mul (Num 7) (Pow 6))) else (* 161 *)
  if ((m =? -4) && (n =? 8) || (m =? 4) && (n =? 8))%Z then Some (Add (Sub (Mul (Num 28) (Pow 8)) (Mul (Num 42) (Pow 6))) (Mul (Num 15) (Pow 4))) else (* 163 *)
  if ((m =? -2) && (n =? 8) || (m =? 2) && (n =? 8))%Z then Some (Sub (Add (Sub (Mul (Num 56) (Pow 8)) (Mul (Num 105) (Pow 6))) (Mul (Num 60) (Pow 4))) (Mul (Num 10) (Pow 2))) else (* 165 *)
  if ((m =? 0) && (n =? 8))%Z then Some (Add (Sub (Add (Sub (Mul (Num 70) (Pow 8)) (Mul (Num 140) (Pow 6))) (Mul (Num 90) (Pow 4))) (Mul (Num 20) (Pow 2))) (Num 1)) else (* 168 *)
  if ((m =? -7) && (n =? 9) || (m =? 7) && (n =? 9))%Z then Some (Sub (Mul (Num 9) (Pow 9)) (Mul (Num 8) (Pow 7))) else (* 172 *)
  if ((m =? -5) && (n =? 9) || (m =? 5) && (n =? 9))%Z then Some (Add (Sub (Mul (Num 36) (Pow 9)) (Mul (Num 56) (Pow 7))) (Mul (Num 21) (Pow 5))) else (* 174 *)
  if ((m =? -3) && (n =? 9) || (m =? 3) && (n =? 9))%Z then Some (Sub (Add (Sub (Mul (Num 84) (Pow 9)) (Mul (Num 168) (Pow 7))) (Mul (Num 105) (Pow 5))) (Mul (Num 20) (Pow 3))) else (* 176 *)
  if ((m =? -1) && (n =? 9) || (m =? 1) && (n =? 9))%Z then Some (Add (Sub (Add (Sub (Mul (Num 126) (Pow 9)) (Mul (Num 280) (Pow 7))) (Mul (Num 210) (Pow 5))) (Mul (Num 60) (Pow 3))) (Mul (Num 5) Rad)) else (* 179 *)
  if ((m =? -8) && (n =? 10) || (m =? 8) && (n =? 10))%Z then Some (Sub (Mul (Num 10) (Pow 10)) (Mul (Num 9) (Pow 8))) else (* 183 *)
  if ((m =? -6) && (n =? 10) || (m =? 6) && (n =? 10))%Z then Some (Add (Sub (Mul (Num 45) (Pow 10)) (Mul (Num 72) (Pow 8))) (Mul (Num 28) (Pow 6))) else (* 185 *)
  if ((m =? -4) && (n =? 10) || (m =? 4) && (n =? 10))%Z then Some (Sub (Add (Sub (Mul (Num 120) (Pow 10)) (Mul (Num 252) (Pow 8))) (Mul (Num 168) (Pow 6))) (Mul (Num 35) (Pow 4))) else (* 187 *)
  if ((m =? -2) && (n =? 10) || (m =? 2) && (n =? 10))%Z then Some (Add (Sub (Add (Sub (Mul (Num 210) (Pow 10)) (Mul (Num 504) (Pow 8))) (Mul (Num 420) (Pow 6))) (Mul (Num 140) (Pow 4))) (Mul (Num 15) (Pow 2))) else (* 190 *)
  if ((m =? 0) && (n =? 10))%Z then Some (Sub (Add (Sub (Add (Sub (Mul (Num 252) (Pow 10)) (Mul (Num 630) (Pow 8))) (Mul (Num 560) (Pow 6))) (Mul (Num 210) (Pow 4))) (Mul (Num 30) (Pow 2))) (Num 1)) else (* 193 *)
  None.

Section Float.
Variable rnd : R -> R.
Variable pw : R -> Z -> R.
Variable fcos fsin : R -> R.

(** evaluation of one returned expression: every operation is rounded; the literals are exact *)
Fixpoint feval (e : expr) (r : R) : R :=
  match e with
  | Num z => IZR z
  | Rad => r
  | Pow k => pw r k
  | Add a b => rnd (feval a r + feval b r)
  | Sub a b => rnd (feval a r - feval b r)
  | Mul a b => rnd (feval a r * feval b r)
  end.

(** calc_zernike_pol.py 83-205 *)
Fixpoint fradial_polynomial (fuel : nat) (m n : Z) (r : R) : res R :=
  match fuel with
  | O => Raise RecursionError
  | S f =>
    match radial_src m n with
    | Some e => Ok (feval e r)
    | None =>
      if ((7 <? n) && (Z.abs m =? n))%Z then Ok (pw r n)
      else if ((10 <? n) && (m =? 0))%Z then
        do x <- fradial_polynomial f 1 (n - 1) r;
        do y <- fradial_polynomial f 0 (n - 2) r;
        Ok (rnd (rnd (rnd (2 * r) * x) - y))
      else if ((10 <? n) && (Z.abs m =? n - 2))%Z then
        Ok (rnd (rnd (rnd (IZR n) * pw r n) - rnd (rnd (IZR (n - 1)) * pw r (n - 2))))
      else
        do x <- fradial_polynomial f (Z.abs (m - 1)) (n - 1) r;
        do y <- fradial_polynomial f (m + 1) (n - 1) r;
        do z <- fradial_polynomial f m (n - 2) r;
        Ok (rnd (rnd (r * rnd (x + y)) - z))
    end
  end.

(** calc_zernike_pol.py 355-361. The quotient of the two Python integers is one correctly rounded
    division; (-1)**k is an integer converted exactly. *)
Fixpoint feq_loop (ks : list Z) (m n : Z) (r value : R) : res R :=
  match ks with
  | [] => Ok value
  | k :: tl =>
      let a := ((n + m) / 2)%Z in
      let b := ((n - m) / 2)%Z in
      do f0 <- py_factorial (n - k);
      do f1 <- py_factorial k;
      do f2 <- py_factorial (a - k);
      do f3 <- py_factorial (b - k);
      feq_loop tl m n r (rnd (value + rnd (powerRZ (-1) k * rnd (rnd (f0 / (f1 * f2 * f3)) * pw r (n - 2 * k)))))
  end.

(** calc_zernike_pol.py 330-362 *)
Definition fradial_polynomial_eq (m n : Z) (r : R) : res R :=
  feq_loop (zrange 0 (Z.to_nat ((n - Z.abs m) / 2 + 1))) m n r 0.

(** calc_zernike_pol.py 490-492: the integer coefficient is converted to a float, multiplied, added *)
Fixpoint feval_dict (d : dict) (r acc : R) : R :=
  match d with
  | [] => acc
  | (k, v) :: tl => feval_dict tl r (if (0 <? Z.abs v)%Z then rnd (acc + rnd (rnd (IZR v) * pw r k)) else acc)
  end.

(** calc_zernike_pol.py 456-506 *)
Fixpoint fradial_polynomial_coeffs (fuel : nat) (m n : Z) (r : R) : M R :=
  match fuel with
  | O => mlift (Raise RecursionError)
  | S f =>
    if (n <=? MAX_RADIAL_ORDER_COEFFS)%Z then
      run d <- find_coeffs_orders f NoFlag m n; mret (feval_dict d r 0)
    else if (Z.abs m =? n)%Z then mret (pw r n)
    else if (m =? 0)%Z then
      run x <- fradial_polynomial_coeffs f 1 (n - 1) r;
      run y <- fradial_polynomial_coeffs f 0 (n - 2) r;
      mret (rnd (rnd (rnd (2 * r) * x) - y))
    else if (Z.abs m =? n - 2)%Z then
      mret (rnd (rnd (rnd (IZR n) * pw r n) - rnd (rnd (IZR (n - 1)) * pw r (n - 2))))
    else
      run x <- fradial_polynomial_coeffs f (Z.abs (m - 1)) (n - 1) r;
      run y <- fradial_polynomial_coeffs f (m + 1) (n - 1) r;
      run z <- fradial_polynomial_coeffs f m (n - 2) r;
      mret (rnd (rnd (r * rnd (x + y)) - z))
  end.

(** zernikepol.py 475-493, after the check of the radius *)
Definition fzp_radial (fuel : nat) (m n : Z) (use_exact_eq : bool) (r : R) : M R :=
  if use_exact_eq then
    if (MAX_RADIAL_ORDER_COEFFS <? n)%Z then mret 0 else mlift (fradial_polynomial_eq m n r)
  else if (n <=? 12)%Z then mlift (fradial_polynomial fuel m n r)
  else fradial_polynomial_coeffs fuel m n r.

(** calc_zernike_pol.py 56-80 *)
Definition fnormalization_factor (m n : Z) : R :=
  if (m =? 0)%Z then rnd (sqrt (rnd (IZR (n + 1)))) else rnd (sqrt (rnd (IZR (2 * (n + 1))))).

(** calc_zernike_pol.py 398-426 *)
Definition ftriangular_function (m : Z) (theta : R) : R :=
  if (0 <=? m)%Z then fcos (rnd (IZR m * theta)) else - fsin (rnd (IZR m * theta)).

(** zernikepol.py 408-428, after the checks of the coordinates *)
Definition fzp_polynomial_value (fuel : nat) (m n : Z) (use_exact_eq : bool) (r theta : R) : M R :=
  if use_exact_eq && (MAX_RADIAL_ORDER_COEFFS <? n)%Z then mret 0
  else run v <- fzp_radial fuel m n use_exact_eq r;
       mret (rnd (rnd (fnormalization_factor m n * ftriangular_function m theta) * v)).
End Float.
