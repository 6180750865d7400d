(** Model of calculations/calc_zernike_pol.py: values and derivatives of the radial
    and angular parts. Floats are modelled by exact reals; a call on a numpy array is
    elementwise, so the model is for one radius/angle. [r] is a float or an element of
    an array (the code returns None for (0,0) if r is neither; _check_radii excludes it). *)
From Coq Require Import Reals.
From Verif Require Import Py.
Local Open Scope R_scope.

(** calc_zernike_pol.py 56-80 *)
Definition normalization_factor (m n : Z) : R :=
  if (m =? 0)%Z then sqrt (IZR (n + 1)) else sqrt (IZR (2 * (n + 1))).

(** calc_zernike_pol.py 110-195: the if/elif chain of analytical equations; the
    number in the comment is the line of the condition. *)
Definition radial_table (m n : Z) (r : R) : option R :=
  if ((m =? 0) && (n =? 0))%Z then Some (1) else (* 110 *)
  if ((m =? -1) && (n =? 1) || (m =? 1) && (n =? 1))%Z then Some (r) else (* 116 *)
  if ((m =? -2) && (n =? 2) || (m =? 2) && (n =? 2))%Z then Some (r ^ 2) else (* 119 *)
  if ((m =? 0) && (n =? 2))%Z then Some (2 * r ^ 2 - 1) else (* 121 *)
  if ((m =? -3) && (n =? 3) || (m =? 3) && (n =? 3))%Z then Some (r ^ 3) else (* 124 *)
  if ((m =? -1) && (n =? 3) || (m =? 1) && (n =? 3))%Z then Some (3 * r ^ 3 - 2 * r) else (* 126 *)
  if ((m =? -4) && (n =? 4) || (m =? 4) && (n =? 4))%Z then Some (r ^ 4) else (* 129 *)
  if ((m =? -2) && (n =? 4) || (m =? 2) && (n =? 4))%Z then Some (4 * r ^ 4 - 3 * r ^ 2) else (* 131 *)
  if ((m =? 0) && (n =? 4))%Z then Some (6 * r ^ 4 - 6 * r ^ 2 + 1) else (* 133 *)
  if ((m =? -5) && (n =? 5) || (m =? 5) && (n =? 5))%Z then Some (r ^ 5) else (* 136 *)
  if ((m =? -3) && (n =? 5) || (m =? 3) && (n =? 5))%Z then Some (5 * r ^ 5 - 4 * r ^ 3) else (* 138 *)
  if ((m =? -1) && (n =? 5) || (m =? 1) && (n =? 5))%Z then Some (10 * r ^ 5 - 12 * r ^ 3 + 3 * r) else (* 140 *)
  if ((m =? -6) && (n =? 6) || (m =? 6) && (n =? 6))%Z then Some (r ^ 6) else (* 143 *)
  if ((m =? -4) && (n =? 6) || (m =? 4) && (n =? 6))%Z then Some (6 * r ^ 6 - 5 * r ^ 4) else (* 145 *)
  if ((m =? -2) && (n =? 6) || (m =? 2) && (n =? 6))%Z then Some (15 * r ^ 6 - 20 * r ^ 4 + 6 * r ^ 2) else (* 147 *)
  if ((m =? 0) && (n =? 6))%Z then Some (20 * r ^ 6 - 30 * r ^ 4 + 12 * r ^ 2 - 1) else (* 149 *)
  if ((m =? -7) && (n =? 7) || (m =? 7) && (n =? 7))%Z then Some (r ^ 7) else (* 152 *)
  if ((m =? -5) && (n =? 7) || (m =? 5) && (n =? 7))%Z then Some (7 * r ^ 7 - 6 * r ^ 5) else (* 154 *)
  if ((m =? -3) && (n =? 7) || (m =? 3) && (n =? 7))%Z then Some (21 * r ^ 7 - 30 * r ^ 5 + 10 * r ^ 3) else (* 156 *)
  if ((m =? -1) && (n =? 7) || (m =? 1) && (n =? 7))%Z then Some (35 * r ^ 7 - 60 * r ^ 5 + 30 * r ^ 3 - 4 * r) else (* 158 *)
  if ((m =? -6) && (n =? 8) || (m =? 6) && (n =? 8))%Z then Some (8 * r ^ 8 - 7 * r ^ 6) else (* 161 *)
  if ((m =? -4) && (n =? 8) || (m =? 4) && (n =? 8))%Z then Some (28 * r ^ 8 - 42 * r ^ 6 + 15 * r ^ 4) else (* 163 *)
  if ((m =? -2) && (n =? 8) || (m =? 2) && (n =? 8))%Z then Some (56 * r ^ 8 - 105 * r ^ 6 + 60 * r ^ 4 - 10 * r ^ 2) else (* 165 *)
  if ((m =? 0) && (n =? 8))%Z then Some (70 * r ^ 8 - 140 * r ^ 6 + 90 * r ^ 4 - 20 * r ^ 2 + 1) else (* 168 *)
  if ((m =? -7) && (n =? 9) || (m =? 7) && (n =? 9))%Z then Some (9 * r ^ 9 - 8 * r ^ 7) else (* 172 *)
  if ((m =? -5) && (n =? 9) || (m =? 5) && (n =? 9))%Z then Some (36 * r ^ 9 - 56 * r ^ 7 + 21 * r ^ 5) else (* 174 *)
  if ((m =? -3) && (n =? 9) || (m =? 3) && (n =? 9))%Z then Some (84 * r ^ 9 - 168 * r ^ 7 + 105 * r ^ 5 - 20 * r ^ 3) else (* 176 *)
  if ((m =? -1) && (n =? 9) || (m =? 1) && (n =? 9))%Z then Some (126 * r ^ 9 - 280 * r ^ 7 + 210 * r ^ 5 - 60 * r ^ 3 + 5 * r) else (* 179 *)
  if ((m =? -8) && (n =? 10) || (m =? 8) && (n =? 10))%Z then Some (10 * r ^ 10 - 9 * r ^ 8) else (* 183 *)
  if ((m =? -6) && (n =? 10) || (m =? 6) && (n =? 10))%Z then Some (45 * r ^ 10 - 72 * r ^ 8 + 28 * r ^ 6) else (* 185 *)
  if ((m =? -4) && (n =? 10) || (m =? 4) && (n =? 10))%Z then Some (120 * r ^ 10 - 252 * r ^ 8 + 168 * r ^ 6 - 35 * r ^ 4) else (* 187 *)
  if ((m =? -2) && (n =? 10) || (m =? 2) && (n =? 10))%Z then Some (210 * r ^ 10 - 504 * r ^ 8 + 420 * r ^ 6 - 140 * r ^ 4 + 15 * r ^ 2) else (* 190 *)
  if ((m =? 0) && (n =? 10))%Z then Some (252 * r ^ 10 - 630 * r ^ 8 + 560 * r ^ 6 - 210 * r ^ 4 + 30 * r ^ 2 - 1) else (* 193 *)
  None.

(** calc_zernike_pol.py 228-314: same for derivatives *)
Definition radial_derivative_table (m n : Z) (r : R) : option R :=
  if ((m =? 0) && (n =? 0))%Z then Some (0) else (* 228 *)
  if ((m =? -1) && (n =? 1) || (m =? 1) && (n =? 1))%Z then Some (1) else (* 234 *)
  if ((m =? -2) && (n =? 2) || (m =? 2) && (n =? 2))%Z then Some (2 * r) else (* 240 *)
  if ((m =? 0) && (n =? 2))%Z then Some (4 * r) else (* 242 *)
  if ((m =? -3) && (n =? 3) || (m =? 3) && (n =? 3))%Z then Some (3 * r ^ 2) else (* 245 *)
  if ((m =? -1) && (n =? 3) || (m =? 1) && (n =? 3))%Z then Some (9 * r ^ 2 - 2) else (* 247 *)
  if ((m =? -4) && (n =? 4) || (m =? 4) && (n =? 4))%Z then Some (4 * r ^ 3) else (* 250 *)
  if ((m =? -2) && (n =? 4) || (m =? 2) && (n =? 4))%Z then Some (16 * r ^ 3 - 6 * r) else (* 252 *)
  if ((m =? 0) && (n =? 4))%Z then Some (24 * r ^ 3 - 12 * r) else (* 254 *)
  if ((m =? -5) && (n =? 5) || (m =? 5) && (n =? 5))%Z then Some (5 * r ^ 4) else (* 257 *)
  if ((m =? -3) && (n =? 5) || (m =? 3) && (n =? 5))%Z then Some (25 * r ^ 4 - 12 * r ^ 2) else (* 259 *)
  if ((m =? -1) && (n =? 5) || (m =? 1) && (n =? 5))%Z then Some (50 * r ^ 4 - 36 * r ^ 2 + 3) else (* 261 *)
  if ((m =? -6) && (n =? 6) || (m =? 6) && (n =? 6))%Z then Some (6 * r ^ 5) else (* 264 *)
  if ((m =? -4) && (n =? 6) || (m =? 4) && (n =? 6))%Z then Some (36 * r ^ 5 - 20 * r ^ 3) else (* 266 *)
  if ((m =? -2) && (n =? 6) || (m =? 2) && (n =? 6))%Z then Some (90 * r ^ 5 - 80 * r ^ 3 + 12 * r) else (* 268 *)
  if ((m =? 0) && (n =? 6))%Z then Some (120 * r ^ 5 - 120 * r ^ 3 + 24 * r) else (* 270 *)
  if ((m =? -7) && (n =? 7) || (m =? 7) && (n =? 7))%Z then Some (7 * r ^ 6) else (* 273 *)
  if ((m =? -5) && (n =? 7) || (m =? 5) && (n =? 7))%Z then Some (49 * r ^ 6 - 30 * r ^ 4) else (* 275 *)
  if ((m =? -3) && (n =? 7) || (m =? 3) && (n =? 7))%Z then Some (147 * r ^ 6 - 150 * r ^ 4 + 30 * r ^ 2) else (* 277 *)
  if ((m =? -1) && (n =? 7) || (m =? 1) && (n =? 7))%Z then Some (245 * r ^ 6 - 300 * r ^ 4 + 90 * r ^ 2 - 4) else (* 279 *)
  if ((m =? -6) && (n =? 8) || (m =? 6) && (n =? 8))%Z then Some (64 * r ^ 7 - 42 * r ^ 5) else (* 282 *)
  if ((m =? -4) && (n =? 8) || (m =? 4) && (n =? 8))%Z then Some (224 * r ^ 7 - 252 * r ^ 5 + 60 * r ^ 3) else (* 284 *)
  if ((m =? -2) && (n =? 8) || (m =? 2) && (n =? 8))%Z then Some (448 * r ^ 7 - 630 * r ^ 5 + 240 * r ^ 3 - 20 * r) else (* 286 *)
  if ((m =? 0) && (n =? 8))%Z then Some (560 * r ^ 7 - 840 * r ^ 5 + 360 * r ^ 3 - 40 * r) else (* 289 *)
  if ((m =? -5) && (n =? 9) || (m =? 5) && (n =? 9))%Z then Some (324 * r ^ 8 - 392 * r ^ 6 + 105 * r ^ 4) else (* 293 *)
  if ((m =? -3) && (n =? 9) || (m =? 3) && (n =? 9))%Z then Some (756 * r ^ 8 - 1176 * r ^ 6 + 525 * r ^ 4 - 60 * r ^ 2) else (* 296 *)
  if ((m =? -1) && (n =? 9) || (m =? 1) && (n =? 9))%Z then Some (1134 * r ^ 8 - 1960 * r ^ 6 + 1050 * r ^ 4 - 180 * r ^ 2 + 5) else (* 299 *)
  if ((m =? -6) && (n =? 10) || (m =? 6) && (n =? 10))%Z then Some (450 * r ^ 9 - 576 * r ^ 7 + 168 * r ^ 5) else (* 303 *)
  if ((m =? -4) && (n =? 10) || (m =? 4) && (n =? 10))%Z then Some (1200 * r ^ 9 - 2016 * r ^ 7 + 1008 * r ^ 5 - 140 * r ^ 3) else (* 306 *)
  if ((m =? -2) && (n =? 10) || (m =? 2) && (n =? 10))%Z then Some (2100 * r ^ 9 - 4032 * r ^ 7 + 2520 * r ^ 5 - 560 * r ^ 3 + 30 * r) else (* 309 *)
  if ((m =? 0) && (n =? 10))%Z then Some (2520 * r ^ 9 - 5040 * r ^ 7 + 3360 * r ^ 5 - 840 * r ^ 3 + 60 * r) else (* 312 *)
  None.

(** calc_zernike_pol.py 83-205. Python's recursion limit is modelled by [fuel]: a call
    that needs a deeper recursion raises RecursionError. *)
Fixpoint radial_polynomial (fuel : nat) (m n : Z) (r : R) : res R :=
  match fuel with
  | O => Raise RecursionError
  | S f =>
    match radial_table m n r with
    | Some v => Ok v
    | None =>
      if ((7 <? n) && (Z.abs m =? n))%Z then Ok (powerRZ r n)
      else if ((10 <? n) && (m =? 0))%Z then
        do x <- radial_polynomial f 1 (n - 1) r;
        do y <- radial_polynomial f 0 (n - 2) r;
        Ok (2 * r * x - y)
      else if ((10 <? n) && (Z.abs m =? n - 2))%Z then
        Ok (IZR n * powerRZ r n - IZR (n - 1) * powerRZ r (n - 2))
      else
        do x <- radial_polynomial f (Z.abs (m - 1)) (n - 1) r;
        do y <- radial_polynomial f (m + 1) (n - 1) r;
        do z <- radial_polynomial f m (n - 2) r;
        Ok (r * (x + y) - z)
    end
  end.

(** calc_zernike_pol.py 208-327 *)
Fixpoint radial_derivative (fuel : nat) (m n : Z) (r : R) : res R :=
  match fuel with
  | O => Raise RecursionError
  | S f =>
    match radial_derivative_table m n r with
    | Some v => Ok v
    | None =>
      if ((7 <? n) && (Z.abs m =? n))%Z then Ok (IZR n * powerRZ r (n - 1))
      else if ((8 <? n) && (Z.abs m =? n - 2))%Z then
        Ok (IZR n * IZR n * powerRZ r (n - 1) - IZR (n - 1) * IZR (n - 2) * powerRZ r (n - 3))
      else if ((10 <? n) && (m =? 0))%Z then
        do p <- radial_polynomial f 1 (n - 1) r;
        do x <- radial_derivative f 1 (n - 1) r;
        do y <- radial_derivative f 0 (n - 2) r;
        Ok (2 * (p + r * x) - y)
      else
        do p <- radial_polynomial f (Z.abs (m - 1)) (n - 1) r;
        do q <- radial_polynomial f (m + 1) (n - 1) r;
        do x <- radial_derivative f (Z.abs (m - 1)) (n - 1) r;
        do y <- radial_derivative f (m + 1) (n - 1) r;
        do z <- radial_derivative f m (n - 2) r;
        Ok ((p + q) + r * (x + y) - z)
    end
  end.

(** math.factorial: ValueError on negative arguments *)
Definition py_factorial (z : Z) : res R :=
  if (z <? 0)%Z then Raise ValueError else Ok (INR (fact (Z.to_nat z))).

(** calc_zernike_pol.py 355-361, loop body and loop of [radial_polynomial_eq] *)
Fixpoint eq_loop (ks : list Z) (m n : Z) (r value : R) : res R :=
  match ks with
  | [] => Ok value
  | k :: tl =>
      let a := ((n + m) / 2)%Z in
      let b := ((n - m) / 2)%Z in
      do f0 <- py_factorial (n - k);
      do f1 <- py_factorial k;
      do f2 <- py_factorial (a - k);
      do f3 <- py_factorial (b - k);
      eq_loop tl m n r (value + powerRZ (-1) k * ((f0 / (f1 * f2 * f3)) * powerRZ r (n - 2 * k)))
  end.

(** calc_zernike_pol.py 330-362; [range(0, (n-|m|)//2 + 1)] is empty if the bound is <= 0 *)
Definition radial_polynomial_eq (m n : Z) (r : R) : res R :=
  eq_loop (zrange 0 (Z.to_nat ((n - Z.abs m) / 2 + 1))) m n r 0.

(** calc_zernike_pol.py 386-394 *)
Fixpoint eq_loop_dr (ks : list Z) (m n : Z) (r value : R) : res R :=
  match ks with
  | [] => Ok value
  | k :: tl =>
      let a := ((n + m) / 2)%Z in
      let b := ((n - m) / 2)%Z in
      if (0 <? n - 2 * k)%Z then
        do f0 <- py_factorial (n - k);
        do f1 <- py_factorial k;
        do f2 <- py_factorial (a - k);
        do f3 <- py_factorial (b - k);
        eq_loop_dr tl m n r (value + powerRZ (-1) k
            * ((f0 / (f1 * f2 * f3)) * powerRZ r (n - 2 * k - 1)) * IZR (n - 2 * k))
      else eq_loop_dr tl m n r value
  end.

(** calc_zernike_pol.py 365-395 *)
Definition radial_derivative_eq (m n : Z) (r : R) : res R :=
  if (0 <? n)%Z then eq_loop_dr (zrange 0 (Z.to_nat ((n - Z.abs m) / 2 + 1))) m n r 0 else Ok 0.

(** calc_zernike_pol.py 398-426 *)
Definition triangular_function (m : Z) (theta : R) : R :=
  if (0 <=? m)%Z then cos (IZR m * theta) else - sin (IZR m * theta).

(** calc_zernike_pol.py 429-453 *)
Definition triangular_derivative (m : Z) (theta : R) : R :=
  if (0 <=? m)%Z then - IZR m * sin (IZR m * theta) else - IZR m * cos (IZR m * theta).
