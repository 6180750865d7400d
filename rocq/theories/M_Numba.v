(** Model of the accelerated PSF calculation (calculations/calc_psfs_numba.py 36-545). The compiled functions
    are modelled by the meaning of their Python text (numba's compilation is trusted); arithmetic and integration nodes
    as in M_Psf. *)
From Coq Require Import Reals.
From Verif Require Import Py M_Radial M_Coeffs M_Sum M_Geo M_Fit M_Psf.
Local Open Scope R_scope.

(** 68-152: the if-elif chain with the radial functions (numbers of the lines on the right) *)
Definition radial_table_comp (m n : Z) (r : R) : option R :=
  if ((m =? 0) && (n =? 0))%Z then Some (r ^ 0) else (* 70 *)
  if (((m =? -1) && (n =? 1)) || ((m =? 1) && (n =? 1)))%Z then Some (r) else (* 73 *)
  if (((m =? -2) && (n =? 2)) || ((m =? 2) && (n =? 2)))%Z then Some (r ^ 2) else (* 76 *)
  if ((m =? 0) && (n =? 2))%Z then Some (2 * r ^ 2 - 1) else (* 78 *)
  if (((m =? -3) && (n =? 3)) || ((m =? 3) && (n =? 3)))%Z then Some (r ^ 3) else (* 81 *)
  if (((m =? -1) && (n =? 3)) || ((m =? 1) && (n =? 3)))%Z then Some (3 * r ^ 3 - 2 * r) else (* 83 *)
  if (((m =? -4) && (n =? 4)) || ((m =? 4) && (n =? 4)))%Z then Some (r ^ 4) else (* 86 *)
  if (((m =? -2) && (n =? 4)) || ((m =? 2) && (n =? 4)))%Z then Some (4 * r ^ 4 - 3 * r ^ 2) else (* 88 *)
  if ((m =? 0) && (n =? 4))%Z then Some (6 * r ^ 4 - 6 * r ^ 2 + 1) else (* 90 *)
  if (((m =? -5) && (n =? 5)) || ((m =? 5) && (n =? 5)))%Z then Some (r ^ 5) else (* 93 *)
  if (((m =? -3) && (n =? 5)) || ((m =? 3) && (n =? 5)))%Z then Some (5 * r ^ 5 - 4 * r ^ 3) else (* 95 *)
  if (((m =? -1) && (n =? 5)) || ((m =? 1) && (n =? 5)))%Z then Some (10 * r ^ 5 - 12 * r ^ 3 + 3 * r) else (* 97 *)
  if (((m =? -6) && (n =? 6)) || ((m =? 6) && (n =? 6)))%Z then Some (r ^ 6) else (* 100 *)
  if (((m =? -4) && (n =? 6)) || ((m =? 4) && (n =? 6)))%Z then Some (6 * r ^ 6 - 5 * r ^ 4) else (* 102 *)
  if (((m =? -2) && (n =? 6)) || ((m =? 2) && (n =? 6)))%Z then Some (15 * r ^ 6 - 20 * r ^ 4 + 6 * r ^ 2) else (* 104 *)
  if ((m =? 0) && (n =? 6))%Z then Some (20 * r ^ 6 - 30 * r ^ 4 + 12 * r ^ 2 - 1) else (* 106 *)
  if (((m =? -7) && (n =? 7)) || ((m =? 7) && (n =? 7)))%Z then Some (r ^ 7) else (* 109 *)
  if (((m =? -5) && (n =? 7)) || ((m =? 5) && (n =? 7)))%Z then Some (7 * r ^ 7 - 6 * r ^ 5) else (* 111 *)
  if (((m =? -3) && (n =? 7)) || ((m =? 3) && (n =? 7)))%Z then Some (21 * r ^ 7 - 30 * r ^ 5 + 10 * r ^ 3) else (* 113 *)
  if (((m =? -1) && (n =? 7)) || ((m =? 1) && (n =? 7)))%Z then Some (35 * r ^ 7 - 60 * r ^ 5 + 30 * r ^ 3 - 4 * r) else (* 115 *)
  if (((m =? -6) && (n =? 8)) || ((m =? 6) && (n =? 8)))%Z then Some (8 * r ^ 8 - 7 * r ^ 6) else (* 118 *)
  if (((m =? -4) && (n =? 8)) || ((m =? 4) && (n =? 8)))%Z then Some (28 * r ^ 8 - 42 * r ^ 6 + 15 * r ^ 4) else (* 120 *)
  if (((m =? -2) && (n =? 8)) || ((m =? 2) && (n =? 8)))%Z then Some (56 * r ^ 8 - 105 * r ^ 6 + 60 * r ^ 4 - 10 * r ^ 2) else (* 122 *)
  if ((m =? 0) && (n =? 8))%Z then Some (70 * r ^ 8 - 140 * r ^ 6 + 90 * r ^ 4 - 20 * r ^ 2 + 1) else (* 125 *)
  if (((m =? -7) && (n =? 9)) || ((m =? 7) && (n =? 9)))%Z then Some (9 * r ^ 9 - 8 * r ^ 7) else (* 129 *)
  if (((m =? -5) && (n =? 9)) || ((m =? 5) && (n =? 9)))%Z then Some (36 * r ^ 9 - 56 * r ^ 7 + 21 * r ^ 5) else (* 131 *)
  if (((m =? -3) && (n =? 9)) || ((m =? 3) && (n =? 9)))%Z then Some (84 * r ^ 9 - 168 * r ^ 7 + 105 * r ^ 5 - 20 * r ^ 3) else (* 133 *)
  if (((m =? -1) && (n =? 9)) || ((m =? 1) && (n =? 9)))%Z then Some (126 * r ^ 9 - 280 * r ^ 7 + 210 * r ^ 5 - 60 * r ^ 3 + 5 * r) else (* 136 *)
  if (((m =? -8) && (n =? 10)) || ((m =? 8) && (n =? 10)))%Z then Some (10 * r ^ 10 - 9 * r ^ 8) else (* 140 *)
  if (((m =? -6) && (n =? 10)) || ((m =? 6) && (n =? 10)))%Z then Some (45 * r ^ 10 - 72 * r ^ 8 + 28 * r ^ 6) else (* 142 *)
  if (((m =? -4) && (n =? 10)) || ((m =? 4) && (n =? 10)))%Z then Some (120 * r ^ 10 - 252 * r ^ 8 + 168 * r ^ 6 - 35 * r ^ 4) else (* 144 *)
  if (((m =? -2) && (n =? 10)) || ((m =? 2) && (n =? 10)))%Z then Some (210 * r ^ 10 - 504 * r ^ 8 + 420 * r ^ 6 - 140 * r ^ 4 + 15 * r ^ 2) else (* 147 *)
  if ((m =? 0) && (n =? 10))%Z then Some (252 * r ^ 10 - 630 * r ^ 8 + 560 * r ^ 6 - 210 * r ^ 4 + 30 * r ^ 2 - 1) else (* 150 *)
  None.

(** 37-158: value for one point. With n > 7 and |m| = n, or n > 10 and |m| = n - 2, lines 153-156 return the radial function
    alone; without any case the name 'radial' is unbound in line 158. *)
Definition zernpol_value (orders : Z * Z) (r theta : R) : res R :=
  let '(m, n) := orders in
  let norm := if (m =? 0)%Z then sqrt (IZR (n + 1)) else sqrt (IZR (2 * (n + 1))) in             (* 58-61 *)
  let triangular := if (0 <=? m)%Z then cos (IZR m * theta) else - sin (IZR m * theta) in        (* 63-66 *)
  match radial_table_comp m n r with
  | Some radial => Ok (norm * triangular * radial)                                                (* 158 *)
  | None =>
      if ((7 <? n) && (Z.abs m =? n))%Z then Ok (powerRZ r n)                                     (* 153-154 *)
      else if ((10 <? n) && (Z.abs m =? n - 2))%Z
           then Ok (IZR n * powerRZ r n - IZR (n - 1) * powerRZ r (n - 2))                        (* 155-156 *)
      else Raise UnboundLocalError
  end.

(** 431-435, iterations with i >= 1. numba does not check the index of amplitudes[i]: with fewer amplitudes than
    polynomials it reads outside of the array (IndexError here; no theorem uses this case) *)
Fixpoint pol_sums_tl (ps : list (Z * Z)) (amps : list R) (p phi acc : R) : res R :=
  match ps, amps with
  | [], _ => Ok acc
  | _ :: _, [] => Raise IndexError
  | o :: ps', a :: amps' => do v <- zernpol_value o p phi; pol_sums_tl ps' amps' p phi (acc + a * v)
  end.
(** 410-436 *)
Definition pol_sums (ps : list (Z * Z)) (amps : list R) (p phi : R) : res R :=
  match ps, amps with
  | [], _ => Raise UnboundLocalError
  | _ :: _, [] => Raise IndexError
  | o :: ps', a :: amps' => do v <- zernpol_value o p phi; pol_sums_tl ps' amps' p phi (a * v)
  end.

Fixpoint mapR {A B} (f : A -> res B) (l : list A) : res (list B) :=
  match l with [] => Ok [] | x :: tl => do y <- f x; do ys <- mapR f tl; Ok (y :: ys) end.
(** a phase given pointwise, elementwise on the radii (the compiled functions check nothing; radii and
    angle are finite floats here, numpy array only for the radii, 224-227) *)
Definition pointwise (z : R -> R -> res R) : phase :=
  fun x phi =>
  match x, phi with
  | RNum (Fin p), RNum (Fin t) => mlift (do v <- z p t; Ok (KFloat (Fin v)))
  | RArr l, RNum (Fin t) => run ps <- mlift (finite l); mlift (do vs <- mapR (fun p => z p t) ps; Ok (KArr (map Fin vs)))
  | _, _ => mlift (Raise TypeError)
  end.
(** 193 and 473 *)
Definition phase_pol_comp (orders : Z * Z) (alpha : R) : phase := pointwise (fun p phi => do v <- zernpol_value orders p phi; Ok (alpha * v)).
Definition phase_pols_comp (ps : list (Z * Z)) (amps : list R) : phase := pointwise (pol_sums ps amps).

(** first argument: one polynomial, or a sequence of polynomials *)
Inductive target := Single (p : Z * Z) | Several (ps : list (Z * Z)).
(** argument alpha: a float, an int, or an array / list of numbers *)
Inductive alpha_arg := AFloat (a : R) | AInt (a : Z) | AArr (l : list R).

(** 337, 345: [n > 10 and (abs(m) != n or abs(m) != n-2)] *)
Definition rejected_comp (p : Z * Z) : bool :=
  let '(m, n) := p in ((10 <? n) && (negb (Z.abs m =? n) || negb (Z.abs m =? n - 2)))%Z.

(** 273-406: get_psf_kernel_comp. The bodies of diffraction_integral_r_comp, radial_integral_comp, get_psf_point_r_comp
    (162-269) and of their *_pols_comp variants (440-545) are those of calc_psfs.py with the phase replaced, see
    [psf_point_vec]. A single polynomial with an amplitude that is not a float takes the branch for sequences, and
    iterating it raises TypeError (342). A sequence with a float amplitude: indexing the 0-d array alpha in compiled code fails
    to type (TypeError; no theorem uses this case). Warnings, prints and plotting are not modelled. *)
Definition get_psf_kernel_comp (rnd : R -> R) (zernike_pol : target) (len2pixels : R) (alpha : alpha_arg) (wavelength NA : R)
  (n_int_r n_int_phi : Z) (normalize : bool) (kernel_size : Z) : M kernel :=
  run k <- mlift (pydiv (2 * PI) wavelength);
  let size := odd_size kernel_size in
  if (size <? 0)%Z then mlift (Raise ValueError)
  else
    run ph <- mlift
      (match zernike_pol, alpha with
       | Single p, AFloat a =>
           do a <- pydiv a wavelength;
           if rejected_comp p then Raise ValueError else Ok (phase_pol_comp p a)
       | Single _, _ => Raise TypeError
       | Several ps, AArr amps => if existsb rejected_comp ps then Raise ValueError else Ok (phase_pols_comp ps amps)
       | Several ps, _ => if existsb rejected_comp ps then Raise ValueError else Raise TypeError
       end);
    run _ <- mlift (pydiv (5 / 10 * (61 / 100) * wavelength) NA);
    run l <- fill_kernel (fun d t => psf_point_vec rnd ph n_int_r n_int_phi d t true NoJobs) k NA len2pixels size;
    mret (finish normalize l).
