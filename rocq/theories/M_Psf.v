(** Model of the PSF calculation (calculations/calc_psfs.py 45-705).
    [rnd] rounds the operations that place the radial integration nodes (np.arange); [fun x => x] is exact
    arithmetic, Flocq's binary64 rounding the machine. All other arithmetic is exact.
    [jv1] is scipy.special.jv(1, .). Plotting, prints, warnings and timing are not modelled. *)
From Coq Require Import Reals.
From Flocq Require Import Core.
From Verif Require Import Py M_Radial M_Coeffs M_Sum M_Geo M_Fit.
Local Open Scope R_scope.

(** complex numbers as (real part, imaginary part) *)
Definition cplx : Type := R * R.
Definition cadd (a b : cplx) : cplx := (fst a + fst b, snd a + snd b).
Definition cscale (t : R) (a : cplx) : cplx := (t * fst a, t * snd a).
Definition csum (l : list cplx) : cplx := fold_right cadd (0, 0) l.           (* np.sum *)
Definition cabs (a : cplx) : R := sqrt (fst a * fst a + snd a * snd a).      (* np.abs *)

(** 46-67 *)
Definition airy_ref_pattern (jv1 : R -> R) (r : R) : R :=
  let r := np_round 12 r in
  let ratio := if Req_EM_T r 0 then jv1 (/ 10 ^ 11) / (/ 10 ^ 11) else jv1 r / r in
  4 * (ratio * ratio).

(** the aberration: phase at pupil radius (first argument) and pupil angle (second argument) *)
Definition phase := raw -> raw -> M cv.
(** 102: alpha*zernike_pol.polynomial_value(p, phi) *)
Definition phase_pol (fuel : nat) (p : Z * Z) (alpha : R) : phase :=
  fun x phi => run v <- polynomial_value fuel p x phi; mret (cv_scale alpha v).
(** 525-529, iterations with i >= 1; amplitudes[i] raises IndexError *)
Fixpoint phase_pols_tl (fuel : nat) (ps : list (Z * Z)) (amps : list R) (x phi : raw) (W : cv) : M cv :=
  match ps, amps with
  | [], _ => mret W
  | _ :: _, [] => mlift (Raise IndexError)
  | p :: ps', a :: amps' =>
      run v <- polynomial_value fuel p x phi;
      run W' <- mlift (cv_add W (cv_scale a v));
      phase_pols_tl fuel ps' amps' x phi W'
  end.
(** 525-529; with no polynomial the sum is used before assignment *)
Definition phase_pols (fuel : nat) (ps : list (Z * Z)) (amps : list R) : phase :=
  fun x phi =>
  match ps, amps with
  | [], _ => mlift (Raise UnboundLocalError)
  | _ :: _, [] => mlift (Raise IndexError)
  | p :: ps', a :: amps' =>
      run v <- polynomial_value fuel p x phi;
      phase_pols_tl fuel ps' amps' x phi (cv_scale a v)
  end.

(** 102-103 and 530-531 for one radius [x] with phase [z]: np.exp((z - r*p*np.cos(phi - theta))*1j)*p *)
Definition field (phi theta r x z : R) : cplx :=
  let a := z - r * x * cos (phi - theta) in (x * cos a, x * sin a).
(** 72-103 and 492-531 for the radii [xs] given as float or array. The phases are finite for finite
    arguments ([finite] never raises here). *)
Definition diffraction (ph : phase) (phi theta r : R) (arg : raw) (xs : list R) : M (list cplx) :=
  run v <- ph arg (RNum (Fin phi));
  run zs <- mlift (finite (cv_list v));
  mret (map (fun xz => field phi theta r (fst xz) (snd xz)) (combine xs zs)).

(** np.arange(start=h, stop=1.0, step=h): ceil((1.0-h)/h) values h + i*((h+h)-h) *)
Definition r_nodes (rnd : R -> R) (h : R) : list R :=
  let delta := rnd (rnd (h + h) - h) in
  map (fun i => rnd (h + rnd (INR i * delta))) (seq 0 (Z.to_nat (Zceil (rnd (rnd (1 - h) / h))))).

(** 106-136, 139-169 (same body, other order of parameters), 534-565: trapezoidal rule on the radius *)
Definition radial_integral (rnd : R -> R) (ph : phase) (n_int_r : Z) (r theta phi : R) : M cplx :=
  if (n_int_r =? 0)%Z then mlift (Raise ZeroDivisionError)
  else
    let h := rnd (1 / IZR n_int_r) in
    let p := r_nodes rnd h in
    run fa <- diffraction ph phi theta r (RNum (Fin 0)) [0];
    run fb <- diffraction ph phi theta r (RNum (Fin 1)) [1];
    run fs <- diffraction ph phi theta r (RArr (map Fin p)) p;
    mret (cscale h (cadd (csum fs) (cscale (1 / 2) (cadd (csum fa) (csum fb))))).

(** range(a, b, 2) *)
Definition range2 (a b : Z) : list Z := map (fun k => (a + 2 * k)%Z) (zrange 0 (Z.to_nat ((b - a + 1) / 2))).

(** 218-223: the loops accumulate *)
Fixpoint accumulate (f : Z -> M cplx) (l : list Z) (acc : cplx) : M cplx :=
  match l with [] => mret acc | i :: tl => run v <- f i; accumulate f tl (cadd acc v) end.

(** 224-227, 278-281, 600-603 *)
Definition simpson_end (rnd : R -> R) (ph : phase) (n_int_r : Z) (r theta h_phi : R) (even_sum odd_sum : cplx) : M R :=
  run yA <- radial_integral rnd ph n_int_r r theta 0;
  run yB <- radial_integral rnd ph n_int_r r theta (2 * PI);
  let s := cscale (h_phi / 3) (cadd (cadd (cadd yA yB) (cscale 2 even_sum)) (cscale 4 odd_sum)) in
  mret (cabs s * cabs s * (1 / (PI * PI))).

(** 193-227: get_psf_point_r *)
Definition psf_point_loop (rnd : R -> R) (ph : phase) (n_int_r n_int_phi : Z) (r theta : R) : M R :=
  if (n_int_phi =? 0)%Z then mlift (Raise ZeroDivisionError)
  else
    let h_phi := 2 * PI / IZR n_int_phi in
    let f i := radial_integral rnd ph n_int_r r theta (IZR i * h_phi) in
    run even_sum <- accumulate f (range2 2 (n_int_phi - 2)) (0, 0);
    run odd_sum <- accumulate f (range2 1 (n_int_phi - 1)) (0, 0);
    simpson_end rnd ph n_int_r r theta h_phi even_sum odd_sum.

(** paralleljobs argument: None, a joblib Parallel object, or anything else *)
Inductive jobs := NoJobs | Joblib | OtherJobs.
(** 231-281 (get_psf_point_r_parallel) and, with [NoJobs], 568-603 (get_psf_point_r_pols). joblib's
    Parallel returns the results in the order of the calls. *)
Definition psf_point_vec (rnd : R -> R) (ph : phase) (n_int_r n_int_phi : Z) (r theta : R) (joblib_installed : bool) (pj : jobs) : M R :=
  if (n_int_phi =? 0)%Z then mlift (Raise ZeroDivisionError)
  else
    let h_phi := 2 * PI / IZR n_int_phi in
    let f i := radial_integral rnd ph n_int_r r theta (IZR i * h_phi) in
    match joblib_installed, pj with
    | true, OtherJobs => simpson_end rnd ph n_int_r r theta h_phi (0, 0) (0, 0)
    | _, _ =>
        run evens <- mapM f (range2 2 (n_int_phi - 2));
        run odds <- mapM f (range2 1 (n_int_phi - 1));
        simpson_end rnd ph n_int_r r theta h_phi (csum evens) (csum odds)
    end.

(** Python's float division *)
Definition pydiv (a b : R) : res R := if Req_EM_T b 0 then Raise ZeroDivisionError else Ok (a / b).
(** math.sqrt *)
Definition pysqrt (a : R) : res R := if Rlt_dec a 0 then Raise ValueError else Ok (sqrt a).
Definition Rleb (x y : R) : bool := if Rle_dec x y then true else false.

(** 309-311: the Airy multiplier *)
Definition airy_multiplier (NA : R) : res R :=
  if Rltb (25 / 100) NA && Rltb NA 1 then Ok (5 * (1 - NA) + 15 / 10)
  else do q <- pydiv 1 NA; do s <- pysqrt q; Ok (45 / 10 + 25 / 10 * s).
(** 313-321: multiplier and additional size for other polynomials (n >= 1 and |m| <= n, so the square
    roots are defined; round() is to the nearest, ties to even) *)
Definition pol_multiplier (m n : Z) : R :=
  if ((0 <? Z.abs m) && negb (n mod 2 =? 0))%Z then 125 / 100 * sqrt (IZR n) + 5 / 10 * sqrt (IZR (n - Z.abs m))
  else if ((0 <? Z.abs m) && (n mod 2 =? 0))%Z then 145 / 100 * sqrt (IZR n)
  else 125 / 100 * sqrt (IZR n).
Definition pol_size_ext (m n : Z) : Z :=
  if (n - Z.abs m <=? (n + 1) / 2)%Z then (ZnearestE (sqrt (IZR (n + Z.abs m))) + 1)%Z else 0%Z.
(** 285-335 *)
Definition get_kernel_size (p : Z * Z) (len2pixels alpha wavelength NA : R) : res Z :=
  let '(m, n) := p in
  do me <- (if ((m =? 0) && (n =? 0))%Z then do mu <- airy_multiplier NA; Ok (mu, 0%Z)
            else Ok (pol_multiplier m n, pol_size_ext m n));
  let '(mu, ext) := me in
  let '(mu, ext) := if Rleb (5 / 10) (Rabs alpha) then (mu * sqrt (25 / 10 * Rabs alpha), (ext + 2)%Z)
                    else if Rleb (25 / 100) (Rabs alpha) then (mu * sqrt (425 / 100 * Rabs alpha), (ext + 1)%Z)
                    else (mu, ext) in
  do q <- pydiv (mu * wavelength) len2pixels;
  let size := (ZnearestE q + 1 + ext)%Z in
  Ok (if (size mod 2 =? 0)%Z then (size + 1)%Z else size).

(** 396-398, 658-660: the kernel size is made odd *)
Definition odd_size (size : Z) : Z := if (size mod 2 =? 0)%Z then (size + 1)%Z else size.

Definition kernel := list (list fl).
(** 455-457, 688-690: kernel /= np.max(kernel). All values are non-negative, so a zero maximum means 0/0 *)
Definition kmax (l : list (list R)) : R := match concat l with [] => 0 | x :: tl => fold_left Rmax tl x end.
Definition finish (normalize : bool) (l : list (list R)) : kernel :=
  if normalize then map (map (fun x => if Req_EM_T (kmax l) 0 then NaN else Fin (x / kmax l))) l
  else map (map Fin) l.

(** 414-440, 669-687: every pixel (i, j) of the size x size kernel; [point distance theta] *)
Definition fill_kernel (point : R -> R -> M R) (k NA len2pixels : R) (size : Z) : M (list (list R)) :=
  mapM (fun i => mapM (fun j =>
      let di := IZR (i - size / 2) in let dj := IZR (j - size / 2) in
      let pixel_dist := sqrt (di * di + dj * dj) in
      let distance := k * NA * len2pixels * pixel_dist in
      let theta := arctan2 di dj + PI in
      point distance theta) (zrange 0 (Z.to_nat size))) (zrange 0 (Z.to_nat size)).

(** how the points are calculated: loop, vectorised, joblib (test_vectorized, test_parallel) *)
Inductive method := Loop | Vectorized | Parallel.
Definition point_by (mt : method) (rnd : R -> R) (ph : phase) (n_int_r n_int_phi : Z) (r theta : R) : M R :=
  match mt with
  | Loop => psf_point_loop rnd ph n_int_r n_int_phi r theta
  | Vectorized => psf_point_vec rnd ph n_int_r n_int_phi r theta true NoJobs
  | Parallel => psf_point_vec rnd ph n_int_r n_int_phi r theta true Joblib
  end.

(** 338-488: get_psf_kernel. np.zeros raises ValueError for a negative size. *)
Definition get_psf_kernel (rnd : R -> R) (jv1 : R -> R) (fuel : nat) (p : Z * Z) (len2pixels alpha wavelength NA : R) (n_int_r n_int_phi : Z)
  (normalize airy_pattern : bool) (kernel_size : Z) (mt : method) : M kernel :=
  run alpha <- mlift (pydiv alpha wavelength);
  run k <- mlift (pydiv (2 * PI) wavelength);
  run size <- mlift (if (kernel_size <? 3)%Z then get_kernel_size p len2pixels alpha wavelength NA else Ok kernel_size);
  let size := odd_size size in
  if (size <? 0)%Z then mlift (Raise ValueError)
  else
    run _ <- mlift (pydiv (5 / 10 * (61 / 100) * wavelength) NA);
    run l <- fill_kernel (if airy_pattern then fun d _ => mret (airy_ref_pattern jv1 d)
                          else point_by mt rnd (phase_pol fuel p alpha) n_int_r n_int_phi) k NA len2pixels size;
    mret (finish normalize l).

(** 606-705: get_psf_kernel_zerns *)
Definition get_psf_kernel_zerns (rnd : R -> R) (fuel : nat) (ps : list (Z * Z)) (amps : list R) (len2pixels wavelength NA : R) (kernel_size : Z)
  (n_int_r n_int_phi : Z) (normalize : bool) : M kernel :=
  run k <- mlift (pydiv (2 * PI) wavelength);
  let size := odd_size kernel_size in
  if (size <? 0)%Z then mlift (Raise ValueError)
  else
    run _ <- mlift (pydiv (5 / 10 * (61 / 100) * wavelength) NA);
    run l <- fill_kernel (fun d t => psf_point_vec rnd (phase_pols fuel ps amps) n_int_r n_int_phi d t true NoJobs) k NA len2pixels size;
    mret (finish normalize l).
