(** Floating-point version of the PSF calculation (calculations/calc_psfs.py 72-281, 338-488, 492-705): the same programs as
    M_Psf.v, with a rounding [rnd] after every arithmetic operation in the order Python evaluates them. numpy's functions are
    parameters: np.power [pw], np.cos [fcos], np.sin [fsin] (also for the two parts of np.exp of an imaginary number), np.sum of
    real parts and of imaginary parts [npsum], np.abs of a complex number [fhyp], np.power(., 2) [fsq], np.arctan2 [fatan2].
    The product of a real and a complex number has no rounding errors besides those of the two products (the others are
    products with zero). Array arguments are handled element by element; the checks of the radii (which all lie in [0, 1])
    and overflow are not modelled. *)
From Coq Require Import Reals.
From Verif Require Import Py M_Radial M_Coeffs M_Sum M_Polar M_Float M_Psf.
Local Open Scope R_scope.

Section FloatPsf.
Variable rnd : R -> R.
Variable pw : R -> Z -> R.
Variables fcos fsin : R -> R.
Variable npsum : list R -> R.
Variable fhyp : R -> R -> R.
Variable fsq : R -> R.
Variable fatan2 : R -> R -> R.

Definition fcadd (a b : cplx) : cplx := (rnd (fst a + fst b), rnd (snd a + snd b)).
Definition fcscale (t : R) (a : cplx) : cplx := (rnd (t * fst a), rnd (t * snd a)).
Definition fcsum (l : list cplx) : cplx := (npsum (map fst l), npsum (map snd l)).

(** the phase at pupil radius (first argument) and pupil angle (second argument) *)
Definition fphase := R -> R -> M R.
(** 102: alpha*zernike_pol.polynomial_value(p, phi) *)
Definition fphase_pol (fuel : nat) (p : Z * Z) (alpha : R) : fphase :=
  fun x phi => run v <- fzp_polynomial_value rnd pw fcos fsin fuel (fst p) (snd p) false x phi; mret (rnd (alpha * v)).
(** 525-529, iterations with i >= 1 *)
Fixpoint fphase_pols_tl (fuel : nat) (ps : list (Z * Z)) (amps : list R) (x phi W : R) : M R :=
  match ps, amps with
  | [], _ => mret W
  | _ :: _, [] => mlift (Raise IndexError)
  | p :: ps', a :: amps' =>
      run v <- fzp_polynomial_value rnd pw fcos fsin fuel (fst p) (snd p) false x phi;
      fphase_pols_tl fuel ps' amps' x phi (rnd (W + rnd (a * v)))
  end.
(** 525-529 *)
Definition fphase_pols (fuel : nat) (ps : list (Z * Z)) (amps : list R) : fphase :=
  fun x phi =>
  match ps, amps with
  | [], _ => mlift (Raise UnboundLocalError)
  | _ :: _, [] => mlift (Raise IndexError)
  | p :: ps', a :: amps' =>
      run v <- fzp_polynomial_value rnd pw fcos fsin fuel (fst p) (snd p) false x phi;
      fphase_pols_tl fuel ps' amps' x phi (rnd (a * v))
  end.

(** 102-103 and 530-531: np.exp((z - r*p*np.cos(phi - theta))*1j)*p *)
Definition ffield (phi theta r x z : R) : cplx :=
  let a := rnd (z - rnd (rnd (r * x) * fcos (rnd (phi - theta)))) in (rnd (fcos a * x), rnd (fsin a * x)).
(** 72-103 and 492-531 *)
Definition fdiffraction (ph : fphase) (phi theta r x : R) : M cplx :=
  run z <- ph x phi; mret (ffield phi theta r x z).

(** 106-136, 139-169, 534-565 *)
Definition fradial_integral (ph : fphase) (n_int_r : Z) (r theta phi : R) : M cplx :=
  if (n_int_r =? 0)%Z then mlift (Raise ZeroDivisionError)
  else
    let h := rnd (1 / IZR n_int_r) in
    let p := r_nodes rnd h in
    run fa <- fdiffraction ph phi theta r 0;
    run fb <- fdiffraction ph phi theta r 1;
    run fs <- mapM (fdiffraction ph phi theta r) p;
    mret (fcscale h (fcadd (fcsum fs) (fcscale (1 / 2) (fcadd fa fb)))).

(** 218-223 *)
Fixpoint faccumulate (f : Z -> M cplx) (l : list Z) (acc : cplx) : M cplx :=
  match l with [] => mret acc | i :: tl => run v <- f i; faccumulate f tl (fcadd acc v) end.

(** 224-227, 278-281, 600-603; pi is the float [rnd PI], [two_pi] the float 2.0*pi *)
Definition fsimpson_end (ph : fphase) (n_int_r : Z) (r theta h_phi : R) (even_sum odd_sum : cplx) : M R :=
  run yA <- fradial_integral ph n_int_r r theta 0;
  run yB <- fradial_integral ph n_int_r r theta (two_pi rnd);
  let s := fcscale (rnd (h_phi / 3)) (fcadd (fcadd (fcadd yA yB) (fcscale 2 even_sum)) (fcscale 4 odd_sum)) in
  mret (rnd (fsq (fhyp (fst s) (snd s)) * rnd (1 / rnd (rnd PI * rnd PI)))).

(** 193-227 (Loop), 231-281 and 568-603 (Vectorized, Parallel: joblib returns the results in the order of the calls) *)
Definition fpoint_by (mt : method) (ph : fphase) (n_int_r n_int_phi : Z) (r theta : R) : M R :=
  if (n_int_phi =? 0)%Z then mlift (Raise ZeroDivisionError)
  else
    let h_phi := rnd (two_pi rnd / IZR n_int_phi) in
    let f i := fradial_integral ph n_int_r r theta (rnd (IZR i * h_phi)) in
    match mt with
    | Loop =>
        run even_sum <- faccumulate f (range2 2 (n_int_phi - 2)) (0, 0);
        run odd_sum <- faccumulate f (range2 1 (n_int_phi - 1)) (0, 0);
        fsimpson_end ph n_int_r r theta h_phi even_sum odd_sum
    | _ =>
        run evens <- mapM f (range2 2 (n_int_phi - 2));
        run odds <- mapM f (range2 1 (n_int_phi - 1));
        fsimpson_end ph n_int_r r theta h_phi (fcsum evens) (fcsum odds)
    end.

(** 428-433, 680-685: the pixels. The squares and their sum are integers (overflow of int64 is not modelled), converted to a
    float by np.sqrt. *)
Definition fpixel_r (k NA len2pixels : R) (size i j : Z) : R :=
  let di := (i - size / 2)%Z in let dj := (j - size / 2)%Z in
  rnd (rnd (rnd (k * NA) * len2pixels) * rnd (sqrt (rnd (IZR (di * di + dj * dj))))).
Definition fpixel_theta (size i j : Z) : R := rnd (fatan2 (rnd (IZR (i - size / 2))) (rnd (IZR (j - size / 2))) + rnd PI).
Definition ffill_kernel (point : R -> R -> M R) (k NA len2pixels : R) (size : Z) : M (list (list R)) :=
  mapM (fun i => mapM (fun j => point (fpixel_r k NA len2pixels size i j) (fpixel_theta size i j)) (zrange 0 (Z.to_nat size))) (zrange 0 (Z.to_nat size)).
(** 455-457, 688-690: kernel /= np.max(kernel) *)
Definition ffinish (normalize : bool) (l : list (list R)) : kernel :=
  if normalize then map (map (fun x => if Req_EM_T (kmax l) 0 then NaN else Fin (rnd (x / kmax l)))) l
  else map (map Fin) l.

(** 338-488: get_psf_kernel without the Airy option, for kernel sizes from 3 on (smaller ones are estimated: M_Psf.v) *)
Definition fget_psf_kernel (fuel : nat) (p : Z * Z) (len2pixels alpha wavelength NA : R) (n_int_r n_int_phi : Z)
  (normalize : bool) (kernel_size : Z) (mt : method) : M kernel :=
  run alpha <- mlift (if Req_EM_T wavelength 0 then Raise ZeroDivisionError else Ok (rnd (alpha / wavelength)));
  let k := rnd (two_pi rnd / wavelength) in
  let size := odd_size kernel_size in
  run _ <- mlift (if Req_EM_T NA 0 then Raise ZeroDivisionError else Ok tt);
  run l <- ffill_kernel (fpoint_by mt (fphase_pol fuel p alpha) n_int_r n_int_phi) k NA len2pixels size;
  mret (ffinish normalize l).
(** 606-705 for kernel sizes from 0 on *)
Definition fget_psf_kernel_zerns (fuel : nat) (ps : list (Z * Z)) (amps : list R) (len2pixels wavelength NA : R) (kernel_size : Z)
  (n_int_r n_int_phi : Z) (normalize : bool) : M kernel :=
  run k <- mlift (if Req_EM_T wavelength 0 then Raise ZeroDivisionError else Ok (rnd (two_pi rnd / wavelength)));
  let size := odd_size kernel_size in
  run _ <- mlift (if Req_EM_T NA 0 then Raise ZeroDivisionError else Ok tt);
  run l <- ffill_kernel (fpoint_by Vectorized (fphase_pols fuel ps amps) n_int_r n_int_phi) k NA len2pixels size;
  mret (ffinish normalize l).
End FloatPsf.
