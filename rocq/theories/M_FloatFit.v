(** Floating-point version of the fit of an image (calculations/fit_zernike_pols.py 21-214; zernikepol.py 1502-1551): a rounding [rnd]
    after every operation; numpy's functions are parameters: np.power [pw], np.cos [fcos], np.sin [fsin], np.arctan2 [fatan2],
    np.linalg.lstsq(..., rcond=None)[0] [lstsq]. The arrays of values are computed element by element (M_FloatSum.v). *)
From Coq Require Import Reals.
From Flocq Require Import Core.
From Verif Require Import Py M_Radial M_Coeffs M_Sum M_Polar M_Float M_FloatSum M_Crop M_Fit.
Local Open Scope R_scope.

Section FloatFit.
Variable rnd : R -> R.
Variable pw : R -> Z -> R.
Variables fcos fsin : R -> R.
Variable fatan2 : R -> R -> R.

(** fit_zernike_pols.py 124, 129-130: the offsets from the centre are halves of integers (exact) *)
Definition fcrop_theta (rows cols i j : Z) : R :=
  let t := fatan2 (center rows - IZR i) (IZR j - center cols) in if Rlt_dec t 0 then rnd (t + two_pi rnd) else t.
(** 57-151: the angle of a pixel has no influence on the rest, so the pixels are selected by the crop of M_Crop.v (of the image of
    the indices) and their values and angles are looked up afterwards *)
Definition fcrop (img : img_arg R) (crop_radius : radius_arg) (strict : bool) : res ((Z -> Z -> Z) * (list R * list R * list R)) :=
  match img with
  | Img rows cols f =>
      do c <- crop_phases_img rnd (Img rows cols (fun i j => (i, j))) crop_radius strict;
      let '(mask, (chosen, radii, _)) := c in
      Ok (mask, (map (fun p => f (fst p) (snd p)) chosen, radii, map (fun p => fcrop_theta rows cols (fst p) (snd p)) chosen))
  | other => crop_phases_img rnd other crop_radius strict
  end.
(** 200-202: one column of zernike_values; radii and angles have equal length (those of a cropped image always do) *)
Definition fcolumn (fuel : nat) (radii thetas : list R) (p : Z * Z) : M (list R) :=
  mapM (fun q => fvalue rnd pw fcos fsin fuel p (fst q) (snd q)) (combine radii thetas).
(** 178-214 *)
Definition ffit_zernikes (lstsq : list (list R) -> list R -> list R) (fuel : nat) (phases radii thetas : list R) (ps : list (option (Z * Z))) : M (list R) :=
  match ps with
  | [] => mlift (Raise ValueError)
  | _ =>
      run orders <- mlift (all_orders ps);
      if repeated orders then mlift (Raise ValueError)
      else run A <- mapM (fcolumn fuel radii thetas) orders; mret (lstsq A phases)
  end.
(** numpy.round(x, digits): multiply by 10 ** digits, round half to even, divide; for negative digits divide first, then multiply *)
Definition fround (digits : Z) (x : R) : R :=
  if (0 <=? digits)%Z then rnd (IZR (ZnearestE (rnd (x * powerRZ 10 digits))) / powerRZ 10 digits)
  else rnd (IZR (ZnearestE (rnd (x / powerRZ 10 (- digits)))) * powerRZ 10 (- digits)).
(** zernikepol.py 1541-1551 *)
Definition ffit_polynomials (lstsq : list (list R) -> list R -> list R) (fuel : nat) (img : img_arg R)
  (ps : list (option (Z * Z))) (crop_radius : radius_arg) (strict : bool) (digits : Z) (return_cropped : bool)
  : M (list R * option (Z -> Z -> R)) :=
  run c <- mlift (fcrop img crop_radius strict);
  let '(mask, (phases, radii, thetas)) := c in
  run x <- ffit_zernikes lstsq fuel phases radii thetas ps;
  let cropped := match img with Img _ _ f => Some (fun i j => rnd (IZR (mask i j) * f i j)) | _ => None end in
  mret (map (fround digits) x, if return_cropped then cropped else None).
End FloatFit.
