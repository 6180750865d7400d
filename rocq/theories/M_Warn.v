(** Which warnings the calls on a ZernPSF object show: zernpsf.py 187-262, 292-319, 368-421, 766-791, calculations/calc_psfs.py 338-488, 606-705 and
    calculations/calc_psfs_numba.py 273-406. Each function is that of M_PsfClass, M_Psf or M_Numba with the list of warnings passed to warnings.warn, in their
    order (the filters of module warnings and the texts are not modelled); the lemmas of L_Warn show that nothing else differs.
    The attribute that holds a message is "" outside of the calls, so lines 369-370 show nothing. *)
From Coq Require Import Reals.
From Verif Require Import Py M_Coeffs M_Sum M_Geo M_Fit M_Psf M_Numba M_PsfClass.
Local Open Scope R_scope.

(** zernpsf.py 783 and 786, 301, 305, 316, 372, 382; calc_psfs_numba.py 327; calc_psfs.py 413 (662, and numba 351); 476 (702, and numba 395) *)
Inductive warn := LargeCoefficient | LargeMaxCoefficient | MayBeTruncated | PhysicalFirst | SlowPrecision | DefaultsUsed | NoNumbaHere
  | LongCalculation | PixelTooLarge | BrightBorder.

(** zernpsf.py 766-791 *)
Definition sanity_check (normalized_coefficient : R) (max_coeff_check : bool) : list warn :=
  if Rltb 10 normalized_coefficient then [if max_coeff_check then LargeMaxCoefficient else LargeCoefficient] else [].
(** np.min of a non-empty array *)
Definition rmin_list (l : list R) : R := match l with [] => 0 | x :: tl => fold_left Rmin tl x end.
(** zernpsf.py 202-237 *)
Definition set_coeff_w (c : coeff_arg) (o : zernpsf) : zernpsf * (list warn * res unit) :=
  match c with
  | KSeq l =>
      if (length l =? length (polynomials o))%nat then
        let o := with_coefficients (Some l) o in
        match l with
        | [] => (o, ([], Raise ValueError))
        | _ =>
            let max_module := Rmax (rmax_list l) (Rabs (rmin_list l)) in
            (with_amplitudes (Some (map (fun x => x / wavelength o) l)) o, (sanity_check (Rabs max_module / wavelength o) true, Ok tt))
        end
      else match l, polynomials o with
           | [a], [] => (with_coeff a o, (sanity_check (Rabs a / wavelength o) false, Ok tt))
           | _, _ => (o, ([], Raise ValueError))
           end
  | KNum a =>
      match zpol o, polynomials o with
      | None, _ :: _ :: _ => (o, ([], Raise ValueError))
      | _, _ => (with_coeff a o, (sanity_check (Rabs a / wavelength o) false, Ok tt))
      end
  | KBad e =>
      match zpol o, polynomials o with
      | None, _ :: _ :: _ => (o, ([], Raise ValueError))
      | _, _ => (o, ([], Raise e))
      end
  end.
(** zernpsf.py 187-262; the estimate of the size (238-261) shows no warning *)
Definition set_physical_props_w (na wl : R) (c : coeff_arg) (px : R) (o : zernpsf) : zernpsf * (list warn * res unit) :=
  if Rltb na 0 || Rltb (17 / 10) na then (o, ([], Raise ValueError))
  else if Rleb wl 0 then (o, ([], Raise ValueError))
  else
    let o := with_wavelength wl (with_NA na (with_k (2 * PI / wavelength o) o)) in
    match pydiv (5 / 10 * (5 / 10) * wl) na with
    | Raise e => (o, ([], Raise e))
    | Ok nyq =>
        let o := with_nyquist nyq o in
        if Rleb px 0 then (o, ([], Raise ValueError))
        else if Rltb nyq px then (o, ([], Raise ValueError))
        else
          let o := with_pixel_size px o in
          match set_coeff_w c o with
          | (o, (w, Raise e)) => (o, (w, Raise e))
          | (o, (w, Ok _)) => let '(o, r) := estimate_size o in (o, (w, r))
          end
    end.

(** zernpsf.py 292-319 *)
Definition set_calculation_props_w (ks nr nphi : Z) (o : zernpsf) : zernpsf * (list warn * res unit) :=
  if (ks <? 3)%Z then (o, ([], Raise ValueError))
  else
    let ks := if (ks mod 2 =? 0)%Z then (ks + 1)%Z else ks in
    let w := if props_set o then (if (ks <? kernel_size o)%Z then [MayBeTruncated] else []) else [PhysicalFirst] in
    let o := with_kernel_size ks o in
    if (nr <? 20)%Z then (o, (w, Raise ValueError))
    else if (nphi <? 36)%Z then (o, (w, Raise ValueError))
    else (with_n_int_phi nphi (with_n_int_r nr o), (w ++ (if ((500 <? nr) && (400 <? nphi))%Z then [SlowPrecision] else []), Ok tt)).

(** calculations that show warnings *)
Definition W (A : Type) := cstate -> cstate * (list warn * res A).
Definition quiet {A} (x : M A) : W A := fun s => let '(s', r) := x s in (s', ([], r)).
Definition wbind {A B} (x : W A) (f : A -> W B) : W B :=
  fun s => let '(s1, (w1, r)) := x s in
    match r with
    | Ok a => let '(s2, (w2, r2)) := f a s1 in (s2, (w1 ++ w2, r2))
    | Raise e => (s1, (w1, Raise e))
    end.
Definition show (suppress condition : bool) (w : warn) : W unit := fun s => (s, (if condition && negb suppress then [w] else [], Ok tt)).
Notation "'wrun' x <- a ; b" := (wbind a (fun x => b)) (at level 60, x pattern, a at level 50, b at level 60, right associativity).

(** calc_psfs.py 411-415, 660-664, calc_psfs_numba.py 348-353 *)
Definition check_pixel (suppress : bool) (len2pixels wavelength NA : R) : W unit :=
  wrun nyq <- quiet (mlift (pydiv (5 / 10 * (61 / 100) * wavelength) NA)); show suppress (Rltb nyq len2pixels) PixelTooLarge.
(** calc_psfs.py 470-475, 696-701, calc_psfs_numba.py 389-394 *)
Definition border_is_bright (K : kernel) : bool :=
  let e := (Z.of_nat (length K) - 1)%Z in
  fltb (fscale (/ 20) (fmax_list (concat K))) (fmax_list [fmax_list (column K 0); fmax_list (row K 0); fmax_list (column K e); fmax_list (row K e)]).
Definition check_border (suppress : bool) (K : kernel) : W kernel := wrun _ <- show suppress (border_is_bright K) BrightBorder; quiet (mret K).

(** calc_psfs.py 338-488 *)
Definition get_psf_kernel_w (rnd : R -> R) (jv1 : R -> R) (fuel : nat) (p : Z * Z) (len2pixels alpha wavelength NA : R) (n_int_r n_int_phi : Z)
  (normalize airy_pattern : bool) (kernel_size : Z) (mt : method) (suppress : bool) : W kernel :=
  wrun alpha <- quiet (mlift (pydiv alpha wavelength));
  wrun k <- quiet (mlift (pydiv (2 * PI) wavelength));
  wrun size <- quiet (mlift (if (kernel_size <? 3)%Z then get_kernel_size p len2pixels alpha wavelength NA else Ok kernel_size));
  let size := odd_size size in
  if (size <? 0)%Z then quiet (mlift (Raise ValueError))
  else
    wrun _ <- check_pixel suppress len2pixels wavelength NA;
    wrun l <- quiet (fill_kernel (if airy_pattern then fun d _ => mret (airy_ref_pattern jv1 d)
                          else point_by mt rnd (phase_pol fuel p alpha) n_int_r n_int_phi) k NA len2pixels size);
    check_border suppress (finish normalize l).
(** calc_psfs.py 606-705 *)
Definition get_psf_kernel_zerns_w (rnd : R -> R) (fuel : nat) (ps : list (Z * Z)) (amps : list R) (len2pixels wavelength NA : R) (kernel_size : Z)
  (n_int_r n_int_phi : Z) (normalize : bool) (suppress : bool) : W kernel :=
  wrun k <- quiet (mlift (pydiv (2 * PI) wavelength));
  let size := odd_size kernel_size in
  if (size <? 0)%Z then quiet (mlift (Raise ValueError))
  else
    wrun _ <- check_pixel suppress len2pixels wavelength NA;
    wrun l <- quiet (fill_kernel (fun d t => psf_point_vec rnd (phase_pols fuel ps amps) n_int_r n_int_phi d t true NoJobs) k NA len2pixels size);
    check_border suppress (finish normalize l).
(** calc_psfs_numba.py 273-406 *)
Definition get_psf_kernel_comp_w (rnd : R -> R) (zernike_pol : target) (len2pixels : R) (alpha : alpha_arg) (wavelength NA : R)
  (n_int_r n_int_phi : Z) (normalize : bool) (kernel_size : Z) (suppress : bool) : W kernel :=
  wrun k <- quiet (mlift (pydiv (2 * PI) wavelength));
  let size := odd_size kernel_size in
  wrun _ <- show suppress (85 <? size)%Z LongCalculation;
  if (size <? 0)%Z then quiet (mlift (Raise ValueError))
  else
    wrun ph <- quiet (mlift
      (match zernike_pol, alpha with
       | Single p, AFloat a =>
           do a <- pydiv a wavelength;
           if rejected_comp p then Raise ValueError else Ok (phase_pol_comp p a)
       | Single _, _ => Raise TypeError
       | Several ps, AArr amps => if existsb rejected_comp ps then Raise ValueError else Ok (phase_pols_comp ps amps)
       | Several ps, _ => if existsb rejected_comp ps then Raise ValueError else Raise TypeError
       end));
    wrun _ <- check_pixel suppress len2pixels wavelength NA;
    wrun l <- quiet (fill_kernel (fun d t => psf_point_vec rnd ph n_int_r n_int_phi d t true NoJobs) k NA len2pixels size);
    check_border suppress (finish normalize l).

(** zernpsf.py 368-421 *)
Definition calculate_psf_kernel_w (rnd jv1 : R -> R) (fuel : nat) (suppress normalized : bool) (accelerated : option bool) (installed : bool)
  (o : zernpsf) (s : cstate) : cstate * (list warn * (zernpsf * res kernel)) :=
  let w1 := if negb (props_set o) && negb suppress then [DefaultsUsed] else [] in                                     (* 371-373 *)
  let o := if negb (props_set o) && negb suppress then with_kernel_size 19 o else o in
  let accelerated' := match accelerated with None => installed | Some b => b end in                                     (* 376-379 *)
  let w2 := if accelerated' && negb installed && negb suppress then [NoNumbaHere] else [] in                          (* 381-383 *)
  let comp tg al := get_psf_kernel_comp_w rnd tg (pixel_size o) al (wavelength o) (NA o) (n_int_r o) (n_int_phi o) normalized (kernel_size o) suppress in
  let '(s', (w3, r)) :=
    match zpol o with
    | Some p =>
        if use_numba accelerated installed then comp (Single p) (AFloat (expansion_coeff o)) s
        else get_psf_kernel_w rnd jv1 fuel p (pixel_size o) (expansion_coeff o) (wavelength o) (NA o) (n_int_r o) (n_int_phi o)
               normalized (airy o) (kernel_size o) Vectorized suppress s
    | None =>
        match polynomials o, amplitudes o with
        | [], _ => quiet (mret (kern o)) s
        | _ :: _, None => quiet no_amplitudes s
        | ps, Some amps =>
            if use_numba accelerated installed then comp (Several ps) (AArr amps) s
            else get_psf_kernel_zerns_w rnd fuel ps amps (pixel_size o) (wavelength o) (NA o) (kernel_size o) (n_int_r o) (n_int_phi o) normalized suppress s
        end
    end in
  match r with Ok K => (s', (w1 ++ w2 ++ w3, (with_kern K o, Ok K))) | Raise e => (s', (w1 ++ w2 ++ w3, (o, Raise e))) end.
