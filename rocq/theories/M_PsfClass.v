(** Model of class ZernPSF (zernpsf.py 69-656) and of save_psf / read_psf (calculations/calc_psfs.py 738-840).
    Floats are exact real numbers (NaN and infinities are not passed to the setters); warnings, prints, timing
    and plotting are not modelled. Methods that can raise after they have changed attributes return the object after the call
    together with the outcome. *)
From Coq Require Import Reals.
From Flocq Require Import Core.
From Verif Require Import Py M_Index M_Init M_Radial M_Coeffs M_Sum M_Geo M_Fit M_Psf M_Numba.
Local Open Scope R_scope.

(** instance attributes (72-86); the stored polynomials are their orders (m, n) *)
Record zernpsf := ZPSF {
  kern : kernel; kernel_size : Z;
  NA : R; wavelength : R; expansion_coeff : R; pixel_size_nyquist : R; pixel_size : R; alpha : R; k : R;
  zpol : option (Z * Z); polynomials : list (Z * Z); airy : bool; props_set : bool;
  n_int_r : Z; n_int_phi : Z;
  coefficients : option (list R); amplitudes : option (list R) }.

(** 71-86: class-level default values *)
Definition defaults : zernpsf :=
  let wl := 532 / 1000 in let nyq := 5 / 10 * (5 / 10) * wl in
  {| kern := [[Fin 1]]; kernel_size := 1; NA := 1; wavelength := wl; expansion_coeff := 5 / 10;
     pixel_size_nyquist := nyq; pixel_size := 98 / 100 * nyq; alpha := 5 / 10 / wl; k := 2 * PI / wl;
     zpol := Some (0, 0)%Z; polynomials := []; airy := false; props_set := false; n_int_r := 320; n_int_phi := 300;
     coefficients := None; amplitudes := None |}.

(** functional updates *)
Definition with_kern v o := ZPSF v (kernel_size o) (NA o) (wavelength o) (expansion_coeff o) (pixel_size_nyquist o) (pixel_size o) (alpha o) (k o) (zpol o) (polynomials o) (airy o) (props_set o) (n_int_r o) (n_int_phi o) (coefficients o) (amplitudes o).
Definition with_kernel_size v o := ZPSF (kern o) v (NA o) (wavelength o) (expansion_coeff o) (pixel_size_nyquist o) (pixel_size o) (alpha o) (k o) (zpol o) (polynomials o) (airy o) (props_set o) (n_int_r o) (n_int_phi o) (coefficients o) (amplitudes o).
Definition with_NA v o := ZPSF (kern o) (kernel_size o) v (wavelength o) (expansion_coeff o) (pixel_size_nyquist o) (pixel_size o) (alpha o) (k o) (zpol o) (polynomials o) (airy o) (props_set o) (n_int_r o) (n_int_phi o) (coefficients o) (amplitudes o).
Definition with_wavelength v o := ZPSF (kern o) (kernel_size o) (NA o) v (expansion_coeff o) (pixel_size_nyquist o) (pixel_size o) (alpha o) (k o) (zpol o) (polynomials o) (airy o) (props_set o) (n_int_r o) (n_int_phi o) (coefficients o) (amplitudes o).
Definition with_coeff v o := ZPSF (kern o) (kernel_size o) (NA o) (wavelength o) v (pixel_size_nyquist o) (pixel_size o) (v / wavelength o) (k o) (zpol o) (polynomials o) (airy o) (props_set o) (n_int_r o) (n_int_phi o) (coefficients o) (amplitudes o).
Definition with_nyquist v o := ZPSF (kern o) (kernel_size o) (NA o) (wavelength o) (expansion_coeff o) v (pixel_size o) (alpha o) (k o) (zpol o) (polynomials o) (airy o) (props_set o) (n_int_r o) (n_int_phi o) (coefficients o) (amplitudes o).
Definition with_pixel_size v o := ZPSF (kern o) (kernel_size o) (NA o) (wavelength o) (expansion_coeff o) (pixel_size_nyquist o) v (alpha o) (k o) (zpol o) (polynomials o) (airy o) (props_set o) (n_int_r o) (n_int_phi o) (coefficients o) (amplitudes o).
Definition with_k v o := ZPSF (kern o) (kernel_size o) (NA o) (wavelength o) (expansion_coeff o) (pixel_size_nyquist o) (pixel_size o) (alpha o) v (zpol o) (polynomials o) (airy o) (props_set o) (n_int_r o) (n_int_phi o) (coefficients o) (amplitudes o).
Definition with_zpol v o := ZPSF (kern o) (kernel_size o) (NA o) (wavelength o) (expansion_coeff o) (pixel_size_nyquist o) (pixel_size o) (alpha o) (k o) v (polynomials o) (airy o) (props_set o) (n_int_r o) (n_int_phi o) (coefficients o) (amplitudes o).
Definition with_polynomials v o := ZPSF (kern o) (kernel_size o) (NA o) (wavelength o) (expansion_coeff o) (pixel_size_nyquist o) (pixel_size o) (alpha o) (k o) (zpol o) v (airy o) (props_set o) (n_int_r o) (n_int_phi o) (coefficients o) (amplitudes o).
Definition with_airy v o := ZPSF (kern o) (kernel_size o) (NA o) (wavelength o) (expansion_coeff o) (pixel_size_nyquist o) (pixel_size o) (alpha o) (k o) (zpol o) (polynomials o) v (props_set o) (n_int_r o) (n_int_phi o) (coefficients o) (amplitudes o).
Definition with_props_set v o := ZPSF (kern o) (kernel_size o) (NA o) (wavelength o) (expansion_coeff o) (pixel_size_nyquist o) (pixel_size o) (alpha o) (k o) (zpol o) (polynomials o) (airy o) v (n_int_r o) (n_int_phi o) (coefficients o) (amplitudes o).
Definition with_n_int_r v o := ZPSF (kern o) (kernel_size o) (NA o) (wavelength o) (expansion_coeff o) (pixel_size_nyquist o) (pixel_size o) (alpha o) (k o) (zpol o) (polynomials o) (airy o) (props_set o) v (n_int_phi o) (coefficients o) (amplitudes o).
Definition with_n_int_phi v o := ZPSF (kern o) (kernel_size o) (NA o) (wavelength o) (expansion_coeff o) (pixel_size_nyquist o) (pixel_size o) (alpha o) (k o) (zpol o) (polynomials o) (airy o) (props_set o) (n_int_r o) v (coefficients o) (amplitudes o).
Definition with_coefficients v o := ZPSF (kern o) (kernel_size o) (NA o) (wavelength o) (expansion_coeff o) (pixel_size_nyquist o) (pixel_size o) (alpha o) (k o) (zpol o) (polynomials o) (airy o) (props_set o) (n_int_r o) (n_int_phi o) v (amplitudes o).
Definition with_amplitudes v o := ZPSF (kern o) (kernel_size o) (NA o) (wavelength o) (expansion_coeff o) (pixel_size_nyquist o) (pixel_size o) (alpha o) (k o) (zpol o) (polynomials o) (airy o) (props_set o) (n_int_r o) (n_int_phi o) (coefficients o) v.

(** ** constructor, 87-148 *)
(** an object: a ZernPol with its orders, or anything else (without attribute get_mn_orders) *)
Inductive item := IPol (p : Z * Z) | IOther.
(** the argument: an object without __len__, or a sequence (with __len__, indexing and iteration) *)
Inductive ctor_arg := COne (x : item) | CSeq (l : list item).

Definition is_piston (p : Z * Z) : bool := ((fst p =? 0) && (snd p =? 0))%Z.
(** 128-137: orders of all elements up to the first that is not a ZernPol *)
Fixpoint all_pols (l : list item) : option (list (Z * Z)) :=
  match l with
  | [] => Some []
  | IOther :: _ => None
  | IPol p :: tl => match all_pols tl with Some ps => Some (p :: ps) | None => None end
  end.
(** 139-142: repeated OSA indices *)
Fixpoint distinct_Z (l : list Z) : bool :=
  match l with [] => true | x :: tl => negb (existsb (Z.eqb x) tl) && distinct_Z tl end.
(** 110-148; the ValueError of line 148 is created but not raised *)
Definition zernpsf_init (a : ctor_arg) : res zernpsf :=
  match a with
  | COne (IPol p) => Ok (with_airy (is_piston p) (with_zpol (Some p) defaults))
  | COne IOther => Ok defaults
  | CSeq [] => Raise ValueError
  | CSeq [IPol p] => Ok (with_airy (is_piston p) (with_zpol (Some p) defaults))
  | CSeq [IOther] => Raise AttributeError
  | CSeq l =>
      match all_pols l with
      | None => Raise ValueError
      | Some ps =>
          if distinct_Z (map (fun p => get_osa_index (fst p) (snd p)) ps)
          then Ok (with_airy (existsb is_piston ps) (with_polynomials ps (with_zpol None defaults)))
          else Raise ValueError
      end
  end.

(** ** set_physical_props, 151-263 *)
(** expansion_coeff: a number, a sequence of numbers, or an object for which float() raises [e] *)
Inductive coeff_arg := KNum (a : R) | KSeq (l : list R) | KBad (e : exc).

Definition rmax_list (l : list R) : R := match l with [] => 0 | x :: tl => fold_left Rmax tl x end.
(** 240-249: size and amplitude maxima over the polynomials, start values 0 and 0.0; amplitudes[i] with too few amplitudes *)
Fixpoint max_sizes (ps : list (Z * Z)) (amps : list R) (px wl na : R) (mx : Z) (ma : R) : res (Z * R) :=
  match ps, amps with
  | [], _ => Ok (mx, ma)
  | _ :: _, [] => Raise IndexError
  | p :: ps', a :: amps' =>
      do ks <- get_kernel_size p px a wl na;
      max_sizes ps' amps' px wl na (if (mx <? ks)%Z then ks else mx) (if Rltb ma (Rabs a) then Rabs a else ma)
  end.
(** 251-260 *)
Definition several_size (mx : Z) (ma : R) (count : nat) : Z :=
  let c := INR count in
  let s := if Rleb (25 / 100) ma && Rltb ma (5 / 10) then (mx + ZnearestE (6 / 10 * c))%Z
           else if Rleb (5 / 10) ma && Rltb ma (75 / 100) then (mx + ZnearestE (1 * c))%Z
           else if Rleb (75 / 100) ma then (mx + ZnearestE (14 / 10 * c))%Z
           else mx in
  if (s mod 2 =? 0)%Z then (s + 1)%Z else s.
(** 235-262 *)
Definition estimate_size (o : zernpsf) : zernpsf * res unit :=
  match zpol o with
  | Some p =>
      match get_kernel_size p (pixel_size o) (alpha o) (wavelength o) (NA o) with
      | Ok ks => (with_props_set true (with_kernel_size ks o), Ok tt)
      | Raise e => (o, Raise e)
      end
  | None =>
      match polynomials o, amplitudes o with
      | _ :: _, None => (o, Raise TypeError)
      | ps, a =>
          match max_sizes ps (match a with Some l => l | None => [] end) (pixel_size o) (wavelength o) (NA o) 0 0 with
          | Ok (mx, ma) => (with_props_set true (with_kernel_size (several_size mx ma (length ps)) o), Ok tt)
          | Raise e => (o, Raise e)
          end
      end
  end.
(** 202-234: the amplitudes *)
Definition set_coeff (c : coeff_arg) (o : zernpsf) : zernpsf * res unit :=
  match c with
  | KSeq l =>
      if (length l =? length (polynomials o))%nat then
        let o := with_coefficients (Some l) o in
        match l with
        | [] => (o, Raise ValueError)                     (* 218: np.max of an empty array *)
        | _ => (with_amplitudes (Some (map (fun x => x / wavelength o) l)) o, Ok tt)
        end
      else match l, polynomials o with
           | [a], [] => (with_coeff a o, Ok tt)
           | _, _ => (o, Raise ValueError)
           end
  | KNum a =>
      match zpol o, polynomials o with
      | None, _ :: _ :: _ => (o, Raise ValueError)
      | _, _ => (with_coeff a o, Ok tt)
      end
  | KBad e =>
      match zpol o, polynomials o with
      | None, _ :: _ :: _ => (o, Raise ValueError)
      | _, _ => (o, Raise e)
      end
  end.
(** 187-263 *)
Definition set_physical_props (na wl : R) (c : coeff_arg) (px : R) (o : zernpsf) : zernpsf * res unit :=
  if Rltb na 0 || Rltb (17 / 10) na then (o, Raise ValueError)
  else if Rleb wl 0 then (o, Raise ValueError)
  else
    let o := with_wavelength wl (with_NA na (with_k (2 * PI / wavelength o) o)) in       (* 193-194 *)
    match pydiv (5 / 10 * (5 / 10) * wl) na with
    | Raise e => (o, Raise e)
    | Ok nyq =>
        let o := with_nyquist nyq o in
        if Rleb px 0 then (o, Raise ValueError)
        else if Rltb nyq px then (o, Raise ValueError)
        else
          let o := with_pixel_size px o in
          match set_coeff c o with
          | (o, Raise e) => (o, Raise e)
          | (o, Ok _) => estimate_size o
          end
    end.

(** ** set_calculation_props, 292-319 *)
Definition set_calculation_props (ks nr nphi : Z) (o : zernpsf) : zernpsf * res unit :=
  if (ks <? 3)%Z then (o, Raise ValueError)
  else
    let o := with_kernel_size (if (ks mod 2 =? 0)%Z then (ks + 1)%Z else ks) o in
    if (nr <? 20)%Z then (o, Raise ValueError)
    else if (nphi <? 36)%Z then (o, Raise ValueError)
    else (with_n_int_phi nphi (with_n_int_r nr o), Ok tt).

(** ** calculate_psf_kernel, 368-429 *)
(** 375-379: accelerated is None means: if numba is installed; the compiled functions are used when both hold (391, 397) *)
Definition use_numba (accelerated : option bool) (installed : bool) : bool :=
  match accelerated with Some b => b && installed | None => installed end.
Definition no_amplitudes {A} : M A := mlift (Raise TypeError).
Definition calculate_psf_kernel (rnd jv1 : R -> R) (fuel : nat) (suppress normalized : bool) (accelerated : option bool) (installed : bool)
  (o : zernpsf) (s : cstate) : cstate * (zernpsf * res kernel) :=
  let o := if negb (props_set o) && negb suppress then with_kernel_size 19 o else o in
  let comp tg al := get_psf_kernel_comp rnd tg (pixel_size o) al (wavelength o) (NA o) (n_int_r o) (n_int_phi o) normalized (kernel_size o) in
  let '(s', r) :=
    match zpol o with
    | Some p =>
        if use_numba accelerated installed then comp (Single p) (AFloat (expansion_coeff o)) s
        else get_psf_kernel rnd jv1 fuel p (pixel_size o) (expansion_coeff o) (wavelength o) (NA o) (n_int_r o) (n_int_phi o)
               normalized (airy o) (kernel_size o) Vectorized s
    | None =>
        match polynomials o, amplitudes o with
        | [], _ => mret (kern o) s
        | _ :: _, None => no_amplitudes s
        | ps, Some amps =>
            if use_numba accelerated installed then comp (Several ps) (AArr amps) s
            else get_psf_kernel_zerns rnd fuel ps amps (pixel_size o) (wavelength o) (NA o) (kernel_size o) (n_int_r o) (n_int_phi o) normalized s
        end
    end in
  match r with Ok K => (s', (with_kern K o, Ok K)) | Raise e => (s', (o, Raise e)) end.

(** ** get_psf_point_r_parallel, 676-709, and get_kernel_parallel, 711-750 *)
(** [workers] : initialize_parallel_workers was called (and the object is not the Airy case), and DispenserManager.compute returns the results
    of radial_integral_s (M_Psf.radial_integral) in the order of the parameters (C45) *)
Definition point_parallel (rnd : R -> R) (fuel : nat) (workers : bool) (p : Z * Z) (alpha : R) (n_int_r n_int_phi : Z) (r theta : R) : M R :=
  if (n_int_phi =? 0)%Z then mlift (Raise ZeroDivisionError)
  else
    let h_phi := 2 * PI / IZR n_int_phi in
    let f i := radial_integral rnd (phase_pol fuel p alpha) n_int_r r theta (IZR i * h_phi) in
    run even_sum <- (if workers then run l <- mapM f (range2 2 (n_int_phi - 2)); mret (csum l) else mret (0, 0));
    run odd_sum <- (if workers then run l <- mapM f (range2 1 (n_int_phi - 1)); mret (csum l) else mret (0, 0));
    simpson_end rnd (phase_pol fuel p alpha) n_int_r r theta h_phi even_sum odd_sum.
(** 728-731: get_kernel_size without its argument NA raises TypeError; 732-733: several polynomials: size 3 and no value is calculated.
    Distances use the attribute k (740). If a point raises, the attribute kernel keeps the values calculated so far (here: the old one). *)
Definition get_kernel_parallel (rnd : R -> R) (fuel : nat) (workers normalize : bool) (o : zernpsf) (s : cstate) : cstate * (zernpsf * res kernel) :=
  match zpol o with
  | Some p =>
      if (kernel_size o <? 3)%Z then (s, (o, Raise TypeError))
      else
        let '(s', r) := fill_kernel (point_parallel rnd fuel workers p (alpha o) (n_int_r o) (n_int_phi o)) (k o) (NA o) (pixel_size o) (kernel_size o) s in
        match r with
        | Ok l => let K := finish normalize l in (s', (with_kern K o, Ok K))
        | Raise e => (s', (o, Raise e))
        end
  | None =>
      let o := with_kernel_size 3 o in
      let K := finish normalize [[0; 0; 0]; [0; 0; 0]; [0; 0; 0]] in (s, (with_kern K o, Ok K))
  end.

(** ** crop_kernel, 505-549 *)
Definition row (K : kernel) (i : Z) : list fl := nth (Z.to_nat i) K [].
Definition column (K : kernel) (j : Z) : list fl := map (fun r => nth (Z.to_nat j) r NaN) K.
(** np.max (0 columns or rows do not occur; NaN is greater than nothing in the comparisons) *)
Definition fmax_list (l : list fl) : fl := match l with [] => NaN | x :: tl => fold_left fmax tl x end.
Definition fscale (c : R) (x : fl) : fl := match x with Fin v => Fin (c * v) | v => v end.
(** 538-541: all four border lines at depth [step] stay below the limit *)
Definition dark (K : kernel) (rows cols step : Z) (limit : fl) : bool :=
  fltb (fmax_list (row K step)) limit && fltb (fmax_list (row K (rows - 1 - step))) limit &&
  fltb (fmax_list (column K step)) limit && fltb (fmax_list (column K (cols - 1 - step))) limit.
(** 537-546: the loop; [fuel] bounds the number of iterations (the theorems show that it is enough) *)
Fixpoint crop_steps (fuel : nat) (K : kernel) (rows cols step : Z) (limit : fl) : Z :=
  match fuel with
  | O => step
  | S f => if dark K rows cols step limit then crop_steps f K rows cols (step + 1) limit else step
  end.
(** K[a:b, c:d] for 0 <= a, c *)
Definition slice {A} (l : list A) (a b : Z) : list A := firstn (Z.to_nat (b - a)) (skipn (Z.to_nat a) l).
Definition subkernel (K : kernel) (a b c d : Z) : kernel := map (fun r => slice r c d) (slice K a b).
(** 529-549 *)
Definition crop_kernel (part : R) (o : zernpsf) : zernpsf * res unit :=
  if (kernel_size o <=? 3)%Z then (o, Ok tt)
  else
    let mx := fmax_list (concat (kern o)) in
    if Rleb part 0 then (o, Raise ValueError)
    else if Rleb (5 / 10) part then (o, Raise ValueError)
    else
      let rows := Z.of_nat (length (kern o)) in
      let cols := Z.of_nat (length (row (kern o) 0)) in
      let step := crop_steps (length (kern o)) (kern o) rows cols 0 (fscale part mx) in
      if (0 <? step)%Z then
        let K := subkernel (kern o) step (rows - step) step (cols - step) in
        (with_kernel_size (Z.of_nat (length K)) (with_kern K o), Ok tt)
      else (o, Ok tt).

(** ** JSON files, 552-656 and calc_psfs.py 738-840 *)
(** content of a file: the keys written by save_psf (794-812). Each key may be missing in a file of other origin; the order of the
    keys does not matter to read_json, except that of "Polynomial" and "Polynomials", of which save_psf writes one. *)
Record json := JSON {
  j_kernel : option kernel; j_size : option Z; j_nr : option Z; j_nphi : option Z;
  j_na : option R; j_wl : option R; j_px : option R; j_coeff : option R; j_amps : option (list R);
  j_pol : option Z; j_pols : option (list Z) }.
Definition osa_of (p : Z * Z) : Z := get_osa_index (fst p) (snd p).
(** calc_psfs.py 803-812 with the arguments of zernpsf.py 570-589; the multi-polynomial branch calls .tolist() on the coefficients,
    which are None before set_physical_props *)
Definition saved_data (o : zernpsf) : res (option json) :=
  let base := JSON (Some (kern o)) (Some (kernel_size o)) (Some (n_int_r o)) (Some (n_int_phi o)) (Some (NA o)) (Some (wavelength o)) (Some (pixel_size o)) in
  match zpol o with
  | Some p => Ok (Some (base (Some (expansion_coeff o)) None (Some (osa_of p)) None))
  | None =>
      match polynomials o, coefficients o with
      | [], _ => Ok None
      | _ :: _, None => Raise AttributeError
      | ps, Some l => Ok (Some (base None (Some l) None (Some (map osa_of ps))))
      end
  end.
(** files: the name is built from the polynomials and the coefficient(s) (790-801, file names of arrays are their printed form, so
    [show] need not be injective) *)
Inductive fname := FSingle (p : Z * Z) (a : R) | FSeveral (osas : list Z) (shown : string).
Definition file_name (show : list R -> string) (o : zernpsf) : fname :=
  match zpol o with
  | Some p => FSingle p (expansion_coeff o)
  | None => FSeveral (map osa_of (polynomials o)) (show (match coefficients o with Some l => l | None => [] end))
  end.
Definition files := fname -> option json.
Definition fname_eq_dec : forall a b : fname, {a = b} + {a <> b}.
Proof. decide equality; try apply string_dec; try apply list_eq_dec; try apply Z.eq_dec; try apply Req_EM_T. destruct p, p0. decide equality; apply Z.eq_dec. Defined.
Definition write (fs : files) (n : fname) (j : json) : files := fun n' => if fname_eq_dec n' n then Some j else fs n'.
(** save_json in one fixed folder (the choice of folders is not modelled); 813-818: an existing file is kept unless overwrite. Returns the
    files and the path that the object remembers. *)
Definition save_json (show : list R -> string) (overwrite : bool) (o : zernpsf) (fs : files) : res (files * option fname) :=
  do d <- saved_data o;
  match d with
  | None => Ok (fs, None)
  | Some j =>
      let n := file_name show o in
      Ok (match fs n with Some _ => if overwrite then write fs n j else fs | None => write fs n j end, Some n)
  end.

(** ZernPol(osa=i) *)
Definition pol_of_osa (i : Z) : res (Z * Z) :=
  do z <- zernpol_init [("osa"%string, PInt i)]; Ok (zp_m z, zp_n z).
Definition is_some {A} (x : option A) : bool := match x with Some _ => true | None => false end.
Definition opt {A} (x : option A) (f : A -> zernpsf -> zernpsf) (o : zernpsf) : zernpsf := match x with Some v => f v o | None => o end.
(** 631-648; "Polynomial" leaves the attributes polynomials and airy as they are *)
Definition read_pols (j : json) (o : zernpsf) : zernpsf * res unit :=
  let '(o, r) := match j_pol j with
                 | Some i => match pol_of_osa i with Ok p => (with_zpol (Some p) o, Ok tt) | Raise e => (o, Raise e) end
                 | None => (o, Ok tt)
                 end in
  match r with
  | Raise e => (o, Raise e)
  | Ok _ =>
      match j_pols j with
      | None => (o, Ok tt)
      | Some [i] => match pol_of_osa i with Ok p => (with_airy (i =? 0)%Z (with_zpol (Some p) o), Ok tt) | Raise e => (o, Raise e) end
      | Some l =>
          match mapR pol_of_osa l with
          | Ok ps => (with_airy false (with_zpol None (with_polynomials ps o)), Ok tt)
          | Raise e => (o, Raise e)
          end
      end
  end.
(** 611-656; for files with all the keys of save_psf, or with some of the eight property keys missing and at most one of "Expansion
    Coefficient" and "Amplitudes" (the keys of the kernel are assigned first; if a later one raises, the order of the keys in the file decides which
    attributes are already set: here all of them) *)
Definition read_json (j : json) (o : zernpsf) : zernpsf * res unit :=
  let o := opt (j_nphi j) with_n_int_phi (opt (j_nr j) with_n_int_r (opt (j_size j) with_kernel_size (opt (j_kernel j) with_kern o))) in
  match read_pols j o with
  | (o, Raise e) => (o, Raise e)
  | (o, Ok _) =>
      match j_na j, j_wl j, j_px j, j_coeff j, j_amps j with
      | Some na, Some wl, Some px, Some a, None =>
          if is_some (j_kernel j) && is_some (j_size j) && is_some (j_nr j) && is_some (j_nphi j)
          then set_physical_props na wl (KNum a) px o else (o, Ok tt)
      | Some na, Some wl, Some px, None, Some l =>
          if is_some (j_kernel j) && is_some (j_size j) && is_some (j_nr j) && is_some (j_nphi j)
          then set_physical_props na wl (KSeq l) px o else (o, Ok tt)
      | _, _, _, _, _ => (o, Ok tt)
      end
  end.
