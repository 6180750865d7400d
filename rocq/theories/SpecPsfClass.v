(** Specification side of the ZernPSF properties (C38-C43): the objects a program can hold. *)
From Coq Require Import Reals.
From Verif Require Import Py SpecIndex SpecInit M_Coeffs SpecCoeffs M_Sum M_Psf M_Numba M_PsfClass.
Local Open Scope R_scope.

(** ZernPol objects with proper orders (0 <= |m| <= n, n - |m| even, n <= 54) *)
Definition proper_item (x : item) : Prop := match x with IPol (m, n) => supported m n | IOther => True end.
Definition proper_arg (a : ctor_arg) : Prop := match a with COne x => proper_item x | CSeq l => Forall proper_item l end.

(** Every object obtained by a constructor call and any sequence of method calls, whatever their arguments and whether they return
    or raise (the calling program may catch the exception). *)
Inductive object : zernpsf -> Prop :=
  | o_new a o : proper_arg a -> zernpsf_init a = Ok o -> object o
  | o_physical na wl c px o : object o -> object (fst (set_physical_props na wl c px o))
  | o_calculation ks nr nphi o : object o -> object (fst (set_calculation_props ks nr nphi o))
  | o_calculate rnd jv1 fuel suppress normalized accelerated installed s o : object o ->
      object (fst (snd (calculate_psf_kernel rnd jv1 fuel suppress normalized accelerated installed o s)))
  | o_parallel rnd fuel workers normalize s o : object o -> object (fst (snd (get_kernel_parallel rnd fuel workers normalize o s)))
  | o_crop part o : object o -> object (fst (crop_kernel part o))
  | o_read o1 j o : object o1 -> saved_data o1 = Ok (Some j) -> object o -> object (fst (read_json j o)).

Definition odd_positive (n : Z) : Prop := (1 <= n)%Z /\ Z.odd n = true.

(** Accepted physical properties: NA in (0, 1.7], positive wavelength, pixel size in (0, wavelength / (4 NA)]. *)
Definition in_range (na wl px : R) : Prop := 0 < na <= 17 / 10 /\ 0 < wl /\ 0 < px <= wl / (4 * na).
(** Accepted coefficients: a number for an object with one polynomial; as many numbers as the object has polynomials. *)
Definition fits (c : coeff_arg) (o : zernpsf) : Prop :=
  match c with
  | KNum _ => zpol o <> None
  | KSeq l => l <> [] /\ (length l = length (polynomials o) \/ (length l = 1%nat /\ polynomials o = []))
  | KBad _ => False
  end.
(** The object is ready for saving: its stored physical properties are accepted ones (they are not if the last call of set_physical_props raised
    halfway), and an object with several polynomials has a coefficient for each. *)
Definition configured (o : zernpsf) : Prop :=
  in_range (NA o) (wavelength o) (pixel_size o) /\
  (zpol o = None -> exists l, coefficients o = Some l /\ length l = length (polynomials o)).
