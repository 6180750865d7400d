(** Specification side of C56: what a ZernPSF object was asked to calculate. *)
From Coq Require Import Reals.
From Verif Require Import Py M_Psf M_Numba M_PsfClass SpecPsfClass.
Local Open Scope R_scope.

(** Objects that were constructed and used by any calls, except that they read no JSON file *)
Inductive fresh : zernpsf -> Prop :=
  | f_new a o : proper_arg a -> zernpsf_init a = Ok o -> fresh o
  | f_physical na wl c px o : fresh o -> fresh (fst (set_physical_props na wl c px o))
  | f_calculation ks nr nphi o : fresh o -> fresh (fst (set_calculation_props ks nr nphi o))
  | f_calculate rnd jv1 fuel suppress normalized accelerated installed s o : fresh o ->
      fresh (fst (snd (calculate_psf_kernel rnd jv1 fuel suppress normalized accelerated installed o s)))
  | f_parallel rnd fuel workers normalize s o : fresh o -> fresh (fst (snd (get_kernel_parallel rnd fuel workers normalize o s)))
  | f_crop part o : fresh o -> fresh (fst (crop_kernel part o)).
(** Later states of an object: any calls, accepted or rejected, other than set_physical_props and read_json *)
Inductive later (o1 : zernpsf) : zernpsf -> Prop :=
  | l_here : later o1 o1
  | l_calculation ks nr nphi o : later o1 o -> later o1 (fst (set_calculation_props ks nr nphi o))
  | l_calculate rnd jv1 fuel suppress normalized accelerated installed s o : later o1 o ->
      later o1 (fst (snd (calculate_psf_kernel rnd jv1 fuel suppress normalized accelerated installed o s)))
  | l_parallel rnd fuel workers normalize s o : later o1 o -> later o1 (fst (snd (get_kernel_parallel rnd fuel workers normalize o s)))
  | l_crop part o : later o1 o -> later o1 (fst (crop_kernel part o)).

(** the polynomials of the object and the coefficients given in a call *)
Definition pols (o : zernpsf) : list (Z * Z) := match zpol o with Some p => [p] | None => polynomials o end.
Definition coeffs (c : coeff_arg) : list R := match c with KNum a => [a] | KSeq l => l | KBad _ => [] end.
(** the compiled functions calculate these orders properly (C36) *)
Definition compiled_well (p : Z * Z) : Prop := (snd p <= 10)%Z /\ ~ ((8 <= snd p)%Z /\ Z.abs (fst p) = snd p).
