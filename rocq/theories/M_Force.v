(** Model of [force_get_psf_compilation] (zernpsf.py 794-845). Not modelled: printing, the measured time, what numba compiles. *)
From Coq Require Import Reals.
From Verif Require Import Py M_Index M_Init M_Radial M_Coeffs M_Sum M_Geo M_Fit M_Psf M_Numba M_PsfClass.
Local Open Scope R_scope.

(** warnings of the function *)
Inductive fwarn := OldNumba | UnparsableVersion | NoNumba.
(** zernpsf.py 810-817. [ver]: numba's version split at the dots, None for a part that int() cannot convert (ValueError).
    A missing part is an IndexError, which the code does not catch. *)
Definition version_check (ver : list (option Z)) : res (list fwarn) :=
  let part i := match nth_error ver i with None => Raise IndexError | Some None => Raise ValueError | Some (Some z) => Ok z end in
  match (do major <- part 0%nat;
         if (major =? 0)%Z then
           do minor <- part 1%nat;
           if (minor <=? 57)%Z then
             do patch <- part 2%nat;
             if (patch <? 1)%Z then Ok [OldNumba] else Ok []
           else Ok []
         else Ok []) with
  | Raise ValueError => Ok [UnparsableVersion]
  | r => r
  end.

(** a method call on an object: continue with the changed object, or raise *)
Definition then_ {A B} (x : zernpsf * res A) (f : zernpsf -> res B) : res B :=
  match snd x with Ok _ => f (fst x) | Raise e => Raise e end.
Definition new_pol (m n : Z) : res (Z * Z) := do p <- zernpol_init [("m", PInt m); ("n", PInt n)]%string; Ok (zp_m p, zp_n p).

(** 818-829, the two objects before the calculation *)
Definition force_single : res zernpsf :=
  let wavelength := 55 / 100 in
  do zp <- new_pol (-1) 1;
  do o <- zernpsf_init (COne (IPol zp));
  then_ (set_physical_props (2 / 10) wavelength (KNum (42 / 1000)) (wavelength / (82 / 100)) o) (fun o => Ok (with_kernel_size 1 o)).
Definition force_several : res zernpsf :=
  do zp1 <- new_pol (-2) 4; do zp2 <- new_pol 3 3; do zp3 <- new_pol 0 4;
  do o <- zernpsf_init (CSeq [IPol zp1; IPol zp2; IPol zp3]);
  then_ (set_physical_props (2 / 10) (5 / 10) (KSeq [- (1 / 100); 43 / 1000; 27 / 1000]) (5 / 10 / (85 / 100)) o) (fun o => Ok (with_kernel_size 3 o)).

(** 806-845: warnings, and the pair of objects (None without numba) or an exception; the last component is the flag
    methods_compiled (830-831) *)
Definition force_get_psf_compilation (rnd jv1 : R -> R) (fuel : nat) (installed : bool) (ver : list (option Z)) (compiled : bool) (s : cstate)
  : cstate * (list fwarn * res (option (zernpsf * zernpsf)) * bool) :=
  if installed then
    match version_check ver with
    | Raise e => (s, ([], Raise e, compiled))
    | Ok w =>
        match force_single with
        | Raise e => (s, (w, Raise e, compiled))
        | Ok o1 =>
            match calculate_psf_kernel rnd jv1 fuel true true (Some true) installed o1 s with
            | (s, (_, Raise e)) => (s, (w, Raise e, compiled))
            | (s, (o1, Ok _)) =>
                match force_several with
                | Raise e => (s, (w, Raise e, compiled))
                | Ok o2 =>
                    match calculate_psf_kernel rnd jv1 fuel true true (Some true) installed o2 s with
                    | (s, (_, Raise e)) => (s, (w, Raise e, compiled))
                    | (s, (o2, Ok _)) => (s, (w, Ok (Some (o1, o2)), true))
                    end
                end
            end
        end
    end
  else (s, ([NoNumba], Ok None, compiled)).
