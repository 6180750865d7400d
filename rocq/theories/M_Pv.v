(** Model of examples/define_pv_values.py: peak-to-valley values of polynomials from gen_zernikes_surface, and the search for
    coefficients. Modelled: the printed numbers and the list found_coeffs. Values of the surfaces are exact (their rounding:
    C57), coordinates and coefficients with the rounding [rnd]. Not modelled: the printed text, the [except] branch. *)
From Coq Require Import Reals.
From Verif Require Import Py M_Index M_Radial M_Coeffs M_Init M_Sum M_Crop M_Fit M_Polar M_Plot M_Perf.
Local Open Scope R_scope.

(** numpy's view of a matrix as a list of its elements, row by row (np.max and np.min of a whole array) *)
Definition elements_of (v : sumval) : list fl :=
  match v with
  | SMat rows cols f => flat_map (fun i => map (f i) (seq 0 cols)) (seq 0 rows)
  | SVal (KArr l) => l
  | SVal (KFloat x) => [x]
  end.
Definition fl_sub (a b : fl) : fl := match a, b with Fin x, Fin y => Fin (x - y) | _, _ => NaN end.
Definition fl_round (rnd : R -> R) (d : Z) (a : fl) : fl := match a with Fin x => Fin (rnd (np_round d x)) | _ => a end.
(** np.max(surface) - np.min(surface) (define_pv_values.py 39 and 50) *)
Definition max_minus_min (v : sumval) : res fl :=
  do hi <- np_max (elements_of v);
  do lo <- np_min (elements_of v);
  Ok (fl_sub hi lo).

Section Pv.
Variable rnd : R -> R.
Variable fuel : nat.

(** define_pv_values.py 37-39 and 48-50: the surface of one polynomial with one coefficient, default steps; round(..., d) *)
Definition pv_value (d : Z) (ampl : R) (p : zernpol) : M fl :=
  run zs <- gen_zernikes_surface rnd fuel [ampl] [Some (zp_m p, zp_n p)] (pyr_r_step rnd) (pyr_theta_step rnd) false 250;
  run v <- mlift (max_minus_min (zs_S zs));
  mret (fl_round rnd d v).

(** define_pv_values.py 22-28 *)
Definition pv_targets : list R := map rnd
  [8; 8;
   51/10; 5; 51/10;
   36/10; 3; 3; 36/10;
   2; 18/10; 15/10; 18/10; 2;
   13/10; 11/10; 11/10; 11/10; 11/10; 13/10;
   1; 9/10; 9/10; 7/10; 9/10; 9/10; 1;
   7/10; 6/10; 5/10; 5/10; 5/10; 5/10; 6/10; 7/10].

(** define_pv_values.py 37: 0.02*(i+1) *)
Definition pv_ampl (i : Z) : R := rnd (rnd (2 / 100) * IZR (i + 1)).
(** define_pv_values.py 36-44: for i in range(150): ... break; Some: the number appended to found_coeffs *)
Fixpoint pv_search (todo : nat) (i : Z) (target : R) (p : zernpol) : M (option R) :=
  match todo with
  | O => mret None
  | S t =>
      let ampl := pv_ampl i in
      run v <- pv_value 1 ampl p;
      if fltb (Fin target) v then mret (Some (rnd (np_round 1 ampl))) else pv_search t (i + 1) target p
  end.
(** define_pv_values.py 30-44: for j, polynomial in enumerate(polynomials_list) *)
Fixpoint pv_find (j : nat) (ps : list zernpol) : M (list (zernpol * R)) :=
  match ps with
  | [] => mret []
  | p :: ps' =>
      if Nat.eqb j 0 then pv_find (S j) ps'
      else if Nat.ltb (j - 1) (length pv_targets) then
        run c <- pv_search 150 0 (nth (j - 1) pv_targets 0) p;
        run rest <- pv_find (S j) ps';
        mret (match c with Some a => (p, a) :: rest | None => rest end)
      else pv_find (S j) ps'
  end.
(** define_pv_values.py 47-51: the peak-valley values of all polynomials with the coefficient 1 *)
Fixpoint pv_table (ps : list zernpol) : M (list (zernpol * fl)) :=
  match ps with
  | [] => mret []
  | p :: ps' => run v <- pv_value 3 1 p; run rest <- pv_table ps'; mret ((p, v) :: rest)
  end.
(** define_pv_values.py 21-51: found_coeffs with the polynomials they belong to, and the printed table *)
Definition define_pv_values : M (list (zernpol * R) * list (zernpol * fl)) :=
  run polynomials_list <- mlift (generate_polynomials 7);
  run found <- pv_find 0 polynomials_list;
  run table <- pv_table polynomials_list;
  mret (found, table).
End Pv.
