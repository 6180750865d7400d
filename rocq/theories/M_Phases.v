(** Model of generate_phases_image and generate_random_phases (zernikepol.py 1376-1499),
    exact arithmetic. An image is the list of its rows. *)
From Coq Require Import Reals.
From Verif Require Import Py M_Init M_Radial M_Coeffs M_Sum M_Geo.
Local Open Scope R_scope.

(** zernikepol.py 1482-1486: row_center, cols_center, img_radius *)
Definition img_radius (w h : Z) : Z := 1 + Z.min w h / 2.
(** np.linalg.norm(center - np.asarray([i, j])) (1489, 1496) *)
Definition pixel_dist (w h i j : Z) : R :=
  sqrt (IZR ((h / 2 - i) * (h / 2 - i) + (w / 2 - j) * (w / 2 - j))).
Definition in_aperture (w h i j : Z) : bool :=
  if Rle_dec (pixel_dist w h i j) (IZR (img_radius w h)) then true else false.
(** 1488-1494: the vectors r and theta of row i *)
Definition row_r (w h i : Z) : list fl :=
  map (fun j => Fin (if in_aperture w h i j then pixel_dist w h i j / IZR (img_radius w h) else 0)) (zrange 0 (Z.to_nat w)).
Definition row_theta (w h i : Z) : list fl :=
  map (fun j => Fin (if in_aperture w h i j then pixel_theta (IZR (h / 2 - i)) (IZR (j - w / 2)) else 0)) (zrange 0 (Z.to_nat w)).
(** 1496-1499: background pixels are set to zero again *)
Definition mask_row (w h i : Z) (l : list fl) : list fl :=
  map (fun jv => if in_aperture w h i (fst jv) then snd jv else Fin 0) (combine (zrange 0 (Z.to_nat w)) l).

(** 1487-1499. Assigning the vector of length [w] to the row keeps it as it is. *)
Fixpoint phase_rows (fuel : nat) (cs : list R) (ps : list (option (Z * Z))) (w h : Z) (rows : list Z) : M (list (list fl)) :=
  match rows with
  | [] => mret []
  | i :: tl =>
      run v <- sum_zernikes fuel cs ps (RArr (row_r w h i)) (RArr (row_theta w h i)) false;
      match v with
      | SVal (KArr l) =>
          run img <- phase_rows fuel cs ps w h tl;
          mret (mask_row w h i l :: img)
      | _ => mlift (Raise TypeError)
      end
  end.
(** zernikepol.py 1455-1499; np.zeros raises ValueError for a negative size *)
Definition generate_phases_image (fuel : nat) (ps : list (option (Z * Z))) (cs : list R) (w h : Z) : M (list (list fl)) :=
  if (w <? 0)%Z || (h <? 0)%Z then mlift (Raise ValueError)
  else phase_rows fuel cs ps w h (zrange 0 (Z.to_nat h)).

(** The random module as oracles: [pick i] is the i-th random.choice(selector_list), [ampl i] the
    i-th random.uniform(-1.5, 1.5), [index] the random.choice over the indices, [again] and
    [shifted] the uniform draws of lines 1415 and 1417; [rnd] is np.round(., round_digits). *)
Record draws := { pick : nat -> bool; ampl : nat -> R; index : nat; again : R; shifted : R; rnd : R -> R }.
(** what the random module guarantees about them for [n] polynomials *)
Definition legal_draws (n : nat) (d : draws) : Prop :=
  (forall i, -1.5 <= ampl d i <= 1.5) /\ (index d < n)%nat /\ -1.5 <= again d <= 1.5 /\ 0.25 <= shifted d <= 1.5.

Fixpoint set_nth (i : nat) (x : R) (l : list R) : list R :=
  match l, i with [], _ => [] | _ :: tl, O => x :: tl | y :: tl, S i' => y :: set_nth i' x tl end.

(** zernikepol.py 1410-1424 *)
Definition random_amplitudes (n : nat) (d : draws) : list R :=
  let a := map (rnd d) (map (fun i => if pick d i then ampl d i else 0) (seq 0 n)) in
  if Rlt_dec (fold_right Rmax 0 (map Rabs a)) 0.08 then
    set_nth (index d) (if Rlt_dec (Rabs (again d)) 0.08 then shifted d else again d) a
  else a.

(** zernikepol.py 1376-1452. The loop 1431-1449 is the loop of generate_phases_image. *)
Definition generate_random_phases (fuel : nat) (max_order w h : Z) (d : draws) : M (list (list fl) * list R * list zernpol) :=
  run pols <- mlift (generate_polynomials max_order);
  let a := random_amplitudes (length pols) d in
  if (w <? 0)%Z || (h <? 0)%Z then mlift (Raise ValueError)
  else
    run img <- phase_rows fuel a (map (fun p => Some (zp_m p, zp_n p)) pols) w h (zrange 0 (Z.to_nat h));
    mret (img, a, pols).
