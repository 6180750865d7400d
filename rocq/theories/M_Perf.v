(** Model of [compare_performances] (zernikepol.py 1595-1645), [_plot_zernikes_half_pyramid] (1228-1251) and
    [check_conformity] (1676-1752). Not modelled: printing, fonts and axes of the figure; the two timed sums at the end of
    check_conformity (1741-1749), whose results the code drops. *)
From Coq Require Import Reals.
From Verif Require Import Py M_Index M_Radial M_Coeffs M_Init M_Sum M_Crop M_Fit M_Polar M_Plot.
Local Open Scope Z_scope.

(** zernikepol.py 1621-1623: [for n_azimuthals in range(0, order)] *)
Fixpoint cmp_inner (k : nat) (m n : Z) : res (list zernpol) :=
  match k with
  | O => Ok []
  | S k' =>
      let m := m + 2 in
      do p <- zernpol_init [("m", PInt m); ("n", PInt n)]%string;
      do tl <- cmp_inner k' m n;
      Ok (p :: tl)
  end.
(** zernikepol.py 1618-1623: one pass per radial order *)
Fixpoint cmp_rows (k : nat) (order : Z) : res (list zernpol) :=
  match k with
  | O => Ok []
  | S k' =>
      let m := - order in let n := order in
      do p <- zernpol_init [("m", PInt m); ("n", PInt n)]%string;
      do row <- cmp_inner (Z.to_nat order) m n;
      do tl <- cmp_rows k' (order + 1);
      Ok ((p :: row) ++ tl)%list
  end.
Definition cmp_pols (min_order max_order : Z) : res (list zernpol) :=
  cmp_rows (Z.to_nat (max_order + 1 - min_order)) min_order.

(** zernikepol.py 1625-1629 *)
Definition cmp_n_points : nat := 251.
Definition cmp_radii : list R := map (fun i => np_round 6 (INR i / INR (cmp_n_points - 1))) (seq 0 cmp_n_points).

(** zernikepol.py 1632-1633 and 1638-1639: [for i, polynomial in enumerate(zernpols): polynomial.radial(test_r, ...)];
    the value is that of the variable i afterwards (None: not assigned here) *)
Fixpoint cmp_loop (fuel : nat) (exact : bool) (ps : list zernpol) (next : Z) (i : option Z) : M (option Z) :=
  match ps with
  | [] => mret i
  | p :: ps' =>
      run _ <- radial fuel (zp_m p, zp_n p) exact (RArr (map Fin cmp_radii));
      cmp_loop fuel exact ps' (next + 1) (Some next)
  end.

(** zernikepol.py 1595-1645. [clock k] is the value of the k-th call of time.perf_counter(). The tuple: both times in ms,
    the number in "Used polynomials: {i}", the number in "Radii: {n_points}". *)
Definition compare_performances (fuel : nat) (clock : nat -> R) (min_order max_order : Z) : M (R * R * Z * nat) :=
  run ps <- mlift (cmp_pols min_order max_order);
  run i <- cmp_loop fuel false ps 0 None;
  let t_recursive_ms := np_round 3 (1000 * (clock 1%nat - clock 0%nat)) in
  run i <- cmp_loop fuel true ps 0 i;
  let t_exact_ms := np_round 3 (1000 * (clock 3%nat - clock 2%nat)) in
  match i with
  | None => mlift (Raise UnboundLocalError)
  | Some i => mret (t_recursive_ms, t_exact_ms, i, cmp_n_points)
  end.

(** ** zernikepol.py 1228-1251: the half pyramid *)
Section Pyramid.
Variable rnd : R -> R.
Variable fuel : nat.
(** default steps of gen_zernikes_surface (zernikepol.py 1115-1117): 0.01 and round(pi/180, 7) = 0.0174533 *)
Definition pyr_r_step : R := rnd (1 / 100).
Definition pyr_theta_step : R := rnd (174533 / 10000000).
(** one cell of the figure that got a drawing: row, column, drawing *)
Definition cell : Type := nat * nat * drawing.

(** 1244-1250: the columns [j, j + todo) of row i; [k] is the next OSA index *)
Fixpoint pyr_cols (todo : nat) (i j : nat) (ignored_column k : Z) : M (list cell * Z) :=
  match todo with
  | O => mret ([], k)
  | S t =>
      if (ignored_column - 1 <? Z.of_nat j) then
        run zp <- mlift (zernpol_init [("osa", PInt k)]%string);
        run zs <- gen_zernikes_surface rnd fuel [1%R] [Some (zp_m zp, zp_n zp)] pyr_r_step pyr_theta_step false 250;
        run d <- mlift (pcolormesh (zs_T zs) (zs_R zs) (zs_S zs));
        run rest <- pyr_cols t i (S j) ignored_column (k + 1);
        mret ((i, j, d) :: fst rest, snd rest)
      else pyr_cols t i (S j) ignored_column k
  end.
(** 1243, 1251: the rows [i, i + todo) *)
Fixpoint pyr_rows (todo : nat) (i : nat) (n_cols : nat) (ignored_column k : Z) : M (list cell) :=
  match todo with
  | O => mret []
  | S t =>
      run row <- pyr_cols n_cols i 0 ignored_column k;
      run rest <- pyr_rows t (S i) n_cols (ignored_column - 1) (snd row);
      mret (fst row ++ rest)%list
  end.
Definition plot_zernikes_half_pyramid : M (list cell) :=
  let n_cols := 7%nat in let n_rows := 6%nat in
  pyr_rows n_rows 0 n_cols (Z.of_nat n_cols - 2) 1.
End Pyramid.

(** ** zernikepol.py 1676-1752 *)
(** an [assert]: the list collects the truth values, in order *)
Definition idx_assert (p : zernpol) (osa noll fringe : Z) : bool :=
  (zp_osa p =? osa) && (zp_noll p =? noll) && (zp_fringe p =? fringe).
(** try: ...; asserting_value = False / except ValueError: asserting_value = True; another exception propagates *)
Definition expect_ValueError {A} (x : M A) : M bool :=
  fun s => match x s with
           | (s', Ok _) => (s', Ok false)
           | (s', Raise ValueError) => (s', Ok true)
           | (s', Raise e) => (s', Raise e)
           end.
(** abs(v - x) < 1E-6 for a float v *)
Definition close6 (v : cv) (x : R) : bool :=
  match v with KFloat (Fin y) => if Rlt_dec (Rabs (y - x)) (1 / 1000000) then true else false | _ => false end.

Definition check_conformity (fuel : nat) : M (list bool) :=
  run zp <- mlift (zernpol_init [("m", PInt (-2)); ("n", PInt 2)]%string);
  let a1 := idx_assert zp 3 5 6 in
  run zp <- mlift (zernpol_init [("l", PInt (-3)); ("n", PInt 5)]%string);
  let a2 := idx_assert zp 16 19 20 in
  let a3 := Nat.ltb 0 (String.length (get_polynomial_name zp true)) in
  run zp <- mlift (zernpol_init [("azimuthal_order", PInt (-1)); ("radial_order", PInt 5)]%string);
  let a4 := idx_assert zp 17 17 15 in
  let a5 := Nat.ltb 0 (String.length (get_polynomial_name zp false)) in
  let a6 := let '((m3, n3), _, _, _) := get_indices zp in let '(m4, n4) := get_mn_orders zp in (m4 =? m3) && (n3 =? n4) in
  run zp <- mlift (zernpol_init [("osa_index", PInt 12)]%string);
  let '(m, n) := get_mn_orders zp in
  let a7 := (m =? 0) && (n =? 4) in
  let a8 := get_fringe_index m n =? 9 in
  let a9 := get_noll_index m n =? 11 in
  run o <- mlift (noll2osa (PInt 10));
  let a10 := py_eqZ o 9 in
  run o <- mlift (noll2osa (PInt 10));
  run f <- mlift (osa2fringe o);
  let a11 := py_eqZ f 10 in
  run a12 <- expect_ValueError (mlift (zernpol_init [("m", PInt 2); ("n", PInt (-2))]%string));
  run zp <- mlift (zernpol_init [("m", PInt 0); ("n", PInt 2)]%string);
  run v <- polynomial_value fuel (zp_m zp, zp_n zp) (RNum (Fin 0)) (RNum (Fin PI));
  let a13 := close6 v (- sqrt 3) in
  run zp <- mlift (zernpol_init [("m", PInt (-1)); ("n", PInt 1)]%string);
  run v <- polynomial_value fuel (zp_m zp, zp_n zp) (RNum (Fin (1 / 2))) (RNum (Fin (PI / 2)));
  let a14 := close6 v 1 in
  run a15 <- expect_ValueError (polynomial_value fuel (zp_m zp, zp_n zp) (RBad ValueError) (RList [Fin 1; Fin 2]));
  run a16 <- expect_ValueError (polynomial_value fuel (zp_m zp, zp_n zp)
                                 (RList [Fin (1 / 10); Fin (2 / 10); Fin (1 + 1 / 1000000000)]) (RNum (Fin PI)));
  mret [a1; a2; a3; a4; a5; a6; a7; a8; a9; a10; a11; a12; a13; a14; a15; a16].
