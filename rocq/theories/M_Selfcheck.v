(** Model of the self-check functions of calculations/calc_zernike_pol.py (563-777) and
    calculations/find_pols_coeffs.py (358-449). [rnd] is the rounding of one arithmetic operation and [pw] is np.power:
    the identity and the exact power give exact arithmetic, [near64] gives binary64. A call on an array of radii is
    modelled as one call per radius, in order. Printing and the assertion messages are not modelled. *)
From Coq Require Import Reals ZArith QArith List String.
From Flocq Require Import Core.
From Verif Require Import Py M_Radial M_Coeffs M_Float M_FloatDr M_Sum M_Psf M_FloatFit.
Import ListNotations.
Local Open Scope Z_scope.

(** what the check ends with: the returned matrix, or AssertionError *)
Inductive verdict := Passed (diff : list (list R)) | AssertionFails.

(** calc_zernike_pol.py 581-584 and 630-632: `if not isinstance(max_order, int) and max_order < 2: max_order = 2`,
    then range(1, max_order): ints (and bools, numpy ints) are accepted as they are, floats are no argument of range *)
Definition check_max_order (v : pyval) : res Z :=
  match v with
  | PInt z => Ok z
  | PBool b => Ok (if b then 1 else 0)
  | PNpInt z => Ok (if z <? 2 then 2 else z)
  | PFloat q => if Qle_bool (inject_Z 2) q then Raise TypeError else Ok 2
  | PInf neg => if neg then Ok 2 else Raise TypeError
  | PNan => Raise TypeError
  | PStr _ | POther => Raise TypeError
  end.

(** 589-594, the body of the loop for one radial order: m = -order; then m += 2, [order] times *)
Fixpoint azimuthals (k : nat) (m n : Z) : list orders :=
  match k with O%nat => [] | S k' => (m + 2, n) :: azimuthals k' (m + 2) n end.
Definition orders_of (n : Z) : list orders := (- n, n) :: azimuthals (Z.to_nat n) (- n) n.
(** `for order in range(a, b)` *)
Definition orders_between (a b : Z) : list orders := flat_map orders_of (zrange a (Z.to_nat (b - a))).
(** 588-594: the tested orders of compare_radial_calculations and compare_radial_derivatives *)
Definition tested_orders (max_order : Z) : list orders := (0, 0) :: orders_between 1 max_order.

Section Check.
Variable rnd : R -> R.
Variable pw : R -> Z -> R.
Variable fuel : nat.
Local Open Scope R_scope.

(** 597-601: i/(n_points-1), then np.round(test_r, 4) *)
Definition test_radii (n_points : nat) : list R :=
  map (fun i => fround rnd 4 (rnd (INR i / INR (n_points - 1)))) (seq 0 n_points).

(** np.max(np.abs(diff)) *)
Definition max_abs (d : list (list R)) : R := fold_right (fun row acc => fold_right (fun x acc => Rmax (Rabs x) acc) acc row) 0 d.

(** 603-610: fill the matrix row by row, round it, assert *)
Definition self_check (entry : orders -> R -> M R) (digits : Z) (accept : R -> bool) (os : list orders) (rs : list R) : M verdict :=
  run d <- mapM (fun o => mapM (entry o) rs) os;
  let diff := map (map (fround rnd digits)) d in
  if accept (max_abs diff) then mret (Passed diff) else mret AssertionFails.

(** f(order, test_r) - g(order, test_r) *)
Definition differ (f g : orders -> R -> M R) (o : orders) (r : R) : M R :=
  run a <- f o r; run b <- g o r; mret (rnd (a - b)).

(** 563-611 *)
Definition compare_radial_calculations (max_order : pyval) : M verdict :=
  run z <- mlift (check_max_order max_order);
  self_check (differ (fun o r => mlift (fradial_polynomial rnd pw fuel (fst o) (snd o) r))
                     (fun o r => mlift (fradial_polynomial_eq rnd pw (fst o) (snd o) r)))
    9 (fun x => Rltb x (rnd (1 / 10 ^ 9))) (tested_orders z) (test_radii 21).

(** 613-661 *)
Definition compare_radial_derivatives (max_order : pyval) : M verdict :=
  run z <- mlift (check_max_order max_order);
  self_check (differ (fun o r => mlift (fradial_derivative rnd pw fuel (fst o) (snd o) r))
                     (fun o r => mlift (fradial_derivative_eq rnd pw (fst o) (snd o) r)))
    9 (fun x => Rltb x (rnd (1 / 10 ^ 9))) (tested_orders z) (test_radii 21).

(** 663-704: range(15, MAX_RADIAL_ORDER_COEFFS+2) *)
Definition compare_recursive_coeffs_radials : M verdict :=
  self_check (differ (fun o r => mlift (fradial_polynomial_eq rnd pw (fst o) (snd o) r))
                     (fun o r => fradial_polynomial_coeffs rnd pw fuel (fst o) (snd o) r))
    9 (fun x => Rltb x (rnd (2 / 10 ^ 2))) (orders_between 15 (MAX_RADIAL_ORDER_COEFFS + 2)) (test_radii 101).

(** 707-746: range(15, MAX_RADIAL_ORDER_COEFFS_dR+2) *)
Definition compare_recursive_coeffs_radials_dr : M verdict :=
  self_check (differ (fun o r => mlift (fradial_derivative_eq rnd pw (fst o) (snd o) r))
                     (fun o r => fradial_polynomial_coeffs_dr rnd pw fuel (fst o) (snd o) r))
    9 (fun x => Rltb x (rnd (5 / 10 ^ 2))) (orders_between 15 (MAX_RADIAL_ORDER_COEFFS_dR + 2)) (test_radii 101).

(** 749-777: the values themselves, rounded to 6 digits, at most 1.0 *)
Definition check_high_orders_recursion : M verdict :=
  self_check (fun o r => fradial_polynomial_coeffs rnd pw fuel (fst o) (snd o) r)
    6 (fun x => negb (Rltb 1 x)) (orders_between (MAX_RADIAL_ORDER_COEFFS + 1) (MAX_RADIAL_ORDER_COEFFS + 6)) (test_radii 51).
End Check.

(** find_pols_coeffs.py 375-380: loop over coeffs1.items() *)
Fixpoint equal_loop (items c2 : dict) : res bool :=
  match items with
  | [] => Ok true
  | (k, v) :: tl => match dget k c2 with
                    | None => Raise KeyError
                    | Some w => if v =? w then equal_loop tl c2 else Ok false
                    end
  end.
(** find_pols_coeffs.py 358-383 *)
Definition check_equal_coeffs (c1 c2 : dict) : res bool :=
  if Nat.eqb (List.length c1) (List.length c2) then equal_loop c1 c2 else Ok false.

(** one line of test_coeffs_calc: assert check_equal_coeffs(find_coeffs_orders((m, n), use_test_dict=True),
    precalculated_initial_coeffs[(m, n)]); [false] is AssertionError *)
Definition check_line (fuel : nat) (o : orders) : M bool :=
  run d <- find_coeffs_orders fuel (Kw true) (fst o) (snd o);
  fun s => match tget o (pre s false) with None => (s, Raise KeyError) | Some d' => (s, check_equal_coeffs d d') end.
Definition check_line_dr (fuel : nat) (o : orders) : M bool :=
  run d <- find_coeffs_orders_dr fuel (Kw true) (fst o) (snd o);
  fun s => match tget o (pre_dr s false) with None => (s, Raise KeyError) | Some d' => (s, check_equal_coeffs d d') end.
Fixpoint check_lines (line : orders -> M bool) (l : list orders) : M bool :=
  match l with [] => mret true | o :: tl => run b <- line o; if b then check_lines line tl else mret false end.
(** find_pols_coeffs.py 386-418 *)
Definition test_coeffs_calc (fuel : nat) : M bool :=
  check_lines (check_line fuel) [(-9, 9); (-7, 9); (-5, 9); (-3, 9); (-1, 9); (1, 9); (5, 9); (0, 10); (2, 10); (4, 10); (-6, 10); (7, 9)].
(** find_pols_coeffs.py 421-449 *)
Definition test_coeffs_dr_calc (fuel : nat) : M bool :=
  check_lines (check_line_dr fuel) [(-9, 9); (-7, 9); (-5, 9); (-1, 9); (1, 9); (3, 9); (-6, 10); (-2, 10); (0, 10); (4, 10)].
