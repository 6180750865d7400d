(** Specification side of C18/C19: histories of calls and what a coefficient dictionary means. *)
From Coq Require Import Reals.
From Verif Require Import Py SpecIndex M_Coeffs.
Open Scope Z_scope.

(** States of the process reachable by any sequence of public calls with valid orders, each call
    with an arbitrary remaining recursion depth (so calls aborted by RecursionError are included). *)
Inductive reachable : cstate -> Prop :=
  | reach_import : reachable import_state
  | reach_find s fuel fl m n : reachable s -> valid m n -> reachable (fst (find_coeffs_orders fuel fl m n s))
  | reach_find_dr s fuel fl m n : reachable s -> valid m n -> reachable (fst (find_coeffs_orders_dr fuel fl m n s))
  | reach_radial s fuel m n e r : reachable s -> valid m n -> reachable (fst (zp_radial fuel m n e r s))
  | reach_radial_dr s fuel m n e r : reachable s -> valid m n -> reachable (fst (zp_radial_dr fuel m n e r s))
  | reach_value s fuel m n e r th : reachable s -> valid m n -> reachable (fst (zp_polynomial_value fuel m n e r th s)).

(** value of a dictionary {power: coefficient} at r, directly *)
Definition dict_value (d : dict) (r : R) : R :=
  fold_right (fun e acc => (IZR (snd e) * powerRZ r (fst e) + acc)%R) 0%R d.

(** [c] is the coefficient of r^p in the radial polynomial of orders (m, n): the factorial term if
    p = n - 2k with 0 <= k <= (n-|m|)/2, and 0 for every other power. *)
Definition radial_coefficient (m n p c : Z) : Prop :=
  (exists k : nat, p = n - 2 * Z.of_nat k /\ Z.of_nat k <= (n - Z.abs m) / 2 /\
     IZR c = ((-1) ^ k * INR (fact (Z.to_nat n - k))
              / (INR (fact k) * INR (fact (Z.to_nat ((n + Z.abs m) / 2) - k)) * INR (fact (Z.to_nat ((n - Z.abs m) / 2) - k))))%R)
  \/ ((~ exists k : nat, p = n - 2 * Z.of_nat k /\ Z.of_nat k <= (n - Z.abs m) / 2) /\ c = 0).

(** the derivative route of the coefficients is defined for: |m| = n or |m| = n-2 with m <> 0, and
    every polynomial with n >= 9 (n >= 7 with the test dictionary) *)
Definition dr_supported (test_dict : bool) (m n : Z) : Prop :=
  0 < Z.abs m /\ (Z.abs m = n \/ Z.abs m = n - 2) \/ (if test_dict then 7 else 9) <= n.
