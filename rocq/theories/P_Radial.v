(** Property theorems C11-C19. Floats are exact reals. [reachable s]: the module-level caches are in
    any state that some history of calls can leave behind. [fuel]: the interpreter's recursion limit. *)
From Coq Require Import Reals Lra.
From Coquelicot Require Import Coquelicot.
From Verif Require Import Py SpecIndex SpecRadial M_Radial M_Coeffs SpecCoeffs L_Radial L_RadialD L_DrErr L_Bound L_Trig L_Ortho L_Value L_RadialProps.
Local Open Scope R_scope.

(** ** C11 *)
Theorem C11_radial_is_factorial_sum : forall s fuel m n (use_exact_eq : bool) r, reachable s -> valid m n ->
  (n + 1 < Z.of_nat fuel)%Z -> (use_exact_eq = true -> n <= 40)%Z ->
  snd (zp_radial fuel m n use_exact_eq r s) = Ok (R_nm m n r).
Proof. exact zp_radial_ok. Qed.
Print Assumptions C11_radial_is_factorial_sum.

Theorem C11_value_is_zernike : forall s fuel m n (use_exact_eq : bool) r th, reachable s -> valid m n ->
  (n + 1 < Z.of_nat fuel)%Z -> (use_exact_eq = true -> n <= 40)%Z ->
  snd (zp_polynomial_value fuel m n use_exact_eq r th s) = Ok (Z_nm m n r th).
Proof. exact zp_value_ok. Qed.
Print Assumptions C11_value_is_zernike.
Example C11_nonvacuous : reachable (fst (zp_radial 1000 2 46 false (1/2) import_state)) /\ valid (-5) 53 /\ (53 + 1 < Z.of_nat 1000)%Z.
Proof.
  assert (V : valid 2 46) by (split; [lia|split; [lia|exists 22%Z; lia]]).
  split; [apply reach_radial; [apply reach_import|exact V]|]. split; [|lia]. split; [lia|split; [lia|exists 24%Z; lia]].
Qed.

(** ** C12 *)
Theorem C12_routes_agree : forall s fuel m n r, reachable s -> valid m n -> (n + 1 < Z.of_nat fuel)%Z ->
  radial_polynomial fuel m n r = Ok (R_nm m n r) /\
  radial_polynomial_eq m n r = Ok (R_nm m n r) /\
  snd (radial_polynomial_coeffs fuel m n r s) = Ok (R_nm m n r).
Proof. exact routes_agree. Qed.
Print Assumptions C12_routes_agree.

Theorem C12_high_order_exact_is_zero : forall s fuel m n r th, (40 < n)%Z ->
  snd (zp_radial fuel m n true r s) = Ok 0 /\ snd (zp_polynomial_value fuel m n true r th s) = Ok 0.
Proof. exact zp_high_exact_zero. Qed.
Print Assumptions C12_high_order_exact_is_zero.
Example C12_nonvacuous : valid 3 13 /\ reachable import_state /\ (40 < 54)%Z.
Proof. split; [split; [lia|split; [lia|exists 5%Z; lia]]|]. split; [constructor|lia]. Qed.

(** ** C13: true for the recursion and for the exact equation without bound, true for [ZernPol.radial_dr]
    up to n - |m| = 38 (exact equation: n = 38), and false for every polynomial beyond. *)
Theorem C13_derivative_routes : forall fuel m n r, valid m n -> (n < Z.of_nat fuel)%Z ->
  exists d, radial_derivative fuel m n r = Ok d /\ radial_derivative_eq m n r = Ok d /\ derivable_pt_lim (R_nm m n) r d.
Proof. exact deriv_routes. Qed.
Print Assumptions C13_derivative_routes.

Theorem C13_radial_dr_partial : forall s fuel m n (use_exact_eq : bool) r, reachable s -> valid m n ->
  (n + 1 < Z.of_nat fuel)%Z -> (if use_exact_eq then (n <= 38)%Z else (n - Z.abs m <= 38)%Z) ->
  exists d, snd (zp_radial_dr fuel m n use_exact_eq r s) = Ok d /\ derivable_pt_lim (R_nm m n) r d.
Proof. exact zp_radial_dr_ok. Qed.
Print Assumptions C13_radial_dr_partial.

Theorem C13_radial_dr_refuted : forall s fuel m n, reachable s -> valid m n -> (n + 1 < Z.of_nat fuel)%Z ->
  (40 <= n - Z.abs m)%Z ->
  exists d, snd (zp_radial_dr fuel m n false 1 s) = Ok d /\ ~ derivable_pt_lim (R_nm m n) 1 d.
Proof. exact zp_radial_dr_wrong. Qed.
Print Assumptions C13_radial_dr_refuted.
Example C13_nonvacuous : valid 6 54 /\ (54 - Z.abs 6 >= 40)%Z /\ valid (-20) 54 /\ (54 - Z.abs (-20) <= 38)%Z.
Proof. repeat split; try (simpl; lia); [exists 24%Z|exists 17%Z]; simpl; lia. Qed.

(** ** C14 *)
Theorem C14_boundary_parity_bound : forall s fuel m n, reachable s -> valid m n -> (n + 1 < Z.of_nat fuel)%Z ->
  snd (zp_radial fuel m n false 1 s) = Ok 1 /\
  forall r, exists v, snd (zp_radial fuel m n false r s) = Ok v /\
    snd (zp_radial fuel m n false (- r) s) = Ok ((-1) ^ Z.to_nat n * v) /\
    (-1 <= r <= 1 -> Rabs v <= 1).
Proof. exact radial_facts. Qed.
Print Assumptions C14_boundary_parity_bound.
Example C14_nonvacuous : valid (-7) 21 /\ reachable import_state.
Proof. split; [split; [lia|split; [lia|exists 7%Z; lia]]|constructor]. Qed.

(** ** C15 *)
Theorem C15_normf : forall m n, (0 <= n)%Z -> normalization_factor m n = sqrt (2 * (IZR n + 1) / (1 + (if Z.eqb m 0 then 1 else 0))).
Proof. exact normalization_norm. Qed.
Print Assumptions C15_normf.

(** [Z_nm] is what polynomial_value computes (C11_value_is_zernike) *)
Theorem C15_orthonormal : forall m n m' n', valid m n -> valid m' n' ->
  (forall r, ex_RInt (fun t => Z_nm m n r t * Z_nm m' n' r t * r) 0 (2 * PI)) /\
  is_RInt (fun r => RInt (fun t => Z_nm m n r t * Z_nm m' n' r t * r) 0 (2 * PI)) 0 1
    (if Z.eq_dec m m' then (if Z.eq_dec n n' then PI else 0) else 0).
Proof. exact disk_ortho. Qed.
Print Assumptions C15_orthonormal.
Example C15_nonvacuous : valid (-2) 4 /\ valid 2 4 /\ valid 0 6.
Proof. repeat split; try (simpl; lia); [exists 1%Z|exists 1%Z|exists 3%Z]; simpl; lia. Qed.

(** ** C16 *)
Theorem C16_triangular : forall m theta,
  triangular_function m theta = (if (0 <=? m)%Z then cos (IZR m * theta) else sin (IZR (Z.abs m) * theta)) /\
  Rabs (triangular_function m theta) <= 1 /\
  (forall k : Z, triangular_function m (theta + 2 * IZR k * PI) = triangular_function m theta) /\
  derivable_pt_lim (triangular_function m) theta (triangular_derivative m theta).
Proof. exact triangular_facts. Qed.
Print Assumptions C16_triangular.

(** ** C17 *)
Theorem C17_value_bounded_periodic : forall s fuel m n r theta (k : Z), reachable s -> valid m n -> (n + 1 < Z.of_nat fuel)%Z ->
  exists v, snd (zp_polynomial_value fuel m n false r theta s) = Ok v /\
    snd (zp_polynomial_value fuel m n false r (theta + 2 * IZR k * PI) s) = Ok v /\
    (0 <= r <= 1 -> Rabs v <= normalization_factor m n).
Proof. exact value_facts. Qed.
Print Assumptions C17_value_bounded_periodic.
Example C17_nonvacuous : valid 3 9 /\ 0 <= 1/2 <= 1.
Proof. split; [split; [lia|split; [lia|exists 3%Z; lia]]|lra]. Qed.

(** ** C18 *)
Theorem C18_coefficients_history_independent : forall s fuel fl m n, reachable s -> valid m n -> (n < Z.of_nat fuel)%Z ->
  exists d, snd (find_coeffs_orders fuel fl m n s) = Ok d /\ snd (find_coeffs_orders fuel fl m n import_state) = Ok d.
Proof. exact find_history. Qed.
Print Assumptions C18_coefficients_history_independent.

Theorem C18_coefficients_dr_history_independent : forall s fuel fl m n, reachable s -> valid m n -> (n < Z.of_nat fuel)%Z ->
  snd (find_coeffs_orders_dr fuel fl m n s) = snd (find_coeffs_orders_dr fuel fl m n import_state).
Proof. exact find_dr_history. Qed.
Print Assumptions C18_coefficients_dr_history_independent.

Theorem C18_radial_history_independent : forall s fuel m n e r, reachable s -> valid m n -> (n + 1 < Z.of_nat fuel)%Z ->
  snd (zp_radial fuel m n e r s) = snd (zp_radial fuel m n e r import_state).
Proof. exact zp_radial_history. Qed.
Print Assumptions C18_radial_history_independent.

Theorem C18_radial_dr_history_independent : forall s fuel m n e r, reachable s -> valid m n -> (n + 1 < Z.of_nat fuel)%Z ->
  snd (zp_radial_dr fuel m n e r s) = snd (zp_radial_dr fuel m n e r import_state).
Proof. exact zp_radial_dr_history. Qed.
Print Assumptions C18_radial_dr_history_independent.

Theorem C18_value_history_independent : forall s fuel m n e r th, reachable s -> valid m n -> (n + 1 < Z.of_nat fuel)%Z ->
  snd (zp_polynomial_value fuel m n e r th s) = snd (zp_polynomial_value fuel m n e r th import_state).
Proof. exact zp_value_history. Qed.
Print Assumptions C18_value_history_independent.
(** a history that aborts with RecursionError, then fills both the tables and the caches *)
Example C18_nonvacuous :
  let s1 := fst (find_coeffs_orders 3 NoFlag 0 20 import_state) in
  let s2 := fst (find_coeffs_orders_dr 100 (Kw true) 1 15 s1) in
  reachable s2 /\ snd (find_coeffs_orders 3 NoFlag 0 20 import_state) = Raise RecursionError /\
  length (lru s2) = 25%nat /\ length (pre_dr s2 true) = 29%nat.
Proof. split; [|split; [|split]]; try (vm_compute; reflexivity).
  apply reach_find_dr; [apply reach_find; [apply reach_import|]|]; (split; [lia|split; [lia|]]); [exists 10%Z|exists 7%Z]; lia. Qed.

(** ** C19 *)
Theorem C19_coefficients : forall s fuel fl m n, reachable s -> valid m n -> (n < Z.of_nat fuel)%Z ->
  exists d, snd (find_coeffs_orders fuel fl m n s) = Ok d /\
    map fst d = zrange 0 (Z.to_nat (n + 1)) /\
    (forall p c, In (p, c) d -> radial_coefficient m n p c) /\
    (forall p c, In (p, c) d -> c <> 0%Z -> (Z.abs m <= p <= n)%Z /\ exists k, (n - p = 2 * k)%Z) /\
    fold_right Z.add 0%Z (map snd d) = 1%Z /\
    (forall r, dict_value d r = R_nm m n r).
Proof. exact C19_lemma. Qed.
Print Assumptions C19_coefficients.

Theorem C19_derivative_coefficients : forall s fuel fl m n, reachable s -> valid m n -> (n < Z.of_nat fuel)%Z ->
  dr_supported (flag_value fl) m n ->
  exists d, snd (find_coeffs_orders_dr fuel fl m n s) = Ok d /\
    map fst d = zrange 0 (Z.to_nat n) /\
    (forall p c, In (p, c) d -> exists c', radial_coefficient m n (p + 1) c' /\ c = ((p + 1) * c')%Z) /\
    (forall r, derivable_pt_lim (R_nm m n) r (dict_value d r)).
Proof. exact C19_dr_lemma. Qed.
Print Assumptions C19_derivative_coefficients.

(** outside [dr_supported] the derivative coefficients are refused with ValueError *)
Theorem C19_derivative_unsupported : forall s fuel fl m n, reachable s -> valid m n -> (n < Z.of_nat fuel)%Z ->
  ~ dr_supported (flag_value fl) m n -> snd (find_coeffs_orders_dr fuel fl m n s) = Raise ValueError.
Proof. exact find_dr_unsupported. Qed.
Print Assumptions C19_derivative_unsupported.
Example C19_nonvacuous : valid 4 14 /\ dr_supported false 4 14 /\ valid 2 6 /\ ~ dr_supported true 2 6.
Proof. unfold dr_supported. repeat split; try (simpl; lia); [exists 5%Z|exists 2%Z]; simpl; lia. Qed.
