(** Property theorems C61: binary64 results of radial_dr() and triangular_dtheta(). *)
From Coq Require Import Reals Lra Lia.
From Flocq Require Import Core.
From Verif Require Import Py SpecIndex SpecRadial RadialMath M_Radial M_Coeffs SpecCoeffs L_Cache L_Radial L_Trig L_Value L_Polar
  L_Slope SpecFloat M_Float L_Float L_Float2 L_Float3 L_Float4 L_FloatC SpecFloatDr M_FloatDr L_FloatDr L_FloatDr2.
Local Open Scope R_scope.

(** without rounding and with exact functions, the floating-point programs are the ones of C13 and C16 *)
Theorem C61_unrounded : forall s fuel m n (use_exact_eq : bool) r th,
  fzp_radial_dr (fun x => x) powerRZ fuel m n use_exact_eq r s = zp_radial_dr fuel m n use_exact_eq r s /\
  ftriangular_derivative (fun x => x) cos sin m th = triangular_derivative m th.
Proof. intros s fuel m n e r th. split; [apply fzp_radial_dr_exact|]. unfold ftriangular_derivative, triangular_derivative. cbv zeta. destruct (0 <=? m)%Z; reflexivity. Qed.
Print Assumptions C61_unrounded.

(** radial_dr: for the orders for which the algorithm is right (C13), the number returned is within n * 2.42^n * 2^-50 of the derivative *)
Theorem C61_radial_dr_error : forall s pw fuel m n (use_exact_eq : bool) r, reachable s -> power_within_ulp pw ->
  float64 r -> 0 <= r <= 1 -> valid m n -> (n + 1 < Z.of_nat fuel)%Z -> (if use_exact_eq then (n <= 38)%Z else (n - Z.abs m <= 38)%Z) ->
  exists v d, snd (fzp_radial_dr near64 pw fuel m n use_exact_eq r s) = Ok v /\ derivable_pt_lim (R_nm m n) r d /\
    Rabs (v - d) <= derivative_error n /\
    ((n <= 10)%Z -> Rabs (v - d) <= 1 / 10 ^ 10) /\
    ((n <= 20)%Z -> Rabs (v - d) <= 2 / 10 ^ 6) /\
    ((n <= 30)%Z -> Rabs (v - d) <= 1 / 10 ^ 2).
Proof.
  intros s pw fuel m n e r RS P Fr Hr V HF HE. destruct (fzp_radial_dr_near s pw fuel m n e r RS P Fr Hr V HF HE) as (v & Ev & N).
  unfold near_d in N. pose proof V as (Hn & _). destruct (D_num n Hn) as (E1 & E2 & E3).
  exists v, (Dmn m n r). split; [exact Ev|]. split; [apply R_nm_dF, V|]. split; [exact N|]. repeat split; intros L; eapply Rle_trans; try exact N; auto.
Qed.
Print Assumptions C61_radial_dr_error.

(** triangular_dtheta: the error is that of the argument m * theta, times |m| *)
Theorem C61_triangular_dtheta_error : forall fcos fsin m th, trig_within_ulp fcos fsin -> (Z.abs m <= 2 ^ 53)%Z ->
  exists d, derivable_pt_lim (T_m m) th d /\
    Rabs (ftriangular_derivative near64 fcos fsin m th - d) <= Rabs (IZR m) * (Rabs (IZR m * th) * / 2 ^ 52 + / 2 ^ 50).
Proof.
  intros fcos fsin m th T HM. exists (triangular_derivative m th). split; [apply triangular_derivative_ok|]. change near64 with b64.
  pose proof u_pos as U. pose proof u_small as US0. unfold ftriangular_derivative, triangular_derivative. cbv zeta. rewrite (b64_IZR m) by lia. set (x := IZR m * th). pose proof (b64_rel x) as B.
  replace (/ 2 ^ 52) with (2 * u) by (unfold u; replace (2 ^ 53) with (2 * 2 ^ 52) by ring; rewrite Rinv_mult; field).
  replace (/ 2 ^ 50) with (8 * u) by (unfold u; replace (2 ^ 53) with (8 * 2 ^ 50) by ring; rewrite Rinv_mult; field).
  destruct (T (b64 x) (b64_F x)) as [C S].
  assert (C1 : Rabs (cos (b64 x)) <= 1) by (apply Rabs_le, COS_bound). assert (S1 : Rabs (sin (b64 x)) <= 1) by (apply Rabs_le, SIN_bound).
  pose proof (ulp1 _ C1) as UC. pose proof (ulp1 _ S1) as US. pose proof (Rabs_pos x) as X0. pose proof (Rabs_pos (IZR m)) as M0.
  assert (Z0 : m = 0%Z \/ 1 <= Rabs (IZR m)). { destruct (Z.eq_dec m 0) as [E|NE]; [left; exact E|right]. rewrite <- abs_IZR. apply IZR_le. lia. }
  assert (GEN : forall f f', Rabs f <= 1 -> Rabs (f' - f) <= u * Rabs x + 3 * u -> Rabs (b64 (- IZR m * f') - - IZR m * f) <= Rabs (IZR m) * (Rabs x * (2 * u) + 8 * u)).
  { intros f f' HF HE. destruct Z0 as [-> | M1].
    { rewrite Ropp_0, !Rmult_0_l, b64_0, Rminus_diag_eq, Rabs_R0 by reflexivity. lra. }
    set (M := Rabs (IZR m)) in *. assert (MF : Rabs (- IZR m * f) <= M). { rewrite Rabs_mult, Rabs_Ropp. fold M. rewrite <- (Rmult_1_r M) at 2. apply Rmult_le_compat_l; lra. }
    assert (D : Rabs (- IZR m * f' - - IZR m * f) <= M * (u * Rabs x + 3 * u)).
    { replace (- IZR m * f' - - IZR m * f) with (- IZR m * (f' - f)) by ring. rewrite Rabs_mult, Rabs_Ropp. fold M. apply Rmult_le_compat_l; lra. }
    pose proof (b64_step _ _ _ _ MF D) as ST. eapply Rle_trans; [exact ST|].
    destruct (small_mul M ltac:(lra)) as (A1 & _ & _ & A2). assert (MX : 0 <= M * Rabs x) by (apply Rmult_le_pos; lra). destruct (small_mul _ MX) as (A3 & _ & _ & A4).
    assert (UM : 1 * u <= M * u) by (apply Rmult_le_compat_r; lra). lra. }
  destruct (0 <=? m)%Z; apply GEN; try (apply Rabs_le; apply SIN_bound || apply COS_bound).
  - pose proof (sin_lip (b64 x) x) as L. replace (fsin (b64 x) - sin x) with ((fsin (b64 x) - sin (b64 x)) + (sin (b64 x) - sin x)) by ring.
    eapply Rle_trans; [apply Rabs_triang|]. lra.
  - pose proof (cos_lip (b64 x) x) as L. replace (fcos (b64 x) - cos x) with ((fcos (b64 x) - cos (b64 x)) + (cos (b64 x) - cos x)) by ring.
    eapply Rle_trans; [apply Rabs_triang|]. lra.
Qed.
Print Assumptions C61_triangular_dtheta_error.

(** the hypotheses are met: correctly rounded functions, r = 1/3 rounded, orders (-5, 25) and (-20, 54) *)
Example C61_nonvacuous : power_within_ulp cpow /\ trig_within_ulp (fun x => near64 (cos x)) (fun x => near64 (sin x)) /\
  float64 (near64 (1 / 3)) /\ 0 <= near64 (1 / 3) <= 1 /\ valid (-5) 25 /\ valid (-20) 54 /\ (54 - Z.abs (-20) <= 38)%Z /\ reachable import_state /\ (54 + 1 < Z.of_nat 1000)%Z.
Proof.
  split; [apply cpow_ok|]. split.
  { intros x _. split; unfold near64, ulp64; (eapply Rle_trans; [apply error_le_half_ulp; apply FLT_exp_valid; reflexivity|]);
    [pose proof (ulp_ge_0 radix2 exp64 (cos x))|pose proof (ulp_ge_0 radix2 exp64 (sin x))]; lra. }
  split; [apply b64_F|]. split.
  { change near64 with b64. pose proof (b64_rel (1 / 3)) as B. rewrite (Rabs_pos_eq (1 / 3)) in B by lra. apply Rabs_le_inv in B.
    pose proof u_pos. pose proof u_small. lra. }
  split; [split; [lia|split; [lia|exists 10%Z; reflexivity]]|]. split; [split; [lia|split; [lia|exists 17%Z; reflexivity]]|]. split; [lia|]. split; [constructor|lia].
Qed.
