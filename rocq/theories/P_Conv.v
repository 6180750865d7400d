(** C51: how sensitive the values are to the coordinates. C52: the PSF is the diffraction integral up to an explicit error. *)
From Coq Require Import Reals Lra Lia Psatz List.
From Coquelicot Require Import Coquelicot.
From Verif Require Import Py SpecIndex SpecRadial M_Radial M_Coeffs SpecCoeffs RadialMath L_RadialD L_Trig L_Value M_Sum SpecSum M_Polar L_Polar M_Psf SpecPsf SpecGeo L_Fit L_Psf L_PsfKernel L_PsfNodes L_Sum P_Psf SpecDiff L_Slope L_Ortho L_Conv L_Conv2.
Import ListNotations.
Local Open Scope R_scope.

(** ** C51 *)
(** radial_dr never exceeds (n(n+2) - m^2)/2 on the disk, and reaches it at the border *)
Theorem C51_derivative_bound : forall s fuel m n (use_exact_eq : bool) r, reachable s -> valid m n -> (n + 1 < Z.of_nat fuel)%Z ->
  (if use_exact_eq then (n <= 38)%Z else (n - Z.abs m <= 38)%Z) -> 0 <= r <= 1 ->
  exists d, snd (zp_radial_dr fuel m n use_exact_eq r s) = Ok d /\ Rabs d <= slope m n /\ (r = 1 -> d = slope m n).
Proof.
  intros s fuel m n e r RS V HF HE Hr. destruct (zp_radial_dr_ok s fuel m n e r RS V HF HE) as (d & X & D). exists d. split; [exact X|].
  pose proof (uniqueness_limite _ _ _ _ D (R_nm_dF m n r V)) as ->. split; [apply dF_mn_bound; [exact V|lra]|]. intros ->. apply dF_mn_1, V.
Qed.
Print Assumptions C51_derivative_bound.
(** two calls of radial / polynomial_value differ at most by the slope times the distance of the coordinates *)
Theorem C51_radial_sensitivity : forall s s' fuel m n (e e' : bool) r r', reachable s -> reachable s' -> valid m n -> (n + 1 < Z.of_nat fuel)%Z ->
  (e = true -> n <= 40)%Z -> (e' = true -> n <= 40)%Z -> 0 <= r <= 1 -> 0 <= r' <= 1 ->
  exists v v', snd (zp_radial fuel m n e r s) = Ok v /\ snd (zp_radial fuel m n e' r' s') = Ok v' /\ Rabs (v - v') <= slope m n * Rabs (r - r').
Proof.
  intros s s' fuel m n e e' r r' RS RS' V HF HE HE' Hr Hr'. exists (R_nm m n r), (R_nm m n r'). split; [apply zp_radial_ok; assumption|]. split; [apply zp_radial_ok; assumption|].
  apply R_lipschitz; assumption.
Qed.
Print Assumptions C51_radial_sensitivity.
Theorem C51_value_sensitivity : forall s s' fuel m n (e e' : bool) r r' th th', reachable s -> reachable s' -> valid m n -> (n + 1 < Z.of_nat fuel)%Z ->
  (e = true -> n <= 40)%Z -> (e' = true -> n <= 40)%Z -> 0 <= r <= 1 -> 0 <= r' <= 1 ->
  exists v v', snd (zp_polynomial_value fuel m n e r th s) = Ok v /\ snd (zp_polynomial_value fuel m n e' r' th' s') = Ok v' /\
    Rabs (v - v') <= norm_nm m n * (slope m n * Rabs (r - r') + IZR (Z.abs m) * Rabs (th - th')).
Proof.
  intros s s' fuel m n e e' r r' th th' RS RS' V HF HE HE' Hr Hr'. exists (Z_nm m n r th), (Z_nm m n r' th').
  split; [apply zp_value_ok; assumption|]. split; [apply zp_value_ok; assumption|]. apply Z_lip; assumption.
Qed.
Print Assumptions C51_value_sensitivity.
Example C51_nonvacuous : valid 2 46 /\ slope 2 46 = 1102 /\ (46 + 1 < Z.of_nat 1000)%Z.
Proof. split; [split; [lia|split; [lia|exists 22%Z; lia]]|]. split; [unfold slope; cbn; lra|lia]. Qed.

(** ** C52 *)
Lemma okp_valid fuel ps : Forall (okp fuel) ps -> all_valid ps.
Proof. intros H. eapply Forall_impl; [|exact H]. intros p [V _]. exact V. Qed.
Lemma zsum_one alpha p x phi : alpha * Zv p x phi = zsum [alpha] [p] x phi.
Proof. destruct p as [m n]. cbn. unfold Zv. cbn [fst snd]. ring. Qed.
Lemma psf_zsum_converges ps amps r theta rnd n_r n_phi : all_valid ps -> placement rnd n_r -> (3 <= n_phi)%Z ->
  Rabs (psf_rnd rnd n_r n_phi (fun x phi => zsum amps ps x phi) r theta - diffraction_integral (fun x phi => zsum amps ps x phi) r theta)
    <= accuracy n_r n_phi (steep_r amps ps) (steep_t amps ps) r.
Proof.
  intros V PL N. apply psf_converges; [intros; apply zsum_cts, V|intros; apply zsum_r, V|intros; apply zsum_t; assumption|exact PL|exact N].
Qed.
(** single polynomial, each of the three ways of calculation, exact or binary64 placement of the radial nodes *)
Theorem C52_point : forall rnd mt fuel p alpha n_r n_phi r theta s, reachable s -> okp fuel p -> placement rnd n_r -> (3 <= n_phi)%Z ->
  exists v, snd (point_by mt rnd (phase_pol fuel p alpha) n_r n_phi r theta s) = Ok v /\
    Rabs (v - diffraction_integral (fun x phi => zsum [alpha] [p] x phi) r theta) <= accuracy n_r n_phi (steep_r [alpha] [p]) (steep_t [alpha] [p]) r.
Proof.
  intros rnd mt fuel p alpha n_r n_phi r theta s Hs OK PL N. pose proof (placement_good _ _ PL) as (N0 & D & NE).
  exists (psf_rnd rnd n_r n_phi (fun x phi => zsum [alpha] [p] x phi) r theta). split.
  - apply isok_run; [|exact Hs]. eapply isok_ext; [|apply by_isok; [apply (phase_pol_computes fuel p alpha OK)|exact N0|exact D|exact NE|lia]].
    unfold psf_rnd. apply psf_on_ext; [intros; apply zsum_one|reflexivity].
  - apply psf_zsum_converges; [constructor; [apply OK|constructor]|exact PL|exact N].
Qed.
Print Assumptions C52_point.
Theorem C52_point_list : forall rnd fuel ps amps n_r n_phi r theta s, reachable s -> ps <> [] -> length amps = length ps -> Forall (okp fuel) ps ->
  placement rnd n_r -> (3 <= n_phi)%Z ->
  exists v, snd (psf_point_vec rnd (phase_pols fuel ps amps) n_r n_phi r theta true NoJobs s) = Ok v /\
    Rabs (v - diffraction_integral (fun x phi => zsum amps ps x phi) r theta) <= accuracy n_r n_phi (steep_r amps ps) (steep_t amps ps) r.
Proof.
  intros rnd fuel ps amps n_r n_phi r theta s Hs NP L OK PL N. pose proof (placement_good _ _ PL) as (N0 & D & NE).
  exists (psf_rnd rnd n_r n_phi (fun x phi => zsum amps ps x phi) r theta). split.
  - apply isok_run; [|exact Hs]. apply vec_isok; [apply phase_pols_computes; assumption|exact N0|exact D|exact NE|lia|intros [_ H]; discriminate].
  - apply psf_zsum_converges; [apply (okp_valid fuel), OK|exact PL|exact N].
Qed.
Print Assumptions C52_point_list.
(** every pixel of a kernel (not normalised) *)
Theorem C52_kernel : forall rnd fuel ps amps px wavelength NA n_r n_phi kernel_size s, reachable s -> ps <> [] ->
  length amps = length ps -> Forall (okp fuel) ps -> wavelength <> 0 -> NA <> 0 -> placement rnd n_r -> (3 <= n_phi)%Z -> (1 <= kernel_size)%Z ->
  exists K, snd (get_psf_kernel_zerns rnd fuel ps amps px wavelength NA kernel_size n_r n_phi false s) = Ok K /\
    let size := made_odd kernel_size in square K size /\
    forall i j rho t, (0 <= i < size)%Z -> (0 <= j < size)%Z -> polar (IZR (size / 2 - j)) (IZR (size / 2 - i)) rho t ->
      let r := 2 * PI / wavelength * NA * px * rho in
      exists v, entry K i j = Some (Fin v) /\
        Rabs (v - diffraction_integral (fun x phi => zsum amps ps x phi) r t) <= accuracy n_r n_phi (steep_r amps ps) (steep_t amps ps) r.
Proof.
  intros rnd fuel ps amps px wavelength NA n_r n_phi kernel_size s Hs NP L OK W A PL N S.
  assert (Q := odd_size_ge kernel_size). rewrite made_odd_eq in Q.
  eexists. split; [apply isok_run; [|exact Hs]; apply zerns_isok; try assumption; try lia; apply placement_good, PL|]. rewrite made_odd_eq.
  set (size := made_odd kernel_size) in *. set (v := value_at rnd n_r n_phi wavelength NA px (fun x phi => zsum amps ps x phi) size).
  assert (H : holds_raw (finish false (table v size)) size v) by (apply (finish_holds false); lia). destruct H as (SQ & H).
  split; [exact SQ|]. intros i j rho t Hi Hj PO. exists (v i j). split; [apply H; assumption|]. unfold v. rewrite (value_polar _ _ _ _ _ _ _ _ _ _ _ _ PO).
  apply psf_zsum_converges; [apply (okp_valid fuel), OK|exact PL|exact N].
Qed.
Print Assumptions C52_kernel.
(** with more and more points (exact node placement) the calculated value tends to the integral *)
Theorem C52_limit : forall mt fuel p alpha r theta e, okp fuel p -> 0 < e ->
  exists N, forall n_r n_phi s, (N <= n_r)%Z -> (N <= n_phi)%Z -> reachable s ->
    exists v, snd (point_by mt (fun x => x) (phase_pol fuel p alpha) n_r n_phi r theta s) = Ok v /\
      Rabs (v - diffraction_integral (fun x phi => zsum [alpha] [p] x phi) r theta) < e.
Proof.
  intros mt fuel p alpha r theta e OK He. set (C := 20 * (2 + steep_r [alpha] [p] + Rabs r) + 110 * (1 + steep_t [alpha] [p] + Rabs r)).
  pose proof (Rabs_pos r) as R0.
  assert (V1 : all_valid [p]) by (constructor; [apply OK|constructor]).
  assert (LR : 0 <= steep_r [alpha] [p]) by (apply (lip_nonneg (fun x => zsum [alpha] [p] x 0) 0 1); [lra|apply zsum_r, V1]).
  assert (LT : 0 <= steep_t [alpha] [p]).
  { pose proof (zsum_t [p] V1 [alpha] 0 1 0 ltac:(lra)) as X. rewrite Rminus_0_r, Rabs_R1 in X.
    pose proof (Rabs_pos (zsum [alpha] [p] 0 1 - zsum [alpha] [p] 0 0)). lra. }
  assert (C0 : 0 < C) by (unfold C; lra).
  exists (Z.max 3 (up (C / e)))%Z. intros n_r n_phi s N1 N2 Hs.
  assert (PL : placement (fun x => x) n_r) by (left; split; [reflexivity|lia]).
  destruct (C52_point (fun x => x) mt fuel p alpha n_r n_phi r theta s Hs OK PL ltac:(lia)) as (v & X & Y). exists v. split; [exact X|].
  eapply Rle_lt_trans; [exact Y|]. pose proof (archimed (C / e)) as [U _].
  assert (B : forall n, (Z.max 3 (up (C / e)) <= n)%Z -> 0 < / IZR n /\ C * / IZR n < e).
  { intros n Hn. assert (P : C / e < IZR n) by (eapply Rlt_le_trans; [exact U|apply IZR_le; lia]). assert (P0 : 0 < IZR n) by (apply IZR_lt; lia).
    split; [apply Rinv_0_lt_compat, P0|]. apply (Rmult_lt_reg_r (IZR n)); [exact P0|]. rewrite Rmult_assoc, Rinv_l, Rmult_1_r by lra.
    apply (Rmult_lt_compat_r e) in P; [|exact He]. unfold Rdiv in P. rewrite Rmult_assoc, Rinv_l in P by lra. lra. }
  destruct (B n_r N1) as (B1 & B2). destruct (B n_phi N2) as (B3 & B4). unfold accuracy, Rdiv.
  set (u := / IZR n_r) in *. set (w := / IZR n_phi) in *. set (A1 := 20 * (2 + steep_r [alpha] [p] + Rabs r)) in *. set (A2 := 110 * (1 + steep_t [alpha] [p] + Rabs r)) in *.
  assert (P1 : 0 < A1) by (unfold A1; lra). assert (P2 : 0 < A2) by (unfold A2; lra). change C with (A1 + A2) in *.
  destruct (Rle_dec u w) as [UW|UW].
  - assert (A1 * u <= A1 * w) by nra. lra.
  - assert (A2 * w <= A2 * u) by nra. lra.
Qed.
Print Assumptions C52_limit.
(** 100000 x 100000 points, defocus of amplitude 1/2, at r = 1: two digits are guaranteed. The order 1/n is the true one: at the focus the deviation is 4/n_phi - 4/n_phi^2 for even n_phi (C31). *)
Example C52_nonvacuous : okp 1000 (0, 2)%Z /\ placement b64 100000 /\ accuracy 100000 100000 (steep_r [1/2] [(0, 2)%Z]) (steep_t [1/2] [(0, 2)%Z]) 1 < / 100.
Proof.
  split; [split; [split; [cbn; lia|split; [cbn; lia|exists 1%Z; reflexivity]]|cbn; lia]|]. split; [right; split; [reflexivity|split; [lia|apply Z.le_trans with (2 ^ 17)%Z; [lia|apply (Z.pow_le_mono_r 2 17 50); lia]]]|].
  unfold accuracy, steep_r, steep_t, slope, norm_nm. cbn [Z.eqb Z.abs]. rewrite Rabs_R1, (Rabs_pos_eq (1 / 2)) by lra.
  replace (2 * (2 + 1) / (1 + 1)) with 3 by field. replace (IZR (2 * (2 + 2) - 0 * 0)) with 8 by reflexivity.
  assert (sqrt 3 < 2) by (rewrite <- (sqrt_square 2) by lra; apply sqrt_lt_1; lra). lra.
Qed.
