(** Property theorems C78: peak-to-valley values. [rnd]: exact arithmetic or binary64 for coordinates and coefficients; the values
    of the surfaces are exact (their rounding error: C57). *)
From Coq Require Import Reals Lra Lia.
From Flocq Require Import Core.
From Verif Require Import Py SpecIndex SpecRadial M_Index M_Radial M_Coeffs SpecCoeffs L_Trig M_Init SpecInit L_Init M_Sum SpecSum L_Sum SpecDiff L_Slope
  M_Crop M_Fit L_Fit M_Polar L_Polar L_Float L_Plot M_Plot SpecPlot L_Plot2 M_Perf P_Plot SpecPv M_Pv L_Pv L_Pv2.
Local Open Scope R_scope.

Lemma steep_t_pos fuel cs ps : Forall (okp fuel) ps -> 0 <= steep_t cs ps.
Proof.
  intros F. revert cs. induction F as [|[m n] ps (V & _) F IH]; intros [|c cs]; cbn [steep_t]; try lra. pose proof (IH cs). cbn [fst snd] in V.
  destruct V as (Hn & _). pose proof (norm_pos m n Hn). assert (0 <= IZR (Z.abs m)) by (apply IZR_le, Z.abs_nonneg).
  assert (0 <= Rabs c * norm_nm m n * IZR (Z.abs m)) by (apply Rmult_le_pos; [apply Rmult_le_pos; [apply Rabs_pos|lra]|lra]). lra.
Qed.

(** every sum of polynomials has one peak-to-valley value, at most 2 sum_k |c_k| N_k *)
Theorem C78_exists : forall cs ps, Forall (fun p => valid (fst p) (snd p)) ps ->
  exists D, peak_to_valley cs ps D /\ 0 <= D /\ (forall D', peak_to_valley cs ps D' -> D' = D).
Proof.
  intros cs ps V. destruct (ptv_exists cs ps) as (D & PD & B).
  { eapply Forall_impl; [|exact V]; intros (m & n) H; exact H. }
  exists D. split; [exact PD|]. split; [lra|]. intros D' PD'. apply (ptv_unique cs ps); assumption.
Qed.
Print Assumptions C78_exists.

(** the difference between the largest and the smallest element of a surface of gen_zernikes_surface is the peak-to-valley value,
    up to what the steps of the coordinates can hide *)
Theorem C78_surface : forall rnd fuel cs ps r_step theta_step n_points s D, reachable s -> cs <> [] -> length cs = length ps -> Forall (okp fuel) ps ->
  good_steps rnd r_step theta_step -> peak_to_valley cs ps D ->
  exists z hi lo, snd (gen_zernikes_surface rnd fuel cs (map Some ps) r_step theta_step false n_points s) = Ok z /\
    np_max (elements_of (zs_S z)) = Ok (Fin hi) /\ np_min (elements_of (zs_S z)) = Ok (Fin lo) /\
    hi - lo <= D <= hi - lo + 2 * (steep_r cs ps * (r_step + 1 / 10 ^ 14) + steep_t cs ps * (theta_step + 2 / 10 ^ 14)).
Proof.
  intros rnd fuel cs ps a b N s D RS NE L OK G PD. destruct (polar_mesh_ok rnd a b G) as (rs & ts & E & MK).
  destruct (sum_zernikes_surface fuel cs ps rs ts NE L OK (mk_disk _ _ _ _ MK) s RS) as (_ & v & Ev & f & -> & F).
  destruct (pv_mesh fuel cs ps rs ts _ _ f D OK MK F PD) as (hi & lo & E1 & E2 & _ & _ & _ & B1 & B2).
  exists (ZSurf (SMat (length rs) (length ts) f) rs ts), hi, lo. split; [|split; [exact E1|split; [exact E2|split; [exact B1|]]]].
  - unfold gen_zernikes_surface. cbn [negb]. rewrite E. unfold mbind at 1. cbn [mlift fst snd]. unfold mbind.
    destruct (sum_zernikes _ _ _ _ _ _ s) as [s' r]. cbn [snd] in Ev. subst r. reflexivity.
  - eapply Rle_trans; [exact B2|]. apply Rplus_le_compat_l. apply Rmult_le_compat_l; [lra|]. unfold steps_err. apply Rplus_le_compat_l.
    apply Rmult_le_compat_l; [apply (steep_t_pos fuel), OK|].
    assert (P53 : 2 ^ 53 = 9007199254740992) by (rewrite (pow_IZR 2 53); reflexivity).
    assert (UV : u * 9007199254740992 = 1) by (unfold u; rewrite P53; field).
    assert (Q14 : forall c, c / 10 ^ 14 = c / 100000000000000) by (intros c; f_equal; ring). rewrite !Q14. lra.
Qed.
Print Assumptions C78_surface.

(** ... and with the same number of radii and angles *)
Theorem C78_equal_surface : forall rnd fuel cs ps r_step theta_step n_points s D, rnd = idr \/ rnd = b64 -> reachable s -> cs <> [] -> length cs = length ps ->
  Forall (okp fuel) ps -> (n_points <= 2 ^ 26)%Z -> peak_to_valley cs ps D ->
  exists z hi lo, snd (gen_zernikes_surface rnd fuel cs (map Some ps) r_step theta_step true n_points s) = Ok z /\
    np_max (elements_of (zs_S z)) = Ok (Fin hi) /\ np_min (elements_of (zs_S z)) = Ok (Fin lo) /\
    hi - lo <= D <= hi - lo + 2 * ((steep_r cs ps + 7 * steep_t cs ps) * (1 + 1 / 1000000) / IZR (Z.max 4 n_points - 1) + steep_t cs ps / 10 ^ 14).
Proof.
  intros rnd fuel cs ps a b N s D HR RS NE L OK HN PD. pose proof (equal_mesh_ok rnd N HR HN) as H. cbv zeta in H.
  destruct (gen_equal_polar_mesh rnd N) as (rs & ts) eqn:E. destruct H as (_ & _ & MK).
  destruct (sum_zernikes_surface fuel cs ps rs ts NE L OK (mk_disk _ _ _ _ MK) s RS) as (_ & v & Ev & f & -> & F).
  destruct (pv_mesh fuel cs ps rs ts _ _ f D OK MK F PD) as (hi & lo & E1 & E2 & _ & _ & _ & B1 & B2).
  exists (ZSurf (SMat (length rs) (length ts) f) rs ts), hi, lo. split; [|split; [exact E1|split; [exact E2|split; [exact B1|]]]].
  - unfold gen_zernikes_surface. cbn [negb]. rewrite E. unfold mbind at 1. cbn [mret fst snd]. unfold mbind.
    destruct (sum_zernikes _ _ _ _ _ _ s) as [s' r]. cbn [snd] in Ev. subst r. reflexivity.
  - eapply Rle_trans; [exact B2|]. apply Rplus_le_compat_l. apply Rmult_le_compat_l; [lra|]. unfold steps_err.
    pose proof (steep_t_pos fuel cs ps OK) as T0. set (h := IZR (Z.max 4 N - 1)) in *. assert (H0 : 0 < h) by (apply IZR_lt; lia).
    assert (P53 : 2 ^ 53 = 9007199254740992) by (rewrite (pow_IZR 2 53); reflexivity).
    assert (UV : u * 9007199254740992 = 1) by (unfold u; rewrite P53; field).
    assert (Q14 : forall c, c / 10 ^ 14 = c / 100000000000000) by (intros c; f_equal; ring). rewrite !Q14.
    replace ((steep_r cs ps + 7 * steep_t cs ps) * (1 + 1 / 1000000) / h) with (steep_r cs ps * ((1 + 1 / 1000000) * (1 / h)) + steep_t cs ps * ((1 + 1 / 1000000) * (7 / h))) by (field; lra).
    assert (X : steep_t cs ps * (8 * u) <= steep_t cs ps / 100000000000000). { unfold Rdiv at 1. apply Rmult_le_compat_l; lra. }
    rewrite Rmult_plus_distr_l. lra.
Qed.
Print Assumptions C78_equal_surface.

(** the value of one polynomial: 2 N |c| if it turns with the angle or if n = 2, 6, 10, ...; 0 for the piston; between N |c| and
    2 N |c| for m = 0 and n = 4, 8, 12, ... *)
Theorem C78_single : forall c m n D, valid m n -> peak_to_valley [c] [(m, n)] D ->
  ((m <> 0 \/ n mod 4 = 2)%Z -> D = 2 * norm_nm m n * Rabs c) /\ (n = 0%Z -> D = 0) /\
  ((0 < n)%Z -> norm_nm m n * Rabs c <= D <= 2 * norm_nm m n * Rabs c).
Proof.
  intros c m n D V PD. split; [|split].
  - intros H. destruct (Z.eq_dec m 0) as [->|M].
    + apply (ptv_unique [c] [(0%Z, n)]); [exact PD|]. apply single_odd; [exact V|]. destruct H as [H|H]; [elim H; reflexivity|exact H].
    + apply (ptv_unique [c] [(m, n)]); [exact PD|]. apply single_turning; assumption.
  - intros ->. rewrite (piston m V) in *. apply Rle_antisym; [|apply (ptv_nonneg _ _ _ PD)]. destruct PD as (_ & LUB). apply LUB.
    intros y (x & t & x' & t' & _ & _ & ->). rewrite !zsum_single, !Z_piston. lra.
  - intros Hn. split; [|apply ptv_upper; assumption]. destruct (Z.eq_dec m 0) as [->|M]; [apply (ptv_bounds c n D V Hn PD)|].
    rewrite (ptv_unique _ _ _ _ PD (single_turning c m n V M)). pose proof (norm_pos m n ltac:(lia)). pose proof (Rabs_pos c).
    assert (0 <= norm_nm m n * Rabs c) by (apply Rmult_le_pos; lra). lra.
Qed.
Print Assumptions C78_single.

(** multiplying all coefficients multiplies the value; the value of a sum of sums is at most the sum of the values; the piston does not count *)
Theorem C78_scaling : forall a cs ps D, peak_to_valley cs ps D -> peak_to_valley (map (Rmult a) cs) ps (Rabs a * D).
Proof. exact ptv_scale. Qed.
Print Assumptions C78_scaling.
Theorem C78_triangle : forall cs ds ps D1 D2 D, length cs = length ds -> peak_to_valley cs ps D1 -> peak_to_valley ds ps D2 ->
  peak_to_valley (map (fun q => fst q + snd q) (combine cs ds)) ps D -> D <= D1 + D2.
Proof.
  intros cs ds ps D1 D2 D L (U1 & _) (U2 & _) (_ & LUB). apply LUB. intros y (x & t & x' & t' & Hx & Hx' & ->). rewrite !zsum_add by exact L.
  assert (A : zsum cs ps x t - zsum cs ps x' t' <= D1) by (apply U1; exists x, t, x', t'; tauto).
  assert (B : zsum ds ps x t - zsum ds ps x' t' <= D2) by (apply U2; exists x, t, x', t'; tauto). lra.
Qed.
Print Assumptions C78_triangle.
Theorem C78_piston : forall c cs ps D, peak_to_valley (c :: cs) ((0, 0)%Z :: ps) D <-> peak_to_valley cs ps D.
Proof.
  intros c cs ps D. assert (E : forall y, (exists x t x' t', 0 <= x <= 1 /\ 0 <= x' <= 1 /\ y = zsum (c :: cs) ((0, 0)%Z :: ps) x t - zsum (c :: cs) ((0, 0)%Z :: ps) x' t') <->
    (exists x t x' t', 0 <= x <= 1 /\ 0 <= x' <= 1 /\ y = zsum cs ps x t - zsum cs ps x' t')).
  { intros y. split; intros (x & t & x' & t' & Hx & Hx' & ->); exists x, t, x', t'; (split; [exact Hx|]); (split; [exact Hx'|]); rewrite !zsum_piston; lra. }
  unfold peak_to_valley, is_lub, is_upper_bound. split; intros (U & L); (split; [intros y Hy; apply U, E, Hy|intros b Hb; apply L; intros y Hy; apply Hb, E, Hy]).
Qed.
Print Assumptions C78_piston.

(** the script finds a coefficient for each of the polynomials with OSA indices 1 to 35: the first of the amplitudes 0.02, 0.04, ..., 3 at
    which the peak-to-valley value passes the goal, written with one decimal; at the previous amplitude it had not passed it by more
    than the mesh can hide *)
Theorem C78_found : forall rnd fuel s, rnd = idr \/ rnd = b64 -> reachable s -> (9 <= fuel)%nat ->
  exists found table, snd (define_pv_values rnd fuel s) = Ok (found, table) /\ length found = 35%nat /\
    forall i p c, nth_error found i = Some (p, c) -> zp_osa p = (Z.of_nat i + 1)%Z /\ valid (zp_m p) (zp_n p) /\
      get_osa_index (zp_m p) (zp_n p) = (Z.of_nat i + 1)%Z /\
      exists k, (1 <= k <= 150)%Z /\ let ampl := fun k => rnd (rnd (2 / 100) * IZR k) in c = rnd (np_round 1 (ampl k)) /\
        forall D, peak_to_valley [1] [(zp_m p, zp_n p)] D ->
          nth i pv_goals 0 + 1 / 20 <= ampl k * D /\
          (forall k', (1 <= k' < k)%Z -> ampl k' * (D - 2 * norm_nm (zp_m p) (zp_n p) * (slope (zp_m p) (zp_n p) * (102 / 10000) + IZR (Z.abs (zp_m p)) * (177 / 10000)))
             <= nth i pv_goals 0 + 1 / 20).
Proof.
  intros rnd fuel s HR RS HF. destruct (script_ok rnd fuel s HR RS HF) as (found & table & E & L & F & _). exists found, table.
  split; [exact E|]. split; [exact L|]. intros i p c Hi. destruct (F i p c Hi) as (EN & k & Hk & Ec & P & W).
  destruct (pv_pols_nth (S i) p EN) as (V & _ & O & OS). assert (Hi35 : (i < 35)%nat) by (rewrite <- L; apply nth_error_Some; rewrite Hi; discriminate).
  destruct (targets_T rnd i Hi35) as (_ & TT). split; [lia|]. split; [exact V|]. split; [lia|]. exists (k + 1)%Z. split; [lia|]. cbv zeta. split; [exact Ec|].
  intros D PD. rewrite TT. split; [apply P, PD|]. intros k' Hk'. pose proof (W (k' - 1)%Z ltac:(lia) D PD) as X. unfold pv_ampl in X.
  replace (k' - 1 + 1)%Z with k' in X by lia. unfold slack in X. rewrite <- Rmult_assoc in X. exact X.
Qed.
Print Assumptions C78_found.

(** the printed table has one line for each of the 36 polynomials up to the order 7, in the OSA order; the printed value is its
    peak-to-valley value, up to the mesh and the rounding to three decimals *)
Theorem C78_printed : forall rnd fuel s, rnd = idr \/ rnd = b64 -> reachable s -> (9 <= fuel)%nat ->
  exists found table, snd (define_pv_values rnd fuel s) = Ok (found, table) /\ length table = 36%nat /\
    forall i p v, nth_error table i = Some (p, v) -> zp_osa p = Z.of_nat i /\ valid (zp_m p) (zp_n p) /\ get_osa_index (zp_m p) (zp_n p) = Z.of_nat i /\
      exists x, v = Fin x /\ forall D, peak_to_valley [1] [(zp_m p, zp_n p)] D ->
        x - 6 / 10000 <= D <= x + 6 / 10000 + 2 * norm_nm (zp_m p) (zp_n p) * (slope (zp_m p) (zp_n p) * (102 / 10000) + IZR (Z.abs (zp_m p)) * (177 / 10000)).
Proof.
  intros rnd fuel s HR RS HF. destruct (script_ok rnd fuel s HR RS HF) as (found & table & E & L & _ & M & N). exists found, table.
  split; [exact E|]. assert (LT : length table = 36%nat) by (rewrite <- (map_length fst), M; destruct pv_pols_eq as (p0 & ps & -> & _ & LP); cbn [length]; lia). split; [exact LT|]. intros i p v Hi.
  assert (EN : nth_error pv_pols i = Some p) by (rewrite <- M; rewrite nth_error_map, Hi; reflexivity).
  destruct (pv_pols_nth i p EN) as (V & NB & O & OS). split; [exact OS|]. split; [exact V|]. split; [exact O|].
  destruct (N p v (nth_error_In _ _ Hi)) as (y & -> & B). exists (rnd (np_round 3 y)). split; [reflexivity|]. intros D PD. pose proof (B D PD) as B'.
  pose proof (np_round_err 3 y) as RE. replace (/ 2 * powerRZ 10 (- (3))) with (5 / 10000) in RE by (change (- (3))%Z with (-3)%Z; unfold powerRZ; change (Pos.to_nat 3) with 3%nat; field). apply Rabs_le_inv in RE.
  assert (DB : 0 <= D <= 200).
  { split; [apply (ptv_nonneg _ _ _ PD)|]. pose proof (ptv_upper 1 _ _ D V PD) as U. rewrite Rabs_R1 in U.
    assert (NN : norm_nm (zp_m p) (zp_n p) <= 16).
    { unfold norm_nm. rewrite <- (sqrt_square 16) by lra. apply sqrt_le_1_alt. assert (IZR (zp_n p) <= 7) by (apply IZR_le; lia). assert (0 <= IZR (zp_n p)) by (apply IZR_le; lia).
      destruct (zp_m p =? 0)%Z; lra. }
    lra. }
  assert (SL : slack (zp_m p) (zp_n p) <= 300).
  { unfold slack. assert (NN : norm_nm (zp_m p) (zp_n p) <= 16).
    { unfold norm_nm. rewrite <- (sqrt_square 16) by lra. apply sqrt_le_1_alt. assert (IZR (zp_n p) <= 7) by (apply IZR_le; lia). assert (0 <= IZR (zp_n p)) by (apply IZR_le; lia).
      destruct (zp_m p =? 0)%Z; lra. }
    assert (S1 : slope (zp_m p) (zp_n p) <= 50).
    { unfold slope. assert (IZR (zp_n p * (zp_n p + 2) - zp_m p * zp_m p) <= 100) by (apply IZR_le; nia). lra. }
    pose proof (slope_nonneg _ _ V) as S0. assert (A1 : 0 <= IZR (Z.abs (zp_m p)) <= 7) by (destruct V as (V1 & V2 & _); split; apply IZR_le; lia).
    pose proof (norm_pos (zp_m p) (zp_n p) ltac:(lia)) as N0. apply Rle_trans with (16 * 1); [|lra]. apply Rmult_le_compat; lra. }
  pose proof (rnd_close rnd HR (np_round 3 y)) as RC. assert (RB : Rabs (np_round 3 y) <= 1000).
  { apply Rabs_le. lra. }
  specialize (RC RB). apply Rabs_le_inv in RC. unfold slack in B'. rewrite <- Rmult_assoc in B'. split; lra.
Qed.
Print Assumptions C78_printed.

Example C78_nonvacuous : peak_to_valley [3] [(-2, 2)%Z] (6 * sqrt 6) /\ peak_to_valley [1] [(0, 6)%Z] (2 * sqrt 7) /\ (exists D, peak_to_valley [1; 2] [(0, 4); (1, 3)]%Z D) /\
  good_steps b64 (1 / 8) (1 / 4) /\ reachable import_state.
Proof.
  assert (VA : valid (-2) 2) by (split; [lia|split; [lia|exists 0%Z; reflexivity]]). assert (VB : valid 0 6) by (split; [lia|split; [lia|exists 3%Z; reflexivity]]).
  split.
  { pose proof (single_turning 3 (-2) 2 VA ltac:(lia)) as P. rewrite Rabs_pos_eq in P by lra. replace (6 * sqrt 6) with (2 * norm_nm (-2) 2 * 3); [exact P|].
    unfold norm_nm. cbn [Z.eqb]. replace (2 * (2 + 1) / (1 + 0)) with 6 by field. ring. }
  split.
  { pose proof (single_odd 1 6 VB eq_refl) as P. rewrite Rabs_R1 in P. replace (2 * sqrt 7) with (2 * norm_nm 0 6 * 1); [exact P|].
    unfold norm_nm. cbn [Z.eqb]. replace (2 * (6 + 1) / (1 + 1)) with 7 by field. ring. }
  split.
  { destruct (C78_exists [1; 2] [(0, 4); (1, 3)]%Z) as (D & P & _); [|exists D; exact P].
    constructor; [split; [cbn; lia|split; [cbn; lia|exists 2%Z; reflexivity]]|constructor; [split; [cbn; lia|split; [cbn; lia|exists 1%Z; reflexivity]]|constructor]]. }
  split; [apply C58_nonvacuous|constructor].
Qed.
