(** Property theorems C68: normalised kernels (the default), and how fast the PSF changes from pixel to pixel. *)
From Coq Require Import Reals Lra Lia List Psatz.
From Coquelicot Require Import Coquelicot.
From Verif Require Import Py SpecIndex SpecRadial M_Radial M_Coeffs SpecCoeffs M_Sum SpecSum L_Sum M_Polar L_Polar M_Geo SpecGeo L_Geo M_Psf SpecPsf L_Psf L_PsfKernel SpecDiff L_Conv2 P_Psf P_Conv
  SpecFloat M_Float L_Float SpecFloatPsf M_FloatPsf L_FPsf5 P_FPsf SpecDisk L_Disk L_Strehl L_Strehl2 P_Strehl SpecSym L_Sym L_Sym2 P_Tilt P_Sym.
Import ListNotations.
Local Open Scope R_scope.

(** ** from pixel to pixel *)
Theorem C68_integral_slope : forall fuel cs ps x y rho t x' y' rho' t', Forall (okp fuel) ps -> polar x y rho t -> polar x' y' rho' t' ->
  Rabs (diffraction_integral (zsum cs ps) rho t - diffraction_integral (zsum cs ps) rho' t') <= sqrt ((x - x') ^ 2 + (y - y') ^ 2).
Proof.
  intros fuel cs ps x y rho t x' y' rho' t' OK P P'. assert (V := valid_of fuel ps OK). set (a := (x - x') / 2). set (b := (y - y') / 2).
  assert (OT : Forall (okp 1000) [(1, 1); (-1, 1)]%Z) by (repeat constructor; cbn; try lia; exists 0%Z; reflexivity). assert (VT := valid_of 1000 _ OT).
  assert (ND : NoDup [(1, 1); (-1, 1)]%Z) by (constructor; [intros [H|[]]; discriminate|constructor; [intros []|constructor]]).
  assert (E : diffraction_integral (zsum (a :: b :: cs) ((1, 1) :: (-1, 1) :: ps)%Z) rho t = diffraction_integral (zsum cs ps) rho' t').
  { apply (C66_integral cs ps a b x y); [exact P|]. replace (x - 2 * a) with x' by (unfold a; field). replace (y - 2 * b) with y' by (unfold b; field). exact P'. }
  rewrite <- E, Rabs_minus_sym. eapply Rle_trans.
  - apply diff_stable; apply zsum_nice; [|exact V]. constructor; [apply (Forall_inv VT)|]. constructor; [apply (Forall_inv (Forall_inv_tail VT))|exact V].
  - replace (disk_mean _) with (squares [a; b]).
    + right. cbn [squares fold_right]. replace ((x - x') ^ 2 + (y - y') ^ 2) with (2 * 2 * (a * a + (b * b + 0))) by (unfold a, b; field).
      rewrite sqrt_mult_alt by lra. rewrite sqrt_square by lra. reflexivity.
    + rewrite <- (mean_square _ VT ND [a; b] eq_refl). apply mean_ext. intros p phi _. cbn [zsum]. ring.
Qed.
Print Assumptions C68_integral_slope.
(** any two pixels: the values differ by their distance (in units of the image plane) at most, up to the errors of the calculation *)
Theorem C68_neighbours : forall pw fcos fsin npsum fhyp fsq fatan2 fuel ps amps px wavelength NA n_r n_phi kernel_size s, numpy64 pw fcos fsin npsum fhyp fsq fatan2 ->
  reachable s -> ps <> [] -> length amps = length ps -> Forall (okp fuel) ps -> (length ps <= 2 ^ 20)%nat -> (20 <= n_r <= 2 ^ 24)%Z -> (36 <= n_phi <= 2 ^ 24)%Z ->
  ordinary wavelength -> ordinary NA -> ordinary px -> (1 <= kernel_size < 2 ^ 53)%Z ->
  exists K, snd (fget_psf_kernel_zerns near64 pw fcos fsin npsum fhyp fsq fatan2 fuel ps amps px wavelength NA kernel_size n_r n_phi false s) = Ok K /\
    let size := made_odd kernel_size in
    forall i j i' j', (0 <= i < size)%Z -> (0 <= j < size)%Z -> (0 <= i' < size)%Z -> (0 <= j' < size)%Z ->
      exists x x', entry K i j = Some (Fin x) /\ entry K i' j' = Some (Fin x') /\
      forall rho t rho' t', polar (IZR (size / 2 - j)) (IZR (size / 2 - i)) rho t -> polar (IZR (size / 2 - j')) (IZR (size / 2 - i')) rho' t' ->
      Rabs (x - x') <= pixel_units wavelength NA px * sqrt (IZR ((i - i') ^ 2 + (j - j') ^ 2)) +
        total_error n_r n_phi amps ps (pixel_units wavelength NA px * rho) + total_error n_r n_phi amps ps (pixel_units wavelength NA px * rho').
Proof.
  intros pw fcos fsin npsum fhyp fsq fatan2 fuel ps amps px wavelength NA n_r n_phi kernel_size s NP RS NE L OK KM NR NPH OW ON OP KS.
  destruct (C59_kernel_list pw fcos fsin npsum fhyp fsq fatan2 fuel ps amps px wavelength NA n_r n_phi false kernel_size s NP RS OK NE L KM NR NPH OW ON OP KS) as (K & v & E & (_ & H) & V).
  exists K. split; [exact E|]. cbv zeta in *. set (size := made_odd kernel_size) in *. intros i j i' j' Hi Hj Hi' Hj'. exists (v i j), (v i' j').
  split; [apply H; assumption|]. split; [apply H; assumption|]. intros rho t rho' t' PO PO'.
  pose proof (V i j rho t Hi Hj PO) as V1. pose proof (V i' j' rho' t' Hi' Hj' PO') as V2. clear V.
  fold (pixel_units wavelength NA px) in V1, V2. set (kap := pixel_units wavelength NA px) in *.
  change (fun x phi => zsum amps ps x phi) with (zsum amps ps) in V1, V2.
  assert (KP : 0 < kap).
  { unfold kap, pixel_units. pose proof PI_RGT_0. apply ordinary_pos in OW, ON, OP. apply Rmult_lt_0_compat; [|exact OP]. apply Rmult_lt_0_compat; [|exact ON]. apply Rdiv_lt_0_compat; [lra|exact OW]. }
  pose proof (C68_integral_slope fuel amps ps _ _ _ _ _ _ _ _ OK (polar_scaled kap _ _ _ _ KP PO) (polar_scaled kap _ _ _ _ KP PO')) as S.
  assert (SE : sqrt ((kap * IZR (size / 2 - j) - kap * IZR (size / 2 - j')) ^ 2 + (kap * IZR (size / 2 - i) - kap * IZR (size / 2 - i')) ^ 2) = kap * sqrt (IZR ((i - i') ^ 2 + (j - j') ^ 2))).
  { rewrite <- (sqrt_square kap) at 5 by lra. rewrite <- sqrt_mult_alt by nra. f_equal. rewrite !Z.pow_2_r, plus_IZR, !mult_IZR, !minus_IZR. ring. }
  rewrite SE in S. unfold total_error. apply Rcomplements.Rabs_le_between in V1. apply Rcomplements.Rabs_le_between in V2. apply Rcomplements.Rabs_le_between in S. apply Rabs_le. lra.
Qed.
Print Assumptions C68_neighbours.

(** ** normalised kernels *)
Lemma quotient_close v d M D T m : Rabs (v - d) <= T -> Rabs (M - D) <= T -> 0 <= d <= D -> 0 < m <= M -> 0 < D -> Rabs (v / M - d / D) <= 2 * T / m.
Proof.
  intros A B (D0 & D1) (M0 & M1) DP. assert (T0 : 0 <= T) by (pose proof (Rabs_pos (v - d)); lra). assert (MP : 0 < M) by lra.
  replace (v / M - d / D) with ((v - d) / M + d / D * ((D - M) / M)) by (field; lra).
  assert (Q : 0 <= d / D <= 1). { split; [apply Rmult_le_pos; [exact D0|apply Rlt_le, Rinv_0_lt_compat, DP]|apply Rmult_le_reg_r with D; [exact DP|]; unfold Rdiv; rewrite Rmult_assoc, Rinv_l by lra; lra]. }
  eapply Rle_trans; [apply Rabs_triang|]. assert (IM : 0 < / M) by (apply Rinv_0_lt_compat, MP). assert (IM1 : / M <= / m) by (apply Rinv_le_contravar; lra).
  assert (X1 : Rabs ((v - d) / M) <= T * / m).
  { unfold Rdiv. rewrite Rabs_mult, (Rabs_pos_eq (/ M)) by lra. apply Rmult_le_compat; try lra; apply Rabs_pos. }
  assert (X2 : Rabs (d / D * ((D - M) / M)) <= T * / m).
  { rewrite Rabs_mult, (Rabs_pos_eq (d / D)) by lra. rewrite <- (Rmult_1_l (T * / m)). apply Rmult_le_compat; try lra; [apply Rabs_pos|].
    unfold Rdiv. rewrite Rabs_mult, (Rabs_pos_eq (/ M)) by lra. rewrite Rabs_minus_sym. apply Rmult_le_compat; try lra; apply Rabs_pos. }
  unfold Rdiv. lra.
Qed.
Lemma near64_mono x y : x <= y -> near64 x <= near64 y.
Proof. apply Flocq.Core.Generic_fmt.round_le; [apply Flocq.Core.FLT.FLT_exp_valid; reflexivity|apply Flocq.Core.Generic_fmt.valid_rnd_N]. Qed.
Lemma F64_near1 : near64 1 = 1.
Proof.
  apply Flocq.Core.Generic_fmt.round_generic; [apply Flocq.Core.Generic_fmt.valid_rnd_N|].
  change 1 with (Flocq.Core.Raux.bpow Flocq.Core.Zaux.radix2 0). apply Flocq.Core.Generic_fmt.generic_format_bpow. cbn. lia.
Qed.
(** the kernel that calculate_psf_kernel returns by default. [intensity i j] is the exact intensity at the pixel, [T] bounds the error of the calculation on the whole kernel *)
Theorem C68_normalised : forall pw fcos fsin npsum fhyp fsq fatan2 fuel ps amps px wavelength NA n_r n_phi kernel_size s T (intensity : Z -> Z -> R) peak, numpy64 pw fcos fsin npsum fhyp fsq fatan2 ->
  reachable s -> ps <> [] -> length amps = length ps -> Forall (okp fuel) ps -> NoDup ps -> (length ps <= 2 ^ 20)%nat -> (20 <= n_r <= 2 ^ 24)%Z -> (36 <= n_phi <= 2 ^ 24)%Z ->
  ordinary wavelength -> ordinary NA -> ordinary px -> (1 <= kernel_size < 2 ^ 53)%Z -> let size := made_odd kernel_size in
  (forall i j rho t, (0 <= i < size)%Z -> (0 <= j < size)%Z -> polar (IZR (size / 2 - j)) (IZR (size / 2 - i)) rho t ->
    intensity i j = diffraction_integral (zsum amps ps) (pixel_units wavelength NA px * rho) t /\ total_error n_r n_phi amps ps (pixel_units wavelength NA px * rho) <= T) ->
  is_max intensity size peak -> squares_no_piston amps ps <= 2 -> T < (1 - squares_no_piston amps ps / 2) ^ 2 ->
  exists K, snd (fget_psf_kernel_zerns near64 pw fcos fsin npsum fhyp fsq fatan2 fuel ps amps px wavelength NA kernel_size n_r n_phi true s) = Ok K /\
    square K size /\
    (exists i j, (0 <= i < size)%Z /\ (0 <= j < size)%Z /\ entry K i j = Some (Fin 1)) /\
    forall i j, (0 <= i < size)%Z -> (0 <= j < size)%Z -> exists x, entry K i j = Some (Fin x) /\ x <= 1 /\
      Rabs (x - intensity i j / peak) <= 3 * T / ((1 - squares_no_piston amps ps / 2) ^ 2 - T) + / 2 ^ 52.
Proof.
  intros pw fcos fsin npsum fhyp fsq fatan2 fuel ps amps px wavelength NA n_r n_phi kernel_size s T intensity peak NP RS NE L OK ND KM NR NPH OW ON OP KS size IN (PK & a0 & b0 & Ha0 & Hb0 & PE) S2 TS.
  destruct (C59_kernel_list pw fcos fsin npsum fhyp fsq fatan2 fuel ps amps px wavelength NA n_r n_phi true kernel_size s NP RS OK NE L KM NR NPH OW ON OP KS) as (K & v & E & (SQ & M & (MU & a & b & Ha & Hb & ME) & H) & V).
  cbv zeta in V. fold size in SQ, MU, Ha, Hb, H, V. set (S0 := (1 - squares_no_piston amps ps / 2) ^ 2) in *.
  exists K. split; [exact E|]. split; [exact SQ|].
  assert (CL : forall i j, (0 <= i < size)%Z -> (0 <= j < size)%Z -> Rabs (v i j - intensity i j) <= T /\ 0 <= intensity i j).
  { intros i j Hi Hj. pose proof (pixel_polar (IZR (size / 2 - i)) (IZR (size / 2 - j))) as PO. destruct (IN i j _ _ Hi Hj PO) as (EI & ET). specialize (V i j _ _ Hi Hj PO).
    fold (pixel_units wavelength NA px) in V. change (fun x phi => zsum amps ps x phi) with (zsum amps ps) in V. rewrite EI. unfold total_error in ET.
    split; [eapply Rle_trans; [exact V|exact ET]|apply (C65_integral_range fuel), OK]. }
  assert (SP : (0 < size)%Z) by (pose proof (made_odd_ge kernel_size); unfold size; lia).
  assert (C : (0 <= size / 2 < size)%Z) by (split; [apply Z.div_pos; lia|apply Z.div_lt_upper_bound; lia]).
  assert (PC : polar (IZR (size / 2 - size / 2)) (IZR (size / 2 - size / 2)) 0 0) by (rewrite Z.sub_diag; unfold polar; pose proof PI_RGT_0; repeat split; try lra; ring).
  assert (IC : S0 <= intensity (size / 2)%Z (size / 2)%Z).
  { destruct (IN _ _ 0 0 C C PC) as (EI & _). rewrite EI, Rmult_0_r. apply (C65_strehl fuel); assumption. }
  assert (M1 : S0 - T <= M). { pose proof (MU _ _ C C) as Q. destruct (CL _ _ C C) as (Q2 & _). apply Rcomplements.Rabs_le_between in Q2. lra. }
  assert (MP : 0 < M) by lra.
  assert (P1 : S0 <= peak) by (pose proof (PK _ _ C C); lra).
  assert (T0 : 0 <= T) by (destruct (CL _ _ C C) as (Q & _); pose proof (Rabs_pos (v (size / 2)%Z (size / 2)%Z - intensity (size / 2)%Z (size / 2)%Z)); lra).
  assert (MD : Rabs (M - peak) <= T).
  { destruct (CL a b Ha Hb) as (Q & _). destruct (CL a0 b0 Ha0 Hb0) as (Q0 & _). pose proof (PK a b Ha Hb). pose proof (MU a0 b0 Ha0 Hb0).
    apply Rcomplements.Rabs_le_between in Q. apply Rcomplements.Rabs_le_between in Q0. apply Rabs_le. lra. }
  assert (NZ : forall i j, (0 <= i < size)%Z -> (0 <= j < size)%Z -> entry K i j = Some (Fin (near64 (v i j / M)))).
  { intros i j Hi Hj. rewrite (H i j Hi Hj). destruct (Req_EM_T M 0) as [Z0|_]; [lra|reflexivity]. }
  assert (N1 : near64 1 = 1) by (apply F64_near1).
  split.
  - exists a, b. split; [exact Ha|]. split; [exact Hb|]. rewrite (NZ a b Ha Hb), ME. unfold Rdiv. rewrite Rinv_r by lra. rewrite N1. reflexivity.
  - intros i j Hi Hj. exists (near64 (v i j / M)). split; [apply NZ; assumption|].
    assert (Q1 : v i j / M <= 1). { apply Rmult_le_reg_r with M; [exact MP|]. unfold Rdiv. rewrite Rmult_assoc, Rinv_l by lra. rewrite Rmult_1_r, Rmult_1_l. apply MU; assumption. }
    split; [rewrite <- N1; apply near64_mono, Q1|].
    destruct (CL i j Hi Hj) as (Q2 & Q3). pose proof (quotient_close (v i j) (intensity i j) M peak T (S0 - T) Q2 MD (conj Q3 (PK i j Hi Hj)) ltac:(lra) ltac:(lra)) as Q4.
    pose proof (b64_rel (v i j / M)) as Q5. change b64 with near64 in Q5.
    assert (I01 : 0 <= intensity i j / peak <= 1).
    { split; [apply Rmult_le_pos; [exact Q3|apply Rlt_le, Rinv_0_lt_compat; lra]|]. apply Rmult_le_reg_r with peak; [lra|]. unfold Rdiv. rewrite Rmult_assoc, Rinv_l by lra. pose proof (PK i j Hi Hj). lra. }
    assert (W0 : 0 <= T / (S0 - T)) by (apply Rmult_le_pos; [exact T0|apply Rlt_le, Rinv_0_lt_compat; lra]).
    replace (2 * T / (S0 - T)) with (2 * (T / (S0 - T))) in Q4 by (field; lra). replace (3 * T / (S0 - T)) with (3 * (T / (S0 - T))) by (field; lra).
    set (w := T / (S0 - T)) in *. set (q := v i j / M) in *. set (z := intensity i j / peak) in *. clearbody w q z.
    assert (QA : Rabs q <= 1 + 2 * w) by (apply Rcomplements.Rabs_le_between in Q4; apply Rabs_le; lra).
    pose proof u_pos as U0. pose proof u_small as U1. assert (UE : / 2 ^ 52 = 2 * u) by (unfold u; change 53%nat with (1 + 52)%nat; rewrite pow_add; field; apply pow_nonzero; lra). rewrite UE.
    assert (X : u * Rabs q <= u * (1 + 2 * w)) by (apply Rmult_le_compat_l; lra).
    assert (Y : u * w <= 1 / 1000000000000 * w) by (apply Rmult_le_compat_r; lra).
    assert (F : Rabs (near64 q - z) <= Rabs (near64 q - q) + Rabs (q - z)) by (replace (near64 q - z) with ((near64 q - q) + (q - z)) by ring; apply Rabs_triang). lra.
Qed.
Print Assumptions C68_normalised.
(** the hypotheses are met: a defocus of 0.1 rad on 3 x 3 pixels with 2^20 integration points, T = 1/500, so that the values are right up to 0.0061 *)
Lemma diff_coordinates Phi x y rho t rho' t' : polar x y rho t -> polar x y rho' t' -> diffraction_integral Phi rho t = diffraction_integral Phi rho' t'.
Proof. intros P P'. apply (diff_tilt Phi Phi 0 0 x y); [intros; ring|exact P|rewrite !Rminus_0_r; exact P']. Qed.
Lemma max_exists (v : Z -> Z -> R) size : (0 < size)%Z -> exists M, is_max v size M.
Proof. intros S. exists (kmax (table v size)). apply kmax_table, S. Qed.
Example C68_nonvacuous : exists intensity peak, let T := 1 / 500 in let size := made_odd 3 in
  (forall i j rho t, (0 <= i < size)%Z -> (0 <= j < size)%Z -> polar (IZR (size / 2 - j)) (IZR (size / 2 - i)) rho t ->
    intensity i j = diffraction_integral (zsum [1 / 10] [(0, 2)]%Z) (pixel_units (1 / 2) 1 (/ 10) * rho) t /\ total_error (2 ^ 20) (2 ^ 20) [1 / 10] [(0, 2)]%Z (pixel_units (1 / 2) 1 (/ 10) * rho) <= T) /\
  is_max intensity size peak /\ squares_no_piston [1 / 10] [(0, 2)]%Z <= 2 /\ T < (1 - squares_no_piston [1 / 10] [(0, 2)]%Z / 2) ^ 2 /\
  3 * T / ((1 - squares_no_piston [1 / 10] [(0, 2)]%Z / 2) ^ 2 - T) + / 2 ^ 52 <= 61 / 10000.
Proof.
  set (kap := pixel_units (1 / 2) 1 (/ 10)). change (made_odd 3) with 3%Z.
  set (f := fun i j : Z => diffraction_integral (zsum [1 / 10] [(0, 2)]%Z) (kap * norm2 (IZR (3 / 2 - j)) (IZR (3 / 2 - i))) (pixel_theta (IZR (3 / 2 - i)) (IZR (3 / 2 - j)))).
  destruct (max_exists f 3 ltac:(lia)) as (peak & PK). exists f, peak. cbv zeta.
  assert (P314 : 3 < PI <= 4) by (pose proof PI_4; pose proof PI2_3_2; lra).
  assert (KV : kap = PI * (4 / 10)) by (unfold kap, pixel_units; field). assert (KP : 0 < kap) by (rewrite KV; lra).
  split; [|split; [exact PK|]].
  - intros i j rho t Hi Hj PO. split.
    + unfold f. apply (diff_coordinates _ (kap * IZR (3 / 2 - j)) (kap * IZR (3 / 2 - i))); apply polar_scaled; try exact KP; [apply pixel_polar|exact PO].
    + assert (RB : 0 <= rho <= 2).
      { destruct PO as (R0 & _ & X & Y). split; [exact R0|]. pose proof (sin2_cos2 t) as S. unfold Rsqr in S.
        assert (B : forall k, (0 <= k < 3)%Z -> IZR (3 / 2 - k) * IZR (3 / 2 - k) <= 1).
        { intros k Hk. change (3 / 2)%Z with 1%Z. rewrite <- mult_IZR. apply IZR_le. assert (k = 0 \/ k = 1 \/ k = 2)%Z as [-> |[-> | ->]] by lia; cbn; lia. }
        pose proof (B i Hi) as Bi. pose proof (B j Hj) as Bj. rewrite <- X in Bj. rewrite <- Y in Bi.
        assert (Q : rho * rho <= 2) by (replace (rho * rho) with (rho * rho * (sin t * sin t + cos t * cos t)) by (rewrite S; ring); lra).
        apply Rnot_lt_le. intros G. assert (2 * 2 < rho * rho) by (apply Rmult_le_0_lt_compat; lra). lra. }
      assert (AB : Rabs (kap * rho) <= 4).
      { rewrite Rabs_pos_eq by (apply Rmult_le_pos; lra). rewrite KV. replace 4 with (4 * (4 / 10) * (10 / 4)) by field.
        apply Rmult_le_compat; try lra; apply Rmult_le_pos; lra. }
      pose proof (Rabs_pos (kap * rho)) as A0. set (r := kap * rho) in *.
      assert (N3 : norm_nm 0 2 * norm_nm 0 2 = 3) by (unfold norm_nm; cbn [Z.eqb]; rewrite sqrt_sqrt by lra; field).
      assert (N0 : 0 <= norm_nm 0 2) by (unfold norm_nm; apply sqrt_pos). set (w := norm_nm 0 2) in *.
      assert (N2 : w <= 2) by (apply Rnot_lt_le; intros G; assert (2 * 2 < w * w) by (apply Rmult_le_0_lt_compat; lra); lra).
      unfold total_error, accuracy, rounding. cbn [steep_r steep_t size_of values_error length]. fold w.
      change (IZR (Z.abs 0)) with 0. replace (slope 0 2) with 4 by (unfold slope; cbn; field). unfold radial_error. change (Z.to_nat 2) with 2%nat. change (INR 1) with 1.
      rewrite (Rabs_pos_eq (1 / 10)) by lra.
      change (IZR (2 ^ 20)) with 1048576. replace (2 ^ 53)%R with 9007199254740992 by (rewrite (pow_IZR 2 53); reflexivity).
      replace (2 ^ 49)%R with 562949953421312 by (rewrite (pow_IZR 2 49); reflexivity). replace (2 ^ 50)%R with 1125899906842624 by (rewrite (pow_IZR 2 50); reflexivity).
      assert (W1 : 20 * (2 + (1 / 10 * w * 4 + 0) + Rabs r) / 1048576 <= 20 * 7 / 1048576) by lra.
      assert (W2 : 110 * (1 + (1 / 10 * w * 0 + 0) + Rabs r) / 1048576 <= 110 * 5 / 1048576) by lra.
      lra.
  - cbn [squares_no_piston Z.eqb andb]. replace (/ 2 ^ 52) with (/ 4503599627370496) by (f_equal; rewrite (pow_IZR 2 52); reflexivity).
    split; [lra|]. split; [lra|]. replace ((1 - (1 / 10 * (1 / 10) + 0) / 2) ^ 2) with (990025 / 1000000) by field. lra.
Qed.
