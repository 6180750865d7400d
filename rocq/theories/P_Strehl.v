(** Property theorems C65: coefficients are root mean squares of the wavefront; what that says about the PSF. *)
From Coq Require Import Reals Lra Lia List.
From Coquelicot Require Import Coquelicot.
From Verif Require Import Py SpecIndex SpecRadial M_Radial M_Coeffs SpecCoeffs M_Sum SpecSum L_Sum M_Polar L_Polar M_Geo SpecGeo L_Geo M_Psf SpecPsf SpecDiff L_Conv2 P_Psf P_Conv
  SpecFloat M_Float SpecFloatPsf M_FloatPsf L_FPsf5 P_FPsf SpecDisk L_Disk L_Strehl L_Strehl2.
Import ListNotations.
Local Open Scope R_scope.

Lemma valid_of fuel ps : Forall (okp fuel) ps -> all_valid ps.
Proof. intros H. unfold all_valid. eapply Forall_impl; [|exact H]. intros p (V & _). exact V. Qed.

(** the mean of the values given by sum_zernikes is the coefficient of the piston, their mean square the sum of the squared coefficients *)
Theorem C65_rms : forall fuel cs ps s, reachable s -> cs <> [] -> length cs = length ps -> Forall (okp fuel) ps -> NoDup ps ->
  exists f, (forall r theta, 0 <= r <= 1 -> snd (sum_zernikes fuel cs (map Some ps) (RNum (Fin r)) (RNum (Fin theta)) false s) = Ok (SVal (KFloat (Fin (f r theta))))) /\
    disk_mean f = pistons cs ps /\ disk_mean (fun r theta => f r theta * f r theta) = squares cs.
Proof.
  intros fuel cs ps s RS N L OK ND. exists (zsum cs ps). split; [|split; [apply mean_zsum; [eapply valid_of; exact OK|exact L]|apply mean_square; [eapply valid_of; exact OK|exact ND|exact L]]].
  intros r theta D. assert (F : Forall (fun q => in_disk (fst q)) [(r, theta)]) by (constructor; [exact D|constructor]).
  apply (sum_zernikes_points fuel cs ps _ _ _ _ N L OK (bc_ff r theta) F s RS).
Qed.
Print Assumptions C65_rms.
(** the integral that the PSF approximates (C52): never above 1 *)
Theorem C65_integral_range : forall fuel cs ps r theta, Forall (okp fuel) ps -> 0 <= diffraction_integral (zsum cs ps) r theta <= 1.
Proof. intros fuel cs ps r theta OK. apply diff_range, zsum_nice. eapply valid_of. exact OK. Qed.
Print Assumptions C65_integral_range.
(** everywhere: two aberrations that differ by e (root mean square) give values that differ by 2 e at most *)
Theorem C65_integral_sensitivity : forall fuel cs ds ps r theta, Forall (okp fuel) ps -> NoDup ps -> length cs = length ps -> length ds = length ps ->
  Rabs (diffraction_integral (zsum cs ps) r theta - diffraction_integral (zsum ds ps) r theta) <= 2 * sqrt (squares_diff cs ds).
Proof. intros fuel cs ds ps r theta OK ND L1 L2. apply zsum_stable; try assumption. eapply valid_of. exact OK. Qed.
Print Assumptions C65_integral_sensitivity.
(** in the centre (Strehl ratio): at least (1 - s^2/2)^2, for small aberrations 1 - s^2 up to higher orders *)
Theorem C65_strehl : forall fuel cs ps theta, Forall (okp fuel) ps -> NoDup ps -> length cs = length ps ->
  (squares_no_piston cs ps <= 2 -> (1 - squares_no_piston cs ps / 2) ^ 2 <= diffraction_integral (zsum cs ps) 0 theta) /\
  (~ In (0, 0)%Z ps -> size_of cs ps <= 1 ->
    1 - squares cs <= diffraction_integral (zsum cs ps) 0 theta <= 1 - squares cs * (1 - 2 / 5 * (size_of cs ps * size_of cs ps))).
Proof.
  intros fuel cs ps theta OK ND L. assert (V := valid_of fuel ps OK). split; [intros S; apply zsum_strehl; assumption|].
  intros NI S1. split; [|apply zsum_strehl_high; assumption].
  assert (E : squares_no_piston cs ps = squares cs).
  { clear - NI L. revert cs L. induction ps as [|[m n] ps IH]; intros [|c cs] L; try discriminate; [reflexivity|]. injection L as L. cbn [squares_no_piston squares fold_right].
    rewrite (IH (fun H => NI (or_intror H)) cs L). destruct (Z.eqb_spec m 0) as [->|], (Z.eqb_spec n 0) as [->|]; try reflexivity. exfalso. apply NI. left. reflexivity. }
  assert (S2 : squares cs <= 1).
  { rewrite <- (mean_square ps V ND cs L). rewrite <- (mean_const 1). apply mean_le; [apply (nice_mult (zsum cs ps) (zsum cs ps)); apply zsum_nice, V|apply nice_const|].
    intros p phi Hp. pose proof (zsum_bound ps V cs p phi Hp) as B. assert (B1 : Rabs (zsum cs ps p phi) <= 1) by lra.
    replace (zsum cs ps p phi * zsum cs ps p phi) with (Rabs (zsum cs ps p phi) * Rabs (zsum cs ps p phi)) by (unfold Rabs; destruct (Rcase_abs (zsum cs ps p phi)); ring).
    replace 1 with (1 * 1) by ring. apply Rmult_le_compat; try apply Rabs_pos; exact B1. }
  pose proof (zsum_strehl ps cs theta V ND L) as Q. rewrite E in Q. specialize (Q ltac:(lra)). pose proof (pow2_ge_0 (squares cs)) as P2.
  replace ((1 - squares cs / 2) ^ 2) with (1 - squares cs + squares cs ^ 2 / 4) in Q by field. lra.
Qed.
Print Assumptions C65_strehl.

(** ** the same for what is calculated, in binary64 *)
Theorem C65_kernels_close : forall pw fcos fsin npsum fhyp fsq fatan2 fuel ps amps amps' px wavelength NA n_r n_phi kernel_size s s', numpy64 pw fcos fsin npsum fhyp fsq fatan2 ->
  reachable s -> reachable s' -> Forall (okp fuel) ps -> NoDup ps -> ps <> [] -> length amps = length ps -> length amps' = length ps -> (length ps <= 2 ^ 20)%nat ->
  (20 <= n_r <= 2 ^ 24)%Z -> (36 <= n_phi <= 2 ^ 24)%Z -> ordinary wavelength -> ordinary NA -> ordinary px -> (1 <= kernel_size < 2 ^ 53)%Z ->
  exists K K', snd (fget_psf_kernel_zerns near64 pw fcos fsin npsum fhyp fsq fatan2 fuel ps amps px wavelength NA kernel_size n_r n_phi false s) = Ok K /\
    snd (fget_psf_kernel_zerns near64 pw fcos fsin npsum fhyp fsq fatan2 fuel ps amps' px wavelength NA kernel_size n_r n_phi false s') = Ok K' /\
    let size := made_odd kernel_size in
    forall i j, (0 <= i < size)%Z -> (0 <= j < size)%Z -> exists x x', entry K i j = Some (Fin x) /\ entry K' i j = Some (Fin x') /\
      forall rho t, polar (IZR (size / 2 - j)) (IZR (size / 2 - i)) rho t -> let r := 2 * PI / wavelength * NA * px * rho in
      Rabs (x - x') <= 2 * sqrt (squares_diff amps amps') + total_error n_r n_phi amps ps r + total_error n_r n_phi amps' ps r.
Proof.
  intros pw fcos fsin npsum fhyp fsq fatan2 fuel ps amps amps' px wavelength NA n_r n_phi kernel_size s s' NP RS RS' OK ND NE L1 L2 KM NR NPH OW ON OP KS.
  destruct (C59_kernel_list pw fcos fsin npsum fhyp fsq fatan2 fuel ps amps px wavelength NA n_r n_phi false kernel_size s NP RS OK NE L1 KM NR NPH OW ON OP KS) as (K & v & E & (_ & H) & V).
  destruct (C59_kernel_list pw fcos fsin npsum fhyp fsq fatan2 fuel ps amps' px wavelength NA n_r n_phi false kernel_size s' NP RS' OK NE L2 KM NR NPH OW ON OP KS) as (K' & v' & E' & (_ & H') & V').
  exists K, K'. split; [exact E|]. split; [exact E'|]. cbv zeta in *. set (size := made_odd kernel_size) in *. intros i j Hi Hj. exists (v i j), (v' i j).
  split; [apply H; assumption|]. split; [apply H'; assumption|]. intros rho t PO. specialize (V i j rho t Hi Hj PO). specialize (V' i j rho t Hi Hj PO).
  set (r := 2 * PI / wavelength * NA * px * rho) in *. pose proof (C65_integral_sensitivity fuel amps amps' ps r t OK ND L1 L2) as Q. unfold total_error.
  change (fun x phi => zsum amps ps x phi) with (zsum amps ps) in V. change (fun x phi => zsum amps' ps x phi) with (zsum amps' ps) in V'.
  apply Rcomplements.Rabs_le_between in V. apply Rcomplements.Rabs_le_between in V'. apply Rcomplements.Rabs_le_between in Q. apply Rabs_le. lra.
Qed.
Print Assumptions C65_kernels_close.
Theorem C65_central_pixel : forall pw fcos fsin npsum fhyp fsq fatan2 fuel ps amps px wavelength NA n_r n_phi kernel_size s, numpy64 pw fcos fsin npsum fhyp fsq fatan2 ->
  reachable s -> Forall (okp fuel) ps -> NoDup ps -> ps <> [] -> length amps = length ps -> (length ps <= 2 ^ 20)%nat ->
  (20 <= n_r <= 2 ^ 24)%Z -> (36 <= n_phi <= 2 ^ 24)%Z -> ordinary wavelength -> ordinary NA -> ordinary px -> (1 <= kernel_size < 2 ^ 53)%Z ->
  exists K x, snd (fget_psf_kernel_zerns near64 pw fcos fsin npsum fhyp fsq fatan2 fuel ps amps px wavelength NA kernel_size n_r n_phi false s) = Ok K /\
    let size := made_odd kernel_size in entry K (size / 2) (size / 2) = Some (Fin x) /\
    x <= 1 + total_error n_r n_phi amps ps 0 /\
    (squares_no_piston amps ps <= 2 -> (1 - squares_no_piston amps ps / 2) ^ 2 - total_error n_r n_phi amps ps 0 <= x) /\
    (~ In (0, 0)%Z ps -> size_of amps ps <= 1 -> x <= 1 - squares amps * (1 - 2 / 5 * (size_of amps ps * size_of amps ps)) + total_error n_r n_phi amps ps 0).
Proof.
  intros pw fcos fsin npsum fhyp fsq fatan2 fuel ps amps px wavelength NA n_r n_phi kernel_size s NP RS OK ND NE L1 KM NR NPH OW ON OP KS.
  destruct (C59_kernel_list pw fcos fsin npsum fhyp fsq fatan2 fuel ps amps px wavelength NA n_r n_phi false kernel_size s NP RS OK NE L1 KM NR NPH OW ON OP KS) as (K & v & E & (_ & H) & V).
  cbv zeta in *. set (size := made_odd kernel_size) in *. exists K, (v (size / 2) (size / 2))%Z. split; [exact E|].
  assert (S0 : (0 < size)%Z) by (unfold size, made_odd; destruct (Z.even kernel_size); lia).
  assert (C : (0 <= size / 2 < size)%Z) by (split; [apply Z.div_pos; lia|apply Z.div_lt_upper_bound; lia]). split; [apply H; assumption|].
  assert (PO : polar (IZR (size / 2 - size / 2)) (IZR (size / 2 - size / 2)) 0 0) by (rewrite Z.sub_diag; unfold polar; pose proof PI_RGT_0; repeat split; try lra; ring).
  specialize (V _ _ 0 0 C C PO). rewrite Rmult_0_r in V. change (fun x phi => zsum amps ps x phi) with (zsum amps ps) in V. apply Rcomplements.Rabs_le_between in V.
  pose proof (C65_integral_range fuel amps ps 0 0 OK) as Q. destruct (C65_strehl fuel amps ps 0 OK ND L1) as (Q1 & Q2). unfold total_error.
  split; [lra|]. split; [intros S; specialize (Q1 S); lra|]. intros NI S. specialize (Q2 NI S). lra.
Qed.
Print Assumptions C65_central_pixel.

(** astigmatism of 0.1 rad: the piston-free root mean square is 0.1, the central value between 0.99 and 0.9903 *)
Example C65_nonvacuous : forall theta, Forall (okp 1000) [(2, 2)]%Z /\ NoDup [(2, 2)]%Z /\ ~ In (0, 0)%Z [(2, 2)]%Z /\
  99 / 100 <= diffraction_integral (zsum [1 / 10] [(2, 2)%Z]) 0 theta <= 9903 / 10000.
Proof.
  intros theta. assert (OK : Forall (okp 1000) [(2, 2)]%Z) by (constructor; [split; [split; [cbn; lia|split; [cbn; lia|exists 0%Z; reflexivity]]|cbn; lia]|constructor]).
  assert (ND : NoDup [(2, 2)]%Z) by (constructor; [intros []|constructor]). assert (NI : ~ In (0, 0)%Z [(2, 2)]%Z) by (intros [H|[]]; discriminate).
  split; [exact OK|]. split; [exact ND|]. split; [exact NI|]. destruct (C65_strehl 1000 [1 / 10] [(2, 2)]%Z theta OK ND eq_refl) as (_ & Q). specialize (Q NI).
  assert (S : size_of [1 / 10] [(2, 2)]%Z * size_of [1 / 10] [(2, 2)]%Z = 6 / 100).
  { cbn [size_of]. unfold norm_nm. cbn [Z.eqb]. rewrite Rabs_pos_eq by lra. set (q := sqrt _). assert (q * q = 6) by (unfold q; rewrite sqrt_sqrt by lra; field).
    replace ((1 / 10 * q + 0) * (1 / 10 * q + 0)) with (q * q / 100) by field. lra. }
  assert (S1 : size_of [1 / 10] [(2, 2)]%Z <= 1) by (apply Rnot_lt_le; intros LT; nra). specialize (Q S1). rewrite S in Q. cbn [squares fold_right] in Q. lra.
Qed.
