(** Property theorems C79: from a measured phase image to the PSF of its aberrations. *)
From Coq Require Import Reals Lra Lia List.
From Flocq Require Import Core.
From Verif Require Import Py SpecIndex SpecRadial M_Radial M_Coeffs SpecCoeffs M_Sum SpecSum L_Sum SpecFit L_LinAlg SpecGeo M_Crop M_Fit SpecCrop L_Polar L_Crop L_Phases L_Fit L_Indep L_Stable SpecDiff SpecFitNoise L_FitNoise
  SpecDisk SpecFitK L_FitK P_Fit P_FitK SpecFloat M_Float L_Float SpecFloatPsf L_FPsf5 L_FPsf7 M_Geo M_FloatSum SpecFitF M_FloatFit L_FloatFit P_FPsf M_Psf SpecPsf M_FloatPsf P_Psf P_Conv P_Strehl P_FloatFit SpecImgPsf M_ImgPsf L_ImgPsf.
Import ListNotations.
Local Open Scope R_scope.

Lemma ffit_reach pw fcos fsin fatan2 lstsq fuel rows cols f ps x strict digits (rc : bool) s :
  power_within_ulp pw -> trig_within_ulp fcos fsin -> angle_within_ulp fatan2 -> (3 <= Z.min rows cols)%Z -> (Z.max rows cols <= 2 ^ 25)%Z -> round4 near64 x = 1 ->
  Forall (okp fuel) ps -> NoDup ps -> ps <> [] -> reachable s -> reachable (fst (ffit_polynomials near64 pw fcos fsin fatan2 lstsq fuel (Img rows cols f) (map Some ps) (RadNum x) strict digits rc s)).
Proof.
  intros PW TR AT HM HX EX OK ND NP RS. change near64 with b64 in *. assert (SN := sane_b64). assert (HC : 1 / 2 <= round4 b64 x <= 1) by (rewrite EX; lra).
  destruct (crop_coords b64 rows cols x strict SN HM HC) as (mask & S & radii & thetas & EC).
  destruct (crop_ok b64 rows cols (fun i j => (i, j)) x strict SN HM HC) as (sel & mask' & phases' & radii' & thetas' & H). cbn zeta in H.
  destruct H as (EC' & NS & EQ & LR & LT & DR & PO & _ & SELIN & _). rewrite EC in EC'. apply Ok_inj in EC'. injection EC' as _ EPH E3 E4. subst radii' thetas'.
  assert (MI : forall l : list (Z * Z), map (fun p => (fst p, snd p)) l = l) by (induction l as [|(v1, v2) l IH]; cbn [map fst snd]; congruence).
  assert (ES : S = filter sel (row_major rows cols)).
  { rewrite EQ in EPH. rewrite (MI S) in EPH. rewrite (MI (filter sel _)) in EPH. symmetry. exact EPH. }
  rewrite <- ES in NS, LR, LT.
  assert (ECI := EC _ (fun i j => (i, j))). cbv beta in ECI. rewrite MI in ECI.
  assert (IS : forall i j, In (i, j) S -> (0 <= i < rows)%Z /\ (0 <= j < cols)%Z).
  { intros i j H. rewrite ES in H. apply filter_In in H. destruct H as (H & _). apply row_major_In in H. lia. }
  destruct (ffit_okq pw fcos fsin fatan2 lstsq fuel rows cols f ps x strict digits rc mask S radii thetas PW TR AT HM HX ECI IS LR DR OK ND NP s RS) as (RS' & _). exact RS'.
Qed.

(** binary64: the fitted coefficients are close to the true ones, and every pixel of the kernel calculated with them is close to the
    diffraction integral of the TRUE wavefront [zsum a ps] - with a bound that can be calculated from the fitted coefficients, and one
    that is known before the measurement from the true ones; whatever the noise at the pixels is *)
Theorem C79_measured_psf : forall pw fcos fsin npsum fhyp fsq fatan2 rows cols x (strict : bool) ps w, numpy64 pw fcos fsin npsum fhyp fsq fatan2 ->
  (3 <= Z.min rows cols)%Z -> (Z.max rows cols <= 2 ^ 25)%Z -> round4 near64 x = 1 -> border_margin rows cols strict = 1 / 1000 -> resolves rows cols ps w ->
  Forall (fun p => valid (fst p) (snd p)) ps -> NoDup ps -> ps <> [] -> (length ps <= 2 ^ 20)%nat ->
  exists mask pixels radii thetas, length radii = length pixels /\ length thetas = length pixels /\
    (forall f : Z -> Z -> R, crop_phases_img near64 (Img rows cols f) (RadNum x) strict
                               = Ok (mask, (map (fun p => f (fst p) (snd p)) pixels, radii, thetas))) /\
    forall lstsq eta fuel f a digits (return_cropped : bool) s noise px wavelength NA n_r n_phi (normalize : bool) kernel_size,
      0 <= eta -> lstsq_backward_stable eta lstsq -> reachable s -> Forall (okp fuel) ps -> length a = length ps -> length noise = length pixels ->
      (0 <= digits <= 22)%Z -> matrix_error (length pixels) ps eta <= INR w / 4 ->
      (forall k, (k < length pixels)%nat ->
         f (fst (nth k pixels (0, 0)%Z)) (snd (nth k pixels (0, 0)%Z)) = zsum a ps (nth k radii 0) (nth k thetas 0) + nth k noise 0) ->
      (20 <= n_r <= 2 ^ 24)%Z -> (36 <= n_phi <= 2 ^ 24)%Z -> ordinary wavelength -> ordinary NA -> ordinary px -> (1 <= kernel_size < 2 ^ 53)%Z ->
      let e := measured_error (length pixels) w ps eta a noise digits in
      exists cs K v,
        snd (measured_psf near64 pw fcos fsin npsum fhyp fsq fatan2 lstsq fuel (Img rows cols f) ps (RadNum x) strict digits return_cropped px wavelength NA kernel_size n_r n_phi normalize s)
          = Ok (cs, K) /\
        length cs = length ps /\ sqrt (squares_diff cs a) <= e /\
        let size := made_odd kernel_size in holds_b64 normalize K size v /\
        forall i j rho t, (0 <= i < size)%Z -> (0 <= j < size)%Z -> polar (IZR (size / 2 - j)) (IZR (size / 2 - i)) rho t ->
          let r := 2 * PI / wavelength * NA * px * rho in
          Rabs (v i j - diffraction_integral (zsum a ps) r t) <= 2 * e + total_error n_r n_phi cs ps r /\
          total_error n_r n_phi cs ps r <= total_error n_r n_phi (map (fun c => Rabs c + e) a) ps r.
Proof.
  intros pw fcos fsin npsum fhyp fsq fatan2 rows cols x strict ps w NP HM HX EX BM RES V ND NE KM.
  destruct (C72_fit_error pw fcos fsin fatan2 rows cols x strict ps w (np_power _ _ _ _ _ _ _ NP) (np_trig _ _ _ _ _ _ _ NP) (np_arctan2 _ _ _ _ _ _ _ NP) HM HX EX BM RES V ND NE)
    as (mask & pixels & radii & thetas & LR & LT & EC & H).
  exists mask, pixels, radii, thetas. split; [exact LR|]. split; [exact LT|]. split; [exact EC|].
  intros lstsq eta fuel f a digits rc s noise px wavelength NA n_r n_phi normalize ks E0 BS RS OK La LN HD ME CL NR NPH OW ON OP KS e.
  destruct (H lstsq eta fuel f a digits rc s noise E0 BS RS OK La LN HD ME CL) as (y & img & EF & Ly & BO & _).
  pose proof (ffit_reach pw fcos fsin fatan2 lstsq fuel rows cols f ps x strict digits rc s (np_power _ _ _ _ _ _ _ NP) (np_trig _ _ _ _ _ _ _ NP) (np_arctan2 _ _ _ _ _ _ _ NP) HM HX EX OK ND NE RS) as RS'.
  set (fit := ffit_polynomials near64 pw fcos fsin fatan2 lstsq fuel (Img rows cols f) (map Some ps) (RadNum x) strict digits rc) in *.
  set (cs := map (fround near64 digits) y) in *. assert (Lc : length cs = length ps) by (unfold cs; rewrite map_length; exact Ly).
  assert (CE : sqrt (squares_diff cs a) <= e).
  { unfold e, measured_error. rewrite <- La. apply rounded_close; [exact HD|congruence|]. exact BO. }
  destruct (C59_kernel_list pw fcos fsin npsum fhyp fsq fatan2 fuel ps cs px wavelength NA n_r n_phi normalize ks (fst (fit s)) NP RS' OK NE Lc KM NR NPH OW ON OP KS) as (K & v & EK & HB & HV).
  cbv zeta in HB, HV. exists cs, K, v. split; [|split; [exact Lc|split; [exact CE|]]].
  - unfold measured_psf. fold fit. unfold mbind at 1. destruct (fit s) as (s1, r1). cbn [fst snd] in EF, RS', EK. rewrite EF. cbn [fst].
    unfold mbind. destruct (fget_psf_kernel_zerns near64 pw fcos fsin npsum fhyp fsq fatan2 fuel ps cs px wavelength NA ks n_r n_phi normalize s1) as (s2, r2). cbn [snd] in EK. rewrite EK. reflexivity.
  - split; [exact HB|]. intros i j rho t Hi Hj PO r. specialize (HV i j rho t Hi Hj PO). fold r in HV. change (fun x phi => zsum cs ps x phi) with (zsum cs ps) in HV.
    fold (total_error n_r n_phi cs ps r) in HV. pose proof (C65_integral_sensitivity fuel cs a ps r t OK ND Lc La) as Q. split.
    + apply Rcomplements.Rabs_le_between in HV. apply Rcomplements.Rabs_le_between in Q. apply Rabs_le. lra.
    + assert (E1 : 0 <= e) by (eapply Rle_trans; [apply sqrt_pos|exact CE]).
      apply total_error_mono; [exact V|exact Lc|rewrite map_length; exact La| |lia|lia]. apply close_dominated; [exact Lc|exact La|exact E1|].
      intros k Hk. eapply Rle_trans; [apply coord_diff; congruence|exact CE].
Qed.
Print Assumptions C79_measured_psf.

(** the central pixel (Strehl ratio) of the kernel without normalisation: what it says about the true wavefront, and the converse *)
Theorem C79_strehl : forall pw fcos fsin npsum fhyp fsq fatan2 rows cols x (strict : bool) ps w, numpy64 pw fcos fsin npsum fhyp fsq fatan2 ->
  (3 <= Z.min rows cols)%Z -> (Z.max rows cols <= 2 ^ 25)%Z -> round4 near64 x = 1 -> border_margin rows cols strict = 1 / 1000 -> resolves rows cols ps w ->
  Forall (fun p => valid (fst p) (snd p)) ps -> NoDup ps -> ps <> [] -> (length ps <= 2 ^ 20)%nat ->
  exists mask pixels radii thetas, length radii = length pixels /\ length thetas = length pixels /\
    (forall f : Z -> Z -> R, crop_phases_img near64 (Img rows cols f) (RadNum x) strict
                               = Ok (mask, (map (fun p => f (fst p) (snd p)) pixels, radii, thetas))) /\
    forall lstsq eta fuel f a digits (return_cropped : bool) s noise px wavelength NA n_r n_phi kernel_size,
      0 <= eta -> lstsq_backward_stable eta lstsq -> reachable s -> Forall (okp fuel) ps -> length a = length ps -> length noise = length pixels ->
      (0 <= digits <= 22)%Z -> matrix_error (length pixels) ps eta <= INR w / 4 ->
      (forall k, (k < length pixels)%nat ->
         f (fst (nth k pixels (0, 0)%Z)) (snd (nth k pixels (0, 0)%Z)) = zsum a ps (nth k radii 0) (nth k thetas 0) + nth k noise 0) ->
      (20 <= n_r <= 2 ^ 24)%Z -> (36 <= n_phi <= 2 ^ 24)%Z -> ordinary wavelength -> ordinary NA -> ordinary px -> (1 <= kernel_size < 2 ^ 53)%Z ->
      let e := measured_error (length pixels) w ps eta a noise digits in
      exists cs K v,
        snd (measured_psf near64 pw fcos fsin npsum fhyp fsq fatan2 lstsq fuel (Img rows cols f) ps (RadNum x) strict digits return_cropped px wavelength NA kernel_size n_r n_phi false s)
          = Ok (cs, K) /\
        let size := made_odd kernel_size in let err := 2 * e + total_error n_r n_phi cs ps 0 in
        entry K (size / 2) (size / 2) = Some (Fin v) /\ v <= 1 + err /\
        (squares_no_piston a ps <= 2 -> (1 - squares_no_piston a ps / 2) ^ 2 - err <= v) /\
        (~ In (0, 0)%Z ps -> size_of a ps <= 1 -> squares a * (1 - 2 / 5 * (size_of a ps * size_of a ps)) <= 1 - v + err).
Proof.
  intros pw fcos fsin npsum fhyp fsq fatan2 rows cols x strict ps w NP HM HX EX BM RES V ND NE KM.
  destruct (C79_measured_psf pw fcos fsin npsum fhyp fsq fatan2 rows cols x strict ps w NP HM HX EX BM RES V ND NE KM) as (mask & pixels & radii & thetas & LR & LT & EC & H).
  exists mask, pixels, radii, thetas. split; [exact LR|]. split; [exact LT|]. split; [exact EC|].
  intros lstsq eta fuel f a digits rc s noise px wavelength NA n_r n_phi ks E0 BS RS OK La LN HD ME CL NR NPH OW ON OP KS e.
  destruct (H lstsq eta fuel f a digits rc s noise px wavelength NA n_r n_phi false ks E0 BS RS OK La LN HD ME CL NR NPH OW ON OP KS) as (cs & K & v & EK & Lc & CE & (_ & HB) & HV).
  cbv zeta in HV. fold e in HV. set (size := made_odd ks) in *. exists cs, K, (v (size / 2) (size / 2))%Z. split; [exact EK|].
  assert (S0 : (0 < size)%Z) by (unfold size, made_odd; destruct (Z.even ks); lia).
  assert (C : (0 <= size / 2 < size)%Z) by (split; [apply Z.div_pos; lia|apply Z.div_lt_upper_bound; lia]).
  assert (PO : polar (IZR (size / 2 - size / 2)) (IZR (size / 2 - size / 2)) 0 0) by (rewrite Z.sub_diag; unfold polar; pose proof PI_RGT_0; repeat split; try lra; ring).
  destruct (HV _ _ 0 0 C C PO) as (HV1 & _). rewrite Rmult_0_r in HV1. apply Rcomplements.Rabs_le_between in HV1.
  pose proof (C65_integral_range fuel a ps 0 0 OK) as Q. destruct (C65_strehl fuel a ps 0 OK ND La) as (Q1 & Q2). cbv zeta.
  split; [apply HB; assumption|]. split; [lra|]. split; [intros S; specialize (Q1 S); lra|]. intros NI S. specialize (Q2 NI S). lra.
Qed.
Print Assumptions C79_strehl.

(** an image of 513 x 513 pixels and the six polynomials up to the second order, coefficients with root mean square 1 at most, no noise, six decimals:
    the wavefront of the fitted coefficients is within 2e-6, the values of the PSF within 4e-6 (and the error of the quadrature) *)
Example C79_nonvacuous : forall n a, (n <= 513 * 513)%nat -> squares a <= 1 ->
  let ps := [(0, 0); (-1, 1); (1, 1); (-2, 2); (0, 2); (2, 2)]%Z in
  resolves 513 513 ps 5 /\ matrix_error n ps (/ 2 ^ 40) <= INR 5 / 4 /\ measured_error n 5 ps (/ 2 ^ 40) a (repeat 0 n) 6 <= 2 / 10 ^ 6 /\
  exists pw fcos fsin npsum fhyp fsq fatan2, numpy64 pw fcos fsin npsum fhyp fsq fatan2.
Proof.
  intros n a Hn SA ps. destruct C72_nonvacuous as (_ & _ & RES & ME & _). split; [exact RES|]. split; [apply ME; exact Hn|]. split.
  - assert (P40 : 0 <= / 2 ^ 40) by (left; apply Rinv_0_lt_compat, pow_lt; lra).
    destruct (C72_matrix_error n ps (/ 2 ^ 40)) as (M1 & M2); [| | |exact P40|].
    + repeat constructor; cbn [fst snd]; try lia; [exists 0%Z|exists 0%Z|exists 0%Z|exists 0%Z|exists 1%Z|exists 0%Z]; reflexivity.
    + repeat constructor; cbn [In]; intros H; repeat (destruct H as [H|H]; [discriminate H|]); exact H.
    + repeat constructor; cbn; lia.
    + assert (SN : 0 <= sqrt (INR n) <= 513).
      { split; [apply sqrt_pos|]. apply sqrt_le_r; [lra|]. replace (513 * 513) with (INR (513 * 513)); [apply le_INR; exact Hn|]. rewrite mult_INR. simpl INR. lra. }
      assert (S0 : sum_squares (repeat 0 n) = 0).
      { clear. induction n as [|n IH]; [reflexivity|]. unfold sum_squares in *. cbn [repeat fold_right]. rewrite IH. ring. }
      assert (SQ : 0 <= sqrt (squares a) <= 1) by (split; [apply sqrt_pos|rewrite <- sqrt_1; apply sqrt_le_1_alt; exact SA]).
      assert (F0 : 0 <= fit_size ps) by apply sqrt_pos.
      assert (FE : 0 <= matrix_error n ps (/ 2 ^ 40)).
      { unfold matrix_error. apply Rmult_le_pos; [apply sqrt_pos|]. assert (0 <= fit_error ps) by apply sqrt_pos. apply Rplus_le_le_0_compat; [assumption|]. apply Rmult_le_pos; [exact P40|lra]. }
      assert (M3 : matrix_error n ps (/ 2 ^ 40) <= 11 * 513 * (/ 2 ^ 42 + / 2 ^ 40)).
      { eapply Rle_trans; [exact M1|]. apply Rmult_le_compat_r; [simpl pow; lra|lra]. }
      assert (M4 : / 2 ^ 40 * (sqrt (INR n) * fit_size ps) <= / 2 ^ 40 * (513 * 11)).
      { apply Rmult_le_compat_l; [exact P40|]. apply Rmult_le_compat; lra. }
      assert (M5 : 0 <= / 2 ^ 40 * (sqrt (INR n) * fit_size ps)) by (apply Rmult_le_pos; [exact P40|apply Rmult_le_pos; lra]).
      assert (S6 : 0 <= sqrt (INR (length ps)) <= 5 / 2).
      { split; [apply sqrt_pos|]. apply sqrt_le_r; [lra|]. cbn [length ps]. simpl INR. lra. }
      assert (P6 : powerRZ 10 (- (6)) = / 10 ^ 6) by reflexivity.
      unfold measured_error, fitted_error. rewrite S0, sqrt_0, P6. set (me := matrix_error n ps (/ 2 ^ 40)) in *. set (q := / 2 ^ 40 * (sqrt (INR n) * fit_size ps)) in *.
      assert (B : (me + q) * sqrt (squares a) <= (11 * 513 * (/ 2 ^ 42 + / 2 ^ 40) + / 2 ^ 40 * (513 * 11)) * 1).
      { apply Rmult_le_compat; lra. }
      assert (B2 : sqrt (INR (length ps)) * ((/ 2 + / 2 ^ 50) * / 10 ^ 6) <= 5 / 2 * ((/ 2 + / 2 ^ 50) * / 10 ^ 6)).
      { apply Rmult_le_compat_r; [simpl pow; lra|lra]. }
      set (z := (me + q) * sqrt (squares a)) in *. replace (INR 5) with 5 by (simpl INR; ring).
      simpl pow in *. lra.
  - do 7 eexists. exact C59_functions_exist.
Qed.
