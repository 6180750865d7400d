(** Property theorems C59: the PSF in binary64. Every arithmetic operation of the calculation is rounded to nearest, ties to
    even; numpy's functions are only assumed to be accurate to one unit in the last place, np.sum to add in some order. *)
From Coq Require Import Reals Lra Lia Permutation.
From Flocq Require Import Core.
From Verif Require Import Py SpecIndex SpecRadial M_Radial M_Coeffs SpecCoeffs M_Sum SpecSum L_Sum M_Polar L_Polar M_Geo L_Geo SpecGeo M_Psf SpecPsf SpecDiff L_Fit L_Psf L_PsfKernel L_PsfNodes
  P_Psf P_Conv SpecFloat M_Float L_Float L_FloatC SpecFloatPsf M_FloatPsf L_FPsf5 L_FPsf7 L_FPsf8.
Import ListNotations.
Local Open Scope R_scope.

(** without rounding and with exact functions, the programs are those of C28-C37 and C52 *)
Theorem C59_unrounded : forall mt fuel p alpha n_r n_phi r theta s s', reachable s -> reachable s' -> okp fuel p -> (2 <= n_r)%Z -> (1 <= n_phi)%Z ->
  snd (fpoint_by (fun x => x) cos sin (fold_right Rplus 0) (fun x y => sqrt (x * x + y * y)) (fun x => x * x) mt
         (fphase_pol (fun x => x) powerRZ cos sin fuel p alpha) n_r n_phi r theta s)
  = snd (point_by mt (fun x => x) (phase_pol fuel p alpha) n_r n_phi r theta s').
Proof.
  intros mt fuel p alpha n_r n_phi r theta s s' Hs Hs' OK N P.
  assert (G := good_exact n_r N). destruct G as (N0 & D & NE).
  assert (A : isok (fpoint_by (fun x => x) cos sin (fold_right Rplus 0) (fun x y => sqrt (x * x + y * y)) (fun x => x * x) mt
         (fphase_pol (fun x => x) powerRZ cos sin fuel p alpha) n_r n_phi r theta) (psf_rnd (fun x => x) n_r n_phi (fun x phi => zsum [alpha] [p] x phi) r theta)).
  { apply by_isok0; [|lia|lia]. intros x phi. apply (pols_isok0 fuel [p] [alpha] x phi); [discriminate|reflexivity|constructor; [exact OK|constructor]]. }
  assert (B : isok (point_by mt (fun x => x) (phase_pol fuel p alpha) n_r n_phi r theta) (psf_rnd (fun x => x) n_r n_phi (fun x phi => alpha * Zv p x phi) r theta)).
  { apply by_isok; [apply (phase_pol_computes fuel p alpha OK)|exact N0|exact D|exact NE|lia]. }
  rewrite (proj2 (A s Hs)), (proj2 (B s' Hs')). f_equal. unfold psf_rnd. apply psf_on_ext; [intros; symmetry; apply zsum_one|reflexivity].
Qed.
Print Assumptions C59_unrounded.
Theorem C59_unrounded_list : forall fuel ps amps n_r n_phi r theta s s', reachable s -> reachable s' -> ps <> [] -> length amps = length ps -> Forall (okp fuel) ps ->
  (2 <= n_r)%Z -> (1 <= n_phi)%Z ->
  snd (fpoint_by (fun x => x) cos sin (fold_right Rplus 0) (fun x y => sqrt (x * x + y * y)) (fun x => x * x) Vectorized
         (fphase_pols (fun x => x) powerRZ cos sin fuel ps amps) n_r n_phi r theta s)
  = snd (psf_point_vec (fun x => x) (phase_pols fuel ps amps) n_r n_phi r theta true NoJobs s').
Proof.
  intros fuel ps amps n_r n_phi r theta s s' Hs Hs' NP L OK N P. destruct (good_exact n_r N) as (N0 & D & NE).
  assert (A : isok (fpoint_by (fun x => x) cos sin (fold_right Rplus 0) (fun x y => sqrt (x * x + y * y)) (fun x => x * x) Vectorized
         (fphase_pols (fun x => x) powerRZ cos sin fuel ps amps) n_r n_phi r theta) (psf_rnd (fun x => x) n_r n_phi (fun x phi => zsum amps ps x phi) r theta)).
  { apply by_isok0; [|lia|lia]. intros x phi. apply (pols_isok0 fuel ps amps x phi); assumption. }
  assert (B : isok (psf_point_vec (fun x => x) (phase_pols fuel ps amps) n_r n_phi r theta true NoJobs) (psf_rnd (fun x => x) n_r n_phi (fun x phi => zsum amps ps x phi) r theta)).
  { apply vec_isok; [apply phase_pols_computes; assumption|exact N0|exact D|exact NE|lia|intros [_ H]; discriminate]. }
  rewrite (proj2 (A s Hs)), (proj2 (B s' Hs')). reflexivity.
Qed.
Print Assumptions C59_unrounded_list.

(** one point: close to the exact quadrature formula (on the radial nodes np.arange produces), and to the diffraction integral *)
Theorem C59_point_list : forall pw fcos fsin npsum fhyp fsq fatan2 mt fuel ps amps n_r n_phi r theta s, numpy64 pw fcos fsin npsum fhyp fsq fatan2 ->
  reachable s -> Forall (okp fuel) ps -> ps <> [] -> length amps = length ps -> (length ps <= 2 ^ 20)%nat -> (20 <= n_r <= 2 ^ 24)%Z -> (36 <= n_phi <= 2 ^ 24)%Z -> Rabs theta <= 7 ->
  exists v, snd (fpoint_by near64 fcos fsin npsum fhyp fsq mt (fphase_pols near64 pw fcos fsin fuel ps amps) n_r n_phi r theta s) = Ok v /\
    Rabs (v - psf_on (near64 (1 / IZR n_r)) (r_nodes near64 (near64 (1 / IZR n_r))) n_phi (fun x phi => zsum amps ps x phi) r theta)
      <= rounding n_r n_phi amps ps (steep_t amps ps) r /\
    Rabs (v - diffraction_integral (fun x phi => zsum amps ps x phi) r theta)
      <= accuracy n_r n_phi (steep_r amps ps) (steep_t amps ps) r + rounding n_r n_phi amps ps (steep_t amps ps) r.
Proof.
  intros pw fcos fsin npsum fhyp fsq fatan2 mt fuel ps amps n_r n_phi r theta s NP Hs OK NE L KM NR NPH H7.
  pose proof u_pos as U. pose proof (Rabs_pos r) as R0. assert (0 <= 8 * u * Rabs r) by (apply Rmult_le_pos; lra).
  assert (H1 : Rabs (r - r) <= 8 * u * Rabs r) by (rewrite Rminus_eq_0, Rabs_R0; assumption).
  assert (H2 : Rabs (theta - theta) <= 18 * u) by (rewrite Rminus_eq_0, Rabs_R0; lra).
  destruct (list_point_okq pw fcos fsin npsum fhyp fsq fatan2 NP fuel ps amps OK NE L KM n_r n_phi NR NPH mt r theta r theta H1 H2 H7 s Hs) as (_ & v & Ev & E).
  exists v. split; [exact Ev|]. split; [exact E|]. apply (to_integral fuel ps amps OK L KM n_r n_phi NR NPH). exact E.
Qed.
Print Assumptions C59_point_list.
Theorem C59_point : forall pw fcos fsin npsum fhyp fsq fatan2 mt fuel p alpha n_r n_phi r theta s, numpy64 pw fcos fsin npsum fhyp fsq fatan2 ->
  reachable s -> okp fuel p -> (20 <= n_r <= 2 ^ 24)%Z -> (36 <= n_phi <= 2 ^ 24)%Z -> Rabs theta <= 7 ->
  exists v, snd (fpoint_by near64 fcos fsin npsum fhyp fsq mt (fphase_pol near64 pw fcos fsin fuel p alpha) n_r n_phi r theta s) = Ok v /\
    Rabs (v - psf_on (near64 (1 / IZR n_r)) (r_nodes near64 (near64 (1 / IZR n_r))) n_phi (fun x phi => zsum [alpha] [p] x phi) r theta)
      <= rounding n_r n_phi [alpha] [p] (steep_t [alpha] [p]) r /\
    Rabs (v - diffraction_integral (fun x phi => zsum [alpha] [p] x phi) r theta)
      <= accuracy n_r n_phi (steep_r [alpha] [p]) (steep_t [alpha] [p]) r + rounding n_r n_phi [alpha] [p] (steep_t [alpha] [p]) r.
Proof.
  intros pw fcos fsin npsum fhyp fsq fatan2 mt fuel p alpha n_r n_phi r theta s NP Hs OK NR NPH H7.
  assert (F : Forall (okp fuel) [p]) by (constructor; [exact OK|constructor]). assert (NE : [p] <> []) by discriminate.
  assert (K1 : (length [p] <= 2 ^ 20)%nat). { cbn [length]. apply Nat.pow_le_mono_r with (b := 0%nat) (a := 2%nat) (c := 20%nat); lia. }
  exact (C59_point_list pw fcos fsin npsum fhyp fsq fatan2 mt fuel [p] [alpha] n_r n_phi r theta s NP Hs F NE eq_refl K1 NR NPH H7).
Qed.
Print Assumptions C59_point.

(** the three ways of calculation therefore agree up to rounding *)
Theorem C59_methods_agree : forall pw fcos fsin npsum fhyp fsq fatan2 mt mt' fuel p alpha n_r n_phi r theta s s', numpy64 pw fcos fsin npsum fhyp fsq fatan2 ->
  reachable s -> reachable s' -> okp fuel p -> (20 <= n_r <= 2 ^ 24)%Z -> (36 <= n_phi <= 2 ^ 24)%Z -> Rabs theta <= 7 ->
  exists v v', snd (fpoint_by near64 fcos fsin npsum fhyp fsq mt (fphase_pol near64 pw fcos fsin fuel p alpha) n_r n_phi r theta s) = Ok v /\
    snd (fpoint_by near64 fcos fsin npsum fhyp fsq mt' (fphase_pol near64 pw fcos fsin fuel p alpha) n_r n_phi r theta s') = Ok v' /\
    Rabs (v - v') <= 2 * rounding n_r n_phi [alpha] [p] (steep_t [alpha] [p]) r.
Proof.
  intros pw fcos fsin npsum fhyp fsq fatan2 mt mt' fuel p alpha n_r n_phi r theta s s' NP Hs Hs' OK NR NPH H7.
  destruct (C59_point pw fcos fsin npsum fhyp fsq fatan2 mt fuel p alpha n_r n_phi r theta s NP Hs OK NR NPH H7) as (v & Ev & E & _).
  destruct (C59_point pw fcos fsin npsum fhyp fsq fatan2 mt' fuel p alpha n_r n_phi r theta s' NP Hs' OK NR NPH H7) as (v' & Ev' & E' & _).
  exists v, v'. split; [exact Ev|]. split; [exact Ev'|]. apply Rabs_le_inv in E. apply Rabs_le_inv in E'. apply Rabs_le. lra.
Qed.
Print Assumptions C59_methods_agree.

(** every pixel of a kernel *)
Theorem C59_kernel_list : forall pw fcos fsin npsum fhyp fsq fatan2 fuel ps amps px wavelength NA n_r n_phi (normalize : bool) kernel_size s, numpy64 pw fcos fsin npsum fhyp fsq fatan2 ->
  reachable s -> Forall (okp fuel) ps -> ps <> [] -> length amps = length ps -> (length ps <= 2 ^ 20)%nat -> (20 <= n_r <= 2 ^ 24)%Z -> (36 <= n_phi <= 2 ^ 24)%Z ->
  ordinary wavelength -> ordinary NA -> ordinary px -> (1 <= kernel_size < 2 ^ 53)%Z ->
  exists K v, snd (fget_psf_kernel_zerns near64 pw fcos fsin npsum fhyp fsq fatan2 fuel ps amps px wavelength NA kernel_size n_r n_phi normalize s) = Ok K /\
    let size := made_odd kernel_size in holds_b64 normalize K size v /\
    forall i j rho t, (0 <= i < size)%Z -> (0 <= j < size)%Z -> polar (IZR (size / 2 - j)) (IZR (size / 2 - i)) rho t ->
      let r := 2 * PI / wavelength * NA * px * rho in
      Rabs (v i j - diffraction_integral (fun x phi => zsum amps ps x phi) r t)
        <= accuracy n_r n_phi (steep_r amps ps) (steep_t amps ps) r + rounding n_r n_phi amps ps (steep_t amps ps) r.
Proof.
  intros pw fcos fsin npsum fhyp fsq fatan2 fuel ps amps px wavelength NA n_r n_phi normalize kernel_size s NP Hs OK NE L KM NR NPH OW ON OP KS.
  assert (P0 : 0 < / 2 ^ 200) by (apply Rinv_0_lt_compat, pow_lt; lra). assert (W0 : wavelength <> 0) by (destruct OW; lra). assert (A0 : NA <> 0) by (destruct ON; lra).
  assert (Q := odd_size_ge kernel_size). rewrite made_odd_eq in Q. set (size := made_odd kernel_size) in *.
  assert (X : okq (fget_psf_kernel_zerns near64 pw fcos fsin npsum fhyp fsq fatan2 fuel ps amps px wavelength NA kernel_size n_r n_phi normalize)
    (fun K => exists v, holds_b64 normalize K size v /\
      forall i j, (0 <= i < size)%Z -> (0 <= j < size)%Z -> forall rho t, polar (IZR (size / 2 - j)) (IZR (size / 2 - i)) rho t ->
      Rabs (v i j - diffraction_integral (fun x phi => zsum amps ps x phi) (2 * PI / wavelength * NA * px * rho) t)
        <= accuracy n_r n_phi (steep_r amps ps) (steep_t amps ps) (2 * PI / wavelength * NA * px * rho) + rounding n_r n_phi amps ps (steep_t amps ps) (2 * PI / wavelength * NA * px * rho))).
  { unfold fget_psf_kernel_zerns. eapply isok_bindq; [apply isok_lift; destruct (Req_EM_T wavelength 0); [contradiction|reflexivity]|]. cbv zeta. rewrite made_odd_eq. fold size.
    eapply isok_bindq; [apply isok_lift; destruct (Req_EM_T NA 0); [contradiction|reflexivity]|].
    eapply okq_bind; [apply fill_okq; [lia|intros i j Hi Hj; apply (pixel_okq pw fcos fsin npsum fhyp fsq fatan2 NP fuel ps amps OK NE L KM n_r n_phi NR NPH Vectorized wavelength NA px size i j OW ON OP Hi Hj)]|].
    - assert (size <> 2 ^ 53 + 1)%Z; [|lia]. assert (HK : (kernel_size <= 2 ^ 53 - 1)%Z) by lia. lia.
    - intros l (v & -> & V). apply okq_ret. exists v. split; [apply ffinish_holds; lia|]. intros i j Hi Hj rho t PO. apply V; assumption. }
  destruct (X s Hs) as (_ & K & E & v & HH & V). exists K, v. split; [exact E|]. cbv zeta. split; [exact HH|]. intros i j rho t Hi Hj PO. apply V; assumption.
Qed.
Print Assumptions C59_kernel_list.
(** one polynomial; the amplitude divided by the wavelength is the rounded quotient *)
Theorem C59_kernel : forall pw fcos fsin npsum fhyp fsq fatan2 mt fuel p alpha px wavelength NA n_r n_phi (normalize : bool) kernel_size s, numpy64 pw fcos fsin npsum fhyp fsq fatan2 ->
  reachable s -> okp fuel p -> (20 <= n_r <= 2 ^ 24)%Z -> (36 <= n_phi <= 2 ^ 24)%Z -> ordinary wavelength -> ordinary NA -> ordinary px -> (3 <= kernel_size < 2 ^ 53)%Z ->
  exists K v, snd (fget_psf_kernel near64 pw fcos fsin npsum fhyp fsq fatan2 fuel p px alpha wavelength NA n_r n_phi normalize kernel_size mt s) = Ok K /\
    let size := made_odd kernel_size in let amps := [near64 (alpha / wavelength)] in holds_b64 normalize K size v /\
    forall i j rho t, (0 <= i < size)%Z -> (0 <= j < size)%Z -> polar (IZR (size / 2 - j)) (IZR (size / 2 - i)) rho t ->
      let r := 2 * PI / wavelength * NA * px * rho in
      Rabs (v i j - diffraction_integral (fun x phi => zsum amps [p] x phi) r t)
        <= accuracy n_r n_phi (steep_r amps [p]) (steep_t amps [p]) r + rounding n_r n_phi amps [p] (steep_t amps [p]) r.
Proof.
  intros pw fcos fsin npsum fhyp fsq fatan2 mt fuel p alpha px wavelength NA n_r n_phi normalize kernel_size s NP Hs OK1 NR NPH OW ON OP KS.
  assert (OK : Forall (okp fuel) [p]) by (constructor; [exact OK1|constructor]). assert (NE : [p] <> []) by discriminate.
  assert (KM : (length [p] <= 2 ^ 20)%nat). { cbn [length]. apply Nat.pow_le_mono_r with (b := 0%nat) (a := 2%nat) (c := 20%nat); lia. }
  assert (P0 : 0 < / 2 ^ 200) by (apply Rinv_0_lt_compat, pow_lt; lra). assert (W0 : wavelength <> 0) by (destruct OW; lra). assert (A0 : NA <> 0) by (destruct ON; lra).
  assert (Q := odd_size_ge kernel_size). rewrite made_odd_eq in Q. set (size := made_odd kernel_size) in *. set (amps := [near64 (alpha / wavelength)]).
  assert (L : length amps = length [p]) by reflexivity.
  assert (X : okq (fget_psf_kernel near64 pw fcos fsin npsum fhyp fsq fatan2 fuel p px alpha wavelength NA n_r n_phi normalize kernel_size mt)
    (fun K => exists v, holds_b64 normalize K size v /\
      forall i j, (0 <= i < size)%Z -> (0 <= j < size)%Z -> forall rho t, polar (IZR (size / 2 - j)) (IZR (size / 2 - i)) rho t ->
      Rabs (v i j - diffraction_integral (fun x phi => zsum amps [p] x phi) (2 * PI / wavelength * NA * px * rho) t)
        <= accuracy n_r n_phi (steep_r amps [p]) (steep_t amps [p]) (2 * PI / wavelength * NA * px * rho) + rounding n_r n_phi amps [p] (steep_t amps [p]) (2 * PI / wavelength * NA * px * rho))).
  { unfold fget_psf_kernel. eapply isok_bindq; [apply isok_lift; destruct (Req_EM_T wavelength 0); [contradiction|reflexivity]|]. cbv zeta. rewrite made_odd_eq. fold size.
    eapply isok_bindq; [apply isok_lift; destruct (Req_EM_T NA 0); [contradiction|reflexivity]|].
    eapply okq_bind; [apply fill_okq; [lia|intros i j Hi Hj; apply (pixel_okq pw fcos fsin npsum fhyp fsq fatan2 NP fuel [p] amps OK NE L KM n_r n_phi NR NPH mt wavelength NA px size i j OW ON OP Hi Hj)]|].
    - lia.
    - intros l (v & -> & V). apply okq_ret. exists v. split; [apply ffinish_holds; lia|]. intros i j Hi Hj rho t PO. apply V; assumption. }
  destruct (X s Hs) as (_ & K & E & v & HH & V). exists K, v. split; [exact E|]. cbv zeta. split; [exact HH|]. intros i j rho t Hi Hj PO. apply V; assumption.
Qed.
Print Assumptions C59_kernel.

(** In ordinary situations (orders up to 10, amplitudes up to 10, up to 1000 x 1000 points, k*NA*distance up to 1000)
    rounding contributes less than 2e-7. *)
Theorem C59_rounding_is_small : forall m n alpha r n_r n_phi, valid m n -> (n <= 10)%Z -> Rabs alpha <= 10 -> Rabs r <= 1000 -> (0 <= n_r <= 1000)%Z -> (0 <= n_phi <= 1000)%Z ->
  rounding n_r n_phi [alpha] [(m, n)] (steep_t [alpha] [(m, n)]) r <= 2 / 10 ^ 7.
Proof.
  intros m n alpha r n_r n_phi (N0 & M0 & _) N10 A10 R3 NR NP. unfold rounding. cbn [values_error size_of steep_t length]. rewrite !Rplus_0_r.
  assert (NN : 0 <= norm_nm m n <= 5).
  { split; [apply sqrt_pos|]. unfold norm_nm. rewrite <- (sqrt_square 5) by lra. apply sqrt_le_1_alt.
    assert (X0 : 0 <= IZR n) by (apply (IZR_le 0); lia). assert (X1 : IZR n <= 10) by (apply (IZR_le _ 10); lia). destruct (m =? 0)%Z; lra. }
  assert (AM : 0 <= IZR (Z.abs m) <= 10) by (split; [apply (IZR_le 0); lia|apply (IZR_le _ 10); lia]).
  assert (P50 : 2 ^ 50 = 1125899906842624) by (rewrite (pow_IZR 2 50); reflexivity). assert (P49 : 2 ^ 49 = 562949953421312) by (rewrite (pow_IZR 2 49); reflexivity).
  assert (P53 : 2 ^ 53 = 9007199254740992) by (rewrite (pow_IZR 2 53); reflexivity).
  assert (RE : 0 <= radial_error n <= 6900 / 2 ^ 50).
  { split; [apply re_nonneg|]. unfold radial_error. unfold Rdiv. apply Rmult_le_compat_r; [rewrite P50; lra|].
    apply Rle_trans with ((242 * / 100) ^ 10); [apply Rle_pow; [lra|lia]|]. cbn [pow]. lra. }
  rewrite P50 in RE. rewrite P49, P53. pose proof (Rabs_pos alpha) as A0. set (a := Rabs alpha) in *. set (q := norm_nm m n) in *. set (w := IZR (Z.abs m)) in *. set (e := radial_error n) in *.
  assert (AQ : 0 <= a * q <= 50) by (split; [apply Rmult_le_pos; lra|replace 50 with (10 * 5) by lra; apply Rmult_le_compat; lra]).
  assert (V : a * q * (4 * e + w / 562949953421312) <= 50 * (27640 / 1125899906842624)) by (apply Rmult_le_compat; lra).
  assert (T : a * q * w <= 50 * 10) by (apply Rmult_le_compat; lra).
  assert (IN : IZR n_r <= 1000 /\ IZR n_phi <= 1000) by (split; apply (IZR_le _ 1000); lia). destruct IN as (I1 & I2).
  change (INR 1) with 1.
  apply Rle_trans with (104 * (50 * (27640 / 1125899906842624)) + (208 * 1 * (50 + 1) + 3328 * (1 + 50 + 500 + 1000) + 300 * (1000 + 1000)) / 9007199254740992).
  - apply Rplus_le_compat; [lra|]. unfold Rdiv. apply Rmult_le_compat_r; [lra|]. lra.
  - replace (10 ^ 7) with 10000000 by (cbn [pow]; lra). lra.
Qed.
Print Assumptions C59_rounding_is_small.

(** a normalised kernel with a positive maximum: the largest entry is exactly 1, no entry is larger *)
Theorem C59_normalized : forall K size v M, holds_b64 true K size v -> is_max v size M -> 0 < M ->
  (exists i j, (0 <= i < size)%Z /\ (0 <= j < size)%Z /\ entry K i j = Some (Fin 1)) /\
  forall i j, (0 <= i < size)%Z -> (0 <= j < size)%Z -> exists x, entry K i j = Some (Fin x) /\ x <= 1 /\ (0 <= v i j -> 0 <= x).
Proof.
  intros K size v M (SQ & M' & (U' & i' & j' & Hi' & Hj' & E') & H) (U & i & j & Hi & Hj & E) P.
  assert (MM : M' = M) by (apply Rle_antisym; [rewrite <- E'; apply U; assumption|rewrite <- E; apply U'; assumption]). rewrite MM in H.
  assert (N1 : near64 1 = 1) by (apply (b64_IZR 1); lia). split.
  - exists i, j. split; [exact Hi|]. split; [exact Hj|]. rewrite H by assumption. destruct (Req_EM_T M 0) as [Z0|_]; [lra|]. rewrite E. unfold Rdiv. rewrite Rinv_r by lra. rewrite N1. reflexivity.
  - intros a b Ha Hb. exists (near64 (v a b / M)). rewrite H by assumption. destruct (Req_EM_T M 0) as [Z0|_]; [lra|]. split; [reflexivity|]. split.
    + rewrite <- N1. apply b64_mono. apply (Rmult_le_reg_r M); [exact P|]. unfold Rdiv. rewrite Rmult_assoc, Rinv_l, Rmult_1_l, Rmult_1_r by lra. apply U; assumption.
    + intros V0. rewrite <- (b64_IZR 0) by lia. apply b64_mono. apply Rmult_le_pos; [exact V0|]. apply Rlt_le, Rinv_0_lt_compat, P.
Qed.
Print Assumptions C59_normalized.

(** correctly rounded functions satisfy the assumptions *)
Definition sum64 (l : list R) : R := match l with [] => 0 | x :: tl => fold_left (fun a b => near64 (a + b)) tl x end.
Lemma sum64_ok : sums_somehow sum64.
Proof.
  split; [reflexivity|]. intros l NE. exists l. split; [reflexivity|]. destruct l as [|x tl]; [elim NE; reflexivity|]. clear NE. unfold sum64.
  assert (G : forall tl L a, bracketing L a -> bracketing (L ++ tl) (fold_left (fun a b => near64 (a + b)) tl a)).
  { clear. induction tl as [|b tl IH]; intros L a B; cbn [fold_left]; [rewrite app_nil_r; exact B|].
    replace (L ++ b :: tl) with ((L ++ [b]) ++ tl) by (rewrite <- app_assoc; reflexivity). apply IH. apply br_add; [exact B|constructor]. }
  apply (G tl [x] x). constructor.
Qed.
Lemma half_ulp x : Rabs (near64 x - x) <= ulp64 x.
Proof.
  unfold near64, ulp64. eapply Rle_trans; [apply error_le_half_ulp; apply FLT_exp_valid; reflexivity|]. pose proof (ulp_ge_0 radix2 exp64 x). lra.
Qed.
Lemma cos_lt1 x : 0 < x < 2 * PI -> cos x = 1 -> False.
Proof.
  intros H E. replace x with (2 * (x / 2)) in E by field. rewrite cos_2a_sin in E. assert (0 < sin (x / 2)) by (apply sin_gt_0; lra).
  assert (0 < sin (x / 2) * sin (x / 2)) by (apply Rmult_lt_0_compat; assumption). lra.
Qed.
Theorem C59_functions_exist : numpy64 cpow (fun x => near64 (cos x)) (fun x => near64 (sin x)) sum64 (fun x y => near64 (sqrt (x * x + y * y))) (fun x => near64 (x * x)) (fun y x => near64 (arctan2 y x)).
Proof.
  split.
  - apply cpow_ok.
  - intros x _. split; apply half_ulp.
  - apply sum64_ok.
  - intros x y _ _. apply half_ulp.
  - intros x. apply half_ulp.
  - split.
    + unfold arctan2. destruct (Rlt_dec 0 0); [lra|]. destruct (Rlt_dec 0 0); [lra|]. apply (b64_IZR 0). lia.
    + intros x y rho t _ _ R0 C S B. replace t with (arctan2 y x); [apply half_ulp|].
      destruct (arctan2_spec y x) as (B' & C' & S').
      assert (NN : norm2 x y = rho).
      { unfold norm2. rewrite <- C, <- S. replace (rho * cos t * (rho * cos t) + rho * sin t * (rho * sin t)) with (rho * rho * (Rsqr (sin t) + Rsqr (cos t))) by (unfold Rsqr; ring).
        rewrite sin2_cos2, Rmult_1_r. apply sqrt_square. lra. }
      rewrite NN in C', S'. assert (CC : cos (arctan2 y x) = cos t) by (apply (Rmult_eq_reg_l rho); lra). assert (SS : sin (arctan2 y x) = sin t) by (apply (Rmult_eq_reg_l rho); lra).
      set (z := arctan2 y x) in *.
      assert (Q : cos (z - t) = 1) by (rewrite cos_minus, CC, SS; pose proof (sin2_cos2 t) as X; unfold Rsqr in X; lra).
      destruct (Rtotal_order z t) as [LT|[EQ|GT]]; [|exact EQ|].
      * exfalso. replace (z - t) with (- (t - z)) in Q by ring. rewrite cos_neg in Q. apply (cos_lt1 (t - z)); lra.
      * exfalso. apply (cos_lt1 (z - t)); lra.
Qed.
Print Assumptions C59_functions_exist.
Example C59_nonvacuous : okp 1000 (2, 2)%Z /\ ordinary (532 / 1000) /\ ordinary (95 / 100) /\ ordinary (1 / 10) /\ (20 <= 320 <= 2 ^ 24)%Z /\ (36 <= 300 <= 2 ^ 24)%Z /\
  reachable import_state.
Proof.
  assert (O : forall x, / 16 <= x <= 16 -> ordinary x).
  { intros x Hx. assert (16 <= 2 ^ 200). { replace 16 with (2 ^ 4) by (cbn [pow]; lra). apply Rle_pow; [lra|lia]. }
    split; [|lra]. apply Rle_trans with (/ 16); [apply Rinv_le_contravar; lra|lra]. }
  split; [split; [split; [cbn; lia|split; [cbn; lia|exists 0%Z; reflexivity]]|cbn; lia]|].
  split; [apply O; lra|]. split; [apply O; lra|]. split; [apply O; lra|]. change (2 ^ 24)%Z with 16777216%Z. split; [lia|]. split; [lia|constructor].
Qed.
