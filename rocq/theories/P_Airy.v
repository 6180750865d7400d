(** C53: without aberration the PSF is the Airy pattern; the analytical and the integrated kernels agree. *)
From Coq Require Import Reals Lra Lia Psatz List.
From Coquelicot Require Import Coquelicot.
From Verif Require Import Py SpecIndex SpecRadial M_Radial M_Coeffs SpecCoeffs M_Sum SpecSum M_Fit M_Psf SpecPsf SpecGeo L_Fit L_Psf L_PsfKernel L_PsfNodes L_Polar L_Sum L_Value P_Psf SpecDiff L_Ortho L_Conv L_Conv2 P_Conv L_Airy.
Import ListNotations.
Local Open Scope R_scope.

(** the integral of a constant phase: (2 J1(r) / r)^2, 1 at the focus *)
Theorem C53_integral_is_airy : forall c r theta,
  (r <> 0 -> diffraction_integral (fun _ _ => c) r theta = (2 * bessel_J1 r / r) ^ 2) /\
  (r = 0 -> diffraction_integral (fun _ _ => c) r theta = 1) /\
  0 <= diffraction_integral (fun _ _ => c) r theta <= 1.
Proof.
  intros c r theta. pose proof (diffraction_const_J1 c r theta) as H. destruct (Req_EM_T r 0) as [E|E].
  - split; [intros X; contradiction|]. split; [intros _; exact H|apply diffraction_const_bound].
  - split; [intros _; exact H|]. split; [intros X; contradiction|apply diffraction_const_bound].
Qed.
Print Assumptions C53_integral_is_airy.
(** airy_ref_pattern, given the Bessel function *)
Theorem C53_airy_ref_pattern : forall jv1 c r theta, (forall x, jv1 x = bessel_J1 x) ->
  Rabs (airy_ref_pattern jv1 r - diffraction_integral (fun _ _ => c) r theta) <= 5 / 10 ^ 11.
Proof.
  intros jv1 c r theta HJ.
  assert (X : exists r', r' <> 0 /\ airy_ref_pattern jv1 r = (2 * bessel_J1 r' / r') ^ 2 /\ Rabs (r' - r) <= 105 / 10 ^ 13).
  { unfold airy_ref_pattern. pose proof (np_round_err 12 r) as E. replace (/ 2 * powerRZ 10 (- (12))) with (5 / 10 ^ 13) in E by (change (powerRZ 10 (- (12))) with (/ 10 ^ 12); field).
    destruct (Req_EM_T (np_round 12 r) 0) as [Z0|NZ].
    - exists (/ 10 ^ 11). split; [apply Rinv_neq_0_compat, pow_nonzero; lra|]. split; [rewrite HJ; unfold Rdiv; ring|].
      rewrite Z0 in E. apply Rabs_le_inv in E. apply Rabs_le. lra.
    - exists (np_round 12 r). split; [exact NZ|]. split; [rewrite HJ; unfold Rdiv; ring|]. lra. }
  destruct X as (r' & N & -> & D). destruct (C53_integral_is_airy c r' theta) as (I1 & _ & _). rewrite <- (I1 N).
  eapply Rle_trans; [apply diffraction_const_lip|]. lra.
Qed.
Print Assumptions C53_airy_ref_pattern.
Lemma zsum_const c x phi : zsum [c] [(0, 0)%Z] x phi = c.
Proof. cbn. rewrite Z00. ring. Qed.
(** get_psf_kernel of piston with and without airy_pattern: every pixel agrees up to the accuracy of the quadrature *)
Theorem C53_kernels_agree : forall rnd jv1 mt mt' fuel px c c' wavelength NA n_r n_phi kernel_size s s', reachable s -> reachable s' ->
  (forall x, jv1 x = bessel_J1 x) -> (1 < Z.of_nat fuel)%Z -> placement rnd n_r -> (3 <= n_phi)%Z -> wavelength <> 0 -> NA <> 0 -> (3 <= kernel_size)%Z ->
  exists K K', snd (get_psf_kernel rnd jv1 fuel (0, 0)%Z px c wavelength NA n_r n_phi false true kernel_size mt s) = Ok K /\
    snd (get_psf_kernel rnd jv1 fuel (0, 0)%Z px c' wavelength NA n_r n_phi false false kernel_size mt' s') = Ok K' /\
    let size := made_odd kernel_size in square K size /\ square K' size /\
    forall i j rho t, (0 <= i < size)%Z -> (0 <= j < size)%Z -> polar (IZR (size / 2 - j)) (IZR (size / 2 - i)) rho t ->
      exists v v', entry K i j = Some (Fin v) /\ entry K' i j = Some (Fin v') /\
        Rabs (v - v') <= accuracy n_r n_phi 0 0 (2 * PI / wavelength * NA * px * rho) + 5 / 10 ^ 11.
Proof.
  intros rnd jv1 mt mt' fuel px c c' wavelength NA n_r n_phi kernel_size s s' Hs Hs' HJ FU PL N W A S.
  destruct (C32_airy_kernel rnd jv1 mt fuel (0, 0)%Z px c wavelength NA n_r n_phi false kernel_size s Hs W A S) as (K & v & EK & HK & VK).
  assert (OK : okp fuel (0, 0)%Z) by (unfold okp, valid; cbn [fst snd]; split; [split; [lia|split; [lia|exists 0%Z; lia]]|lia]).
  exists K. eexists. split; [exact EK|]. split; [apply isok_run; [|exact Hs']; apply single_isok; try assumption; try lia; apply placement_good, PL|].
  rewrite made_odd_eq. set (size := made_odd kernel_size) in *. assert (Q := odd_size_ge kernel_size). rewrite made_odd_eq in Q. fold size in Q.
  set (w := value_at rnd n_r n_phi wavelength NA px (fun x phi => c' / wavelength * Zv (0, 0)%Z x phi) size).
  assert (H : holds_raw (finish false (table w size)) size w) by (apply (finish_holds false); lia). destruct H as (SQ & H). destruct HK as (SQ' & HK).
  cbv zeta. split; [exact SQ'|]. split; [exact SQ|]. intros i j rho t Hi Hj PO. exists (v i j), (w i j). split; [apply HK; assumption|]. split; [apply H; assumption|].
  rewrite (VK i j rho t PO). unfold w. rewrite (value_polar _ _ _ _ _ _ _ _ _ _ _ _ PO). set (r := 2 * PI / wavelength * NA * px * rho).
  pose proof (C53_airy_ref_pattern jv1 (c' / wavelength) r t HJ) as B1.
  assert (V : all_valid [(0, 0)%Z]) by (constructor; [apply OK|constructor]).
  pose proof (psf_zsum_converges [(0, 0)%Z] [c' / wavelength] r t rnd n_r n_phi V PL N) as B2.
  assert (E1 : psf_rnd rnd n_r n_phi (fun x phi => zsum [c' / wavelength] [(0, 0)%Z] x phi) r t = psf_rnd rnd n_r n_phi (fun x phi => c' / wavelength * Zv (0, 0)%Z x phi) r t).
  { unfold psf_rnd. apply psf_on_ext; [intros; symmetry; apply zsum_one|reflexivity]. }
  assert (E2 : diffraction_integral (fun x phi => zsum [c' / wavelength] [(0, 0)%Z] x phi) r t = diffraction_integral (fun _ _ => c' / wavelength) r t).
  { unfold diffraction_integral. f_equal. f_equal; f_equal; apply RInt_ext; intros phi _; apply RInt_ext; intros p _; rewrite zsum_const; reflexivity. }
  rewrite E1, E2 in B2. replace (steep_r [c' / wavelength] [(0, 0)%Z]) with 0 in B2 by (cbn; unfold slope; cbn; lra).
  replace (steep_t [c' / wavelength] [(0, 0)%Z]) with 0 in B2 by (cbn; lra).
  apply Rabs_le_inv in B1, B2. apply Rabs_le. lra.
Qed.
Print Assumptions C53_kernels_agree.
(** in the focus the code's analytical value is 1 up to 5e-11 *)
Theorem C53_centre : forall jv1, (forall x, jv1 x = bessel_J1 x) -> Rabs (airy_ref_pattern jv1 0 - 1) <= 5 / 10 ^ 11.
Proof. intros jv1 H. pose proof (C53_airy_ref_pattern jv1 0 0 0 H) as E. destruct (C53_integral_is_airy 0 0 0) as (_ & I1 & _). rewrite I1 in E; [exact E|reflexivity]. Qed.
Print Assumptions C53_centre.
Example C53_nonvacuous : (forall x, bessel_J1 x = bessel_J1 x) /\ placement b64 100 /\ (1 < Z.of_nat 1000)%Z.
Proof. split; [reflexivity|]. split; [right; split; [reflexivity|split; [lia|apply Z.le_trans with (2 ^ 17)%Z; [lia|apply (Z.pow_le_mono_r 2 17 50); lia]]]|lia]. Qed.
