(** Property theorems C66: a tilt moves the PSF without changing it. *)
From Coq Require Import Reals Lra Lia List.
From Coquelicot Require Import Coquelicot.
From Verif Require Import Py SpecIndex SpecRadial M_Radial M_Coeffs SpecCoeffs M_Sum SpecSum L_Sum M_Polar L_Polar M_Geo SpecGeo L_Geo M_Psf SpecPsf L_Psf L_PsfKernel SpecDiff L_Conv2 P_Psf P_Conv
  SpecFloat M_Float SpecFloatPsf M_FloatPsf L_FPsf5 P_FPsf SpecDisk L_Disk L_Strehl P_Strehl L_Sym SpecSym L_Strehl2.
Import ListNotations.
Local Open Scope R_scope.

(** the diffraction integral: coefficients a of (1, 1) and b of (-1, 1) move the point (x, y) by (-2 a, -2 b) *)
Theorem C66_integral : forall cs ps a b x y rho t rho' t', polar x y rho t -> polar (x - 2 * a) (y - 2 * b) rho' t' ->
  diffraction_integral (zsum (a :: b :: cs) ((1, 1) :: (-1, 1) :: ps)%Z) rho t = diffraction_integral (zsum cs ps) rho' t'.
Proof.
  intros cs ps a b x y rho t rho' t' P P'. apply (diff_tilt _ _ (2 * a) (2 * b) x y); [|exact P|exact P'].
  intros p phi. cbn [zsum]. rewrite Z11, Zm11. ring.
Qed.
Print Assumptions C66_integral.

Lemma changed_one l1 l2 q a1 a2 a a' r theta : all_valid (l1 ++ q :: l2) -> length a1 = length l1 ->
  Rabs (diffraction_integral (zsum (a1 ++ a :: a2) (l1 ++ q :: l2)) r theta - diffraction_integral (zsum (a1 ++ a' :: a2) (l1 ++ q :: l2)) r theta) <= 2 * Rabs (a - a').
Proof.
  intros V L. eapply Rle_trans; [apply diff_stable; apply zsum_nice, V|]. apply Rmult_le_compat_l; [lra|].
  assert (Vq : valid (fst q) (snd q)) by (apply Forall_app in V; destruct V as (_ & V); inversion V; assumption).
  right. rewrite <- sqrt_Rsqr_abs. f_equal.
  transitivity (disk_mean (fun p phi => Rsqr (a - a') * (Z_nm (fst q) (snd q) p phi * Z_nm (fst q) (snd q) p phi) + 0 * 0)).
  - apply mean_ext. intros p phi _. rewrite !zsum_insert by exact L. unfold Rsqr. ring.
  - rewrite (mean_lin (Rsqr (a - a')) 0 (fun p phi => Z_nm (fst q) (snd q) p phi * Z_nm (fst q) (snd q) p phi) (fun _ _ => 0)).
    + rewrite mean_ortho by assumption. unfold delta. cbn [fst snd]. destruct (Z.eq_dec (fst q) (fst q)) as [_|N]; [|destruct (N eq_refl)]. destruct (Z.eq_dec (snd q) (snd q)) as [_|N]; [ring|destruct (N eq_refl)].
    + apply (nice_mult (Z_nm (fst q) (snd q)) (Z_nm (fst q) (snd q))); apply Z_nice, Vq.
    + apply nice_const.
Qed.

Lemma okp_tilt fuel m : (2 < Z.of_nat fuel)%Z -> m = 1%Z \/ m = (-1)%Z -> okp fuel (m, 1%Z).
Proof. intros F [-> | ->]; unfold okp, valid; cbn [fst snd]; (split; [split; [lia|split; [lia|exists 0%Z; lia]]|lia]). Qed.
Lemma made_odd_ge kernel_size : (kernel_size <= made_odd kernel_size)%Z.
Proof. unfold made_odd. destruct (Z.even kernel_size); lia. Qed.

(** the calculated kernel (exact arithmetic, or binary64 placement of the radial nodes): every pixel value moves by d pixels, exactly *)
Theorem C66_kernel : forall rnd fuel l1 l2 a1 a2 a (m : Z) (d : Z) px wavelength NA n_r n_phi kernel_size s s', reachable s -> reachable s' ->
  l1 ++ l2 <> [] -> length a1 = length l1 -> length a2 = length l2 -> Forall (okp fuel) (l1 ++ l2) -> (2 < Z.of_nat fuel)%Z ->
  placement rnd n_r -> (1 <= n_phi)%Z -> wavelength <> 0 -> NA <> 0 -> (1 <= kernel_size)%Z -> m = 1%Z \/ m = (-1)%Z ->
  2 * a = pixel_units wavelength NA px * IZR d ->
  exists K K', snd (get_psf_kernel_zerns rnd fuel (l1 ++ l2) (a1 ++ a2) px wavelength NA kernel_size n_r n_phi false s) = Ok K /\
    snd (get_psf_kernel_zerns rnd fuel (l1 ++ (m, 1%Z) :: l2) (a1 ++ a :: a2) px wavelength NA kernel_size n_r n_phi false s') = Ok K' /\
    let size := made_odd kernel_size in square K size /\ square K' size /\
    forall i j, (0 <= i < size)%Z -> (0 <= j < size)%Z ->
      (m = 1%Z -> (0 <= j + d < size)%Z -> entry K' i j = entry K i (j + d)) /\
      (m = (-1)%Z -> (0 <= i + d < size)%Z -> entry K' i j = entry K (i + d) j).
Proof.
  intros rnd fuel l1 l2 a1 a2 a m d px wavelength NA n_r n_phi kernel_size s s' Hs Hs' NE L1 L2 OK FU PL P W A S M E. apply placement_good in PL.
  apply Forall_app in OK as OK'. destruct OK' as [O1 O2]. eexists _, _.
  split; [apply isok_run; [|exact Hs]; apply zerns_isok; try assumption; [lia|rewrite !app_length; congruence|lia]|].
  split; [apply isok_run; [|exact Hs']; apply zerns_isok; try assumption; [lia|destruct l1; discriminate|rewrite !app_length; cbn [length]; congruence| |lia]|].
  { apply Forall_app. split; [exact O1|]. constructor; [apply okp_tilt; assumption|exact O2]. }
  cbv zeta. rewrite made_odd_eq. set (size := made_odd kernel_size). pose proof (made_odd_ge kernel_size) as G. fold size in G.
  split; [unfold finish; rewrite table_map; apply table_square; lia|]. split; [unfold finish; rewrite table_map; apply table_square; lia|].
  assert (Q : forall x phi, zsum (a1 ++ a :: a2) (l1 ++ (m, 1%Z) :: l2) x phi = zsum (a1 ++ a2) (l1 ++ l2) x phi + a * Z_nm m 1 x phi)
    by (intros x phi; apply (zsum_insert l1 l2 (m, 1%Z)); exact L1).
  intros i j Hi Hj. split; intros -> Hd; rewrite !finish_entry by assumption; f_equal; f_equal.
  - rewrite (value_tilt rnd n_r n_phi wavelength NA px (fun x phi => zsum (a1 ++ a2) (l1 ++ l2) x phi) _ d 0); [rewrite Z.add_0_r; reflexivity|].
    intros p phi. rewrite Q, Z11. fold (pixel_units wavelength NA px). replace (a * (2 * (p * cos phi))) with (2 * a * (p * cos phi)) by ring. rewrite E. ring.
  - rewrite (value_tilt rnd n_r n_phi wavelength NA px (fun x phi => zsum (a1 ++ a2) (l1 ++ l2) x phi) _ 0 d); [rewrite Z.add_0_r; reflexivity|].
    intros p phi. rewrite Q, Zm11. fold (pixel_units wavelength NA px). replace (a * (2 * (p * sin phi))) with (2 * a * (p * sin phi)) by ring. rewrite E. ring.
Qed.
Print Assumptions C66_kernel.
(** a single tilt with amplitude alpha = pi NA px d: the PSF without aberration, moved by d pixels *)
Theorem C66_single : forall rnd jv1 mt mt' fuel (m d : Z) c px alpha wavelength NA n_r n_phi kernel_size s s', reachable s -> reachable s' ->
  (2 < Z.of_nat fuel)%Z -> placement rnd n_r -> (1 <= n_phi)%Z -> wavelength <> 0 -> NA <> 0 -> (3 <= kernel_size)%Z -> m = 1%Z \/ m = (-1)%Z ->
  alpha = PI * NA * px * IZR d ->
  exists K K', snd (get_psf_kernel rnd jv1 fuel (0, 0)%Z px c wavelength NA n_r n_phi false false kernel_size mt s) = Ok K /\
    snd (get_psf_kernel rnd jv1 fuel (m, 1%Z) px alpha wavelength NA n_r n_phi false false kernel_size mt' s') = Ok K' /\
    let size := made_odd kernel_size in square K size /\ square K' size /\
    forall i j, (0 <= i < size)%Z -> (0 <= j < size)%Z ->
      (m = 1%Z -> (0 <= j + d < size)%Z -> entry K' i j = entry K i (j + d)) /\
      (m = (-1)%Z -> (0 <= i + d < size)%Z -> entry K' i j = entry K (i + d) j).
Proof.
  intros rnd jv1 mt mt' fuel m d c px alpha wavelength NA n_r n_phi kernel_size s s' Hs Hs' FU PL P W A S M E. apply placement_good in PL.
  assert (O0 : okp fuel (0, 0)%Z) by (unfold okp, valid; cbn [fst snd]; split; [split; [lia|split; [lia|exists 0%Z; lia]]|lia]).
  eexists _, _. split; [apply isok_run; [|exact Hs]; apply single_isok; try assumption; lia|].
  split; [apply isok_run; [|exact Hs']; apply single_isok; try assumption; [lia|apply okp_tilt; assumption]|].
  cbv zeta. rewrite made_odd_eq. set (size := made_odd kernel_size). pose proof (made_odd_ge kernel_size) as G. fold size in G.
  split; [unfold finish; rewrite table_map; apply table_square; lia|]. split; [unfold finish; rewrite table_map; apply table_square; lia|].
  assert (E2 : alpha / wavelength * 2 = pixel_units wavelength NA px * IZR d) by (unfold pixel_units; rewrite E; field; exact W).
  assert (SH : forall i j, value_at rnd n_r n_phi wavelength NA px (fun x phi => c / wavelength * Zv (0, 0)%Z x phi) size i j = value_at rnd n_r n_phi wavelength NA px (fun _ _ => 0) size i j).
  { intros i j. apply (value_shift rnd n_r n_phi wavelength NA px (fun _ _ => 0) _ (c / wavelength)). intros x phi. unfold Zv. cbn [fst snd]. rewrite Z00. ring. }
  intros i j Hi Hj. split; intros -> Hd; rewrite !finish_entry by assumption; f_equal; f_equal; rewrite SH.
  - rewrite (value_tilt rnd n_r n_phi wavelength NA px (fun _ _ => 0) _ d 0); [rewrite Z.add_0_r; reflexivity|].
    intros p phi. unfold Zv. cbn [fst snd]. rewrite Z11. fold (pixel_units wavelength NA px). replace (alpha / wavelength * (2 * (p * cos phi))) with (alpha / wavelength * 2 * (p * cos phi)) by ring. rewrite E2. ring.
  - rewrite (value_tilt rnd n_r n_phi wavelength NA px (fun _ _ => 0) _ 0 d); [rewrite Z.add_0_r; reflexivity|].
    intros p phi. unfold Zv. cbn [fst snd]. rewrite Zm11. fold (pixel_units wavelength NA px). replace (alpha / wavelength * (2 * (p * sin phi))) with (alpha / wavelength * 2 * (p * sin phi)) by ring. rewrite E2. ring.
Qed.
Print Assumptions C66_single.

(** ** the same for what is calculated, in binary64: d pixels up to the errors of the calculation and the rounding of the amplitude *)
Lemma polar_scaled c x y rho t : 0 < c -> polar x y rho t -> polar (c * x) (c * y) (c * rho) t.
Proof. intros C (A & B & E & F). unfold polar. rewrite <- E, <- F. split; [apply Rmult_le_pos; lra|]. split; [exact B|]. split; ring. Qed.
Lemma ordinary_pos x : ordinary x -> 0 < x.
Proof. intros (A & _). eapply Rlt_le_trans; [|exact A]. apply Rinv_0_lt_compat, pow_lt. lra. Qed.
Theorem C66_binary64 : forall pw fcos fsin npsum fhyp fsq fatan2 fuel l1 l2 a1 a2 a (m d : Z) px wavelength NA n_r n_phi kernel_size s s', numpy64 pw fcos fsin npsum fhyp fsq fatan2 ->
  reachable s -> reachable s' -> l1 ++ l2 <> [] -> length a1 = length l1 -> length a2 = length l2 -> Forall (okp fuel) (l1 ++ l2) -> (2 < Z.of_nat fuel)%Z ->
  (length (l1 ++ l2) < 2 ^ 20)%nat -> (20 <= n_r <= 2 ^ 24)%Z -> (36 <= n_phi <= 2 ^ 24)%Z -> ordinary wavelength -> ordinary NA -> ordinary px -> (1 <= kernel_size < 2 ^ 53)%Z ->
  m = 1%Z \/ m = (-1)%Z ->
  exists K K', snd (fget_psf_kernel_zerns near64 pw fcos fsin npsum fhyp fsq fatan2 fuel (l1 ++ l2) (a1 ++ a2) px wavelength NA kernel_size n_r n_phi false s) = Ok K /\
    snd (fget_psf_kernel_zerns near64 pw fcos fsin npsum fhyp fsq fatan2 fuel (l1 ++ (m, 1%Z) :: l2) (a1 ++ a :: a2) px wavelength NA kernel_size n_r n_phi false s') = Ok K' /\
    let size := made_odd kernel_size in
    forall i j i' j', (0 <= i < size)%Z -> (0 <= j < size)%Z -> (0 <= i' < size)%Z -> (0 <= j' < size)%Z ->
      (m = 1%Z /\ i' = i /\ j' = j + d \/ m = (-1)%Z /\ i' = i + d /\ j' = j)%Z ->
      exists x x', entry K i' j' = Some (Fin x) /\ entry K' i j = Some (Fin x') /\
      forall rho t rho' t', polar (IZR (size / 2 - j)) (IZR (size / 2 - i)) rho t -> polar (IZR (size / 2 - j')) (IZR (size / 2 - i')) rho' t' ->
      Rabs (x' - x) <= Rabs (2 * a - pixel_units wavelength NA px * IZR d) +
        total_error n_r n_phi (a1 ++ a2) (l1 ++ l2) (pixel_units wavelength NA px * rho') +
        total_error n_r n_phi (a1 ++ a :: a2) (l1 ++ (m, 1%Z) :: l2) (pixel_units wavelength NA px * rho).
Proof.
  intros pw fcos fsin npsum fhyp fsq fatan2 fuel l1 l2 a1 a2 a m d px wavelength NA n_r n_phi kernel_size s s' NP RS RS' NE L1 L2 OK FU KM NR NPH OW ON OP KS M.
  assert (OK' : Forall (okp fuel) (l1 ++ (m, 1%Z) :: l2)).
  { apply Forall_app in OK as (O1 & O2). apply Forall_app. split; [exact O1|]. constructor; [apply okp_tilt; assumption|exact O2]. }
  assert (LL : length (a1 ++ a2) = length (l1 ++ l2)) by (rewrite !app_length; congruence).
  assert (LL' : length (a1 ++ a :: a2) = length (l1 ++ (m, 1%Z) :: l2)) by (rewrite !app_length; cbn [length]; congruence).
  assert (KM' : (length (l1 ++ (m, 1%Z) :: l2) <= 2 ^ 20)%nat).
  { rewrite app_length in KM |- *. cbn [length]. rewrite Nat.add_succ_r. exact KM. }
  assert (NE' : l1 ++ (m, 1%Z) :: l2 <> []) by (destruct l1; discriminate).
  destruct (C59_kernel_list pw fcos fsin npsum fhyp fsq fatan2 fuel (l1 ++ l2) (a1 ++ a2) px wavelength NA n_r n_phi false kernel_size s NP RS OK NE LL (Nat.lt_le_incl _ _ KM) NR NPH OW ON OP KS) as (K & v & E & (_ & H) & V).
  destruct (C59_kernel_list pw fcos fsin npsum fhyp fsq fatan2 fuel _ (a1 ++ a :: a2) px wavelength NA n_r n_phi false kernel_size s' NP RS' OK' NE' LL' KM' NR NPH OW ON OP KS) as (K' & v' & E' & (_ & H') & V').
  exists K, K'. split; [exact E|]. split; [exact E'|]. cbv zeta in *. set (size := made_odd kernel_size) in *. intros i j i' j' Hi Hj Hi' Hj' MM. exists (v i' j'), (v' i j).
  split; [apply H; assumption|]. split; [apply H'; assumption|]. intros rho t rho' t' PO PO'. specialize (V i' j' rho' t' Hi' Hj' PO'). specialize (V' i j rho t Hi Hj PO).
  fold (pixel_units wavelength NA px) in V, V'. set (kap := pixel_units wavelength NA px) in *.
  change (fun x phi => zsum (a1 ++ a2) (l1 ++ l2) x phi) with (zsum (a1 ++ a2) (l1 ++ l2)) in V.
  change (fun x phi => zsum (a1 ++ a :: a2) (l1 ++ (m, 1%Z) :: l2) x phi) with (zsum (a1 ++ a :: a2) (l1 ++ (m, 1%Z) :: l2)) in V'.
  assert (KP : 0 < kap).
  { unfold kap, pixel_units. pose proof PI_RGT_0. apply ordinary_pos in OW, ON, OP. apply Rmult_lt_0_compat; [|exact OP]. apply Rmult_lt_0_compat; [|exact ON]. apply Rdiv_lt_0_compat; [lra|exact OW]. }
  assert (T : diffraction_integral (zsum (a1 ++ kap * IZR d / 2 :: a2) (l1 ++ (m, 1%Z) :: l2)) (kap * rho) t = diffraction_integral (zsum (a1 ++ a2) (l1 ++ l2)) (kap * rho') t').
  { pose proof (polar_scaled kap _ _ _ _ KP PO) as PS. pose proof (polar_scaled kap _ _ _ _ KP PO') as PS'.
    destruct MM as [(-> & -> & ->)|(-> & -> & ->)].
    - apply (diff_tilt _ _ (kap * IZR d) 0 (kap * IZR (size / 2 - j)) (kap * IZR (size / 2 - i))); [|exact PS|].
      + intros p phi. rewrite zsum_insert by exact L1. cbn [fst snd]. rewrite Z11. field.
      + replace (kap * IZR (size / 2 - j) - kap * IZR d) with (kap * IZR (size / 2 - (j + d))) by (rewrite !minus_IZR, plus_IZR; ring). rewrite Rminus_0_r. exact PS'.
    - apply (diff_tilt _ _ 0 (kap * IZR d) (kap * IZR (size / 2 - j)) (kap * IZR (size / 2 - i))); [|exact PS|].
      + intros p phi. rewrite zsum_insert by exact L1. cbn [fst snd]. rewrite Zm11. field.
      + replace (kap * IZR (size / 2 - i) - kap * IZR d) with (kap * IZR (size / 2 - (i + d))) by (rewrite !minus_IZR, plus_IZR; ring). rewrite Rminus_0_r. exact PS'. }
  assert (VV : all_valid (l1 ++ (m, 1%Z) :: l2)) by (eapply valid_of; exact OK').
  pose proof (changed_one l1 l2 (m, 1%Z) a1 a2 a (kap * IZR d / 2) (kap * rho) t VV L1) as C. rewrite T in C.
  assert (AB : Rabs (2 * a - kap * IZR d) = 2 * Rabs (a - kap * IZR d / 2)).
  { replace (2 * a - kap * IZR d) with (2 * (a - kap * IZR d / 2)) by field. rewrite Rabs_mult, (Rabs_pos_eq 2) by lra. reflexivity. }
  rewrite AB. unfold total_error. apply Rcomplements.Rabs_le_between in V. apply Rcomplements.Rabs_le_between in V'. apply Rcomplements.Rabs_le_between in C. apply Rabs_le. lra.
Qed.
Print Assumptions C66_binary64.

(** a coma with a horizontal tilt of 3 pixels on a kernel of 21 pixels: column 5 is column 8 of the kernel without the tilt *)
Example C66_nonvacuous : forall s, reachable s -> exists K K',
  snd (get_psf_kernel_zerns b64 1000 [(1, 3)]%Z [/ 2] (/ 10) (1 / 2) 1 21 40 180 false s) = Ok K /\
  snd (get_psf_kernel_zerns b64 1000 [(1, 3); (1, 1)]%Z [/ 2; PI * (6 / 10)] (/ 10) (1 / 2) 1 21 40 180 false s) = Ok K' /\ entry K' 10 5 = entry K 10 8.
Proof.
  intros s Hs. assert (PL : placement b64 40) by (right; split; [reflexivity|split; [lia|apply (Z.pow_le_mono_r 2 6 50); lia]]).
  assert (OK : Forall (okp 1000) [(1, 3)]%Z) by (constructor; [unfold okp, valid; cbn [fst snd]; split; [split; [lia|split; [lia|exists 1%Z; lia]]|lia]|constructor]).
  assert (AM : 2 * (PI * (6 / 10)) = pixel_units (1 / 2) 1 (/ 10) * IZR 3) by (unfold pixel_units; field).
  destruct (C66_kernel b64 1000 [(1, 3)]%Z [] [/ 2] [] (PI * (6 / 10)) 1 3 (/ 10) (1 / 2) 1 40 180 21 s s Hs Hs ltac:(discriminate) eq_refl eq_refl OK ltac:(lia) PL ltac:(lia) ltac:(lra) ltac:(lra) ltac:(lia)
    (or_introl eq_refl) AM) as (K & K' & E & E' & _ & _ & Q). exists K, K'. split; [exact E|]. split; [exact E'|].
  destruct (Q 10 5 ltac:(cbn; lia) ltac:(cbn; lia))%Z as (Q1 & _). exact (Q1 eq_refl ltac:(cbn; lia)).
Qed.
