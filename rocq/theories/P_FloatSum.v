(** Property theorems C64: sums of polynomials, surfaces and phase images in binary64. Every arithmetic operation is rounded to
    nearest, ties to even; numpy's functions are only assumed to be accurate to one unit in the last place. *)
From Coq Require Import Reals Lra Lia List.
From Flocq Require Import Core.
From Verif Require Import Py SpecIndex SpecRadial M_Radial M_Coeffs SpecCoeffs L_Cache M_Sum SpecSum L_Sum M_Polar L_Polar M_Geo SpecGeo L_Geo M_Phases SpecPhases L_Phases
  SpecDiff L_Fit SpecFloat M_Float L_Float L_FloatC L_FPsf5 L_FPsf7 P_FPsf SpecFloatPsf M_FloatSum SpecFloatSum L_FloatSum.
Import ListNotations.
Local Open Scope R_scope.

(** without rounding and with exact functions, the programs are those of C20 and C26 *)
Theorem C64_unrounded_sum : forall fuel cs ps r theta s s', reachable s -> reachable s' -> cs <> [] -> length cs = length ps -> Forall (okp fuel) ps -> 0 <= r <= 1 ->
  exists v, snd (fsum_point (fun x => x) powerRZ cos sin fuel cs ps r theta s) = Ok v /\
    snd (sum_zernikes fuel cs (map Some ps) (RNum (Fin r)) (RNum (Fin theta)) false s') = Ok (SVal (KFloat (Fin v))).
Proof.
  intros fuel cs ps r theta s s' RS RS' N L OK D. exists (zsum cs ps r theta). split; [apply (fsum_isok0 fuel cs ps r theta D OK N L s RS)|].
  assert (F : Forall (fun q => in_disk (fst q)) [(r, theta)]) by (constructor; [exact D|constructor]).
  apply (sum_zernikes_points fuel cs ps _ _ _ _ N L OK (bc_ff r theta) F s' RS').
Qed.
Print Assumptions C64_unrounded_sum.
Theorem C64_unrounded_surface : forall fuel cs ps rs ts s, reachable s -> cs <> [] -> length cs = length ps -> Forall (okp fuel) ps -> Forall in_disk rs ->
  exists f, snd (sum_zernikes fuel cs (map Some ps) (RArr (map Fin rs)) (RArr (map Fin ts)) true s) = Ok (SMat (length rs) (length ts) f) /\
    forall i j s', reachable s' -> (i < length rs)%nat -> (j < length ts)%nat ->
      exists v, f i j = Fin v /\ snd (fsurface_point (fun x => x) powerRZ cos sin fuel cs ps (nth i rs 0) (nth j ts 0) s') = Ok v.
Proof.
  intros fuel cs ps rs ts s RS N L OK F. destruct (sum_zernikes_surface fuel cs ps rs ts N L OK F s RS) as (_ & v & E & f & -> & H).
  exists f. split; [exact E|]. intros i j s' RS' Hi Hj. exists (zsum cs ps (nth i rs 0) (nth j ts 0)). split; [apply H; assumption|].
  assert (D : in_disk (nth i rs 0)) by (rewrite Forall_forall in F; apply F, nth_In, Hi).
  apply (fsurf_isok0 fuel cs ps _ _ D OK N L s' RS').
Qed.
Print Assumptions C64_unrounded_surface.
Theorem C64_unrounded_image : forall fuel ps cs w h s s', reachable s -> reachable s' -> cs <> [] -> length cs = length ps -> Forall (okp fuel) ps -> (0 < w)%Z -> (0 <= h)%Z ->
  exists img, snd (fphases_image (fun x => x) powerRZ cos sin arctan2 fuel ps cs w h s) = Ok img /\
    snd (generate_phases_image fuel (map Some ps) cs w h s') = Ok (map (map Fin) img).
Proof.
  intros fuel ps cs w h s s' RS RS' N L OK Hw Hh. eexists. split; [apply (fimage_isok0 fuel ps cs w h N L OK Hw Hh s RS)|].
  unfold generate_phases_image. replace ((w <? 0)%Z || (h <? 0)%Z)%bool with false by lia.
  rewrite (proj2 (phase_rows_ok fuel cs ps w h N L OK Hw Hh (zrange 0 (Z.to_nat h)) s' RS')). f_equal. rewrite map_map. apply map_ext. intros i.
  unfold row_of. rewrite map_map. apply map_ext. intros j. destruct (in_aperture w h i j); reflexivity.
Qed.
Print Assumptions C64_unrounded_image.

Lemma len20 {A} (ps : list A) : (length ps <= 2 ^ 20)%nat -> INR (length ps) <= 1048576.
Proof.
  intros H. rewrite INR_IZR_INZ. apply (IZR_le _ 1048576). apply Nat2Z.inj_le in H. rewrite Nat2Z.inj_pow in H. change (Z.of_nat 2 ^ Z.of_nat 20)%Z with 1048576%Z in H. exact H.
Qed.
(** sum_zernikes at a point: r a float, the angle within (-7, 7) *)
Theorem C64_sum_error : forall pw fcos fsin fuel cs ps r theta s, power_within_ulp pw -> trig_within_ulp fcos fsin -> reachable s ->
  cs <> [] -> length cs = length ps -> Forall (okp fuel) ps -> (length ps <= 2 ^ 20)%nat -> float64 r -> 0 <= r <= 1 -> Rabs theta <= 7 ->
  exists v, snd (fsum_point near64 pw fcos fsin fuel cs ps r theta s) = Ok v /\ Rabs (v - zsum cs ps r theta) <= sum_error cs ps.
Proof.
  intros pw fcos fsin fuel cs ps r theta s PW TR RS N L OK KM Fr Hr H7. apply len20 in KM.
  destruct (fsum_okq pw fcos fsin PW TR fuel r theta Fr Hr H7 ps cs OK N L KM s RS) as (_ & v & E & H). exists v. split; assumption.
Qed.
Print Assumptions C64_sum_error.
Theorem C64_surface_error : forall pw fcos fsin fuel cs ps r theta s, power_within_ulp pw -> trig_within_ulp fcos fsin -> reachable s ->
  cs <> [] -> length cs = length ps -> Forall (okp fuel) ps -> (length ps <= 2 ^ 20)%nat -> float64 r -> 0 <= r <= 1 -> Rabs theta <= 7 ->
  exists v, snd (fsurface_point near64 pw fcos fsin fuel cs ps r theta s) = Ok v /\ Rabs (v - zsum cs ps r theta) <= sum_error cs ps.
Proof.
  intros pw fcos fsin fuel cs ps r theta s PW TR RS N L OK KM Fr Hr H7. apply len20 in KM.
  destruct (fsurf_okq pw fcos fsin PW TR fuel r theta Fr Hr H7 ps cs OK N L KM s RS) as (_ & v & E & H). exists v. split; assumption.
Qed.
Print Assumptions C64_surface_error.

(** phase images: the aperture is exact (no pixel changes sides by rounding), pixels inside are accurate, the background is 0 *)
Theorem C64_image_error : forall pw fcos fsin fatan2 fuel cs ps w h s, power_within_ulp pw -> trig_within_ulp fcos fsin -> angle_within_ulp fatan2 -> reachable s ->
  cs <> [] -> length cs = length ps -> Forall (okp fuel) ps -> (length ps <= 2 ^ 20)%nat -> (0 < w <= 2 ^ 25)%Z -> (0 < h <= 2 ^ 25)%Z ->
  exists img, snd (fphases_image near64 pw fcos fsin fatan2 fuel ps cs w h s) = Ok img /\
    length img = Z.to_nat h /\ (forall row, In row img -> length row = Z.to_nat w) /\
    forall i j, (0 <= i < h)%Z -> (0 <= j < w)%Z ->
      let v := nth (Z.to_nat j) (nth (Z.to_nat i) img []) 0 in
      let x := (j - w / 2)%Z in let y := (h / 2 - i)%Z in let a := (1 + Z.min w h / 2)%Z in
      ((x * x + y * y <= a * a)%Z -> forall rho phi, polar (IZR x) (IZR y) rho phi -> Rabs (v - zsum cs ps (rho / IZR a) phi) <= image_error cs ps) /\
      ((a * a < x * x + y * y)%Z -> v = 0).
Proof.
  intros pw fcos fsin fatan2 fuel cs ps w h s PW TR AT RS N L OK KM Hw Hh. apply len20 in KM.
  destruct (fimage_okq pw fcos fsin PW TR fuel fatan2 cs ps w h AT OK N L KM Hw Hh s RS) as (_ & img & E & H). exists img. split; [exact E|]. exact H.
Qed.
Print Assumptions C64_image_error.

(** Orders up to 10, amplitudes that add up to at most 10, up to 1000 polynomials: the error is below 3e-9. *)
Theorem C64_error_is_small : forall cs ps, length cs = length ps -> (length ps <= 1000)%nat -> Forall (fun p => valid (fst p) (snd p) /\ (snd p <= 10)%Z) ps ->
  fold_right (fun c t => Rabs c + t) 0 cs <= 10 -> sum_error cs ps <= image_error cs ps <= 3 / 10 ^ 9.
Proof.
  intros cs ps L KM V T10.
  assert (P50 : 2 ^ 50 = 1125899906842624) by (rewrite (pow_IZR 2 50); reflexivity). assert (P49 : 2 ^ 49 = 562949953421312) by (rewrite (pow_IZR 2 49); reflexivity).
  assert (P53 : 2 ^ 53 = 9007199254740992) by (rewrite (pow_IZR 2 53); reflexivity).
  assert (B : let T := fold_right (fun c t => Rabs c + t) 0 cs in 0 <= T /\ 0 <= values_error cs ps <= T * (5 * (27640 / 2 ^ 50)) /\ 0 <= size_of cs ps <= T * 5 /\
    0 <= steep_r cs ps <= T * 300 /\ 0 <= steep_t cs ps <= T * 50).
  { clear T10 KM. revert cs L. induction V as [|[m n] ps' ((N0 & M0 & _) & N10) V IH]; intros [|c cs] L; try discriminate; cbn [fold_right values_error size_of steep_r steep_t]; cbn zeta; [lra|].
    injection L as L. specialize (IH cs L). cbn zeta in IH. cbn [fst snd] in N0, M0, N10. set (T := fold_right _ 0 cs) in *. destruct IH as (T0 & B1 & B2 & B3 & B4).
    assert (NN : 0 <= norm_nm m n <= 5).
    { split; [apply sqrt_pos|]. unfold norm_nm. rewrite <- (sqrt_square 5) by lra. apply sqrt_le_1_alt.
      assert (X0 : 0 <= IZR n) by (apply (IZR_le 0); lia). assert (X1 : IZR n <= 10) by (apply (IZR_le _ 10); lia). destruct (m =? 0)%Z; lra. }
    assert (AM : 0 <= IZR (Z.abs m) <= 10) by (split; [apply (IZR_le 0); lia|apply (IZR_le _ 10); lia]).
    assert (SL : 0 <= slope m n <= 60).
    { unfold slope. assert (Z0 : (0 <= n * (n + 2) - m * m <= 120)%Z) by (assert (m * m = Z.abs m * Z.abs m)%Z by nia; nia).
      assert (0 <= IZR (n * (n + 2) - m * m) <= 120) by (split; [apply (IZR_le 0)|apply (IZR_le _ 120)]; lia). lra. }
    assert (RE : 0 <= radial_error n <= 6900 / 2 ^ 50).
    { split; [apply re_nonneg|]. unfold radial_error. unfold Rdiv. apply Rmult_le_compat_r; [rewrite P50; lra|].
      apply Rle_trans with ((242 * / 100) ^ 10); [apply Rle_pow; [lra|lia]|]. cbn [pow]. lra. }
    rewrite P50 in *. rewrite P49. pose proof (Rabs_pos c) as A0. set (a := Rabs c) in *. set (q := norm_nm m n) in *. set (w := IZR (Z.abs m)) in *. set (e := radial_error n) in *. set (sl := slope m n) in *.
    clearbody T a q w e sl.
    assert (AQ : 0 <= a * q <= a * 5) by (split; [apply Rmult_le_pos; lra|apply Rmult_le_compat_l; lra]).
    assert (E0 : 0 <= 4 * e + w / 562949953421312 <= 27640 / 1125899906842624) by lra. set (ee := 4 * e + w / 562949953421312) in *. clearbody ee.
    assert (V1 : 0 <= a * q * ee) by (apply Rmult_le_pos; lra). assert (V2 : a * q * ee <= a * 5 * (27640 / 1125899906842624)) by (apply Rmult_le_compat; lra).
    assert (V3 : 0 <= a * q * sl) by (apply Rmult_le_pos; lra). assert (V4 : a * q * sl <= a * 5 * 60) by (apply Rmult_le_compat; lra).
    assert (V5 : 0 <= a * q * w) by (apply Rmult_le_pos; lra). assert (V6 : a * q * w <= a * 5 * 10) by (apply Rmult_le_compat; lra).
    split; [lra|]. split; [lra|]. split; [lra|]. split; lra. }
  cbn zeta in B. set (T := fold_right _ 0 cs) in *. clearbody T. destruct B as (T0 & B1 & B2 & B3 & B4). unfold image_error, sum_error. rewrite P50 in B1. rewrite P53.
  assert (K : 0 <= INR (length ps) <= 1000). { split; [apply pos_INR|]. rewrite INR_IZR_INZ. apply (IZR_le _ 1000). lia. }
  assert (KS : INR (length ps) * (size_of cs ps + 1) <= 1000 * 51) by (apply Rmult_le_compat; lra). split; [lra|].
  replace (10 ^ 9) with 1000000000 by (cbn [pow]; lra). lra.
Qed.
Print Assumptions C64_error_is_small.

(** correctly rounded functions satisfy the assumptions (C59_functions_exist); an astigmatism and a coma on an image of 100 x 80 pixels *)
Example C64_nonvacuous : power_within_ulp cpow /\ trig_within_ulp (fun x => near64 (cos x)) (fun x => near64 (sin x)) /\ angle_within_ulp (fun y x => near64 (arctan2 y x)) /\
  Forall (okp 1000) [(2, 2); (-1, 3)]%Z /\ (0 < 100 <= 2 ^ 25)%Z /\ reachable import_state /\ float64 (/ 2).
Proof.
  destruct C59_functions_exist as [A B _ _ _ C]. split; [exact A|]. split; [exact B|]. split; [exact C|]. split.
  - constructor; [|constructor; [|constructor]]; (split; [split; [cbn; lia|split; [cbn; lia|]]|cbn; lia]); [exists 0%Z|exists 1%Z]; reflexivity.
  - split; [change (2 ^ 25)%Z with 33554432%Z; lia|]. split; [constructor|]. unfold float64. replace (/ 2) with (bpow radix2 (-1)) by reflexivity.
    apply generic_format_bpow. unfold exp64, FLT_exp. lia.
Qed.
