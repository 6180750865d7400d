(** Property theorems C36: the accelerated kernel. *)
From Coq Require Import Reals Lra Psatz.
From Verif Require Import Py SpecIndex SpecRadial RadialMath M_Radial L_Radial M_Coeffs SpecCoeffs L_CoeffVal L_Value M_Sum SpecSum M_Geo SpecGeo L_Sum M_Polar L_Polar L_Geo M_Fit L_Fit M_Psf SpecPsf L_Psf L_PsfKernel L_PsfNodes P_Psf M_Numba L_Numba.
Local Open Scope R_scope.

(** accepted (n <= 10) polynomials other than |m| = n >= 8: both calculations return the same kernel *)
Theorem C36_single_partial : forall rnd jv1 mt fuel m n px alpha wavelength NA n_r n_phi (normalize : bool) kernel_size s s', reachable s -> reachable s' ->
  okp fuel (m, n) -> (n <= 10)%Z -> ~ ((8 <= n)%Z /\ Z.abs m = n) ->
  placement rnd n_r -> (1 <= n_phi)%Z -> wavelength <> 0 -> NA <> 0 -> (3 <= kernel_size)%Z ->
  exists K, snd (get_psf_kernel rnd jv1 fuel (m, n) px alpha wavelength NA n_r n_phi normalize false kernel_size mt s) = Ok K /\
            snd (get_psf_kernel_comp rnd (Single (m, n)) px (AFloat alpha) wavelength NA n_r n_phi normalize kernel_size s') = Ok K.
Proof.
  intros rnd jv1 mt fuel m n px alpha wavelength NA n_r n_phi normalize kernel_size s s' Hs Hs' OK L N PL P W A S. apply placement_good in PL.
  assert (C : comp_ok (m, n)) by (split; [apply OK|split; assumption]).
  eexists. split; (apply isok_run; [|assumption]); [apply single_isok; try assumption; lia|].
  apply comp_single_isok; try assumption; lia.
Qed.
Print Assumptions C36_single_partial.
Theorem C36_list_partial : forall rnd fuel ps amps px wavelength NA n_r n_phi (normalize : bool) kernel_size s s', reachable s -> reachable s' ->
  ps <> [] -> length amps = length ps -> Forall (okp fuel) ps -> (forall m n, In (m, n) ps -> (n <= 10)%Z /\ ~ ((8 <= n)%Z /\ Z.abs m = n)) ->
  placement rnd n_r -> (1 <= n_phi)%Z -> wavelength <> 0 -> NA <> 0 -> (0 <= kernel_size)%Z ->
  exists K, snd (get_psf_kernel_zerns rnd fuel ps amps px wavelength NA kernel_size n_r n_phi normalize s) = Ok K /\
            snd (get_psf_kernel_comp rnd (Several ps) px (AArr amps) wavelength NA n_r n_phi normalize kernel_size s') = Ok K.
Proof.
  intros rnd fuel ps amps px wavelength NA n_r n_phi normalize kernel_size s s' Hs Hs' NE L OK H PL P W A S. apply placement_good in PL.
  assert (C : Forall comp_ok ps).
  { rewrite Forall_forall in *. intros [m n] I. destruct (H m n I) as [H1 H2]. split; [apply (OK (m, n) I)|split; assumption]. }
  eexists. split; (apply isok_run; [|assumption]); [apply zerns_isok; try assumption; lia|].
  apply comp_list_isok; try assumption; lia.
Qed.
Print Assumptions C36_list_partial.
Example C36_nonvacuous : okp 1000 (6, 10)%Z /\ (10 <= 10)%Z /\ ~ ((8 <= 10)%Z /\ Z.abs 6 = 10%Z) /\ placement b64 24.
Proof.
  split; [|split; [lia|split; [intros [_ H]; discriminate H|apply C33_nonvacuous]]]. unfold okp, valid. cbn [fst snd]. split; [split; [lia|split; [lia|exists 2%Z; lia]]|lia].
Qed.

(** |m| = n for n = 8, 9, 10: the accelerated code uses r^n, without normalisation and angle, and on the ray theta = 0 this is
    never the value of the polynomial *)
Theorem C36_equal_orders_refuted : forall m n fuel r theta s, reachable s -> okp fuel (m, n) -> (8 <= n <= 10)%Z -> Z.abs m = n -> 0 < r <= 1 ->
  zernpol_value (m, n) r theta = Ok (powerRZ r n) /\
  exists v, snd (polynomial_value fuel (m, n) (RNum (Fin r)) (RNum (Fin 0)) s) = Ok (KFloat (Fin v)) /\ zernpol_value (m, n) r 0 <> Ok v.
Proof.
  intros m n fuel r theta s Hs OK B E Hr. split; [apply zernpol_value_diag; [lia|exact E]|].
  exists (Zv (m, n) r 0). split.
  - apply isok_run; [|exact Hs]. eapply isok_ext; [|apply (value_isok fuel (m, n) _ _ [(r, 0)] (fun l => KFloat (Fin (hd 0 l))) OK); [constructor|]].
    + reflexivity.
    + constructor; [unfold in_disk; cbn [fst]; lra|constructor].
  - rewrite zernpol_value_diag by (try exact E; lia). intros H. injection H as H. unfold Zv, Z_nm in H. cbn [fst snd] in H.
    assert (V : valid m n) by apply OK. rewrite R_nm_F in H by exact V. fold (Fmn m n r) in H. rewrite (Fmn_diag m n r V E) in H.
    assert (P : 0 < powerRZ r n) by (apply powerRZ_lt; lra). unfold T_m in H. destruct (0 <=? m)%Z eqn:S.
    + rewrite Rmult_0_r, cos_0 in H. assert (NN : norm_nm m n = 1) by nra. unfold norm_nm in NN. replace (m =? 0)%Z with false in NN by lia.
      assert (Q : 9 <= 2 * (IZR n + 1) / (1 + 0)) by (assert (8 <= IZR n) by (apply IZR_le; lia); lra).
      apply sqrt_le_1_alt in Q. replace 9 with (3 * 3) in Q by ring. rewrite sqrt_square in Q by lra. rewrite NN in Q. lra.
    + rewrite Rmult_0_r, sin_0 in H. nra.
Qed.
Print Assumptions C36_equal_orders_refuted.

(** a kernel for which both differ: Z(8, 8), amplitude 256/255 pi wavelengths, 2 radial and 8 angular points: the central pixel is dark in the
    accelerated kernel only *)
Lemma centre_value Phi c : (forall phi, In phi [0; 2 * PI; IZR 2 * (2 * PI / IZR 8); IZR 4 * (2 * PI / IZR 8); IZR 1 * (2 * PI / IZR 8); IZR 3 * (2 * PI / IZR 8); IZR 5 * (2 * PI / IZR 8)] ->
    Phi (/ 2) phi = c * (/ 2) ^ 8 /\ Phi 1 phi = c) -> forall r t, r = 0 ->
  psf 2 8 Phi r t = (1 - 2 / 8) ^ 2 * (1 + cos (c - c * (/ 2) ^ 8)) / 2.
Proof.
  intros H r t ->. unfold psf, psf_on. cbv zeta.
  assert (IN : inner_nodes 2 = [/ 2]) by (unfold inner_nodes; change (zrange 1 (Z.to_nat (2 - 1))) with [1%Z]; cbn [map]; unfold Rdiv; rewrite Rmult_1_l; reflexivity). rewrite IN.
  assert (EV : evens 8 = [2; 4]%Z) by reflexivity. assert (OD : odds 8 = [1; 3; 5]%Z) by reflexivity.
  unfold angular. rewrite EV, OD. unfold rsum, trapezoid. cbn [map fold_right]. unfold rsum. cbn [map fold_right].
  assert (Z : forall a b d, a - 0 * b * d = a) by (intros; ring).
  set (p1 := IZR 2 * (2 * PI / IZR 8)) in *. set (p2 := IZR 4 * (2 * PI / IZR 8)) in *. set (p3 := IZR 1 * (2 * PI / IZR 8)) in *.
  set (p4 := IZR 3 * (2 * PI / IZR 8)) in *. set (p5 := IZR 5 * (2 * PI / IZR 8)) in *.
  destruct (H 0) as [A0 B0]; [cbn; auto 10|]. destruct (H (2 * PI)) as [A1 B1]; [cbn; auto 10|]. destruct (H p1) as [A2 B2]; [cbn; auto 10|].
  destruct (H p2) as [A3 B3]; [cbn; auto 10|]. destruct (H p3) as [A4 B4]; [cbn; auto 10|]. destruct (H p4) as [A5 B5]; [cbn; auto 10|]. destruct (H p5) as [A6 B6]; [cbn; auto 10|].
  rewrite !Z, !A0, !A1, !A2, !A3, !A4, !A5, !A6, !B0, !B1, !B2, !B3, !B4, !B5, !B6. set (a := c * (/ 2) ^ 8).
  assert (P : PI <> 0) by apply PI_neq0. rewrite cos_minus.
  assert (S1 := sin2_cos2 a). assert (S2 := sin2_cos2 c). unfold Rsqr in S1, S2.
  replace ((1 - 2 / 8) ^ 2 * (1 + (cos c * cos a + sin c * sin a)) / 2)
    with ((1 - 2 / 8) ^ 2 * ((sin a * sin a + cos a * cos a + (sin c * sin c + cos c * cos c)) / 2 + (cos c * cos a + sin c * sin a)) / 2)
    by (rewrite S1, S2; field). field. exact P.
Qed.
Theorem C36_kernel_refuted : forall jv1 mt px s s', reachable s -> reachable s' ->
  exists K K', snd (get_psf_kernel (fun x => x) jv1 1000 (8, 8)%Z px (256 / 255 * PI) 1 1 2 8 false false 3 mt s) = Ok K /\
               snd (get_psf_kernel_comp (fun x => x) (Single (8, 8)%Z) px (AFloat (256 / 255 * PI)) 1 1 2 8 false 3 s') = Ok K' /\
               entry K' 1 1 = Some (Fin 0) /\ exists v, entry K 1 1 = Some (Fin v) /\ 0 < v.
Proof.
  intros jv1 mt px s s' Hs Hs'. assert (G : good idr 2) by (apply good_exact; lia).
  assert (OK : okp 1000 (8, 8)%Z) by (unfold okp, valid; cbn [fst snd]; split; [split; [lia|split; [lia|exists 0%Z; lia]]|lia]).
  assert (N1 : 1 <> 0) by lra. assert (NP : 8%Z <> 0%Z) by lia.
  eexists. eexists. split; [|split].
  - apply isok_run; [|exact Hs]. apply single_isok; try assumption. lia.
  - apply isok_run; [|exact Hs']. apply (comp_isok idr 2 8 1 1 px G NP N1 N1 _ _ (phase_pol_comp (8, 8)%Z (256 / 255 * PI / 1)) (fun x phi => 256 / 255 * PI / 1 * powerRZ x 8)); [lia| |].
    + apply pointwise_computes. intros x phi. rewrite zernpol_value_diag by lia. reflexivity.
    + unfold pydiv. destruct (Req_EM_T 1 0); [contradiction|]. cbn [bind]. rewrite not_rejected by (cbn; lia). reflexivity.
  - assert (D : forall Phi, value_at idr 2 8 1 1 px Phi 3 1 1 = psf 2 8 Phi (2 * PI / 1 * 1 * px * pix_d 3 1 1) (pix_t 3 1 1)) by (intros Phi; unfold value_at; apply psf_rnd_exact; lia).
    assert (D0 : 2 * PI / 1 * 1 * px * pix_d 3 1 1 = 0).
    { unfold pix_d. change (1 - 3 / 2)%Z with 0%Z. rewrite Rmult_0_r, Rplus_0_r, sqrt_0. ring. }
    split; [|exists (value_at idr 2 8 1 1 px (fun x phi => 256 / 255 * PI / 1 * Zv (8, 8)%Z x phi) 3 1 1); split; [cbn [finish]; rewrite table_map; apply table_entry; cbn; lia|]].
    + cbn [finish]. rewrite table_map. rewrite table_entry by (cbn; lia). do 2 f_equal. change (odd_size 3) with 3%Z. rewrite D.
      rewrite (centre_value _ (256 / 255 * PI)); [|intros phi _; change 8%Z with (Z.of_nat 8); rewrite <- !pow_powerRZ, pow1; split; field|exact D0].
      replace (256 / 255 * PI - 256 / 255 * PI * (/ 2) ^ 8) with PI by field. rewrite cos_PI. field.
    + rewrite D. assert (SQ : 4 < sqrt 18 < 5).
      { split; [replace 4 with (sqrt (4 * 4)) by (apply sqrt_square; lra)|replace 5 with (sqrt (5 * 5)) by (apply sqrt_square; lra)]; apply sqrt_lt_1; lra. }
      rewrite (centre_value _ (256 / 255 * PI * sqrt 18)); [| |exact D0].
      * replace (256 / 255 * PI * sqrt 18 - 256 / 255 * PI * sqrt 18 * (/ 2) ^ 8) with (PI * (sqrt 18 - 4) + 2 * INR 2 * PI) by (cbn [INR]; field).
        rewrite cos_period. assert (PP := PI_RGT_0).
        assert (C : -1 < cos (PI * (sqrt 18 - 4))) by (rewrite <- cos_PI; apply cos_decreasing_1; nra). nra.
      * intros phi I.
        assert (T : cos (8 * phi) = 1).
        { assert (Q : exists k : nat, 8 * phi = 0 + 2 * INR k * PI).
          { cbn in I. destruct I as [<-|[<-|[<-|[<-|[<-|[<-|[<-|[]]]]]]]]; [exists 0%nat|exists 8%nat|exists 2%nat|exists 4%nat|exists 1%nat|exists 3%nat|exists 5%nat]; cbn [INR]; field. }
          destruct Q as [k ->]. rewrite cos_period. apply cos_0. }
        assert (V : valid 8 8) by apply OK.
        assert (ZZ : forall x, Zv (8, 8)%Z x phi = sqrt 18 * x ^ 8).
        { intros x. unfold Zv, Z_nm. cbn [fst snd]. rewrite R_nm_F by exact V. fold (Fmn 8 8 x). rewrite (Fmn_diag 8 8 x V eq_refl).
          unfold T_m, norm_nm. cbn [Z.leb Z.compare Z.eqb]. rewrite T. change 8%Z with (Z.of_nat 8) at 2. rewrite <- pow_powerRZ.
          replace (2 * (8 + 1) / (1 + 0)) with 18 by field. ring. }
        rewrite !ZZ, pow1. split; field.
Qed.
Print Assumptions C36_kernel_refuted.

(** every polynomial of radial order above 10 is refused, also those with |m| = n or |m| = n - 2 that the documentation promises *)
Theorem C36_documented_refuted : forall rnd m n px alpha wavelength NA n_r n_phi (normalize : bool) kernel_size s, wavelength <> 0 -> (0 <= kernel_size)%Z -> (10 < n)%Z ->
  (Z.abs m = n \/ Z.abs m = (n - 2)%Z) ->
  snd (get_psf_kernel_comp rnd (Single (m, n)) px (AFloat alpha) wavelength NA n_r n_phi normalize kernel_size s) = Raise ValueError.
Proof.
  intros rnd m n px alpha wavelength NA n_r n_phi normalize kernel_size s W S N _.
  unfold get_psf_kernel_comp, mbind, mlift. assert (D : forall x, pydiv x wavelength = Ok (x / wavelength)) by (intros x; unfold pydiv; destruct (Req_EM_T wavelength 0); [contradiction|reflexivity]).
  rewrite !D. cbv beta iota zeta. assert (B := odd_size_ge kernel_size). replace (odd_size kernel_size <? 0)%Z with false by lia.
  cbn [bind]. replace (rejected_comp (m, n)) with true by (symmetry; apply rejected_iff; exact N). reflexivity.
Qed.
Print Assumptions C36_documented_refuted.
(** an integer amplitude, which the normal calculation accepts, is refused *)
Theorem C36_int_amplitude_refuted : forall rnd p px a wavelength NA n_r n_phi (normalize : bool) kernel_size s, wavelength <> 0 -> (0 <= kernel_size)%Z ->
  snd (get_psf_kernel_comp rnd (Single p) px (AInt a) wavelength NA n_r n_phi normalize kernel_size s) = Raise TypeError.
Proof.
  intros rnd p px a wavelength NA n_r n_phi normalize kernel_size s W S.
  unfold get_psf_kernel_comp, mbind, mlift. assert (D : forall x, pydiv x wavelength = Ok (x / wavelength)) by (intros x; unfold pydiv; destruct (Req_EM_T wavelength 0); [contradiction|reflexivity]).
  rewrite !D. cbv beta iota zeta. assert (B := odd_size_ge kernel_size). replace (odd_size kernel_size <? 0)%Z with false by lia. reflexivity.
Qed.
Print Assumptions C36_int_amplitude_refuted.
