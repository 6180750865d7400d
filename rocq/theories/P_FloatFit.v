(** Property theorems C72: the fit of an image in binary64. *)
From Coq Require Import Reals Lra Lia List.
From Flocq Require Import Core.
From Verif Require Import Py SpecIndex SpecRadial M_Radial M_Coeffs SpecCoeffs M_Sum SpecSum L_Sum SpecFit L_LinAlg SpecGeo M_Crop M_Fit SpecCrop L_Polar L_Crop L_Phases L_Fit L_Indep L_Stable SpecDiff SpecFitNoise L_FitNoise
  SpecDisk SpecFitK L_FitK P_Fit P_FitK SpecFloat M_Float L_Float SpecFloatPsf L_FPsf5 L_FPsf7 M_Geo M_FloatSum SpecFitF M_FloatFit L_FloatFit P_FPsf.
Import ListNotations.
Local Open Scope R_scope.

(** distance of the returned coefficients (before their rounding) from the true ones [a], at [n] pixels with the noise [noise] *)
Definition fit_bound (n w : nat) (ps : list (Z * Z)) (eta : R) (a noise : list R) : R :=
  4 / INR w * ((1 + eta) * sqrt (sum_squares noise) + (matrix_error n ps eta + eta * (sqrt (INR n) * fit_size ps)) * sqrt (squares a)).

(** default crop radius, and an image without the widened border; the values of the polynomials, the coordinates and the result are
    computed in binary64 with numpy's functions within one unit, and the least-squares solver is backward stable with [eta] *)
Theorem C72_fit_error : forall pw fcos fsin fatan2 rows cols x (strict : bool) ps w,
  power_within_ulp pw -> trig_within_ulp fcos fsin -> angle_within_ulp fatan2 ->
  (3 <= Z.min rows cols)%Z -> (Z.max rows cols <= 2 ^ 25)%Z -> round4 near64 x = 1 -> border_margin rows cols strict = 1 / 1000 -> resolves rows cols ps w ->
  Forall (fun p => valid (fst p) (snd p)) ps -> NoDup ps -> ps <> [] ->
  exists mask pixels radii thetas, length radii = length pixels /\ length thetas = length pixels /\
    (forall f : Z -> Z -> R, crop_phases_img near64 (Img rows cols f) (RadNum x) strict
                               = Ok (mask, (map (fun p => f (fst p) (snd p)) pixels, radii, thetas))) /\
    forall lstsq eta fuel f a digits (return_cropped : bool) s noise,
      0 <= eta -> lstsq_backward_stable eta lstsq -> reachable s -> Forall (okp fuel) ps -> length a = length ps -> length noise = length pixels ->
      (0 <= digits <= 22)%Z -> matrix_error (length pixels) ps eta <= INR w / 4 ->
      (forall k, (k < length pixels)%nat ->
         f (fst (nth k pixels (0, 0)%Z)) (snd (nth k pixels (0, 0)%Z)) = zsum a ps (nth k radii 0) (nth k thetas 0) + nth k noise 0) ->
      exists y img,
        snd (ffit_polynomials near64 pw fcos fsin fatan2 lstsq fuel (Img rows cols f) (map Some ps) (RadNum x) strict digits return_cropped s)
          = Ok (map (fround near64 digits) y, img) /\
        length y = length ps /\
        sqrt (squares_diff y a) <= fit_bound (length pixels) w ps eta a noise /\
        forall i, (i < length ps)%nat ->
          Rabs (nth i (map (fround near64 digits) y) 0 - nth i a 0)
            <= (1 + / 2 ^ 51) * fit_bound (length pixels) w ps eta a noise + (/ 2 + / 2 ^ 50) * powerRZ 10 (- digits) + Rabs (nth i a 0) / 2 ^ 51.
Proof.
  intros pw fcos fsin fatan2 rows cols x strict ps w PW TR AT HM HX EX BM RES V ND NP. change near64 with b64 in *.
  assert (SN := sane_b64). assert (HC : 1 / 2 <= round4 b64 x <= 1) by (rewrite EX; lra).
  destruct (crop_coords b64 rows cols x strict SN HM HC) as (mask & S & radii & thetas & EC).
  destruct (crop_ok b64 rows cols (fun i j => (i, j)) x strict SN HM HC) as (sel & mask' & phases' & radii' & thetas' & H). cbn zeta in H.
  destruct H as (EC' & NS & EQ & LR & LT & DR & PO & _ & SELIN & _ & q & HQ & RAD). rewrite EC in EC'. apply Ok_inj in EC'. injection EC' as _ EPH E3 E4. subst radii' thetas'.
  assert (MI : forall l : list (Z * Z), map (fun p => (fst p, snd p)) l = l) by (induction l as [|(v1, v2) l IH]; cbn [map fst snd]; congruence).
  assert (ES : S = filter sel (row_major rows cols)).
  { rewrite EQ in EPH. rewrite (MI S) in EPH. rewrite (MI (filter sel _)) in EPH. symmetry. exact EPH. }
  rewrite <- ES in NS, LR, LT.
  assert (ECI := EC _ (fun i j => (i, j))). cbv beta in ECI. rewrite MI in ECI.
  destruct (crop_more rows cols x strict mask S radii thetas ECI) as (ETH & FR).
  exists mask, S, radii, thetas. split; [exact LR|]. split; [exact LT|]. split; [exact (EC R)|].
  intros lstsq eta fuel f a digits rc s noise E0 BS RS OK La LN HD ME CL.
  assert (IS : forall i j, In (i, j) S -> (0 <= i < rows)%Z /\ (0 <= j < cols)%Z).
  { intros i j H. rewrite ES in H. apply filter_In in H. destruct H as (H & _). apply row_major_In in H. lia. }
  set (n := length S) in *. set (pts := combine radii thetas). assert (LP : length pts = n) by (unfold pts; rewrite combine_length; lia).
  destruct (ffit_okq pw fcos fsin fatan2 lstsq fuel rows cols f ps x strict digits rc mask S radii thetas PW TR AT HM HX ECI IS LR DR OK ND NP s RS) as (_ & r & ER & A2 & img & Er & LA & WA & MA).
  subst r. fold n in MA, WA. fold pts in MA. set (phases := map (fun p => f (fst p) (snd p)) S) in *. assert (LPH : length phases = n) by apply map_length.
  assert (WA2 : Forall (fun c => length c = length phases) A2) by (rewrite LPH; exact WA).
  destruct (BS A2 phases WA2) as (A' & b' & LA' & WA' & Lb' & DA & DB & SOL). rewrite LPH in WA', Lb'. set (y := lstsq A2 phases) in *.
  assert (Ly : length y = length ps) by (rewrite <- LA, <- LA'; apply SOL).
  exists y, img. split; [exact ER|]. split; [exact Ly|].
  assert (W1 : (1 <= w)%nat) by apply RES. assert (WP : 1 <= INR w) by (apply (le_INR 1); exact W1).
  assert (DP : forall p, In p pts -> 0 <= fst p <= 1).
  { intros (r, t) Hp. unfold pts in Hp. apply in_combine_l in Hp. apply DR, Hp. }
  assert (LR' : length radii = length (filter sel (row_major rows cols))) by (rewrite <- ES; exact LR).
  assert (LT' : length thetas = length (filter sel (row_major rows cols))) by (rewrite <- ES; exact LT).
  assert (HK : forall z, length z = length ps -> INR w / 2 * nrm z <= nrm (mulmv n (design pts ps) z)).
  { intros z Lz. assert (PB : INR w * INR w / 4 * normsq z <= normsq (mulmv n (design pts ps) z)).
    { rewrite <- LP. apply (pixels_bound rows cols ps w sel radii thetas q HM V ND RES LR' LT' DR PO).
      - intros p Hp. apply SELIN. rewrite EX, BM. lra.
      - rewrite BM in HQ. lra.
      - exact RAD.
      - exact Lz. }
    unfold nrm. rewrite <- (sqrt_square (INR w / 2)) by lra.
    rewrite <- sqrt_mult_alt by (apply Rmult_le_pos; lra). apply sqrt_le_1_alt. eapply Rle_trans; [|exact PB]. right. field. }
  assert (RESI : vsub phases (mulmv n (design pts ps) a) = noise).
  { rewrite <- LP. apply residual_noise; [exact La|congruence|congruence|]. intros k Hk. rewrite LP in Hk. specialize (CL k Hk).
    unfold pts. rewrite nth_combine_pts by congruence. cbn [fst snd].
    unfold phases. rewrite (nth_indep _ 0 (f (fst (0, 0)%Z) (snd (0, 0)%Z))) by (rewrite map_length; exact Hk).
    rewrite (map_nth (fun p => f (fst p) (snd p)) S (0, 0)%Z k). exact CL. }
  assert (K0 : 0 < INR w / 2) by lra. assert (ME2 : matrix_error n ps eta <= INR w / 2 / 2) by lra.
  pose proof (solution_close n pts ps A2 A' phases b' y a (INR w / 2) eta LP V DP LA WA MA LA' WA' LPH Lb' La K0 E0 DA DB SOL HK ME2) as SC. rewrite RESI in SC.
  assert (SQ : nrm a = sqrt (squares a)) by (unfold nrm; rewrite squares_normsq; reflexivity).
  assert (BO : sqrt (squares_diff y a) <= fit_bound n w ps eta a noise).
  { rewrite squares_diff_nrm by congruence. unfold fit_bound. rewrite <- SQ, sum_squares_nrm. set (rhs := (1 + eta) * nrm noise + _ * nrm a) in *.
    apply Rmult_le_reg_l with (INR w / 2 / 2); [lra|]. replace (INR w / 2 / 2 * (4 / INR w * rhs)) with rhs by (field; lra). exact SC. }
  split; [exact BO|]. set (B := fit_bound n w ps eta a noise) in *. intros i Hi.
  assert (CO : Rabs (nth i y 0 - nth i a 0) <= sqrt (squares_diff y a)).
  { rewrite squares_diff_normsq by congruence. rewrite <- (sqrt_Rsqr (Rabs (nth i y 0 - nth i a 0))) by apply Rabs_pos. apply sqrt_le_1_alt. rewrite <- Rsqr_abs. unfold Rsqr.
    assert (N := coord_le (vsub y a) i). unfold vsub in N at 1 2. rewrite !nth_vadd, !nth_vscale in N by (rewrite vscale_len; congruence).
    replace (nth i y 0 + -1 * nth i a 0) with (nth i y 0 - nth i a 0) in N by ring. exact N. }
  rewrite (nth_indep _ 0 (fround b64 digits 0)) by (rewrite map_length; lia). rewrite map_nth.
  set (v := nth i y 0) in *. set (a0 := nth i a 0) in *. pose proof (fround_err digits v HD) as FE.
  assert (VA : Rabs v <= Rabs a0 + B) by (replace v with (a0 + (v - a0)) by ring; eapply Rle_trans; [apply Rabs_triang|]; lra).
  assert (P51 : 0 < / 2 ^ 51) by (apply Rinv_0_lt_compat, pow_lt; lra).
  assert (VB : Rabs v / 2 ^ 51 <= (Rabs a0 + B) * / 2 ^ 51) by (apply Rmult_le_compat_r; lra).
  replace (fround b64 digits v - a0) with ((fround b64 digits v - v) + (v - a0)) by ring. eapply Rle_trans; [apply Rabs_triang|].
  unfold Rdiv in VB |- * at 1. rewrite Rmult_plus_distr_r in VB. rewrite (Rmult_plus_distr_r 1). 
  replace (/ 2 ^ 51 * B) with (B * / 2 ^ 51) by ring. fold (Rdiv (Rabs v) (2 ^ 51)) in VB. fold (Rdiv (Rabs a0) (2 ^ 51)) in VB. lra.
Qed.
Print Assumptions C72_fit_error.

(** without rounding, and with exact functions, the model is the one of C28/C62/C71: same result, same cropped image *)
Theorem C72_exact_model : forall lstsq fuel rows cols f ps x (strict : bool) digits (return_cropped : bool) s s',
  reachable s -> reachable s' -> Forall (okp fuel) ps -> NoDup ps -> ps <> [] -> (3 <= Z.min rows cols)%Z -> 1 / 2 <= round4 idf x <= 1 ->
  exists r, snd (ffit_polynomials idf powerRZ cos sin arctan2 lstsq fuel (Img rows cols f) (map Some ps) (RadNum x) strict digits return_cropped s) = Ok r /\
            snd (fit_polynomials idf lstsq fuel (Img rows cols f) (map Some ps) (RadNum x) strict digits return_cropped s') = Ok r.
Proof.
  intros lstsq fuel rows cols f ps x strict digits rc s s' RS RS' OK ND NP HM HC. assert (SN : sane idf) by exact sane_idr.
  destruct (crop_coords idf rows cols x strict SN HM HC) as (mask & S & radii & thetas & EC).
  destruct (crop_ok idf rows cols (fun i j => (i, j)) x strict SN HM HC) as (sel & mask' & phases' & radii' & thetas' & H). cbn zeta in H.
  destruct H as (EC' & NS & EQ & LR & LT & DR & _). rewrite EC in EC'. apply Ok_inj in EC'. injection EC' as _ EPH E3 E4. subst radii' thetas'.
  assert (MI : forall l : list (Z * Z), map (fun p => (fst p, snd p)) l = l) by (induction l as [|(v1, v2) l IH]; cbn [map fst snd]; congruence).
  assert (ES : S = filter sel (row_major rows cols)).
  { rewrite EQ in EPH. rewrite (MI S) in EPH. rewrite (MI (filter sel _)) in EPH. symmetry. exact EPH. }
  rewrite <- ES in NS, LR, LT. assert (NR : radii <> []) by (intros ->; destruct S; [apply NS; reflexivity|discriminate]).
  assert (ECI := EC _ (fun i j => (i, j))). cbv beta in ECI. rewrite MI in ECI.
  assert (ETH : thetas = map (fun p => crop_theta rows cols (fst p) (snd p)) S) by exact (crop_thetas idf rows cols x strict mask S radii thetas ECI).
  set (phases := map (fun p => f (fst p) (snd p)) S). assert (LP : length phases = length S) by apply map_length.
  assert (F : Forall in_disk radii) by (apply Forall_forall; exact DR).
  assert (L1 : length phases = length radii) by congruence. assert (L2 : length thetas = length radii) by congruence.
  destruct (image_isok idf lstsq fuel rows cols f ps x strict digits rc mask phases radii thetas OK ND NP (EC R f) F NR L1 L2 s' RS') as [_ E2].
  eexists. split; [|exact E2].
  apply (ffit_isok0 lstsq fuel rows cols f ps x strict digits rc mask S radii thetas ECI ETH OK ND NP LR DR s RS).
Qed.
Print Assumptions C72_exact_model.

(** an empty list of polynomials, a repeated polynomial: ValueError; an object that is not a polynomial: AttributeError - whatever the solver *)
Theorem C72_fit_rejects : forall rnd pw fcos fsin fatan2 lstsq fuel rows cols f ps x (strict : bool) digits (return_cropped : bool) s c,
  fcrop rnd fatan2 (Img rows cols f) x strict = Ok c ->
  (In None ps -> snd (ffit_polynomials rnd pw fcos fsin fatan2 lstsq fuel (Img rows cols f) ps x strict digits return_cropped s) = Raise AttributeError) /\
  (ps = [] \/ (exists qs, ps = map Some qs /\ ~ NoDup qs) ->
   snd (ffit_polynomials rnd pw fcos fsin fatan2 lstsq fuel (Img rows cols f) ps x strict digits return_cropped s) = Raise ValueError).
Proof.
  intros rnd pw fcos fsin fatan2 lstsq fuel rows cols f ps x strict digits rc s c EC. unfold ffit_polynomials. rewrite EC. destruct c as (mask, ((phases, radii), thetas)).
  unfold ffit_zernikes. split.
  - intros H. destruct ps as [|p ps]; [destruct H|]. rewrite (all_orders_none _ H). reflexivity.
  - intros [-> | (qs & -> & ND)]; [reflexivity|]. destruct (map Some qs) as [|o l] eqn:E; [reflexivity|]. rewrite <- E, all_orders_some. cbn [mlift mbind].
    assert (RP : repeated qs = true) by (apply repeated_iff, ND). unfold mlift, mbind. rewrite RP. reflexivity.
Qed.
Print Assumptions C72_fit_rejects.

(** what the condition on the matrix means: for distinct polynomials of order at most 4 *)
Theorem C72_matrix_error : forall n ps eta,
  Forall (fun p => valid (fst p) (snd p)) ps -> NoDup ps -> Forall (fun p => snd p <= 4)%Z ps -> 0 <= eta ->
  matrix_error n ps eta <= 11 * sqrt (INR n) * (/ 2 ^ 42 + eta) /\ fit_size ps <= 11.
Proof.
  intros n ps eta V ND B E0. set (sq := fun p : Z * Z => Rsqr (norm_nm (fst p) (snd p))).
  assert (I : incl ps (upto 4)).
  { intros p Hp. rewrite Forall_forall in V, B. apply upto_all; [lia|apply V, Hp|apply B, Hp]. }
  assert (NU : NoDup (upto 4)).
  { unfold upto. apply NoDup_filter. repeat constructor; cbn [In]; intros H; repeat (destruct H as [H|H]; [discriminate H|]); exact H. }
  assert (TOT : fsum sq ps <= 101).
  { eapply Rle_trans; [apply (fsum_incl sq ltac:(intros p; apply Rle_0_sqr) ps (upto 4) ND NU I)|]. unfold sq.
    cbn [upto filter snd Z.leb Z.compare Pos.compare Pos.compare_cont fsum fst].
    assert (SQ1 : forall m k, (0 <= k)%Z -> Rsqr (norm_nm m k) = 2 * (IZR k + 1) / (1 + (if Z.eqb m 0 then 1 else 0))).
    { intros m k Hk. replace (norm_nm m k) with (norm_nm m k * 1) by ring. rewrite sq_norm by exact Hk. ring. }
    rewrite !SQ1 by lia. cbn [Z.eqb]. lra. }
  assert (FS : fit_size ps = sqrt (fsum sq ps)).
  { unfold fit_size. f_equal. clear. induction ps as [|p ps IH]; cbn [fold_right fsum]; [reflexivity|]. rewrite IH. reflexivity. }
  assert (S8 : fit_size ps <= 101 / 10) by (rewrite FS; apply sqrt_le_r; lra).
  assert (P42 : 0 < / 2 ^ 42) by (apply Rinv_0_lt_compat, pow_lt; lra).
  assert (FE : fit_error ps <= 101 / 10 * / 2 ^ 42).
  { rewrite <- err_p_sum. apply sqrt_le_r; [lra|].
    assert (H : fold_right (fun p s => Rsqr (err_p p) + s) 0 ps <= / 2 ^ 42 * / 2 ^ 42 * fsum sq ps).
    { clear -V B P42. induction ps as [|p ps IH]; cbn [fold_right fsum]; [lra|]. inversion V as [|? ? V1 V2]; inversion B as [|? ? B1 B2]; subst. specialize (IH V2 B2).
      assert (EP : err_p p <= norm_nm (fst p) (snd p) * / 2 ^ 42).
      { unfold err_p. apply Rmult_le_compat_l; [apply norm_nonneg|]. destruct p as (m, k). cbn [fst snd] in *. destruct V1 as (K0 & M0 & _). unfold radial_error.
        assert (R1 : (242 / 100) ^ Z.to_nat k <= (242 / 100) ^ 4) by (apply Rle_pow; [lra|lia]). assert (R2 : IZR (Z.abs m) <= 4) by (apply IZR_le; lia).
        unfold Rdiv. apply Rle_trans with (4 * ((242 / 100) ^ 4 * / 2 ^ 50) + 4 * / 2 ^ 47).
        - apply Rplus_le_compat; [apply Rmult_le_compat_l; [lra|]|]; (apply Rmult_le_compat_r; [left; apply Rinv_0_lt_compat, pow_lt; lra|assumption]).
        - simpl pow. lra. }
      assert (E1 : Rsqr (err_p p) <= Rsqr (norm_nm (fst p) (snd p) * / 2 ^ 42)) by (apply Rsqr_incr_1; [exact EP|apply err_p_nonneg|apply Rmult_le_pos; [apply norm_nonneg|lra]]).
      rewrite Rsqr_mult in E1. change (Rsqr (norm_nm (fst p) (snd p))) with (sq p) in E1. unfold Rsqr at 2 in E1. lra. }
    eapply Rle_trans; [exact H|]. replace (101 / 10 * / 2 ^ 42 * (101 / 10 * / 2 ^ 42)) with (/ 2 ^ 42 * / 2 ^ 42 * (10201 / 100)) by field.
    apply Rmult_le_compat_l; [apply Rmult_le_pos; lra|lra]. }
  split; [|lra]. unfold matrix_error. assert (SN0 : 0 <= sqrt (INR n)) by apply sqrt_pos.
  rewrite (Rmult_comm 11), Rmult_assoc. apply Rmult_le_compat_l; [exact SN0|].
  assert (P1 : 101 / 10 * / 2 ^ 42 <= 1 / 2) by (simpl pow; lra).
  assert (eta * (fit_size ps + fit_error ps) <= eta * 11) by (apply Rmult_le_compat_l; [exact E0|]; lra). lra.
Qed.
Print Assumptions C72_matrix_error.

(** solvers that meet the contract exist; an image of 513 x 513 pixels, all polynomials of order at most 2, a solver with eta = 2^-40 *)
Example C72_nonvacuous : (forall eta, 0 <= eta -> lstsq_backward_stable eta gs_lstsq) /\ round4 near64 1 = 1 /\
  resolves 513 513 [(0, 0); (-1, 1); (1, 1); (-2, 2); (0, 2); (2, 2)]%Z 5 /\
  (forall n, (n <= 513 * 513)%nat -> matrix_error n [(0, 0); (-1, 1); (1, 1); (-2, 2); (0, 2); (2, 2)]%Z (/ 2 ^ 40) <= INR 5 / 4) /\
  exists pw fcos fsin fatan2, power_within_ulp pw /\ trig_within_ulp fcos fsin /\ angle_within_ulp fatan2.
Proof.
  split; [|split; [exact (round4_1 b64 sane_b64)|split; [apply C71_nonvacuous|split]]].
  - intros eta E0 cols b W. exists cols, b. split; [reflexivity|]. split; [exact W|]. split; [reflexivity|].
    assert (Z1 : forall x, squares_diff x x = 0) by (induction x as [|v x IH]; cbn [squares_diff]; [reflexivity|]; rewrite IH; ring).
    assert (Z2 : forall A, matrix_diff A A = 0) by (induction A as [|c A IH]; cbn [matrix_diff]; [reflexivity|]; rewrite IH, Z1; ring).
    rewrite Z1, Z2, sqrt_0. split; [apply Rmult_le_pos; [exact E0|apply sqrt_pos]|]. split; [apply Rmult_le_pos; [exact E0|apply sqrt_pos]|]. apply gs_contract, W.
  - intros n Hn. assert (P40 : 0 <= / 2 ^ 40) by (left; apply Rinv_0_lt_compat, pow_lt; lra).
    destruct (C72_matrix_error n [(0, 0); (-1, 1); (1, 1); (-2, 2); (0, 2); (2, 2)]%Z (/ 2 ^ 40)) as (M & _); [| | |exact P40|].
    + repeat constructor; cbn [fst snd]; try lia; [exists 0%Z|exists 0%Z|exists 0%Z|exists 0%Z|exists 1%Z|exists 0%Z]; reflexivity.
    + repeat constructor; cbn [In]; intros H; repeat (destruct H as [H|H]; [discriminate H|]); exact H.
    + repeat constructor; cbn; lia.
    + eapply Rle_trans; [exact M|]. assert (SN : sqrt (INR n) <= 513).
      { apply sqrt_le_r; [lra|]. replace (513 * 513) with (INR (513 * 513)); [apply le_INR; exact Hn|]. rewrite mult_INR. simpl INR. lra. }
      assert (11 * sqrt (INR n) * (/ 2 ^ 42 + / 2 ^ 40) <= 11 * 513 * (/ 2 ^ 42 + / 2 ^ 40)).
      { apply Rmult_le_compat_r; [simpl pow; lra|lra]. }
      simpl INR. simpl pow in *. lra.
  - destruct C59_functions_exist as [F1 F2 _ _ _ F3]. do 4 eexists. split; [exact F1|]. split; [exact F2|exact F3].
Qed.
