(** Property theorems C62 (images with enough pixels determine the coefficients; noise) and C63 (fitting the image made by
    generate_phases_image). Exact arithmetic on values; the crop's own arithmetic has any rounding [rnd] that is [sane]. *)
From Coq Require Import Reals Lra Lia List.
From Flocq Require Import Core.
From Verif Require Import Py SpecIndex SpecRadial M_Radial M_Coeffs SpecCoeffs M_Sum SpecSum L_Sum SpecFit L_LinAlg SpecGeo M_Crop M_Fit SpecCrop L_Polar L_Crop M_Phases SpecPhases L_Phases L_Fit L_Indep L_Stable SpecDiff SpecFitNoise L_FitNoise L_RoundTrip P_Fit.
Local Open Scope R_scope.

(** ** C62 *)
(** the values of distinct polynomials of order at most N at the pixels that the crop selects are linearly independent *)
Theorem C62_well_posed : forall rnd rows cols (f : Z -> Z -> R) x (strict : bool) N ps,
  sane rnd -> (3 <= Z.min rows cols)%Z -> 1 / 2 <= round4 rnd x <= 1 -> enough_pixels rows cols N (round4 rnd x) ->
  Forall (fun p => valid (fst p) (snd p)) ps -> NoDup ps -> Forall (fun p => snd p <= N)%Z ps ->
  exists mask phases radii thetas,
    crop_phases_img rnd (Img rows cols f) (RadNum x) strict = Ok (mask, (phases, radii, thetas)) /\
    length phases = length radii /\ length thetas = length radii /\
    independent (length phases) (design (combine radii thetas) ps).
Proof.
  intros rnd rows cols f x strict N ps SN HM HC EP V ND B.
  destruct (crop_ok rnd rows cols f x strict SN HM HC) as (sel & mask & phases & radii & thetas & H). cbn zeta in H.
  destruct H as (EC & _ & EQ & LR & LT & _). exists mask, phases, radii, thetas. split; [exact EC|].
  assert (LP : length phases = length radii) by (rewrite EQ, map_length; congruence).
  split; [exact LP|]. split; [congruence|].
  assert (LC : length (combine radii thetas) = length phases) by (rewrite combine_length; lia).
  rewrite <- LC. apply (crop_independent rnd rows cols f x strict N ps mask phases radii thetas SN HM HC EP V ND B EC).
Qed.
Print Assumptions C62_well_posed.

(** exact data: the coefficients come back, up to the rounding of the result; no condition on the matrix *)
Theorem C62_exact_recovery : forall rnd lstsq fuel rows cols f N ps a x (strict : bool) digits (return_cropped : bool) s,
  sane rnd -> lstsq_contract lstsq -> reachable s -> Forall (okp fuel) ps -> NoDup ps -> ps <> [] -> length a = length ps ->
  (3 <= Z.min rows cols)%Z -> 1 / 2 <= round4 rnd x <= 1 -> enough_pixels rows cols N (round4 rnd x) -> Forall (fun p => snd p <= N)%Z ps ->
  exists mask phases radii thetas,
    crop_phases_img rnd (Img rows cols f) (RadNum x) strict = Ok (mask, (phases, radii, thetas)) /\
    (phases = map (fun q => zsum a ps (fst q) (snd q)) (combine radii thetas) ->
     exists result img,
       snd (fit_polynomials rnd lstsq fuel (Img rows cols f) (map Some ps) (RadNum x) strict digits return_cropped s) = Ok (result, img) /\
       length result = length ps /\
       forall i, (i < length ps)%nat -> Rabs (nth i result 0 - nth i a 0) <= / 2 * powerRZ 10 (- digits)).
Proof.
  intros rnd lstsq fuel rows cols f N ps a x strict digits rc s SN C RS OK ND NP La HM HC EP B.
  destruct (C28_image_exact_recovery rnd lstsq fuel rows cols f ps a x strict digits rc s SN C RS OK ND NP La HM HC) as (mask & phases & radii & thetas & EC & H).
  exists mask, phases, radii, thetas. split; [exact EC|]. intros PH.
  assert (V := okp_valid fuel ps OK).
  destruct (C62_well_posed rnd rows cols f x strict N ps SN HM HC EP V ND B) as (mask' & phases' & radii' & thetas' & EC' & _ & _ & I).
  rewrite EC in EC'. apply Ok_inj in EC'. injection EC' as _ <- <- <-.
  destruct (H PH I) as (result & img & E & L & R & _). exists result, img. split; [exact E|]. split; [exact L|exact R].
Qed.
Print Assumptions C62_exact_recovery.

(** noisy data: an error of at most [eps] in every pixel changes every coefficient by at most [K eps] (and the rounding), with a
    factor [K] that depends only on the size of the image, the crop and the polynomials - not on the image, nor on the solver *)
Theorem C62_noise : forall rnd rows cols x (strict : bool) N ps,
  sane rnd -> (3 <= Z.min rows cols)%Z -> 1 / 2 <= round4 rnd x <= 1 -> enough_pixels rows cols N (round4 rnd x) ->
  Forall (fun p => valid (fst p) (snd p)) ps -> NoDup ps -> ps <> [] -> Forall (fun p => snd p <= N)%Z ps ->
  exists mask pixels radii thetas K, 0 <= K /\ length radii = length pixels /\ length thetas = length pixels /\
    (forall f : Z -> Z -> R, crop_phases_img rnd (Img rows cols f) (RadNum x) strict
                               = Ok (mask, (map (fun p => f (fst p) (snd p)) pixels, radii, thetas))) /\
    forall lstsq fuel f a digits (return_cropped : bool) s eps,
      lstsq_contract lstsq -> reachable s -> Forall (okp fuel) ps -> length a = length ps -> 0 <= eps ->
      (forall k, (k < length pixels)%nat ->
         Rabs (f (fst (nth k pixels (0, 0)%Z)) (snd (nth k pixels (0, 0)%Z)) - zsum a ps (nth k radii 0) (nth k thetas 0)) <= eps) ->
      exists result img,
        snd (fit_polynomials rnd lstsq fuel (Img rows cols f) (map Some ps) (RadNum x) strict digits return_cropped s) = Ok (result, img) /\
        length result = length ps /\
        forall i, (i < length ps)%nat -> Rabs (nth i result 0 - nth i a 0) <= K * eps + / 2 * powerRZ 10 (- digits).
Proof.
  intros rnd rows cols x strict N ps SN HM HC EP V ND NP B.
  destruct (crop_coords rnd rows cols x strict SN HM HC) as (mask & S & radii & thetas & EC).
  destruct (crop_ok rnd rows cols (fun i j => (i, j)) x strict SN HM HC) as (sel & mask' & phases' & radii' & thetas' & H). cbn zeta in H.
  destruct H as (EC' & NS & EQ & LR & LT & DR & _). rewrite EC in EC'. apply Ok_inj in EC'. injection EC' as _ EPH E3 E4. rewrite E3 in LR, DR. rewrite E4 in LT.
  assert (LS : length (filter sel (row_major rows cols)) = length S).
  { apply (f_equal (@length _)) in EPH. apply (f_equal (@length _)) in EQ. rewrite map_length in EPH, EQ. congruence. }
  assert (NR : radii <> []) by (intros ->; destruct (filter sel (row_major rows cols)); [apply NS; reflexivity|discriminate]).
  assert (F : Forall in_disk radii) by (apply Forall_forall; exact DR). rewrite LS in LR, LT.
  assert (I := crop_independent rnd rows cols (fun _ _ => 0) x strict N ps mask _ radii thetas SN HM HC EP V ND B (EC R (fun _ _ => 0))).
  destruct (bound_below _ _ (design_wf (combine radii thetas) ps) I) as (kk & K0 & KK).
  assert (LD : length (design (combine radii thetas) ps) = length ps) by (unfold design; apply map_length). rewrite LD in KK.
  exists mask, S, radii, thetas, (sqrt (INR (length S) / kk)). split; [apply sqrt_pos|]. split; [exact LR|]. split; [exact LT|]. split; [exact (EC R)|].
  intros lstsq fuel f a digits rc s eps C RS OK La E0 CL.
  destruct (fit_close rnd lstsq fuel rows cols f ps a x strict digits rc s mask S radii thetas eps C RS OK ND NP La (EC R f) F NR LR LT E0 CL) as (y & img & E & Ly & _ & ST).
  exists (map (np_round digits) y), img. split; [exact E|]. split; [rewrite map_length; exact Ly|]. intros i Hi.
  specialize (ST kk K0 KK i). assert (RE := np_round_all digits y i). rewrite Ly in RE. specialize (RE Hi).
  replace (nth i (map (np_round digits) y) 0 - nth i a 0) with ((nth i (map (np_round digits) y) 0 - nth i y 0) + (nth i y 0 - nth i a 0)) by ring.
  eapply Rle_trans; [apply Rabs_triang|]. lra.
Qed.
Print Assumptions C62_noise.

(** an image of any size: the fitted wavefront (before the rounding of the coefficients) is on average not further from the
    true one than the noise *)
Theorem C62_wavefront : forall rnd lstsq fuel rows cols f ps a x (strict : bool) digits (return_cropped : bool) s eps,
  sane rnd -> lstsq_contract lstsq -> reachable s -> Forall (okp fuel) ps -> NoDup ps -> ps <> [] -> length a = length ps ->
  (3 <= Z.min rows cols)%Z -> 1 / 2 <= round4 rnd x <= 1 -> 0 <= eps ->
  exists mask phases radii thetas,
    crop_phases_img rnd (Img rows cols f) (RadNum x) strict = Ok (mask, (phases, radii, thetas)) /\
    ((forall k, (k < length phases)%nat -> Rabs (nth k phases 0 - zsum a ps (nth k radii 0) (nth k thetas 0)) <= eps) ->
     exists y img,
       snd (fit_polynomials rnd lstsq fuel (Img rows cols f) (map Some ps) (RadNum x) strict digits return_cropped s) = Ok (map (np_round digits) y, img) /\
       length y = length ps /\
       square_difference y a ps (combine radii thetas) <= INR (length phases) * (eps * eps)).
Proof.
  intros rnd lstsq fuel rows cols f ps a x strict digits rc s eps SN C RS OK ND NP La HM HC E0.
  destruct (crop_ok rnd rows cols f x strict SN HM HC) as (sel & mask & phases & radii & thetas & H). cbn zeta in H.
  destruct H as (EC & NS & EQ & LR & LT & DR & _). set (S := filter sel (row_major rows cols)) in *.
  exists mask, phases, radii, thetas. split; [exact EC|]. intros CL.
  assert (NR : radii <> []) by (intros ->; destruct S; [apply NS; reflexivity|discriminate]).
  assert (F : Forall in_disk radii) by (apply Forall_forall; exact DR). subst phases. rewrite map_length in *.
  destruct (fit_close rnd lstsq fuel rows cols f ps a x strict digits rc s mask S radii thetas eps C RS OK ND NP La EC F NR LR LT E0) as (y & img & E & Ly & SQ & _).
  - intros k Hk. specialize (CL k Hk). rewrite (nth_indep _ 0 (f (fst (0, 0)%Z) (snd (0, 0)%Z))) in CL by (rewrite map_length; exact Hk).
    rewrite (map_nth (fun p => f (fst p) (snd p)) S (0, 0)%Z k) in CL. exact CL.
  - exists y, img. split; [exact E|]. split; [exact Ly|exact SQ].
Qed.
Print Assumptions C62_wavefront.

Example C62_nonvacuous : sane b64 /\ lstsq_contract gs_lstsq /\ (1 / 2 <= round4 b64 1 <= 1) /\ enough_pixels 513 513 10 (round4 b64 1) /\
  enough_pixels 36 40 4 1 /\ enough_pixels 100000 100000 22 (1 / 2) /\ enough_pixels 4000 4000 61 1 /\ ~ enough_pixels 20 20 4 1.
Proof.
  rewrite (round4_1 b64 sane_b64). unfold enough_pixels. cbn -[b64 sane IZR Rle Rmult Rminus Rdiv].
  split; [exact sane_b64|]. split; [exact gs_contract|]. split; [lra|].
  do 4 (split; [split; [lia|split; [lra|lia]]|]). intros (_ & H & _). lra.
Qed.

(** ** C63 *)
(** an image with an odd side (at most 1601 pixels): the fitted wavefront (before the rounding of the coefficients) differs from the
    generated one by what the two different scalings of the radius explain: in the mean square at most the steepest radial slope of
    the wavefront times [radius_mismatch] *)
Theorem C63_round_trip_partial : forall rnd lstsq fuel half ps a x (strict : bool) digits (return_cropped : bool) s s',
  sane rnd -> lstsq_contract lstsq -> reachable s -> reachable s' -> Forall (okp fuel) ps -> NoDup ps -> ps <> [] -> length a = length ps ->
  (1 <= half <= 800)%Z -> 1 / 2 <= round4 rnd x <= 1 ->
  exists img, snd (generate_phases_image fuel (map Some ps) a (2 * half + 1) (2 * half + 1) s) = Ok img /\
  forall f, (forall i j, (0 <= i <= 2 * half)%Z -> (0 <= j <= 2 * half)%Z -> pixel img i j = Fin (f i j)) ->
  exists mask phases radii thetas y out,
    crop_phases_img rnd (Img (2 * half + 1) (2 * half + 1) f) (RadNum x) strict = Ok (mask, (phases, radii, thetas)) /\
    snd (fit_polynomials rnd lstsq fuel (Img (2 * half + 1) (2 * half + 1) f) (map Some ps) (RadNum x) strict digits return_cropped s')
      = Ok (map (np_round digits) y, out) /\
    length y = length ps /\
    square_difference y a ps (combine radii thetas)
      <= INR (length phases) * ((steep_r a ps * radius_mismatch half) * (steep_r a ps * radius_mismatch half)).
Proof. exact round_trip_odd. Qed.
Print Assumptions C63_round_trip_partial.

(** the generated coefficients do not come back: on images of 3 to 21 pixels the tilt is too small by 8% or more *)
Theorem C63_tilt_refuted : forall rnd lstsq fuel half amplitude (strict : bool) digits (return_cropped : bool) s s',
  sane rnd -> lstsq_contract lstsq -> reachable s -> reachable s' -> (3 <= fuel)%nat -> (1 <= half <= 10)%Z -> 0 < amplitude ->
  exists img, snd (generate_phases_image fuel [Some (1, 1)%Z] [amplitude] (2 * half + 1) (2 * half + 1) s) = Ok img /\
  forall f, (forall i j, (0 <= i <= 2 * half)%Z -> (0 <= j <= 2 * half)%Z -> pixel img i j = Fin (f i j)) ->
  exists y out, snd (fit_polynomials rnd lstsq fuel (Img (2 * half + 1) (2 * half + 1) f) [Some (1, 1)%Z] (RadNum 1) strict digits return_cropped s')
                  = Ok ([np_round digits y], out) /\
    y <= 92 / 100 * amplitude.
Proof. exact tilt_shrinks. Qed.
Print Assumptions C63_tilt_refuted.

(** images with an even side of 88 pixels or more: the default crop hands background pixels (zeros) to the fit *)
Theorem C63_background_fitted : forall rnd fuel half ps a s, sane rnd -> reachable s -> Forall (okp fuel) ps -> ps <> [] -> length a = length ps -> (44 <= half)%Z ->
  exists img, snd (generate_phases_image fuel (map Some ps) a (2 * half) (2 * half) s) = Ok img /\
  forall f : Z -> Z -> R, exists mask phases radii thetas k,
    crop_phases_img rnd (Img (2 * half) (2 * half) f) (RadNum 1) false = Ok (mask, (phases, radii, thetas)) /\
    mask k k = 1%Z /\ In (f k k) phases /\ pixel img k k = Fin 0 /\
    ((1 + half) * (1 + half) < (k - half) * (k - half) + (half - k) * (half - k))%Z.
Proof.
  intros rnd fuel half ps a s SN RS OK NP La HH. assert (NA : a <> []) by (intros ->; destruct ps; [congruence|discriminate]).
  assert (W1 : (0 < 2 * half)%Z) by lia. assert (W2 : (0 <= 2 * half)%Z) by lia.
  destruct (phases_image_ok fuel a ps (2 * half) (2 * half) s RS NA La OK W1 W2) as (img & EI & _ & _ & SH). exists img. split; [exact EI|]. intros f.
  assert (HC : 1 / 2 <= round4 rnd 1 <= 1) by (rewrite (round4_1 rnd SN); lra). assert (HM : (3 <= Z.min (2 * half) (2 * half))%Z) by lia.
  destruct (crop_ok rnd (2 * half) (2 * half) f 1 false SN HM HC) as (sel & mask & phases & radii & thetas & H). cbn zeta in H.
  destruct H as (EC & _ & EP & _ & _ & _ & _ & MK & SELIN & _). destruct (even_background rnd half HH SN) as (k & KR & KO & KD).
  assert (IN : In (k, k) (filter sel (row_major (2 * half) (2 * half)))).
  { apply filter_In. split; [apply row_major_In; lia|]. apply SELIN. rewrite (round4_1 rnd SN). exact KD. }
  exists mask, phases, radii, thetas, k. split; [exact EC|]. split; [apply (MK k k), IN|]. split.
  - rewrite EP. apply in_map_iff. exists (k, k). split; [reflexivity|exact IN].
  - rewrite (Z.add_comm half 1) in KO. split; [|exact KO]. destruct (SH k k KR KR) as [_ SO]. rewrite Z.min_id in SO.
    replace (2 * half / 2)%Z with half in SO by (rewrite Z.mul_comm, Z.div_mul by lia; reflexivity). apply SO, KO.
Qed.
Print Assumptions C63_background_fitted.
(** ... so that even a constant wavefront comes back too small *)
Theorem C63_piston_refuted : forall rnd lstsq fuel half amplitude digits (return_cropped : bool) s s',
  sane rnd -> lstsq_contract lstsq -> reachable s -> reachable s' -> (3 <= fuel)%nat -> (44 <= half)%Z -> 0 < amplitude ->
  exists img, snd (generate_phases_image fuel [Some (0, 0)%Z] [amplitude] (2 * half) (2 * half) s) = Ok img /\
  forall f, (forall i j, (0 <= i < 2 * half)%Z -> (0 <= j < 2 * half)%Z -> pixel img i j = Fin (f i j)) ->
  exists y out, snd (fit_polynomials rnd lstsq fuel (Img (2 * half) (2 * half) f) [Some (0, 0)%Z] (RadNum 1) false digits return_cropped s')
                  = Ok ([np_round digits y], out) /\
    y <= amplitude * (1 - / IZR (2 * half * (2 * half))).
Proof. exact piston_shrinks. Qed.
Print Assumptions C63_piston_refuted.

Example C63_nonvacuous : sane b64 /\ lstsq_contract gs_lstsq /\ okp 1000 (0, 0)%Z /\ okp 1000 (-1, 3)%Z /\ (1 <= 256 <= 800)%Z /\
  radius_mismatch 256 < 7 / 1000 /\ 1 / 2 <= round4 b64 1 <= 1.
Proof.
  rewrite (round4_1 b64 sane_b64). split; [exact sane_b64|]. split; [exact gs_contract|].
  split; [split; [split; [cbn; lia|split; [cbn; lia|exists 0%Z; reflexivity]]|cbn; lia]|].
  split; [split; [split; [cbn; lia|split; [cbn; lia|exists 1%Z; reflexivity]]|cbn; lia]|].
  split; [lia|]. unfold radius_mismatch. lra.
Qed.
