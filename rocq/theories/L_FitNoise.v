(** The fit of an image: coordinates, independence, noise (C62). *)
From Coq Require Import Reals Lra Lia List Psatz.
From Flocq Require Import Core.
From Verif Require Import Py SpecIndex SpecRadial M_Radial M_Coeffs SpecCoeffs M_Sum SpecSum L_Sum SpecFit SpecGeo M_Geo M_Crop M_Fit SpecCrop L_Polar L_Crop L_LinAlg L_Phases L_Fit L_Indep L_Poly L_Pixels L_Stable SpecDiff SpecFitNoise.
Local Open Scope R_scope.

(** ** an odd factor between the smallest and the largest admissible *)
Lemma factor_exists rows cols N c : (3 <= Z.min rows cols)%Z -> 1 / 2 <= c <= 1 -> enough_pixels rows cols N c ->
  exists g, ((0 < g)%Z /\ Z.odd g = true) /\ IZR (g * ((N + 1) * (N + 3))) <= c * (IZR (Z.min rows cols) - 1) /\ 424 / 1000000 * circle_radius rows cols < IZR g.
Proof.
  intros HM HC (N0 & S & D). set (m := Z.min rows cols) in *.
  assert (CR : circle_radius rows cols <= IZR m / 2).
  { unfold circle_radius. assert (H : ((if (Z.abs (rows - cols) <? 2)%Z then Z.max rows cols else Z.min rows cols) <= m + 1)%Z).
    { destruct (Z.abs (rows - cols) <? 2)%Z eqn:E; unfold m; lia. } apply IZR_le in H. rewrite plus_IZR in H. lra. }
  destruct (Z_le_gt_dec m 4000) as [M|M].
  - exists 1%Z. split; [split; [lia|reflexivity]|]. rewrite Z.mul_1_l. split; [exact S|]. apply IZR_le in M. lra.
  - assert (N22 : (N <= 22)%Z) by lia. clear D.
    set (u := (m * 212 / 1000000)%Z). pose proof (Z.div_mod (m * 212) 1000000 ltac:(lia)) as DM. fold u in DM. pose proof (Z.mod_pos_bound (m * 212) 1000000 ltac:(lia)) as MB.
    assert (U0 : (0 <= u)%Z) by lia.
    exists (if Z.odd u then u + 2 else u + 1)%Z. set (g := if Z.odd u then (u + 2)%Z else (u + 1)%Z).
    assert (G : (u + 1 <= g <= u + 2)%Z) by (unfold g; destruct (Z.odd u); lia).
    split; [split; [lia|]|split].
    + unfold g. destruct (Z.odd u) eqn:E; rewrite Z.odd_add, E; reflexivity.
    + assert (K : ((N + 1) * (N + 3) <= 575)%Z) by nia. assert (K0 : (0 <= (N + 1) * (N + 3))%Z) by nia.
      assert (Q : (2 * (g * ((N + 1) * (N + 3))) <= m - 1)%Z).
      { assert (g * ((N + 1) * (N + 3)) <= (u + 2) * 575)%Z by (apply Z.mul_le_mono_nonneg; lia). lia. }
      apply IZR_le in Q. rewrite mult_IZR, minus_IZR in Q. assert (B : 3 <= IZR m) by (apply IZR_le; exact HM).
      assert (1 / 2 * (IZR m - 1) <= c * (IZR m - 1)) by (apply Rmult_le_compat_r; lra). lra.
    + assert (Q : (m * 212 < g * 1000000)%Z) by lia. apply IZR_lt in Q. rewrite !mult_IZR in Q. lra.
Qed.

Lemma crop_independent {A} rnd rows cols (f : Z -> Z -> A) x (strict : bool) N ps mask phases radii thetas :
  sane rnd -> (3 <= Z.min rows cols)%Z -> 1 / 2 <= round4 rnd x <= 1 -> enough_pixels rows cols N (round4 rnd x) ->
  Forall validp ps -> NoDup ps -> Forall (fun p => snd p <= N)%Z ps ->
  crop_phases_img rnd (Img rows cols f) (RadNum x) strict = Ok (mask, (phases, radii, thetas)) ->
  independent (length (combine radii thetas)) (design (combine radii thetas) ps).
Proof.
  intros SN HM HC EP V ND B EC. destruct (factor_exists rows cols N _ HM HC EP) as (g & HG & HS & HR). destruct EP as (N0 & _).
  intros z L Z. unfold design in L |- *. rewrite map_length in L |- *.
  apply (crop_vanish rnd rows cols x strict SN HM HC N g N0 HG HS HR f mask phases radii thetas ps z V ND B L EC).
  apply vanishes_mul; assumption.
Qed.

(** ** the coordinates do not depend on the values in the image *)
Lemma crop_coords rnd rows cols x (strict : bool) : sane rnd -> (3 <= Z.min rows cols)%Z -> 1 / 2 <= round4 rnd x <= 1 ->
  exists mask S radii thetas, forall A (f : Z -> Z -> A),
    crop_phases_img rnd (Img rows cols f) (RadNum x) strict = Ok (mask, (map (fun p => f (fst p) (snd p)) S, radii, thetas)).
Proof.
  intros SN HM HC. destruct (crop_ok rnd rows cols (fun i j => (i, j)) x strict SN HM HC) as (sel & mask & phases & radii & thetas & H). cbn zeta in H.
  destruct H as (EC & _). exists mask, phases, radii, thetas. intros A f.
  set (c := round4 rnd x) in *. set (eps := radius_epsilon rows cols strict).
  set (rel := fun (s : crop_state (Z * Z)) (s' : crop_state A) => M_Crop.mask s' = M_Crop.mask s /\ vphases s' = map (fun p => f (fst p) (snd p)) (vphases s) /\
     vradii s' = vradii s /\ vthetas s' = vthetas s /\ recal s' = recal s /\ rcoeff s' = rcoeff s).
  assert (STEP : forall l s s', rel s s' -> rel (fold_left (crop_step rnd rows cols (fun i j => (i, j)) strict c eps) l s) (fold_left (crop_step rnd rows cols f strict c eps) l s')).
  { induction l as [|[i j] l IH]; intros s s' R; [exact R|]. cbn [fold_left]. apply IH. destruct R as (R1 & R2 & R3 & R4 & R5 & R6).
    unfold crop_step. destruct (Rltb' _ eps); [|repeat split; assumption].
    unfold rel. cbn [M_Crop.mask vphases vradii vthetas recal rcoeff]. rewrite R1, R2, R3, R4, R5, R6, map_app. repeat split; reflexivity. }
  unfold crop_phases_img in EC |- *. fold c in EC |- *. destruct (negb _); [discriminate|]. destruct (Z.min rows cols <? 3)%Z; [discriminate|].
  fold eps in EC |- *. set (st := fold_left _ _ _) in EC. set (st' := fold_left _ _ _).
  assert (RR : rel st st') by (apply STEP; repeat split; reflexivity). destruct RR as (R1 & R2 & R3 & R4 & R5 & R6).
  rewrite R1, R2, R3, R4, R5, R6. destruct (vradii st); [discriminate|]. injection EC as <- <- <- <-. reflexivity.
Qed.

Lemma nth_combine_pts (rs ts : list R) k : length ts = length rs -> nth k (combine rs ts) (0, 0) = (nth k rs 0, nth k ts 0).
Proof. intros L. apply combine_nth. congruence. Qed.
Lemma normsq_square_difference ps pts : forall x a, length x = length ps -> length a = length ps ->
  normsq (mulmv (length pts) (design pts ps) (vsub x a)) = square_difference x a ps pts.
Proof.
  intros x a Lx La. rewrite <- zsum_design by (rewrite vsub_len; congruence). induction pts as [|[r t] pts IH]; [reflexivity|].
  cbn [map square_difference]. cbn [fst snd]. change (normsq (?u :: ?v)) with (u * u + normsq v). rewrite IH, zsum_sub by congruence. reflexivity.
Qed.
Lemma Forall_residual ps pts a phases eps : length a = length ps -> length phases = length pts ->
  (forall k, (k < length pts)%nat -> Rabs (nth k phases 0 - zsum a ps (fst (nth k pts (0, 0))) (snd (nth k pts (0, 0)))) <= eps) ->
  Forall (fun v => Rabs v <= eps) (vsub phases (mulmv (length pts) (design pts ps) a)).
Proof.
  intros La. rewrite <- zsum_design by exact La. revert phases. induction pts as [|q pts IH]; intros [|b phases] L H; try discriminate; [constructor|].
  cbn [map]. unfold vsub. rewrite vscale_cons, vadd_cons. fold (vsub phases (map (fun q => zsum a ps (fst q) (snd q)) pts)). constructor.
  - specialize (H 0%nat ltac:(cbn; lia)). cbn [nth] in H. replace (b + -1 * zsum a ps (fst q) (snd q)) with (b - zsum a ps (fst q) (snd q)) by ring. exact H.
  - apply IH; [injection L; auto|]. intros k Hk. apply (H (S k)). cbn. lia.
Qed.

(** ** the fit of an image with data within eps of a wavefront *)
Lemma fit_close rnd lstsq fuel rows cols f ps a x strict digits (rc : bool) s mask S radii thetas eps :
  lstsq_contract lstsq -> reachable s -> Forall (okp fuel) ps -> NoDup ps -> ps <> [] -> length a = length ps ->
  crop_phases_img rnd (Img rows cols f) (RadNum x) strict = Ok (mask, (map (fun p => f (fst p) (snd p)) S, radii, thetas)) ->
  Forall in_disk radii -> radii <> [] -> length radii = length S -> length thetas = length S -> 0 <= eps ->
  (forall k, (k < length S)%nat -> Rabs (f (fst (nth k S (0, 0)%Z)) (snd (nth k S (0, 0)%Z)) - zsum a ps (nth k radii 0) (nth k thetas 0)) <= eps) ->
  exists y img, snd (fit_polynomials rnd lstsq fuel (Img rows cols f) (map Some ps) (RadNum x) strict digits rc s) = Ok (map (np_round digits) y, img) /\
    length y = length ps /\ square_difference y a ps (combine radii thetas) <= INR (length S) * (eps * eps) /\
    (forall kk, 0 < kk -> (forall z, length z = length ps -> kk * normsq z <= normsq (mulmv (length (combine radii thetas)) (design (combine radii thetas) ps) z)) ->
       forall i, Rabs (nth i y 0 - nth i a 0) <= sqrt (INR (length S) / kk) * eps).
Proof.
  intros C RS OK ND NP La EC F NR LR LT E0 CL.
  set (phases := map (fun p => f (fst p) (snd p)) S) in *. assert (LP : length phases = length S) by apply map_length.
  destruct (image_isok rnd lstsq fuel rows cols f ps x strict digits rc mask phases radii thetas OK ND NP EC F NR ltac:(congruence) ltac:(congruence) s RS) as [_ E].
  set (pts := combine radii thetas) in *. assert (LPT : length pts = length S) by (unfold pts; rewrite combine_length; lia).
  assert (W : wf (length phases) (design pts ps)) by (rewrite LP, <- LPT; apply design_wf).
  assert (LD : length (design pts ps) = length ps) by (unfold design; apply map_length).
  assert (SOL := C _ _ W). set (y := lstsq (design pts ps) phases) in *.
  assert (Ly : length y = length ps) by (rewrite <- LD; apply SOL).
  assert (FR : Forall (fun v => Rabs v <= eps) (vsub phases (mulmv (length phases) (design pts ps) a))).
  { rewrite LP, <- LPT. apply Forall_residual; [exact La|congruence|]. intros k Hk. rewrite LPT in Hk. specialize (CL k Hk).
    unfold pts. rewrite nth_combine_pts by congruence. cbn [fst snd].
    unfold phases. rewrite (nth_indep _ 0 (f (fst (0, 0)%Z) (snd (0, 0)%Z))) by (rewrite map_length; exact Hk).
    rewrite (map_nth (fun p => f (fst p) (snd p)) S (0, 0)%Z k). exact CL. }
  exists y. eexists. split; [exact E|]. split; [exact Ly|]. split.
  - rewrite <- normsq_square_difference by assumption. rewrite LPT, <- LP. eapply Rle_trans; [apply lstsq_closer; [exact W|exact SOL|congruence]|].
    eapply Rle_trans; [apply normsq_bound, FR|]. rewrite vsub_len by (rewrite mulmv_len by exact W; reflexivity). lra.
  - intros kk K HK i. rewrite <- LP. apply (lstsq_stable (design pts ps) kk phases y a eps W SOL); try assumption; [congruence|].
    intros z Lz. rewrite LP, <- LPT. apply HK. congruence.
Qed.
