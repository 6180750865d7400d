(** Property theorems C71: how much noise in an image changes the fitted coefficients - an explicit factor. Exact arithmetic on values;
    the crop's own arithmetic has any rounding [rnd] that is [sane]. *)
From Coq Require Import Reals Lra Lia List.
From Flocq Require Import Core.
From Verif Require Import Py SpecIndex SpecRadial M_Radial M_Coeffs SpecCoeffs M_Sum SpecSum L_Sum SpecFit L_LinAlg SpecGeo M_Crop M_Fit SpecCrop L_Polar L_Crop L_Phases L_Fit L_Indep L_Stable SpecDiff SpecFitNoise L_FitNoise
  SpecDisk SpecFitK L_FitK P_Fit.
Import ListNotations.
Local Open Scope R_scope.

(** default crop radius, and an image without the widened border: with the noise [noise] in the pixels the coefficients (before
    their rounding) are off by at most 2 / w times the noise, both in the root of the sum of squares; [w] from [resolves] *)
Theorem C71_noise_factor : forall rnd rows cols x (strict : bool) ps w,
  sane rnd -> (3 <= Z.min rows cols)%Z -> round4 rnd x = 1 -> border_margin rows cols strict = 1 / 1000 -> resolves rows cols ps w ->
  Forall (fun p => valid (fst p) (snd p)) ps -> NoDup ps -> ps <> [] ->
  exists mask pixels radii thetas, length radii = length pixels /\ length thetas = length pixels /\
    (forall f : Z -> Z -> R, crop_phases_img rnd (Img rows cols f) (RadNum x) strict
                               = Ok (mask, (map (fun p => f (fst p) (snd p)) pixels, radii, thetas))) /\
    forall lstsq fuel f a digits (return_cropped : bool) s noise,
      lstsq_contract lstsq -> reachable s -> Forall (okp fuel) ps -> length a = length ps -> length noise = length pixels ->
      (forall k, (k < length pixels)%nat ->
         f (fst (nth k pixels (0, 0)%Z)) (snd (nth k pixels (0, 0)%Z)) = zsum a ps (nth k radii 0) (nth k thetas 0) + nth k noise 0) ->
      exists y img,
        snd (fit_polynomials rnd lstsq fuel (Img rows cols f) (map Some ps) (RadNum x) strict digits return_cropped s) = Ok (map (np_round digits) y, img) /\
        length y = length ps /\
        sqrt (squares_diff y a) <= 2 / INR w * sqrt (sum_squares noise) /\
        forall i, (i < length ps)%nat ->
          Rabs (nth i (map (np_round digits) y) 0 - nth i a 0) <= 2 / INR w * sqrt (sum_squares noise) + / 2 * powerRZ 10 (- digits).
Proof.
  intros rnd rows cols x strict ps w SN HM EX BM RES V ND NP. assert (HC : 1 / 2 <= round4 rnd x <= 1) by (rewrite EX; lra).
  destruct (crop_coords rnd rows cols x strict SN HM HC) as (mask & S & radii & thetas & EC).
  destruct (crop_ok rnd rows cols (fun i j => (i, j)) x strict SN HM HC) as (sel & mask' & phases' & radii' & thetas' & H). cbn zeta in H.
  destruct H as (EC' & NS & EQ & LR & LT & DR & PO & _ & SELIN & _ & q & HQ & RAD). rewrite EC in EC'. apply Ok_inj in EC'. injection EC' as _ EPH E3 E4. subst radii' thetas'.
  assert (ES : S = filter sel (row_major rows cols)).
  { assert (M : forall l : list (Z * Z), map (fun p => (fst p, snd p)) l = l) by (induction l as [|(u, v) l IH]; cbn [map fst snd]; congruence).
    rewrite EQ in EPH. rewrite (M S) in EPH. rewrite (M (filter sel _)) in EPH. symmetry. exact EPH. }
  rewrite <- ES in NS, LR, LT.
  exists mask, S, radii, thetas. split; [exact LR|]. split; [exact LT|]. split; [exact (EC R)|].
  intros lstsq fuel f a digits rc s noise C RS OK La LN CL.
  assert (NR : radii <> []) by (intros ->; destruct S; [apply NS; reflexivity|discriminate]).
  assert (F : Forall in_disk radii) by (apply Forall_forall; exact DR).
  destruct (fit_noise rnd lstsq fuel rows cols f ps a x strict digits rc s mask S radii thetas noise C RS OK ND NP La (EC R f) F NR LR LT LN CL) as (y & img & E & Ly & SQ).
  exists y, img. split; [exact E|]. split; [exact Ly|].
  assert (LV : length (vsub y a) = length ps) by (rewrite vsub_len; congruence).
  rewrite ES in LR, LT.
  assert (PB : INR w * INR w / 4 * normsq (vsub y a) <= normsq (mulmv (length (combine radii thetas)) (design (combine radii thetas) ps) (vsub y a))).
  { apply (pixels_bound rows cols ps w sel radii thetas q HM V ND RES LR LT DR PO).
    - intros p Hp. apply SELIN. rewrite EX, BM. lra.
    - rewrite BM in HQ. lra.
    - exact RAD.
    - exact LV. }
  destruct RES as (W1 & _ & _). assert (WP : 1 <= INR w) by (apply (le_INR 1); exact W1).
  assert (SD : squares_diff y a = normsq (vsub y a)) by (apply squares_diff_normsq; congruence).
  assert (ROOT : sqrt (squares_diff y a) <= 2 / INR w * sqrt (sum_squares noise)).
  { rewrite SD. set (d := normsq (vsub y a)) in *. set (v := sum_squares noise) in *.
    assert (K0 : 0 <= 2 / INR w) by (apply Rmult_le_pos; [lra|left; apply Rinv_0_lt_compat; lra]).
    assert (v0 : 0 <= v) by (unfold v; rewrite sum_squares_normsq; apply normsq_nonneg).
    apply sqrt_le_r; [apply Rmult_le_pos; [exact K0|apply sqrt_pos]|].
    replace (2 / INR w * sqrt v * (2 / INR w * sqrt v)) with (4 / (INR w * INR w) * (sqrt v * sqrt v)) by (field; lra). rewrite sqrt_sqrt by exact v0.
    apply Rmult_le_reg_l with (INR w * INR w / 4); [assert (0 < INR w * INR w) by (apply Rmult_lt_0_compat; lra); lra|].
    replace (INR w * INR w / 4 * (4 / (INR w * INR w) * v)) with v by (field; lra). lra. }
  split; [exact ROOT|]. intros i Hi. assert (RE := np_round_all digits y i). rewrite Ly in RE. specialize (RE Hi).
  assert (CO : Rabs (nth i y 0 - nth i a 0) <= sqrt (squares_diff y a)).
  { rewrite SD. rewrite <- (sqrt_Rsqr (Rabs (nth i y 0 - nth i a 0))) by apply Rabs_pos. apply sqrt_le_1_alt. rewrite <- Rsqr_abs. unfold Rsqr.
    assert (N := coord_le (vsub y a) i). unfold vsub in N at 1 2. rewrite !nth_vadd, !nth_vscale in N by (rewrite vscale_len; congruence).
    replace (nth i y 0 + -1 * nth i a 0) with (nth i y 0 - nth i a 0) in N by ring. exact N. }
  replace (nth i (map (np_round digits) y) 0 - nth i a 0) with ((nth i (map (np_round digits) y) 0 - nth i y 0) + (nth i y 0 - nth i a 0)) by ring.
  eapply Rle_trans; [apply Rabs_triang|]. lra.
Qed.
Print Assumptions C71_noise_factor.

(** which images resolve which polynomials: with distinct polynomials of order at most N = 1, 2, 3, 4, [w] may be as large as the
    radius of the circle in pixels divided by 12.5, 50, 175, 430 *)
Theorem C71_resolving_sizes : forall rows cols N ps w,
  (1 <= N <= 4)%Z -> Forall (fun p => valid (fst p) (snd p)) ps -> NoDup ps -> Forall (fun p => snd p <= N)%Z ps ->
  (1 <= w)%nat -> resolving_radius N * INR w <= circle_radius rows cols -> resolves rows cols ps w.
Proof.
  intros rows cols N ps w HN V ND B W H. assert (WP : 1 <= INR w) by (apply (le_INR 1); exact W).
  destruct upto_squares as ((R1 & A1) & (R2 & A2) & (R3 & A3) & R4 & A4).
  assert (ST : exists lr la, 0 <= lr /\ 0 <= la /\ steepest_radial ps <= lr /\ steepest ps <= la /\ lr + la <= (49 / 100 - lr * (13 / 10000)) * (14 / 10 * resolving_radius N) /\ 12 <= resolving_radius N).
  { assert (CN : (N = 1 \/ N = 2 \/ N = 3 \/ N = 4)%Z) by lia.
    destruct CN as [-> | [-> | [-> | ->]]]; unfold resolving_radius; cbn [Z.leb Z.compare Pos.compare Pos.compare_cont].
    - exists (28285 / 10000), (5657 / 1000). destruct (upto_steep 1 (28285 / 10000) (5657 / 1000) ps V ND B) as (S1 & S2); try lia; try lra.
    - exists (102 / 10), (2263 / 100). destruct (upto_steep 2 (102 / 10) (2263 / 100) ps V ND B) as (S1 & S2); try lia; try lra.
    - exists (3213 / 100), (7715 / 100). destruct (upto_steep 3 (3213 / 100) (7715 / 100) ps V ND B) as (S1 & S2); try lia; try lra.
    - exists (6382 / 100), (18076 / 100). destruct (upto_steep 4 (6382 / 100) (18076 / 100) ps V ND B) as (S1 & S2); try lia; try lra. }
  destruct ST as (lr & la & L0 & A0 & HL & HA & ST & HR). set (q := resolving_radius N) in *. set (C := circle_radius rows cols) in *.
  assert (CP : 12 <= C) by (assert (q * 1 <= q * INR w) by (apply Rmult_le_compat_l; lra); lra).
  assert (RW : INR w / (14 / 10 * C) <= / (14 / 10 * q)).
  { apply Rmult_le_reg_r with (14 / 10 * C); [lra|]. apply Rmult_le_reg_l with (14 / 10 * q); [lra|].
    replace (14 / 10 * q * (INR w / (14 / 10 * C) * (14 / 10 * C))) with (14 / 10 * (q * INR w)) by (field; lra).
    replace (14 / 10 * q * (/ (14 / 10 * q) * (14 / 10 * C))) with (14 / 10 * C) by (field; lra). lra. }
  assert (RQ : / (14 / 10 * q) <= / (14 / 10 * 12)) by (apply Rinv_le_contravar; lra).
  assert (RN : 0 <= INR w / (14 / 10 * C)) by (apply Rmult_le_pos; [lra|left; apply Rinv_0_lt_compat; lra]).
  unfold resolves. fold C. set (rho := INR w / (14 / 10 * C)) in *. split; [exact W|]. split; [lra|].
  assert (S1 : (steepest_radial ps + steepest ps) * rho <= (lr + la) * / (14 / 10 * q)).
  { apply Rmult_le_compat; try assumption; [|lra]. assert (0 <= steepest_radial ps) by apply sqrt_pos. assert (0 <= steepest ps) by apply sqrt_pos. lra. }
  assert (S2 : (lr + la) * / (14 / 10 * q) <= 49 / 100 - lr * (13 / 10000)).
  { apply Rmult_le_reg_r with (14 / 10 * q); [lra|]. rewrite Rmult_assoc, Rinv_l by lra. lra. }
  lra.
Qed.
Print Assumptions C71_resolving_sizes.

(** an image of 513 x 513 pixels (radius 256, see [circle_radius]) and all polynomials of order at most 2: w = 5 *)
Example C71_nonvacuous : sane b64 /\ round4 b64 1 = 1 /\ border_margin 513 513 false = 1 / 1000 /\ border_margin 512 512 true = 1 / 1000 /\ lstsq_contract gs_lstsq /\
  resolves 513 513 [(0, 0); (-1, 1); (1, 1); (-2, 2); (0, 2); (2, 2)]%Z 5 /\
  Forall (okp 1000) [(0, 0); (-1, 1); (1, 1); (-2, 2); (0, 2); (2, 2)]%Z.
Proof.
  split; [exact sane_b64|]. split; [exact (round4_1 b64 sane_b64)|]. split; [reflexivity|]. split; [reflexivity|]. split; [exact gs_contract|].
  assert (V : Forall (fun p => valid (fst p) (snd p)) [(0, 0); (-1, 1); (1, 1); (-2, 2); (0, 2); (2, 2)]%Z).
  { repeat constructor; cbn [fst snd]; try lia; [exists 0%Z|exists 0%Z|exists 0%Z|exists 0%Z|exists 1%Z|exists 0%Z]; reflexivity. }
  split.
  - apply (C71_resolving_sizes 513 513 2); [lia|exact V| |repeat constructor; cbn; lia|lia|].
    + repeat constructor; cbn [In]; intros H; repeat (destruct H as [H|H]; [discriminate H|]); exact H.
    + unfold resolving_radius, circle_radius. cbn. lra.
  - apply Forall_forall. intros p Hp. rewrite Forall_forall in V. split; [apply (V p Hp)|].
    cbn [In] in Hp. repeat (destruct Hp as [<- | Hp]; [cbn; lia|]). destruct Hp.
Qed.
