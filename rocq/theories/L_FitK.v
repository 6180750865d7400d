(** How well the pixels of an image determine the coefficients: an explicit factor (C71). *)
From Coq Require Import Reals Lra Lia List Psatz.
From Flocq Require Import Core.
From Verif Require Import Py SpecIndex SpecRadial M_Radial M_Coeffs SpecCoeffs M_Sum SpecSum L_Sum SpecFit SpecGeo M_Geo M_Crop M_Fit SpecCrop L_Trig L_Polar L_Geo L_Crop L_LinAlg L_Phases L_Fit L_Indep
  L_Stable SpecDiff L_Slope L_Conv2 SpecFitNoise L_FitNoise SpecDisk L_Disk SpecFitK.
Import ListNotations.
Local Open Scope R_scope.

(** ** moving a point *)
Lemma sin_mult k x : Rabs (sin (INR k * x)) <= INR k * Rabs (sin x).
Proof.
  induction k as [|k IH]; [cbn [INR]; rewrite Rmult_0_l, sin_0, Rabs_R0; lra|].
  rewrite S_INR, Rmult_plus_distr_r, Rmult_1_l, sin_plus.
  eapply Rle_trans; [apply Rabs_triang|]. rewrite !Rabs_mult.
  pose proof (Rabs_pos (sin (INR k * x))) as A. pose proof (Rabs_pos (sin x)) as B.
  assert (C1 : Rabs (cos x) <= 1) by (apply Rabs_le, COS_bound). assert (C2 : Rabs (cos (INR k * x)) <= 1) by (apply Rabs_le, COS_bound).
  assert (Rabs (sin (INR k * x)) * Rabs (cos x) <= Rabs (sin (INR k * x)) * 1) by (apply Rmult_le_compat_l; assumption).
  assert (Rabs (cos (INR k * x)) * Rabs (sin x) <= 1 * Rabs (sin x)) by (apply Rmult_le_compat_r; assumption). lra.
Qed.
Definition chord (a b : R) : R := 2 * Rabs (sin ((a - b) / 2)).
Lemma chord_nonneg a b : 0 <= chord a b. Proof. unfold chord. pose proof (Rabs_pos (sin ((a - b) / 2))). lra. Qed.
Lemma chord_sym a b : chord a b = chord b a.
Proof. unfold chord. replace ((b - a) / 2) with (- ((a - b) / 2)) by field. rewrite sin_neg, Rabs_Ropp. reflexivity. Qed.
Lemma chord_mult k a b : 2 * Rabs (sin (INR k * ((a - b) / 2))) <= INR k * chord a b.
Proof. unfold chord. pose proof (sin_mult k ((a - b) / 2)). lra. Qed.
Lemma cos_chord a b : Rabs (cos a - cos b) <= 2 * Rabs (sin ((a - b) / 2)).
Proof.
  rewrite form2. rewrite !Rabs_mult. rewrite Rabs_left by lra. assert (H : Rabs (sin ((a + b) / 2)) <= 1) by (apply Rabs_le, SIN_bound).
  pose proof (Rabs_pos (sin ((a - b) / 2))). assert (Rabs (sin ((a - b) / 2)) * Rabs (sin ((a + b) / 2)) <= Rabs (sin ((a - b) / 2)) * 1) by (apply Rmult_le_compat_l; assumption). lra.
Qed.
Lemma sin_chord a b : Rabs (sin a - sin b) <= 2 * Rabs (sin ((a - b) / 2)).
Proof.
  rewrite form4. rewrite !Rabs_mult. rewrite (Rabs_pos_eq 2) by lra. assert (H : Rabs (cos ((a + b) / 2)) <= 1) by (apply Rabs_le, COS_bound).
  pose proof (Rabs_pos (sin ((a - b) / 2))). assert (Rabs (sin ((a - b) / 2)) * Rabs (cos ((a + b) / 2)) <= Rabs (sin ((a - b) / 2)) * 1) by (apply Rmult_le_compat_l; assumption). lra.
Qed.
Lemma T_chord m a b : Rabs (T_m m a - T_m m b) <= IZR (Z.abs m) * chord a b.
Proof.
  set (k := Z.to_nat (Z.abs m)). assert (EK : IZR (Z.abs m) = INR k) by (unfold k; rewrite INR_IZR_INZ, Z2Nat.id by apply Z.abs_nonneg; reflexivity).
  pose proof (chord_mult k a b) as H. rewrite EK. unfold T_m. destruct (0 <=? m)%Z eqn:E.
  - apply Z.leb_le in E. replace (IZR m) with (INR k) by (rewrite <- EK, Z.abs_eq by exact E; reflexivity).
    eapply Rle_trans; [apply cos_chord|]. replace ((INR k * a - INR k * b) / 2) with (INR k * ((a - b) / 2)) by field. exact H.
  - rewrite EK. eapply Rle_trans; [apply sin_chord|]. replace ((INR k * a - INR k * b) / 2) with (INR k * ((a - b) / 2)) by field. exact H.
Qed.
Lemma R_small m n r : valid m n -> m <> 0%Z -> 0 <= r <= 1 -> Rabs (R_nm m n r) <= slope m n * r.
Proof.
  intros V NZ H. pose proof (R_lipschitz m n r 0 V H ltac:(lra)) as L. rewrite (R_nm_0 m n V NZ) in L. rewrite !Rminus_0_r, (Rabs_pos_eq r) in L by lra. exact L.
Qed.
Lemma Z_turn m n r a b : valid m n -> 0 <= r <= 1 -> Rabs (Z_nm m n r a - Z_nm m n r b) <= norm_nm m n * slope m n * IZR (Z.abs m) * (r * chord a b).
Proof.
  intros V H. pose proof (norm_pos m n (proj1 V)) as NP. pose proof (slope_nonneg m n V) as SP. unfold Z_nm.
  replace (norm_nm m n * R_nm m n r * T_m m a - norm_nm m n * R_nm m n r * T_m m b) with (norm_nm m n * (R_nm m n r * (T_m m a - T_m m b))) by ring.
  rewrite Rabs_mult, (Rabs_pos_eq (norm_nm m n)), Rabs_mult by lra.
  replace (norm_nm m n * slope m n * IZR (Z.abs m) * (r * chord a b)) with (norm_nm m n * ((slope m n * r) * (IZR (Z.abs m) * chord a b))) by ring.
  apply Rmult_le_compat_l; [lra|]. pose proof (T_chord m a b) as T. destruct (Z.eq_dec m 0) as [->|NZ].
  - change (IZR (Z.abs 0)) with 0 in T |- *. rewrite Rmult_0_l in T |- *. rewrite Rmult_0_r.
    pose proof (Rabs_pos (T_m 0 a - T_m 0 b)) as P. replace (Rabs (T_m 0 a - T_m 0 b)) with 0 by lra. lra.
  - apply Rmult_le_compat; try apply Rabs_pos; [apply R_small; assumption|exact T].
Qed.
(** [D]: the distance of the points *)
Lemma Z_move m n r a r' b D : valid m n -> 0 <= r <= 1 -> 0 <= r' <= 1 -> Rabs (r - r') <= D -> Rmin r r' * chord a b <= D ->
  Rabs (Z_nm m n r a - Z_nm m n r' b) <= norm_nm m n * slope m n * (1 + IZR (Z.abs m)) * D.
Proof.
  intros V H H' D1 D2. pose proof (norm_pos m n (proj1 V)) as NP. pose proof (slope_nonneg m n V) as SP.
  assert (NS : 0 <= norm_nm m n * slope m n) by (apply Rmult_le_pos; lra). assert (MP : 0 <= IZR (Z.abs m)) by (apply (IZR_le 0), Z.abs_nonneg).
  assert (W : forall r r' a b, 0 <= r <= 1 -> 0 <= r' <= 1 -> r <= r' -> Rabs (r - r') <= D -> r * chord a b <= D ->
    Rabs (Z_nm m n r a - Z_nm m n r' b) <= norm_nm m n * slope m n * (1 + IZR (Z.abs m)) * D).
  { clear r a r' b H H' D1 D2. intros r r' a b H H' L D1 D2.
    replace (Z_nm m n r a - Z_nm m n r' b) with ((Z_nm m n r a - Z_nm m n r b) + (Z_nm m n r b - Z_nm m n r' b)) by ring.
    eapply Rle_trans; [apply Rabs_triang|]. pose proof (Z_turn m n r a b V H) as Q1. pose proof (Z_lip_r m n r r' b V H H') as Q2.
    assert (Q3 : norm_nm m n * slope m n * IZR (Z.abs m) * (r * chord a b) <= norm_nm m n * slope m n * IZR (Z.abs m) * D) by (apply Rmult_le_compat_l; [apply Rmult_le_pos; assumption|exact D2]).
    assert (Q4 : norm_nm m n * slope m n * Rabs (r - r') <= norm_nm m n * slope m n * D) by (apply Rmult_le_compat_l; assumption). lra. }
  destruct (Rle_dec r r') as [L|L].
  - apply W; try assumption. rewrite Rmin_left in D2 by exact L. exact D2.
  - rewrite Rabs_minus_sym. apply W; try assumption; [lra|rewrite Rabs_minus_sym; exact D1|]. rewrite Rmin_right in D2 by lra. rewrite chord_sym. exact D2.
Qed.
(** polar coordinates and distances *)
Lemma polar_dist r a r' b : (r * cos a - r' * cos b) * (r * cos a - r' * cos b) + (r * sin a - r' * sin b) * (r * sin a - r' * sin b)
  = (r - r') * (r - r') + r * r' * (chord a b * chord a b).
Proof.
  unfold chord. replace (2 * Rabs (sin ((a - b) / 2)) * (2 * Rabs (sin ((a - b) / 2)))) with (4 * (Rabs (sin ((a - b) / 2)) * Rabs (sin ((a - b) / 2)))) by ring.
  rewrite <- Rabs_mult, Rabs_pos_eq by apply Rle_0_sqr.
  assert (E : cos (a - b) = 1 - 2 * (sin ((a - b) / 2) * sin ((a - b) / 2))).
  { replace (a - b) with (2 * ((a - b) / 2)) at 1 by field. rewrite cos_2a_sin. ring. }
  assert (C : cos (a - b) = cos a * cos b + sin a * sin b) by apply cos_minus.
  pose proof (sin2_cos2 a) as A. pose proof (sin2_cos2 b) as B. unfold Rsqr in A, B.
  replace ((r * cos a - r' * cos b) * (r * cos a - r' * cos b) + (r * sin a - r' * sin b) * (r * sin a - r' * sin b))
    with (r * r * (sin a * sin a + cos a * cos a) + r' * r' * (sin b * sin b + cos b * cos b) - 2 * r * r' * (cos a * cos b + sin a * sin b)) by ring.
  rewrite A, B, <- C, E. ring.
Qed.
Lemma near_polar r a r' b D : 0 <= r -> 0 <= r' -> 0 <= D ->
  (r * cos a - r' * cos b) * (r * cos a - r' * cos b) + (r * sin a - r' * sin b) * (r * sin a - r' * sin b) <= D * D ->
  Rabs (r - r') <= D /\ Rmin r r' * chord a b <= D.
Proof.
  intros H H' HD Q. rewrite polar_dist in Q. pose proof (chord_nonneg a b) as CN. set (c := chord a b) in *.
  assert (P1 : 0 <= r * r' * (c * c)) by (apply Rmult_le_pos; apply Rmult_le_pos; assumption).
  assert (P2 : 0 <= (r - r') * (r - r')) by (apply Rle_0_sqr). split.
  - apply Rsqr_incr_0_var; [|exact HD]. rewrite <- Rsqr_abs. unfold Rsqr. lra.
  - assert (M0 : 0 <= Rmin r r') by (apply Rmin_glb; assumption). apply Rsqr_incr_0_var; [|exact HD]. unfold Rsqr.
    replace (Rmin r r' * c * (Rmin r r' * c)) with (Rmin r r' * Rmin r r' * (c * c)) by ring.
    assert (Rmin r r' * Rmin r r' <= r * r') by (apply Rmult_le_compat; try assumption; [apply Rmin_l|apply Rmin_r]).
    assert (Rmin r r' * Rmin r r' * (c * c) <= r * r' * (c * c)) by (apply Rmult_le_compat_r; [apply Rmult_le_pos; assumption|assumption]). lra.
Qed.

(** ** sums: Cauchy-Schwarz *)
Lemma sum_lip (l : Z * Z -> R) ps : forall z x a y b D, length z = length ps -> 0 <= D ->
  Forall (fun p => 0 <= l p /\ Rabs (Z_nm (fst p) (snd p) x a - Z_nm (fst p) (snd p) y b) <= l p * D) ps ->
  Rabs (zsum z ps x a - zsum z ps y b) <= sqrt (squares z) * sqrt (fold_right (fun p s => Rsqr (l p) + s) 0 ps) * D.
Proof.
  intros z x a y b D L HD F.
  assert (SN : forall z, 0 <= squares z) by (intros zz; induction zz as [|v zz IH]; cbn [squares fold_right]; [lra|]; pose proof (Rle_0_sqr v) as Q; unfold Rsqr in Q; fold (squares zz); lra).
  assert (LN : forall qs, 0 <= fold_right (fun p s => Rsqr (l p) + s) 0 qs) by (intros qs; induction qs as [|p qs IH]; cbn [fold_right]; [lra|]; pose proof (Rle_0_sqr (l p)); lra).
  revert z L. induction F as [|[m n] ps (L0 & H) F IH]; intros [|c z] L; try discriminate.
  { cbn [zsum]. rewrite Rminus_0_r, Rabs_R0. apply Rmult_le_pos; [|exact HD]. apply Rmult_le_pos; apply sqrt_pos. }
  injection L as L. specialize (IH z L). cbn [zsum squares fold_right fst snd] in *. fold (squares z) in *. set (Q := fold_right _ 0 ps) in *.
  set (q := squares z) in *. assert (Q0 : 0 <= Q) by apply LN. assert (q0 : 0 <= q) by apply SN. set (w := l (m, n)) in *. cbn [fst snd] in H.
  replace (c * Z_nm m n x a + zsum z ps x a - (c * Z_nm m n y b + zsum z ps y b)) with (c * (Z_nm m n x a - Z_nm m n y b) + (zsum z ps x a - zsum z ps y b)) by ring.
  eapply Rle_trans; [apply Rabs_triang|]. rewrite Rabs_mult.
  assert (B1 : Rabs c * Rabs (Z_nm m n x a - Z_nm m n y b) <= Rabs c * (w * D)) by (apply Rmult_le_compat_l; [apply Rabs_pos|exact H]).
  set (s := sqrt q) in *. set (t := sqrt Q) in *. assert (s0 : 0 <= s) by apply sqrt_pos. assert (t0 : 0 <= t) by apply sqrt_pos.
  assert (ES : s * s = q) by (apply sqrt_sqrt; exact q0). assert (ET : t * t = Q) by (apply sqrt_sqrt; exact Q0).
  assert (CS : Rabs c * w + s * t <= sqrt (c * c + q) * sqrt (Rsqr w + Q)).
  { rewrite <- sqrt_mult_alt by (pose proof (Rle_0_sqr c) as X; unfold Rsqr in X; lra). apply Rsqr_incr_0_var; [|apply sqrt_pos].
    unfold Rsqr at 2. pose proof (Rle_0_sqr c) as X1. pose proof (Rle_0_sqr w) as X2. rewrite sqrt_sqrt by (unfold Rsqr in *; apply Rmult_le_pos; lra).
    assert (AC : Rabs c * Rabs c = c * c) by (rewrite <- Rabs_mult; apply Rabs_pos_eq, Rle_0_sqr). rewrite <- ES, <- ET. unfold Rsqr. rewrite <- AC.
    pose proof (Rle_0_sqr (Rabs c * t - s * w)) as X. unfold Rsqr in X. lra. }
  assert (CD : (Rabs c * w + s * t) * D <= sqrt (c * c + q) * sqrt (Rsqr w + Q) * D) by (apply Rmult_le_compat_r; assumption). lra.
Qed.
Lemma sum_radial ps z x y a : Forall validp ps -> length z = length ps -> 0 <= x <= 1 -> 0 <= y <= 1 ->
  Rabs (zsum z ps x a - zsum z ps y a) <= sqrt (squares z) * steepest_radial ps * Rabs (x - y).
Proof.
  intros V L X Y. apply (sum_lip (fun p => norm_nm (fst p) (snd p) * slope (fst p) (snd p)) ps z x a y a _ L (Rabs_pos _)).
  eapply Forall_impl; [|exact V]. intros p Vp. pose proof (norm_pos (fst p) (snd p) (proj1 Vp)). pose proof (slope_nonneg _ _ Vp).
  split; [apply Rmult_le_pos; lra|apply Z_lip_r; assumption].
Qed.
Lemma sum_move ps z x a y b D : Forall validp ps -> length z = length ps -> 0 <= x <= 1 -> 0 <= y <= 1 -> 0 <= D -> Rabs (x - y) <= D -> Rmin x y * chord a b <= D ->
  Rabs (zsum z ps x a - zsum z ps y b) <= sqrt (squares z) * steepest ps * D.
Proof.
  intros V L X Y HD D1 D2. apply (sum_lip (fun p => norm_nm (fst p) (snd p) * slope (fst p) (snd p) * (1 + IZR (Z.abs (fst p)))) ps z x a y b _ L HD).
  eapply Forall_impl; [|exact V]. intros p Vp. pose proof (norm_pos (fst p) (snd p) (proj1 Vp)). pose proof (slope_nonneg _ _ Vp).
  assert (0 <= IZR (Z.abs (fst p))) by (apply (IZR_le 0), Z.abs_nonneg).
  split; [apply Rmult_le_pos; [apply Rmult_le_pos; lra|lra]|apply Z_move; assumption].
Qed.

(** ** somewhere the wavefront is as large as its root mean square *)
Lemma large_somewhere ps z : Forall validp ps -> NoDup ps -> length z = length ps ->
  exists r a, 0 <= r <= 1 /\ 99 / 100 * sqrt (squares z) <= Rabs (zsum z ps r a).
Proof.
  intros V ND L. set (q := squares z).
  assert (q0 : 0 <= q). { unfold q. clear. induction z as [|v zz IH]; cbn [squares fold_right]; [lra|]; pose proof (Rle_0_sqr v) as Q; unfold Rsqr in Q; fold (squares zz); lra. }
  apply Classical_Prop.NNPP. intros NO.
  assert (S : forall r a, 0 <= r <= 1 -> zsum z ps r a * zsum z ps r a <= 9801 / 10000 * q /\ Rabs (zsum z ps r a) < 99 / 100 * sqrt q).
  { intros r a H. assert (LT : Rabs (zsum z ps r a) < 99 / 100 * sqrt q) by (apply Rnot_le_lt; intros C; apply NO; exists r, a; split; assumption).
    split; [|exact LT]. assert (E : zsum z ps r a * zsum z ps r a = Rabs (zsum z ps r a) * Rabs (zsum z ps r a)) by (rewrite <- Rabs_mult; symmetry; apply Rabs_pos_eq, Rle_0_sqr).
    rewrite E. apply Rle_trans with (99 / 100 * sqrt q * (99 / 100 * sqrt q)); [apply Rmult_le_compat; try apply Rabs_pos; lra|].
    replace (99 / 100 * sqrt q * (99 / 100 * sqrt q)) with (9801 / 10000 * (sqrt q * sqrt q)) by field. rewrite sqrt_sqrt by exact q0. lra. }
  pose proof (zsum_nice ps V z) as NI.
  pose proof (mean_le _ _ (nice_mult _ _ NI NI) (nice_const (9801 / 10000 * q)) (fun p phi H => proj1 (S p phi H))) as M.
  rewrite mean_const, (mean_square ps V ND z L) in M. fold q in M. assert (q = 0) by lra.
  destruct (S 0 0 ltac:(lra)) as (_ & A). rewrite H, sqrt_0 in A. pose proof (Rabs_pos (zsum z ps 0 0)). lra.
Qed.

(** ** counting *)
Lemma count_below {A} (dec : forall x y : A, {x = y} + {x <> y}) (da : A) c : 0 <= c -> forall l h Q, length h = length l -> Forall (fun v => 0 <= v) h -> NoDup Q -> incl Q l ->
  (forall k, (k < length l)%nat -> In (nth k l da) Q -> c <= nth k h 0) -> c * INR (length Q) <= fold_right Rplus 0 h.
Proof.
  intros C0. induction l as [|x l IH]; intros [|v h] Q L F ND I H; try discriminate.
  { assert (Q = []) by (destruct Q as [|y Q]; [reflexivity|destruct (I y (or_introl eq_refl))]). subst Q. cbn. lra. }
  injection L as L. inversion F as [|? ? v0 F']; subst. cbn [fold_right].
  assert (REM : c * INR (length (remove dec x Q)) <= fold_right Rplus 0 h).
  { apply IH; try assumption.
    - clear -ND. induction ND as [|y Q N ND IH]; cbn [remove]; [constructor|]. destruct (dec x y); [exact IH|]. constructor; [|exact IH]. intros C. apply in_remove in C. tauto.
    - intros y Hy. apply in_remove in Hy. destruct Hy as (Hy & NE). destruct (I y Hy) as [E|E]; [congruence|exact E].
    - intros k Hk Hin. apply in_remove in Hin. apply (H (S k)); [cbn; lia|cbn [nth]; tauto]. }
  destruct (in_dec dec x Q) as [IN|NIN].
  - assert (LQ : length Q = S (length (remove dec x Q))).
    { clear -ND IN. induction ND as [|y Q N ND IH]; [destruct IN|]. cbn [remove length]. destruct (dec x y) as [->|NE].
      - f_equal. rewrite notin_remove by exact N. reflexivity.
      - destruct IN as [E|IN]; [congruence|]. cbn [length]. rewrite IH by exact IN. reflexivity. }
    rewrite LQ, S_INR. specialize (H 0%nat ltac:(cbn; lia) IN). cbn [nth] in H. lra.
  - rewrite notin_remove in REM by exact NIN. lra.
Qed.
(** consecutive integers in an interval of length [w] *)
Lemma integers_in x w : exists i0 : Z, forall k, (0 <= k < Z.of_nat w)%Z -> x <= IZR (i0 + k) <= x + INR w.
Proof.
  exists (- Int_part (- x))%Z. intros k Hk. destruct (base_Int_part (- x)) as (B1 & B2). rewrite plus_IZR, opp_IZR.
  assert (K0 : 0 <= IZR k) by (apply (IZR_le 0); lia). assert (K1 : IZR k <= INR w - 1).
  { rewrite INR_IZR_INZ. replace (IZR (Z.of_nat w) - 1) with (IZR (Z.of_nat w - 1)) by (rewrite minus_IZR; reflexivity). apply IZR_le. lia. }
  lra.
Qed.

(** ** the pixels near the largest value *)
Section Pixels.
Variables (rows cols : Z) (ps : list (Z * Z)) (w : nat) (sel : Z * Z -> bool) (radii thetas : list R) (q : R).
Let S := filter sel (row_major rows cols).
Let C := circle_radius rows cols.
Hypothesis HM : (3 <= Z.min rows cols)%Z.
Hypothesis V : Forall validp ps.
Hypothesis ND : NoDup ps.
Hypothesis RES : resolves rows cols ps w.
Hypothesis LR : length radii = length S.
Hypothesis LT : length thetas = length S.
Hypothesis DR : forall r, In r radii -> 0 <= r <= 1.
Hypothesis PO : forall k, (k < length S)%nat -> exists rho, polar (off_x cols (nth k S (0, 0)%Z)) (off_y rows (nth k S (0, 0)%Z)) rho (nth k thetas 0).
Hypothesis SELIN : forall p, rel_dist rows cols p <= 1 -> sel p = true.
Hypothesis HQ : 1 <= q <= 1 + 11 / 10000.
Hypothesis RAD : forall k, (k < length S)%nat -> Rabs (nth k radii 0 - rel_dist rows cols (nth k S (0, 0)%Z) / q) <= 2 / 10000.

Lemma circle_size : C <= IZR rows / 2 /\ C <= IZR cols / 2.
Proof.
  unfold C, circle_radius. set (m := if (Z.abs (rows - cols) <? 2)%Z then Z.max rows cols else Z.min rows cols).
  assert (H : (m <= rows + 1 /\ m <= cols + 1)%Z) by (unfold m; destruct (Z.abs (rows - cols) <? 2)%Z eqn:E; lia).
  destruct H as (H1 & H2). apply IZR_le in H1, H2. rewrite plus_IZR in H1, H2. lra.
Qed.
Lemma pixels_large z : length z = length ps -> exists Q, NoDup Q /\ incl Q S /\ length Q = (w * w)%nat /\
  forall k, (k < length S)%nat -> In (nth k S (0, 0)%Z) Q -> 1 / 2 * sqrt (squares z) <= Rabs (zsum z ps (nth k radii 0) (nth k thetas 0)).
Proof.
  intros L. destruct RES as (W1 & W2 & W3). fold C in W2, W3. pose proof (circle_ge1 rows cols HM) as C1. fold C in C1.
  destruct (large_somewhere ps z V ND L) as (rs & a & Hrs & PK). set (s := sqrt (squares z)) in *. assert (s0 : 0 <= s) by apply sqrt_pos.
  set (rho := INR w / (14 / 10 * C)) in *. assert (WP : 1 <= INR w) by (apply (le_INR 1); exact W1).
  assert (EW : INR w = 14 / 10 * C * rho) by (unfold rho; field; lra).
  assert (RP : 0 <= rho) by (unfold rho; apply Rmult_le_pos; [lra|left; apply Rinv_0_lt_compat; lra]).
  set (rc := Rmax 0 (rs - rho - 11 / 10000)). assert (RC0 : 0 <= rc) by apply Rmax_l.
  assert (QI : 9989 / 10000 <= / q).
  { apply Rmult_le_reg_r with q; [lra|]. rewrite Rinv_l by lra. apply Rle_trans with (9989 / 10000 * (1 + 11 / 10000)); [apply Rmult_le_compat_l; lra|lra]. }
  assert (RC1 : rc + rho <= / q) by (unfold rc, Rmax; destruct (Rle_dec 0 _); lra).
  assert (RC2 : Rabs (rc - rs) <= rho + 11 / 10000).
  { unfold rc, Rmax. destruct (Rle_dec 0 _); apply Rabs_le; lra. }
  assert (RC3 : rc <= 1) by (unfold rc, Rmax; destruct (Rle_dec 0 _); lra).
  set (Xc := C * q * (rc * cos a)). set (Yc := C * q * (rc * sin a)).
  destruct (integers_in (Xc - INR w / 2 + (IZR cols - 1) / 2) w) as (j0 & HJ). destruct (integers_in ((IZR rows - 1) / 2 - Yc - INR w / 2) w) as (i0 & HI).
  set (Q := list_prod (zrange i0 w) (zrange j0 w)).
  assert (CQ : 0 < C * q) by (apply Rmult_lt_0_compat; lra).
  (** every pixel of the square is close to the point (rc, a) and inside the circle *)
  assert (NEAR : forall i j, In (i, j) Q -> let X := off_x cols (i, j) in let Y := off_y rows (i, j) in
    (X - Xc) * (X - Xc) + (Y - Yc) * (Y - Yc) <= (C * q * rho) * (C * q * rho)).
  { intros i j H X Y. apply in_prod_iff in H. destruct H as (Hi & Hj). apply zrange_In in Hi, Hj.
    specialize (HI (i - i0)%Z ltac:(lia)). specialize (HJ (j - j0)%Z ltac:(lia)). replace (i0 + (i - i0))%Z with i in HI by lia. replace (j0 + (j - j0))%Z with j in HJ by lia.
    assert (AX : Rabs (X - Xc) <= INR w / 2) by (unfold X, off_x; cbn [snd]; apply Rabs_le; lra).
    assert (AY : Rabs (Y - Yc) <= INR w / 2) by (unfold Y, off_y; cbn [fst]; apply Rabs_le; lra).
    assert (SQ : forall u b, Rabs u <= b -> u * u <= b * b).
    { intros u b H. replace (u * u) with (Rabs u * Rabs u) by (rewrite <- Rabs_mult; apply Rabs_pos_eq, Rle_0_sqr). apply Rmult_le_compat; try apply Rabs_pos; exact H. }
    apply SQ in AX, AY. assert (E : INR w / 2 * (INR w / 2) + INR w / 2 * (INR w / 2) = 98 / 100 * (C * rho * (C * rho))) by (rewrite EW; field).
    assert (G : C * rho * (C * rho) <= C * q * rho * (C * q * rho)).
    { assert (B0 : 0 <= C * rho) by (apply Rmult_le_pos; lra). assert (B1 : C * rho <= C * q * rho) by (replace (C * q * rho) with (q * (C * rho)) by ring; rewrite <- (Rmult_1_l (C * rho)) at 1; apply Rmult_le_compat_r; lra).
      apply Rmult_le_compat; assumption. }
    pose proof (Rle_0_sqr (C * rho)) as N. unfold Rsqr in N. lra. }
  assert (POL : forall X Y d t, 0 <= d -> d * cos t = X -> d * sin t = Y -> (X - Xc) * (X - Xc) + (Y - Yc) * (Y - Yc) <= (C * q * rho) * (C * q * rho) ->
    Rabs (d / (C * q) - rc) <= rho /\ Rmin (d / (C * q)) rc * chord t a <= rho).
  { intros X Y d t D0 EX EY H. apply near_polar; [apply Rmult_le_pos; [exact D0|left; apply Rinv_0_lt_compat, CQ]|exact RC0|exact RP|].
    apply Rmult_le_reg_l with (C * q * (C * q)); [apply Rmult_lt_0_compat; exact CQ|].
    replace (C * q * (C * q) * (rho * rho)) with (C * q * rho * (C * q * rho)) by ring. eapply Rle_trans; [|exact H]. right. rewrite <- EX, <- EY. unfold Xc, Yc. field. lra. }
  assert (REL : forall p d t, polar (off_x cols p) (off_y rows p) d t -> rel_dist rows cols p = d / C).
  { intros p d t (D0 & _ & EX & EY). unfold rel_dist. fold C. f_equal. rewrite <- EX, <- EY.
    replace (d * cos t * (d * cos t) + d * sin t * (d * sin t)) with (d * d * (Rsqr (sin t) + Rsqr (cos t))) by (unfold Rsqr; ring). rewrite sin2_cos2, Rmult_1_r. apply sqrt_square, D0. }
  assert (INS : forall i j, In (i, j) Q -> rel_dist rows cols (i, j) <= 1).
  { intros i j H. pose proof (pixel_polar (off_y rows (i, j)) (off_x cols (i, j))) as PL. set (d := norm2 _ _) in PL. set (t := pixel_theta _ _) in PL. rewrite (REL _ _ _ PL). destruct PL as (D0 & _ & EX & EY).
    destruct (POL _ _ d t D0 EX EY (NEAR i j H)) as (A & _). apply Rabs_le_inv in A. assert (B : d / (C * q) <= / q) by lra.
    apply Rmult_le_reg_r with (/ q); [apply Rinv_0_lt_compat; lra|]. rewrite Rmult_1_l. eapply Rle_trans; [|exact B]. right. field. lra. }
  exists Q. split; [|split; [|split]].
  - unfold Q. clear. assert (NP : forall (l l' : list Z), NoDup l -> NoDup l' -> NoDup (list_prod l l')).
    { intros l l' N N'. induction N as [|x l NI N IH]; cbn [list_prod]; [constructor|]. apply NoDup_app.
      - apply FinFun.Injective_map_NoDup; [intros u v E; congruence|exact N'].
      - exact IH.
      - intros (u, v) H1 H2. apply in_map_iff in H1. destruct H1 as (y & E & _). injection E as <- <-. apply in_prod_iff in H2. tauto. }
    apply NP; apply zrange_NoDup.
  - intros (i, j) H. apply filter_In. split; [|apply SELIN, INS, H]. pose proof (INS i j H) as R1. unfold rel_dist in R1. fold C in R1.
    assert (R2 : sqrt (off_x cols (i, j) * off_x cols (i, j) + off_y rows (i, j) * off_y rows (i, j)) <= C).
    { apply Rmult_le_reg_r with (/ C); [apply Rinv_0_lt_compat; lra|]. rewrite Rinv_r by lra. exact R1. }
    set (X := off_x cols (i, j)) in *. set (Y := off_y rows (i, j)) in *.
    assert (R3 : X * X + Y * Y <= C * C).
    { pose proof (Rle_0_sqr X) as N1. pose proof (Rle_0_sqr Y) as N2. unfold Rsqr in N1, N2. rewrite <- (sqrt_sqrt (X * X + Y * Y)) by lra. apply Rmult_le_compat; try apply sqrt_pos; exact R2. }
    assert (AX : Rabs X <= C) by (apply Rsqr_incr_0_var; [|lra]; rewrite <- Rsqr_abs; unfold Rsqr; pose proof (Rle_0_sqr Y) as N2; unfold Rsqr in N2; lra).
    assert (AY : Rabs Y <= C) by (apply Rsqr_incr_0_var; [|lra]; rewrite <- Rsqr_abs; unfold Rsqr; pose proof (Rle_0_sqr X) as N2; unfold Rsqr in N2; lra).
    apply Rabs_le_inv in AX, AY. unfold X, off_x in AX. unfold Y, off_y in AY. cbn [fst snd] in AX, AY. destruct circle_size as (CR & CC).
    apply row_major_In. split; split.
    + assert (-1 < i)%Z; [|lia]. apply lt_IZR. lra.
    + apply lt_IZR. lra.
    + assert (-1 < j)%Z; [|lia]. apply lt_IZR. lra.
    + apply lt_IZR. lra.
  - unfold Q. rewrite prod_length, !zrange_len. reflexivity.
  - intros k Hk HIN. specialize (PO k Hk). specialize (RAD k Hk). destruct (nth k S (0, 0)%Z) as (i, j) eqn:EP. destruct PO as (d & PL). rewrite (REL _ _ _ PL) in RAD.
    destruct PL as (D0 & _ & EX & EY). set (t := nth k thetas 0) in *. destruct (POL _ _ d t D0 EX EY (NEAR i j HIN)) as (A & B).
    replace (d / C / q) with (d / (C * q)) in RAD by (field; lra). set (dq := d / (C * q)) in *. set (r := nth k radii 0) in *.
    assert (DQ0 : 0 <= dq) by (unfold dq; apply Rmult_le_pos; [exact D0|left; apply Rinv_0_lt_compat, CQ]).
    assert (DQ1 : dq <= 1). { apply Rabs_le_inv in A. assert (/ q <= 1) by (rewrite <- Rinv_1; apply Rinv_le_contravar; lra). lra. }
    assert (Hr : 0 <= r <= 1) by (apply DR; unfold r; apply nth_In; rewrite LR; exact Hk).
    pose proof (sum_radial ps z r dq t V L Hr (conj DQ0 DQ1)) as Q1. pose proof (sum_move ps z dq t rc a rho V L (conj DQ0 DQ1) (conj RC0 RC3) RP A B) as Q2.
    pose proof (sum_radial ps z rc rs a V L (conj RC0 RC3) Hrs) as Q3. fold s in Q1, Q2, Q3.
    set (Lr := steepest_radial ps) in *. set (La := steepest ps) in *. assert (Lr0 : 0 <= Lr) by apply sqrt_pos. assert (La0 : 0 <= La) by apply sqrt_pos.
    assert (sL : 0 <= s * Lr) by (apply Rmult_le_pos; assumption).
    assert (Q1' : s * Lr * Rabs (r - dq) <= s * Lr * (2 / 10000)) by (apply Rmult_le_compat_l; assumption).
    assert (Q3' : s * Lr * Rabs (rc - rs) <= s * Lr * (rho + 11 / 10000)) by (apply Rmult_le_compat_l; assumption).
    assert (TOT : s * (Lr * (13 / 10000) + (Lr + La) * rho) <= s * (49 / 100)) by (apply Rmult_le_compat_l; [exact s0|exact W3]).
    set (v := zsum z ps r t) in *. set (v1 := zsum z ps dq t) in *. set (v2 := zsum z ps rc a) in *. set (v3 := zsum z ps rs a) in *.
    assert (TRI : Rabs v3 <= Rabs v + Rabs (v - v1) + Rabs (v1 - v2) + Rabs (v2 - v3)).
    { replace v3 with (v + - (v - v1) + - (v1 - v2) + - (v2 - v3)) at 1 by ring. 
      eapply Rle_trans; [apply Rabs_triang|]. rewrite Rabs_Ropp. apply Rplus_le_compat_r. eapply Rle_trans; [apply Rabs_triang|]. rewrite Rabs_Ropp. apply Rplus_le_compat_r.
      eapply Rle_trans; [apply Rabs_triang|]. rewrite Rabs_Ropp. apply Rle_refl. }
    lra.
Qed.
Lemma squares_normsq z : squares z = normsq z.
Proof. induction z as [|v z IH]; [reflexivity|]. cbn [squares fold_right]. fold (squares z). rewrite IH. reflexivity. Qed.
(** the values at the pixels are not small *)
Lemma pixels_bound z : length z = length ps ->
  INR w * INR w / 4 * normsq z <= normsq (mulmv (length (combine radii thetas)) (design (combine radii thetas) ps) z).
Proof.
  intros L. destruct (pixels_large z L) as (Q & NQ & IQ & LQ & H). set (pts := combine radii thetas).
  assert (LP : length pts = length S) by (unfold pts; rewrite combine_length; lia).
  rewrite <- zsum_design by exact L. set (h := map (fun p => zsum z ps (fst p) (snd p) * zsum z ps (fst p) (snd p)) pts).
  assert (EN : normsq (map (fun p => zsum z ps (fst p) (snd p)) pts) = fold_right Rplus 0 h).
  { unfold h. clear. induction pts as [|p pts IH]; [reflexivity|]. cbn [map fold_right]. rewrite <- IH. reflexivity. }
  rewrite EN. rewrite <- squares_normsq. set (s := squares z) in *.
  assert (s0 : 0 <= s) by (unfold s; rewrite squares_normsq; apply normsq_nonneg).
  assert (G : s / 4 * INR (length Q) <= fold_right Rplus 0 h).
  { apply (count_below zz_dec (0, 0)%Z (s / 4) ltac:(lra) S h Q); try assumption.
    - unfold h. rewrite map_length. exact LP.
    - apply Forall_forall. intros x Hx. unfold h in Hx. apply in_map_iff in Hx. destruct Hx as (p & <- & _). apply Rle_0_sqr.
    - intros k Hk HIN. specialize (H k Hk HIN). unfold h.
      set (ff := fun p : R * R => zsum z ps (fst p) (snd p) * zsum z ps (fst p) (snd p)).
      rewrite (nth_indep (map ff pts) 0 (ff (0, 0))) by (rewrite map_length; lia). rewrite map_nth. unfold ff.
      unfold pts. rewrite nth_combine_pts by congruence. cbn [fst snd]. set (v := zsum z ps _ _) in *.
      replace (v * v) with (Rabs v * Rabs v) by (rewrite <- Rabs_mult; apply Rabs_pos_eq, Rle_0_sqr).
      assert (P : 0 <= 1 / 2 * sqrt s) by (pose proof (sqrt_pos s); lra).
      apply Rle_trans with (1 / 2 * sqrt s * (1 / 2 * sqrt s)); [|apply Rmult_le_compat; assumption].
      replace (1 / 2 * sqrt s * (1 / 2 * sqrt s)) with (sqrt s * sqrt s / 4) by field. rewrite sqrt_sqrt by exact s0. lra. }
  rewrite LQ, mult_INR in G. lra.
Qed.
End Pixels.

(** ** the fit of an image with given noise *)
Lemma residual_noise ps pts a : length a = length ps -> forall phases noise, length phases = length pts -> length noise = length pts ->
  (forall k, (k < length pts)%nat -> nth k phases 0 = zsum a ps (fst (nth k pts (0, 0))) (snd (nth k pts (0, 0))) + nth k noise 0) ->
  vsub phases (mulmv (length pts) (design pts ps) a) = noise.
Proof.
  intros La. rewrite <- zsum_design by exact La. induction pts as [|q pts IH]; intros [|b phases] [|e noise] L L' H; try discriminate; [reflexivity|].
  cbn [map]. unfold vsub. rewrite vscale_cons, vadd_cons. fold (vsub phases (map (fun q => zsum a ps (fst q) (snd q)) pts)). f_equal.
  - specialize (H 0%nat ltac:(cbn; lia)). cbn [nth] in H. rewrite H. ring.
  - apply IH; [injection L; auto|injection L'; auto|]. intros k Hk. apply (H (S k)). cbn. lia.
Qed.
Lemma sum_squares_normsq e : sum_squares e = normsq e.
Proof. induction e as [|v e IH]; [reflexivity|]. cbn [sum_squares fold_right]. fold (sum_squares e). rewrite IH. reflexivity. Qed.
Lemma squares_diff_normsq : forall x a, length x = length a -> squares_diff x a = normsq (vsub x a).
Proof.
  induction x as [|u x IH]; intros [|v a] L; try discriminate; [reflexivity|]. cbn [squares_diff]. unfold vsub. rewrite vscale_cons, vadd_cons. fold (vsub x a).
  rewrite IH by (injection L; auto). change (normsq (?p :: ?l)) with (p * p + normsq l). ring.
Qed.
Lemma fit_noise rnd lstsq fuel rows cols f ps a x strict digits (rc : bool) s mask S radii thetas noise :
  lstsq_contract lstsq -> reachable s -> Forall (okp fuel) ps -> NoDup ps -> ps <> [] -> length a = length ps ->
  crop_phases_img rnd (Img rows cols f) (RadNum x) strict = Ok (mask, (map (fun p => f (fst p) (snd p)) S, radii, thetas)) ->
  Forall in_disk radii -> radii <> [] -> length radii = length S -> length thetas = length S -> length noise = length S ->
  (forall k, (k < length S)%nat -> f (fst (nth k S (0, 0)%Z)) (snd (nth k S (0, 0)%Z)) = zsum a ps (nth k radii 0) (nth k thetas 0) + nth k noise 0) ->
  exists y img, snd (fit_polynomials rnd lstsq fuel (Img rows cols f) (map Some ps) (RadNum x) strict digits rc s) = Ok (map (np_round digits) y, img) /\
    length y = length ps /\ normsq (mulmv (length (combine radii thetas)) (design (combine radii thetas) ps) (vsub y a)) <= sum_squares noise.
Proof.
  intros C RS OK ND NP La EC F NR LR LT LN CL.
  set (phases := map (fun p => f (fst p) (snd p)) S) in *. assert (LP : length phases = length S) by apply map_length.
  destruct (image_isok rnd lstsq fuel rows cols f ps x strict digits rc mask phases radii thetas OK ND NP EC F NR ltac:(congruence) ltac:(congruence) s RS) as [_ E].
  set (pts := combine radii thetas) in *. assert (LPT : length pts = length S) by (unfold pts; rewrite combine_length; lia).
  assert (W : wf (length phases) (design pts ps)) by (rewrite LP, <- LPT; apply design_wf).
  assert (LD : length (design pts ps) = length ps) by (unfold design; apply map_length).
  assert (SOL := C _ _ W). set (y := lstsq (design pts ps) phases) in *.
  assert (Ly : length y = length ps) by (rewrite <- LD; apply SOL).
  assert (RES : vsub phases (mulmv (length pts) (design pts ps) a) = noise).
  { apply residual_noise; [exact La|congruence|congruence|]. intros k Hk. rewrite LPT in Hk. specialize (CL k Hk).
    unfold pts. rewrite nth_combine_pts by congruence. cbn [fst snd].
    unfold phases. rewrite (nth_indep _ 0 (f (fst (0, 0)%Z) (snd (0, 0)%Z))) by (rewrite map_length; exact Hk).
    rewrite (map_nth (fun p => f (fst p) (snd p)) S (0, 0)%Z k). exact CL. }
  exists y. eexists. split; [exact E|]. split; [exact Ly|].
  rewrite sum_squares_normsq, <- RES, LPT, <- LP. apply lstsq_closer; [exact W|exact SOL|congruence].
Qed.
(** ** the slopes of all polynomials up to an order *)
Fixpoint fsum (g : Z * Z -> R) (l : list (Z * Z)) : R := match l with [] => 0 | p :: l' => g p + fsum g l' end.
Lemma fsum_remove g x l : NoDup l -> In x l -> fsum g l = g x + fsum g (remove zz_dec x l).
Proof.
  induction 1 as [|y l NI ND IH]; [intros []|]. intros H. cbn [remove]. destruct (zz_dec x y) as [->|NE].
  - rewrite notin_remove by exact NI. reflexivity.
  - destruct H as [E|H]; [congruence|]. cbn [fsum]. rewrite IH by exact H. ring.
Qed.
Lemma fsum_nonneg g l : (forall p, 0 <= g p) -> 0 <= fsum g l.
Proof. intros H. induction l as [|p l IH]; cbn [fsum]; [lra|]. specialize (H p). lra. Qed.
Lemma fsum_incl g : (forall p, 0 <= g p) -> forall l l', NoDup l -> NoDup l' -> incl l l' -> fsum g l <= fsum g l'.
Proof.
  intros H l. induction l as [|x l IH]; intros l' ND ND' I; [apply fsum_nonneg, H|]. inversion ND; subst.
  rewrite (fsum_remove g x l') by (try assumption; apply I; left; reflexivity). cbn [fsum]. apply Rplus_le_compat_l, IH; [assumption| |].
  - clear -ND'. induction ND' as [|y Q N ND IH]; cbn [remove]; [constructor|]. destruct (zz_dec x y); [exact IH|]. constructor; [|exact IH]. intros C. apply in_remove in C. tauto.
  - intros y Hy. apply in_in_remove; [intros ->; tauto|]. apply I. right. exact Hy.
Qed.
Definition sq_r (p : Z * Z) : R := Rsqr (norm_nm (fst p) (snd p) * slope (fst p) (snd p)).
Definition sq_a (p : Z * Z) : R := Rsqr (norm_nm (fst p) (snd p) * slope (fst p) (snd p) * (1 + IZR (Z.abs (fst p)))).
Lemma steepest_r_fsum ps : steepest_radial ps = sqrt (fsum sq_r ps).
Proof. unfold steepest_radial. f_equal. induction ps as [|p ps IH]; cbn [fold_right fsum]; [reflexivity|]. rewrite IH. reflexivity. Qed.
Lemma steepest_fsum ps : steepest ps = sqrt (fsum sq_a ps).
Proof. unfold steepest. f_equal. induction ps as [|p ps IH]; cbn [fold_right fsum]; [reflexivity|]. rewrite IH. reflexivity. Qed.
(** all polynomials of order at most 4 *)
Definition upto (N : Z) : list (Z * Z) :=
  filter (fun p => (snd p <=? N)%Z) [(0,0); (-1,1); (1,1); (-2,2); (0,2); (2,2); (-3,3); (-1,3); (1,3); (3,3); (-4,4); (-2,4); (0,4); (2,4); (4,4)]%Z.
Lemma upto_all N p : (N <= 4)%Z -> validp p -> (snd p <= N)%Z -> In p (upto N).
Proof.
  intros HN (H0 & H1 & k & H2) H. destruct p as (m, n). cbn [fst snd] in *. unfold upto. apply filter_In. split; [|apply Z.leb_le, H].
  assert (HB : (n = 0 \/ n = 1 \/ n = 2 \/ n = 3 \/ n = 4)%Z) by lia. assert (HM : (-4 <= m <= 4)%Z) by lia.
  assert (HM' : (m = -4 \/ m = -3 \/ m = -2 \/ m = -1 \/ m = 0 \/ m = 1 \/ m = 2 \/ m = 3 \/ m = 4)%Z) by lia.
  destruct HB as [-> | [-> | [-> | [-> | ->]]]]; destruct HM' as [-> | [-> | [-> | [-> | [-> | [-> | [-> | [-> | ->]]]]]]]]; try (exfalso; lia); cbn [In]; tauto.
Qed.
Lemma sq_norm m n c : (0 <= n)%Z -> Rsqr (norm_nm m n * c) = 2 * (IZR n + 1) / (1 + (if Z.eqb m 0 then 1 else 0)) * (c * c).
Proof.
  intros H. apply (IZR_le 0) in H. unfold norm_nm. rewrite Rsqr_mult, Rsqr_sqrt; [unfold Rsqr; ring|].
  apply Rmult_le_pos; [lra|]. left. apply Rinv_0_lt_compat. destruct (Z.eqb m 0); lra.
Qed.
Lemma upto_squares : (fsum sq_r (upto 1) <= 8 /\ fsum sq_a (upto 1) <= 32) /\ (fsum sq_r (upto 2) <= 104 /\ fsum sq_a (upto 2) <= 512) /\
  (fsum sq_r (upto 3) <= 1032 /\ fsum sq_a (upto 3) <= 5952) /\ (fsum sq_r (upto 4) <= 4072 /\ fsum sq_a (upto 4) <= 32672).
Proof.
  unfold sq_a, sq_r. cbn [upto filter snd Z.leb Z.compare Pos.compare Pos.compare_cont fsum fst].
  rewrite ?Rmult_assoc. rewrite !sq_norm by lia. cbn [Z.eqb]. unfold slope. cbn [Z.mul Z.add Z.sub Z.opp Z.abs Pos.mul Pos.add Pos.succ Z.pos_sub Pos.pred_double Z.succ_double Z.pred_double Z.double].
  repeat split; lra.
Qed.
Lemma sqrt_le_r x y : 0 <= y -> x <= y * y -> sqrt x <= y.
Proof. intros H1 H2. rewrite <- (sqrt_square y) by exact H1. apply sqrt_le_1_alt, H2. Qed.
Lemma upto_steep N lr la ps : Forall validp ps -> NoDup ps -> Forall (fun p => snd p <= N)%Z ps -> (N <= 4)%Z -> 0 <= lr -> 0 <= la ->
  fsum sq_r (upto N) <= lr * lr -> fsum sq_a (upto N) <= la * la -> steepest_radial ps <= lr /\ steepest ps <= la.
Proof.
  intros V ND B HN L0 A0 HL HA. rewrite steepest_r_fsum, steepest_fsum.
  assert (I : incl ps (upto N)).
  { intros p Hp. rewrite Forall_forall in V, B. apply upto_all; [exact HN|apply V, Hp|apply B, Hp]. }
  assert (NU : NoDup (upto N)).
  { unfold upto. apply NoDup_filter. repeat constructor; cbn [In]; intros H; repeat (destruct H as [H|H]; [discriminate H|]); exact H. }
  split; apply sqrt_le_r; try assumption; (eapply Rle_trans; [apply fsum_incl; [intros p; apply Rle_0_sqr|exact ND|exact NU|exact I]|assumption]).
Qed.
