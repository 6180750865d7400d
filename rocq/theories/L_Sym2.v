(** Wavefronts with signed coefficients are turned or mirrored wavefronts (C67). *)
From Coq Require Import Reals Lra Lia List Psatz.
From Coquelicot Require Import Coquelicot.
From Verif Require Import Py SpecIndex SpecRadial RadialMath M_Radial M_Sum SpecSum SpecGeo L_Trig L_Bound L_Ortho SpecPsf L_Psf M_Psf L_PsfKernel SpecDiff L_Slope L_Conv L_Conv2 L_Airy SpecFloat SpecFloatPsf SpecDisk L_Disk L_Strehl SpecSym L_Sym.
Import ListNotations.
Local Open Scope R_scope.

Lemma T_mirror m phi : T_m m (- phi) = flip_up_down m * T_m m phi.
Proof.
  unfold T_m, flip_up_down. destruct (Z.leb_spec 0 m), (Z.ltb_spec m 0); try lia.
  - rewrite Ropp_mult_distr_r_reverse, cos_neg. ring.
  - rewrite Ropp_mult_distr_r_reverse, sin_neg. ring.
Qed.
Lemma half_pow m : (-1) ^ Z.abs_nat m = half_turn m.
Proof.
  unfold half_turn. destruct (Z.even m) eqn:E.
  - apply Z.even_spec in E. destruct E as (k & ->). replace (Z.abs_nat (2 * k)) with (2 * Z.abs_nat k)%nat by lia. apply pow_1_even.
  - assert (O : Z.odd m = true) by (rewrite <- Z.negb_even, E; reflexivity). apply Z.odd_spec in O. destruct O as (k & ->).
    destruct (Z.le_gt_cases 0 k).
    + replace (Z.abs_nat (2 * k + 1)) with (Datatypes.S (2 * Z.abs_nat k)) by lia. apply pow_1_odd.
    + replace (Z.abs_nat (2 * k + 1)) with (Datatypes.S (2 * Z.abs_nat (k + 1))) by lia. apply pow_1_odd.
Qed.
Lemma T_half m phi : T_m m (phi + PI) = half_turn m * T_m m phi.
Proof. rewrite T_halfturn, half_pow. reflexivity. Qed.
Lemma T_left_right m phi : T_m m (- phi + PI) = flip_left_right m * T_m m phi.
Proof. rewrite T_half, T_mirror. unfold flip_left_right. ring. Qed.
(** a k-th of a turn, for orders divisible by k *)
Lemma T_fold m k phi : (0 < k)%Z -> (k | m)%Z -> T_m m (phi + 2 * PI / IZR k) = T_m m phi.
Proof.
  intros K (q & ->). assert (K0 : IZR k <> 0) by (apply not_0_IZR; lia). unfold T_m. destruct (Z.leb_spec 0 (q * k)).
  - rewrite Rmult_plus_distr_l. replace (IZR (q * k) * (2 * PI / IZR k)) with (2 * IZR q * PI) by (rewrite mult_IZR; field; exact K0). apply cos_Zperiod.
  - rewrite Rmult_plus_distr_l. replace (IZR (Z.abs (q * k)) * (2 * PI / IZR k)) with (2 * IZR (Z.abs q) * PI); [apply sin_Zperiod|].
    rewrite Z.abs_mul, (Z.abs_eq k) by lia. rewrite mult_IZR. field. exact K0.
Qed.
Lemma T_zero phi psi : T_m 0 phi = T_m 0 psi.
Proof. unfold T_m. cbn [Z.leb Z.compare]. rewrite !Rmult_0_l. reflexivity. Qed.

Lemma zsum_signed f ps e a p phi : (forall m n, In (m, n) ps -> T_m m (e * phi + a) = f m * T_m m phi) -> forall cs,
  zsum (signed f cs ps) ps p phi = zsum cs ps p (e * phi + a).
Proof.
  induction ps as [|[m n] ps IH]; intros H [|c cs]; try reflexivity. unfold signed in *. cbn [combine map zsum fst snd].
  rewrite IH by (intros m' n' I; apply (H m' n'); right; exact I). unfold Z_nm. rewrite (H m n (or_introl eq_refl)). ring.
Qed.
Lemma signed_len f cs ps : length cs = length ps -> length (signed f cs ps) = length ps.
Proof. intros L. unfold signed. rewrite map_length, combine_length. lia. Qed.
Lemma total_signed f n_r n_phi cs ps r : length cs = length ps -> (forall m, f m = 1 \/ f m = -1) -> total_error n_r n_phi (signed f cs ps) ps r = total_error n_r n_phi cs ps r.
Proof.
  intros L F. assert (AB : forall m c, Rabs (f m * c) = Rabs c) by (intros m c; destruct (F m) as [-> | ->]; [rewrite Rmult_1_l; reflexivity|replace (-1 * c) with (- c) by ring; apply Rabs_Ropp]).
  assert (E : steep_r (signed f cs ps) ps = steep_r cs ps /\ steep_t (signed f cs ps) ps = steep_t cs ps /\ size_of (signed f cs ps) ps = size_of cs ps /\ values_error (signed f cs ps) ps = values_error cs ps).
  { clear L. revert cs. induction ps as [|[m n] ps IH]; intros [|c cs]; try (repeat split; reflexivity). destruct (IH cs) as (A & B & C & D). unfold signed in *.
    cbn [combine map fst snd steep_r steep_t size_of values_error]. rewrite A, B, C, D, AB. repeat split; reflexivity. }
  destruct E as (A & B & C & D). unfold total_error, rounding. rewrite A, B, C, D. reflexivity.
Qed.
Lemma flip_up_down_sign m : flip_up_down m = 1 \/ flip_up_down m = -1.
Proof. unfold flip_up_down. destruct (m <? 0)%Z; auto. Qed.
Lemma half_turn_sign m : half_turn m = 1 \/ half_turn m = -1.
Proof. unfold half_turn. destruct (Z.even m); auto. Qed.
Lemma flip_left_right_sign m : flip_left_right m = 1 \/ flip_left_right m = -1.
Proof. unfold flip_left_right. destruct (half_turn_sign m) as [-> | ->], (flip_up_down_sign m) as [-> | ->]; [left|right|right|left]; ring. Qed.

(** the integral at points given by coordinates *)
Lemma diff_moved Phi Phi' e a x y rho t rho' t' : nice Phi -> periodic Phi -> e = 1 \/ e = -1 -> (forall p phi, Phi' p phi = Phi p (e * phi + a)) ->
  polar x y rho t -> polar (moved_x e a x y) (moved_y e a x y) rho' t' -> diffraction_integral Phi' rho t = diffraction_integral Phi rho' t'.
Proof.
  intros N P E H PO PO'. rewrite (diff_turn Phi Phi' a e rho t N P E H). apply diff_psi. intros p phi _. f_equal.
  replace (rho * p * cos (phi - (e * t + a))) with (p * (rho * cos (phi - (e * t + a)))) by ring. replace (rho' * p * cos (phi - t')) with (p * (rho' * cos (phi - t'))) by ring. f_equal.
  rewrite (polar_dir _ _ _ _ phi PO'). destruct PO as (_ & _ & X & Y). unfold moved_x, moved_y. rewrite <- X, <- Y. rewrite cos_minus, cos_plus, sin_plus.
  destruct E as [-> | ->].
  - rewrite !Rmult_1_l. ring.
  - replace (-1 * t) with (- t) by ring. rewrite cos_neg, sin_neg. ring.
Qed.
(** the opposite aberration: seen from the opposite side *)
Lemma diff_neg Phi Phi' r theta : nice Phi -> (forall p phi, Phi' p phi = - Phi p phi) -> diffraction_integral Phi' r theta = diffraction_integral Phi r (theta + PI).
Proof.
  intros N H. rewrite !diff_mean. pose proof (psi_nice Phi r (theta + PI) N) as PN. set (psi := fun p phi => Phi p phi - r * p * cos (phi - (theta + PI))) in PN.
  change (fun p phi => cos (Phi p phi - r * p * cos (phi - (theta + PI)))) with (fun p phi => cos (psi p phi)). change (fun p phi => sin (Phi p phi - r * p * cos (phi - (theta + PI)))) with (fun p phi => sin (psi p phi)).
  assert (K : forall p phi, Phi' p phi - r * p * cos (phi - theta) = - psi p phi).
  { intros p phi. rewrite H. unfold psi. replace (phi - (theta + PI)) with (phi - theta + - PI) by ring. rewrite cos_plus, cos_neg, sin_neg, cos_PI, sin_PI. ring. }
  f_equal.
  - f_equal. apply mean_ext. intros p phi _. rewrite K, cos_neg. reflexivity.
  - transitivity ((-1 * disk_mean (fun p phi => sin (psi p phi)) + 0 * disk_mean (fun _ _ => 0)) ^ 2); [|ring]. f_equal.
    rewrite <- (mean_lin (-1) 0 (fun p phi => sin (psi p phi)) (fun _ _ => 0) (sin_nice _ PN) (nice_const 0)). apply mean_ext. intros p phi _. rewrite K, sin_neg. ring.
Qed.
Lemma zsum_opp ps p phi : forall cs, zsum (map Ropp cs) ps p phi = - zsum cs ps p phi.
Proof. induction ps as [|[m n] ps IH]; intros [|c cs]; cbn [map zsum]; try ring. rewrite IH. ring. Qed.
Lemma opp_signed ps : forall cs, length cs = length ps -> map Ropp cs = signed (fun _ => -1) cs ps.
Proof. induction ps as [|[m n] ps IH]; intros [|c cs] L; try discriminate; [reflexivity|]. injection L as L. unfold signed in *. cbn [combine map fst snd]. rewrite IH by exact L. f_equal. ring. Qed.
