(** The PSF and the root mean square of the wavefront (C65). *)
From Coq Require Import Reals Lra Lia List Psatz.
From Coquelicot Require Import Coquelicot.
From Verif Require Import Py SpecIndex SpecRadial RadialMath M_Radial M_Sum SpecSum L_Trig L_Bound L_Ortho SpecDiff L_Slope L_Conv L_Conv2 L_Airy SpecFloatPsf SpecDisk L_Disk.
Import ListNotations.
Local Open Scope R_scope.

Lemma wave_nice r theta : nice (fun p phi => r * p * cos (phi - theta)).
Proof.
  split; [|split].
  - intros phi. apply (cts_ext (fun p => (r * cos (phi - theta)) * p)); [intros; ring|]. apply k_cts.
  - exists (Rabs r). intros p x y Hp. rewrite <- Rmult_minus_distr_l, !Rabs_mult, (Rabs_pos_eq p) by lra.
    pose proof (cos_lip (x - theta) (y - theta)) as H. replace (x - theta - (y - theta)) with (x - y) in H by ring.
    rewrite Rmult_assoc. apply Rmult_le_compat_l; [apply Rabs_pos|]. pose proof (Rabs_pos (cos (x - theta) - cos (y - theta))).
    assert (p * Rabs (cos (x - theta) - cos (y - theta)) <= 1 * Rabs (cos (x - theta) - cos (y - theta))) by (apply Rmult_le_compat_r; lra). lra.
  - exists (Rabs r). intros p phi Hp. rewrite !Rabs_mult, (Rabs_pos_eq p) by lra. rewrite Rmult_assoc. rewrite <- (Rmult_1_r (Rabs r)) at 2. apply Rmult_le_compat_l; [apply Rabs_pos|].
    pose proof (COS_bound (phi - theta)) as H. assert (Rabs (cos (phi - theta)) <= 1) by (apply Rabs_le; lra). pose proof (Rabs_pos (cos (phi - theta))).
    assert (p * Rabs (cos (phi - theta)) <= 1 * Rabs (cos (phi - theta))) by (apply Rmult_le_compat_r; lra). lra.
Qed.
Lemma psi_nice Phi r theta : nice Phi -> nice (fun p phi => Phi p phi - r * p * cos (phi - theta)).
Proof. intros N. apply (nice_ext (fun p phi => 1 * Phi p phi + -1 * (r * p * cos (phi - theta)))); [intros; ring|]. apply nice_lin; [exact N|apply wave_nice]. Qed.
Lemma diff_mean Phi r theta : diffraction_integral Phi r theta =
  (disk_mean (fun p phi => cos (Phi p phi - r * p * cos (phi - theta)))) ^ 2 + (disk_mean (fun p phi => sin (Phi p phi - r * p * cos (phi - theta)))) ^ 2.
Proof.
  unfold diffraction_integral, disk_mean. pose proof PI_RGT_0 as P. set (a := RInt _ 0 (2 * PI)). set (b := RInt _ 0 (2 * PI)). cbn [pow]. field. lra.
Qed.
Lemma cos_nice f : nice f -> nice (fun p phi => cos (f p phi)). Proof. apply nice_comp, cos_lip. Qed.
Lemma sin_nice f : nice f -> nice (fun p phi => sin (f p phi)). Proof. apply nice_comp, sin_lip. Qed.

(** the amplitude in the direction (a, b) *)
Lemma dir_le1 a b x : a ^ 2 + b ^ 2 = 1 -> a * cos x + b * sin x <= 1.
Proof. intros E. pose proof (sin2_cos2 x) as H. unfold Rsqr in H. pose proof (pow2_ge_0 (a - cos x)) as P1. pose proof (pow2_ge_0 (b - sin x)) as P2.
  assert (Q : (a - cos x) ^ 2 + (b - sin x) ^ 2 = a ^ 2 + b ^ 2 + (sin x * sin x + cos x * cos x) - 2 * (a * cos x + b * sin x)) by ring. lra. Qed.
Lemma dir_exists u v : exists a b, a ^ 2 + b ^ 2 = 1 /\ a * u + b * v = sqrt (u ^ 2 + v ^ 2).
Proof.
  set (q := sqrt (u ^ 2 + v ^ 2)). assert (Q0 : 0 <= u ^ 2 + v ^ 2) by (apply Rplus_le_le_0_compat; apply pow2_ge_0). assert (QQ : q * q = u ^ 2 + v ^ 2) by (apply sqrt_sqrt, Q0).
  destruct (Req_EM_T q 0) as [E|NE].
  - exists 1, 0. split; [ring|]. rewrite E in *. assert (u = 0). { pose proof (pow2_ge_0 v). assert (U : u ^ 2 = 0) by (pose proof (pow2_ge_0 u); lra). cbn [pow] in U. rewrite Rmult_1_r in U. apply Rmult_integral in U. tauto. } lra.
  - exists (u / q), (v / q). split.
    + replace ((u / q) ^ 2 + (v / q) ^ 2) with ((u ^ 2 + v ^ 2) / (q * q)) by (field; exact NE). rewrite <- QQ. field. exact NE.
    + replace (u / q * u + v / q * v) with ((u ^ 2 + v ^ 2) / q) by (field; exact NE). rewrite <- QQ. field. exact NE.
Qed.
Definition ampl (psi : R -> R -> R) : R := sqrt (disk_mean (fun p phi => cos (psi p phi)) ^ 2 + disk_mean (fun p phi => sin (psi p phi)) ^ 2).
Lemma ampl_le1 psi : nice psi -> 0 <= ampl psi <= 1.
Proof.
  intros N. split; [apply sqrt_pos|]. unfold ampl. set (u := disk_mean _). set (v := disk_mean _). destruct (dir_exists u v) as (a & b & E & <-). unfold u, v.
  rewrite <- (mean_lin a b (fun p phi => cos (psi p phi)) (fun p phi => sin (psi p phi)) (cos_nice _ N) (sin_nice _ N)).
  apply Rle_trans with (disk_mean (fun _ _ => 1)); [|rewrite mean_const; lra]. apply mean_le; [apply nice_lin; [apply cos_nice, N|apply sin_nice, N]|apply nice_const|]. intros. apply dir_le1, E.
Qed.
Lemma chord x y : (cos x - cos y) ^ 2 + (sin x - sin y) ^ 2 = (2 * sin ((x - y) / 2)) ^ 2.
Proof.
  assert (H : cos (x - y) = 1 - 2 * sin ((x - y) / 2) * sin ((x - y) / 2)) by (replace (x - y) with (2 * ((x - y) / 2)) at 1 by field; apply cos_2a_sin).
  rewrite cos_minus in H. pose proof (sin2_cos2 x) as X. pose proof (sin2_cos2 y) as Y. unfold Rsqr in X, Y. nra.
Qed.
Lemma dir_lip a b x y : a ^ 2 + b ^ 2 = 1 -> a * (cos x - cos y) + b * (sin x - sin y) <= Rabs (x - y).
Proof.
  intros E. pose proof (chord x y) as C. set (u := cos x - cos y) in *. set (v := sin x - sin y) in *.
  pose proof (sin_lip ((x - y) / 2) 0) as L. rewrite sin_0, !Rminus_0_r in L. unfold Rdiv in L. rewrite (Rabs_mult (x - y)), (Rabs_pos_eq (/ 2)) in L by lra. fold (Rdiv (x - y) 2) in L.
  set (s := sin ((x - y) / 2)) in *. set (d := Rabs (x - y)) in *. assert (D0 : 0 <= d) by apply Rabs_pos.
  assert (SD : (2 * s) ^ 2 <= d ^ 2). { replace ((2 * s) ^ 2) with ((2 * Rabs s) ^ 2) by (rewrite !Rpow_mult_distr; unfold Rabs; destruct (Rcase_abs s); ring). pose proof (Rabs_pos s). apply pow_incr. lra. }
  assert (CS : (a * u + b * v) ^ 2 <= d ^ 2). { pose proof (pow2_ge_0 (a * v - b * u)) as P1.
    assert (Q : (a * v - b * u) ^ 2 + (a * u + b * v) ^ 2 = (a ^ 2 + b ^ 2) * (u ^ 2 + v ^ 2)) by ring. rewrite E, Rmult_1_l in Q. lra. }
  apply Rnot_lt_le. intros LT. assert (d * d < (a * u + b * v) * (a * u + b * v)) by (apply Rmult_le_0_lt_compat; lra). cbn [pow] in CS. lra.
Qed.
Lemma ampl_diff psi chi s : nice psi -> nice chi -> 0 < s -> disk_mean (fun p phi => (psi p phi - chi p phi) * (psi p phi - chi p phi)) <= s * s -> ampl psi - ampl chi <= s.
Proof.
  intros N N' S H. unfold ampl at 1. set (u := disk_mean _). set (v := disk_mean _). destruct (dir_exists u v) as (a & b & E & <-). unfold u, v. clear u v.
  assert (LE : a * disk_mean (fun p phi => cos (chi p phi)) + b * disk_mean (fun p phi => sin (chi p phi)) <= ampl chi).
  { unfold ampl. set (u := disk_mean _). set (v := disk_mean _). assert (H0 : 0 <= u ^ 2 + v ^ 2) by (apply Rplus_le_le_0_compat; apply pow2_ge_0). apply Rnot_lt_le. intros LT.
    pose proof (sqrt_pos (u ^ 2 + v ^ 2)). pose proof (sqrt_sqrt (u ^ 2 + v ^ 2) H0). pose proof (pow2_ge_0 (a * v - b * u)) as P1.
    assert (Q : (a * v - b * u) ^ 2 + (a * u + b * v) ^ 2 = (a ^ 2 + b ^ 2) * (u ^ 2 + v ^ 2)) by ring. rewrite E, Rmult_1_l in Q.
    set (q := sqrt (u ^ 2 + v ^ 2)) in *. assert (q * q < (a * u + b * v) * (a * u + b * v)) by (apply Rmult_le_0_lt_compat; lra). cbn [pow] in Q, P1. lra. }
  assert (ND : nice (fun p phi => 1 * psi p phi + -1 * chi p phi)) by (apply nice_lin; assumption).
  assert (NS : nice (fun p phi => (psi p phi - chi p phi) * (psi p phi - chi p phi))).
  { apply (nice_mult (fun p phi => psi p phi - chi p phi) (fun p phi => psi p phi - chi p phi)); (apply (nice_ext (fun p phi => 1 * psi p phi + -1 * chi p phi)); [intros; ring|exact ND]). }
  assert (C1 := cos_nice _ N). assert (C2 := cos_nice _ N'). assert (S1 := sin_nice _ N). assert (S2 := sin_nice _ N').
  assert (K : a * disk_mean (fun p phi => cos (psi p phi)) + b * disk_mean (fun p phi => sin (psi p phi)) - (a * disk_mean (fun p phi => cos (chi p phi)) + b * disk_mean (fun p phi => sin (chi p phi))) <= s).
  { rewrite <- (mean_lin a b (fun p phi => cos (psi p phi)) (fun p phi => sin (psi p phi)) C1 S1).
    rewrite <- (mean_lin a b (fun p phi => cos (chi p phi)) (fun p phi => sin (chi p phi)) C2 S2).
    assert (E1 := nice_lin a b _ _ C1 S1). assert (E2 := nice_lin a b _ _ C2 S2). cbv beta in E1, E2.
    pose proof (mean_lin 1 (-1) _ _ E1 E2) as ML. cbv beta in ML. match type of ML with _ = ?x => apply Rle_trans with x; [lra|] end. rewrite <- ML. clear ML.
    apply Rle_trans with (disk_mean (fun p phi => / (2 * s) * ((psi p phi - chi p phi) * (psi p phi - chi p phi)) + s / 2 * 1)).
    - apply mean_le; [apply nice_lin; assumption|apply (nice_lin (/ (2 * s)) (s / 2) _ (fun _ _ => 1)); [exact NS|apply nice_const]|].
      intros p phi _. set (x := psi p phi). set (y := chi p phi).
      apply Rle_trans with (Rabs (x - y)); [pose proof (dir_lip a b x y E); lra|].
      replace ((x - y) * (x - y)) with (Rabs (x - y) * Rabs (x - y)) by (unfold Rabs; destruct (Rcase_abs (x - y)); ring). set (d := Rabs (x - y)).
      apply (Rmult_le_reg_l (2 * s)); [lra|]. replace (2 * s * (/ (2 * s) * (d * d) + s / 2 * 1)) with (d * d + s * s) by (field; lra).
      pose proof (pow2_ge_0 (d - s)). nra.
    - rewrite (mean_lin (/ (2 * s)) (s / 2) (fun p phi => (psi p phi - chi p phi) * (psi p phi - chi p phi)) (fun _ _ => 1) NS (nice_const 1)). rewrite mean_const.
      assert (/ (2 * s) * disk_mean (fun p phi => (psi p phi - chi p phi) * (psi p phi - chi p phi)) <= / (2 * s) * (s * s)) by (apply Rmult_le_compat_l; [apply Rlt_le, Rinv_0_lt_compat; lra|exact H]).
      replace (/ (2 * s) * (s * s)) with (s / 2) in H0 by (field; lra). lra. }
  lra.
Qed.

Lemma sqrt_pow2_ge x : 0 <= x -> sqrt x ^ 2 = x.
Proof. intros H. cbn [pow]. rewrite Rmult_1_r. apply sqrt_sqrt, H. Qed.
Lemma diff_ampl Phi r theta : diffraction_integral Phi r theta = ampl (fun p phi => Phi p phi - r * p * cos (phi - theta)) ^ 2.
Proof. rewrite diff_mean. unfold ampl. rewrite sqrt_pow2_ge; [reflexivity|]. apply Rplus_le_le_0_compat; apply pow2_ge_0. Qed.
Lemma diff_range Phi r theta : nice Phi -> 0 <= diffraction_integral Phi r theta <= 1.
Proof.
  intros N. rewrite diff_ampl. pose proof (ampl_le1 _ (psi_nice Phi r theta N)) as H. set (a := ampl _) in *. cbn [pow]. rewrite Rmult_1_r.
  split; [apply Rmult_le_pos; lra|]. replace 1 with (1 * 1) by ring. apply Rmult_le_compat; lra.
Qed.
Lemma diff_stable Phi Psi r theta : nice Phi -> nice Psi ->
  Rabs (diffraction_integral Phi r theta - diffraction_integral Psi r theta) <= 2 * sqrt (disk_mean (fun p phi => (Phi p phi - Psi p phi) * (Phi p phi - Psi p phi))).
Proof.
  intros N N'. rewrite !diff_ampl. set (psi := fun p phi => Phi p phi - _). set (chi := fun p phi => Psi p phi - _).
  assert (P1 : nice psi) by (apply psi_nice, N). assert (P2 : nice chi) by (apply psi_nice, N').
  pose proof (ampl_le1 psi P1) as A1. pose proof (ampl_le1 chi P2) as A2.
  set (D := disk_mean (fun p phi => (Phi p phi - Psi p phi) * (Phi p phi - Psi p phi))). pose proof (sqrt_pos D) as S0.
  assert (E1 : disk_mean (fun p phi => (psi p phi - chi p phi) * (psi p phi - chi p phi)) = D) by (apply mean_ext; intros; unfold psi, chi; ring).
  assert (E2 : disk_mean (fun p phi => (chi p phi - psi p phi) * (chi p phi - psi p phi)) = D) by (apply mean_ext; intros; unfold psi, chi; ring).
  assert (D0 : 0 <= D).
  { unfold D. rewrite <- (mean_const 0). apply mean_le; [apply nice_const| |intros; apply Rle_0_sqr].
    apply (nice_mult (fun p phi => Phi p phi - Psi p phi) (fun p phi => Phi p phi - Psi p phi)); (apply (nice_ext (fun p phi => 1 * Phi p phi + -1 * Psi p phi)); [intros; ring|apply nice_lin; assumption]). }
  assert (K : forall e, 0 < e -> Rabs (ampl psi - ampl chi) <= sqrt D + e).
  { intros e He. assert (SS : D <= (sqrt D + e) * (sqrt D + e)).
    { rewrite <- (sqrt_sqrt D D0) at 1. apply Rmult_le_compat; lra. }
    pose proof (ampl_diff psi chi (sqrt D + e) P1 P2 ltac:(lra) ltac:(rewrite E1; exact SS)) as K1.
    pose proof (ampl_diff chi psi (sqrt D + e) P2 P1 ltac:(lra) ltac:(rewrite E2; exact SS)) as K2. apply Rabs_le. lra. }
  assert (K0 : Rabs (ampl psi - ampl chi) <= sqrt D).
  { apply Rnot_lt_le. intros LT. specialize (K ((Rabs (ampl psi - ampl chi) - sqrt D) / 2) ltac:(lra)). lra. }
  replace (ampl psi ^ 2 - ampl chi ^ 2) with ((ampl psi - ampl chi) * (ampl psi + ampl chi)) by ring. rewrite Rabs_mult, (Rabs_pos_eq (ampl psi + ampl chi)) by lra.
  rewrite (Rmult_comm 2). apply Rmult_le_compat; try lra. apply Rabs_pos.
Qed.
(** a constant phase does not matter *)
Lemma diff_shift Phi c r theta : nice Phi -> diffraction_integral (fun p phi => c + Phi p phi) r theta = diffraction_integral Phi r theta.
Proof.
  intros N. rewrite !diff_mean. pose proof (psi_nice Phi r theta N) as P. set (psi := fun p phi => Phi p phi - r * p * cos (phi - theta)) in *.
  assert (C := cos_nice _ P). assert (S := sin_nice _ P).
  assert (E1 : disk_mean (fun p phi => cos (c + Phi p phi - r * p * cos (phi - theta))) = cos c * disk_mean (fun p phi => cos (psi p phi)) + - sin c * disk_mean (fun p phi => sin (psi p phi))).
  { rewrite <- (mean_lin (cos c) (- sin c) _ _ C S). apply mean_ext. intros p phi _. unfold psi. replace (c + Phi p phi - r * p * cos (phi - theta)) with (c + (Phi p phi - r * p * cos (phi - theta))) by ring. rewrite cos_plus. ring. }
  assert (E2 : disk_mean (fun p phi => sin (c + Phi p phi - r * p * cos (phi - theta))) = sin c * disk_mean (fun p phi => cos (psi p phi)) + cos c * disk_mean (fun p phi => sin (psi p phi))).
  { rewrite <- (mean_lin (sin c) (cos c) _ _ C S). apply mean_ext. intros p phi _. unfold psi. replace (c + Phi p phi - r * p * cos (phi - theta)) with (c + (Phi p phi - r * p * cos (phi - theta))) by ring. rewrite sin_plus. ring. }
  rewrite E1, E2. unfold psi. set (u := disk_mean _). set (v := disk_mean _). pose proof (sin2_cos2 c) as H. unfold Rsqr in H.
  replace ((cos c * u + - sin c * v) ^ 2 + (sin c * u + cos c * v) ^ 2) with ((sin c * sin c + cos c * cos c) * (u ^ 2 + v ^ 2)) by ring. rewrite H. ring.
Qed.
(** the centre value *)
Lemma cos_ge x : 1 - x * x / 2 <= cos x.
Proof.
  replace (cos x) with (1 - 2 * sin (x / 2) * sin (x / 2)) by (rewrite <- cos_2a_sin; f_equal; field).
  pose proof (sin_lip (x / 2) 0) as L. rewrite sin_0, !Rminus_0_r in L. assert (S : sin (x / 2) * sin (x / 2) <= x / 2 * (x / 2)) by (apply Rsqr_le_abs_1; exact L). lra.
Qed.
Lemma strehl_low Phi s2 theta : nice Phi -> disk_mean (fun p phi => Phi p phi * Phi p phi) = s2 -> s2 <= 2 -> (1 - s2 / 2) ^ 2 <= diffraction_integral Phi 0 theta.
Proof.
  intros N E S. rewrite diff_mean. set (v := disk_mean (fun p phi => sin _)).
  assert (NN : nice (fun p phi => Phi p phi * Phi p phi)) by (apply (nice_mult Phi Phi); exact N).
  assert (K : 1 - s2 / 2 <= disk_mean (fun p phi => cos (Phi p phi - 0 * p * cos (phi - theta)))).
  { replace (1 - s2 / 2) with (disk_mean (fun p phi => 1 * 1 + - / 2 * (Phi p phi * Phi p phi))).
    - apply mean_le; [apply (nice_lin 1 (- / 2) (fun _ _ => 1)); [apply nice_const|exact NN]|apply cos_nice, (psi_nice Phi 0 theta N)|].
      intros p phi _. replace (Phi p phi - 0 * p * cos (phi - theta)) with (Phi p phi) by ring. pose proof (cos_ge (Phi p phi)). lra.
    - rewrite (mean_lin 1 (- / 2) (fun _ _ => 1) _ (nice_const 1) NN), mean_const, E. field. }
  set (u := disk_mean (fun p phi => cos _)) in *. pose proof (pow2_ge_0 v). assert ((1 - s2 / 2) ^ 2 <= u ^ 2) by (apply pow_incr; lra). lra.
Qed.
