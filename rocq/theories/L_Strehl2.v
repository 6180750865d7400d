(** Central value of the PSF: the upper bound; sums of polynomials (C65). *)
From Coq Require Import Reals Lra Lia List Psatz.
From Coquelicot Require Import Coquelicot.
From Verif Require Import Py SpecIndex SpecRadial RadialMath M_Radial M_Sum SpecSum L_Trig L_Bound L_Ortho SpecDiff L_Slope L_Conv L_Conv2 L_Airy SpecFloatPsf L_FPsf5 SpecDisk L_Disk L_Strehl.
Import ListNotations.
Local Open Scope R_scope.

Lemma cos_le x : -1 <= x <= 1 -> cos x <= 1 - x * x / 2 + x * x * (x * x) / 24.
Proof.
  intros H. destruct (pre_cos_bound x 0 ltac:(lra) ltac:(lra)) as (_ & U). eapply Rle_trans; [exact U|]. unfold cos_approx, cos_term. cbn. right. field.
Qed.
Lemma sin_near_pos x : 0 <= x <= 1 -> Rabs (sin x - x) <= x * (x * x) / 6.
Proof.
  intros H. destruct (pre_sin_bound x 0 ltac:(lra) ltac:(lra)) as (L & U). unfold sin_approx, sin_term in L, U. cbn in L, U.
  assert (L' : x - x * (x * x) / 6 <= sin x) by lra. assert (S : sin x <= x).
  { pose proof (sin_lip x 0) as Q. rewrite sin_0, !Rminus_0_r in Q. apply Rabs_le_inv in Q. rewrite (Rabs_pos_eq x) in Q by lra. lra. }
  apply Rabs_le. assert (0 <= x * (x * x)) by (apply Rmult_le_pos; [lra|apply Rle_0_sqr]). lra.
Qed.
Lemma sin_near x B : Rabs x <= B -> B <= 1 -> Rabs (sin x - x) <= B / 6 * (x * x).
Proof.
  intros H B1. pose proof (Rabs_pos x) as X0.
  assert (K : Rabs (sin x - x) <= Rabs x * (Rabs x * Rabs x) / 6).
  { unfold Rabs at 2 3 4. destruct (Rcase_abs x) as [N|N].
    - rewrite (Rabs_left x N) in H, X0. pose proof (sin_near_pos (- x) ltac:(lra)) as K. rewrite sin_neg in K. replace (- sin x - - x) with (- (sin x - x)) in K by ring. rewrite Rabs_Ropp in K. exact K.
    - apply Rge_le in N. rewrite (Rabs_pos_eq x N) in H. apply sin_near_pos. lra. }
  eapply Rle_trans; [exact K|]. assert (Q : Rabs x * Rabs x = x * x) by (unfold Rabs; destruct (Rcase_abs x); ring). rewrite Q.
  pose proof (Rle_0_sqr x) as Q0. unfold Rsqr in Q0. assert (Rabs x * (x * x) <= B * (x * x)) by (apply Rmult_le_compat_r; assumption). lra.
Qed.
Lemma strehl_high Phi s2 B theta : nice Phi -> disk_mean Phi = 0 -> disk_mean (fun p phi => Phi p phi * Phi p phi) = s2 ->
  (forall p phi, 0 <= p <= 1 -> Rabs (Phi p phi) <= B) -> 0 <= B <= 1 -> diffraction_integral Phi 0 theta <= 1 - s2 * (1 - 2 / 5 * (B * B)).
Proof.
  intros N M0 E U HB. rewrite diff_mean. assert (NN : nice (fun p phi => Phi p phi * Phi p phi)) by (apply (nice_mult Phi Phi); exact N).
  assert (NC := cos_nice _ (psi_nice Phi 0 theta N)). assert (NS := sin_nice _ (psi_nice Phi 0 theta N)). cbv beta in NC, NS.
  assert (S0 : 0 <= s2 <= B * B).
  { rewrite <- E. split.
    - rewrite <- (mean_const 0). apply mean_le; [apply nice_const|exact NN|intros; apply Rle_0_sqr].
    - rewrite <- (mean_const (B * B)). apply mean_le; [exact NN|apply nice_const|]. intros p phi Hp. specialize (U p phi Hp).
      replace (Phi p phi * Phi p phi) with (Rabs (Phi p phi) * Rabs (Phi p phi)) by (unfold Rabs; destruct (Rcase_abs (Phi p phi)); ring).
      apply Rmult_le_compat; try apply Rabs_pos; assumption. }
  assert (CU : disk_mean (fun p phi => cos (Phi p phi - 0 * p * cos (phi - theta))) <= 1 - s2 / 2 + B * B * s2 / 24).
  { replace (1 - s2 / 2 + B * B * s2 / 24) with (disk_mean (fun p phi => 1 * 1 + (- / 2 + B * B / 24) * (Phi p phi * Phi p phi))).
    - apply mean_le; [exact NC|apply (nice_lin 1 (- / 2 + B * B / 24) (fun _ _ => 1)); [apply nice_const|exact NN]|].
      intros p phi Hp. replace (Phi p phi - 0 * p * cos (phi - theta)) with (Phi p phi) by ring. specialize (U p phi Hp). set (x := Phi p phi) in *.
      assert (X : -1 <= x <= 1) by (apply Rabs_le_inv in U; lra). pose proof (cos_le x X) as C.
      assert (XX : 0 <= x * x <= B * B).
      { split; [apply Rle_0_sqr|]. replace (x * x) with (Rabs x * Rabs x) by (unfold Rabs; destruct (Rcase_abs x); ring). apply Rmult_le_compat; try apply Rabs_pos; assumption. }
      assert (x * x * (x * x) <= B * B * (x * x)) by (apply Rmult_le_compat_r; lra). lra.
    - rewrite (mean_lin 1 (- / 2 + B * B / 24) (fun _ _ => 1) _ (nice_const 1) NN), mean_const, E. field. }
  assert (CL : 1 - s2 / 2 <= disk_mean (fun p phi => cos (Phi p phi - 0 * p * cos (phi - theta)))).
  { replace (1 - s2 / 2) with (disk_mean (fun p phi => 1 * 1 + - / 2 * (Phi p phi * Phi p phi))).
    - apply mean_le; [apply (nice_lin 1 (- / 2) (fun _ _ => 1)); [apply nice_const|exact NN]|exact NC|].
      intros p phi _. replace (Phi p phi - 0 * p * cos (phi - theta)) with (Phi p phi) by ring. pose proof (cos_ge (Phi p phi)). lra.
    - rewrite (mean_lin 1 (- / 2) (fun _ _ => 1) _ (nice_const 1) NN), mean_const, E. field. }
  assert (SU : Rabs (disk_mean (fun p phi => sin (Phi p phi - 0 * p * cos (phi - theta)))) <= B / 6 * s2).
  { apply Rabs_le. split.
    - replace (- (B / 6 * s2)) with (disk_mean (fun p phi => 1 * Phi p phi + - (B / 6) * (Phi p phi * Phi p phi))) by (rewrite (mean_lin 1 (- (B / 6)) _ _ N NN), M0, E; ring).
      apply mean_le; [apply nice_lin; assumption|exact NS|]. intros p phi Hp. replace (Phi p phi - 0 * p * cos (phi - theta)) with (Phi p phi) by ring.
      pose proof (sin_near (Phi p phi) B (U p phi Hp) ltac:(lra)) as K. apply Rabs_le_inv in K. lra.
    - replace (B / 6 * s2) with (disk_mean (fun p phi => 1 * Phi p phi + B / 6 * (Phi p phi * Phi p phi))) by (rewrite (mean_lin 1 (B / 6) _ _ N NN), M0, E; ring).
      apply mean_le; [exact NS|apply nice_lin; assumption|]. intros p phi Hp. replace (Phi p phi - 0 * p * cos (phi - theta)) with (Phi p phi) by ring.
      pose proof (sin_near (Phi p phi) B (U p phi Hp) ltac:(lra)) as K. apply Rabs_le_inv in K. lra. }
  set (u := disk_mean (fun p phi => cos _)) in *. set (v := disk_mean (fun p phi => sin _)) in *. clearbody u v. set (b := B * B) in *.
  assert (B1 : 0 <= b <= 1) by (unfold b; split; [apply Rle_0_sqr|replace 1 with (1 * 1) by ring; apply Rmult_le_compat; lra]).
  assert (V2 : v ^ 2 <= b * (s2 * s2) / 36).
  { replace (v ^ 2) with (Rabs v * Rabs v) by (unfold Rabs; destruct (Rcase_abs v); ring). apply Rle_trans with (B / 6 * s2 * (B / 6 * s2)); [apply Rmult_le_compat; try apply Rabs_pos; exact SU|]. unfold b. right. field. }
  assert (BS : 0 <= b * s2 <= s2) by (split; [apply Rmult_le_pos; lra|rewrite <- (Rmult_1_l s2) at 2; apply Rmult_le_compat_r; lra]).
  assert (U2 : u ^ 2 <= (1 - s2 / 2 + b * s2 / 24) ^ 2) by (apply pow_incr; lra).
  assert (SS : 0 <= s2 * s2 <= b * s2) by (split; [apply Rle_0_sqr|apply Rmult_le_compat_r; lra]).
  assert (T1 : b * (s2 * s2) <= 1 * (b * s2)) by (apply Rmult_le_compat; lra). assert (T0 : 0 <= b * (s2 * s2)) by (apply Rmult_le_pos; lra).
  assert (T2 : b * b * (s2 * s2) <= b * (s2 * s2)) by (replace (b * b * (s2 * s2)) with (b * (b * (s2 * s2))) by ring; rewrite <- (Rmult_1_l (b * (s2 * s2))) at 2; apply Rmult_le_compat_r; lra).
  replace ((1 - s2 / 2 + b * s2 / 24) ^ 2) with (1 - s2 + b * s2 / 12 + s2 * s2 / 4 - b * (s2 * s2) / 24 + b * b * (s2 * s2) / 576) in U2 by field. lra.
Qed.

(** ** sums of polynomials *)
Lemma zsum_minus ps : forall cs ds p phi, length cs = length ps -> length ds = length ps ->
  zsum cs ps p phi - zsum ds ps p phi = zsum (map (fun cd => fst cd - snd cd) (combine cs ds)) ps p phi.
Proof.
  induction ps as [|[m n] ps IH]; intros [|c cs] [|d ds] p phi L1 L2; try discriminate; cbn [zsum combine map fst snd]; [ring|].
  injection L1 as L1. injection L2 as L2. rewrite <- IH by assumption. ring.
Qed.
Lemma squares_minus : forall cs ds, squares (map (fun cd => fst cd - snd cd) (combine cs ds)) = squares_diff cs ds.
Proof. induction cs as [|c cs IH]; intros [|d ds]; try reflexivity. cbn. f_equal. apply IH. Qed.
Lemma zsum_stable ps cs ds r theta : all_valid ps -> NoDup ps -> length cs = length ps -> length ds = length ps ->
  Rabs (diffraction_integral (zsum cs ps) r theta - diffraction_integral (zsum ds ps) r theta) <= 2 * sqrt (squares_diff cs ds).
Proof.
  intros V ND L1 L2. pose proof (diff_stable (zsum cs ps) (zsum ds ps) r theta (zsum_nice ps V cs) (zsum_nice ps V ds)) as H.
  set (es := map (fun cd => fst cd - snd cd) (combine cs ds)). assert (LE : length es = length ps) by (unfold es; rewrite map_length, combine_length; lia).
  replace (disk_mean _) with (squares_diff cs ds) in H; [exact H|]. rewrite <- squares_minus. fold es. rewrite <- (mean_square ps V ND es LE).
  apply mean_ext. intros p phi _. rewrite zsum_minus by assumption. reflexivity.
Qed.
Lemma Z00 r t : Z_nm 0 0 r t = 1.
Proof.
  unfold Z_nm, norm_nm, R_nm, T_m. cbn. rewrite Rmult_0_l, cos_0. replace (2 * (0 + 1) / (1 + 1)) with 1 by field. rewrite sqrt_1. field.
Qed.
Fixpoint no_piston (cs : list R) (ps : list (Z * Z)) : list R :=
  match cs, ps with
  | c :: cs', (m, n) :: ps' => (if Z.eqb m 0 && Z.eqb n 0 then 0 else c) :: no_piston cs' ps'
  | _, _ => []
  end.
Lemma no_piston_len : forall cs ps, length cs = length ps -> length (no_piston cs ps) = length ps.
Proof. induction cs as [|c cs IH]; intros [|[m n] ps] L; try discriminate; [reflexivity|]. cbn. f_equal. apply IH. injection L as L. exact L. Qed.
Lemma no_piston_squares : forall cs ps, squares (no_piston cs ps) = squares_no_piston cs ps.
Proof. induction cs as [|c cs IH]; intros [|[m n] ps]; try reflexivity. cbn. rewrite <- IH. unfold squares. destruct (Z.eqb m 0 && Z.eqb n 0)%bool; ring. Qed.
Lemma piston_split : forall cs ps p phi, zsum cs ps p phi = pistons cs ps + zsum (no_piston cs ps) ps p phi.
Proof.
  induction cs as [|c cs IH]; intros [|[m n] ps] p phi; cbn [zsum pistons no_piston]; try ring. rewrite IH. destruct (Z.eqb m 0 && Z.eqb n 0)%bool eqn:E; [|ring].
  assert (m = 0 /\ n = 0)%Z as [-> ->] by lia. rewrite Z00. ring.
Qed.
Lemma zsum_strehl ps cs theta : all_valid ps -> NoDup ps -> length cs = length ps -> squares_no_piston cs ps <= 2 ->
  (1 - squares_no_piston cs ps / 2) ^ 2 <= diffraction_integral (zsum cs ps) 0 theta.
Proof.
  intros V ND L S. set (ds := no_piston cs ps). assert (LD : length ds = length ps) by (apply no_piston_len, L).
  assert (E : diffraction_integral (zsum cs ps) 0 theta = diffraction_integral (zsum ds ps) 0 theta).
  { rewrite <- (diff_shift (zsum ds ps) (pistons cs ps) 0 theta) by (apply zsum_nice, V). rewrite !diff_mean. f_equal; f_equal; apply mean_ext; intros; rewrite piston_split; reflexivity. }
  rewrite E. apply (strehl_low (zsum ds ps)); [apply zsum_nice, V| |exact S]. rewrite (mean_square ps V ND ds LD). apply no_piston_squares.
Qed.
Lemma mean_zsum ps cs : all_valid ps -> length cs = length ps -> disk_mean (zsum cs ps) = pistons cs ps.
Proof.
  intros V L. assert (V0 : valid 0 0) by (split; [lia|split; [lia|exists 0%Z; reflexivity]]).
  transitivity (disk_mean (fun p phi => Z_nm 0 0 p phi * zsum cs ps p phi)); [apply mean_ext; intros; rewrite Z00; ring|].
  pose proof (mean_Z_zsum (0, 0)%Z ps V0 V cs) as E. cbn [fst snd] in E. rewrite E. clear E V. revert cs L. induction ps as [|[m n] ps IH]; intros [|c cs] L; try discriminate; [reflexivity|].
  injection L as L. cbn [combine fold_right pistons fst snd]. rewrite (IH cs L). unfold delta. cbn [fst snd].
  destruct (Z.eq_dec 0 m), (Z.eq_dec 0 n), (Z.eqb_spec m 0), (Z.eqb_spec n 0); try lia; cbn [andb]; ring.
Qed.
Lemma pistons_none : forall ps cs, ~ In (0, 0)%Z ps -> pistons cs ps = 0.
Proof.
  induction ps as [|[m n] ps IH]; intros [|c cs] NI; try reflexivity. cbn [pistons]. rewrite IH by (intros H; apply NI; right; exact H).
  destruct (Z.eqb_spec m 0) as [->|], (Z.eqb_spec n 0) as [->|]; cbn [andb]; try ring. exfalso. apply NI. left. reflexivity.
Qed.
Lemma zsum_strehl_high ps cs theta : all_valid ps -> NoDup ps -> length cs = length ps -> ~ In (0, 0)%Z ps -> size_of cs ps <= 1 ->
  diffraction_integral (zsum cs ps) 0 theta <= 1 - squares cs * (1 - 2 / 5 * (size_of cs ps * size_of cs ps)).
Proof.
  intros V ND L NI S. apply strehl_high; [apply zsum_nice, V|rewrite mean_zsum by assumption; apply pistons_none, NI|apply mean_square; assumption| |split; [apply size_nonneg|exact S]].
  intros. apply zsum_bound; assumption.
Qed.
