From Coq Require Import Reals Lra.
From Verif Require Import Py M_Geo SpecGeo SpecIndex SpecRadial RadialMath L_Radial L_Trig.
Local Open Scope R_scope.

Definition norm2 (x y : R) : R := sqrt (x * x + y * y).
Lemma norm2_pos x y : 0 <= norm2 x y.
Proof. apply sqrt_pos. Qed.
Lemma norm2_sqr x y : norm2 x y * norm2 x y = x * x + y * y.
Proof. apply sqrt_sqrt. nra. Qed.
Lemma norm2_scale x t : norm2 x (t * x) = Rabs x * sqrt (1 + t²).
Proof.
  unfold norm2. replace (x * x + t * x * (t * x)) with (x² * (1 + t²)) by (unfold Rsqr; ring).
  rewrite sqrt_mult; [|apply Rle_0_sqr|pose proof (Rle_0_sqr t); lra]. rewrite sqrt_Rsqr_abs. reflexivity.
Qed.

Lemma polar_atan x y : x <> 0 -> norm2 x y * cos (atan (y / x)) = Rabs x /\ norm2 x y * sin (atan (y / x)) = Rabs x * (y / x).
Proof.
  intros H. assert (E : norm2 x y = Rabs x * sqrt (1 + (y / x)²)) by (rewrite <- norm2_scale; f_equal; field; exact H).
  assert (P : 0 < 1 + (y / x)²) by (pose proof (Rle_0_sqr (y / x)); lra).
  assert (S : 0 < sqrt (1 + (y / x)²)) by (apply sqrt_lt_R0; exact P).
  rewrite E, cos_atan, sin_atan. split; unfold Rdiv; field; lra.
Qed.

Lemma cos_add_PI t : cos (t + PI) = - cos t. Proof. apply neg_cos. Qed.
Lemma sin_add_PI t : sin (t + PI) = - sin t. Proof. apply neg_sin. Qed.
Lemma cos_sub_PI t : cos (t - PI) = - cos t.
Proof. replace (t - PI) with (- (PI - t)) by ring. rewrite cos_neg, cos_minus, cos_PI, sin_PI. ring. Qed.
Lemma sin_sub_PI t : sin (t - PI) = - sin t.
Proof. replace (t - PI) with (- (PI - t)) by ring. rewrite sin_neg, sin_minus, cos_PI, sin_PI. ring. Qed.

Lemma arctan2_spec y x : - PI < arctan2 y x <= PI /\ norm2 x y * cos (arctan2 y x) = x /\ norm2 x y * sin (arctan2 y x) = y.
Proof.
  pose proof PI_RGT_0 as P. unfold arctan2. destruct (Rlt_dec 0 x) as [Hx|Hx].
  - destruct (atan_bound (y / x)) as [A B]. destruct (polar_atan x y) as [C D]; [lra|]. rewrite C, D, Rabs_pos_eq by lra.
    split; [lra|]. split; [reflexivity|]. field. lra.
  - destruct (Rlt_dec x 0) as [Nx|Nx].
    + destruct (polar_atan x y) as [C D]; [lra|]. rewrite Rabs_left in C, D by exact Nx. destruct (atan_bound (y / x)) as [A B].
      assert (D' : norm2 x y * sin (atan (y / x)) = - y) by (rewrite D; field; lra).
      destruct (Rlt_dec y 0) as [Ny|Ny].
      * assert (0 < atan (y / x)).
        { rewrite <- atan_0. apply atan_increasing. replace (y / x) with ((- y) / (- x)) by (field; lra). apply Rdiv_lt_0_compat; lra. }
        rewrite cos_sub_PI, sin_sub_PI. split; [lra|]. split; lra.
      * assert (atan (y / x) <= 0).
        { destruct (Req_dec y 0) as [->|NE]; [replace (0 / x) with 0 by (field; lra); rewrite atan_0; lra|].
          left. rewrite <- atan_0. apply atan_increasing. replace (y / x) with (- (y / - x)) by (field; lra).
          assert (0 < y / - x) by (apply Rdiv_lt_0_compat; lra). lra. }
        rewrite cos_add_PI, sin_add_PI. split; [lra|]. split; lra.
    + assert (x = 0) by lra. subst x. assert (N : norm2 0 y = Rabs y).
      { unfold norm2. replace (0 * 0 + y * y) with (y²) by (unfold Rsqr; ring). apply sqrt_Rsqr_abs. }
      rewrite N. destruct (Rlt_dec 0 y).
      * rewrite cos_PI2, sin_PI2, Rabs_pos_eq by lra. lra.
      * destruct (Rlt_dec y 0).
        -- rewrite cos_neg, sin_neg, cos_PI2, sin_PI2, Rabs_left by lra. lra.
        -- assert (y = 0) by lra. subst y. rewrite Rabs_R0. lra.
Qed.

Lemma cos_2PI_add t : cos (t + 2 * PI) = cos t.
Proof. rewrite <- (cos_period t 1). f_equal. simpl. ring. Qed.
Lemma sin_2PI_add t : sin (t + 2 * PI) = sin t.
Proof. rewrite <- (sin_period t 1). f_equal. simpl. ring. Qed.

Lemma pixel_polar y x : polar x y (norm2 x y) (pixel_theta y x).
Proof.
  pose proof PI_RGT_0 as P. destruct (arctan2_spec y x) as ([A B] & C & D). unfold polar, pixel_theta. split; [apply norm2_pos|].
  destruct (Rlt_dec (arctan2 y x) 0).
  - rewrite cos_2PI_add, sin_2PI_add. split; [lra|]. split; assumption.
  - split; [lra|]. split; assumption.
Qed.
Lemma pixel_theta_range y x : 0 <= pixel_theta y x < 2 * PI.
Proof. apply (pixel_polar y x). Qed.

(** uniqueness *)
Lemma polar_rho x y rho phi : polar x y rho phi -> rho = norm2 x y.
Proof.
  intros (R0 & _ & <- & <-). unfold norm2. replace (rho * cos phi * (rho * cos phi) + rho * sin phi * (rho * sin phi)) with (rho * rho * ((sin phi)² + (cos phi)²)) by (unfold Rsqr; ring).
  rewrite sin2_cos2, Rmult_1_r. symmetry. apply sqrt_square, R0.
Qed.
Lemma same_dir a b : 0 <= a < 2 * PI -> 0 <= b < 2 * PI -> cos a = cos b -> sin a = sin b -> a = b.
Proof.
  intros Ha Hb C S. assert (E : cos (a - b) = 1).
  { rewrite cos_minus, C, S. rewrite <- (sin2_cos2 b). unfold Rsqr. ring. }
  destruct (Req_dec a b) as [|NE]; [assumption|exfalso]. pose proof PI_RGT_0.
  assert (G : forall d, 0 < d < 2 * PI -> cos d < 1).
  { intros d Hd. replace d with (2 * (d / 2)) by field. rewrite cos_2a_sin. assert (0 < sin (d / 2)) by (apply sin_gt_0; lra). nra. }
  destruct (Rtotal_order a b) as [L|[->|L]]; [|congruence|].
  - rewrite <- (cos_neg (a - b)) in E. specialize (G (- (a - b)) ltac:(lra)). lra.
  - specialize (G (a - b) ltac:(lra)). lra.
Qed.
Lemma polar_unique x y r1 p1 r2 p2 : polar x y r1 p1 -> polar x y r2 p2 -> r1 = r2 /\ (r1 <> 0 -> p1 = p2).
Proof.
  intros H1 H2. pose proof (polar_rho _ _ _ _ H1) as E1. pose proof (polar_rho _ _ _ _ H2) as E2.
  assert (E : r1 = r2) by congruence. split; [exact E|]. intros N. subst r2. destruct H1 as (_ & A & B & C), H2 as (_ & A' & B' & C').
  assert (CC : cos p1 = cos p2) by (apply Rmult_eq_reg_l with r1; [congruence|exact N]).
  assert (SS : sin p1 = sin p2) by (apply Rmult_eq_reg_l with r1; [congruence|exact N]).
  apply same_dir; assumption.
Qed.

(** at the origin the value does not depend on the angle *)
Lemma R_nm_0 m n : valid m n -> m <> 0%Z -> R_nm m n 0 = 0.
Proof.
  intros (Hn & Hm & k & Hk) M. unfold R_nm. apply sum_eq_R0. intros i Hi.
  rewrite (pow_i (Z.to_nat n - 2 * i)); [ring|]. revert Hi. rewrite Hk, Z.mul_comm, Z.div_mul by lia. lia.
Qed.
Lemma Z_polar m n x y r1 p1 r2 p2 c : valid m n -> polar x y r1 p1 -> polar x y r2 p2 -> Z_nm m n (r1 / c) p1 = Z_nm m n (r2 / c) p2.
Proof.
  intros V H1 H2. destruct (polar_unique _ _ _ _ _ _ H1 H2) as [E D]. subst r2.
  destruct (Req_dec r1 0) as [->|N]; [|rewrite (D N); reflexivity].
  unfold Rdiv. rewrite Rmult_0_l. unfold Z_nm. destruct (Z.eq_dec m 0) as [->|M].
  - unfold T_m. cbn [Z.leb Z.compare]. rewrite !Rmult_0_l. reflexivity.
  - rewrite R_nm_0 by assumption. ring.
Qed.
