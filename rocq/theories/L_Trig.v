(** Angular part, normalisation factor, bounds of the polynomial value (C16, C17). *)
From Coq Require Import Reals Lra Arith.
From Verif Require Import Py SpecIndex SpecRadial RadialMath L_Index M_Radial M_Coeffs SpecCoeffs L_Radial L_RadialD L_Value L_Bound.
Local Open Scope R_scope.

Lemma triangular_T m th : triangular_function m th = T_m m th.
Proof.
  unfold triangular_function, T_m. destruct (Z.leb_spec 0 m); [reflexivity|].
  replace (IZR (Z.abs m)) with (- IZR m) by (rewrite <- opp_IZR; f_equal; lia).
  rewrite <- sin_neg. f_equal. ring.
Qed.

Lemma d_lin c x : derivable_pt_lim (fun y => c * y) x c.
Proof. eapply dlim_eq; [|apply dlim_scal, dlim_id]. ring. Qed.
Lemma triangular_derivative_ok m th : derivable_pt_lim (T_m m) th (triangular_derivative m th).
Proof.
  apply dlim_ext with (f := triangular_function m); [intros; apply triangular_T|].
  unfold triangular_function, triangular_derivative. destruct (0 <=? m)%Z.
  - eapply dlim_eq; [|apply (derivable_pt_lim_comp (fun y => IZR m * y) cos); [apply d_lin|apply derivable_pt_lim_cos]]. ring.
  - eapply dlim_eq; [|apply (derivable_pt_lim_opp (comp sin (fun y => IZR m * y))); apply derivable_pt_lim_comp; [apply d_lin|apply derivable_pt_lim_sin]]. ring.
Qed.

Lemma T_bound m th : Rabs (T_m m th) <= 1.
Proof.
  unfold T_m. apply Rabs_le. destruct (0 <=? m)%Z.
  - pose proof (COS_bound (IZR m * th)). lra.
  - pose proof (SIN_bound (IZR (Z.abs m) * th)). lra.
Qed.

Lemma cos_Zperiod x k : cos (x + 2 * IZR k * PI) = cos x.
Proof.
  destruct (Z_le_gt_dec 0 k) as [H|H].
  - rewrite <- (Z2Nat.id k) by exact H. rewrite <- INR_IZR_INZ. apply cos_period.
  - rewrite <- (cos_period (x + 2 * IZR k * PI) (Z.to_nat (- k))). f_equal.
    rewrite INR_IZR_INZ, Z2Nat.id by lia. rewrite opp_IZR. ring.
Qed.
Lemma sin_Zperiod x k : sin (x + 2 * IZR k * PI) = sin x.
Proof.
  destruct (Z_le_gt_dec 0 k) as [H|H].
  - rewrite <- (Z2Nat.id k) by exact H. rewrite <- INR_IZR_INZ. apply sin_period.
  - rewrite <- (sin_period (x + 2 * IZR k * PI) (Z.to_nat (- k))). f_equal.
    rewrite INR_IZR_INZ, Z2Nat.id by lia. rewrite opp_IZR. ring.
Qed.
Lemma T_period m th k : T_m m (th + 2 * IZR k * PI) = T_m m th.
Proof.
  unfold T_m. destruct (0 <=? m)%Z.
  - replace (IZR m * (th + 2 * IZR k * PI)) with (IZR m * th + 2 * IZR (m * k) * PI) by (rewrite mult_IZR; ring).
    apply cos_Zperiod.
  - replace (IZR (Z.abs m) * (th + 2 * IZR k * PI)) with (IZR (Z.abs m) * th + 2 * IZR (Z.abs m * k) * PI) by (rewrite mult_IZR; ring).
    apply sin_Zperiod.
Qed.
(** half turn *)
Lemma cos_Zpi x k : cos (x + IZR k * PI) = (-1) ^ Z.abs_nat k * cos x.
Proof.
  assert (H : forall j : nat, cos (x + INR j * PI) = (-1) ^ j * cos x).
  { induction j as [|j IH]; [simpl; f_equal; rewrite Rmult_0_l, Rplus_0_r; ring|].
    rewrite S_INR. replace (x + (INR j + 1) * PI) with ((x + INR j * PI) + PI) by ring. rewrite neg_cos, IH. simpl. ring. }
  assert (K : forall (j : nat) y, cos (y - INR j * PI) = (-1) ^ j * cos y).
  { induction j as [|j IH]; intros y; [simpl; rewrite Rmult_0_l, Rminus_0_r; ring|].
    rewrite S_INR. replace (y - (INR j + 1) * PI) with ((y - PI) - INR j * PI) by ring. rewrite IH.
    replace (cos y) with (- cos (y - PI)); [simpl; ring|].
    rewrite <- neg_cos. f_equal. ring. }
  destruct (Z_le_gt_dec 0 k) as [L|L].
  - rewrite <- H. rewrite INR_IZR_INZ, Zabs2Nat.id_abs, Z.abs_eq by lia. reflexivity.
  - rewrite <- K. f_equal. rewrite INR_IZR_INZ, Zabs2Nat.id_abs, Z.abs_neq by lia. rewrite opp_IZR. ring.
Qed.
Lemma sin_Zpi x k : sin (x + IZR k * PI) = (-1) ^ Z.abs_nat k * sin x.
Proof.
  rewrite <- !cos_shift. replace (PI / 2 - (x + IZR k * PI)) with ((PI / 2 - x) + IZR (- k) * PI) by (rewrite opp_IZR; ring).
  rewrite cos_Zpi. replace (Z.abs_nat (- k)) with (Z.abs_nat k) by lia. reflexivity.
Qed.
Lemma T_halfturn m th : T_m m (th + PI) = (-1) ^ Z.abs_nat m * T_m m th.
Proof.
  unfold T_m. destruct (0 <=? m)%Z.
  - rewrite Rmult_plus_distr_l. apply cos_Zpi.
  - rewrite Rmult_plus_distr_l, sin_Zpi. f_equal. f_equal. lia.
Qed.

Lemma normalization_norm m n : (0 <= n)%Z -> normalization_factor m n = norm_nm m n.
Proof.
  intros H. unfold normalization_factor, norm_nm. destruct (m =? 0)%Z; f_equal; rewrite ?mult_IZR, ?plus_IZR; field.
Qed.
Lemma norm_pos m n : (0 <= n)%Z -> 0 < norm_nm m n.
Proof.
  intros H. unfold norm_nm. apply sqrt_lt_R0. apply IZR_le in H.
  destruct (m =? 0)%Z; apply Rdiv_lt_0_compat; lra.
Qed.

Lemma zp_value_ok s fuel m n e r th : reachable s -> valid m n -> (n + 1 < Z.of_nat fuel)%Z ->
  (e = true -> n <= 40)%Z -> snd (zp_polynomial_value fuel m n e r th s) = Ok (Z_nm m n r th).
Proof.
  intros RS V HF HE. pose proof V as (Hn & _). unfold zp_polynomial_value.
  replace (e && (MAX_RADIAL_ORDER_COEFFS <? n)%Z) with false.
  2:{ unfold MAX_RADIAL_ORDER_COEFFS. destruct e; [specialize (HE eq_refl); lia|reflexivity]. }
  pose proof (zp_radial_ok s fuel m n e r RS V HF HE) as E. unfold mbind. destruct (zp_radial fuel m n e r s) as [s' x].
  cbn in E. subst x. cbn. f_equal. unfold Z_nm. rewrite normalization_norm, triangular_T by exact Hn. ring.
Qed.
Lemma zp_high_exact_zero s fuel m n r th : (40 < n)%Z ->
  snd (zp_radial fuel m n true r s) = Ok 0 /\ snd (zp_polynomial_value fuel m n true r th s) = Ok 0.
Proof.
  intros H. unfold zp_radial, zp_polynomial_value, MAX_RADIAL_ORDER_COEFFS. replace (40 <? n)%Z with true by lia.
  split; reflexivity.
Qed.

Lemma Z_bound m n r th : valid m n -> 0 <= r <= 1 -> Rabs (Z_nm m n r th) <= norm_nm m n.
Proof.
  intros V H. pose proof V as (Hn & _). unfold Z_nm. rewrite !Rabs_mult.
  rewrite (Rabs_pos_eq (norm_nm m n)) by (left; apply norm_pos, Hn).
  pose proof (R_bound m n r V ltac:(lra)). pose proof (T_bound m th). pose proof (norm_pos m n Hn).
  pose proof (Rabs_pos (R_nm m n r)). pose proof (Rabs_pos (T_m m th)).
  rewrite Rmult_assoc. rewrite <- (Rmult_1_r (norm_nm m n)) at 2. apply Rmult_le_compat_l; [lra|].
  rewrite <- (Rmult_1_r 1). apply Rmult_le_compat; assumption.
Qed.
Lemma Z_period m n r th k : Z_nm m n r (th + 2 * IZR k * PI) = Z_nm m n r th.
Proof. unfold Z_nm. rewrite T_period. reflexivity. Qed.
(** point reflection r, theta -> r, theta + pi *)
Lemma Z_halfturn m n r th : valid m n -> Z_nm m n r (th + PI) = (-1) ^ Z.to_nat n * Z_nm m n r th.
Proof.
  intros V. unfold Z_nm. rewrite T_halfturn. replace ((-1) ^ Z.abs_nat m) with ((-1) ^ Z.to_nat n); [ring|].
  destruct V as (Hn & Hm & k & Hk). replace (Z.to_nat n) with (Z.abs_nat m + 2 * Z.to_nat k)%nat by lia.
  rewrite pow_add, pow_1_even. ring.
Qed.
