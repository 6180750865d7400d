(** How steep the radial polynomials are (C51). *)
From Coq Require Import Reals Lra Lia Arith.
From Coquelicot Require Import Coquelicot.
From Verif Require Import Py SpecIndex SpecRadial RadialMath L_Index L_Radial L_RadialD L_DrErr L_Bound L_Trig L_Ortho SpecDiff.
Local Open Scope R_scope.

Lemma cont_zero (h : R -> R) : continuous h 0 -> (forall x, x <> 0 -> h x = 0) -> h 0 = 0.
Proof.
  intros C Z1. destruct (Req_dec (h 0) 0) as [E|E]; [exact E|exfalso].
  assert (P : 0 < Rabs (h 0)) by (apply Rabs_pos_lt; exact E).
  apply continuity_pt_filterlim in C. destruct (C (Rabs (h 0)) P) as (d & D & H).
  specialize (H (d / 2)). cbn in H. unfold D_x, no_cond, R_dist in H.
  assert (X : Rabs (h (d / 2) - h 0) < Rabs (h 0)).
  { apply H. split; [split; [exact Logic.I|lra]|]. rewrite Rabs_pos_eq; lra. }
  rewrite Z1 in X by lra. rewrite Rminus_0_l, Rabs_Ropp in X. lra.
Qed.

(** F(a+1,b+1)' = F(a,b)' + (a+b+2) (F(a,b+1) + F(a+1,b)) *)
Lemma dF_step a b r : dF (S a) (S b) r = dF a b r + INR (a + b + 2) * (F a (S b) r + F (S a) b r).
Proof.
  assert (G : forall x, x <> 0 -> dF (S a) (S b) x - dF a b x - INR (a + b + 2) * (F a (S b) x + F (S a) b x) = 0).
  { intros x Hx. pose proof (F_euler a b x) as E. rewrite F_rec, <- INR_IZR_INZ in E. apply (Rmult_eq_reg_l x); [|exact Hx].
    rewrite Rmult_0_r. rewrite Rmult_minus_distr_l, E. ring. }
  destruct (Req_dec r 0) as [->|Hr]; [|specialize (G r Hr); lra].
  assert (X : dF (S a) (S b) 0 - dF a b 0 - INR (a + b + 2) * (F a (S b) 0 + F (S a) b 0) = 0); [|lra].
  refine (cont_zero (fun x => dF (S a) (S b) x - dF a b x - INR (a + b + 2) * (F a (S b) x + F (S a) b x)) _ G).
  apply (continuous_minus (V := R_NormedModule)); [apply (continuous_minus (V := R_NormedModule)); apply dF_cont|].
  apply (cts_mult (fun _ => INR (a + b + 2)) (fun x => F a (S b) x + F (S a) b x)); [apply cts_const|].
  apply cts_plus; apply cts_F.
Qed.

Lemma pow_abs_le1 x k : -1 <= x <= 1 -> Rabs (x ^ k) <= 1.
Proof.
  intros H. assert (A : 0 <= Rabs x <= 1) by (split; [apply Rabs_pos|apply Rabs_le; lra]). rewrite <- RPow_abs.
  induction k as [|k IH]; cbn [pow]; [lra|]. pose proof (pow_le (Rabs x) k (proj1 A)). nra.
Qed.
Lemma dF_a0 a r : dF a 0 r = INR a * r ^ pred a.
Proof.
  assert (E : derivable_pt_lim (F a 0) r (INR a * r ^ pred a)).
  { apply (derivable_pt_lim_ext (fun x => x ^ a)); [intros; symmetry; apply F_0_r|]. apply derivable_pt_lim_pow. }
  eapply uniqueness_limite; [apply dF_ok|exact E].
Qed.
Lemma dF_bound_le a b r : -1 <= r <= 1 -> Rabs (dF (a + b) b r) <= INR (2 * (a + b) * b + (a + b) + b).
Proof.
  intros Hr. induction b as [|b IH].
  - rewrite Nat.add_0_r, dF_a0, Rabs_mult, (Rabs_pos_eq (INR a)) by apply pos_INR. pose proof (pow_abs_le1 r (pred a) Hr).
    replace (2 * a * 0 + a + 0)%nat with a by lia. pose proof (pos_INR a). nra.
  - rewrite Nat.add_succ_r, dF_step. eapply Rle_trans; [apply Rabs_triang|]. rewrite Rabs_mult, (Rabs_pos_eq (INR _)) by apply pos_INR.
    assert (X : Rabs (F (a + b) (S b) r + F (S (a + b)) b r) <= 2).
    { eapply Rle_trans; [apply Rabs_triang|]. pose proof (F_bound (a + b) (S b) r Hr). pose proof (F_bound (S (a + b)) b r Hr). lra. }
    pose proof (pos_INR (a + b + b + 2)).
    replace (2 * S (a + b) * S b + S (a + b) + S b)%nat with (2 * (a + b) * b + (a + b) + b + (a + b + b + 2) * 2)%nat by lia.
    rewrite (plus_INR _ ((a + b + b + 2) * 2)), (mult_INR _ 2). change (INR 2) with 2. nra.
Qed.
Lemma dF_at_1_le a b : dF (a + b) b 1 = INR (2 * (a + b) * b + (a + b) + b).
Proof.
  induction b as [|b IH].
  - rewrite Nat.add_0_r, dF_a0, pow1. replace (2 * a * 0 + a + 0)%nat with a by lia. ring.
  - rewrite Nat.add_succ_r, dF_step, IH, !F_at_1.
    replace (2 * S (a + b) * S b + S (a + b) + S b)%nat with (2 * (a + b) * b + (a + b) + b + (a + b + b + 2) * 2)%nat by lia.
    rewrite (plus_INR _ ((a + b + b + 2) * 2)), (mult_INR _ 2). change (INR 2) with 2. ring.
Qed.



Lemma slope_ab m n : valid m n -> slope m n = INR (2 * oa m n * ob m n + oa m n + ob m n).
Proof.
  intros V. destruct (oab m n V) as (L & A & B). unfold slope. set (a := oa m n) in *. set (b := ob m n) in *.
  assert (X : (n * (n + 2) - m * m = 2 * Z.of_nat (2 * a * b + a + b))%Z).
  { replace (m * m)%Z with (Z.abs m * Z.abs m)%Z by (rewrite <- Z.abs_mul; apply Z.abs_eq, Z.square_nonneg).
    assert (C : Z.abs m = (Z.of_nat a - Z.of_nat b)%Z) by lia. rewrite C, <- A.
    rewrite !Nat2Z.inj_add, !Nat2Z.inj_mul. change (Z.of_nat 2) with 2%Z. ring. }
  rewrite X, mult_IZR, <- INR_IZR_INZ. field.
Qed.
Lemma dF_mn_bound m n r : valid m n -> -1 <= r <= 1 -> Rabs (dF (oa m n) (ob m n) r) <= slope m n.
Proof.
  intros V Hr. rewrite (slope_ab m n V). destruct (oab m n V) as (L & _). pose proof (dF_bound_le (oa m n - ob m n) (ob m n) r Hr) as H.
  replace (oa m n - ob m n + ob m n)%nat with (oa m n) in H by lia. exact H.
Qed.
Lemma dF_mn_1 m n : valid m n -> dF (oa m n) (ob m n) 1 = slope m n.
Proof.
  intros V. rewrite (slope_ab m n V). destruct (oab m n V) as (L & _). pose proof (dF_at_1_le (oa m n - ob m n) (ob m n)) as H.
  replace (oa m n - ob m n + ob m n)%nat with (oa m n) in H by lia. exact H.
Qed.
Lemma slope_nonneg m n : valid m n -> 0 <= slope m n.
Proof. intros V. rewrite (slope_ab m n V). apply pos_INR. Qed.
Lemma R_nm_dF m n r : valid m n -> derivable_pt_lim (R_nm m n) r (dF (oa m n) (ob m n) r).
Proof. intros V. apply (derivable_pt_lim_ext (F (oa m n) (ob m n))); [intros; symmetry; apply R_nm_F, V|apply dF_ok]. Qed.

(** a function with derivative bounded on [a,b] is Lipschitz there *)
Lemma lipschitz_of_derivative (f df : R -> R) (a b L : R) : (forall x, a <= x <= b -> derivable_pt_lim f x (df x)) ->
  (forall x, a <= x <= b -> Rabs (df x) <= L) -> forall x y, a <= x <= b -> a <= y <= b -> Rabs (f x - f y) <= L * Rabs (x - y).
Proof.
  intros D B.
  assert (W : forall x y, a <= x <= b -> a <= y <= b -> x < y -> Rabs (f y - f x) <= L * (y - x)).
  { intros x y Hx Hy L1. destruct (MVT_gen f x y df) as (c & Hc & E).
    - intros z Hz. rewrite Rmin_left, Rmax_right in Hz by lra. apply is_derive_Reals, D. lra.
    - intros z Hz. rewrite Rmin_left, Rmax_right in Hz by lra. apply derivable_continuous_pt. exists (df z). apply D. lra.
    - rewrite Rmin_left, Rmax_right in Hc by lra. rewrite E, Rabs_mult, (Rabs_pos_eq (y - x)) by lra.
      apply Rmult_le_compat_r; [lra|]. apply B. lra. }
  intros x y Hx Hy. destruct (Rtotal_order x y) as [L1|[->|L1]].
  - rewrite <- Rabs_Ropp. replace (- (f x - f y)) with (f y - f x) by ring. rewrite <- (Rabs_Ropp (x - y)), (Rabs_pos_eq (- (x - y))) by lra.
    eapply Rle_trans; [apply W; assumption|]. right. ring.
  - unfold Rminus. rewrite !Rplus_opp_r, Rabs_R0. lra.
  - rewrite (Rabs_pos_eq (x - y)) by lra. apply W; assumption.
Qed.
Lemma R_lipschitz m n x y : valid m n -> 0 <= x <= 1 -> 0 <= y <= 1 -> Rabs (R_nm m n x - R_nm m n y) <= slope m n * Rabs (x - y).
Proof.
  intros V. apply (lipschitz_of_derivative (R_nm m n) (dF (oa m n) (ob m n)) 0 1); intros z Hz; [apply R_nm_dF, V|apply dF_mn_bound; [exact V|lra]].
Qed.
Lemma cos_lip x y : Rabs (cos x - cos y) <= Rabs (x - y).
Proof.
  assert (H : Rabs (cos x - cos y) <= 1 * Rabs (x - y)); [|lra].
  apply (lipschitz_of_derivative cos (fun z => - sin z) (Rmin x y) (Rmax x y)).
  - intros z _. apply derivable_pt_lim_cos.
  - intros z _. rewrite Rabs_Ropp. apply Rabs_le, SIN_bound.
  - split; [apply Rmin_l|apply Rmax_l].
  - split; [apply Rmin_r|apply Rmax_r].
Qed.
Lemma sin_lip x y : Rabs (sin x - sin y) <= Rabs (x - y).
Proof.
  assert (H : Rabs (sin x - sin y) <= 1 * Rabs (x - y)); [|lra].
  apply (lipschitz_of_derivative sin cos (Rmin x y) (Rmax x y)).
  - intros z _. apply derivable_pt_lim_sin.
  - intros z _. apply Rabs_le, COS_bound.
  - split; [apply Rmin_l|apply Rmax_l].
  - split; [apply Rmin_r|apply Rmax_r].
Qed.
Lemma T_lip m x y : Rabs (T_m m x - T_m m y) <= IZR (Z.abs m) * Rabs (x - y).
Proof.
  unfold T_m. pose proof (IZR_le 0 (Z.abs m) (Z.abs_nonneg m)).
  destruct (0 <=? m)%Z eqn:E; [apply Z.leb_le in E; rewrite (Z.abs_eq m E) in *; eapply Rle_trans; [apply cos_lip|]|eapply Rle_trans; [apply sin_lip|]];
    rewrite <- Rmult_minus_distr_l, Rabs_mult, (Rabs_pos_eq (IZR _)) by lra; lra.
Qed.
Lemma Z_lip_r m n x y th : valid m n -> 0 <= x <= 1 -> 0 <= y <= 1 -> Rabs (Z_nm m n x th - Z_nm m n y th) <= norm_nm m n * slope m n * Rabs (x - y).
Proof.
  intros V Hx Hy. pose proof (norm_pos m n (proj1 V)) as NP. unfold Z_nm.
  replace (norm_nm m n * R_nm m n x * T_m m th - norm_nm m n * R_nm m n y * T_m m th) with (norm_nm m n * ((R_nm m n x - R_nm m n y) * T_m m th)) by ring.
  rewrite Rabs_mult, (Rabs_pos_eq (norm_nm m n)), Rabs_mult, Rmult_assoc by lra. apply Rmult_le_compat_l; [lra|].
  pose proof (R_lipschitz m n x y V Hx Hy). pose proof (T_bound m th). pose proof (Rabs_pos (T_m m th)). pose proof (Rabs_pos (R_nm m n x - R_nm m n y)). nra.
Qed.
Lemma Z_lip_t m n x th th' : valid m n -> 0 <= x <= 1 -> Rabs (Z_nm m n x th - Z_nm m n x th') <= norm_nm m n * IZR (Z.abs m) * Rabs (th - th').
Proof.
  intros V Hx. pose proof (norm_pos m n (proj1 V)) as NP. unfold Z_nm.
  replace (norm_nm m n * R_nm m n x * T_m m th - norm_nm m n * R_nm m n x * T_m m th') with (norm_nm m n * (R_nm m n x * (T_m m th - T_m m th'))) by ring.
  rewrite Rabs_mult, (Rabs_pos_eq (norm_nm m n)), Rabs_mult, Rmult_assoc by lra. apply Rmult_le_compat_l; [lra|].
  pose proof (T_lip m th th'). assert (Rabs (R_nm m n x) <= 1) by (apply R_bound; [exact V|lra]).
  pose proof (Rabs_pos (R_nm m n x)). pose proof (Rabs_pos (T_m m th - T_m m th')). nra.
Qed.
Lemma Z_lip m n x y th th' : valid m n -> 0 <= x <= 1 -> 0 <= y <= 1 ->
  Rabs (Z_nm m n x th - Z_nm m n y th') <= norm_nm m n * (slope m n * Rabs (x - y) + IZR (Z.abs m) * Rabs (th - th')).
Proof.
  intros V Hx Hy. replace (Z_nm m n x th - Z_nm m n y th') with ((Z_nm m n x th - Z_nm m n y th) + (Z_nm m n y th - Z_nm m n y th')) by ring.
  eapply Rle_trans; [apply Rabs_triang|]. pose proof (Z_lip_r m n x y th V Hx Hy). pose proof (Z_lip_t m n y th th' V Hy). lra.
Qed.
