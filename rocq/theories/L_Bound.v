(** |R_n^m(r)| <= 1 on [-1,1] by invariance of the Bombieri norm under rotations; parity (C14). *)
From Coq Require Import Reals Lra Arith Lia.
From Verif Require Import Py SpecIndex SpecRadial RadialMath L_Radial.
Local Open Scope R_scope.

Section Rotation.
Variables r s : R.
Hypothesis unit : r * r + s * s = 1.

(** homogeneous polynomials as coefficient sequences: q k is the coefficient of x^k *)
Definition sh (q : nat -> R) (k : nat) : R := match k with O => 0 | S k' => q k' end.
Definition mulL (q : nat -> R) (k : nat) : R := r * sh q k + s * q k.
Definition mulM (q : nat -> R) (k : nat) : R := - s * sh q k + r * q k.
(** coefficients of (r x + s y)^a (- s x + r y)^b *)
Fixpoint cM (b : nat) : nat -> R :=
  match b with O => fun k => match k with O => 1 | _ => 0 end | S b' => mulM (cM b') end.
Fixpoint cL (a b : nat) : nat -> R := match a with O => cM b | S a' => mulL (cL a' b) end.

Lemma cL_S a b k : cL (S a) b k = mulL (cL a b) k.
Proof. reflexivity. Qed.
Lemma LM_comm q k : mulL (mulM q) k = mulM (mulL q) k.
Proof. unfold mulL, mulM. destruct k as [|[|k]]; cbn [sh]; unfold mulL, mulM; cbn [sh]; ring. Qed.
Lemma mulL_ext p q k : (forall i, p i = q i) -> mulL p k = mulL q k.
Proof. intros H. unfold mulL. rewrite H. f_equal. f_equal. destruct k; simpl; auto. Qed.
Lemma cM_S a b : forall k, cL a (S b) k = mulM (cL a b) k.
Proof.
  induction a as [|a IH]; intros k; [reflexivity|]. cbn [cL]. rewrite (mulL_ext _ (mulM (cL a b))) by exact IH.
  apply LM_comm.
Qed.
Lemma cM_out b : forall k, (b < k)%nat -> cM b k = 0.
Proof.
  induction b as [|b IH]; intros k H; cbn [cM].
  - destruct k; [lia|reflexivity].
  - unfold mulM. destruct k as [|k]; [lia|]. cbn [sh]. rewrite !IH by lia. ring.
Qed.
Lemma cL_out a b : forall k, (a + b < k)%nat -> cL a b k = 0.
Proof.
  induction a as [|a IH]; intros k H; cbn [cL]; [apply cM_out; lia|].
  unfold mulL. destruct k as [|k]; [lia|]. cbn [sh]. rewrite !IH by lia. ring.
Qed.
(** the diagonal coefficients are the radial polynomials *)
Lemma cM_0 b : cM b 0 = r ^ b.
Proof. induction b as [|b IH]; [reflexivity|]. cbn [cM]. unfold mulM. cbn [sh]. rewrite IH. simpl. ring. Qed.
Lemma cL_top a : cL a 0 a = r ^ a.
Proof.
  induction a as [|a IH]; [reflexivity|]. cbn [cL]. unfold mulL. cbn [sh]. rewrite IH.
  rewrite cL_out by lia. simpl. ring.
Qed.
Lemma diag_F : forall N a b, (a + b <= N)%nat -> cL a b a = F a b r.
Proof.
  induction N as [N IH] using lt_wf_ind. intros a b H. destruct a as [|a].
  - rewrite F_0_l. apply cM_0.
  - destruct b as [|b]; [rewrite F_0_r; apply cL_top|].
    rewrite F_rec. rewrite <- (IH (N - 1)%nat) by lia. rewrite <- (IH (N - 1)%nat ltac:(lia) (S a) b) by lia.
    rewrite <- (IH (N - 1)%nat ltac:(lia) a b) by lia.
    rewrite (cL_S a (S b)), (cL_S a b). rewrite (mulL_ext _ (mulM (cL a b))) by (apply cM_S).
    rewrite cM_S. unfold mulL, mulM. cbn [sh]. unfold mulM. cbn [sh].
    replace (s * (- s * cL a b a + r * cL a b (S a))) with (r * s * cL a b (S a) - s * s * cL a b a) by ring.
    replace (s * s) with (1 - r * r) by lra. ring.
Qed.

(** directional derivative along L *)
Definition dL (N : nat) (p : nat -> R) (k : nat) : R := r * INR (S k) * p (S k) + s * (INR N - INR k) * p k.

(* product rules *)
Lemma dL_mulL N p k : dL (S N) (mulL p) k = p k + mulL (dL N p) k + (INR N - INR k) * 0.
Proof.
  unfold dL, mulL. cbn [sh]. rewrite (S_INR N). destruct k as [|k]; cbn [sh].
  - simpl INR. replace (p 0%nat) with ((r * r + s * s) * p 0%nat) at 3 by (rewrite unit; ring). ring.
  - rewrite !S_INR. replace (p (S k)) with ((r * r + s * s) * p (S k)) at 3 by (rewrite unit; ring). ring.
Qed.
Lemma dL_mulM N p k : dL (S N) (mulM p) k = mulM (dL N p) k.
Proof.
  unfold dL, mulM. cbn [sh]. rewrite (S_INR N). destruct k as [|k]; cbn [sh].
  - simpl INR. ring.
  - rewrite !S_INR. ring.
Qed.
Lemma dL_ext N p q k : (forall i, p i = q i) -> dL N p k = dL N q k.
Proof. intros H. unfold dL. rewrite !H. reflexivity. Qed.
Lemma mulM_ext p q k : (forall i, p i = q i) -> mulM p k = mulM q k.
Proof. intros H. unfold mulM. rewrite H. f_equal. f_equal. destruct k; simpl; auto. Qed.

Lemma dL_cM b : forall k, dL b (cM b) k = 0.
Proof.
  induction b as [|b IH]; intros k.
  - unfold dL. cbn [cM]. destruct k; simpl; ring.
  - cbn [cM]. rewrite dL_mulM. unfold mulM. rewrite IH. destruct k; cbn [sh]; rewrite ?IH; ring.
Qed.
Lemma dL_cL a b : forall k, dL (a + b) (cL a b) k = match a with O => 0 | S a' => INR a * cL a' b k end.
Proof.
  induction a as [|a IH]; intros k; [apply dL_cM|].
  cbn [cL plus]. rewrite dL_mulL. unfold mulL at 1. rewrite IH.
  destruct a as [|a].
  - replace (sh (dL (0 + b) (cL 0 b)) k) with 0 by (destruct k; cbn [sh]; [|rewrite IH]; reflexivity).
    simpl. ring.
  - replace (sh (dL (S a + b) (cL (S a) b)) k) with (INR (S a) * sh (cL a b) k)
      by (destruct k; cbn [sh]; [ring|rewrite IH; reflexivity]).
    rewrite (cL_S a b k). unfold mulL. rewrite (S_INR (S a)). ring.
Qed.

(** Bombieri inner product of degree N *)
Definition ip (N : nat) (p q : nat -> R) : R :=
  sum_f_R0 (fun k => INR (fact k) * INR (fact (N - k)) * p k * q k) N.

Lemma ip_adjoint N q p : (forall k, (N < k)%nat -> q k = 0) -> ip (S N) (mulL q) p = ip N q (dL (S N) p).
Proof.
  intros Hq. unfold ip.
  assert (E1 : sum_f_R0 (fun k => INR (fact k) * INR (fact (S N - k)) * mulL q k * p k) (S N)
     = sum_f_R0 (fun k => INR (fact k) * INR (fact (S N - k)) * (r * sh q k) * p k) (S N)
       + sum_f_R0 (fun k => INR (fact k) * INR (fact (S N - k)) * (s * q k) * p k) (S N)).
  { rewrite <- plus_sum. apply sum_eq. intros. unfold mulL. ring. }
  rewrite E1. rewrite (decomp_sum _ (S N)) by lia. cbn [pred sh].
  rewrite (tech5 (fun k => INR (fact k) * INR (fact (S N - k)) * (s * q k) * p k) N). rewrite (Hq (S N)) by lia.
  replace (INR (fact 0) * INR (fact (S N - 0)) * (r * 0) * p 0%nat) with 0 by ring.
  replace (INR (fact (S N)) * INR (fact (S N - S N)) * (s * 0) * p (S N)) with 0 by ring.
  rewrite Rplus_0_l, Rplus_0_r, <- plus_sum. apply sum_eq. intros k Hk. unfold dL.
  replace (S N - S k)%nat with (N - k)%nat by lia. replace (S N - k)%nat with (S (N - k)) by lia.
  rewrite !fact_simpl, !mult_INR. rewrite (S_INR (N - k)), minus_INR by lia. rewrite (S_INR N). ring.
Qed.

Lemma ip_ext N p q q' : (forall k, q k = q' k) -> ip N p q = ip N p q'.
Proof. intros H. apply sum_eq. intros. rewrite H. reflexivity. Qed.
Lemma ip_scal N p q c : ip N p (fun k => c * q k) = c * ip N p q.
Proof. unfold ip. rewrite scal_sum. apply sum_eq. intros. ring. Qed.
End Rotation.

Lemma ip_sym N p q : ip N p q = ip N q p.
Proof. apply sum_eq. intros. ring. Qed.

(** L and M exchange: reversing coefficients and the sign of s *)
Lemma norm_cM r s : r * r + s * s = 1 -> forall b, ip b (cM r s b) (cM r s b) = INR (fact b).
Proof.
  intros U. assert (EX : forall b k, (k <= b)%nat -> cM r s b k = (-1) ^ k * cL r s b 0 (b - k)).
  { induction b as [|b IH]; intros k H.
    - assert (k = 0)%nat by lia. subst. simpl. ring.
    - cbn [cM cL]. unfold mulM, mulL. destruct k as [|k]; cbn [sh].
      + rewrite IH by lia. rewrite !Nat.sub_0_r. cbn [sh]. rewrite (cL_out r s b 0 (S b)) by lia. simpl. ring.
      + rewrite (IH k) by lia. replace (S b - S k)%nat with (b - k)%nat by lia.
        destruct (Nat.eq_dec k b) as [->|NE].
        * rewrite Nat.sub_diag. rewrite cM_out by lia. cbn [sh]. simpl pow. ring.
        * rewrite IH by lia. replace (b - k)%nat with (S (b - S k)) by lia. cbn [sh]. simpl pow. ring. }
  assert (NL : forall a, ip a (cL r s a 0) (cL r s a 0) = INR (fact a)).
  { induction a as [|a IH]; [unfold ip; simpl; ring|].
    change (ip (S a) (mulL r s (cL r s a 0)) (cL r s (S a) 0) = INR (fact (S a))).
    rewrite ip_adjoint by (intros k Hk; apply cL_out; lia).
    rewrite (ip_ext a _ _ (fun k => INR (S a) * cL r s a 0 k)).
    - rewrite ip_scal, IH. rewrite fact_simpl, mult_INR. reflexivity.
    - intros k. pose proof (dL_cL r s U (S a) 0 k) as E. rewrite Nat.add_0_r in E. exact E. }
  intros b. rewrite <- NL. unfold ip.
  assert (REV : forall f N, sum_f_R0 (fun k => f (N - k)%nat) N = sum_f_R0 f N).
  { intros f N. revert f. induction N as [|N IH]; intros f; [reflexivity|].
    rewrite (decomp_sum _ (S N)) by lia. cbn [pred sum_f_R0]. rewrite Nat.sub_0_r.
    rewrite <- (IH f). rewrite Rplus_comm. f_equal. }
  rewrite <- (REV (fun k => INR (fact k) * INR (fact (b - k)) * cL r s b 0 k * cL r s b 0 k)).
  apply sum_eq. intros k Hk. rewrite EX by lia. replace (b - (b - k))%nat with k by lia.
  replace (INR (fact k) * INR (fact (b - k)) * ((-1) ^ k * cL r s b 0 (b - k)) * ((-1) ^ k * cL r s b 0 (b - k)))
    with (((-1) * (-1)) ^ k * (INR (fact (b - k)) * INR (fact k) * cL r s b 0 (b - k) * cL r s b 0 (b - k)))
    by (rewrite Rpow_mult_distr; ring).
  replace ((-1) * (-1)) with 1 by ring. rewrite pow1. ring.
Qed.
Lemma norm_cL r s : r * r + s * s = 1 -> forall a b, ip (a + b) (cL r s a b) (cL r s a b) = INR (fact a) * INR (fact b).
Proof.
  intros U. induction a as [|a IH]; intros b.
  - change (ip b (cM r s b) (cM r s b) = INR (fact 0) * INR (fact b)). rewrite norm_cM by exact U. simpl. ring.
  - change (ip (S (a + b)) (mulL r s (cL r s a b)) (cL r s (S a) b) = INR (fact (S a)) * INR (fact b)).
    rewrite ip_adjoint by (intros k Hk; apply cL_out; lia).
    rewrite (ip_ext _ _ _ (fun k => INR (S a) * cL r s a b k)).
    + rewrite ip_scal, IH, fact_simpl, mult_INR. ring.
    + intros k. apply (dL_cL r s U (S a) b k).
Qed.

Lemma sum_term_le f N k : (forall i, 0 <= f i) -> (k <= N)%nat -> f k <= sum_f_R0 f N.
Proof.
  intros Hf. induction N as [|N IH]; intros H.
  - assert (k = 0)%nat by lia. subst. simpl. lra.
  - cbn [sum_f_R0]. pose proof (Hf (S N)). destruct (Nat.eq_dec k (S N)) as [->|NE].
    + assert (0 <= sum_f_R0 f N) by (apply cond_pos_sum; exact Hf). lra.
    + pose proof (IH ltac:(lia)). lra.
Qed.

Lemma F_bound a b r : -1 <= r <= 1 -> Rabs (F a b r) <= 1.
Proof.
  intros H. set (s := sqrt (1 - r * r)).
  assert (U : r * r + s * s = 1). { unfold s. rewrite sqrt_sqrt by nra. ring. }
  pose proof (norm_cL r s U a b) as N.
  assert (T : INR (fact a) * INR (fact b) * (F a b r * F a b r) <= INR (fact a) * INR (fact b)).
  { rewrite <- N at 2. unfold ip.
    assert (E : INR (fact a) * INR (fact b) * (F a b r * F a b r) =
      (fun k => INR (fact k) * INR (fact (a + b - k)) * cL r s a b k * cL r s a b k) a).
    { cbv beta. replace (a + b - a)%nat with b by lia. rewrite (diag_F r s U (a + b) a b) by lia. ring. }
    rewrite E. apply (sum_term_le (fun k => INR (fact k) * INR (fact (a + b - k)) * cL r s a b k * cL r s a b k)); [|lia]. intros i. cbv beta.
    replace (INR (fact i) * INR (fact (a + b - i)) * cL r s a b i * cL r s a b i)
      with (INR (fact i) * INR (fact (a + b - i)) * (cL r s a b i * cL r s a b i)) by ring.
    apply Rmult_le_pos; [apply Rmult_le_pos; apply pos_INR|]. apply Rle_0_sqr. }
  assert (P : 0 < INR (fact a) * INR (fact b)) by (apply Rmult_lt_0_compat; apply INR_fact_lt_0).
  assert (Q : F a b r * F a b r <= 1).
  { apply Rmult_le_reg_l with (1 := P). lra. }
  apply Rabs_le. split; nra.
Qed.

Lemma F_parity a b r : F a b (- r) = (-1) ^ (a + b) * F a b r.
Proof.
  unfold F. rewrite scal_sum. apply sum_eq. intros k Hk. unfold term.
  assert (Ha : (2 * k <= a + b)%nat) by lia.
  replace (- r) with ((-1) * r) by ring. rewrite Rpow_mult_distr.
  replace ((-1) ^ (a + b)) with ((-1) ^ (a + b - 2 * k)).
  - ring.
  - replace (a + b)%nat with ((a + b - 2 * k) + 2 * k)%nat at 2 by lia. rewrite pow_add, pow_1_even. ring.
Qed.

Lemma R_bound m n r : valid m n -> -1 <= r <= 1 -> Rabs (R_nm m n r) <= 1.
Proof. intros V H. rewrite R_nm_F by exact V. apply F_bound, H. Qed.
Lemma R_parity m n r : valid m n -> R_nm m n (- r) = (-1) ^ Z.to_nat n * R_nm m n r.
Proof.
  intros V. rewrite !R_nm_F by exact V. rewrite F_parity. destruct (oab m n V) as (_ & H & _).
  replace (Z.to_nat n) with (oa m n + ob m n)%nat by lia. reflexivity.
Qed.
