(** Placement of the radial nodes in binary64 arithmetic: np.arange(h, 1.0, h) with h = 1.0/n. *)
From Coq Require Import Reals Lra Psatz.
From Flocq Require Import Core Relative.
From Verif Require Import Py SpecIndex SpecRadial M_Sum SpecSum M_Polar L_Polar M_Psf SpecPsf L_Psf L_PsfKernel.
Local Open Scope R_scope.

Local Instance prec53 : Prec_gt_0 53.
Proof. reflexivity. Qed.

(** 2^-54 as a number for the linear arithmetic *)
Definition eps : R := / 18014398509481984.
Lemma bpow_m54 : bpow radix2 (-54) = eps. Proof. reflexivity. Qed.
Lemma bpow_m53 : bpow radix2 (-53) = 2 * eps. Proof. unfold eps. cbn. lra. Qed.

Lemma b64_err_lt x e : (-1000 <= e)%Z -> 0 <= x < bpow radix2 e -> Rabs (b64 x - x) <= bpow radix2 (e - 54).
Proof.
  intros He [H0 H]. destruct (Req_dec x 0) as [->|N].
  - rewrite b64_0, Rminus_0_r, Rabs_R0. apply bpow_ge_0.
  - pose proof (error_le_half_ulp radix2 (FLT_exp (-1074) 53) (fun z => negb (Z.even z)) x) as E. fold ZnearestE in E.
    unfold b64. eapply Rle_trans; [apply E|]. rewrite ulp_neq_0 by exact N. unfold cexp, FLT_exp.
    assert (M : (mag radix2 x <= e)%Z) by (apply mag_le_bpow; [exact N|rewrite Rabs_pos_eq; lra]).
    replace (/ 2) with (bpow radix2 (-1)) by reflexivity. rewrite <- bpow_plus. apply bpow_le. lia.
Qed.
Lemma b64_err1 x : 0 <= x < 1 -> x - eps <= b64 x <= x + eps.
Proof.
  intros H. assert (E : Rabs (b64 x - x) <= bpow radix2 (0 - 54)) by (apply b64_err_lt; [lia|exact H]).
  change (0 - 54)%Z with (-54)%Z in E. rewrite bpow_m54 in E. apply Rabs_le_inv in E. lra.
Qed.
Lemma b64_err2 x : 0 <= x < 2 -> x - 2 * eps <= b64 x <= x + 2 * eps.
Proof.
  intros H. assert (E : Rabs (b64 x - x) <= bpow radix2 (1 - 54)) by (apply b64_err_lt; [lia|exact H]).
  change (1 - 54)%Z with (-53)%Z in E. rewrite bpow_m53 in E. apply Rabs_le_inv in E. lra.
Qed.

Section Nodes.
Variable n : Z.
Hypothesis N2 : (2 <= n <= 2 ^ 50)%Z.
Let h := b64 (1 / IZR n).
Let nr : R := IZR n.

Lemma nr_pos : 2 <= nr <= 1125899906842624.
Proof. unfold nr. split; apply IZR_le; [lia|]. change (2 ^ 50)%Z with 1125899906842624%Z in N2. lia. Qed.
Lemma h_rel : 1 - 2 * eps <= nr * h <= 1 + 2 * eps.
Proof.
  assert (P := nr_pos). assert (B : bpow radix2 (-1074 + 53 - 1) <= Rabs (1 / nr)).
  { rewrite Rabs_pos_eq by (apply Rlt_le, Rdiv_lt_0_compat; lra). apply Rle_trans with (bpow radix2 (-50)); [apply bpow_le; lia|].
    replace (bpow radix2 (-50)) with (1 / 1125899906842624) by (cbn; lra). unfold Rdiv. rewrite !Rmult_1_l. apply Rinv_le_contravar; lra. }
  assert (E := relative_error_N_FLT radix2 (-1074) 53 eq_refl (fun z => negb (Z.even z)) (1 / nr) B). fold ZnearestE in E.
  change (round radix2 (FLT_exp (-1074) 53) ZnearestE (1 / nr)) with h in E.
  change (- (53) + 1)%Z with (-52)%Z in E. replace (/ 2 * bpow radix2 (-52)) with (2 * eps) in E by (unfold eps; cbn; lra).
  rewrite (Rabs_pos_eq (1 / nr)) in E by (apply Rlt_le, Rdiv_lt_0_compat; lra). apply Rabs_le_inv in E.
  assert (K : nr * (1 / nr) = 1) by (field; lra). destruct E as [E1 E2].
  assert (F1 := Rmult_le_compat_l nr _ _ ltac:(lra) E1). assert (F2 := Rmult_le_compat_l nr _ _ ltac:(lra) E2).
  replace (nr * (- (2 * eps * (1 / nr)))) with (- (2 * eps) * (nr * (1 / nr))) in F1 by ring.
  replace (nr * (2 * eps * (1 / nr))) with (2 * eps * (nr * (1 / nr))) in F2 by ring. rewrite Rmult_minus_distr_l, K in F1, F2. lra.
Qed.
Lemma h_range : 8 * eps <= h <= / 2.
Proof.
  assert (P := nr_pos). assert (R := h_rel). split.
  - assert (0 < h) by (unfold eps in R; nra). assert (1125899906842624 * h >= 1 - 2 * eps) by nra. unfold eps in *. lra.
  - unfold h. replace (/ 2) with (b64 (/ 2)).
    + apply b64_mono. fold nr. unfold Rdiv. rewrite Rmult_1_l. apply Rinv_le_contravar; lra.
    + apply b64_id. replace (/ 2) with (IZR 1 / IZR (2 ^ 1)) by (cbn; lra). apply F64_ratio; lia.
Qed.
Lemma delta_h : b64 (b64 (h + h) - h) = h.
Proof.
  replace (h + h) with (2 * h) by ring. rewrite (b64_id (2 * h)) by (apply F64_double, b64_F). replace (2 * h - h) with h by ring. apply b64_id, b64_F.
Qed.
Let s := b64 (1 - h).
Let q := b64 (s / h).
Lemma s_err : 1 - h - eps <= s <= 1 - h + eps.
Proof. assert (H := h_range). apply b64_err1. unfold eps in *. lra. Qed.
Lemma q_upper : q <= nr.
Proof.
  assert (P := nr_pos). assert (H := h_range). assert (S := s_err). assert (R := h_rel).
  replace nr with (b64 nr) by (apply b64_IZR; assert (2 ^ 50 <= 2 ^ 53)%Z by (apply Z.pow_le_mono_r; lia); lia).
  apply b64_mono. apply (Rmult_le_reg_r h); [unfold eps in H; lra|]. unfold Rdiv. rewrite Rmult_assoc, Rinv_l, Rmult_1_r by (unfold eps in H; lra). unfold eps in *. lra.
Qed.
Lemma q_lower : nr - 3 / 2 <= q.
Proof.
  assert (P := nr_pos). assert (H := h_range). assert (S := s_err). assert (R := h_rel).
  replace (nr - 3 / 2) with (b64 (nr - 3 / 2)).
  - apply b64_mono. apply (Rmult_le_reg_r h); [unfold eps in H; lra|]. unfold Rdiv at 2. rewrite Rmult_assoc, Rinv_l, Rmult_1_r by (unfold eps in H; lra).
    unfold eps in *. lra.
  - apply b64_id. replace (nr - 3 / 2) with (IZR (2 * n - 3) / IZR (2 ^ 1)) by (rewrite minus_IZR, mult_IZR; fold nr; cbn; lra).
    apply F64_ratio; [|lia]. assert (2 ^ 53 = 8 * 2 ^ 50)%Z by reflexivity. lia.
Qed.
Definition count64 : Z := Zceil q.
Lemma count_cases : (count64 = n - 1)%Z \/ (count64 = n /\ nr - 1 < q).
Proof.
  assert (U := q_upper). assert (L := q_lower). unfold count64. destruct (Rle_or_lt q (nr - 1)) as [B|B]; [left|right].
  - apply Zceil_imp. rewrite !minus_IZR. fold nr. lra.
  - split; [|exact B]. apply Zceil_imp. rewrite minus_IZR. fold nr. lra.
Qed.
Lemma q_big : nr - 1 < q -> nr * h <= 1 + 3 / 4 * eps.
Proof.
  intros B. assert (P := nr_pos). assert (H := h_range). assert (S := s_err). assert (R := h_rel).
  assert (HP : 0 < h) by (unfold eps in H; lra).
  assert (P1 : 1 <= IZR (n - 1)) by (apply IZR_le; lia).
  destruct (mag radix2 (IZR (n - 1))) as [e He]. assert (He' := He ltac:(lra)). rewrite Rabs_pos_eq in He' by lra.
  assert (E1 : (1 <= e)%Z). { apply Z.lt_pred_le. change (Z.pred 1) with 0%Z. apply (lt_bpow radix2). change (bpow radix2 0) with 1. lra. }
  destruct (Rlt_or_le (s / h) (IZR (n - 1) + bpow radix2 (e - 54))) as [C|C].
  - exfalso. assert (q <= IZR (n - 1)).
    { apply (b64_below _ _ e); [|lia|exact He'|exact C]. apply F64_IZR. assert (2 ^ 50 <= 2 ^ 53)%Z by (apply Z.pow_le_mono_r; lia). lia. }
    rewrite minus_IZR in H0. fold nr in H0. lra.
  - assert (G : bpow radix2 (e - 54) = bpow radix2 e * eps) by (rewrite <- bpow_m54, <- bpow_plus; f_equal; lia).
    rewrite G in C. assert (C2 : IZR (n - 1) * (1 + eps) <= s / h) by (destruct He' as [_ He']; unfold eps in *; lra).
    apply (Rmult_le_compat_r h) in C2; [|lra]. unfold Rdiv in C2. rewrite (Rmult_assoc s), Rinv_l, Rmult_1_r in C2 by lra.
    rewrite minus_IZR in C2. fold nr in C2. unfold eps in *. nra.
Qed.
Definition node64 (i : nat) : R := b64 (h + b64 (INR i * h)).
Lemma nodes64_eq : r_nodes b64 h = map node64 (seq 0 (Z.to_nat count64)).
Proof. unfold r_nodes. rewrite delta_h. reflexivity. Qed.
Lemma node_range i : (i < Z.to_nat count64)%nat -> 0 <= node64 i <= 1 /\ (INR i + 1) * h - 4 * eps <= node64 i <= (INR i + 1) * h + 4 * eps.
Proof.
  intros Hi. assert (P := nr_pos). assert (H := h_range). assert (R := h_rel). assert (HP : 0 < h) by (unfold eps in H; lra).
  assert (I0 : 0 <= INR i) by apply pos_INR.
  assert (IB : INR i <= nr - 2 \/ (INR i <= nr - 1 /\ nr - 1 < q)).
  { rewrite INR_IZR_INZ. destruct count_cases as [C|[C B]]; [left|right; split; [|exact B]]; unfold nr; rewrite <- minus_IZR; apply IZR_le; lia. }
  assert (Y0 : 0 <= INR i * h) by (apply Rmult_le_pos; lra).
  assert (Y1 : INR i * h < 1). { destruct IB as [IB|[IB _]]; apply Rle_lt_trans with ((nr - 1) * h); try (unfold eps in *; nra). }
  assert (E := b64_err1 (INR i * h) (conj Y0 Y1)). assert (B0 : 0 <= b64 (INR i * h)) by (rewrite <- b64_0; apply b64_mono, Y0).
  assert (UP : h + b64 (INR i * h) < 2) by (unfold eps in *; lra).
  assert (E2 : node64 i - (h + b64 (INR i * h)) <= 2 * eps /\ - (2 * eps) <= node64 i - (h + b64 (INR i * h))).
  { unfold node64. assert (E2 := b64_err2 (h + b64 (INR i * h)) ltac:(lra)). lra. }
  split; [split|].
  - unfold node64. rewrite <- b64_0. apply b64_mono. lra.
  - unfold node64. apply (b64_below 1 _ 1).
    + replace 1 with (IZR 1) by reflexivity. apply F64_IZR. cbn. lia.
    + lia.
    + cbn. lra.
    + change (1 - 54)%Z with (-53)%Z. rewrite bpow_m53. destruct IB as [IB|[IB B]].
      * assert (INR i * h <= (nr - 2) * h) by (apply Rmult_le_compat_r; lra). unfold eps in *. lra.
      * assert (Q := q_big B). assert (INR i * h <= (nr - 1) * h) by (apply Rmult_le_compat_r; lra). unfold eps in *. lra.
  - unfold eps in *. lra.
Qed.
Lemma nodes64_good : good b64 n.
Proof.
  unfold good. split; [lia|]. fold h. rewrite nodes64_eq. split.
  - rewrite Forall_map. apply Forall_forall. intros i Hi. apply in_seq in Hi. apply node_range. lia.
  - intros E. apply (f_equal (@length R)) in E. rewrite map_length, seq_length in E. cbn in E. destruct count_cases as [C|[C _]]; lia.
Qed.

(** total radial weight *)
Lemma sum_seq c : forall a, rsum (seq a c) (fun i => INR i + 1) = INR c * (INR a + 1) + INR c * (INR c - 1) / 2.
Proof. induction c as [|c IH]; intros a; [cbn; field|]. cbn [seq]. rewrite rsum_cons, IH, !S_INR. field. Qed.
Lemma sum_nodes : let c := IZR count64 in
  h * (h * (c * (c + 1) / 2) - 4 * eps * c + / 2) <= trapezoid h (r_nodes b64 h) (fun p => p) <= h * (h * (c * (c + 1) / 2) + 4 * eps * c + / 2).
Proof.
  cbv zeta. assert (H := h_range). assert (HP : 0 < h) by (unfold eps in H; lra). assert (C0 : (0 <= count64)%Z) by (destruct count_cases as [C|[C _]]; lia).
  assert (CI : INR (Z.to_nat count64) = IZR count64) by (rewrite INR_IZR_INZ, Z2Nat.id by exact C0; reflexivity).
  unfold trapezoid. rewrite nodes64_eq, rsum_map.
  assert (A : rsum (seq 0 (Z.to_nat count64)) node64 <= rsum (seq 0 (Z.to_nat count64)) (fun i => h * (INR i + 1) + 4 * eps)).
  { apply rsum_le. intros i Hi. apply in_seq in Hi. assert (G := proj2 (node_range i ltac:(lia))). lra. }
  assert (B : rsum (seq 0 (Z.to_nat count64)) (fun i => h * (INR i + 1) + - (4 * eps)) <= rsum (seq 0 (Z.to_nat count64)) node64).
  { apply rsum_le. intros i Hi. apply in_seq in Hi. assert (G := proj2 (node_range i ltac:(lia))). lra. }
  rewrite rsum_plus, rsum_scal, sum_seq, rsum_const, seq_length, CI in A, B. change (INR 0) with 0 in A, B.
  set (S0 := rsum (seq 0 (Z.to_nat count64)) node64) in *. change (rsum (seq 0 (Z.to_nat count64)) (fun x => node64 x)) with S0.
  split; (apply Rmult_le_compat_l; [lra|]); lra.
Qed.
Lemma radial_weight64 : trapezoid h (r_nodes b64 h) (fun p => p) <= / 2 + / nr + 16 * eps.
Proof.
  assert (S := proj2 sum_nodes). assert (P := nr_pos). assert (R := h_rel). assert (H := h_range). eapply Rle_trans; [exact S|].
  assert (HP : 0 < h) by (unfold eps in H; lra).
  assert (CB : 1 <= IZR count64 <= nr) by (destruct count_cases as [C|[C _]]; unfold nr; split; apply IZR_le; lia). set (c := IZR count64) in *.
  assert (X : h * c <= 1 + 2 * eps) by nra.
  assert (X0 : 0 <= h * c) by nra. assert (Y : h <= / nr * (1 + 2 * eps)).
  { apply (Rmult_le_reg_l nr); [lra|]. rewrite <- Rmult_assoc, Rinv_r, Rmult_1_l by lra. lra. }
  assert (I2 : / nr <= / 2) by (apply Rinv_le_contravar; lra).
  replace (h * (h * (c * (c + 1) / 2) + 4 * eps * c + / 2)) with ((h * c) * (h * c) / 2 + h * (h * c) / 2 + 4 * eps * (h * c) + h / 2) by field.
  assert (X2 : (h * c) * (h * c) <= (1 + 2 * eps) * (1 + 2 * eps)) by (apply Rmult_le_compat; lra).
  assert (X3 : h * (h * c) <= (/ nr * (1 + 2 * eps)) * (1 + 2 * eps)) by (apply Rmult_le_compat; lra).
  unfold eps in *. lra.
Qed.
Lemma radial_weight64_extra : count64 = n -> / 2 + / nr - 16 * eps <= trapezoid h (r_nodes b64 h) (fun p => p).
Proof.
  intros C. assert (S := proj1 sum_nodes). assert (P := nr_pos). assert (R := h_rel). assert (H := h_range). eapply Rle_trans; [|exact S]. rewrite C. fold nr.
  assert (HP : 0 < h) by (unfold eps in H; lra).
  assert (Y : / nr * (1 - 2 * eps) <= h).
  { apply (Rmult_le_reg_l nr); [lra|]. rewrite <- Rmult_assoc, Rinv_r, Rmult_1_l by lra. lra. }
  assert (I2 : 0 < / nr <= / 2) by (split; [apply Rinv_0_lt_compat; lra|apply Rinv_le_contravar; lra]).
  replace (h * (h * (nr * (nr + 1) / 2) - 4 * eps * nr + / 2)) with ((nr * h) * (nr * h) / 2 + h * (nr * h) / 2 - 4 * eps * (nr * h) + h / 2) by field.
  assert (X2 : (1 - 2 * eps) * (1 - 2 * eps) <= (nr * h) * (nr * h)) by (apply Rmult_le_compat; unfold eps in *; lra).
  assert (X3 : (/ nr * (1 - 2 * eps)) * (1 - 2 * eps) <= h * (nr * h)) by (apply Rmult_le_compat; unfold eps in *; try lra; apply Rmult_le_pos; lra).
  unfold eps in *. lra.
Qed.
End Nodes.
