(** The convolution in binary64: error bounds. *)
From Coq Require Import Reals Lra Lia Permutation.
From Flocq Require Import Core Relative Plus_error.
From Verif Require Import Py M_Radial M_Coeffs M_Sum M_Psf SpecPsf L_Psf L_PsfKernel L_Phases M_Numba M_Polar L_Polar L_Float SpecFloat SpecFloatPsf L_FPsf1 M_Img SpecImg L_Img M_FloatImg.
Import ListNotations.
Local Open Scope R_scope.

Definition eta : R := bpow radix2 (-1075).
Lemma eta_pos : 0 < eta. Proof. apply bpow_gt_0. Qed.
Lemma u_ro_u : u_ro radix2 53 = u.
Proof. unfold u_ro. rewrite u_val. replace (/ 2) with (bpow radix2 (-1)) by reflexivity. rewrite <- bpow_plus. reflexivity. Qed.
Lemma b64_plus a b : F64 a -> F64 b -> Rabs (b64 (a + b) - (a + b)) <= u * Rabs (a + b).
Proof.
  intros Fa Fb. pose proof u_pos as U.
  destruct (@FLT_plus_error_N_ex radix2 (-1074) 53 L_Polar.prec53 (fun z => negb (Z.even z)) a b Fa Fb) as (e & He & E). fold ZnearestE in E. unfold b64. rewrite E.
  replace ((a + b) * (1 + e) - (a + b)) with (e * (a + b)) by ring. rewrite Rabs_mult. apply Rmult_le_compat_r; [apply Rabs_pos|]. eapply Rle_trans; [exact He|]. rewrite u_ro_u.
  apply Rmult_le_reg_r with (1 + u); [lra|]. unfold Rdiv. rewrite Rmult_assoc, Rinv_l by lra. assert (0 <= u * u) by (apply Rmult_le_pos; lra). lra.
Qed.
Lemma b64_sharp x : Rabs (b64 x - x) <= u * Rabs x + eta.
Proof.
  destruct (error_N_FLT radix2 (-1074) 53 ltac:(reflexivity) (fun z => negb (Z.even z)) x) as (e & t & He & Ht & _ & E).
  fold ZnearestE in E. unfold b64. rewrite E. replace (x * (1 + e) + t - x) with (e * x + t) by ring.
  eapply Rle_trans; [apply Rabs_triang|]. rewrite Rabs_mult. apply Rplus_le_compat.
  - apply Rmult_le_compat_r; [apply Rabs_pos|]. eapply Rle_trans; [exact He|]. rewrite <- u_ro_u. unfold u_ro. apply Rle_refl.
  - eapply Rle_trans; [exact Ht|]. unfold eta. replace (/ 2) with (bpow radix2 (-1)) by reflexivity. rewrite <- bpow_plus. apply Rle_refl.
Qed.

Lemma br_sharp l s : bracketing l s -> Forall F64 l -> F64 s /\ Rabs (s - suml l) <= ((1 + u) ^ (length l - 1) - 1) * suml (map Rabs l).
Proof.
  pose proof u_pos as U. induction 1 as [x|l a l' b Ha IHa Hb IHb]; intros FL.
  - split; [inversion FL; assumption|]. unfold suml. cbn [map fold_right length Nat.sub pow]. replace (x - (x + 0)) with 0 by ring. rewrite Rabs_R0. lra.
  - apply Forall_app in FL. destruct FL as [FL FL']. destruct (IHa FL) as [Fa IA]. destruct (IHb FL') as [Fb IB]. split; [apply b64_F|].
    rewrite map_app, !suml_app, app_length. pose proof (br_len _ _ Ha) as La. pose proof (br_len _ _ Hb) as Lb.
    set (A := suml (map Rabs l)) in *. set (B := suml (map Rabs l')) in *.
    assert (A0 : 0 <= A) by apply suml_abs_pos. assert (B0 : 0 <= B) by apply suml_abs_pos.
    set (n := length l) in *. set (n' := length l') in *.
    set (G := (1 + u) ^ (n + n' - 2)). assert (G1 : 1 <= G) by apply g_ge1.
    assert (EG : (1 + u) ^ (n + n' - 1) = (1 + u) * G). { unfold G. replace (n + n' - 1)%nat with (S (n + n' - 2)) by lia. reflexivity. }
    assert (Ea : Rabs (a - suml l) <= (G - 1) * A).
    { eapply Rle_trans; [exact IA|]. apply Rmult_le_compat_r; [lra|]. pose proof (g_mono (n - 1) (n + n' - 2) ltac:(lia)). unfold G. lra. }
    assert (Eb : Rabs (b - suml l') <= (G - 1) * B).
    { eapply Rle_trans; [exact IB|]. apply Rmult_le_compat_r; [lra|]. pose proof (g_mono (n' - 1) (n + n' - 2) ltac:(lia)). unfold G. lra. }
    change (near64 (a + b)) with (b64 (a + b)). pose proof (b64_plus a b Fa Fb) as P.
    assert (M : Rabs (suml l + suml l') <= A + B).
    { eapply Rle_trans; [apply Rabs_triang|]. pose proof (suml_le_abs l). pose proof (suml_le_abs l'). unfold A, B. lra. }
    assert (D : Rabs (a + b - (suml l + suml l')) <= (G - 1) * (A + B)).
    { replace (a + b - (suml l + suml l')) with ((a - suml l) + (b - suml l')) by ring. eapply Rle_trans; [apply Rabs_triang|]. lra. }
    assert (AB : Rabs (a + b) <= G * (A + B)).
    { replace (a + b) with ((suml l + suml l') + (a + b - (suml l + suml l'))) by ring. eapply Rle_trans; [apply Rabs_triang|]. lra. }
    replace (b64 (a + b) - (suml l + suml l')) with ((b64 (a + b) - (a + b)) + (a + b - (suml l + suml l'))) by ring. eapply Rle_trans; [apply Rabs_triang|]. rewrite EG.
    assert (u * Rabs (a + b) <= u * (G * (A + B))) by (apply Rmult_le_compat_l; lra). lra.
Qed.
Lemma br_lin l s : bracketing l s -> Forall F64 l -> INR (length l) * u <= 1 / 2 -> F64 s /\ Rabs (s - suml l) <= 2 * INR (length l) * u * suml (map Rabs l).
Proof.
  intros B FL HN. destruct (br_sharp l s B FL) as [F E]. split; [exact F|]. eapply Rle_trans; [exact E|]. apply Rmult_le_compat_r; [apply suml_abs_pos|].
  eapply Rle_trans; [|apply (g_lin _ HN)]. pose proof (g_mono (length l - 1) (length l) ltac:(lia)). lra.
Qed.
Lemma npsum_lin npsum l : sums_somehow npsum -> Forall F64 l -> INR (length l) * u <= 1 / 2 -> Rabs (npsum l - suml l) <= 2 * INR (length l) * u * suml (map Rabs l).
Proof.
  intros (E & H) FL HN. destruct l as [|x l].
  - rewrite E. cbn [suml fold_right length INR map]. rewrite Rminus_0_r, Rabs_R0. lra.
  - destruct (H (x :: l) ltac:(discriminate)) as (l' & P & B). rewrite (suml_perm _ _ P), (Permutation_length P), (suml_perm _ _ (Permutation_map Rabs P)). rewrite (Permutation_length P) in HN.
    apply br_lin; [exact B| |exact HN]. rewrite Forall_forall in *. intros y Hy. apply FL, (Permutation_in y (Permutation_sym P)), Hy.
Qed.
Lemma br_nonneg l s : bracketing l s -> Forall (fun x => 0 <= x) l -> 0 <= s.
Proof.
  induction 1 as [x|l a l' b Ha IHa Hb IHb]; intros FL; [inversion FL; assumption|]. apply Forall_app in FL. destruct FL as [FL FL'].
  change (near64 (a + b)) with (b64 (a + b)). assert (0 <= a + b) by (specialize (IHa FL); specialize (IHb FL'); lra).
  replace 0 with (b64 0) by (apply b64_id, generic_format_0). apply round_le; [apply FLT_exp_valid; reflexivity|apply valid_rnd_N|assumption].
Qed.
Lemma b64_nonneg x : 0 <= x -> 0 <= b64 x.
Proof. intros H. replace 0 with (b64 0) by (apply b64_id, generic_format_0). apply round_le; [apply FLT_exp_valid; reflexivity|apply valid_rnd_N|assumption]. Qed.
(** an accumulating loop is a bracketing *)
Lemma fold_br l : forall pre acc, bracketing pre acc -> bracketing (pre ++ l) (fold_left (fun a x => b64 (a + x)) l acc).
Proof.
  induction l as [|x l IH]; intros pre acc B; cbn [fold_left]; [rewrite app_nil_r; exact B|].
  replace (pre ++ x :: l) with ((pre ++ [x]) ++ l) by (rewrite <- app_assoc; reflexivity). apply IH. apply br_add; [exact B|apply br_one].
Qed.
Lemma fold0_br x l : F64 x -> bracketing (x :: l) (fold_left (fun a y => b64 (a + y)) (x :: l) 0).
Proof. intros F. cbn [fold_left]. rewrite Rplus_0_l, (b64_id x F). apply (fold_br l [x] x), br_one. Qed.
Lemma fold_sums : sums_somehow (fun l => match l with [] => 0 | x :: tl => fold_left (fun a y => b64 (a + y)) tl x end).
Proof. split; [reflexivity|]. intros [|x l] N; [congruence|]. exists (x :: l). split; [apply Permutation_refl|]. apply (fold_br l [x] x), br_one. Qed.

Lemma fold_map {A} (f : A -> R) l : forall acc, fold_left (fun a x => b64 (a + b64 (f x))) l acc = fold_left (fun a y => b64 (a + y)) (map (fun x => b64 (f x)) l) acc.
Proof. induction l as [|x l IH]; intros acc; cbn [fold_left map]; [reflexivity|]. apply IH. Qed.
Lemma suml_rsum {A} (f : A -> R) l : suml (map f l) = rsum l f.
Proof. reflexivity. Qed.
(** the accumulation of rounded products *)
Lemma acc_close {A} (f : A -> R) l N : INR (length l) <= N -> 1 <= N -> 2 * N * u <= 1 / 1000 ->
  Rabs (fold_left (fun a x => b64 (a + b64 (f x))) l 0 - rsum l f) <= (3 * N + 1) * u * rsum l (fun x => Rabs (f x)) + 2 * N * eta.
Proof.
  intros LN N1 NU. pose proof u_pos as U. pose proof u_small as US. pose proof eta_pos as E0. rewrite fold_map. set (q := map (fun x => b64 (f x)) l). set (T := rsum l (fun x => Rabs (f x))).
  assert (T0 : 0 <= T). { unfold T. rewrite <- suml_rsum, <- (map_map f Rabs). apply suml_abs_pos. }
  assert (LQ : length q = length l) by (unfold q; apply map_length).
  assert (L0 : 0 <= INR (length l)) by apply pos_INR.
  assert (D : Rabs (suml q - rsum l f) <= u * T + INR (length l) * eta).
  { unfold q, T. clear. rewrite suml_rsum. induction l as [|x l IH]; [cbn; rewrite Rminus_0_r, Rabs_R0; lra|]. rewrite !rsum_cons. cbn [length]. rewrite S_INR.
    replace (b64 (f x) + rsum l (fun x => b64 (f x)) - (f x + rsum l f)) with ((b64 (f x) - f x) + (rsum l (fun x => b64 (f x)) - rsum l f)) by ring.
    eapply Rle_trans; [apply Rabs_triang|]. pose proof (b64_sharp (f x)). lra. }
  assert (AQ : suml (map Rabs q) <= (1 + u) * T + INR (length l) * eta).
  { unfold q, T. clear. rewrite map_map, suml_rsum. induction l as [|x l IH]; [cbn; lra|]. rewrite !rsum_cons. cbn [length]. rewrite S_INR.
    pose proof (b64_sharp (f x)). assert (Rabs (b64 (f x)) <= Rabs (f x) + (u * Rabs (f x) + eta)).
    { replace (b64 (f x)) with (f x + (b64 (f x) - f x)) by ring. eapply Rle_trans; [apply Rabs_triang|]. replace (f x + (b64 (f x) - f x)) with (b64 (f x)) by ring. lra. }
    lra. }
  assert (NE : INR (length l) * eta <= N * eta) by (apply Rmult_le_compat_r; lra).
  assert (NU1 : INR (length l) * u <= N * u) by (apply Rmult_le_compat_r; lra).
  assert (FB : Rabs (fold_left (fun a y => b64 (a + y)) q 0 - suml q) <= 2 * N * u * suml (map Rabs q)).
  { assert (FQ : Forall F64 q). { apply Forall_forall. intros y Hy. apply in_map_iff in Hy. destruct Hy as (z & <- & _). apply b64_F. }
    clearbody q. destruct q as [|x q']; [cbn; rewrite Rminus_0_r, Rabs_R0; lra|].
    destruct (br_lin _ _ (fold0_br x q' ltac:(inversion FQ; assumption)) FQ) as [_ E]; [rewrite LQ; lra|]. eapply Rle_trans; [exact E|]. apply Rmult_le_compat_r; [apply suml_abs_pos|]. rewrite LQ. lra. }
  replace (fold_left _ q 0 - rsum l f) with ((fold_left (fun a y => b64 (a + y)) q 0 - suml q) + (suml q - rsum l f)) by ring.
  eapply Rle_trans; [apply Rabs_triang|].
  assert (X : 2 * N * u * suml (map Rabs q) <= 2 * N * u * ((1 + u) * T + N * eta)). { apply Rmult_le_compat_l; [apply Rmult_le_pos; lra|]. lra. }
  assert (NT : 0 <= N * u * T) by (apply Rmult_le_pos; [apply Rmult_le_pos; lra|exact T0]).
  assert (NUU : N * u * T * u <= N * u * T * (1 / 1000)) by (apply Rmult_le_compat_l; lra).
  assert (X2 : 2 * N * u * (N * eta) <= 1 / 1000 * (N * eta)). { apply Rmult_le_compat_r; [apply Rmult_le_pos; lra|exact NU]. }
  assert (0 <= N * eta) by (apply Rmult_le_pos; lra).
  replace (2 * N * u * ((1 + u) * T + N * eta)) with (2 * (N * u * T) + 2 * (N * u * T * u) + 2 * N * u * (N * eta)) in X by ring.
  replace ((3 * N + 1) * u * T + 2 * N * eta) with (3 * (N * u * T) + u * T + 2 * (N * eta)) by ring. lra.
Qed.

Lemma filter_len {A} (p : A -> bool) l : (length (filter p l) <= length l)%nat.
Proof. induction l as [|x l IH]; cbn [filter length]; [lia|]. destruct (p x); cbn [length]; lia. Qed.
Lemma coords_len kh kw : (0 <= kh)%Z -> (0 <= kw)%Z -> INR (length (coords kh kw)) = IZR (kh * kw).
Proof.
  intros H W. unfold coords. assert (G : forall n s, length (flat_map (fun a : Z => map (fun b : Z => (a, b)) (zrange 0 (Z.to_nat kw))) (zrange s n)) = (n * Z.to_nat kw)%nat).
  { induction n as [|n IH]; intros s; cbn [zrange flat_map]; [reflexivity|]. rewrite app_length, map_length, zrange_len, IH. lia. }
  rewrite G, mult_INR, !INR_IZR_INZ, !Z2Nat.id, mult_IZR by assumption. reflexivity.
Qed.
Lemma sum2_rsum_abs kh kw f : 0 <= sum2 kh kw (fun a b => Rabs (f a b)).
Proof. apply sum2_pos. intros. apply Rabs_pos. Qed.

Lemma rsum_gap {A} (eps : R) (f : A -> R) l : 0 <= eps -> (forall x, In x l -> f x = 0 \/ eps < f x) -> rsum l f = 0 \/ eps < rsum l f.
Proof.
  intros E0. induction l as [|x l IH]; intros Hl; [left; reflexivity|]. rewrite rsum_cons. destruct (IH ltac:(intros y Hy; apply Hl; right; exact Hy)), (Hl x ltac:(left; reflexivity)); [left|right|right|right]; lra.
Qed.
Lemma sum2_gap eps kh kw k : 0 <= eps -> no_tiny eps kh kw k -> (forall a b, (0 <= a < kh)%Z -> (0 <= b < kw)%Z -> 0 <= k a b) -> 0 < sum2 kh kw k -> eps < sum2 kh kw k.
Proof.
  intros E0 NT KP SP. destruct (rsum_gap eps (fun a => rsum (zrange 0 (Z.to_nat kw)) (fun b => k a b)) (zrange 0 (Z.to_nat kh)) E0) as [Z0|Gt]; [|unfold sum2 in SP; lra|exact Gt].
  intros a Ha. apply zrange_In in Ha. apply rsum_gap; [exact E0|]. intros b Hb. apply zrange_In in Hb. destruct (NT a b ltac:(lia) ltac:(lia)) as [Z0|T]; [left; exact Z0|right]. rewrite Rabs_pos_eq in T; [exact T|apply KP; lia].
Qed.
Lemma tiny_small : eta * 2 ^ 52 <= / 2 ^ 1000 / 8 /\ 0 < / 2 ^ 1000.
Proof.
  assert (P : forall n : nat, / 2 ^ n = bpow radix2 (- Z.of_nat n)).
  { intros n. rewrite bpow_opp. f_equal. rewrite bpow_powerRZ. change (IZR radix2) with 2. rewrite pow_powerRZ. reflexivity. }
  assert (Q : 2 ^ 52 = bpow radix2 52) by (rewrite bpow_powerRZ; change (IZR radix2) with 2; rewrite pow_powerRZ; reflexivity).
  rewrite P, Q. split; [|apply bpow_gt_0]. unfold eta. rewrite <- bpow_plus. unfold Rdiv. replace (/ 8) with (bpow radix2 (-3)) by (cbn; lra). rewrite <- bpow_plus. apply bpow_le. lia.
Qed.
Lemma quot_num N A S0 S1 c c' x : 1 <= N -> 0 <= A -> 2 * N * u <= 1 / 1000 -> / 2 ^ 52 < S0 -> Rabs (S1 - S0) <= 2 * N * u * S0 -> Rabs c <= A * S0 ->
  Rabs (c' - c) <= (3 * N + 1) * u * (A * S0) + 2 * N * eta -> x = b64 (c' / S1) -> 0 < S1 /\ Rabs (x - c / S0) <= (6 * N + 3) * u * A + N * / 2 ^ 1000.
Proof.
  intros N1 A0 NB SG SE CA CE ->. pose proof u_pos as U. pose proof u_small as US. pose proof eta_pos as E0. destruct tiny_small as [TS TP].
  assert (P52 : 0 < 2 ^ 52) by (apply pow_lt; lra). assert (S00 : 0 < S0) by (eapply Rlt_trans; [apply Rinv_0_lt_compat, P52|exact SG]).
  assert (SN : 2 * N * u * S0 <= 1 / 1000 * S0) by (apply Rmult_le_compat_r; lra).
  assert (S1L : 999 / 1000 * S0 <= S1) by (apply Rabs_le_inv in SE; lra). assert (S1P : 0 < S1) by lra. split; [exact S1P|].
  assert (IS : / S1 <= 1000 / 999 * / S0). { replace (1000 / 999 * / S0) with (/ (999 / 1000 * S0)) by (field; lra). apply Rinv_le_contravar; lra. }
  assert (IS0 : 0 < / S1) by (apply Rinv_0_lt_compat, S1P). assert (IS00 : 0 < / S0) by (apply Rinv_0_lt_compat, S00).
  assert (I52 : / S0 <= 2 ^ 52). { rewrite <- (Rinv_inv (2 ^ 52)). apply Rinv_le_contravar; [apply Rinv_0_lt_compat, P52|lra]. }
  assert (CQ : Rabs (c / S0) <= A).
  { unfold Rdiv. rewrite Rabs_mult, (Rabs_pos_eq (/ S0)) by lra. apply Rmult_le_reg_r with S0; [exact S00|]. rewrite Rmult_assoc, Rinv_l by lra. lra. }
  set (e := (5 * N + 1) * u * A + 2 * N * (eta * 2 ^ 52)).
  assert (Q : Rabs (c' / S1 - c / S0) <= 1000 / 999 * e).
  { replace (c' / S1 - c / S0) with (((c' - c) + c / S0 * (S0 - S1)) * / S1) by (field; lra). rewrite Rabs_mult, (Rabs_pos_eq (/ S1)) by lra.
    assert (X : Rabs ((c' - c) + c / S0 * (S0 - S1)) <= (5 * N + 1) * u * A * S0 + 2 * N * eta).
    { eapply Rle_trans; [apply Rabs_triang|]. rewrite Rabs_mult, (Rabs_minus_sym S0 S1). assert (Rabs (c / S0) * Rabs (S1 - S0) <= A * (2 * N * u * S0)) by (apply Rmult_le_compat; try apply Rabs_pos; assumption). lra. }
    apply Rle_trans with (((5 * N + 1) * u * A * S0 + 2 * N * eta) * (1000 / 999 * / S0)).
    - apply Rmult_le_compat; [apply Rabs_pos|lra|exact X|exact IS].
    - replace (((5 * N + 1) * u * A * S0 + 2 * N * eta) * (1000 / 999 * / S0)) with (1000 / 999 * ((5 * N + 1) * u * A + 2 * N * (eta * / S0))) by (field; lra). apply Rmult_le_compat_l; [lra|]. unfold e. apply Rplus_le_compat_l.
      apply Rmult_le_compat_l; [lra|]. apply Rmult_le_compat_l; lra. }
  pose proof (b64_sharp (c' / S1)) as B.
  assert (CQ' : Rabs (c' / S1) <= A + 1000 / 999 * e). { replace (c' / S1) with (c / S0 + (c' / S1 - c / S0)) by ring. eapply Rle_trans; [apply Rabs_triang|]. lra. }
  assert (e0 : 0 <= e). { assert (0 <= 1000 / 999 * e) by (eapply Rle_trans; [apply Rabs_pos|exact Q]). lra. }
  replace (b64 (c' / S1) - c / S0) with ((b64 (c' / S1) - c' / S1) + (c' / S1 - c / S0)) by ring. eapply Rle_trans; [apply Rabs_triang|].
  assert (X1 : u * Rabs (c' / S1) <= u * (A + 1000 / 999 * e)) by (apply Rmult_le_compat_l; lra).
  assert (X2 : u * e <= 1 / 1000000000000 * e) by (apply Rmult_le_compat_r; lra).
  assert (X3 : eta <= N * (eta * 2 ^ 52)). { rewrite <- (Rmult_1_l eta) at 1. apply Rle_trans with (N * eta); [apply Rmult_le_compat_r; lra|]. apply Rmult_le_compat_l; [lra|]. rewrite <- (Rmult_1_r eta) at 1. apply Rmult_le_compat_l; [lra|]. apply pow_R1_Rle. lra. }
  assert (X4 : N * (eta * 2 ^ 52) <= N * (/ 2 ^ 1000 / 8)) by (apply Rmult_le_compat_l; lra).
  assert (X5 : 0 <= u * A) by (apply Rmult_le_pos; lra). assert (X6 : u * A <= N * (u * A)) by (rewrite <- (Rmult_1_l (u * A)) at 1; apply Rmult_le_compat_r; lra).
  set (tt := / 2 ^ 1000) in *. set (ee := eta * 2 ^ 52) in *. clearbody tt ee. unfold e in *. clear - X1 X2 X3 X4 X5 X6 B Q U E0. 
  replace ((6 * N + 3) * u * A) with (6 * (N * (u * A)) + 3 * (u * A)) by ring.
  replace ((5 * N + 1) * u * A) with (5 * (N * (u * A)) + u * A) in * by ring. set (y := N * (u * A)) in *. set (z := u * A) in *. 
  replace (u * (A + 1000 / 999 * (5 * y + z + 2 * N * ee))) with (z + 1000 / 999 * (u * (5 * y + z + 2 * N * ee))) in X1 by (unfold z; ring). 
  replace (2 * N * ee) with (2 * (N * ee)) in * by ring. set (n := N * ee) in *. replace (N * (tt / 8)) with (N * tt / 8) in * by field. clearbody n y z. lra.
Qed.

Section Pixel.
Context (f g : Z -> Z) (eps A : R) (v k : Z -> Z -> R) (h w kh kw : Z).
Hypothesis H : (1 <= h)%Z. Hypothesis W : (1 <= w)%Z. Hypothesis KH : (1 <= kh)%Z. Hypothesis KW : (1 <= kw)%Z.
Hypothesis F : mirrors h f. Hypothesis G : mirrors w g. Hypothesis NT : no_tiny eps kh kw k.
Hypothesis VA : forall a b, (0 <= a < h)%Z -> (0 <= b < w)%Z -> Rabs (v a b) <= A.
Hypothesis KP : forall a b, (0 <= a < kh)%Z -> (0 <= b < kw)%Z -> 0 <= k a b.
Let N := IZR (kh * kw).
Hypothesis NB : 2 * N * u <= 1 / 1000.
Let S0 := sum2 kh kw k.

Lemma N_ge1 : 1 <= N.
Proof. unfold N. apply IZR_le. nia. Qed.
Lemma A_nonneg : 0 <= A.
Proof. eapply Rle_trans; [apply Rabs_pos|apply (VA 0 0); lia]. Qed.
Lemma conv_close i j : Rabs (conv_pixel b64 eps (table2 v h w) (table2 k kh kw) i j - convolution f g kh kw k v i j) <= (3 * N + 1) * u * (A * S0) + 2 * N * eta.
Proof.
  pose proof N_ge1 as N1. pose proof u_pos as U. pose proof eta_pos as E0.
  unfold conv_pixel. set (L := rev (filter (used eps (table2 k kh kw)) (coords (height (table2 k kh kw)) (width (table2 k kh kw))))).
  assert (LL : INR (length L) <= N).
  { unfold L. rewrite rev_length. rewrite table2_height, table2_width by lia. unfold N. rewrite <- coords_len by lia. apply le_INR, filter_len. }
  assert (FR : forall x, (0 <= f x < h)%Z) by (intros x; rewrite (mirrors_unique h f H F); apply reflect_range; exact H).
  assert (GR : forall x, (0 <= g x < w)%Z) by (intros x; rewrite (mirrors_unique w g W G); apply reflect_range; exact W).
  assert (TE : forall q : R -> R, q 0 = 0 -> rsum L (fun ab => q (conv_term (table2 v h w) (table2 k kh kw) i j ab)) =
               sum2 kh kw (fun a b => q (k a b * v (f (i + kh / 2 - a)) (g (j + kw / 2 - b))))).
  { intros q Q0. unfold L. rewrite rsum_rev, rsum_filter, table2_height, table2_width, rsum_coords by lia. apply sum2_ext. intros a b Ha Hb. unfold used, conv_term. cbn [fst snd].
    rewrite (table2_pix k) by lia. rewrite !table2_height, !table2_width by lia. rewrite table2_pix by (apply reflect_range; lia). rewrite (mirrors_unique h f H F), (mirrors_unique w g W G).
    destruct (Rltb eps (Rabs (k a b))) eqn:X; [reflexivity|]. destruct (NT a b Ha Hb) as [Z0|T]; [rewrite Z0, Rmult_0_l, Q0; reflexivity|]. rewrite (proj2 (Rltb_true' _ _) T) in X. discriminate. }
  pose proof (acc_close (conv_term (table2 v h w) (table2 k kh kw) i j) L N LL N1 NB) as AC.
  rewrite (TE Rabs Rabs_R0) in AC. pose proof (TE (fun x => x) eq_refl) as TI. cbn beta in TI. change (fun ab => conv_term (table2 v h w) (table2 k kh kw) i j ab) with (conv_term (table2 v h w) (table2 k kh kw) i j) in TI. rewrite TI in AC.
  eapply Rle_trans; [exact AC|]. apply Rplus_le_compat_r. apply Rmult_le_compat_l; [apply Rmult_le_pos; lra|].
  unfold S0. rewrite <- sum2_scal. apply sum2_le. intros a b Ha Hb. rewrite Rabs_mult, (Rabs_pos_eq (k a b)) by (apply KP; assumption). rewrite Rmult_comm. apply Rmult_le_compat_r; [apply KP; assumption|apply VA; [apply FR|apply GR]].
Qed.
Lemma conv_abs i j : Rabs (convolution f g kh kw k v i j) <= A * S0.
Proof.
  assert (FR : forall x, (0 <= f x < h)%Z) by (intros x; rewrite (mirrors_unique h f H F); apply reflect_range; exact H).
  assert (GR : forall x, (0 <= g x < w)%Z) by (intros x; rewrite (mirrors_unique w g W G); apply reflect_range; exact W).
  apply Rabs_le. unfold S0, convolution. split.
  - replace (- (A * sum2 kh kw k)) with ((- A) * sum2 kh kw k) by ring. rewrite <- sum2_scal. apply sum2_le. intros a b Ha Hb. rewrite (Rmult_comm (- A)). apply Rmult_le_compat_l; [apply KP; assumption|].
    pose proof (VA _ _ (FR (i + kh / 2 - a)%Z) (GR (j + kw / 2 - b)%Z)) as X. apply Rabs_le_inv in X. lra.
  - rewrite <- sum2_scal. apply sum2_le. intros a b Ha Hb. rewrite (Rmult_comm A). apply Rmult_le_compat_l; [apply KP; assumption|].
    pose proof (VA _ _ (FR (i + kh / 2 - a)%Z) (GR (j + kw / 2 - b)%Z)) as X. apply Rabs_le_inv in X. lra.
Qed.
Lemma conv_pos i j : (forall a b, (0 <= a < h)%Z -> (0 <= b < w)%Z -> 0 <= v a b) -> 0 <= conv_pixel b64 eps (table2 v h w) (table2 k kh kw) i j.
Proof.
  intros VP. unfold conv_pixel. rewrite fold_map. set (L := rev (filter (used eps (table2 k kh kw)) (coords (height (table2 k kh kw)) (width (table2 k kh kw))))).
  assert (P : Forall (fun x => 0 <= x) (map (fun x => b64 (conv_term (table2 v h w) (table2 k kh kw) i j x)) L)).
  { apply Forall_forall. intros y Hy. apply in_map_iff in Hy. destruct Hy as ((a & b) & <- & Hab). apply b64_nonneg. unfold L in Hab. apply in_rev, filter_In in Hab. destruct Hab as [Hab _].
    rewrite table2_height, table2_width in Hab by lia. unfold coords in Hab. apply in_flat_map in Hab. destruct Hab as (a' & Ha & Hb). apply in_map_iff in Hb. destruct Hb as (b' & E & Hb). injection E as -> ->. apply zrange_In in Ha, Hb.
    unfold conv_term. rewrite !table2_height, !table2_width by lia. rewrite !table2_pix by (try apply reflect_range; lia). apply Rmult_le_pos; [apply KP; lia|apply VP; apply reflect_range; assumption]. }
  destruct (map _ L) as [|x l] eqn:E; [cbn; lra|]. apply (br_nonneg (x :: l)); [|exact P]. apply fold0_br.
  assert (In x (map (fun x => b64 (conv_term (table2 v h w) (table2 k kh kw) i j x)) L)) by (rewrite E; left; reflexivity). apply in_map_iff in H0. destruct H0 as (z & <- & _). apply b64_F.
Qed.

Hypothesis KF : forall a b, (0 <= a < kh)%Z -> (0 <= b < kw)%Z -> F64 (k a b).
Lemma kernel_sum npsum : sums_somehow npsum -> Rabs (npsum (concat (table2 k kh kw)) - S0) <= 2 * N * u * S0.
Proof.
  intros SS. pose proof u_pos as U. pose proof N_ge1 as N1.
  assert (IN : forall y, In y (concat (table2 k kh kw)) -> exists a b, (0 <= a < kh)%Z /\ (0 <= b < kw)%Z /\ k a b = y).
  { intros y. rewrite in_concat. unfold table2. intros (r & Rr & Y). apply in_map_iff in Rr. destruct Rr as (a & <- & Rr). apply in_map_iff in Y. destruct Y as (b & <- & Y). apply zrange_In in Rr, Y. exists a, b. repeat split; lia. }
  assert (SE : suml (concat (table2 k kh kw)) = S0).
  { unfold S0. rewrite <- sum_table2. unfold np_sum, idr. rewrite (fold_rsum _ (fun x => x) 0), Rplus_0_l, <- suml_rsum, map_id. reflexivity. }
  assert (AE : suml (map Rabs (concat (table2 k kh kw))) = S0).
  { rewrite <- SE. f_equal. rewrite <- map_id. apply map_ext_in. intros y Hy. destruct (IN y Hy) as (a & b & Ha & Hb & <-). apply Rabs_pos_eq, KP; assumption. }
  assert (LE : INR (length (concat (table2 k kh kw))) = N).
  { unfold N. rewrite <- coords_len by lia. f_equal. unfold coords, table2. rewrite flat_map_concat_map.
    assert (Q : forall n s, length (concat (map (fun i => map (fun j => k i j) (zrange 0 (Z.to_nat kw))) (zrange s n))) = length (concat (map (fun a : Z => map (fun b : Z => (a, b)) (zrange 0 (Z.to_nat kw))) (zrange s n)))).
    { induction n as [|n IH]; intros s; cbn [zrange map concat]; [reflexivity|]. rewrite !app_length, !map_length. f_equal. apply IH. }
    apply Q. }
  pose proof (npsum_lin npsum (concat (table2 k kh kw)) SS) as X. rewrite SE, AE, LE in X. apply X; [|lra].
  apply Forall_forall. intros y Hy. destruct (IN y Hy) as (a & b & Ha & Hb & <-). apply KF; assumption.
Qed.
End Pixel.

(** the function as a table *)
Definition fraw npsum eps kh kw k v h w (i j : Z) : R :=
  let c := conv_pixel b64 eps (table2 v h w) (table2 k kh kw) i j in
  let s := npsum (concat (table2 k kh kw)) in if Rltb 0 s then b64 (c / s) else c.
Lemma fconv_entry npsum eps cast t I K s h w v kh kw k i j : is_array I h w v -> is_array K kh kw k -> (0 <= i < h)%Z -> (0 <= j < w)%Z ->
  entry (fconvolute_img_psf b64 npsum eps cast t I K s) i j =
  Some (astype cast t (if s then np_mul b64 (fraw npsum eps kh kw k v h w i j) (np_div b64 (np_max (table2 v h w)) (np_max (table2 (fraw npsum eps kh kw k v h w) h w)))
                                    else Fin (fraw npsum eps kh kw k v h w i j))).
Proof.
  intros HI HK Hi Hj. destruct (HI) as (H & W & _). destruct (HK) as (KH & KW & _). rewrite (array_eq _ _ _ _ HI), (array_eq _ _ _ _ HK). unfold fconvolute_img_psf. cbv zeta.
  rewrite convolve_table_g by lia. unfold fraw. destruct (Rltb 0 (npsum (concat (table2 k kh kw)))), s; rewrite ?table2_map; rewrite table2_entry by assumption; reflexivity.
Qed.
(** maxima of close tables are close *)
Lemma max2_close h w v v' M M' d : max2 h w v M -> max2 h w v' M' -> (forall i j, (0 <= i < h)%Z -> (0 <= j < w)%Z -> Rabs (v' i j - v i j) <= d) -> Rabs (M' - M) <= d.
Proof.
  intros [U (i & j & Hi & Hj & E)] [U' (i' & j' & Hi' & Hj' & E')] C. pose proof (C i j Hi Hj) as C1. pose proof (C i' j' Hi' Hj') as C2. pose proof (U i' j' Hi' Hj'). pose proof (U' i j Hi Hj).
  apply Rabs_le_inv in C1, C2. apply Rabs_le. lra.
Qed.
