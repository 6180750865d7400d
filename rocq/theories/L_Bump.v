(** Lemmas on get_bumped_circle. *)
From Coq Require Import Reals Lra Psatz.
From Flocq Require Import Core.
From Verif Require Import Py M_Radial M_Coeffs M_Sum M_Psf SpecPsf L_Psf L_PsfKernel L_Phases M_Numba L_Numba M_Img SpecImg L_Img.
Local Open Scope R_scope.

Lemma round6_mono x y : x <= y -> round6 x <= round6 y.
Proof. intros H. unfold round6. apply Rmult_le_compat_r; [lra|]. apply IZR_le. apply Zrnd_le with (rnd := ZnearestE); [apply valid_rnd_N|]. lra. Qed.
Lemma round6_IZR z : round6 (IZR z) = IZR z.
Proof. unfold round6. rewrite <- mult_IZR. rewrite Znearest_imp with (n := (z * 1000000)%Z); [rewrite mult_IZR; field|]. rewrite Rminus_diag_eq, Rabs_R0 by reflexivity. lra. Qed.
Lemma round6_err x : Rabs (round6 x - x) <= / 2000000.
Proof.
  unfold round6. assert (E := Znearest_half (fun t => negb (Z.even t)) (x * 1000000)). set (z := ZnearestE _) in *. apply Rabs_le_inv in E.
  apply Rabs_le. lra.
Qed.
Lemma b_pow_val : (1 + 25 / 100) ^ 8 = 390625 / 65536.
Proof. field. Qed.
Lemma pow8_mono x y : 0 <= x <= y -> x ^ 8 <= y ^ 8.
Proof. intros H. apply pow_incr. exact H. Qed.
Lemma pow8_strict x y : 0 <= x < y -> x ^ 8 < y ^ 8.
Proof.
  intros [H L]. assert (A : 0 <= x ^ 2 < y ^ 2) by (split; [apply pow_le; exact H|nra]). assert (B : 0 <= x ^ 4 < y ^ 4).
  { replace (x ^ 4) with (x ^ 2 * x ^ 2) by ring. replace (y ^ 4) with (y ^ 2 * y ^ 2) by ring. split; nra. }
  replace (x ^ 8) with (x ^ 4 * x ^ 4) by ring. replace (y ^ 8) with (y ^ 4 * y ^ 4) by ring. nra.
Qed.
Section Radius.
Variable r : R.
Hypothesis R1 : 1 <= r.
Lemma arg_lt d : 0 <= d < r * (1 + 25 / 100) -> 0 <= (d / (r + 25 / 100)) ^ 8 < (1 + 25 / 100) ^ 8.
Proof.
  intros H. assert (0 <= d / (r + 25 / 100)) by (apply Rmult_le_pos; [lra|apply Rlt_le, Rinv_0_lt_compat; lra]). split; [apply pow_le; assumption|]. apply pow8_strict. split; [assumption|].
  apply Rmult_lt_reg_r with (r + 25 / 100); [lra|]. unfold Rdiv. rewrite Rmult_assoc, Rinv_l by lra. nra.
Qed.
Lemma middle_val d : 0 <= d < r * (1 + 25 / 100) -> 0 < exp 1 * exp ((1 + 25 / 100) ^ 8 / ((d / (r + 25 / 100)) ^ 8 - (1 + 25 / 100) ^ 8)) <= 1.
Proof.
  intros H. assert (A := arg_lt d H). set (x := (d / (r + 25 / 100)) ^ 8) in *. rewrite b_pow_val in *. rewrite <- exp_plus. split; [apply exp_pos|].
  assert (B : 1 + 390625 / 65536 / (x - 390625 / 65536) <= 0).
  { replace (1 + 390625 / 65536 / (x - 390625 / 65536)) with (- (x / (390625 / 65536 - x))) by (field; split; lra). assert (0 <= x / (390625 / 65536 - x)) by (apply Rmult_le_pos; [lra|apply Rlt_le, Rinv_0_lt_compat; lra]). lra. }
  assert (E0 := exp_0). destruct B as [L|E]; [apply exp_increasing in L; lra|rewrite E; lra].
Qed.
Lemma middle_mono d d' : 0 <= d <= d' -> d' < r * (1 + 25 / 100) ->
  exp 1 * exp ((1 + 25 / 100) ^ 8 / ((d' / (r + 25 / 100)) ^ 8 - (1 + 25 / 100) ^ 8)) <= exp 1 * exp ((1 + 25 / 100) ^ 8 / ((d / (r + 25 / 100)) ^ 8 - (1 + 25 / 100) ^ 8)).
Proof.
  intros H L. assert (A := arg_lt d ltac:(lra)). assert (A' := arg_lt d' ltac:(lra)).
  assert (M : (d / (r + 25 / 100)) ^ 8 <= (d' / (r + 25 / 100)) ^ 8).
  { apply pow8_mono. split; [apply Rmult_le_pos; [lra|apply Rlt_le, Rinv_0_lt_compat; lra]|]. apply Rmult_le_compat_r; [apply Rlt_le, Rinv_0_lt_compat; lra|lra]. }
  set (x := (d / (r + 25 / 100)) ^ 8) in *. set (y := (d' / (r + 25 / 100)) ^ 8) in *. rewrite b_pow_val in *. apply Rmult_le_compat_l; [apply Rlt_le, exp_pos|].
  assert (B : 390625 / 65536 / (y - 390625 / 65536) <= 390625 / 65536 / (x - 390625 / 65536)).
  { assert (I : / (390625 / 65536 - x) <= / (390625 / 65536 - y)) by (apply Rinv_le_contravar; lra).
    replace (390625 / 65536 / (y - 390625 / 65536)) with (- (390625 / 65536 * / (390625 / 65536 - y))) by (field; lra).
    replace (390625 / 65536 / (x - 390625 / 65536)) with (- (390625 / 65536 * / (390625 / 65536 - x))) by (field; lra). lra. }
  destruct B as [S|E]; [apply Rlt_le, exp_increasing; exact S|rewrite E; lra].
Qed.
Lemma bump_range d : 0 <= d -> 0 <= bump_value r d <= 1.
Proof.
  intros H. unfold bump_value. cbv zeta. unfold Rltb. destruct (Rlt_dec d (round6 _)); [lra|]. destruct (Rlt_dec d (r * (1 + 25 / 100))); [|lra]. destruct (middle_val d); lra.
Qed.
Lemma bump_mono d d' : 0 <= d <= d' -> bump_value r d' <= bump_value r d.
Proof.
  intros H. unfold bump_value. cbv zeta. unfold Rltb. destruct (Rlt_dec d (round6 _)), (Rlt_dec d' (round6 _)); try lra.
  - destruct (Rlt_dec d' (r * (1 + 25 / 100))); [|lra]. destruct (middle_val d'); lra.
  - destruct (Rlt_dec d (r * (1 + 25 / 100))), (Rlt_dec d' (r * (1 + 25 / 100))); try lra; [apply middle_mono; lra|]. destruct (middle_val d); lra.
Qed.
Lemma bump_full d : 0 <= d -> d < round6 (25 / 100 * r) -> bump_value r d = 1.
Proof. intros H L. unfold bump_value, Rltb. destruct (Rlt_dec d (round6 _)); [reflexivity|lra]. Qed.
Lemma bump_zero d : r * (1 + 25 / 100) <= d -> bump_value r d = 0.
Proof.
  intros L. unfold bump_value, Rltb. assert (E := round6_err (25 / 100 * r)). apply Rabs_le_inv in E.
  destruct (Rlt_dec d (round6 _)); [lra|]. destruct (Rlt_dec d _); [lra|reflexivity].
Qed.
End Radius.

(** pixels *)
Definition dist2 (c i j : Z) : Z := ((i - c) * (i - c) + (j - c) * (j - c))%Z.
Definition dist6 (c i j : Z) : R := round6 (sqrt (IZR (dist2 c i j))).
Lemma pixel_eq r m n i j : bump_pixel r m n i j = (let v := bump_value r (dist6 (n / 2) i j) * IZR m in if Rltb 0 v then ZnearestE v else 0%Z).
Proof. unfold bump_pixel, dist6, dist2. cbv zeta. rewrite plus_IZR, !mult_IZR. reflexivity. Qed.
Lemma dist2_nonneg c i j : (0 <= dist2 c i j)%Z.
Proof. unfold dist2. assert (A := Z.square_nonneg (i - c)); assert (B := Z.square_nonneg (j - c)); lia. Qed.
Lemma dist6_pos c i j : 0 <= dist6 c i j.
Proof. unfold dist6. rewrite <- (round6_IZR 0). apply round6_mono, sqrt_pos. Qed.
Lemma dist6_mono c i j i' j' : (dist2 c i j <= dist2 c i' j')%Z -> dist6 c i j <= dist6 c i' j'.
Proof. intros H. unfold dist6. apply round6_mono, sqrt_le_1_alt, IZR_le, H. Qed.
Lemma near_mono x y : x <= y -> (ZnearestE x <= ZnearestE y)%Z.
Proof. intros H. apply (@Zrnd_le ZnearestE (valid_rnd_N _)). exact H. Qed.
Lemma near_IZR z : ZnearestE (IZR z) = z.
Proof. apply Znearest_imp. rewrite Rminus_diag_eq, Rabs_R0 by reflexivity. lra. Qed.
Lemma pixel_pos r m n i j : 1 <= r -> (0 <= m)%Z -> bump_pixel r m n i j = ZnearestE (bump_value r (dist6 (n / 2) i j) * IZR m).
Proof.
  intros R1 M. rewrite pixel_eq. cbv zeta. assert (V := bump_range r R1 _ (dist6_pos (n / 2) i j)). assert (0 <= IZR m) by (apply IZR_le; exact M). unfold Rltb. destruct (Rlt_dec 0 _); [reflexivity|].
  assert (E : bump_value r (dist6 (n / 2) i j) * IZR m = 0) by nra. rewrite E, near_IZR. reflexivity.
Qed.
Lemma pixel_neg r m n i j : 1 <= r -> (m <= 0)%Z -> bump_pixel r m n i j = 0%Z.
Proof.
  intros R1 M. rewrite pixel_eq. cbv zeta. assert (V := bump_range r R1 _ (dist6_pos (n / 2) i j)). assert (IZR m <= 0) by (apply IZR_le; exact M). unfold Rltb. destruct (Rlt_dec 0 _); [exfalso; nra|reflexivity].
Qed.
Lemma pixel_range r m n i j : 1 <= r -> (0 <= bump_pixel r m n i j <= Z.max 0 m)%Z.
Proof.
  intros R1. destruct (Z_le_gt_dec m 0) as [L|G]; [rewrite pixel_neg by assumption; lia|]. rewrite pixel_pos by (assumption || lia).
  assert (V := bump_range r R1 _ (dist6_pos (n / 2) i j)). assert (0 < IZR m) by (apply IZR_lt; lia). split.
  - rewrite <- (near_IZR 0). apply near_mono. nra.
  - rewrite Z.max_r by lia. rewrite <- (near_IZR m) at 2. apply near_mono. nra.
Qed.
Lemma pixel_mono r m n i j i' j' : 1 <= r -> (dist2 (n / 2) i j <= dist2 (n / 2) i' j')%Z -> (bump_pixel r m n i' j' <= bump_pixel r m n i j)%Z.
Proof.
  intros R1 D. destruct (Z_le_gt_dec m 0) as [L|G]; [rewrite !pixel_neg by assumption; lia|]. rewrite !pixel_pos by (assumption || lia). apply near_mono.
  apply Rmult_le_compat_r; [apply IZR_le; lia|]. apply bump_mono; [exact R1|]. split; [apply dist6_pos|apply dist6_mono, D].
Qed.
Lemma pixel_sym r m n i j i' j' : 1 <= r -> dist2 (n / 2) i j = dist2 (n / 2) i' j' -> bump_pixel r m n i j = bump_pixel r m n i' j'.
Proof. intros R1 D. assert (A := pixel_mono r m n i j i' j' R1 ltac:(lia)). assert (B := pixel_mono r m n i' j' i j R1 ltac:(lia)). lia. Qed.
Lemma pixel_full r m n i j : 1 <= r -> (0 <= m)%Z -> dist6 (n / 2) i j < round6 (25 / 100 * r) -> bump_pixel r m n i j = m.
Proof. intros R1 M D. rewrite pixel_pos, bump_full by (assumption || apply dist6_pos). rewrite Rmult_1_l. apply near_IZR. Qed.
Lemma pixel_zero r m n i j : 1 <= r -> r * (1 + 25 / 100) <= dist6 (n / 2) i j -> bump_pixel r m n i j = 0%Z.
Proof. intros R1 D. destruct (Z_le_gt_dec m 0); [apply pixel_neg; assumption|]. rewrite pixel_pos, bump_zero by (assumption || lia). rewrite Rmult_0_l. apply near_IZR. Qed.
(** the size *)
Lemma size_bounds r : 1 <= r -> (1 <= ZnearestE r)%Z /\ r * (1 + 25 / 100) <= 2 * IZR (ZnearestE r).
Proof.
  intros R1. assert (A : (1 <= ZnearestE r)%Z) by (rewrite <- (near_IZR 1); apply near_mono; exact R1). split; [exact A|]. assert (E := Znearest_half (fun t => negb (Z.even t)) r). apply Rabs_le_inv in E.
  destruct (Rle_dec (4 / 3) r); [lra|]. apply IZR_le in A. lra.
Qed.
Lemma size_half r : (bump_size r / 2 = 2 * ZnearestE r)%Z.
Proof. unfold bump_size. replace (4 * ZnearestE r + 1)%Z with (2 * ZnearestE r * 2 + 1)%Z by lia. rewrite Z.div_add_l by lia. change (1 / 2)%Z with 0%Z. lia. Qed.
(** the double loop *)
Lemma mapR_in {A B} (f : A -> res B) g l : (forall x, In x l -> f x = Ok (g x)) -> mapR f l = Ok (map g l).
Proof. induction l as [|a l IH]; intros H; [reflexivity|]. cbn [mapR map]. rewrite H by (left; reflexivity). cbn [bind]. rewrite IH by (intros; apply H; right; assumption). reflexivity. Qed.
Lemma mapR_raise {A B} (f : A -> res B) e l : (forall x, In x l -> (exists y, f x = Ok y) \/ f x = Raise e) -> (exists x, In x l /\ f x = Raise e) -> mapR f l = Raise e.
Proof.
  induction l as [|a l IH]; intros H (x & I & X); [destruct I|]. cbn [mapR]. destruct (H a (or_introl eq_refl)) as [[y Y]|Y]; rewrite Y; cbn [bind]; [|reflexivity].
  rewrite IH; [reflexivity|intros z Z; apply H; right; exact Z|]. destruct I as [->|I]; [congruence|]. exists x. auto.
Qed.
Lemma circle_ok radius m : (m <= 65535)%Z -> let r := if Rltb radius 1 then 1 else radius in
  get_bumped_circle radius m = Ok (table2 (bump_pixel r m (bump_size r)) (bump_size r) (bump_size r)).
Proof.
  intros M. cbv zeta. unfold get_bumped_circle. cbv zeta. set (r := if Rltb radius 1 then 1 else radius). assert (R1 : 1 <= r) by (unfold r, Rltb; destruct (Rlt_dec radius 1); lra).
  unfold table2. apply mapR_in. intros i _. apply mapR_in. intros j _. assert (B := pixel_range r m (bump_size r) i j R1).
  replace (bump_pixel r m (bump_size r) i j <? 2 ^ bump_bits m)%Z with true; [reflexivity|]. symmetry. apply Z.ltb_lt. unfold bump_bits. destruct (Z.leb_spec m 255); cbn; lia.
Qed.
Lemma circle_overflow radius m : (65535 < m)%Z -> get_bumped_circle radius m = Raise OverflowError.
Proof.
  intros M. unfold get_bumped_circle. cbv zeta. set (r := if Rltb radius 1 then 1 else radius). assert (R1 : 1 <= r) by (unfold r, Rltb; destruct (Rlt_dec radius 1); lra).
  assert (S := size_bounds r R1). assert (N : bump_bits m = 16%Z) by (unfold bump_bits; destruct (Z.leb_spec m 255); [lia|reflexivity]). rewrite N.
  set (n := bump_size r) in *. assert (NC : (n / 2 = 2 * ZnearestE r)%Z) by apply size_half. assert (NN : (n = 4 * ZnearestE r + 1)%Z) by reflexivity.
  assert (C : bump_pixel r m n (n / 2) (n / 2) = m).
  { apply pixel_full; [exact R1|lia|]. unfold dist6, dist2. replace ((n / 2 - n / 2) * (n / 2 - n / 2) + (n / 2 - n / 2) * (n / 2 - n / 2))%Z with 0%Z by ring. rewrite sqrt_0, (round6_IZR 0).
    assert (E := round6_err (25 / 100 * r)). apply Rabs_le_inv in E. lra. }
  assert (RW : forall i, (exists y, mapR (fun j => if (bump_pixel r m n i j <? 2 ^ 16)%Z then Ok (bump_pixel r m n i j) else Raise OverflowError) (zrange 0 (Z.to_nat n)) = Ok y) \/
                         mapR (fun j => if (bump_pixel r m n i j <? 2 ^ 16)%Z then Ok (bump_pixel r m n i j) else Raise OverflowError) (zrange 0 (Z.to_nat n)) = Raise OverflowError).
  { intros i. induction (zrange 0 (Z.to_nat n)) as [|j l IH]; [left; exists []; reflexivity|]. cbn [mapR]. destruct (_ <? 2 ^ 16)%Z; cbn [bind]; [|right; reflexivity].
    destruct IH as [[y ->] | ->]; cbn [bind]; [left; eexists; reflexivity|right; reflexivity]. }
  apply mapR_raise; [intros i _; apply RW|]. exists (n / 2)%Z. split; [apply zrange_In; lia|]. apply mapR_raise.
  - intros j _. destruct (_ <? _)%Z; [left; eexists; reflexivity|right; reflexivity].
  - exists (n / 2)%Z. split; [apply zrange_In; lia|]. rewrite C. replace (m <? 2 ^ 16)%Z with false; [reflexivity|]. symmetry. apply Z.ltb_ge. lia.
Qed.
