(** Sums of polynomials and phase images in binary64 (C64). *)
From Coq Require Import Reals Lra Lia List Psatz.
From Flocq Require Import Core.
From Verif Require Import Py SpecIndex SpecRadial RadialMath M_Radial M_Coeffs SpecCoeffs L_Cache L_Trig L_Bound L_Value M_Sum SpecSum L_Sum L_Fit M_Polar L_Polar M_Geo SpecGeo L_Geo
  M_Phases SpecPhases L_Phases SpecDiff L_Conv L_Conv2 SpecPsf L_Psf
  SpecFloat M_Float L_Float L_Float4 SpecFloatPsf M_FloatPsf L_FPsf1 L_FPsf2 L_FPsf3 L_FPsf4 L_FPsf5 L_FPsf6 L_FPsf7 M_FloatSum SpecFloatSum.
Import ListNotations.
Local Open Scope R_scope.

Lemma Rltb_no x y : ~ x < y -> Rltb x y = false.
Proof. intros H. unfold Rltb. destruct (Rlt_dec x y); [contradiction|reflexivity]. Qed.
Lemma in_range r : 0 <= r <= 1 -> Rltb 1 r || Rltb r 0 = false.
Proof. intros H. rewrite !Rltb_no by lra. reflexivity. Qed.

(** ** without rounding *)
Section Exact.
Lemma fvalue_isok0 fuel p x y : okp fuel p -> 0 <= x <= 1 -> isok (fvalue idf powerRZ cos sin fuel p x y) (Z_nm (fst p) (snd p) x y).
Proof. intros OK Hx. unfold fvalue. rewrite in_range by exact Hx. apply value_isok0, OK. Qed.
Lemma fsum_tl_isok0 fuel x y : 0 <= x <= 1 -> forall ps, Forall (okp fuel) ps -> forall cs W, length cs = length ps ->
  isok (fsum_tl idf powerRZ cos sin fuel cs ps x y W) (W + zsum cs ps x y).
Proof.
  intros Hx ps. induction 1 as [|[m n] ps OK F IH]; intros [|c cs] W L; try discriminate; cbn [fsum_tl zsum].
  - eapply isok_ext; [|apply isok_ret]. ring.
  - injection L as L. unfold nonzero. destruct (Req_EM_T c 0) as [->|NZ].
    + eapply isok_ext; [|apply IH, L]. ring.
    + eapply isok_bind; [apply (fvalue_isok0 fuel (m, n)); assumption|]. cbn [fst snd]. eapply isok_ext; [|apply IH, L]. ring.
Qed.
Lemma fsum_isok0 fuel cs ps x y : 0 <= x <= 1 -> Forall (okp fuel) ps -> cs <> [] -> length cs = length ps ->
  isok (fsum_point idf powerRZ cos sin fuel cs ps x y) (zsum cs ps x y).
Proof.
  intros Hx F N L. unfold fsum_point. rewrite L, Nat.eqb_refl. cbn [negb]. destruct cs as [|c cs]; [contradiction|]. destruct ps as [|[m n] ps]; [discriminate|].
  inversion F; subst. injection L as L. eapply isok_bind; [apply (fvalue_isok0 fuel (m, n)); assumption|]. cbn [fst snd zsum]. apply fsum_tl_isok0; assumption.
Qed.
Lemma fsurf_isok0 fuel cs ps x y : 0 <= x <= 1 -> Forall (okp fuel) ps -> cs <> [] -> length cs = length ps ->
  isok (fsurface_point idf powerRZ cos sin fuel cs ps x y) (zsum cs ps x y).
Proof.
  intros Hx F N L. unfold fsurface_point. rewrite L, Nat.eqb_refl. cbn [negb]. destruct cs as [|c cs]; [contradiction|].
  eapply isok_ext; [|apply fsum_tl_isok0; assumption]. ring.
Qed.
Lemma inside0 w h i j : finside idf w h i j = in_aperture w h i j. Proof. reflexivity. Qed.
Lemma fimage_isok0 fuel ps cs w h : cs <> [] -> length cs = length ps -> Forall (okp fuel) ps -> (0 < w)%Z -> (0 <= h)%Z ->
  isok (fphases_image idf powerRZ cos sin arctan2 fuel ps cs w h)
    (map (fun i => map (fun j => if in_aperture w h i j then zsum cs ps (rr w h i j) (L_Phases.tt w h i j) else 0) (zrange 0 (Z.to_nat w))) (zrange 0 (Z.to_nat h))).
Proof.
  intros N L OK Hw Hh. unfold fphases_image. replace ((w <? 0)%Z || (h <? 0)%Z)%bool with false by lia.
  apply mapM_isok. intros i _. apply mapM_isok. intros j _. unfold fpixel.
  assert (E1 : frad idf w h i j = rr w h i j) by reflexivity.
  assert (E2 : fang idf arctan2 w h i j = L_Phases.tt w h i j) by reflexivity.
  rewrite E1, E2. eapply isok_bind; [apply fsum_isok0; try assumption; apply (rr_disk w h i j); lia|]. apply isok_ret.
Qed.
End Exact.

(** ** binary64 *)
Section Round.
Variable pw : R -> Z -> R.
Variables fcos fsin : R -> R.
Hypothesis PW : power_within_ulp pw.
Hypothesis TR : trig_within_ulp fcos fsin.
Variable fuel : nat.

Section Point.
Variables (x phi : R).
Hypothesis Fx : F64 x.
Hypothesis Hx : 0 <= x <= 1.
Hypothesis H7 : Rabs phi <= 7.

Lemma fsum_tl_okq ps : Forall (okp fuel) ps -> forall amps k V B W S, length amps = length ps -> 0 <= k -> k + INR (length ps) <= 1048576 -> 0 <= V ->
  Rabs S + size_of amps ps <= B -> Rabs (W - S) <= acc_err k V B ->
  okq (fsum_tl b64 pw fcos fsin fuel amps ps x phi W) (fun v => Rabs (v - (S + zsum amps ps x phi)) <= acc_err (k + INR (length ps)) (V + values_error amps ps) B).
Proof.
  induction 1 as [|[m n] ps OK F IH]; intros amps k V B W S L K0 KM V0 HB HW; destruct amps as [|a amps]; try discriminate.
  - cbn [fsum_tl zsum values_error length INR]. apply okq_ret. rewrite !Rplus_0_r. exact HW.
  - cbn [fsum_tl]. cbn [size_of] in HB. injection L as L. cbn [length] in KM |- *. rewrite S_INR in KM |- *. pose proof (pos_INR (length ps)) as L0.
    pose proof (size_nonneg amps ps) as SN. pose proof (norm_nonneg m n) as NN. pose proof (Rabs_pos a) as A0. pose proof (dv_nonneg m n) as DN. pose proof u_pos as U.
    assert (AN : 0 <= Rabs a * norm_nm m n) by (apply Rmult_le_pos; assumption).
    assert (ZB : Rabs (a * Z_nm m n x phi) <= Rabs a * norm_nm m n) by (rewrite Rabs_mult; apply Rmult_le_compat_l; [exact A0|apply Z_bound; [apply OK|exact Hx]]).
    cbn [zsum values_error].
    replace (S + (a * Z_nm m n x phi + zsum amps ps x phi)) with (S + a * Z_nm m n x phi + zsum amps ps x phi) by ring.
    replace (k + (INR (length ps) + 1)) with (k + 1 + INR (length ps)) by ring.
    replace (V + (Rabs a * norm_nm m n * (4 * radial_error n + IZR (Z.abs m) / 2 ^ 49) + values_error amps ps))
      with (V + Rabs a * (norm_nm m n * (4 * radial_error n + IZR (Z.abs m) / 2 ^ 49)) + values_error amps ps) by ring.
    assert (DV : 0 <= Rabs a * (norm_nm m n * (4 * radial_error n + IZR (Z.abs m) / 2 ^ 49))) by (apply Rmult_le_pos; assumption).
    unfold nonzero. destruct (Req_EM_T a 0) as [->|NZ].
    + (* a skipped term *)
      apply IH; try lra; try assumption.
      * rewrite Rmult_0_l, Rplus_0_r. rewrite Rabs_R0 in *. lra.
      * rewrite Rmult_0_l, Rplus_0_r. rewrite Rabs_R0, Rmult_0_l, Rplus_0_r. eapply Rle_trans; [exact HW|]. unfold acc_err.
        assert (B0 : 0 <= B) by (pose proof (Rabs_pos S); rewrite Rabs_R0 in HB; lra). assert (C0 : 0 <= u * (2 * B + 2)) by (apply Rmult_le_pos; lra).
        assert (K1 : 0 <= k * (u * (2 * B + 2))) by (apply Rmult_le_pos; lra). assert (K2 : 0 <= k * u) by (apply Rmult_le_pos; lra).
        apply Rmult_le_compat; lra.
    + eapply okq_bind. { unfold fvalue. rewrite in_range by exact Hx. apply (value_okq pw fcos fsin PW TR fuel (m, n) x phi OK Fx Hx H7). } cbn [fst snd]. intros v Hv.
      pose proof (term_err a v _ _ _ DN (Z_bound m n x phi (proj1 OK) Hx) Hv) as TE.
      assert (ST := acc_step k V B W S (b64 (a * v)) (a * Z_nm m n x phi) (Rabs a * (norm_nm m n * (4 * radial_error n + IZR (Z.abs m) / 2 ^ 49))) (Rabs a * norm_nm m n)
        ltac:(lra) V0 ltac:(apply Rmult_le_pos; assumption) AN ltac:(lra) ZB HW TE).
      apply IH; try lra; try assumption.
      pose proof (Rabs_triang S (a * Z_nm m n x phi)). lra.
Qed.
Lemma sum_error_D amps ps : phase_D amps ps = sum_error amps ps.
Proof. unfold phase_D, sum_error. rewrite u_val. replace (bpow radix2 (-53)) with (/ 2 ^ 53); [unfold Rdiv; ring|]. change (-53)%Z with (- (53))%Z. rewrite bpow_opp. f_equal. change 53%Z with (Z.of_nat 53). rewrite bpow_powerRZ, <- pow_powerRZ. reflexivity. Qed.
Lemma fsum_okq ps amps : Forall (okp fuel) ps -> amps <> [] -> length amps = length ps -> INR (length ps) <= 1048576 ->
  okq (fsum_point b64 pw fcos fsin fuel amps ps x phi) (fun v => Rabs (v - zsum amps ps x phi) <= sum_error amps ps).
Proof.
  intros F NE L KM. rewrite <- sum_error_D. unfold fsum_point. rewrite L, Nat.eqb_refl. cbn [negb]. destruct amps as [|a amps]; [contradiction|]. destruct ps as [|[m n] ps]; [discriminate|]. injection L as L.
  inversion F as [|? ? OK F']; subst. cbn [length] in KM |- *. rewrite S_INR in KM. pose proof (pos_INR (length ps)) as L0. pose proof u_pos as U. pose proof u_small as US.
  pose proof (size_nonneg amps ps) as SN. pose proof (norm_nonneg m n) as NN. pose proof (Rabs_pos a) as A0. pose proof (dv_nonneg m n) as DN.
  eapply okq_bind. { unfold fvalue. rewrite in_range by exact Hx. apply (value_okq pw fcos fsin PW TR fuel (m, n) x phi OK Fx Hx H7). } cbn [fst snd]. intros v Hv.
  pose proof (term_err a v _ _ _ DN (Z_bound m n x phi (proj1 OK) Hx) Hv) as TE.
  assert (AN : 0 <= Rabs a * norm_nm m n) by (apply Rmult_le_pos; assumption).
  assert (ZB : Rabs (a * Z_nm m n x phi) <= Rabs a * norm_nm m n) by (rewrite Rabs_mult; apply Rmult_le_compat_l; [exact A0|apply Z_bound; [apply OK|exact Hx]]).
  set (dv := Rabs a * (norm_nm m n * (4 * radial_error n + IZR (Z.abs m) / 2 ^ 49))) in *. assert (DV : 0 <= dv) by (apply Rmult_le_pos; assumption).
  set (B := size_of (a :: amps) ((m, n) :: ps)). assert (EB : B = Rabs a * norm_nm m n + size_of amps ps) by reflexivity.
  eapply okq_weak; [|apply (fsum_tl_okq ps F' amps 1 dv B (b64 (a * v)) (a * Z_nm m n x phi) L)]; try lra.
  - intros w Hw. cbn [zsum]. eapply Rle_trans; [exact Hw|]. pose proof (verr_nonneg amps ps) as VN. eapply Rle_trans; [apply acc_final; lra|].
    unfold phase_D. fold B. cbn [length values_error]. rewrite S_INR. unfold dv. right. ring.
  - eapply Rle_trans; [exact TE|]. unfold acc_err. assert (UB : u * (Rabs a * norm_nm m n) <= u * B) by (apply Rmult_le_compat_l; lra).
    assert (UB0 : 0 <= u * B) by (apply Rmult_le_pos; lra). assert (dv * u <= dv * (4 * u)) by (apply Rmult_le_compat_l; lra).
    assert (0 <= 4 * u * (u * (2 * B + 2))) by (apply Rmult_le_pos; [lra|apply Rmult_le_pos; lra]). lra.
Qed.
Lemma fsurf_okq ps amps : Forall (okp fuel) ps -> amps <> [] -> length amps = length ps -> INR (length ps) <= 1048576 ->
  okq (fsurface_point b64 pw fcos fsin fuel amps ps x phi) (fun v => Rabs (v - zsum amps ps x phi) <= sum_error amps ps).
Proof.
  intros F NE L KM. rewrite <- sum_error_D. unfold fsurface_point. rewrite L, Nat.eqb_refl. cbn [negb]. destruct amps as [|a amps]; [contradiction|].
  pose proof (size_nonneg (a :: amps) ps) as SN. pose proof (pos_INR (length ps)) as L0. pose proof (verr_nonneg (a :: amps) ps) as VN.
  eapply okq_weak; [|apply (fsum_tl_okq ps F (a :: amps) 0 0 (size_of (a :: amps) ps) 0 0 L)]; try lra.
  - intros w Hw. rewrite !Rplus_0_l in Hw. eapply Rle_trans; [exact Hw|]. eapply Rle_trans; [apply acc_final; lra|]. unfold phase_D. lra.
  - rewrite Rabs_R0. lra.
  - rewrite Rminus_0_r, Rabs_R0. unfold acc_err. rewrite !Rmult_0_l. lra.
Qed.
End Point.

(** ** pixels *)
Section Image.
Variable fatan2 : R -> R -> R.
Hypothesis AT : angle_within_ulp fatan2.
Variables w h i j : Z.
Hypothesis Hw : (0 < w <= 2 ^ 25)%Z.
Hypothesis Hh : (0 < h <= 2 ^ 25)%Z.
Hypothesis Hi : (0 <= i < h)%Z.
Hypothesis Hj : (0 <= j < w)%Z.
Local Notation x := (j - w / 2)%Z.
Local Notation y := (h / 2 - i)%Z.
Local Notation a := (1 + Z.min w h / 2)%Z.
Local Notation q := (x * x + y * y)%Z.

Lemma half_facts : (0 <= w / 2 <= w)%Z /\ (0 <= h / 2 <= h)%Z /\ (1 <= a <= 2 ^ 25)%Z.
Proof.
  change (2 ^ 25)%Z with 33554432%Z in *. split; [split; [apply Z.div_pos; lia|apply Z.div_le_upper_bound; lia]|]. split; [split; [apply Z.div_pos; lia|apply Z.div_le_upper_bound; lia]|].
  assert (0 <= Z.min w h / 2)%Z by (apply Z.div_pos; lia). assert (Z.min w h / 2 <= 33554431)%Z by (apply Z.div_le_upper_bound; lia). lia.
Qed.
Lemma q_facts : (0 <= q <= 2 ^ 52)%Z.
Proof.
  destruct half_facts as (W & H & _). change (2 ^ 25)%Z with 33554432%Z in *. change (2 ^ 52)%Z with (33554432 * 33554432 + 3 * (33554432 * 33554432))%Z.
  pose proof (Z.square_nonneg x). pose proof (Z.square_nonneg y).
  assert (X : (Z.abs x * Z.abs x <= 33554432 * 33554432)%Z) by (apply Z.mul_le_mono_nonneg; lia).
  assert (Y : (Z.abs y * Z.abs y <= 33554432 * 33554432)%Z) by (apply Z.mul_le_mono_nonneg; lia).
  replace (x * x)%Z with (Z.abs x * Z.abs x)%Z by lia. replace (y * y)%Z with (Z.abs y * Z.abs y)%Z by lia. lia.
Qed.
Lemma fdist_eq : fdist b64 w h i j = b64 (sqrt (IZR q)).
Proof.
  pose proof q_facts as Q. unfold fdist. replace (y * y + (w / 2 - j) * (w / 2 - j))%Z with q by ring.
  rewrite (b64_IZR q) by (change (2 ^ 52)%Z with 4503599627370496%Z in Q; lia). reflexivity.
Qed.
Lemma inside_exact : finside b64 w h i j = true <-> (q <= a * a)%Z.
Proof.
  pose proof q_facts as Q. destruct half_facts as (_ & _ & A). unfold finside. rewrite fdist_eq. change (img_radius w h) with a. set (k := a) in *. set (n := q) in *. clearbody k n.
  change (2 ^ 25)%Z with 33554432%Z in A. assert (A1 : 1 <= IZR k <= 33554432) by (split; apply IZR_le; lia).
  assert (FK : b64 (IZR k) = IZR k) by (apply b64_IZR; lia). assert (N0 : 0 <= IZR n) by (apply (IZR_le 0); lia).
  destruct (Rle_dec (b64 (sqrt (IZR n))) (IZR k)) as [L|L]; split; intros HH; try reflexivity; try discriminate.
  - destruct (Z_le_gt_dec n (k * k)) as [G|G]; [exact G|]. exfalso. assert (G1 : (k * k + 1 <= n)%Z) by lia. apply IZR_le in G1. rewrite plus_IZR, mult_IZR in G1.
    assert (S1 : 1 <= sqrt (IZR n)). { rewrite <- sqrt_1. apply sqrt_le_1_alt. nra. }
    pose proof (b64_pure (sqrt (IZR n))) as E. assert (T : / 2 ^ 1000 <= sqrt (IZR n)). { apply Rle_trans with 1; [|exact S1]. rewrite <- Rinv_1. apply Rinv_le_contravar; [lra|apply pow_R1_Rle; lra]. }
    specialize (E T). apply Rabs_le_inv in E. pose proof (sqrt_sqrt (IZR n) N0) as SS. set (t := sqrt (IZR n)) in *. clearbody t. pose proof u_pos as U. pose proof u_small as US.
    assert (UV : u = / 9007199254740992). { rewrite u_val. unfold bpow. f_equal. }
    assert (T1 : (1 - u) * t <= IZR k) by lra.
    assert (T2 : (1 - u) * t * ((1 - u) * t) <= IZR k * IZR k) by (apply Rmult_le_compat; try assumption; apply Rmult_le_pos; lra).
    replace ((1 - u) * t * ((1 - u) * t)) with ((1 - 2 * u + u * u) * (t * t)) in T2 by ring. rewrite SS in T2.
    assert (KK : IZR k * IZR k <= 33554432 * 33554432) by (apply Rmult_le_compat; lra). assert (KP : 0 <= IZR k * IZR k) by (apply Rmult_le_pos; lra). set (kk := IZR k * IZR k) in *. clearbody kk.
    assert (UU : 0 <= u * u) by (apply Rmult_le_pos; lra). assert (T3 : (1 - 2 * u) * (kk + 1) <= (1 - 2 * u + u * u) * IZR n) by (apply Rmult_le_compat; lra).
    assert (T4 : 2 * u * (kk + 1) <= 2 * u * (33554432 * 33554432 + 1)) by (apply Rmult_le_compat_l; lra). rewrite UV in *. lra.
  - exfalso. apply L. rewrite <- FK. apply b64_mono. apply IZR_le in HH. rewrite mult_IZR in HH. rewrite <- (sqrt_square (IZR k)) by lra. apply sqrt_le_1_alt, HH.
Qed.
Hypothesis IN : (q <= a * a)%Z.

Lemma frad_facts : F64 (frad b64 w h i j) /\ 0 <= frad b64 w h i j <= 1 /\ Rabs (frad b64 w h i j - norm2 (IZR x) (IZR y) / IZR a) <= 4 * u /\ 0 <= norm2 (IZR x) (IZR y) / IZR a <= 1.
Proof.
  pose proof q_facts as Q. destruct half_facts as (_ & _ & A). pose proof u_pos as U. pose proof u_small as US.
  assert (NE : norm2 (IZR x) (IZR y) = sqrt (IZR q)) by (unfold norm2; f_equal; rewrite <- !mult_IZR, <- plus_IZR; reflexivity). rewrite NE. clear NE.
  unfold frad. assert (II := inside_exact). assert (IT : finside b64 w h i j = true) by (apply II; exact IN). rewrite IT. clear II.
  unfold finside in IT. rewrite fdist_eq in *. change (img_radius w h) with a in *. destruct (Rle_dec (b64 (sqrt (IZR q))) (IZR a)) as [L|]; [|discriminate]. clear IT.
  assert (N0 : 0 <= IZR q) by (apply (IZR_le 0); lia). apply IZR_le in IN. rewrite mult_IZR in IN.
  assert (A1 : 1 <= IZR a) by (apply IZR_le; lia). set (k := IZR a) in *. set (n := IZR q) in *. clearbody k n.
  assert (S0 : 0 <= sqrt n) by apply sqrt_pos. assert (SK : sqrt n <= k) by (rewrite <- (sqrt_square k) by lra; apply sqrt_le_1_alt, IN).
  set (s := sqrt n) in *. clearbody s. assert (B0 : 0 <= b64 s) by (rewrite <- b64_0'; apply b64_mono, S0).
  assert (IK : 0 < / k) by (apply Rinv_0_lt_compat; lra).
  assert (D1 : forall z, 0 <= z <= k -> 0 <= z / k <= 1).
  { intros z Hz. split; [apply Rmult_le_pos; lra|]. apply Rmult_le_reg_r with k; [lra|]. unfold Rdiv. rewrite Rmult_assoc, Rinv_l by lra. lra. }
  assert (D2 := D1 _ (conj B0 L)). assert (D3 := D1 _ (conj S0 SK)). clear D1.
  split; [apply b64_F|]. split; [split|split].
  - rewrite <- b64_0'. apply b64_mono. lra.
  - rewrite <- (b64_IZR 1) by lia. apply b64_mono. lra.
  - (* |s' - s| <= u s + 2^-1075, divided by k *)
    assert (E1 : Rabs (b64 s / k - s / k) <= 3 / 2 * u).
    { replace (b64 s / k - s / k) with ((b64 s - s) * / k) by (unfold Rdiv; ring). rewrite Rabs_mult, (Rabs_pos_eq (/ k)) by lra. pose proof (b64_rel s) as E. rewrite (Rabs_pos_eq s) in E by lra.
      assert (IK1 : / k <= 1) by (rewrite <- Rinv_1; apply Rinv_le_contravar; lra).
      apply Rle_trans with ((u * s + u / 2) * / k); [apply Rmult_le_compat_r; lra|].
      replace ((u * s + u / 2) * / k) with (u * (s / k) + u / 2 * / k) by (unfold Rdiv; ring).
      assert (u * (s / k) <= u * 1) by (apply Rmult_le_compat_l; lra). assert (u / 2 * / k <= u / 2 * 1) by (apply Rmult_le_compat_l; lra). lra. }
    assert (M : Rabs (s / k) <= 1) by (rewrite Rabs_pos_eq; lra). pose proof (b64_step _ _ _ _ M E1) as E2.
    assert (u * u <= u * (1 / 1000)) by (apply Rmult_le_compat_l; lra). eapply Rle_trans; [exact E2|]. lra.
  - exact D3.
Qed.

Lemma fang_facts : exists t, (t = arctan2 (IZR y) (IZR x) \/ t = arctan2 (IZR y) (IZR x) + 2 * PI) /\
  Rabs (fang b64 fatan2 w h i j) <= 7 /\ Rabs (fang b64 fatan2 w h i j - t) <= 24 * u.
Proof.
  destruct half_facts as (W & H & _). pose proof u_pos as U. pose proof u_small as US. pose proof PI_tight as PT. destruct AT as (A0 & AT').
  change (2 ^ 25)%Z with 33554432%Z in *. unfold fang. assert (IT : finside b64 w h i j = true) by (apply inside_exact; exact IN). rewrite IT.
  set (yy := IZR y). set (xx := IZR x). assert (Fx : float64 xx) by (unfold xx; rewrite <- b64_IZR by lia; apply b64_F). assert (Fy : float64 yy) by (unfold yy; rewrite <- b64_IZR by lia; apply b64_F).
  destruct (arctan2_spec yy xx) as (B & C & S). assert (TB : Rabs (arctan2 yy xx) <= 31416 / 10000) by (apply Rabs_le; lra).
  assert (E : Rabs (fatan2 yy xx - arctan2 yy xx) <= 73 / 10 * u).
  { destruct (Req_dec (norm2 xx yy) 0) as [Z0|NZ].
    - rewrite Z0 in C, S. rewrite Rmult_0_l in C, S. rewrite <- C, <- S, A0. unfold arctan2. destruct (Rlt_dec 0 0); [lra|]. destruct (Rlt_dec 0 0); [lra|]. rewrite Rminus_0_r, Rabs_R0. lra.
    - eapply Rle_trans; [apply (AT' xx yy (norm2 xx yy)); try assumption; pose proof (norm2_pos xx yy); lra|]. eapply Rle_trans; [apply ulp_rel|].
      assert (2 * u * Rabs (arctan2 yy xx) <= 2 * u * (31416 / 10000)) by (apply Rmult_le_compat_l; lra). lra. }
  set (t := arctan2 yy xx) in *. set (t' := fatan2 yy xx) in *. destruct (Rlt_dec t' 0) as [NEG|POS].
  - exists (t + 2 * PI). split; [right; reflexivity|].
    assert (P1 : Rabs (b64 PI - PI) <= 365 / 100 * u).
    { eapply Rle_trans; [apply b64_rel|]. rewrite (Rabs_pos_eq PI) by lra. assert (u * PI <= u * (31416 / 10000)) by (apply Rmult_le_compat_l; lra). lra. }
    destruct two_pi_facts as (_ & _ & _ & ET). apply Rabs_le_inv in E. apply Rabs_le_inv in P1. apply Rabs_le_inv in TB.
    assert (M : Rabs (t + 2 * PI) <= 6284 / 1000) by (apply Rabs_le; lra).
    assert (E3 : Rabs (t' + two_pi b64 - (t + 2 * PI)) <= 1461 / 100 * u) by (rewrite ET; apply Rabs_le; lra).
    pose proof (b64_step _ _ _ _ M E3) as E4. assert (UU : u * u <= u * (1 / 1000)) by (apply Rmult_le_compat_l; lra).
    assert (E5 : Rabs (b64 (t' + two_pi b64) - (t + 2 * PI)) <= 24 * u) by (eapply Rle_trans; [exact E4|]; lra).
    split; [|exact E5]. apply Rabs_le_inv in E5. apply Rabs_le_inv in M. apply Rabs_le. lra.
  - exists t. split; [left; reflexivity|]. split; [|lra]. apply Rabs_le_inv in E. apply Rabs_le_inv in TB. apply Rabs_le. lra.
Qed.
End Image.

Lemma zsum_turn cs : forall ps r t, zsum cs ps r (t + 2 * PI) = zsum cs ps r t.
Proof.
  induction cs as [|c cs IH]; intros [|[m n] ps] r t; try reflexivity. cbn [zsum]. rewrite IH. unfold Z_nm.
  replace (t + 2 * PI) with (t + 2 * IZR 1 * PI) by ring. rewrite T_period. reflexivity.
Qed.
Definition pixel_ok cs ps w h i j (v : R) : Prop :=
  let x := (j - w / 2)%Z in let y := (h / 2 - i)%Z in let a := (1 + Z.min w h / 2)%Z in
  ((x * x + y * y <= a * a)%Z -> forall rho phi, polar (IZR x) (IZR y) rho phi -> Rabs (v - zsum cs ps (rho / IZR a) phi) <= image_error cs ps) /\
  ((a * a < x * x + y * y)%Z -> v = 0).
Lemma fpixel_okq fatan2 cs ps w h i j : angle_within_ulp fatan2 -> Forall (okp fuel) ps -> cs <> [] -> length cs = length ps -> INR (length ps) <= 1048576 ->
  (0 < w <= 2 ^ 25)%Z -> (0 < h <= 2 ^ 25)%Z -> (0 <= i < h)%Z -> (0 <= j < w)%Z ->
  okq (fpixel b64 pw fcos fsin fatan2 fuel cs ps w h i j) (pixel_ok cs ps w h i j).
Proof.
  intros AT OK NE L KM Hw Hh Hi Hj. assert (V := okp_valid fuel ps OK). assert (IE := inside_exact w h i j Hw Hh Hi Hj). unfold fpixel, pixel_ok.
  set (x := (j - w / 2)%Z) in *. set (y := (h / 2 - i)%Z) in *. set (a := (1 + Z.min w h / 2)%Z) in *.
  destruct (Z_le_gt_dec (x * x + y * y) (a * a)) as [IN|OUT].
  - destruct (frad_facts w h i j Hw Hh Hi Hj IN) as (Fr & Hr & Er & Dr). destruct (fang_facts fatan2 AT w h i j Hw Hh Hi Hj IN) as (t & Ht & H7 & Et).
    fold x y a in Er, Dr, Ht. assert (IT : finside b64 w h i j = true) by (apply IE; exact IN). rewrite IT.
    eapply okq_bind; [apply (fsum_okq _ _ Fr Hr H7 ps cs OK NE L KM)|]. intros v Hv. apply okq_ret. split; [|lia]. intros _ rho phi PO.
    assert (EQ : zsum cs ps (norm2 (IZR x) (IZR y) / IZR a) t = zsum cs ps (rho / IZR a) phi).
    { rewrite <- (zsum_polar cs ps (IZR x) (IZR y) _ _ _ _ (IZR a) V (pixel_polar (IZR y) (IZR x)) PO). unfold pixel_theta. cbn zeta.
      destruct (Rlt_dec (arctan2 (IZR y) (IZR x)) 0); destruct Ht as [-> | ->]; rewrite ?zsum_turn; reflexivity. }
    rewrite <- EQ. clear EQ PO. set (r := norm2 (IZR x) (IZR y) / IZR a) in *. set (r' := frad b64 w h i j) in *. set (t' := fang b64 fatan2 w h i j) in *.
    pose proof (zsum_r ps t' V cs r' r Hr Dr) as Z1. pose proof (zsum_t ps V cs r t' t Dr) as Z2.
    assert (S1 : 0 <= steep_r cs ps) by (apply (lip_nonneg (fun x => zsum cs ps x 0) 0 1); [lra|apply zsum_r; exact V]).
    assert (S2 : 0 <= steep_t cs ps).
    { clear. revert ps. induction cs as [|c cs IH]; intros [|[m n] ps]; cbn [steep_t]; try lra. specialize (IH ps).
      assert (0 <= Rabs c * norm_nm m n * IZR (Z.abs m)) by (apply Rmult_le_pos; [apply Rmult_le_pos; [apply Rabs_pos|apply norm_nonneg]|apply (IZR_le 0); lia]). lra. }
    assert (Z3 : steep_r cs ps * Rabs (r' - r) <= steep_r cs ps * (4 * u)) by (apply Rmult_le_compat_l; assumption).
    assert (Z4 : steep_t cs ps * Rabs (t' - t) <= steep_t cs ps * (24 * u)) by (apply Rmult_le_compat_l; assumption).
    replace (v - zsum cs ps r t) with ((v - zsum cs ps r' t') + ((zsum cs ps r' t' - zsum cs ps r t') + (zsum cs ps r t' - zsum cs ps r t))) by ring.
    eapply Rle_trans; [apply Rabs_triang|]. unfold image_error.
    assert (UV : u = / 2 ^ 53).
    { rewrite u_val. change (-53)%Z with (- (53))%Z. rewrite bpow_opp. f_equal. change 53%Z with (Z.of_nat 53). rewrite bpow_powerRZ, <- pow_powerRZ. reflexivity. }
    unfold Rdiv. rewrite <- UV. assert (Z5 := Rabs_triang (zsum cs ps r' t' - zsum cs ps r t') (zsum cs ps r t' - zsum cs ps r t)). lra.
  - assert (IT : finside b64 w h i j = false). { destruct (finside b64 w h i j) eqn:E; [|reflexivity]. assert (true = true) by reflexivity. apply IE in H. lia. }
    unfold frad, fang. rewrite IT. assert (F0 : F64 0) by (rewrite <- b64_0'; apply b64_F). assert (R0 : 0 <= 0 <= 1) by lra. assert (T0 : Rabs 0 <= 7) by (rewrite Rabs_R0; lra).
    eapply okq_bind; [apply (fsum_okq _ _ F0 R0 T0 ps cs OK NE L KM)|]. intros v _. apply okq_ret. split; [lia|reflexivity].
Qed.
Lemma F2_nth {A B} (P : A -> B -> Prop) da db : forall l l', Forall2 P l l' -> forall k, (k < length l)%nat -> P (nth k l da) (nth k l' db).
Proof. induction 1 as [|x y l l' H F IH]; intros k Hk; [cbn in Hk; lia|]. destruct k as [|k]; [exact H|]. cbn [nth]. apply IH. cbn in Hk. lia. Qed.
Lemma fimage_okq fatan2 cs ps w h : angle_within_ulp fatan2 -> Forall (okp fuel) ps -> cs <> [] -> length cs = length ps -> INR (length ps) <= 1048576 ->
  (0 < w <= 2 ^ 25)%Z -> (0 < h <= 2 ^ 25)%Z ->
  okq (fphases_image b64 pw fcos fsin fatan2 fuel ps cs w h) (fun img => length img = Z.to_nat h /\ (forall row, In row img -> length row = Z.to_nat w) /\
    forall i j, (0 <= i < h)%Z -> (0 <= j < w)%Z -> pixel_ok cs ps w h i j (nth (Z.to_nat j) (nth (Z.to_nat i) img []) 0)).
Proof.
  intros AT OK NE L KM Hw Hh. unfold fphases_image. replace ((w <? 0)%Z || (h <? 0)%Z)%bool with false by lia.
  eapply okq_weak; [|apply (mapM_okq _ (fun i row => Forall2 (fun j v => pixel_ok cs ps w h i j v) (zrange 0 (Z.to_nat w)) row))].
  - intros img F. split; [rewrite <- (F2_len _ _ _ F); apply zrange_len|]. split.
    + intros row HR. destruct (F2_in _ _ _ F row HR) as (i & _ & F'). rewrite <- (F2_len _ _ _ F'). apply zrange_len.
    + intros i j Hi Hj. pose proof (F2_nth _ 0%Z [] _ _ F (Z.to_nat i)) as F'. rewrite zrange_len, zrange_nth in F' by lia. specialize (F' ltac:(lia)).
      replace (0 + Z.of_nat (Z.to_nat i))%Z with i in F' by lia. pose proof (F2_nth _ 0%Z 0 _ _ F' (Z.to_nat j)) as G. rewrite zrange_len, zrange_nth in G by lia. specialize (G ltac:(lia)).
      replace (0 + Z.of_nat (Z.to_nat j))%Z with j in G by lia. exact G.
  - intros i Ii. apply mapM_okq. intros j Ij. apply fpixel_okq; try assumption.
    + apply In_nth with (d := 0%Z) in Ii. destruct Ii as (k & Hk & <-). rewrite zrange_len in Hk. rewrite zrange_nth by exact Hk. lia.
    + apply In_nth with (d := 0%Z) in Ij. destruct Ij as (k & Hk & <-). rewrite zrange_len in Hk. rewrite zrange_nth by exact Hk. lia.
Qed.
End Round.
