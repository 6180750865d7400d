(** Binary64 pixel coordinates of the PSF kernel. *)
From Coq Require Import Reals Lra Lia Psatz.
From Flocq Require Import Core.
From Flocq.Prop Require Import Relative.
From Verif Require Import Py SpecIndex M_Radial M_Coeffs M_Polar L_Polar M_Geo L_Geo M_Psf SpecPsf L_PsfKernel SpecFloat L_Float SpecFloatPsf M_FloatPsf L_FPsf2 L_FPsf3.
Import ListNotations.
Local Open Scope R_scope.

Lemma b64_pure x : / 2 ^ 1000 <= x -> Rabs (b64 x - x) <= u * x.
Proof.
  intros Hx. assert (X0 : 0 < / 2 ^ 1000) by (apply Rinv_0_lt_compat, pow_lt; lra).
  assert (B : bpow radix2 (-1022) <= x).
  { apply Rle_trans with (bpow radix2 (-1000)); [apply bpow_le; lia|]. apply Rle_trans with (/ 2 ^ 1000); [|exact Hx]. right.
    change (-1000)%Z with (- (1000))%Z. rewrite bpow_opp. f_equal. change 1000%Z with (Z.of_nat 1000). rewrite bpow_powerRZ, <- pow_powerRZ. reflexivity. }
  pose proof (relative_error_N_FLT radix2 (-1074) 53 eq_refl (fun z => negb (Z.even z)) x) as RE. rewrite (Rabs_pos_eq x) in RE by lra.
  specialize (RE B). fold ZnearestE in RE. change (round radix2 (FLT_exp (-1074) 53) ZnearestE x) with (b64 x) in RE.
  rewrite u_val. replace (bpow radix2 (-53)) with (/ 2 * bpow radix2 (- (53) + 1)); [exact RE|]. change (/ 2) with (bpow radix2 (-1)). rewrite <- bpow_plus. reflexivity.
Qed.
(** x' is the positive number x after k roundings *)
Definition near_k (k : nat) (x' x : R) : Prop := 0 < x /\ (1 - u) ^ k * x <= x' <= (1 + u) ^ k * x.
Lemma u1 : 0 < 1 - u /\ 1 - u <= 1 <= 1 + u /\ 1 + u <= 2.
Proof. pose proof u_pos. pose proof u_small. lra. Qed.
Lemma pw_pos k : 0 < (1 - u) ^ k /\ 0 < (1 + u) ^ k.
Proof. destruct u1 as (A & B & C). split; apply pow_lt; lra. Qed.
Lemma near_mul j k x' x y' y : near_k j x' x -> near_k k y' y -> near_k (j + k) (x' * y') (x * y).
Proof.
  intros (X & X1 & X2) (Y & Y1 & Y2). destruct (pw_pos j) as (J1 & J2). destruct (pw_pos k) as (K1 & K2). split; [apply Rmult_lt_0_compat; assumption|]. rewrite !pow_add. split.
  - replace ((1 - u) ^ j * (1 - u) ^ k * (x * y)) with (((1 - u) ^ j * x) * ((1 - u) ^ k * y)) by ring. apply Rmult_le_compat; try assumption; apply Rlt_le, Rmult_lt_0_compat; assumption.
  - replace ((1 + u) ^ j * (1 + u) ^ k * (x * y)) with (((1 + u) ^ j * x) * ((1 + u) ^ k * y)) by ring.
    apply Rmult_le_compat; try assumption; (eapply Rle_trans; [|eassumption]); apply Rlt_le, Rmult_lt_0_compat; assumption.
Qed.
Lemma near_exact x : 0 < x -> near_k 0 x x.
Proof. intros H. split; [exact H|]. cbn [pow]. lra. Qed.
Lemma half_k k : (k <= 10)%nat -> / 2 <= (1 - u) ^ k.
Proof.
  intros Hk. pose proof u_pos as U. pose proof u_small as US.
  assert (G : forall j : nat, 1 - INR j * u <= (1 - u) ^ j).
  { induction j as [|j IH]; [cbn; lra|]. rewrite S_INR. cbn [pow]. pose proof (pos_INR j). assert (0 <= INR j * u) by (apply Rmult_le_pos; lra).
    apply Rle_trans with ((1 - u) * (1 - INR j * u)); [|apply Rmult_le_compat_l; lra]. assert (0 <= u * (INR j * u)) by (apply Rmult_le_pos; lra). lra. }
  specialize (G k). apply le_INR in Hk. replace (INR 10) with 10 in Hk by (simpl; lra). assert (INR k * u <= 10 * u) by (apply Rmult_le_compat_r; lra). lra.
Qed.
Lemma near_round k x' x : (k <= 10)%nat -> near_k k x' x -> 2 * / 2 ^ 1000 <= x -> near_k (S k) (b64 x') x.
Proof.
  intros Hk (X & X1 & X2) HX. pose proof (half_k k Hk) as H2. destruct (pw_pos k) as (K1 & K2). destruct u1 as (A & B & C).
  assert (HX' : / 2 ^ 1000 <= x'). { eapply Rle_trans; [|exact X1]. apply Rle_trans with (/ 2 * x); [lra|]. apply Rmult_le_compat_r; lra. }
  pose proof (b64_pure x' HX') as E. apply Rabs_le_inv in E. split; [exact X|]. cbn [pow]. split.
  - apply Rle_trans with ((1 - u) * x'); [rewrite Rmult_assoc; apply Rmult_le_compat_l; lra|lra].
  - apply Rle_trans with ((1 + u) * x'); [lra|rewrite Rmult_assoc; apply Rmult_le_compat_l; lra].
Qed.
Lemma near_sqrt x' x : near_k 1 x' x -> near_k 1 (sqrt x') (sqrt x).
Proof.
  intros (X & X1 & X2). destruct u1 as (A & B & C). cbn [pow] in X1, X2. rewrite Rmult_1_r in X1, X2. split; [apply sqrt_lt_R0, X|]. cbn [pow]. rewrite !Rmult_1_r.
  assert (S1 : (1 - u) * sqrt x = sqrt ((1 - u) * (1 - u) * x)) by (rewrite sqrt_mult by (try apply Rmult_le_pos; lra); rewrite sqrt_square by lra; reflexivity).
  assert (S2 : (1 + u) * sqrt x = sqrt ((1 + u) * (1 + u) * x)) by (rewrite sqrt_mult by (try apply Rmult_le_pos; lra); rewrite sqrt_square by lra; reflexivity).
  rewrite S1, S2. split; apply sqrt_le_1_alt.
  - eapply Rle_trans; [|exact X1]. apply Rmult_le_compat_r; [lra|]. apply Rle_trans with ((1 - u) * 1); [apply Rmult_le_compat_l; lra|lra].
  - eapply Rle_trans; [exact X2|]. apply Rmult_le_compat_r; [lra|]. apply Rle_trans with ((1 + u) * 1); [lra|apply Rmult_le_compat_l; lra].
Qed.
Lemma near_err k x' x : (k <= 7)%nat -> near_k k x' x -> Rabs (x' - x) <= 8 * u * x.
Proof.
  intros Hk (X & X1 & X2). pose proof u_pos as U. pose proof u_small as US.
  assert (A : 1 - 8 * u <= (1 - u) ^ k /\ (1 + u) ^ k <= 1 + 8 * u).
  { assert (G : forall j : nat, (j <= 7)%nat -> 1 - INR j * u <= (1 - u) ^ j /\ (1 + u) ^ j <= 1 + 8 / 7 * (INR j * u)).
    { induction j as [|j IH]; intros Hj; [cbn; lra|]. destruct (IH ltac:(lia)) as (I1 & I2). rewrite S_INR. cbn [pow]. pose proof (pos_INR j). assert (J7 : INR j <= 7).
      { replace 7 with (INR 7) by (simpl; lra). apply le_INR. lia. }
      assert (J0 : 0 <= INR j * u) by (apply Rmult_le_pos; lra). assert (0 <= u * (INR j * u)) by (apply Rmult_le_pos; lra).
      assert (INR j * u <= 7 * u) by (apply Rmult_le_compat_r; lra). assert (u * (INR j * u) <= u * (1 / 100)) by (apply Rmult_le_compat_l; lra). split.
      - apply Rle_trans with ((1 - u) * (1 - INR j * u)); [lra|apply Rmult_le_compat_l; lra].
      - apply Rle_trans with ((1 + u) * (1 + 8 / 7 * (INR j * u))); [apply Rmult_le_compat_l; lra|lra]. }
    destruct (G k Hk) as (G1 & G2). apply le_INR in Hk. replace (INR 7) with 7 in Hk by (simpl; lra). assert (INR k * u <= 7 * u) by (apply Rmult_le_compat_r; lra). lra. }
  destruct A as (A1 & A2). apply (Rmult_le_compat_r x) in A1; [|lra]. apply (Rmult_le_compat_r x) in A2; [|lra]. apply Rabs_le. lra.
Qed.

Lemma p200 : 0 < / 2 ^ 200 /\ 2 ^ 200 * / 2 ^ 200 = 1 /\ 2 * / 2 ^ 1000 <= / 2 ^ 200 * (/ 2 ^ 200 * / 2 ^ 200).
Proof.
  assert (P : 0 < 2 ^ 200) by (apply pow_lt; lra). split; [apply Rinv_0_lt_compat, P|]. split; [apply Rinv_r; lra|].
  assert (E : 2 ^ 1000 = 2 ^ 200 * (2 ^ 200 * 2 ^ 200) * 2 ^ 400) by (rewrite <- !pow_add; reflexivity).
  rewrite E. clear E. generalize (2 ^ 200) P. clear P. intros q P. assert (Q : 2 <= 2 ^ 400). { replace 2 with (2 ^ 1) at 1 by lra. apply Rle_pow; [lra|lia]. }
  rewrite <- !Rinv_mult. assert (Y : 0 < / (q * (q * q))) by (apply Rinv_0_lt_compat; repeat apply Rmult_lt_0_compat; exact P).
  rewrite (Rinv_mult (q * (q * q)) (2 ^ 400)). set (w := / (q * (q * q))) in *.
  assert (I : / 2 ^ 400 <= / 2) by (apply Rinv_le_contravar; lra). assert (w * / 2 ^ 400 <= w * / 2) by (apply Rmult_le_compat_l; lra). lra.
Qed.
Lemma tiny_mul a b c : / 2 ^ 200 <= a -> / 2 ^ 200 <= b -> / 2 ^ 200 <= c -> 2 * / 2 ^ 1000 <= a * (b * c).
Proof.
  intros A B C. destruct p200 as (P & _ & Q). eapply Rle_trans; [exact Q|]. apply Rmult_le_compat; [lra|apply Rmult_le_pos; lra|lra|]. apply Rmult_le_compat; lra.
Qed.
Lemma p200_1 : / 2 ^ 200 <= 1.
Proof. rewrite <- Rinv_1. apply Rinv_le_contravar; [lra|]. apply pow_R1_Rle. lra. Qed.

Section Pixel.
Variables wl NA px : R.
Hypothesis OW : ordinary wl.
Hypothesis ON : ordinary NA.
Hypothesis OP : ordinary px.

Lemma scale_near : near_k 4 (b64 (b64 (b64 (two_pi b64 / wl) * NA) * px)) (2 * PI / wl * NA * px).
Proof.
  destruct p200 as (P & P1 & _). pose proof PI_tight as PT. destruct OW as (W1 & W2). destruct ON as (N1 & N2). destruct OP as (X1 & X2).
  destruct two_pi_facts as (_ & _ & _ & ET). pose proof p200_1 as L1.
  assert (WI : / 2 ^ 200 <= / wl) by (apply Rinv_le_contravar; lra).
  assert (T1 : near_k 1 (two_pi b64) (2 * PI)).
  { rewrite ET. pose proof (b64_pure PI) as E. specialize (E ltac:(apply Rle_trans with 1; [rewrite <- Rinv_1; apply Rinv_le_contravar; [lra|apply pow_R1_Rle; lra]|lra])).
    apply Rabs_le_inv in E. split; [lra|]. cbn [pow]. lra. }
  assert (T2 : near_k 2 (b64 (two_pi b64 / wl)) (2 * PI / wl)).
  { apply near_round; [lia| |].
    - apply (near_mul 1 0); [exact T1|]. apply near_exact. apply Rinv_0_lt_compat. lra.
    - unfold Rdiv. rewrite <- (Rmult_1_r (/ wl)). apply tiny_mul; lra. }
  assert (T3 : near_k 3 (b64 (b64 (two_pi b64 / wl) * NA)) (2 * PI / wl * NA)).
  { apply near_round; [lia| |].
    - apply (near_mul 2 0); [exact T2|]. apply near_exact. lra.
    - unfold Rdiv. rewrite Rmult_assoc. apply tiny_mul; lra. }
  apply near_round; [lia| |].
  - apply (near_mul 3 0); [exact T3|]. apply near_exact. lra.
  - apply Rle_trans with (/ wl * (NA * px)); [apply tiny_mul; lra|]. assert (0 <= / wl * (NA * px)) by (repeat apply Rmult_le_pos; lra).
    replace (2 * PI / wl * NA * px) with (2 * PI * (/ wl * (NA * px))) by (unfold Rdiv; ring). rewrite <- (Rmult_1_l (/ wl * (NA * px))) at 1. apply Rmult_le_compat_r; lra.
Qed.
Lemma b64_0' : b64 0 = 0. Proof. apply (b64_IZR 0). lia. Qed.
Lemma pix_d_int size i j : pix_d size i j = sqrt (IZR ((i - size / 2) * (i - size / 2) + (j - size / 2) * (j - size / 2))).
Proof. unfold pix_d. rewrite plus_IZR, !mult_IZR. reflexivity. Qed.
Lemma pixel_r_err size i j : Rabs (fpixel_r b64 (b64 (two_pi b64 / wl)) NA px size i j - 2 * PI / wl * NA * px * pix_d size i j) <= 8 * u * Rabs (2 * PI / wl * NA * px * pix_d size i j).
Proof.
  unfold fpixel_r. rewrite pix_d_int. set (q := ((i - size / 2) * (i - size / 2) + (j - size / 2) * (j - size / 2))%Z).
  destruct (Z.eq_dec q 0) as [->|NZ].
  - rewrite b64_0', sqrt_0, b64_0', !Rmult_0_r, b64_0', Rminus_0_r, Rabs_R0. lra.
  - assert (Q1 : 1 <= IZR q) by (apply (IZR_le 1); pose proof (Z.square_nonneg (i - size / 2)); pose proof (Z.square_nonneg (j - size / 2)); unfold q in NZ |- *; lia). pose proof p200_1 as L1. destruct p200 as (P & _ & _).
    assert (S1 : 1 <= sqrt (IZR q)) by (rewrite <- sqrt_1; apply sqrt_le_1_alt, Q1).
    assert (G1 : forall z, 1 <= z -> 2 * / 2 ^ 1000 <= z). { intros z Hz. rewrite <- (Rmult_1_r z), <- (Rmult_1_r 1). apply tiny_mul; lra. }
    assert (N : near_k 7 (b64 (b64 (b64 (b64 (two_pi b64 / wl) * NA) * px) * b64 (sqrt (b64 (IZR q))))) (2 * PI / wl * NA * px * sqrt (IZR q))).
    { apply near_round; [lia| |].
      - apply (near_mul 4 2); [exact scale_near|]. apply near_round; [lia| |apply G1, S1]. apply near_sqrt. apply near_round; [lia| |apply G1, Q1]. apply near_exact. lra.
      - destruct OW as (W1 & W2). destruct ON as (N1 & N2). destruct OP as (X1 & X2). pose proof PI_tight as PT. destruct p200 as (_ & P1 & _).
        assert (WI : / 2 ^ 200 <= / wl) by (apply Rinv_le_contravar; lra).
        apply Rle_trans with (/ wl * (NA * px)); [apply tiny_mul; lra|]. assert (Y : 0 <= / wl * (NA * px)) by (repeat apply Rmult_le_pos; lra).
        replace (2 * PI / wl * NA * px * sqrt (IZR q)) with (2 * PI * sqrt (IZR q) * (/ wl * (NA * px))) by (unfold Rdiv; ring).
        rewrite <- (Rmult_1_l (/ wl * (NA * px))) at 1. apply Rmult_le_compat_r; [exact Y|]. rewrite <- (Rmult_1_l 1). apply Rmult_le_compat; lra. }
    pose proof (proj1 N) as POS. rewrite (Rabs_pos_eq (2 * PI / wl * NA * px * sqrt (IZR q))) by lra. apply (near_err 7); [lia|exact N].
Qed.
End Pixel.

Section Angle.
Variable fatan2 : R -> R -> R.
Hypothesis AT : angle_within_ulp fatan2.
Lemma pixel_theta_err size i j : (0 <= i < size)%Z -> (0 <= j < size)%Z -> (size <= 2 ^ 53)%Z ->
  Rabs (fpixel_theta b64 fatan2 size i j) <= 7 /\ Rabs (fpixel_theta b64 fatan2 size i j - pix_t size i j) <= 18 * u.
Proof.
  intros Hi Hj HS. pose proof u_pos as U. pose proof u_small as US. pose proof PI_tight as PT. destruct AT as (A0 & AT').
  assert (D : (0 <= size / 2 <= size)%Z) by (split; [apply Z.div_pos; lia|apply Z.div_le_upper_bound; lia]).
  unfold fpixel_theta, pix_t. rewrite !b64_IZR by lia. set (y := IZR (i - size / 2)). set (x := IZR (j - size / 2)).
  assert (Fx : float64 x) by (unfold x; rewrite <- b64_IZR by lia; apply b64_F). assert (Fy : float64 y) by (unfold y; rewrite <- b64_IZR by lia; apply b64_F).
  destruct (arctan2_spec y x) as (B & C & S). assert (TB : Rabs (arctan2 y x) <= 31416 / 10000) by (apply Rabs_le; lra).
  assert (E : Rabs (fatan2 y x - arctan2 y x) <= 73 / 10 * u).
  { destruct (Req_dec (norm2 x y) 0) as [Z0|NZ].
    - rewrite Z0 in C, S. rewrite Rmult_0_l in C, S. rewrite <- C, <- S, A0. unfold arctan2. destruct (Rlt_dec 0 0); [lra|]. destruct (Rlt_dec 0 0); [lra|]. rewrite Rminus_0_r, Rabs_R0. lra.
    - eapply Rle_trans; [apply (AT' x y (norm2 x y)); try assumption; pose proof (norm2_pos x y); lra|]. eapply Rle_trans; [apply ulp_rel|].
      assert (2 * u * Rabs (arctan2 y x) <= 2 * u * (31416 / 10000)) by (apply Rmult_le_compat_l; lra). lra. }
  assert (P1 : Rabs (b64 PI - PI) <= 365 / 100 * u).
  { eapply Rle_trans; [apply b64_rel|]. rewrite (Rabs_pos_eq PI) by lra. assert (u * PI <= u * (31416 / 10000)) by (apply Rmult_le_compat_l; lra). lra. }
  assert (M : Rabs (arctan2 y x + PI) <= 62832 / 10000) by (apply Rabs_le; lra).
  assert (E3 : Rabs (fatan2 y x + b64 PI - (arctan2 y x + PI)) <= 1095 / 100 * u).
  { replace (fatan2 y x + b64 PI - (arctan2 y x + PI)) with ((fatan2 y x - arctan2 y x) + (b64 PI - PI)) by ring. eapply Rle_trans; [apply Rabs_triang|]. lra. }
  pose proof (b64_step _ _ _ _ M E3) as E4. assert (UU : u * u <= u * (1 / 1000)) by (apply Rmult_le_compat_l; lra).
  assert (E5 : Rabs (b64 (fatan2 y x + b64 PI) - (arctan2 y x + PI)) <= 18 * u) by (eapply Rle_trans; [exact E4|]; lra).
  split; [|exact E5]. apply Rabs_le_inv in E5. apply Rabs_le_inv in M. apply Rabs_le. lra.
Qed.
End Angle.
