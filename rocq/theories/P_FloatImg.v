(** Property theorems C70: convolution with a kernel in binary64. *)
From Coq Require Import Reals Lra Lia Psatz.
From Flocq Require Import Core.
From Verif Require Import Py M_Radial M_Coeffs M_Sum M_Psf SpecPsf L_Psf L_PsfKernel L_Phases M_Numba M_Polar L_Polar L_Float SpecFloat SpecFloatPsf L_FPsf1 M_Img SpecImg L_Img M_FloatImg L_FloatImg P_Img P_Norm.
Import ListNotations.
Local Open Scope R_scope.

(** DBL_EPSILON *)
Definition dbl_epsilon : R := / 2 ^ 52.
(** the distance that rounding may make: kernels of n weights, pixels of modulus up to A *)
Definition conv_tolerance (n : Z) (A : R) : R := (6 * IZR n + 3) * / 2 ^ 53 * A + IZR n * / 2 ^ 1000.
(** a kernel of nonnegative binary64 numbers, none of which is so small that scipy drops it, and not all zero *)
Definition good_kernel (kh kw : Z) (k : Z -> Z -> R) : Prop :=
  (forall a b, (0 <= a < kh)%Z -> (0 <= b < kw)%Z -> 0 <= k a b /\ float64 (k a b)) /\ no_tiny dbl_epsilon kh kw k /\ 0 < sum2 kh kw k /\ (kh * kw <= 2 ^ 42)%Z.

Lemma eps52 : 0 <= dbl_epsilon. Proof. unfold dbl_epsilon. apply Rlt_le, Rinv_0_lt_compat, pow_lt. lra. Qed.
Lemma size_ok n : (n <= 2 ^ 42)%Z -> 2 * IZR n * u <= 1 / 1000.
Proof.
  intros Hn. apply IZR_le in Hn. unfold u. assert (E : 2 ^ 53 = 9007199254740992) by (rewrite (pow_IZR 2 53); reflexivity). rewrite E.
  change (IZR (2 ^ 42)) with 4398046511104 in Hn. lra.
Qed.
Lemma tol_pos n A : (1 <= n)%Z -> 0 <= A -> 0 < conv_tolerance n A.
Proof.
  intros Hn A0. apply IZR_le in Hn. unfold conv_tolerance. fold u. pose proof u_pos as U. destruct tiny_small as [_ T]. assert (0 <= (6 * IZR n + 3) * u * A) by (apply Rmult_le_pos; [apply Rmult_le_pos; lra|exact A0]).
  assert (0 < IZR n * / 2 ^ 1000) by (apply Rmult_lt_0_compat; lra). lra.
Qed.
(** one pixel before the scaling *)
Lemma raw_close npsum f g A v k h w kh kw i j : sums_somehow npsum -> (1 <= h)%Z -> (1 <= w)%Z -> (1 <= kh)%Z -> (1 <= kw)%Z -> mirrors h f -> mirrors w g -> good_kernel kh kw k ->
  (forall a b, (0 <= a < h)%Z -> (0 <= b < w)%Z -> Rabs (v a b) <= A) ->
  Rabs (fraw npsum dbl_epsilon kh kw k v h w i j - blurred f g kh kw k v i j) <= conv_tolerance (kh * kw) A /\
  ((forall a b, (0 <= a < h)%Z -> (0 <= b < w)%Z -> 0 <= v a b) -> 0 <= fraw npsum dbl_epsilon kh kw k v h w i j).
Proof.
  intros SS H W KH KW F G (KP & NT & SP & NB) VA. apply size_ok in NB.
  assert (KP0 : forall a b, (0 <= a < kh)%Z -> (0 <= b < kw)%Z -> 0 <= k a b) by (intros; apply KP; assumption).
  assert (KF0 : forall a b, (0 <= a < kh)%Z -> (0 <= b < kw)%Z -> F64 (k a b)) by (intros; apply KP; assumption).
  pose proof (N_ge1 kh kw KH KW) as N1. pose proof (A_nonneg A v h w H W VA) as A0.
  pose proof (conv_close f g dbl_epsilon A v k h w kh kw H W KH KW F G NT VA KP0 NB i j) as CC. pose proof (conv_abs f g A v k h w kh kw H W F G VA KP0 i j) as CA.
  pose proof (kernel_sum k kh kw KH KW KP0 NB KF0 npsum SS) as KS. pose proof (sum2_gap dbl_epsilon kh kw k eps52 NT KP0 SP) as SG.
  set (c := conv_pixel b64 dbl_epsilon (table2 v h w) (table2 k kh kw) i j) in *.
  destruct (quot_num (IZR (kh * kw)) A (sum2 kh kw k) (npsum (concat (table2 k kh kw))) (convolution f g kh kw k v i j) c (b64 (c / npsum (concat (table2 k kh kw)))) N1 A0 NB SG KS CA CC eq_refl) as [S1 Q].
  unfold fraw. fold c. cbv zeta. rewrite (proj2 (Rltb_true' _ _) S1). split.
  - unfold blurred. destruct (Rlt_dec 0 (sum2 kh kw k)); [exact Q|contradiction].
  - intros VP. apply b64_nonneg. apply Rmult_le_pos; [|apply Rlt_le, Rinv_0_lt_compat, S1]. apply conv_pos; assumption.
Qed.
Lemma scale_num M B B' x x' d y : 0 <= x <= B -> 0 <= x' <= B' -> Rabs (x' - x) <= d -> Rabs (B' - B) <= d -> 4 * d <= B -> 0 < B -> B <= M -> y = b64 (x' * b64 (M / B')) ->
  Rabs (y - x * (M / B)) <= 3 * (M / B) * d + 3 * u * M + (M + 1) * / 2 ^ 1000 /\ 0 <= y.
Proof.
  intros X X' DX DB D4 B0 BM ->. pose proof u_pos as U. pose proof u_small as US. pose proof eta_pos as E0. destruct tiny_small as [TS TP].
  assert (M0 : 0 < M) by lra. assert (d0 : 0 <= d) by (eapply Rle_trans; [apply Rabs_pos|exact DX]).
  assert (BL : 3 / 4 * B <= B') by (apply Rabs_le_inv in DB; lra). assert (BU : B' <= 2 * M) by (apply Rabs_le_inv in DB; lra). assert (B'0 : 0 < B') by lra.
  pose proof (quotient_close x' x B' B d (3 / 4 * B) DX DB X ltac:(lra) B0) as QC.
  assert (Q2 : Rabs (x' / B' * M - x * (M / B)) <= 8 / 3 * (M / B * d)).
  { replace (x' / B' * M - x * (M / B)) with ((x' / B' - x / B) * M) by (field; lra). rewrite Rabs_mult, (Rabs_pos_eq M) by lra. replace (8 / 3 * (M / B * d)) with (2 * d / (3 / 4 * B) * M) by (field; lra). apply Rmult_le_compat_r; lra. }
  assert (R1 : 0 <= x' / B' <= 1). { split; [apply Rmult_le_pos; [lra|apply Rlt_le, Rinv_0_lt_compat, B'0]|]. apply Rmult_le_reg_r with B'; [exact B'0|]. unfold Rdiv. rewrite Rmult_assoc, Rinv_l by lra. lra. }
  assert (MB0 : 0 <= M / B') by (apply Rmult_le_pos; [lra|apply Rlt_le, Rinv_0_lt_compat, B'0]).
  pose proof (b64_sharp (M / B')) as S1. rewrite (Rabs_pos_eq (M / B')) in S1 by exact MB0. set (f := b64 (M / B')) in *.
  assert (f0 : 0 <= f) by (apply b64_nonneg, MB0).
  assert (S2 : Rabs (x' * f - x' / B' * M) <= u * M + B' * eta).
  { replace (x' * f - x' / B' * M) with (x' * (f - M / B')) by (field; lra). rewrite Rabs_mult, (Rabs_pos_eq x') by lra.
    apply Rle_trans with (x' * (u * (M / B') + eta)); [apply Rmult_le_compat_l; lra|]. replace (x' * (u * (M / B') + eta)) with (u * M * (x' / B') + x' * eta) by (field; lra).
    apply Rplus_le_compat; [rewrite <- (Rmult_1_r (u * M)) at 2; apply Rmult_le_compat_l; [apply Rmult_le_pos; lra|lra]|apply Rmult_le_compat_r; lra]. }
  assert (XM : x' / B' * M <= M) by (rewrite <- (Rmult_1_l M) at 2; apply Rmult_le_compat_r; lra).
  assert (XM0 : 0 <= x' / B' * M) by (apply Rmult_le_pos; lra).
  assert (S3 : Rabs (x' * f) <= M + (u * M + B' * eta)) by (apply Rabs_le_inv in S2; apply Rabs_le; lra).
  pose proof (b64_sharp (x' * f)) as S4. split; [|apply b64_nonneg, Rmult_le_pos; lra].
  assert (BE : B' * eta <= 2 * M * eta) by (apply Rmult_le_compat_r; lra).
  assert (S5 : u * Rabs (x' * f) <= u * (M + (u * M + B' * eta))) by (apply Rmult_le_compat_l; lra).
  assert (UM : 0 <= u * M) by (apply Rmult_le_pos; lra). assert (ME : 0 <= M * eta) by (apply Rmult_le_pos; lra).
  assert (UU : u * (u * M) <= 1 / 1000000000000 * (u * M)) by (apply Rmult_le_compat_r; lra).
  assert (UB : u * (B' * eta) <= 1 / 1000000000000 * (B' * eta)) by (apply Rmult_le_compat_r; [apply Rmult_le_pos; lra|lra]).
  assert (DD : 0 <= M / B * d) by (apply Rmult_le_pos; [apply Rmult_le_pos; [lra|apply Rlt_le, Rinv_0_lt_compat, B0]|exact d0]).
  assert (E8 : eta <= / 2 ^ 1000 / 8). { eapply Rle_trans; [|exact TS]. rewrite <- (Rmult_1_r eta) at 1. apply Rmult_le_compat_l; [lra|]. apply pow_R1_Rle. lra. }
  assert (ME8 : M * eta <= M * (/ 2 ^ 1000 / 8)) by (apply Rmult_le_compat_l; lra).
  replace (b64 (x' * f) - x * (M / B)) with ((b64 (x' * f) - x' * f) + ((x' * f - x' / B' * M) + (x' / B' * M - x * (M / B)))) by ring.
  eapply Rle_trans; [apply Rabs_triang|]. pose proof (Rabs_triang (x' * f - x' / B' * M) (x' / B' * M - x * (M / B))) as TR.
  set (tt := / 2 ^ 1000) in *. replace (3 * (M / B) * d) with (3 * (M / B * d)) by ring. set (z := M / B * d) in *. replace ((M + 1) * tt) with (M * tt + tt) by ring. replace (M * (tt / 8)) with (M * tt / 8) in ME8 by field. assert (0 <= M * tt) by (apply Rmult_le_pos; lra). replace (u * (M + (u * M + B' * eta))) with (u * M + (u * (u * M) + u * (B' * eta))) in S5 by ring.
  replace (3 * u * M) with (3 * (u * M)) by ring. replace (2 * M * eta) with (2 * (M * eta)) in BE by ring. lra.
Qed.

(** ** C70 *)
(** The program: with the fixed order of M_Img it is that function; the orders include the plain loop. *)
Theorem C70_program : (forall rnd eps cast t I K s, fconvolute_img_psf rnd (fun l => fold_left (fun acc x => rnd (acc + x)) l 0) eps cast t I K s = convolute_img_psf rnd eps cast t I K s) /\
  exists npsum, sums_somehow npsum.
Proof. split; [reflexivity|]. eexists. exact fold_sums. Qed.
Print Assumptions C70_program.
(** Every pixel of the result is within the tolerance of the exact blurred image. *)
Theorem C70_value : forall npsum cast I K h w v kh kw k f g A i j, sums_somehow npsum -> is_array I h w v -> is_array K kh kw k -> mirrors h f -> mirrors w g -> good_kernel kh kw k ->
  (forall a b, (0 <= a < h)%Z -> (0 <= b < w)%Z -> Rabs (v a b) <= A) -> A <= 2 ^ 1000 -> sum2 kh kw k <= 2 ^ 20 -> (0 <= i < h)%Z -> (0 <= j < w)%Z ->
  exists x, entry (fconvolute_img_psf near64 npsum dbl_epsilon cast DFloat I K false) i j = Some (Fin x) /\ Rabs (x - blurred f g kh kw k v i j) <= conv_tolerance (kh * kw) A.
Proof.
  intros npsum cast I K h w v kh kw k f g A i j SS HI HK F G GK VA _ _ Hi Hj. destruct (HI) as (H & W & _). destruct (HK) as (KH & KW & _).
  exists (fraw npsum dbl_epsilon kh kw k v h w i j). split; [exact (fconv_entry npsum dbl_epsilon cast DFloat I K false h w v kh kw k i j HI HK Hi Hj)|].
  apply raw_close; assumption.
Qed.
Print Assumptions C70_value.
(** Images of unsigned integers, without scaling: the pixel is in the range of the image and differs from the truncation of the exact value only if that is within the tolerance of an integer. *)
Theorem C70_unsigned : forall npsum cast bits I K h w p kh kw k m f g i j, sums_somehow npsum -> is_array I h w (fun i j => IZR (p i j)) -> is_array K kh kw k -> mirrors h f -> mirrors w g -> good_kernel kh kw k ->
  (forall a b, (0 <= a < h)%Z -> (0 <= b < w)%Z -> (0 <= p a b <= m)%Z) -> (m < 2 ^ bits)%Z -> ((6 * (kh * kw) + 3) * m <= 2 ^ 52)%Z -> sum2 kh kw k <= 2 ^ 20 ->
  (0 <= i < h)%Z -> (0 <= j < w)%Z ->
  exists q, entry (fconvolute_img_psf near64 npsum dbl_epsilon cast (DUint bits) I K false) i j = Some (Fin (IZR q)) /\ (0 <= q <= m)%Z /\
    let x := blurred f g kh kw k (fun i j => IZR (p i j)) i j in let d := conv_tolerance (kh * kw) (IZR m) in x - d - 1 < IZR q <= x + d.
Proof.
  intros npsum cast bits I K h w p kh kw k m f g i j SS HI HK F G GK V MB MN _ Hi Hj. destruct (HI) as (H & W & _). destruct (HK) as (KH & KW & _). cbv zeta.
  assert (VA : forall a b, (0 <= a < h)%Z -> (0 <= b < w)%Z -> Rabs (IZR (p a b)) <= IZR m) by (intros a b Ha Hb; specialize (V a b Ha Hb); rewrite Rabs_pos_eq by (apply IZR_le; lia); apply IZR_le; lia).
  destruct (raw_close npsum f g (IZR m) (fun i j => IZR (p i j)) k h w kh kw i j SS H W KH KW F G GK VA) as [C P].
  assert (P0 : 0 <= fraw npsum dbl_epsilon kh kw k (fun i j => IZR (p i j)) h w i j) by (apply P; intros a b Ha Hb; apply IZR_le; apply V; assumption). clear P.
  pose proof (fconv_entry npsum dbl_epsilon cast (DUint bits) I K false h w _ kh kw k i j HI HK Hi Hj) as E. change b64 with near64 in E.
  assert (B : 0 <= blurred f g kh kw k (fun i j => IZR (p i j)) i j <= IZR m).
  { destruct GK as (KP & _ & SP & _). apply (blurred_range _ _ kh kw k _ h w); try assumption; [intros a b Ha Hb; apply (KP a b Ha Hb)|]. intros a b Ha Hb. specialize (V a b Ha Hb). split; apply IZR_le; lia. }
  assert (N1 : (1 <= kh * kw)%Z) by nia. assert (M0 : (0 <= m)%Z) by (specialize (V i j Hi Hj); lia).
  assert (D1 : conv_tolerance (kh * kw) (IZR m) < 1).
  { unfold conv_tolerance. fold u. destruct GK as (_ & _ & _ & NB). destruct tiny_small as [_ TP]. apply IZR_le in MN. rewrite !mult_IZR, plus_IZR, !mult_IZR in MN. apply IZR_le in NB. rewrite mult_IZR in *. 
    assert (T : / 2 ^ 1000 <= / 2 ^ 44). { apply Rinv_le_contravar; [apply pow_lt; lra|]. apply Rle_pow; [lra|lia]. }
    assert (E44 : 2 ^ 44 = 17592186044416) by (rewrite (pow_IZR 2 44); reflexivity). assert (E53 : 2 ^ 53 = 9007199254740992) by (rewrite (pow_IZR 2 53); reflexivity).
    change (IZR (2 ^ 42)) with 4398046511104 in NB. change (IZR (2 ^ 52)) with 4503599627370496 in MN. rewrite E44 in T.
    assert (K1 : 1 <= IZR kh * IZR kw) by (rewrite <- mult_IZR; apply IZR_le; lia).
    assert (IZR kh * IZR kw * / 2 ^ 1000 <= 4398046511104 * / 17592186044416) by (apply Rmult_le_compat; lra).
    unfold u. rewrite E53. replace ((6 * (IZR kh * IZR kw) + 3) * / 9007199254740992 * IZR m) with ((6 * (IZR kh * IZR kw) + 3) * IZR m * / 9007199254740992) by ring. lra. }
  set (x := fraw _ _ _ _ _ _ _ _ _ _) in *. set (y := blurred _ _ _ _ _ _ _ _) in *. set (d := conv_tolerance _ _) in *. apply Rabs_le_inv in C.
  exists (Zfloor x). assert (A1 := Zfloor_lb x). assert (A2 := Zfloor_ub x). assert (L : (0 <= Zfloor x)%Z) by (apply Zfloor_lub; lra).
  assert (U : (Zfloor x < m + 1)%Z) by (apply lt_IZR; rewrite plus_IZR; lra). rewrite E. cbn [astype]. rewrite Ztrunc_floor by lra. cbv zeta. rewrite (proj2 (Z.leb_le _ _) L), (proj2 (Z.ltb_lt _ _)) by lia. cbn [andb].
  split; [reflexivity|]. split; [lia|]. lra.
Qed.
Print Assumptions C70_unsigned.
(** A uniform image of unsigned integers keeps its value or loses one. *)
Theorem C70_uniform : forall npsum cast bits I K h w c kh kw k i j, sums_somehow npsum -> is_array I h w (fun _ _ => IZR c) -> is_array K kh kw k -> good_kernel kh kw k ->
  (0 <= c < 2 ^ bits)%Z -> ((6 * (kh * kw) + 3) * c <= 2 ^ 52)%Z -> sum2 kh kw k <= 2 ^ 20 -> (0 <= i < h)%Z -> (0 <= j < w)%Z ->
  exists q, entry (fconvolute_img_psf near64 npsum dbl_epsilon cast (DUint bits) I K false) i j = Some (Fin (IZR q)) /\ (q = c \/ q = c - 1)%Z.
Proof.
  intros npsum cast bits I K h w c kh kw k i j SS HI HK GK C CN SB Hi Hj. destruct (HI) as (H & W & _). destruct (HK) as (KH & KW & _).
  destruct (C70_unsigned npsum cast bits I K h w (fun _ _ => c) kh kw k c (reflect h) (reflect w) i j SS HI HK (reflect_mirrors h H) (reflect_mirrors w W) GK ltac:(lia) ltac:(lia) CN SB Hi Hj) as (q & E & (Q0 & Q1) & (D1 & D2)).
  exists q. split; [exact E|]. assert (B : IZR c <= blurred (reflect h) (reflect w) kh kw k (fun _ _ => IZR c) i j).
  { destruct GK as (KP & _ & SP & _). apply (blurred_range _ _ kh kw k _ h w (IZR c) (IZR c)); try assumption; try (apply reflect_mirrors; assumption); [intros a b Ha Hb; apply (KP a b Ha Hb)|]. intros; lra. }
  assert (N1 : (1 <= kh * kw)%Z) by nia.
  assert (T1 : conv_tolerance (kh * kw) (IZR c) < 1).
  { unfold conv_tolerance. destruct GK as (_ & _ & _ & NB). apply IZR_le in CN. rewrite !mult_IZR, plus_IZR, !mult_IZR in CN. apply IZR_le in NB, N1. rewrite mult_IZR in *.
    assert (T : / 2 ^ 1000 <= / 2 ^ 44). { apply Rinv_le_contravar; [apply pow_lt; lra|]. apply Rle_pow; [lra|lia]. } destruct tiny_small as [_ TP].
    assert (E44 : 2 ^ 44 = 17592186044416) by (rewrite (pow_IZR 2 44); reflexivity). assert (E53 : 2 ^ 53 = 9007199254740992) by (rewrite (pow_IZR 2 53); reflexivity).
    change (IZR (2 ^ 42)) with 4398046511104 in NB. change (IZR (2 ^ 52)) with 4503599627370496 in CN. rewrite E44 in T. rewrite E53.
    assert (IZR kh * IZR kw * / 2 ^ 1000 <= 4398046511104 * / 17592186044416) by (apply Rmult_le_compat; lra).
    replace ((6 * (IZR kh * IZR kw) + 3) * / 9007199254740992 * IZR c) with ((6 * (IZR kh * IZR kw) + 3) * IZR c * / 9007199254740992) by ring. lra. }
  assert (c - 2 < q)%Z by (apply lt_IZR; rewrite minus_IZR; lra). lia.
Qed.
Print Assumptions C70_uniform.
(** scale2original: every pixel is near the exact scaled value; relative to the maximum m of the image the distance is about 3 * tolerance / (maximum of the blurred image). *)
Theorem C70_scaled : forall npsum cast I K h w v kh kw k f g M B i j, sums_somehow npsum -> is_array I h w v -> is_array K kh kw k -> mirrors h f -> mirrors w g -> good_kernel kh kw k ->
  (forall a b, (0 <= a < h)%Z -> (0 <= b < w)%Z -> 0 <= v a b) -> max2 h w v M -> max2 h w (blurred f g kh kw k v) B -> 0 < B -> 4 * conv_tolerance (kh * kw) M <= B ->
  M <= 2 ^ 1000 -> M <= 2 ^ 20 * B -> sum2 kh kw k <= 2 ^ 20 -> (0 <= i < h)%Z -> (0 <= j < w)%Z ->
  exists y, entry (fconvolute_img_psf near64 npsum dbl_epsilon cast DFloat I K true) i j = Some (Fin y) /\ 0 <= y /\
    Rabs (y - blurred f g kh kw k v i j * (M / B)) <= 3 * (M / B) * conv_tolerance (kh * kw) M + 3 * / 2 ^ 53 * M + (M + 1) * / 2 ^ 1000.
Proof.
  intros npsum cast I K h w v kh kw k f g M B i j SS HI HK F G GK VP MV MB B0 B4 _ _ _ Hi Hj. destruct (HI) as (H & W & _). destruct (HK) as (KH & KW & _).
  assert (VA : forall a b, (0 <= a < h)%Z -> (0 <= b < w)%Z -> Rabs (v a b) <= M) by (intros a b Ha Hb; rewrite Rabs_pos_eq by (apply VP; assumption); apply MV; assumption).
  assert (RC := fun a b => raw_close npsum f g M v k h w kh kw a b SS H W KH KW F G GK VA).
  pose proof (fconv_entry npsum dbl_epsilon cast DFloat I K true h w _ kh kw k i j HI HK Hi Hj) as E. change b64 with near64 in E. cbn [astype] in E.
  rewrite (max2_unique h w v _ M (max_table2 v h w H W) MV) in E. pose proof (max_table2 (fraw npsum dbl_epsilon kh kw k v h w) h w H W) as MX. set (B' := np_max (table2 (fraw npsum dbl_epsilon kh kw k v h w) h w)) in *.
  pose proof (max2_close h w _ _ B B' (conv_tolerance (kh * kw) M) MB MX (fun a b _ _ => proj1 (RC a b))) as DB.
  assert (BM : B <= M). { destruct MB as [_ (a & b & Ha & Hb & <-)]. destruct GK as (KP & _ & SP & _). apply (blurred_range _ _ kh kw k _ h w 0 M); try assumption; [intros a' b' Ha' Hb'; apply (KP a' b' Ha' Hb')|]. intros; split; [apply VP; assumption|apply MV; assumption]. }
  assert (X0 : 0 <= blurred f g kh kw k v i j). { destruct GK as (KP & _ & SP & _). apply (blurred_range _ _ kh kw k _ h w 0 M); try assumption; [intros a' b' Ha' Hb'; apply (KP a' b' Ha' Hb')|]. intros; split; [apply VP; assumption|apply MV; assumption]. }
  assert (T0 := tol_pos (kh * kw) M ltac:(nia) ltac:(lra)).
  assert (BP : 0 < B') by (apply Rabs_le_inv in DB; lra).
  unfold np_div in E. destruct (Req_EM_T B' 0) as [Z0|_]; [lra|]. cbn [np_mul] in E. eexists. split; [exact E|].
  destruct (scale_num M B B' (blurred f g kh kw k v i j) (fraw npsum dbl_epsilon kh kw k v h w i j) (conv_tolerance (kh * kw) M) _ (conj X0 (proj1 MB i j Hi Hj)) (conj (proj2 (RC i j) VP) (proj1 MX i j Hi Hj)) (proj1 (RC i j)) DB B4 B0 BM eq_refl) as [Q Q0].
  split; [exact Q0|exact Q].
Qed.
Print Assumptions C70_scaled.

Lemma br_int l s : bracketing l s -> Forall (fun x => exists z, x = IZR z /\ (0 <= z)%Z) l -> suml l <= IZR (2 ^ 53) -> s = suml l /\ exists z, s = IZR z /\ (0 <= z)%Z.
Proof.
  induction 1 as [x|l a l' b Ha IHa Hb IHb]; intros FL SB.
  - unfold suml in *. cbn [fold_right] in *. inversion FL; subst. split; [ring|assumption].
  - apply Forall_app in FL. destruct FL as [FL FL']. rewrite suml_app in *.
    assert (P : forall l, Forall (fun x => exists z, x = IZR z /\ (0 <= z)%Z) l -> 0 <= suml l).
    { clear. unfold suml. induction 1 as [|x l (z & -> & Z0) _ IH]; cbn [fold_right]; [lra|]. apply IZR_le in Z0. lra. }
    pose proof (P l FL). pose proof (P l' FL'). destruct (IHa FL ltac:(lra)) as (EA & za & Ea & Za). destruct (IHb FL' ltac:(lra)) as (EB & zb & Eb & Zb).
    change (near64 (a + b)) with (b64 (a + b)). rewrite <- EA, <- EB in SB |- *. rewrite Ea, Eb in SB |- *. rewrite <- plus_IZR in SB |- *. apply le_IZR in SB. rewrite b64_IZR by lia. split; [reflexivity|]. exists (za + zb)%Z. split; [reflexivity|lia].
Qed.
(** ... but the maximum of an image of unsigned integers is not kept: 255 / (255 * 49 / 64) * (255 * 49 / 64) rounds to 254.99999999999997, which is truncated. *)
Theorem C70_scaled_maximum_refuted : forall npsum cast, sums_somehow npsum ->
  fconvolute_img_psf near64 npsum dbl_epsilon cast (DUint 8) [[255; 0]] [[15; 34; 15]] true = [[Fin (IZR 254); Fin (IZR 78)]] /\
  fconvolute_img_psf (fun x => x) (fold_right Rplus 0) dbl_epsilon cast (DUint 8) [[255; 0]] [[15; 34; 15]] true = [[Fin (IZR 255); Fin (IZR 78)]].
Proof.
  intros npsum cast SS. assert (E52 : 2 ^ 52 = 4503599627370496) by (rewrite (pow_IZR 2 52); reflexivity).
  assert (NP : npsum [15; 34; 15] = 64).
  { destruct SS as [_ SS]. destruct (SS [15; 34; 15] ltac:(discriminate)) as (l' & P & B).
    assert (SL : suml l' = 64) by (rewrite <- (suml_perm _ _ P); unfold suml; cbn [fold_right]; lra).
    destruct (br_int _ _ B) as [E _]; [|rewrite SL; apply IZR_le; lia|rewrite E; exact SL].
    apply Forall_forall. intros y Hy. apply (Permutation.Permutation_in y (Permutation.Permutation_sym P)) in Hy.
    destruct Hy as [<-|[<-|[<-|[]]]]; eexists; (split; [reflexivity|lia]). }
  assert (CP : forall rnd, (forall z, (0 <= z <= 20000)%Z -> rnd (IZR z) = IZR z) -> convolve rnd dbl_epsilon [[255; 0]] [[15; 34; 15]] = [[12495; 3825]]).
  { intros rnd RI. unfold convolve, conv_pixel.
    assert (FI : filter (used dbl_epsilon [[15; 34; 15]]) (coords (height [[15; 34; 15]]) (width [[15; 34; 15]])) = [(0, 0); (0, 1); (0, 2)]%Z).
    { change (coords (height [[15; 34; 15]]) (width [[15; 34; 15]])) with [(0, 0); (0, 1); (0, 2)]%Z. cbn [filter]. unfold used, dbl_epsilon. rewrite E52. cbn [fst snd].
      change (pix [[15; 34; 15]] 0 0) with 15. change (pix [[15; 34; 15]] 0 1) with 34. change (pix [[15; 34; 15]] 0 2) with 15.
      rewrite !(proj2 (Rltb_true' _ _)) by (rewrite Rabs_pos_eq; lra). reflexivity. }
    rewrite FI. change (rev [(0, 0); (0, 1); (0, 2)]%Z) with [(0, 2); (0, 1); (0, 0)]%Z.
    change (zrange 0 (Z.to_nat (height [[255; 0]]))) with [0%Z]. change (zrange 0 (Z.to_nat (width [[255; 0]]))) with [0%Z; 1%Z]. cbn [map fold_left].
    change (conv_term [[255; 0]] [[15; 34; 15]] 0 0 (0, 2)%Z) with (15 * 255). change (conv_term [[255; 0]] [[15; 34; 15]] 0 0 (0, 1)%Z) with (34 * 255). change (conv_term [[255; 0]] [[15; 34; 15]] 0 0 (0, 0)%Z) with (15 * 0).
    change (conv_term [[255; 0]] [[15; 34; 15]] 0 1 (0, 2)%Z) with (15 * 255). change (conv_term [[255; 0]] [[15; 34; 15]] 0 1 (0, 1)%Z) with (34 * 0). change (conv_term [[255; 0]] [[15; 34; 15]] 0 1 (0, 0)%Z) with (15 * 0).
    assert (RS : forall a b, (0 <= a)%Z -> (0 <= b)%Z -> (a + b <= 20000)%Z -> rnd (IZR a + IZR b) = IZR (a + b)) by (intros a b A0 B0 AB; rewrite <- plus_IZR; apply RI; lia).
    assert (RM : forall a b, (0 <= a)%Z -> (0 <= b)%Z -> (a * b <= 20000)%Z -> rnd (IZR a * IZR b) = IZR (a * b)) by (intros a b A0 B0 AB; rewrite <- mult_IZR; apply RI; nia).
    rewrite (RM 15 255)%Z, (RM 34 255)%Z, (RM 15 0)%Z, (RM 34 0)%Z by lia. change (15 * 255)%Z with 3825%Z. change (34 * 255)%Z with 8670%Z. change (15 * 0)%Z with 0%Z. change (34 * 0)%Z with 0%Z.
    rewrite (RS 0 3825)%Z by lia. change (0 + 3825)%Z with 3825%Z. rewrite (RS 3825 8670)%Z, (RS 3825 0)%Z by lia. change (3825 + 8670)%Z with 12495%Z. change (3825 + 0)%Z with 3825%Z. rewrite (RS 12495 0)%Z by lia. rewrite (RS 3825 0)%Z by lia. reflexivity. }
  assert (MXI : forall a b : R, b < a -> np_max [[a; b]] = a) by (intros a b L; unfold np_max; cbn [concat app fold_left]; apply Rmax_left; lra).
  split.
  - unfold fconvolute_img_psf. change near64 with b64. rewrite (CP b64) by (intros z Hz; apply b64_IZR; lia). change (concat [[15; 34; 15]]) with [15; 34; 15]. rewrite NP. rewrite (proj2 (Rltb_true' 0 64)) by lra. cbn [map].
    assert (D1 : b64 (12495 / 64) = IZR 12495 * bpow radix2 (-6)).
    { replace (12495 / 64) with (IZR 12495 * bpow radix2 (-6)) by (simpl; lra). apply b64_id. apply generic_format_FLT. exists (Float radix2 12495 (-6)); cbn; [reflexivity|lia|lia]. }
    assert (D2 : b64 (3825 / 64) = IZR 3825 * bpow radix2 (-6)).
    { replace (3825 / 64) with (IZR 3825 * bpow radix2 (-6)) by (simpl; lra). apply b64_id. apply generic_format_FLT. exists (Float radix2 3825 (-6)); cbn; [reflexivity|lia|lia]. }
    rewrite D1, D2. rewrite (MXI 255 0), MXI by (simpl; lra). unfold np_div. destruct (Req_EM_T (IZR 12495 * bpow radix2 (-6)) 0) as [Z0|_]; [simpl in Z0; lra|]. cbn [np_mul].
    assert (E1 : b64 (255 / (IZR 12495 * bpow radix2 (-6))) = IZR 5882252574524729 * bpow radix2 (-52)).
    { apply b64_val; [lia|simpl; lra|]. simpl. apply Rabs_def1; lra. }
    rewrite E1.
    assert (E2 : b64 (IZR 12495 * bpow radix2 (-6) * (IZR 5882252574524729 * bpow radix2 (-52))) = IZR 8972014882652159 * bpow radix2 (-45)).
    { apply b64_val; [lia|simpl; lra|]. simpl. apply Rabs_def1; lra. }
    assert (E3 : b64 (IZR 3825 * bpow radix2 (-6) * (IZR 5882252574524729 * bpow radix2 (-52))) = IZR 5493070336317649 * bpow radix2 (-46)).
    { apply b64_val; [lia|simpl; lra|]. simpl. apply Rabs_def1; lra. }
    rewrite E2, E3. cbn [astype].
    assert (T1 : Ztrunc (IZR 8972014882652159 * bpow radix2 (-45)) = 254%Z) by (rewrite Ztrunc_floor by (simpl; lra); apply Zfloor_imp; simpl; lra).
    assert (T2 : Ztrunc (IZR 5493070336317649 * bpow radix2 (-46)) = 78%Z) by (rewrite Ztrunc_floor by (simpl; lra); apply Zfloor_imp; simpl; lra).
    rewrite T1, T2. reflexivity.
  - unfold fconvolute_img_psf. rewrite (CP (fun x => x)) by reflexivity. cbn [concat app fold_right]. rewrite (proj2 (Rltb_true' 0 _)) by lra. cbn [map]. rewrite (MXI 255 0) by lra. rewrite MXI by lra. unfold np_div. destruct (Req_EM_T _ 0) as [Z0|_]; [lra|]. cbn [np_mul astype].
    replace (12495 / (15 + (34 + (15 + 0))) * (255 / (12495 / (15 + (34 + (15 + 0)))))) with (IZR 255) by field.
    replace (3825 / (15 + (34 + (15 + 0))) * (255 / (12495 / (15 + (34 + (15 + 0)))))) with (3825 / 49) by field.
    assert (T2 : Ztrunc (3825 / 49) = 78%Z) by (rewrite Ztrunc_floor by lra; apply Zfloor_imp; simpl; lra).
    rewrite Ztrunc_IZR, T2. reflexivity.
Qed.
Print Assumptions C70_scaled_maximum_refuted.

(** Images of unsigned integers with scaling: the range is kept, and the brightest pixel loses at most one. *)
Theorem C70_scaled_unsigned : forall npsum cast bits I K h w p kh kw k f g m B i j, sums_somehow npsum -> is_array I h w (fun i j => IZR (p i j)) -> is_array K kh kw k -> mirrors h f -> mirrors w g -> good_kernel kh kw k ->
  (forall a b, (0 <= a < h)%Z -> (0 <= b < w)%Z -> (0 <= p a b)%Z) -> max2 h w (fun i j => IZR (p i j)) (IZR m) -> (m < 2 ^ bits)%Z ->
  max2 h w (blurred f g kh kw k (fun i j => IZR (p i j))) B -> 0 < B -> 4 * conv_tolerance (kh * kw) (IZR m) <= B -> IZR m <= 2 ^ 1000 -> IZR m <= 2 ^ 20 * B -> sum2 kh kw k <= 2 ^ 20 ->
  let d := 3 * (IZR m / B) * conv_tolerance (kh * kw) (IZR m) + 3 * / 2 ^ 53 * IZR m + (IZR m + 1) * / 2 ^ 1000 in d < 1 ->
  (0 <= i < h)%Z -> (0 <= j < w)%Z ->
  exists q, entry (fconvolute_img_psf near64 npsum dbl_epsilon cast (DUint bits) I K true) i j = Some (Fin (IZR q)) /\ (0 <= q <= m)%Z /\
    (let y := blurred f g kh kw k (fun i j => IZR (p i j)) i j * (IZR m / B) in y - d - 1 < IZR q <= y + d) /\
    (blurred f g kh kw k (fun i j => IZR (p i j)) i j = B -> q = m \/ q = m - 1)%Z.
Proof.
  intros npsum cast bits I K h w p kh kw k f g m B i j SS HI HK F G GK VP MV MBT MB B0 B4 M1 M2 S2 d D1 Hi Hj. destruct (HI) as (H & W & _). destruct (HK) as (KH & KW & _).
  destruct (C70_scaled npsum cast I K h w _ kh kw k f g (IZR m) B i j SS HI HK F G GK ltac:(intros; apply IZR_le, VP; assumption) MV MB B0 B4 M1 M2 S2 Hi Hj) as (x & E & X0 & C). fold d in C.
  change near64 with b64 in *. rewrite (fconv_entry npsum dbl_epsilon cast DFloat I K true h w _ kh kw k i j HI HK Hi Hj) in E. cbn [astype] in E. apply (f_equal (fun o => match o with Some z => z | None => NaN end)) in E. cbn beta iota in E.
  pose proof (fconv_entry npsum dbl_epsilon cast (DUint bits) I K true h w _ kh kw k i j HI HK Hi Hj) as E2. cbn beta iota in E2. rewrite E in E2. rewrite E2. clear E E2.
  set (y := blurred f g kh kw k (fun i j => IZR (p i j)) i j * (IZR m / B)) in *.
  assert (YM : y <= IZR m).
  { assert (M0 : 0 <= IZR m) by (destruct MV as [_ (a & b & Ha & Hb & <-)]; apply IZR_le, VP; assumption).
    unfold y. replace (IZR m) with (B * (IZR m / B)) at 2 by (field; lra). apply Rmult_le_compat_r; [apply Rmult_le_pos; [exact M0|apply Rlt_le, Rinv_0_lt_compat, B0]|apply MB; assumption]. }
  apply Rabs_le_inv in C.
  exists (Zfloor x). assert (A1 := Zfloor_lb x). assert (A2 := Zfloor_ub x). assert (L : (0 <= Zfloor x)%Z) by (apply Zfloor_lub; lra).
  assert (U : (Zfloor x < m + 1)%Z) by (apply lt_IZR; rewrite plus_IZR; lra). cbn [astype]. rewrite Ztrunc_floor by lra. cbv zeta. rewrite (proj2 (Z.leb_le _ _) L), (proj2 (Z.ltb_lt _ _)) by lia. cbn [andb].
  split; [reflexivity|]. split; [lia|]. split; [lra|]. intros EB. assert (y = IZR m) by (unfold y; rewrite EB; field; lra). assert (m - 2 < Zfloor x)%Z by (apply lt_IZR; rewrite minus_IZR; lra). lia.
Qed.
Print Assumptions C70_scaled_unsigned.
(** The hypotheses are met: the image [[255; 0]] and the kernel [[15; 34; 15]]. *)
Example C70_nonvacuous : exists p k B, is_array [[IZR 255; IZR 0]] 1 2 (fun i j => IZR (p i j)) /\ is_array [[15; 34; 15]] 1 3 k /\ mirrors 1 (reflect 1) /\ mirrors 2 (reflect 2) /\ good_kernel 1 3 k /\
  (forall a b, (0 <= p a b)%Z) /\ max2 1 2 (fun i j => IZR (p i j)) (IZR 255) /\ max2 1 2 (blurred (reflect 1) (reflect 2) 1 3 k (fun i j => IZR (p i j))) B /\ 0 < B /\
  4 * conv_tolerance (1 * 3) (IZR 255) <= B /\ sum2 1 3 k <= 2 ^ 20 /\ IZR 255 <= 2 ^ 20 * B /\
  3 * (IZR 255 / B) * conv_tolerance (1 * 3) (IZR 255) + 3 * / 2 ^ 53 * IZR 255 + (IZR 255 + 1) * / 2 ^ 1000 < 1 /\ ((6 * (1 * 3) + 3) * 255 <= 2 ^ 52)%Z.
Proof.
  set (p := fun (_ j : Z) => if (j =? 0)%Z then 255%Z else 0%Z). set (k := fun (_ b : Z) => if (b =? 1)%Z then 34 else 15). exists p, k, (12495 / 64).
  assert (E52 : 2 ^ 52 = 4503599627370496) by (rewrite (pow_IZR 2 52); reflexivity). assert (E53 : 2 ^ 53 = 9007199254740992) by (rewrite (pow_IZR 2 53); reflexivity). assert (E20 : 2 ^ 20 = 1048576) by (rewrite (pow_IZR 2 20); reflexivity).
  assert (T : / 2 ^ 1000 <= / 2 ^ 20). { apply Rinv_le_contravar; [apply pow_lt; lra|]. apply Rle_pow; [lra|lia]. } rewrite E20 in T. destruct tiny_small as [_ TP].
  assert (TL : conv_tolerance (1 * 3) (IZR 255) <= / 1000). { unfold conv_tolerance. change (1 * 3)%Z with 3%Z. rewrite E53. lra. } assert (T0 : 0 < conv_tolerance (1 * 3) (IZR 255)) by (apply tol_pos; [lia|lra]).
  assert (SK : sum2 1 3 k = 64) by (unfold sum2, rsum; change (Z.to_nat 1) with 1%nat; change (Z.to_nat 3) with 3%nat; cbn [zrange map fold_right]; unfold k; cbn [Z.eqb Pos.eqb Z.add Pos.add Pos.succ]; lra).
  assert (B0 : blurred (reflect 1) (reflect 2) 1 3 k (fun i j => IZR (p i j)) 0 0 = 12495 / 64).
  { unfold blurred. rewrite SK. destruct (Rlt_dec 0 64); [|lra]. unfold convolution, sum2, rsum; change (Z.to_nat 1) with 1%nat; change (Z.to_nat 3) with 3%nat; cbn [zrange map fold_right]. unfold k, p. cbn -[Rplus Rmult Rdiv]. lra. }
  assert (B1 : blurred (reflect 1) (reflect 2) 1 3 k (fun i j => IZR (p i j)) 0 1 = 3825 / 64).
  { unfold blurred. rewrite SK. destruct (Rlt_dec 0 64); [|lra]. unfold convolution, sum2, rsum; change (Z.to_nat 1) with 1%nat; change (Z.to_nat 3) with 3%nat; cbn [zrange map fold_right]. unfold k, p. cbn -[Rplus Rmult Rdiv]. lra. }
  split; [change [[IZR 255; IZR 0]] with (table2 (fun i j => IZR (p i j)) 1 2); apply table2_array; lia|].
  split; [change [[15; 34; 15]] with (table2 k 1 3); apply table2_array; lia|]. split; [apply reflect_mirrors; lia|]. split; [apply reflect_mirrors; lia|].
  split.
  { split; [intros a b _ _; unfold k; destruct (b =? 1)%Z; (split; [lra|apply F64_IZR; lia])|]. split; [intros a b _ _; right; unfold k, dbl_epsilon; rewrite E52; destruct (b =? 1)%Z; rewrite Rabs_pos_eq; lra|]. split; [rewrite SK; lra|lia]. }
  split; [intros a b; unfold p; destruct (b =? 0)%Z; lia|].
  split; [split; [intros a b _ _; unfold p; destruct (b =? 0)%Z; lra|exists 0%Z, 0%Z; split; [lia|]; split; [lia|reflexivity]]|].
  split.
  { split; [|exists 0%Z, 0%Z; split; [lia|]; split; [lia|exact B0]]. intros i j Hi Hj. assert (i = 0)%Z by lia. assert (j = 0 \/ j = 1)%Z as [-> | ->] by lia; subst i; [rewrite B0|rewrite B1]; lra. }
  split; [lra|]. split; [lra|]. split; [rewrite SK, E20; lra|]. split; [rewrite E20; lra|]. split; [|lia].
  rewrite E53. lra.
Qed.
Print Assumptions C70_nonvacuous.
