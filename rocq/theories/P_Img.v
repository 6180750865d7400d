(** Property theorems C44 and C47. *)
From Coq Require Import Reals Lra Psatz.
From Flocq Require Import Core.
From Verif Require Import Py M_Radial M_Coeffs M_Sum M_Psf SpecPsf L_Psf L_PsfKernel L_Phases M_Numba L_Polar M_Img SpecImg L_Img.
Local Open Scope R_scope.

(** ** C44 *)
(** The result has the shape of the image, whatever the rounding, the dtype, the kernel and the scaling. *)
Theorem C44_shape : forall rnd eps cast t I K s h w v kh kw k, is_array I h w v -> is_array K kh kw k ->
  shape (convolute_img_psf rnd eps cast t I K s) h w.
Proof.
  intros rnd eps cast t I K s h w v kh kw k HI HK. destruct (HI) as (H & W & _). rewrite (array_eq _ _ _ _ HI). unfold convolute_img_psf. cbv zeta.
  rewrite convolve_table_g by lia. destruct (Rltb 0 (np_sum rnd K)), s; rewrite ?table2_map; apply table2_shape; lia.
Qed.
Print Assumptions C44_shape.
(** Exact arithmetic, no scaling: every pixel is the convolution of the mirrored image with the kernel, divided by the sum of the kernel if positive.
    (Weights of modulus at most eps = DBL_EPSILON are dropped by scipy: the kernel has none.) *)
Theorem C44_value : forall eps cast I K h w v kh kw k f g i j, is_array I h w v -> is_array K kh kw k -> mirrors h f -> mirrors w g -> no_tiny eps kh kw k ->
  (0 <= i < h)%Z -> (0 <= j < w)%Z ->
  entry (convolute_img_psf (fun x => x) eps cast DFloat I K false) i j = Some (Fin (blurred f g kh kw k v i j)).
Proof.
  intros eps cast I K h w v kh kw k f g i j HI HK F G NT Hi Hj. change (fun x : R => x) with idr. rewrite (conv_entry f g _ _ _ _ _ _ h w v kh kw k i j HI HK F G Hi Hj). cbn [astype].
  rewrite raw_blurred by exact NT. reflexivity.
Qed.
Print Assumptions C44_value.
(** Linear in the image. *)
Theorem C44_linear : forall eps cast I1 I2 I3 K h w v1 v2 a b kh kw k i j, is_array I1 h w v1 -> is_array I2 h w v2 -> is_array I3 h w (fun i j => a * v1 i j + b * v2 i j) ->
  is_array K kh kw k -> (0 <= i < h)%Z -> (0 <= j < w)%Z ->
  exists x1 x2, entry (convolute_img_psf (fun x => x) eps cast DFloat I1 K false) i j = Some (Fin x1) /\ entry (convolute_img_psf (fun x => x) eps cast DFloat I2 K false) i j = Some (Fin x2) /\
    entry (convolute_img_psf (fun x => x) eps cast DFloat I3 K false) i j = Some (Fin (a * x1 + b * x2)).
Proof.
  intros eps cast I1 I2 I3 K h w v1 v2 a b kh kw k i j H1 H2 H3 HK Hi Hj. change (fun x : R => x) with idr.
  assert (F : mirrors h (reflect h)) by (apply reflect_mirrors, H1). assert (G : mirrors w (reflect w)) by (apply reflect_mirrors; destruct H1 as (_ & W & _); exact W).
  rewrite (conv_entry _ _ _ _ _ _ _ _ h w v1 kh kw k i j H1 HK F G Hi Hj), (conv_entry _ _ _ _ _ _ _ _ h w v2 kh kw k i j H2 HK F G Hi Hj), (conv_entry _ _ _ _ _ _ _ _ h w _ kh kw k i j H3 HK F G Hi Hj).
  cbn [astype]. eexists _, _. split; [reflexivity|]. split; [reflexivity|]. do 2 f_equal. unfold raw. cbv zeta.
  assert (E : convolution (reflect h) (reflect w) kh kw (heavy eps k) (fun i j => a * v1 i j + b * v2 i j) i j =
              a * convolution (reflect h) (reflect w) kh kw (heavy eps k) v1 i j + b * convolution (reflect h) (reflect w) kh kw (heavy eps k) v2 i j).
  { unfold convolution. rewrite <- !sum2_scal, <- sum2_plus. apply sum2_ext. intros p q _ _. ring. }
  rewrite E. destruct (Rltb 0 (sum2 kh kw k)); [unfold Rdiv; ring|reflexivity].
Qed.
Print Assumptions C44_linear.
(** A kernel whose only weight, c > eps, stands in its middle (the one-pixel kernel [[c]] among them) returns the image. *)
Theorem C44_identity : forall eps cast I K h w v kh kw k c i j, is_array I h w v -> is_array K kh kw k -> 0 <= eps < c ->
  (forall a b, (0 <= a < kh)%Z -> (0 <= b < kw)%Z -> k a b = if ((a =? kh / 2) && (b =? kw / 2))%Z%bool then c else 0) ->
  (0 <= i < h)%Z -> (0 <= j < w)%Z ->
  entry (convolute_img_psf (fun x => x) eps cast DFloat I K false) i j = Some (Fin (v i j)).
Proof.
  intros eps cast I K h w v kh kw k c i j HI HK C E Hi Hj. destruct (HI) as (H & W & _). destruct (HK) as (KH & KW & _).
  assert (CA : (0 <= kh / 2 < kh)%Z) by (split; [apply Z.div_pos; lia|apply Z.div_lt; lia]). assert (CB : (0 <= kw / 2 < kw)%Z) by (split; [apply Z.div_pos; lia|apply Z.div_lt; lia]).
  assert (KC : k (kh / 2)%Z (kw / 2)%Z = c) by (rewrite E, !Z.eqb_refl by assumption; reflexivity).
  assert (K0 : forall a b, (0 <= a < kh)%Z -> (0 <= b < kw)%Z -> (a, b) <> (kh / 2, kw / 2)%Z -> k a b = 0).
  { intros a b Ha Hb NE. rewrite E by assumption. destruct (Z.eqb_spec a (kh / 2)), (Z.eqb_spec b (kw / 2)); subst; cbn; congruence. }
  rewrite (C44_value eps cast I K h w v kh kw k (reflect h) (reflect w) i j HI HK); try assumption; try (apply reflect_mirrors; lia).
  - do 2 f_equal. unfold blurred, convolution. rewrite !(sum2_single (kh / 2) (kw / 2) kh kw), KC; try assumption.
    + destruct (Rlt_dec 0 c); [|lra]. replace (i + kh / 2 - kh / 2)%Z with i by lia. replace (j + kw / 2 - kw / 2)%Z with j by lia.
      rewrite (proj1 (reflect_mirrors h H)), (proj1 (reflect_mirrors w W)) by assumption. field. lra.
    + intros a b Ha Hb NE. rewrite K0 by assumption. ring.
  - intros a b Ha Hb. destruct (Z.eq_dec a (kh / 2)) as [->|NA]; [destruct (Z.eq_dec b (kw / 2)) as [->|NB]|].
    + right. rewrite KC, Rabs_pos_eq; lra.
    + left. apply K0; [assumption|assumption|congruence].
    + left. apply K0; [assumption|assumption|congruence].
Qed.
Print Assumptions C44_identity.
(** A kernel of nonnegative weights makes weighted means: the result stays within the bounds of the image; a constant image stays as it is. *)
Theorem C44_bounds : forall eps cast I K h w v kh kw k lo hi i j, is_array I h w v -> is_array K kh kw k -> no_tiny eps kh kw k ->
  (forall a b, (0 <= a < kh)%Z -> (0 <= b < kw)%Z -> 0 <= k a b) -> 0 < sum2 kh kw k -> (forall a b, (0 <= a < h)%Z -> (0 <= b < w)%Z -> lo <= v a b <= hi) ->
  (0 <= i < h)%Z -> (0 <= j < w)%Z ->
  exists x, entry (convolute_img_psf (fun x => x) eps cast DFloat I K false) i j = Some (Fin x) /\ lo <= x <= hi.
Proof.
  intros eps cast I K h w v kh kw k lo hi i j HI HK NT P SP V Hi Hj. destruct (HI) as (H & W & _). assert (F := reflect_mirrors h H). assert (G := reflect_mirrors w W).
  exists (blurred (reflect h) (reflect w) kh kw k v i j). split; [apply (C44_value eps cast I K h w v kh kw k (reflect h) (reflect w) i j); assumption|]. apply (blurred_range _ _ kh kw k v h w); assumption.
Qed.
Print Assumptions C44_bounds.
(** Images of unsigned integers: the exact value is truncated; with nonnegative weights it is in the range of the dtype, at most the largest pixel. *)
Theorem C44_unsigned : forall eps cast bits I K h w p kh kw k m f g i j, is_array I h w (fun i j => IZR (p i j)) -> is_array K kh kw k -> no_tiny eps kh kw k -> mirrors h f -> mirrors w g ->
  (forall a b, (0 <= a < kh)%Z -> (0 <= b < kw)%Z -> 0 <= k a b) -> 0 < sum2 kh kw k -> (forall a b, (0 <= a < h)%Z -> (0 <= b < w)%Z -> (0 <= p a b <= m)%Z) -> (m < 2 ^ bits)%Z ->
  (0 <= i < h)%Z -> (0 <= j < w)%Z ->
  exists q, entry (convolute_img_psf (fun x => x) eps cast (DUint bits) I K false) i j = Some (Fin (IZR q)) /\ (0 <= q <= m)%Z /\
    let x := blurred f g kh kw k (fun i j => IZR (p i j)) i j in IZR q <= x < IZR q + 1.
Proof.
  intros eps cast bits I K h w p kh kw k m f g i j HI HK NT F G P SP V MB Hi Hj. destruct (HI) as (H & W & _). change (fun x : R => x) with idr.
  rewrite (conv_entry f g _ _ _ _ _ _ h w _ kh kw k i j HI HK F G Hi Hj). rewrite raw_blurred by exact NT. cbv zeta.
  assert (B : 0 <= blurred f g kh kw k (fun i j => IZR (p i j)) i j <= IZR m).
  { apply (blurred_range _ _ kh kw k _ h w); try assumption. intros a b Ha Hb. specialize (V a b Ha Hb). split; apply IZR_le; lia. }
  set (x := blurred _ _ _ _ _ _ _ _) in *. exists (Zfloor x). assert (A1 := Zfloor_lb x). assert (A2 := Zfloor_ub x). assert (L : (0 <= Zfloor x)%Z) by (apply Zfloor_lub; lra).
  assert (U : (Zfloor x <= m)%Z) by (apply le_IZR; lra). cbn [astype]. rewrite Ztrunc_floor by lra. cbv zeta. rewrite (proj2 (Z.leb_le _ _) L), (proj2 (Z.ltb_lt _ _)) by lia. cbn [andb].
  split; [reflexivity|]. split; [lia|]. split; [exact A1|exact A2].
Qed.
Print Assumptions C44_unsigned.
(** scale2original: the values are multiplied so that the maximum of the result is the maximum of the image. *)
Theorem C44_scaled : forall eps cast I K h w v kh kw k f g M B, is_array I h w v -> is_array K kh kw k -> no_tiny eps kh kw k -> mirrors h f -> mirrors w g ->
  max2 h w v M -> max2 h w (blurred f g kh kw k v) B -> 0 <= M -> 0 < B ->
  max2 h w (fun i j => blurred f g kh kw k v i j * (M / B)) M /\
  forall i j, (0 <= i < h)%Z -> (0 <= j < w)%Z -> entry (convolute_img_psf (fun x => x) eps cast DFloat I K true) i j = Some (Fin (blurred f g kh kw k v i j * (M / B))).
Proof.
  intros eps cast I K h w v kh kw k f g M B HI HK NT F G MV MB M0 B0. destruct (HI) as (H & W & _). split.
  - destruct MB as [U (i & j & Hi & Hj & E)]. assert (0 <= M / B) by (apply Rmult_le_pos; [lra|apply Rlt_le, Rinv_0_lt_compat; lra]). split.
    + intros a b Ha Hb. specialize (U a b Ha Hb). replace M with (B * (M / B)) at 2 by (field; lra). apply Rmult_le_compat_r; lra.
    + exists i, j. split; [exact Hi|]. split; [exact Hj|]. rewrite E. field. lra.
  - intros i j Hi Hj. change (fun x : R => x) with idr. rewrite (conv_entry f g _ _ _ _ _ _ h w _ kh kw k i j HI HK F G Hi Hj). cbn [astype]. rewrite raw_blurred by exact NT.
    rewrite (max_of f g eps kh kw k v h w B H W NT MB), (max2_unique h w v _ M (max_table2 v h w H W) MV). unfold np_div. destruct (Req_EM_T B 0); [lra|]. cbn [np_mul]. reflexivity.
Qed.
Print Assumptions C44_scaled.
(** ... and an image of unsigned integers keeps its range: every pixel is between 0 and the largest pixel m. *)
Theorem C44_scaled_unsigned : forall eps cast bits I K h w p kh kw k m f g B i j, is_array I h w (fun i j => IZR (p i j)) -> is_array K kh kw k -> no_tiny eps kh kw k -> mirrors h f -> mirrors w g ->
  (forall a b, (0 <= a < kh)%Z -> (0 <= b < kw)%Z -> 0 <= k a b) -> 0 < sum2 kh kw k -> (forall a b, (0 <= a < h)%Z -> (0 <= b < w)%Z -> (0 <= p a b)%Z) ->
  max2 h w (fun i j => IZR (p i j)) (IZR m) -> (m < 2 ^ bits)%Z -> max2 h w (blurred f g kh kw k (fun i j => IZR (p i j))) B -> 0 < B ->
  (0 <= i < h)%Z -> (0 <= j < w)%Z ->
  exists q, entry (convolute_img_psf (fun x => x) eps cast (DUint bits) I K true) i j = Some (Fin (IZR q)) /\ (0 <= q <= m)%Z /\
    let x := blurred f g kh kw k (fun i j => IZR (p i j)) i j * (IZR m / B) in IZR q <= x < IZR q + 1.
Proof.
  intros eps cast bits I K h w p kh kw k m f g B i j HI HK NT F G P SP V MV MB BX B0 Hi Hj. destruct (HI) as (H & W & _). change (fun x : R => x) with idr.
  rewrite (conv_entry f g _ _ _ _ _ _ h w _ kh kw k i j HI HK F G Hi Hj). rewrite raw_blurred by exact NT. cbv zeta.
  rewrite (max_of f g eps kh kw k _ h w B H W NT BX), (max2_unique h w _ _ (IZR m) (max_table2 (fun i j => IZR (p i j)) h w H W) MV). unfold np_div. destruct (Req_EM_T B 0); [lra|]. cbn [np_mul].
  assert (L0 : 0 <= blurred f g kh kw k (fun i j => IZR (p i j)) i j).
  { apply (blurred_range f g kh kw k (fun i j => IZR (p i j)) h w 0 (IZR m) i j); try assumption. intros a b Ha Hb. split; [apply IZR_le, V; assumption|]. apply MV; assumption. }
  assert (LB : blurred f g kh kw k (fun i j => IZR (p i j)) i j <= B) by (apply BX; assumption).
  assert (M0 : 0 <= IZR m) by (destruct MV as [_ (a & b & Ha & Hb & E)]; rewrite <- E; apply IZR_le, V; assumption).
  assert (Q0 : 0 <= IZR m / B) by (apply Rmult_le_pos; [lra|apply Rlt_le, Rinv_0_lt_compat; lra]).
  assert (XB : 0 <= blurred f g kh kw k (fun i j => IZR (p i j)) i j * (IZR m / B) <= IZR m).
  { split; [apply Rmult_le_pos; assumption|]. replace (IZR m) with (B * (IZR m / B)) at 2 by (field; lra). apply Rmult_le_compat_r; lra. }
  unfold idr. set (x := blurred _ _ _ _ _ _ _ _ * _) in *. exists (Zfloor x). assert (A1 := Zfloor_lb x). assert (A2 := Zfloor_ub x). assert (L : (0 <= Zfloor x)%Z) by (apply Zfloor_lub; lra).
  assert (U : (Zfloor x <= m)%Z) by (apply le_IZR; lra). cbn [astype]. rewrite Ztrunc_floor by lra. cbv zeta. rewrite (proj2 (Z.leb_le _ _) L), (proj2 (Z.ltb_lt _ _)) by lia. cbn [andb].
  split; [reflexivity|]. split; [lia|]. split; [exact A1|exact A2].
Qed.
Print Assumptions C44_scaled_unsigned.
(** Edge cases. (1) A black image with scale2original = True - the default of ZernPSF.convolute_img - divides 0 by 0: every pixel is NaN
    (and what C makes of it for integers). *)
Theorem C44_black_scaled_refuted : forall eps cast t I K h w v kh kw k i j, is_array I h w v -> is_array K kh kw k -> (forall a b, (0 <= a < h)%Z -> (0 <= b < w)%Z -> v a b = 0) ->
  (0 <= i < h)%Z -> (0 <= j < w)%Z ->
  entry (convolute_img_psf (fun x => x) eps cast t I K true) i j = Some (match t with DFloat => NaN | DUint _ => Fin (IZR (cast NaN)) end).
Proof.
  intros eps cast t I K h w v kh kw k i j HI HK V Hi Hj. destruct (HI) as (H & W & _). change (fun x : R => x) with idr.
  assert (F := reflect_mirrors h H). assert (G := reflect_mirrors w W). rewrite (conv_entry _ _ _ _ _ _ _ _ h w _ kh kw k i j HI HK F G Hi Hj).
  assert (R0 : forall a b, raw (reflect h) (reflect w) eps kh kw k v a b = 0).
  { intros a b. unfold raw. cbv zeta. assert (E : convolution (reflect h) (reflect w) kh kw (heavy eps k) v a b = 0).
    { unfold convolution. rewrite (sum2_ext _ _ _ (fun _ _ => 0 * 0)); [rewrite sum2_scal; ring|]. intros p q _ _. rewrite V by (apply reflect_range; assumption). ring. }
    rewrite E. destruct (Rltb 0 (sum2 kh kw k)); [unfold Rdiv; ring|reflexivity]. }
  assert (M1 : np_max (table2 v h w) = 0) by (destruct (max_table2 v h w H W) as [_ (a & b & Ha & Hb & E)]; rewrite <- E; apply V; assumption).
  assert (M2 : np_max (table2 (raw (reflect h) (reflect w) eps kh kw k v) h w) = 0) by (destruct (max_table2 (raw (reflect h) (reflect w) eps kh kw k v) h w H W) as [_ (a & b & Ha & Hb & E)]; rewrite <- E; apply R0).
  rewrite M1, M2. unfold np_div. destruct (Req_EM_T 0 0); [|lra]. cbn [np_mul]. destruct t; reflexivity.
Qed.
Print Assumptions C44_black_scaled_refuted.
(** (2) The sum of the kernel counts the weights that scipy drops: the one-pixel kernel [[c]] with 0 < c <= eps turns every image black. *)
Theorem C44_tiny_kernel_refuted : forall eps cast I h w v c i j, is_array I h w v -> 0 < c <= eps -> (0 <= i < h)%Z -> (0 <= j < w)%Z ->
  entry (convolute_img_psf (fun x => x) eps cast DFloat I [[c]] false) i j = Some (Fin 0).
Proof.
  intros eps cast I h w v c i j HI C Hi Hj. destruct (HI) as (H & W & _). change (fun x : R => x) with idr.
  assert (HK : is_array [[c]] 1 1 (fun _ _ => c)) by (exact (table2_array (fun _ _ => c) 1 1 ltac:(lia) ltac:(lia))).
  assert (F := reflect_mirrors h H). assert (G := reflect_mirrors w W). rewrite (conv_entry _ _ _ _ _ _ _ _ h w _ 1 1 _ i j HI HK F G Hi Hj). cbn [astype]. do 2 f_equal. unfold raw. cbv zeta.
  assert (E : convolution (reflect h) (reflect w) 1 1 (heavy eps (fun _ _ => c)) v i j = 0).
  { unfold convolution. rewrite (sum2_ext _ _ _ (fun _ _ => 0 * 0)); [rewrite sum2_scal; ring|]. intros p q _ _. unfold heavy. destruct (Rltb eps (Rabs c)) eqn:X; [|ring].
    apply Rltb_true' in X. rewrite Rabs_pos_eq in X by lra. lra. }
  rewrite E. destruct (Rltb 0 _); [unfold Rdiv; ring|reflexivity].
Qed.
Print Assumptions C44_tiny_kernel_refuted.
(** (3) binary64: the one-pixel kernel [[0.1]] turns the uint8 pixel 43 into 42 (43 * 0.1 / 0.1 = 42.99999999999999, truncated). *)
Theorem C44_identity_binary64_refuted : forall cast, let c := b64 (1 / 10) in let eps := / 4503599627370496 in
  convolute_img_psf b64 eps cast (DUint 8) [[43]] [[c]] false = [[Fin 42]] /\ convolute_img_psf (fun x => x) eps cast (DUint 8) [[43]] [[c]] false = [[Fin 43]].
Proof.
  intros cast. cbv zeta.
  assert (EC : b64 (1 / 10) = IZR 7205759403792794 * bpow radix2 (-56)).
  { apply b64_val; [lia|simpl; lra|]. simpl. apply Rabs_def1; lra. }
  set (c := b64 (1 / 10)) in *. assert (C0 : 9 / 100 < c < 11 / 100) by (rewrite EC; simpl; lra).
  assert (FC : b64 c = c) by (apply b64_id; unfold c; apply b64_F).
  assert (E1 : b64 (c * 43) = IZR 4841369599423283 * bpow radix2 (-50)).
  { rewrite EC. apply b64_val; [lia|simpl; lra|]. simpl. apply Rabs_def1; lra. }
  assert (E2 : b64 (b64 (c * 43) / c) = IZR 6051711999279103 * bpow radix2 (-47)).
  { rewrite E1, EC. apply b64_val; [lia|simpl; lra|]. simpl. apply Rabs_def1; lra. }
  assert (U : Rltb (/ 4503599627370496) (Rabs c) = true) by (apply Rltb_true'; rewrite Rabs_pos_eq; lra).
  split.
  - rewrite one_by_one; rewrite ?Rplus_0_l, ?FC; [|apply Rltb_true'; exact U|lra]. rewrite (b64_id (b64 (c * 43)) (b64_F _)), E2. cbn [astype].
    assert (T : Ztrunc (IZR 6051711999279103 * bpow radix2 (-47)) = 42%Z).
    { rewrite Ztrunc_floor by (simpl; lra). apply Zfloor_imp. simpl. lra. }
    rewrite T. reflexivity.
  - rewrite one_by_one; rewrite ?Rplus_0_l; [|apply Rltb_true'; exact U|lra]. replace (c * 43 / c) with (IZR 43) by (field; lra). cbn [astype]. rewrite Ztrunc_IZR. reflexivity.
Qed.
Print Assumptions C44_identity_binary64_refuted.
(** The hypotheses are met: a 2 x 3 image and the 3 x 3 mean filter. *)
Example C44_example : exists I K, is_array I 2 3 (fun i j => IZR (i + j)) /\ is_array K 3 3 (fun _ _ => 1) /\ no_tiny (/ 4503599627370496) 3 3 (fun _ _ => 1) /\ 0 < sum2 3 3 (fun _ _ => 1) /\
  mirrors 2 (reflect 2) /\ mirrors 3 (reflect 3) /\ max2 2 3 (fun i j => IZR (i + j)) (IZR 3) /\
  max2 2 3 (blurred (reflect 2) (reflect 3) 3 3 (fun _ _ => 1) (fun i j => IZR (i + j))) (7 / 3).
Proof.
  exists (table2 (fun i j => IZR (i + j)) 2 3), (table2 (fun _ _ => 1) 3 3).
  split; [apply table2_array; lia|]. split; [apply table2_array; lia|]. split; [intros a b _ _; right; rewrite Rabs_pos_eq; lra|]. split; [unfold sum2, rsum; change (Z.to_nat 3) with 3%nat; cbn [zrange map fold_right]; lra|].
  split; [apply reflect_mirrors; lia|]. split; [apply reflect_mirrors; lia|].
  assert (CS : forall i j, (0 <= i < 2)%Z -> (0 <= j < 3)%Z -> (i = 0 \/ i = 1)%Z /\ (j = 0 \/ j = 1 \/ j = 2)%Z) by lia.
  split.
  - split; [intros i j Hi Hj; apply IZR_le; lia|]. exists 1%Z, 2%Z. split; [lia|]. split; [lia|reflexivity].
  - split; [|exists 1%Z, 2%Z; split; [lia|]; split; [lia|]; unfold blurred, convolution, sum2, rsum; change (Z.to_nat 3) with 3%nat; cbn [zrange map fold_right]; cbn -[Rplus Rmult Rdiv]; destruct (Rlt_dec _ _) as [_|N]; lra].
    intros i j Hi Hj. destruct (CS i j Hi Hj) as [[-> | ->] [-> | [-> | ->]]]; unfold blurred, convolution, sum2, rsum; change (Z.to_nat 3) with 3%nat; cbn [zrange map fold_right]; cbn -[Rplus Rmult Rdiv]; destruct (Rlt_dec _ _) as [_|N]; lra.
Qed.
