(** The fit of an image in binary64 (C72). *)
From Coq Require Import Reals Lra Lia List Psatz.
From Flocq Require Import Core.
From Verif Require Import Py SpecIndex SpecRadial M_Radial M_Coeffs SpecCoeffs M_Sum SpecSum L_Sum SpecFit SpecGeo M_Geo M_Crop M_Fit SpecCrop L_Trig L_Polar L_Geo L_Crop L_LinAlg L_Phases L_Fit L_Indep
  L_Stable SpecDiff L_Slope L_Conv2 SpecFitNoise L_FitNoise SpecDisk L_Disk SpecFitK L_FitK M_Polar SpecFloat M_Float L_Float SpecFloatPsf L_FPsf1 L_FPsf2 L_FPsf3 L_FPsf4 L_FPsf5 M_FloatSum L_FPsf7 L_FloatSum L_Plot SpecFitF M_FloatFit.
Import ListNotations.
Local Open Scope R_scope.

(** ** norms *)
Definition nrm (u : list R) : R := sqrt (normsq u).
Lemma nrm_nonneg u : 0 <= nrm u. Proof. apply sqrt_pos. Qed.
Lemma nrm_sq u : nrm u * nrm u = normsq u. Proof. apply sqrt_sqrt, normsq_nonneg. Qed.
Lemma normsq_cons a u : normsq (a :: u) = a * a + normsq u. Proof. reflexivity. Qed.
Lemma cs2 x y p q : x * y + p * q <= sqrt (x * x + p * p) * sqrt (y * y + q * q).
Proof.
  rewrite <- sqrt_mult_alt by (pose proof (Rle_0_sqr x); pose proof (Rle_0_sqr p); unfold Rsqr in *; lra).
  eapply Rle_trans; [apply Rle_abs|]. rewrite <- (sqrt_Rsqr_abs (x * y + p * q)). apply sqrt_le_1_alt. unfold Rsqr.
  pose proof (Rle_0_sqr (x * q - p * y)) as H. unfold Rsqr in H.
  replace ((x * x + p * p) * (y * y + q * q)) with ((x * y + p * q) * (x * y + p * q) + (x * q - p * y) * (x * q - p * y)) by ring. lra.
Qed.
Lemma dot_cs : forall u v, dot u v <= nrm u * nrm v.
Proof.
  induction u as [|a u IH]; intros [|b v]; cbn [dot]; try (apply Rmult_le_pos; apply nrm_nonneg).
  eapply Rle_trans; [apply Rplus_le_compat_l, IH|]. unfold nrm at 3 4. rewrite !normsq_cons, <- !nrm_sq. apply cs2.
Qed.
Lemma nrm_add u v : length u = length v -> nrm (vadd u v) <= nrm u + nrm v.
Proof.
  intros L. apply sqrt_le_r; [pose proof (nrm_nonneg u); pose proof (nrm_nonneg v); lra|]. rewrite normsq_add by exact L. rewrite <- !nrm_sq. pose proof (dot_cs u v). lra.
Qed.
Lemma nrm_scale a u : nrm (vscale a u) = Rabs a * nrm u.
Proof. unfold nrm. rewrite normsq_scale, sqrt_mult_alt by apply Rle_0_sqr. f_equal. apply sqrt_Rsqr_abs. Qed.
Lemma nrm_sub u v : length u = length v -> nrm (vsub u v) <= nrm u + nrm v.
Proof.
  intros L. unfold vsub. eapply Rle_trans; [apply nrm_add; rewrite vscale_len; exact L|]. rewrite nrm_scale, Rabs_left by lra. lra.
Qed.
Lemma nrm_sub_sym : forall u v, length u = length v -> nrm (vsub u v) = nrm (vsub v u).
Proof.
  intros u v L. unfold nrm. f_equal. revert v L. induction u as [|a u IH]; intros [|b v] L; try discriminate; [reflexivity|].
  unfold vsub. rewrite !vscale_cons, !vadd_cons, !normsq_cons. fold (vsub u v). fold (vsub v u). rewrite (IH v) by (injection L; auto). ring.
Qed.
Lemma sub_chain : forall u v w, length u = length v -> length v = length w -> vsub u w = vadd (vsub u v) (vsub v w).
Proof.
  induction u as [|a u IH]; intros [|b v] [|c w] L1 L2; try discriminate; [reflexivity|]. injection L1 as L1. injection L2 as L2.
  unfold vsub. rewrite !vscale_cons, !vadd_cons. fold (vsub u w). fold (vsub u v). fold (vsub v w). rewrite (IH v w) by assumption. f_equal. ring.
Qed.
Lemma nrm_chain u v w : length u = length v -> length v = length w -> nrm (vsub u w) <= nrm (vsub u v) + nrm (vsub v w).
Proof. intros L1 L2. rewrite (sub_chain u v w L1 L2). apply nrm_add. rewrite !vsub_len by congruence. congruence. Qed.

(** ** matrices *)
Definition frob (D : list (list R)) : R := fold_right (fun c s => normsq c + s) 0 D.
Lemma frob_nonneg D : 0 <= frob D.
Proof. induction D as [|c D IH]; cbn [frob fold_right]; [lra|]. fold (frob D). pose proof (normsq_nonneg c). lra. Qed.
Lemma normsq_repeat0 n : normsq (repeat 0 n) = 0.
Proof. induction n as [|n IH]; [reflexivity|]. cbn [repeat]. rewrite normsq_cons, IH. ring. Qed.
Lemma vsub_vadd : forall a b, length a = length b -> vsub (vadd a b) b = a.
Proof.
  induction a as [|x a IH]; intros [|y b] L; try discriminate; [reflexivity|]. rewrite vadd_cons. unfold vsub. rewrite vscale_cons, vadd_cons. fold (vsub (vadd a b) b).
  rewrite IH by (injection L; auto). f_equal. ring.
Qed.
Lemma mulmv_frob n : forall D z, wf n D -> length z = length D -> nrm (mulmv n D z) <= sqrt (frob D) * nrm z.
Proof.
  induction D as [|c D IH]; intros [|a z] W L; try discriminate.
  { cbn [mulmv]. unfold nrm at 1. rewrite normsq_repeat0, sqrt_0. apply Rmult_le_pos; [apply sqrt_pos|apply nrm_nonneg]. }
  cbn [mulmv]. inversion W as [|? ? Lc W']; subst. injection L as L.
  eapply Rle_trans; [apply nrm_add; rewrite vscale_len, mulmv_len by exact W'; reflexivity|]. rewrite nrm_scale.
  eapply Rle_trans; [apply Rplus_le_compat_l, IH; assumption|]. cbn [frob fold_right]. fold (frob D). unfold nrm at 3. rewrite normsq_cons, <- (nrm_sq z).
  rewrite <- (sqrt_sqrt (frob D)) at 2 by apply frob_nonneg. rewrite <- (nrm_sq c).
  replace (a * a) with (Rabs a * Rabs a) by (rewrite <- Rabs_mult; apply Rabs_pos_eq, Rle_0_sqr).
  rewrite (Rmult_comm (Rabs a) (nrm c)). apply cs2.
Qed.
Definition msub (A B : list (list R)) : list (list R) := map (fun p => vsub (fst p) (snd p)) (combine A B).
Lemma msub_wf n : forall A B, wf n A -> wf n B -> wf n (msub A B).
Proof.
  induction A as [|c A IH]; intros [|d B] W W'; try constructor. inversion W; inversion W'; subst. cbn [fst snd]. rewrite vsub_len; congruence.
  inversion W; inversion W'; subst. apply IH; assumption.
Qed.
Lemma msub_len : forall A B, length A = length B -> length (msub A B) = length A.
Proof. intros A B L. unfold msub. rewrite map_length, combine_length. lia. Qed.
Lemma mulmv_msub n : forall A B z, wf n A -> wf n B -> length A = length B -> length z = length A ->
  mulmv n A z = vadd (mulmv n B z) (mulmv n (msub A B) z).
Proof.
  induction A as [|c A IH]; intros [|d B] [|a z] W W' L Lz; try discriminate.
  { cbn [mulmv msub map combine]. symmetry. apply vadd_zeros_r. apply repeat_length. }
  cbn [mulmv]. change (msub (c :: A) (d :: B)) with (vsub c d :: msub A B). cbn [mulmv]. inversion W as [|? ? Lc W1]; inversion W' as [|? ? Ld W2]; subst.
  injection L as L. injection Lz as Lz. rewrite (IH B z) by assumption. set (p := mulmv _ B z). set (q := mulmv _ (msub A B) z).
  rewrite !vadd_assoc. f_equal. rewrite <- !vadd_assoc. rewrite (vadd_comm p). rewrite vadd_assoc. f_equal.
  rewrite <- (vadd_sub c d) at 1 by congruence. rewrite vscale_add. reflexivity.
Qed.
Lemma sum_squares_nrm e : sqrt (sum_squares e) = nrm e. Proof. unfold nrm. rewrite sum_squares_normsq. reflexivity. Qed.
Lemma squares_diff_nrm x a : length x = length a -> sqrt (squares_diff x a) = nrm (vsub x a).
Proof. intros L. unfold nrm. rewrite squares_diff_normsq by exact L. reflexivity. Qed.
Lemma frob_concat D : frob D = normsq (concat D).
Proof.
  induction D as [|c D IH]; [reflexivity|]. cbn [frob fold_right concat]. fold (frob D). rewrite IH. clear. induction c as [|a c IH]; [cbn [app]; unfold normsq; cbn [dot]; ring|].
  cbn [app]. rewrite !normsq_cons, <- IH. ring.
Qed.
Lemma vsub_app : forall a b c d, length a = length b -> vsub (a ++ c) (b ++ d) = vsub a b ++ vsub c d.
Proof.
  induction a as [|x a IH]; intros [|y b] c d L; try discriminate; [reflexivity|]. cbn [app]. unfold vsub. rewrite !vscale_cons, !vadd_cons.
  fold (vsub (a ++ c) (b ++ d)). fold (vsub a b). rewrite IH by (injection L; auto). reflexivity.
Qed.
Lemma concat_len n : forall D, wf n D -> length (concat D) = (length D * n)%nat.
Proof. induction 1 as [|c D L W IH]; [reflexivity|]. cbn [concat length]. rewrite app_length, IH, L. cbn [Nat.mul]. reflexivity. Qed.
Lemma matrix_diff_nrm n : forall A B, wf n A -> wf n B -> length A = length B -> sqrt (matrix_diff A B) = nrm (vsub (concat A) (concat B)).
Proof.
  intros A B W W' L. unfold nrm. f_equal. revert B W W' L. induction A as [|c A IH]; intros [|d B] W W' L; try discriminate; [reflexivity|].
  inversion W as [|? ? Lc W1]; inversion W' as [|? ? Ld W2]; subst. injection L as L. cbn [matrix_diff concat]. rewrite (IH B) by assumption.
  rewrite vsub_app by congruence. rewrite squares_diff_normsq by congruence. set (u := vsub c d). set (v := vsub (concat A) (concat B)). clear.
  induction u as [|a u IH]; [cbn [app]; unfold normsq at 1; cbn [dot]; ring|]. cbn [app]. rewrite !normsq_cons, <- IH. ring.
Qed.
Lemma frob_msub n : forall A B, wf n A -> wf n B -> length A = length B -> sqrt (frob (msub A B)) = nrm (vsub (concat A) (concat B)).
Proof.
  intros A B W W' L. rewrite frob_concat. unfold nrm. do 2 f_equal. revert B W W' L. induction A as [|c A IH]; intros [|d B] W W' L; try discriminate; [reflexivity|].
  inversion W as [|? ? Lc W1]; inversion W' as [|? ? Ld W2]; subst. injection L as L. change (msub (c :: A) (d :: B)) with (vsub c d :: msub A B). cbn [concat].
  rewrite (IH B) by assumption. rewrite vsub_app by congruence. reflexivity.
Qed.
Lemma matrix_squares_nrm A : sqrt (matrix_squares A) = nrm (concat A).
Proof.
  unfold nrm. rewrite <- frob_concat. f_equal. induction A as [|c A IH]; [reflexivity|]. cbn [matrix_squares frob fold_right]. fold (matrix_squares A). fold (frob A).
  rewrite IH, sum_squares_normsq. reflexivity.
Qed.

(** ** least squares with a perturbed matrix and perturbed data *)
Lemma perturbed n A A' b b' x a k D : wf n A -> wf n A' -> length A' = length A -> length b = n -> length b' = n -> length a = length A -> 0 <= k ->
  (forall z, length z = length A -> k * nrm z <= nrm (mulmv n A z)) -> nrm (vsub (concat A') (concat A)) <= D -> lstsq_solution A' b' x ->
  (k - D) * nrm (vsub x a) <= nrm (vsub b (mulmv n A a)) + nrm (vsub b' b) + D * nrm a.
Proof.
  intros W W' L Lb Lb' La K0 HK HD H. assert (Lx : length x = length A') by apply H.
  assert (C := lstsq_closer A' b' x a ltac:(rewrite Lb'; exact W') H ltac:(congruence)). rewrite Lb' in C. apply sqrt_le_1_alt in C. fold (nrm (mulmv n A' (vsub x a))) in C.
  fold (nrm (vsub b' (mulmv n A' a))) in C. set (z := vsub x a) in *. assert (Lz : length z = length A) by (unfold z; rewrite vsub_len; congruence).
  assert (FR : forall y, length y = length A -> nrm (mulmv n (msub A' A) y) <= D * nrm y).
  { intros y Ly. eapply Rle_trans; [apply mulmv_frob; [apply msub_wf; assumption|rewrite msub_len; congruence]|]. apply Rmult_le_compat_r; [apply nrm_nonneg|].
    rewrite (frob_msub n) by assumption. exact HD. }
  assert (S1 : k * nrm z <= nrm (mulmv n A' z) + D * nrm z).
  { eapply Rle_trans; [apply HK, Lz|]. 
    rewrite (mulmv_msub n A' A z) by (try assumption; congruence). set (p := mulmv n A z). set (q := mulmv n (msub A' A) z).
    assert (Lp : length p = length q) by (unfold p, q; rewrite !mulmv_len by (try apply msub_wf; assumption); reflexivity).
    rewrite <- (vsub_vadd p q) at 1 by exact Lp. eapply Rle_trans; [apply nrm_sub; rewrite vadd_len by exact Lp; exact Lp|]. apply Rplus_le_compat_l, FR, Lz. }
  assert (S2 : nrm (vsub b' (mulmv n A' a)) <= nrm (vsub b (mulmv n A a)) + nrm (vsub b' b) + D * nrm a).
  { rewrite (mulmv_msub n A' A a) by (try assumption; congruence). set (p := mulmv n A a). set (q := mulmv n (msub A' A) a).
    assert (Lp : length p = n) by (unfold p; apply mulmv_len, W). assert (Lq : length q = n) by (unfold q; apply mulmv_len, msub_wf; assumption).
    rewrite vsub_add_r by congruence. eapply Rle_trans; [apply nrm_sub; rewrite vsub_len by congruence; congruence|].
    assert (Hq : nrm q <= D * nrm a) by (apply FR, La).
    assert (Hb : nrm (vsub b' p) <= nrm (vsub b' b) + nrm (vsub b p)) by (apply nrm_chain; congruence). lra. }
  rewrite Rmult_minus_distr_r. lra.
Qed.

(** ** the coordinates of the crop *)
Lemma crop_more rows cols x strict mask px radii thetas :
  crop_phases_img b64 (Img rows cols (fun i j => (i, j))) (RadNum x) strict = Ok (mask, (px, radii, thetas)) ->
  thetas = map (fun p => crop_theta rows cols (fst p) (snd p)) px /\ Forall F64 radii.
Proof.
  unfold crop_phases_img. set (c := round4 b64 x). destruct (negb _); [discriminate|]. destruct (Z.min rows cols <? 3)%Z; [discriminate|].
  set (eps := radius_epsilon rows cols strict). set (st := fold_left _ _ _). intros H.
  assert (INV : forall l (s : crop_state (Z * Z)), (vthetas s = map (fun p => crop_theta rows cols (fst p) (snd p)) (vphases s) /\ Forall F64 (vradii s)) ->
    let s' := fold_left (crop_step b64 rows cols (fun i j => (i, j)) strict c eps) l s in
    vthetas s' = map (fun p => crop_theta rows cols (fst p) (snd p)) (vphases s') /\ Forall F64 (vradii s')).
  { induction l as [|[i j] l IH]; intros s I; [exact I|]. cbn [fold_left]. apply IH. unfold crop_step. destruct (Rltb' _ eps); [|exact I].
    destruct I as (I1 & I2). cbn [vthetas vphases vradii]. rewrite I1, map_app. split; [reflexivity|]. apply Forall_app. split; [exact I2|]. constructor; [|constructor]. apply b64_F. }
  specialize (INV (pixels rows cols) {| M_Crop.mask := fun _ _ => 0%Z; vphases := []; vradii := []; vthetas := []; recal := false; rcoeff := 1 |} (conj eq_refl (Forall_nil _))).
  cbn zeta in INV. fold st in INV. destruct INV as (I1 & I2). destruct (vradii st) as [|r0 rs] eqn:ER; [discriminate|]. rewrite <- ER in *.
  apply Ok_inj in H. injection H as _ H1 H2 H3. subst px thetas radii. split; [exact I1|]. unfold recalibrate.
  set (l1 := if recal st then _ else _). assert (F1 : Forall F64 l1).
  { unfold l1. destruct (recal st); [|exact I2]. apply Forall_forall. intros v Hv. apply in_map_iff in Hv. destruct Hv as (y & <- & _). apply b64_F. }
  destruct (_ && _)%bool; [|exact F1]. apply Forall_forall. intros v Hv. apply in_map_iff in Hv. destruct Hv as (y & <- & _). apply b64_F.
Qed.
Lemma center_half size : center size = IZR (size - 1) / 2.
Proof.
  unfold center. destruct (size mod 2 =? 0)%Z eqn:E.
  - apply Z.eqb_eq in E. rewrite minus_IZR. pose proof (Z.div_mod size 2 ltac:(lia)) as D. rewrite E in D. rewrite D at 2. rewrite plus_IZR, mult_IZR. lra.
  - apply Z.eqb_neq in E. pose proof (Z.mod_pos_bound size 2 ltac:(lia)) as B. pose proof (Z.div_mod size 2 ltac:(lia)) as D. assert (M : (size mod 2 = 1)%Z) by lia.
    replace (size - 1)%Z with (size / 2 * 2)%Z by lia. rewrite Z.div_mul by lia. rewrite mult_IZR. lra.
Qed.
Lemma half_F64 z : (Z.abs z <= 2 ^ 52)%Z -> F64 (IZR z / 2).
Proof.
  intros H. assert (H' : (Z.abs z < 2 ^ 53)%Z) by (change (2 ^ 53)%Z with 9007199254740992%Z; change (2 ^ 52)%Z with 4503599627370496%Z in H; lia).
  apply generic_format_FLT. exists (Float radix2 z (-1)); [|exact H'|cbn; lia].
  unfold F2R. cbn [Fnum Fexp]. change (bpow radix2 (-1)) with (/ 2). reflexivity.
Qed.
Lemma angle_facts fatan2 xx yy : angle_within_ulp fatan2 -> F64 xx -> F64 yy ->
  let a := fatan2 yy xx in let a' := if Rlt_dec a 0 then b64 (a + two_pi b64) else a in
  exists t, (t = arctan2 yy xx \/ t = arctan2 yy xx + 2 * PI) /\ Rabs a' <= 7 /\ Rabs (a' - t) <= 24 * u.
Proof.
  intros AT Fx Fy. pose proof u_pos as U. pose proof u_small as US. pose proof PI_tight as PT. destruct AT as (A0 & AT'). cbn zeta.
  destruct (arctan2_spec yy xx) as (B & C & S). assert (TB : Rabs (arctan2 yy xx) <= 31416 / 10000) by (apply Rabs_le; lra).
  assert (E : Rabs (fatan2 yy xx - arctan2 yy xx) <= 73 / 10 * u).
  { destruct (Req_dec (norm2 xx yy) 0) as [Z0|NZ].
    - rewrite Z0 in C, S. rewrite Rmult_0_l in C, S. rewrite <- C, <- S, A0. unfold arctan2. destruct (Rlt_dec 0 0); [lra|]. destruct (Rlt_dec 0 0); [lra|]. rewrite Rminus_0_r, Rabs_R0. lra.
    - eapply Rle_trans; [apply (AT' xx yy (norm2 xx yy)); try assumption; pose proof (norm2_pos xx yy); lra|]. eapply Rle_trans; [apply ulp_rel|].
      assert (2 * u * Rabs (arctan2 yy xx) <= 2 * u * (31416 / 10000)) by (apply Rmult_le_compat_l; lra). lra. }
  set (t := arctan2 yy xx) in *. set (t' := fatan2 yy xx) in *. destruct (Rlt_dec t' 0) as [NEG|POS].
  - exists (t + 2 * PI). split; [right; reflexivity|].
    assert (P1 : Rabs (b64 PI - PI) <= 365 / 100 * u).
    { eapply Rle_trans; [apply b64_rel|]. rewrite (Rabs_pos_eq PI) by lra. assert (u * PI <= u * (31416 / 10000)) by (apply Rmult_le_compat_l; lra). lra. }
    destruct two_pi_facts as (_ & _ & _ & ET). apply Rabs_le_inv in E. apply Rabs_le_inv in P1. apply Rabs_le_inv in TB.
    assert (M : Rabs (t + 2 * PI) <= 6284 / 1000) by (apply Rabs_le; lra).
    assert (E3 : Rabs (t' + two_pi b64 - (t + 2 * PI)) <= 1461 / 100 * u) by (rewrite ET; apply Rabs_le; lra).
    pose proof (b64_step _ _ _ _ M E3) as E4. assert (UU : u * u <= u * (1 / 1000)) by (apply Rmult_le_compat_l; lra).
    assert (E5 : Rabs (b64 (t' + two_pi b64) - (t + 2 * PI)) <= 24 * u) by (eapply Rle_trans; [exact E4|]; lra).
    split; [|exact E5]. apply Rabs_le_inv in E5. apply Rabs_le_inv in M. apply Rabs_le. lra.
  - exists t. split; [left; reflexivity|]. split; [|lra]. apply Rabs_le_inv in E. apply Rabs_le_inv in TB. apply Rabs_le. lra.
Qed.
Lemma Z_period m n r t : Z_nm m n r (t + 2 * PI) = Z_nm m n r t.
Proof. unfold Z_nm. replace (t + 2 * PI) with (t + 2 * IZR 1 * PI) by ring. rewrite T_period. reflexivity. Qed.
Lemma theta_facts fatan2 rows cols i j : angle_within_ulp fatan2 -> (3 <= Z.min rows cols)%Z -> (Z.max rows cols <= 2 ^ 25)%Z -> (0 <= i < rows)%Z -> (0 <= j < cols)%Z ->
  Rabs (fcrop_theta b64 fatan2 rows cols i j) <= 7 /\ exists t, Rabs (fcrop_theta b64 fatan2 rows cols i j - t) <= 24 * u /\
    forall m n r, Z_nm m n r t = Z_nm m n r (crop_theta rows cols i j).
Proof.
  intros AT H3 HM Hi Hj. change (2 ^ 25)%Z with 33554432%Z in HM.
  assert (Ex : IZR j - center cols = IZR (2 * j - (cols - 1)) / 2) by (rewrite center_half, !minus_IZR, mult_IZR; lra).
  assert (Ey : center rows - IZR i = IZR (rows - 1 - 2 * i) / 2) by (rewrite center_half, !minus_IZR, mult_IZR; lra).
  assert (Fx : F64 (IZR j - center cols)) by (rewrite Ex; apply half_F64; change (2 ^ 52)%Z with 4503599627370496%Z; lia).
  assert (Fy : F64 (center rows - IZR i)) by (rewrite Ey; apply half_F64; change (2 ^ 52)%Z with 4503599627370496%Z; lia).
  destruct (angle_facts fatan2 _ _ AT Fx Fy) as (t & Ht & B & E). unfold fcrop_theta. split; [exact B|]. exists t. split; [exact E|].
  clear B E. intros m n r. unfold crop_theta, pixel_theta. destruct (Rlt_dec _ 0); destruct Ht as [-> | ->]; rewrite ?Z_period; reflexivity.
Qed.

(** ** the matrix *)
Definition err_p (p : Z * Z) : R := norm_nm (fst p) (snd p) * (4 * radial_error (snd p) + IZR (Z.abs (fst p)) / 2 ^ 47).
Lemma err_p_nonneg p : 0 <= err_p p.
Proof.
  unfold err_p. apply Rmult_le_pos; [apply norm_nonneg|]. pose proof (re_nonneg (snd p)).
  assert (0 <= IZR (Z.abs (fst p)) / 2 ^ 47) by (apply Rmult_le_pos; [apply (IZR_le 0); lia|apply Rlt_le, Rinv_0_lt_compat, pow_lt; lra]). lra.
Qed.
Section Matrix.
Variable pw : R -> Z -> R.
Variables fcos fsin : R -> R.
Hypothesis PW : power_within_ulp pw.
Hypothesis TR : trig_within_ulp fcos fsin.
Variable fuel : nat.
Lemma entry_okq p x phi : okp fuel p -> F64 x -> 0 <= x <= 1 -> Rabs phi <= 7 ->
  okq (fvalue b64 pw fcos fsin fuel p x phi) (fun v => forall t, Rabs (phi - t) <= 24 * u -> Rabs (v - Z_nm (fst p) (snd p) x t) <= err_p p).
Proof.
  intros OK Fx Hx H7. unfold fvalue. rewrite in_range by exact Hx. eapply okq_weak; [|apply value_okq; assumption]. intros v Hv t Ht. cbv beta in Hv.
  pose proof (Z_lip_t (fst p) (snd p) x phi t (proj1 OK) Hx) as LT. pose proof (norm_nonneg (fst p) (snd p)) as N0. set (N := norm_nm (fst p) (snd p)) in *.
  assert (M0 : 0 <= IZR (Z.abs (fst p))) by (apply (IZR_le 0); lia). set (m := IZR (Z.abs (fst p))) in *.
  assert (L2 : N * m * Rabs (phi - t) <= N * m * (24 * u)) by (apply Rmult_le_compat_l; [apply Rmult_le_pos; assumption|exact Ht]).
  replace (v - Z_nm (fst p) (snd p) x t) with ((v - Z_nm (fst p) (snd p) x phi) + (Z_nm (fst p) (snd p) x phi - Z_nm (fst p) (snd p) x t)) by ring.
  eapply Rle_trans; [apply Rabs_triang|]. unfold err_p. fold N m.
  assert (E1 : m / 2 ^ 49 = 16 * (m * u)). { unfold u. field. }
  assert (E2 : m / 2 ^ 47 = 64 * (m * u)). { unfold u. field. }
  rewrite E1 in Hv. rewrite E2. assert (0 <= N * (m * u)) by (apply Rmult_le_pos; [exact N0|apply Rmult_le_pos; [exact M0|apply Rlt_le, u_pos]]).
  replace (N * (4 * radial_error (snd p) + 64 * (m * u))) with (N * (4 * radial_error (snd p) + 16 * (m * u)) + 48 * (N * (m * u))) by ring.
  replace (N * m * (24 * u)) with (24 * (N * (m * u))) in L2 by ring. lra.
Qed.

Variables (fatan2 : R -> R -> R) (rows cols : Z) (S : list (Z * Z)) (radii : list R).
Hypothesis AT : angle_within_ulp fatan2.
Hypothesis H3 : (3 <= Z.min rows cols)%Z.
Hypothesis HM : (Z.max rows cols <= 2 ^ 25)%Z.
Hypothesis IS : forall i j, In (i, j) S -> (0 <= i < rows)%Z /\ (0 <= j < cols)%Z.
Hypothesis LR : length radii = length S.
Hypothesis FR : Forall F64 radii.
Hypothesis DR : forall r, In r radii -> 0 <= r <= 1.
Let thetas' := map (fun p => fcrop_theta b64 fatan2 rows cols (fst p) (snd p)) S.
Let pts := combine radii (map (fun p => crop_theta rows cols (fst p) (snd p)) S).
Lemma pts_len : length pts = length S.
Proof. unfold pts. rewrite combine_length, map_length. lia. Qed.
Lemma column_okq p : okp fuel p -> okq (fcolumn b64 pw fcos fsin fuel radii thetas' p)
  (fun v => length v = length S /\ squares_diff v (map (fun q => Z_nm (fst p) (snd p) (fst q) (snd q)) pts) <= INR (length S) * Rsqr (err_p p)).
Proof.
  intros OK. unfold fcolumn. eapply okq_weak; [|apply (mapM_okq _ (fun q v => forall t, Rabs (snd q - t) <= 24 * u -> Rabs (v - Z_nm (fst p) (snd p) (fst q) t) <= err_p p))].
  - cbv beta. intros v F. revert v F. unfold pts, thetas'. revert LR. generalize radii. revert IS. generalize S. clear -AT H3 HM. intros T.
    induction T as [|[i j] T IH]; intros IS [|r rs] LR v F; try discriminate; cbn [map combine] in F; inversion F as [|? y ? v' Hy F' E1 E2]; subst.
    + cbn. split; [reflexivity|lra].
    + injection LR as LR. destruct (IH (fun i j H => IS i j (or_intror H)) rs LR v' F') as (Lv & SQ).
      cbn [length map combine squares_diff fst snd] in *. split; [congruence|]. rewrite S_INR.
      destruct (IS i j (or_introl eq_refl)) as (Hi & Hj). destruct (theta_facts fatan2 rows cols i j AT H3 HM Hi Hj) as (_ & t & Ht & EZ).
      specialize (Hy t Ht). rewrite EZ in Hy. set (d := y - _) in *.
      assert (d * d <= Rsqr (err_p p)). { rewrite <- (Rabs_pos_eq (err_p p)) in Hy by apply err_p_nonneg. apply Rsqr_le_abs_1 in Hy. exact Hy. }
      lra.
  - intros (r, phi) Hq. cbn [fst snd]. apply entry_okq; [exact OK| | |].
    + rewrite Forall_forall in FR. apply FR. apply in_combine_l in Hq. exact Hq.
    + apply DR. apply in_combine_l in Hq. exact Hq.
    + apply in_combine_r in Hq. unfold thetas' in Hq. apply in_map_iff in Hq. destruct Hq as ((i, j) & <- & HI). destruct (IS i j HI) as (Hi & Hj). cbn [fst snd].
      apply (theta_facts fatan2 rows cols i j AT H3 HM Hi Hj).
Qed.
Lemma matrix_okq ps : Forall (okp fuel) ps -> okq (mapM (fcolumn b64 pw fcos fsin fuel radii thetas') ps)
  (fun A => length A = length ps /\ wf (length S) A /\ matrix_diff A (design pts ps) <= INR (length S) * fold_right (fun p s => Rsqr (err_p p) + s) 0 ps).
Proof.
  intros OK. eapply okq_weak; [|apply (mapM_okq _ (fun p v => length v = length S /\ squares_diff v (map (fun q => Z_nm (fst p) (snd p) (fst q) (snd q)) pts) <= INR (length S) * Rsqr (err_p p)))].
  - cbv beta. intros A F. clear OK. induction F as [|p v ps A (Lv & SQ) F IH]; [split; [reflexivity|]; split; [constructor|]; cbn; lra|].
    destruct IH as (L & W & MD). cbn [length]. split; [congruence|]. split; [constructor; assumption|]. cbn [design map matrix_diff fold_right]. fold (design pts ps).
    rewrite Rmult_plus_distr_l. lra.
  - intros p Hp. apply column_okq. rewrite Forall_forall in OK. apply OK, Hp.
Qed.
End Matrix.
Lemma design_squares pts ps : Forall validp ps -> (forall q, In q pts -> 0 <= fst q <= 1) ->
  matrix_squares (design pts ps) <= INR (length pts) * fold_right (fun p s => Rsqr (norm_nm (fst p) (snd p)) + s) 0 ps.
Proof.
  intros V D. induction V as [|p ps V1 V IH]; [cbn; lra|]. cbn [design map matrix_squares fold_right]. fold (design pts ps). fold (matrix_squares (design pts ps)).
  rewrite Rmult_plus_distr_l. apply Rplus_le_compat; [|exact IH]. clear IH V. induction pts as [|q pts IH]; [cbn; lra|].
  cbn [map sum_squares fold_right length]. rewrite S_INR. fold (sum_squares (map (fun q => Z_nm (fst p) (snd p) (fst q) (snd q)) pts)).
  specialize (IH (fun q H => D q (or_intror H))). pose proof (Z_bound (fst p) (snd p) (fst q) (snd q) V1 (D q (or_introl eq_refl))) as B.
  rewrite <- (Rabs_pos_eq (norm_nm (fst p) (snd p))) in B by apply norm_nonneg. apply Rsqr_le_abs_1 in B. unfold Rsqr at 1 in B. lra.
Qed.

(** ** numpy.round *)
Lemma fround_err digits x : (0 <= digits <= 22)%Z -> Rabs (fround b64 digits x - x) <= (/ 2 + / 2 ^ 50) * powerRZ 10 (- digits) + Rabs x / 2 ^ 51.
Proof.
  intros Hd. unfold fround. replace (0 <=? digits)%Z with true by lia. pose proof u_pos as U. pose proof u_small as US.
  rewrite powerRZ_neg'. set (p := powerRZ 10 digits).
  assert (P1 : 1 <= p <= 10 ^ 22).
  { unfold p. rewrite <- (Z2Nat.id digits) by lia. rewrite <- pow_powerRZ. split; [apply pow_R1_Rle; lra|apply Rle_pow; [lra|lia]]. }
  assert (IP : 0 < / p <= 1) by (split; [apply Rinv_0_lt_compat; lra|rewrite <- Rinv_1; apply Rinv_le_contravar; lra]).
  set (y := b64 (x * p)). set (k := ZnearestE y). assert (Y : Rabs (y - x * p) <= u * Rabs (x * p) + u / 2) by apply b64_rel.
  rewrite Rabs_mult, (Rabs_pos_eq p) in Y by lra.
  assert (K : Rabs (IZR k - y) <= / 2) by (rewrite Rabs_minus_sym; apply Znearest_half).
  assert (Q : Rabs (IZR k / p - x) <= (/ 2 + u / 2) * / p + u * Rabs x).
  { replace (IZR k / p - x) with ((IZR k - y + (y - x * p)) * / p) by (field; lra). rewrite Rabs_mult, (Rabs_pos_eq (/ p)) by lra.
    apply Rle_trans with ((/ 2 + (u * (Rabs x * p) + u / 2)) * / p).
    - apply Rmult_le_compat_r; [lra|]. eapply Rle_trans; [apply Rabs_triang|]. lra.
    - right. field. lra. }
  assert (B : Rabs (b64 (IZR k / p) - IZR k / p) <= u * Rabs (IZR k / p)).
  { destruct (Z.eq_dec k 0) as [->|NZ]; [unfold Rdiv; rewrite Rmult_0_l, b64_0, Rminus_0_r, Rabs_R0; lra|]. apply b64_relN.
    unfold Rdiv. rewrite Rabs_mult, (Rabs_pos_eq (/ p)), <- abs_IZR by lra. assert (1 <= IZR (Z.abs k)) by (apply (IZR_le 1); lia).
    apply Rle_trans with (1 * / 10 ^ 22).
    - rewrite Rmult_1_l. apply Rle_trans with (bpow radix2 (-74)); [apply bpow_le; lia|]. change (bpow radix2 (-74)) with (/ IZR (2 ^ 74)). rewrite (pow_IZR 10 22).
      apply Rinv_le_contravar; [apply (IZR_lt 0); reflexivity|]. apply IZR_le. vm_compute. discriminate.
    - apply Rmult_le_compat; [lra|left; apply Rinv_0_lt_compat; lra|exact H|apply Rinv_le_contravar; lra]. }
  set (z := IZR k / p) in *. assert (ZB : Rabs z <= Rabs x + ((/ 2 + u / 2) * / p + u * Rabs x)).
  { replace z with (x + (z - x)) by ring. eapply Rle_trans; [apply Rabs_triang|]. lra. }
  replace (b64 z - x) with ((b64 z - z) + (z - x)) by ring. eapply Rle_trans; [apply Rabs_triang|].
  assert (UZ : u * Rabs z <= u * (Rabs x + ((/ 2 + u / 2) * / p + u * Rabs x))) by (apply Rmult_le_compat_l; lra).
  pose proof (Rabs_pos x) as X0. assert (E1 : Rabs x / 2 ^ 51 = 4 * (u * Rabs x)) by (unfold u; field). assert (E2 : / 2 ^ 50 = 8 * u) by (unfold u; field).
  rewrite E1, E2. set (ip := / p) in *. assert (UI : 0 <= u * ip) by (apply Rmult_le_pos; lra). assert (UX : 0 <= u * Rabs x) by (apply Rmult_le_pos; lra).
  assert (UUI : u * (u * ip) <= 1 * (u * ip)) by (apply Rmult_le_compat_r; lra). assert (UUX : u * (u * Rabs x) <= 1 * (u * Rabs x)) by (apply Rmult_le_compat_r; lra).
  replace (u * (Rabs x + ((/ 2 + u / 2) * ip + u * Rabs x))) with (u * Rabs x + / 2 * (u * ip) + / 2 * (u * (u * ip)) + u * (u * Rabs x)) in UZ by field.
  replace ((/ 2 + 8 * u) * ip) with (/ 2 * ip + 8 * (u * ip)) by ring. replace ((/ 2 + u / 2) * ip) with (/ 2 * ip + / 2 * (u * ip)) in Q by field. lra.
Qed.

(** ** the program *)
Lemma ffit_okq pw fcos fsin fatan2 lstsq fuel rows cols f ps x strict digits (rc : bool) mask S radii thetas :
  power_within_ulp pw -> trig_within_ulp fcos fsin -> angle_within_ulp fatan2 -> (3 <= Z.min rows cols)%Z -> (Z.max rows cols <= 2 ^ 25)%Z ->
  crop_phases_img b64 (Img rows cols (fun i j => (i, j))) (RadNum x) strict = Ok (mask, (S, radii, thetas)) ->
  (forall i j, In (i, j) S -> (0 <= i < rows)%Z /\ (0 <= j < cols)%Z) -> length radii = length S -> (forall r, In r radii -> 0 <= r <= 1) ->
  Forall (okp fuel) ps -> NoDup ps -> ps <> [] ->
  okq (ffit_polynomials b64 pw fcos fsin fatan2 lstsq fuel (Img rows cols f) (map Some ps) (RadNum x) strict digits rc)
    (fun r => exists A img, r = (map (fround b64 digits) (lstsq A (map (fun p => f (fst p) (snd p)) S)), img) /\
       length A = length ps /\ wf (length S) A /\ matrix_diff A (design (combine radii thetas) ps) <= INR (length S) * fold_right (fun p s => Rsqr (err_p p) + s) 0 ps).
Proof.
  intros PW TR AT H3 HM EC IS LR DR OK ND NP. destruct (crop_more rows cols x strict mask S radii thetas EC) as (ETH & FR).
  unfold ffit_polynomials. set (thetas' := map (fun p => fcrop_theta b64 fatan2 rows cols (fst p) (snd p)) S).
  eapply isok_bindq with (a := (mask, (map (fun p => f (fst p) (snd p)) S, radii, thetas'))).
  { apply isok_lift. unfold fcrop. rewrite EC. reflexivity. }
  cbv beta iota zeta. eapply okq_bind with (P := fun v => exists A, v = lstsq A (map (fun p => f (fst p) (snd p)) S) /\ length A = length ps /\ wf (length S) A /\
    matrix_diff A (design (combine radii thetas) ps) <= INR (length S) * fold_right (fun p s => Rsqr (err_p p) + s) 0 ps).
  - unfold ffit_zernikes. destruct (map Some ps) as [|o l] eqn:E; [destruct ps; [congruence|discriminate]|]. rewrite <- E. clear E o l.
    eapply isok_bindq; [apply isok_lift, all_orders_some|]. cbv beta. rewrite (repeated_false ps ND).
    eapply okq_bind; [apply (matrix_okq pw fcos fsin PW TR fuel fatan2 rows cols S radii AT H3 HM IS LR FR DR ps OK)|].
    cbv beta. intros A (L & W & D). apply okq_ret. exists A. rewrite ETH. repeat split; assumption.
  - cbv beta. intros v (A & -> & L & W & D). apply okq_ret. exists A. eexists. split; [reflexivity|]. repeat split; assumption.
Qed.
Lemma err_p_sum ps : sqrt (fold_right (fun p s => Rsqr (err_p p) + s) 0 ps) = fit_error ps. Proof. reflexivity. Qed.
Lemma sum_sq_nonneg (g : Z * Z -> R) ps : 0 <= fold_right (fun p s => Rsqr (g p) + s) 0 ps.
Proof. induction ps as [|p ps IH]; cbn [fold_right]; [lra|]. pose proof (Rle_0_sqr (g p)). lra. Qed.
(** ** distance of the solution *)
Lemma solution_close n pts ps A2 A' phases b' y a k eta : length pts = n -> Forall validp ps -> (forall q, In q pts -> 0 <= fst q <= 1) ->
  length A2 = length ps -> wf n A2 -> matrix_diff A2 (design pts ps) <= INR n * fold_right (fun p s => Rsqr (err_p p) + s) 0 ps ->
  length A' = length A2 -> wf n A' -> length phases = n -> length b' = n -> length a = length ps -> 0 < k -> 0 <= eta ->
  sqrt (matrix_diff A' A2) <= eta * sqrt (matrix_squares A2) -> sqrt (squares_diff b' phases) <= eta * sqrt (sum_squares phases) -> lstsq_solution A' b' y ->
  (forall z, length z = length ps -> k * nrm z <= nrm (mulmv n (design pts ps) z)) -> matrix_error n ps eta <= k / 2 ->
  k / 2 * nrm (vsub y a) <= (1 + eta) * nrm (vsub phases (mulmv n (design pts ps) a)) + (matrix_error n ps eta + eta * (sqrt (INR n) * fit_size ps)) * nrm a.
Proof.
  intros LP V DP L2 W2 MD LA' WA' Lph Lb' La K0 E0 DA DB SOL HK ME. set (A := design pts ps) in *. set (e := nrm (vsub phases (mulmv n A a))).
  assert (WA : wf n A) by (rewrite <- LP; apply design_wf). assert (LA : length A = length ps) by (unfold A, design; apply map_length).
  assert (N0 : 0 <= INR n) by apply pos_INR. set (sn := sqrt (INR n)) in *. assert (SN0 : 0 <= sn) by apply sqrt_pos.
  assert (SZ : nrm (concat A) <= sn * fit_size ps).
  { rewrite <- matrix_squares_nrm. unfold sn, fit_size. rewrite <- sqrt_mult_alt by exact N0. apply sqrt_le_1_alt. rewrite <- LP. apply design_squares; assumption. }
  assert (D1 : nrm (vsub (concat A2) (concat A)) <= sn * fit_error ps).
  { rewrite <- (matrix_diff_nrm n) by (try assumption; congruence). unfold sn. rewrite <- err_p_sum. rewrite <- sqrt_mult_alt by exact N0. apply sqrt_le_1_alt. exact MD. }
  assert (LC : length (concat A2) = length (concat A)) by (rewrite !(concat_len n) by assumption; congruence).
  assert (LC' : length (concat A') = length (concat A2)) by (rewrite !(concat_len n) by assumption; congruence).
  assert (S2 : nrm (concat A2) <= sn * (fit_size ps + fit_error ps)).
  { rewrite <- (vadd_sub (concat A2) (concat A)) by exact LC. eapply Rle_trans; [apply nrm_add; rewrite vsub_len by exact LC; congruence|]. rewrite Rmult_plus_distr_l. lra. }
  assert (D2 : nrm (vsub (concat A') (concat A2)) <= eta * (sn * (fit_size ps + fit_error ps))).
  { rewrite <- (matrix_diff_nrm n) by assumption. eapply Rle_trans; [exact DA|]. rewrite matrix_squares_nrm. apply Rmult_le_compat_l; [exact E0|exact S2]. }
  assert (DD : nrm (vsub (concat A') (concat A)) <= matrix_error n ps eta).
  { eapply Rle_trans; [apply (nrm_chain _ (concat A2)); congruence|]. unfold matrix_error. fold sn. rewrite (Rmult_plus_distr_l sn).
    replace (sn * (eta * (fit_size ps + fit_error ps))) with (eta * (sn * (fit_size ps + fit_error ps))) by ring. lra. }
  rewrite <- LA in HK. rewrite squares_diff_nrm in DB by congruence. rewrite sum_squares_nrm in DB.
  pose proof (perturbed n A A' phases b' y a k (matrix_error n ps eta) WA WA' ltac:(congruence) Lph Lb' ltac:(congruence) ltac:(lra) HK DD SOL) as P. fold e in P.
  assert (NP : nrm phases <= e + sn * fit_size ps * nrm a).
  { assert (LM : length (mulmv n A a) = n) by (apply mulmv_len, WA). rewrite <- (vadd_sub phases (mulmv n A a)) by congruence.
    eapply Rle_trans; [apply nrm_add; rewrite vsub_len by congruence; congruence|]. fold e.
    assert (nrm (mulmv n A a) <= sn * fit_size ps * nrm a); [|lra].
    eapply Rle_trans; [apply mulmv_frob; [exact WA|congruence]|]. apply Rmult_le_compat_r; [apply nrm_nonneg|]. rewrite frob_concat. exact SZ. }
  assert (NB : nrm (vsub b' phases) <= eta * (e + sn * fit_size ps * nrm a)) by (eapply Rle_trans; [exact DB|]; apply Rmult_le_compat_l; assumption).
  assert (KK : k / 2 * nrm (vsub y a) <= (k - matrix_error n ps eta) * nrm (vsub y a)) by (apply Rmult_le_compat_r; [apply nrm_nonneg|lra]).
  replace ((1 + eta) * e + (matrix_error n ps eta + eta * (sn * fit_size ps)) * nrm a) with (e + eta * (e + sn * fit_size ps * nrm a) + matrix_error n ps eta * nrm a) by ring. lra.
Qed.

(** ** without rounding *)
Lemma crop_thetas rnd rows cols x strict mask px radii thetas :
  crop_phases_img rnd (Img rows cols (fun i j => (i, j))) (RadNum x) strict = Ok (mask, (px, radii, thetas)) ->
  thetas = map (fun p => crop_theta rows cols (fst p) (snd p)) px.
Proof.
  unfold crop_phases_img. set (c := round4 rnd x). destruct (negb _); [discriminate|]. destruct (Z.min rows cols <? 3)%Z; [discriminate|].
  set (eps := radius_epsilon rows cols strict). set (st := fold_left _ _ _). intros H.
  assert (INV : forall l (s : crop_state (Z * Z)), vthetas s = map (fun p => crop_theta rows cols (fst p) (snd p)) (vphases s) ->
    let s' := fold_left (crop_step rnd rows cols (fun i j => (i, j)) strict c eps) l s in
    vthetas s' = map (fun p => crop_theta rows cols (fst p) (snd p)) (vphases s')).
  { induction l as [|[i j] l IH]; intros s I; [exact I|]. cbn [fold_left]. apply IH. unfold crop_step. destruct (Rltb' _ eps); [|exact I].
    cbn [vthetas vphases]. rewrite I, map_app. reflexivity. }
  specialize (INV (pixels rows cols) {| M_Crop.mask := fun _ _ => 0%Z; vphases := []; vradii := []; vthetas := []; recal := false; rcoeff := 1 |} eq_refl).
  cbn zeta in INV. fold st in INV. destruct (vradii st) as [|r0 rs] eqn:ER; [discriminate|]. rewrite <- ER in *.
  apply Ok_inj in H. injection H as _ H1 H2 H3. subst px thetas radii. exact INV.
Qed.
Lemma fround_exact digits v : fround idf digits v = np_round digits v.
Proof.
  unfold fround, np_round. destruct (0 <=? digits)%Z; [reflexivity|]. rewrite powerRZ_neg'.
  unfold Rdiv. rewrite Rinv_inv. reflexivity.
Qed.
Lemma combine_map_r {A B C} (g : B -> C) (l : list A) : forall m, combine l (map g m) = map (fun p => (fst p, g (snd p))) (combine l m).
Proof. induction l as [|a l IH]; intros [|b m]; try reflexivity. cbn [map combine fst snd]. rewrite IH. reflexivity. Qed.
Lemma ffit_isok0 lstsq fuel rows cols f ps x strict digits (rc : bool) mask S radii thetas :
  crop_phases_img idf (Img rows cols (fun i j => (i, j))) (RadNum x) strict = Ok (mask, (S, radii, thetas)) ->
  thetas = map (fun p => crop_theta rows cols (fst p) (snd p)) S -> Forall (okp fuel) ps -> NoDup ps -> ps <> [] -> length radii = length S ->
  (forall r, In r radii -> 0 <= r <= 1) ->
  isok (ffit_polynomials idf powerRZ cos sin arctan2 lstsq fuel (Img rows cols f) (map Some ps) (RadNum x) strict digits rc)
    (map (np_round digits) (lstsq (design (combine radii thetas) ps) (map (fun p => f (fst p) (snd p)) S)),
     if rc then Some (fun i j => IZR (mask i j) * f i j) else None).
Proof.
  intros EC ETH OK ND NP LR DR. unfold ffit_polynomials.
  eapply isok_bind with (a := (mask, (map (fun p => f (fst p) (snd p)) S, radii, thetas))).
  { apply isok_lift. unfold fcrop. rewrite EC. cbn [bind]. rewrite ETH. reflexivity. }
  cbv beta iota zeta. eapply isok_bind with (a := lstsq (design (combine radii thetas) ps) (map (fun p => f (fst p) (snd p)) S)).
  - unfold ffit_zernikes. destruct (map Some ps) as [|o l] eqn:E; [destruct ps; [congruence|discriminate]|]. rewrite <- E. clear E o l.
    eapply isok_bind; [apply isok_lift, all_orders_some|]. cbv beta. rewrite (repeated_false ps ND).
    eapply isok_bind; [|apply isok_ret]. unfold design. apply mapM_isok. intros p Hp. unfold fcolumn. apply mapM_isok. intros (r, t) Hq. cbn [fst snd].
    apply fvalue_isok0; [rewrite Forall_forall in OK; apply OK, Hp|]. apply DR. apply in_combine_l in Hq. exact Hq.
  - cbv beta. eapply isok_ext; [|apply isok_ret]. f_equal. apply map_ext. intros v. apply fround_exact.
Qed.
