(** Lemmas for C79. *)
From Coq Require Import Reals Lra Lia List.
From Flocq Require Import Core.
From Verif Require Import Py SpecIndex SpecRadial M_Radial M_Coeffs SpecCoeffs M_Sum SpecSum L_Sum SpecFit L_LinAlg SpecGeo M_Crop M_Fit SpecCrop L_Polar L_Crop L_Phases L_Fit L_Indep L_Stable SpecDiff SpecFitNoise L_FitNoise
  SpecDisk SpecFitK L_FitK P_Fit P_FitK SpecFloat M_Float L_Float SpecFloatPsf L_FPsf5 L_FPsf7 M_Geo M_FloatSum SpecFitF M_FloatFit L_FloatFit P_FPsf L_Slope M_FloatPsf SpecPsf P_FloatFit SpecImgPsf.
Import ListNotations.
Local Open Scope R_scope.

(** ** rounding of a vector *)
Lemma normsq_le : forall u v, length u = length v -> (forall i, (i < length u)%nat -> Rabs (nth i u 0) <= nth i v 0) -> normsq u <= normsq v.
Proof.
  induction u as [|a u IH]; intros [|b v] L H; try discriminate; [lra|]. rewrite !normsq_cons. apply Rplus_le_compat.
  - assert (H0 := H 0%nat ltac:(cbn [length]; lia)). cbn [nth] in H0. replace (a * a) with (Rabs a * Rabs a) by (unfold Rabs; destruct (Rcase_abs a); ring).
    apply Rmult_le_compat; try apply Rabs_pos; exact H0.
  - apply IH; [injection L; auto|]. intros i Hi. apply (H (Datatypes.S i)). cbn [length]. lia.
Qed.
Lemma normsq_rep q n : normsq (repeat q n) = INR n * (q * q).
Proof. induction n as [|n IH]; [cbn [repeat]; change (normsq []) with 0; simpl INR; ring|]. rewrite S_INR. cbn [repeat]. rewrite normsq_cons, IH. ring. Qed.
Lemma nrm_rep q n : 0 <= q -> nrm (repeat q n) = sqrt (INR n) * q.
Proof. intros Q. unfold nrm. rewrite normsq_rep, sqrt_mult_alt by apply pos_INR. rewrite sqrt_square by exact Q. reflexivity. Qed.
Lemma normsq_abs y : normsq (map Rabs y) = normsq y.
Proof. induction y as [|a y IH]; [reflexivity|]. cbn [map]. rewrite !normsq_cons, IH. f_equal. unfold Rabs. destruct (Rcase_abs a); ring. Qed.
Lemma nrm_abs y : nrm (map Rabs y) = nrm y.
Proof. unfold nrm. rewrite normsq_abs. reflexivity. Qed.
Lemma nrm_round (g : R -> R) q c y : 0 <= q -> 0 <= c -> (forall v, Rabs (g v - v) <= q + c * Rabs v) -> nrm (vsub (map g y) y) <= sqrt (INR (length y)) * q + c * nrm y.
Proof.
  intros Q C G. set (z := vadd (repeat q (length y)) (vscale c (map Rabs y))).
  assert (LZ : length z = length y).
  { unfold z, vadd. rewrite map_length, combine_length, repeat_length, vscale_len, map_length. lia. }
  assert (LV : length (vsub (map g y) y) = length y) by (rewrite vsub_len by (rewrite map_length; reflexivity); apply map_length).
  apply Rle_trans with (nrm z).
  - apply sqrt_le_1_alt, normsq_le; [congruence|]. intros i Hi. rewrite LV in Hi. unfold vsub, z. rewrite !nth_vadd, !nth_vscale by (rewrite ?vscale_len, ?map_length, ?repeat_length; reflexivity).
    rewrite (nth_indep (map g y) 0 (g 0)) by (rewrite map_length; exact Hi). rewrite map_nth. rewrite (nth_indep (map Rabs y) 0 (Rabs 0)) by (rewrite map_length; exact Hi). rewrite map_nth.
    rewrite (nth_indep (repeat q (length y)) 0 q) by (rewrite repeat_length; exact Hi). rewrite nth_repeat. replace (g (nth i y 0) + -1 * nth i y 0) with (g (nth i y 0) - nth i y 0) by ring. apply G.
  - unfold z. eapply Rle_trans; [apply nrm_add; rewrite repeat_length, vscale_len, map_length; reflexivity|].
    rewrite nrm_rep by exact Q. rewrite nrm_scale, nrm_abs, Rabs_pos_eq by exact C. lra.
Qed.
Lemma coord_diff y a i : length y = length a -> Rabs (nth i y 0 - nth i a 0) <= sqrt (squares_diff y a).
Proof.
  intros L. rewrite squares_diff_normsq by congruence. rewrite <- (sqrt_Rsqr (Rabs (nth i y 0 - nth i a 0))) by apply Rabs_pos. apply sqrt_le_1_alt. rewrite <- Rsqr_abs. unfold Rsqr.
  assert (N := coord_le (vsub y a) i). unfold vsub in N at 1 2. rewrite !nth_vadd, !nth_vscale in N by (rewrite vscale_len; congruence).
  replace (nth i y 0 + -1 * nth i a 0) with (nth i y 0 - nth i a 0) in N by ring. exact N.
Qed.
Lemma rounded_close digits y a B : (0 <= digits <= 22)%Z -> length y = length a -> sqrt (squares_diff y a) <= B ->
  sqrt (squares_diff (map (fround b64 digits) y) a) <= (1 + / 2 ^ 51) * B + sqrt (INR (length a)) * ((/ 2 + / 2 ^ 50) * powerRZ 10 (- digits)) + sqrt (squares a) / 2 ^ 51.
Proof.
  intros HD L H. set (q := (/ 2 + / 2 ^ 50) * powerRZ 10 (- digits)). assert (P51 : 0 < / 2 ^ 51) by (apply Rinv_0_lt_compat, pow_lt; lra).
  assert (Q : 0 <= q).
  { unfold q. apply Rmult_le_pos; [apply Rplus_le_le_0_compat; left; apply Rinv_0_lt_compat; [lra|apply pow_lt; lra]|]. left. apply powerRZ_lt. lra. }
  assert (G : forall v, Rabs (fround b64 digits v - v) <= q + / 2 ^ 51 * Rabs v).
  { intros v. eapply Rle_trans; [apply fround_err; exact HD|]. right. unfold q, Rdiv. ring. }
  pose proof (nrm_round _ q (/ 2 ^ 51) y Q (Rlt_le _ _ P51) G) as N. rewrite L in N.
  rewrite squares_diff_nrm in H |- * by (rewrite ?map_length; exact L). assert (SQ : sqrt (squares a) = nrm a) by (unfold nrm; rewrite squares_normsq; reflexivity). rewrite SQ.
  pose proof (nrm_chain (map (fround b64 digits) y) y a ltac:(apply map_length) L) as CH.
  assert (NY : nrm y <= nrm a + B).
  { assert (E : nrm y <= nrm (vsub y a) + nrm a).
    { assert (Z0 : forall u, length u = length a -> vsub u (repeat 0 (length a)) = u).
      { clear. revert a. intros a u. revert a. induction u as [|v u IH]; intros [|w a] L0; try discriminate; [reflexivity|]. cbn [length repeat]. unfold vsub. rewrite vscale_cons, vadd_cons.
        fold (vsub u (repeat 0 (length a))). rewrite IH by (injection L0; auto). f_equal. ring. }
      pose proof (nrm_chain y a (repeat 0 (length a)) L ltac:(rewrite repeat_length; reflexivity)) as C2. rewrite !Z0 in C2 by congruence. exact C2. }
    lra. }
  assert (M1 : / 2 ^ 51 * nrm y <= / 2 ^ 51 * (nrm a + B)) by (apply Rmult_le_compat_l; lra). unfold Rdiv. lra.
Qed.

(** ** the guaranteed accuracy grows with the coefficients *)
Definition dominated (cs ds : list R) (n : nat) : Prop := forall i, (i < n)%nat -> Rabs (nth i cs 0) <= Rabs (nth i ds 0).
Lemma dom_tail c cs d ds n : dominated (c :: cs) (d :: ds) (Datatypes.S n) -> dominated cs ds n.
Proof. intros H i Hi. apply (H (Datatypes.S i)). lia. Qed.
Lemma dom_head c cs d ds n : dominated (c :: cs) (d :: ds) (Datatypes.S n) -> Rabs c <= Rabs d.
Proof. intros H. apply (H 0%nat). lia. Qed.
Lemma nn m n : 0 <= norm_nm m n.
Proof. unfold norm_nm. apply sqrt_pos. Qed.
Lemma steep_r_mono : forall ps cs ds, Forall (fun p => valid (fst p) (snd p)) ps -> length cs = length ps -> length ds = length ps -> dominated cs ds (length ps) -> steep_r cs ps <= steep_r ds ps.
Proof.
  induction ps as [|(m, n) ps IH]; intros [|c cs] [|d ds] V L1 L2 H; try discriminate; [cbn; lra|]. inversion_clear V as [|? ? Vm Vp]. cbn [fst snd length] in *. cbn [steep_r].
  injection L1 as L1. injection L2 as L2. apply Rplus_le_compat.
  - apply Rmult_le_compat_r; [apply slope_nonneg; exact Vm|]. apply Rmult_le_compat_r; [apply nn|]. apply (dom_head _ _ _ _ _ H).
  - apply IH; try assumption. apply (dom_tail _ _ _ _ _ H).
Qed.
Lemma steep_t_mono : forall ps cs ds, length cs = length ps -> length ds = length ps -> dominated cs ds (length ps) -> steep_t cs ps <= steep_t ds ps.
Proof.
  induction ps as [|(m, n) ps IH]; intros [|c cs] [|d ds] L1 L2 H; try discriminate; [cbn; lra|]. cbn [length] in *. cbn [steep_t].
  injection L1 as L1. injection L2 as L2. apply Rplus_le_compat.
  - apply Rmult_le_compat_r; [apply IZR_le; lia|]. apply Rmult_le_compat_r; [apply nn|]. apply (dom_head _ _ _ _ _ H).
  - apply IH; try assumption. apply (dom_tail _ _ _ _ _ H).
Qed.
Lemma size_of_mono : forall ps cs ds, length cs = length ps -> length ds = length ps -> dominated cs ds (length ps) -> size_of cs ps <= size_of ds ps.
Proof.
  induction ps as [|(m, n) ps IH]; intros [|c cs] [|d ds] L1 L2 H; try discriminate; [cbn; lra|]. cbn [length] in *. cbn [size_of].
  injection L1 as L1. injection L2 as L2. apply Rplus_le_compat.
  - apply Rmult_le_compat_r; [apply nn|]. apply (dom_head _ _ _ _ _ H).
  - apply IH; try assumption. apply (dom_tail _ _ _ _ _ H).
Qed.
Lemma values_error_mono : forall ps cs ds, length cs = length ps -> length ds = length ps -> dominated cs ds (length ps) -> values_error cs ps <= values_error ds ps.
Proof.
  induction ps as [|(m, n) ps IH]; intros [|c cs] [|d ds] L1 L2 H; try discriminate; [cbn; lra|]. cbn [length] in *. cbn [values_error].
  injection L1 as L1. injection L2 as L2. apply Rplus_le_compat.
  - apply Rmult_le_compat_r.
    + apply Rplus_le_le_0_compat; [apply Rmult_le_pos; [lra|]|].
      * unfold radial_error. apply Rmult_le_pos; [apply pow_le; lra|left; apply Rinv_0_lt_compat, pow_lt; lra].
      * apply Rmult_le_pos; [apply IZR_le; lia|left; apply Rinv_0_lt_compat, pow_lt; lra].
    + apply Rmult_le_compat_r; [apply nn|]. apply (dom_head _ _ _ _ _ H).
  - apply IH; try assumption. apply (dom_tail _ _ _ _ _ H).
Qed.
Lemma total_error_mono n_r n_phi ps cs ds r : Forall (fun p => valid (fst p) (snd p)) ps -> length cs = length ps -> length ds = length ps -> dominated cs ds (length ps) ->
  (1 <= n_r)%Z -> (1 <= n_phi)%Z -> total_error n_r n_phi cs ps r <= total_error n_r n_phi ds ps r.
Proof.
  intros V L1 L2 D H1 H2. pose proof (steep_r_mono ps cs ds V L1 L2 D) as A1. pose proof (steep_t_mono ps cs ds L1 L2 D) as A2.
  pose proof (size_of_mono ps cs ds L1 L2 D) as A3. pose proof (values_error_mono ps cs ds L1 L2 D) as A4.
  apply IZR_le in H1. apply IZR_le in H2. assert (I1 : 0 < / IZR n_r) by (apply Rinv_0_lt_compat; lra). assert (I2 : 0 < / IZR n_phi) by (apply Rinv_0_lt_compat; lra).
  assert (I3 : 0 < / 2 ^ 53) by (apply Rinv_0_lt_compat, pow_lt; lra). pose proof (pos_INR (length ps)) as I4.
  unfold total_error, accuracy, rounding, Rdiv.
  assert (B1 : 20 * (2 + steep_r cs ps + Rabs r) * / IZR n_r <= 20 * (2 + steep_r ds ps + Rabs r) * / IZR n_r) by (apply Rmult_le_compat_r; lra).
  assert (B2 : 110 * (1 + steep_t cs ps + Rabs r) * / IZR n_phi <= 110 * (1 + steep_t ds ps + Rabs r) * / IZR n_phi) by (apply Rmult_le_compat_r; lra).
  assert (B3 : 208 * INR (length ps) * (size_of cs ps + 1) <= 208 * INR (length ps) * (size_of ds ps + 1)) by (apply Rmult_le_compat_l; lra).
  match goal with |- _ + (_ + ?x * / 2 ^ 53) <= _ + (_ + ?y * / 2 ^ 53) => assert (B4 : x * / 2 ^ 53 <= y * / 2 ^ 53) by (apply Rmult_le_compat_r; lra) end. lra.
Qed.

(** ** the fit, with the reachable state *)
Lemma close_dominated cs a e n : length cs = n -> length a = n -> 0 <= e -> (forall i, (i < n)%nat -> Rabs (nth i cs 0 - nth i a 0) <= e) -> dominated cs (map (fun v => Rabs v + e) a) n.
Proof.
  intros L1 L2 E H i Hi. rewrite (nth_indep (map _ a) 0 (Rabs 0 + e)) by (rewrite map_length; lia). rewrite (map_nth (fun v => Rabs v + e)). pose proof (Rabs_pos (nth i a 0)) as P0.
  rewrite (Rabs_pos_eq (_ + e)) by lra. specialize (H i Hi). replace (nth i cs 0) with (nth i a 0 + (nth i cs 0 - nth i a 0)) by ring. eapply Rle_trans; [apply Rabs_triang|]. lra.
Qed.
