(** Binary64 PSF: points and kernels of lists of polynomials. *)
From Coq Require Import Reals Lra Lia Psatz.
From Flocq Require Import Core.
From Verif Require Import Py SpecIndex SpecRadial M_Radial M_Coeffs SpecCoeffs M_Sum SpecSum L_Sum M_Polar L_Polar M_Geo SpecGeo M_Psf SpecPsf SpecDiff L_Fit L_Phases L_Psf L_PsfKernel L_PsfNodes
  L_Conv L_Conv2 P_Psf P_Conv SpecFloat M_Float L_Float SpecFloatPsf M_FloatPsf L_FPsf1 L_FPsf2 L_FPsf3 L_FPsf4 L_FPsf5 L_FPsf6.
Import ListNotations.
Local Open Scope R_scope.

Lemma steep_t_nonneg cs : forall ps, 0 <= steep_t cs ps.
Proof.
  induction cs as [|c cs IH]; intros [|[m n] ps]; cbn [steep_t]; try lra. pose proof (IH ps).
  assert (0 <= Rabs c * norm_nm m n * IZR (Z.abs m)) by (apply Rmult_le_pos; [apply Rmult_le_pos; [apply Rabs_pos|apply norm_nonneg]|apply (IZR_le 0); lia]). lra.
Qed.
(** tables *)
Lemma F2_table {A B} (P : A -> B -> Prop) l l' : Forall2 P l l' -> forall k x, nth_error l k = Some x -> exists y, nth_error l' k = Some y /\ P x y.
Proof. induction 1 as [|a b l l' H F IH]; intros [|k] x E; cbn [nth_error] in *; try discriminate; [injection E as <-; eauto|apply IH, E]. Qed.
Lemma list_table {A} (d : A) l n : length l = n -> l = map (fun k => nth (Z.to_nat k) l d) (zrange 0 n).
Proof.
  intros L. apply nth_ext with (d := d) (d' := d); [rewrite map_length, zrange_len; exact L|]. intros k Hk. rewrite L in Hk.
  symmetry. apply nth_error_nth. rewrite (map_nth_error _ _ _ (zrange_nth n 0 k Hk)). f_equal. f_equal. lia.
Qed.
Lemma fill_okq fatan2 point k NA px size (P : Z -> Z -> R -> Prop) : (0 <= size)%Z ->
  (forall i j, (0 <= i < size)%Z -> (0 <= j < size)%Z -> okq (point (fpixel_r b64 k NA px size i j) (fpixel_theta b64 fatan2 size i j)) (P i j)) ->
  okq (ffill_kernel b64 fatan2 point k NA px size) (fun l => exists v, l = table v size /\ forall i j, (0 <= i < size)%Z -> (0 <= j < size)%Z -> P i j (v i j)).
Proof.
  intros S0 H. unfold ffill_kernel. set (Z0 := zrange 0 (Z.to_nat size)). eapply okq_weak; [|apply (mapM_okq _ (fun i row => Forall2 (P i) Z0 row) Z0)].
  - intros l F. exists (fun i j => nth (Z.to_nat j) (nth (Z.to_nat i) l []) 0). pose proof (F2_len _ _ _ F) as L. assert (LZ : length Z0 = Z.to_nat size) by (unfold Z0; apply zrange_len). rewrite LZ in L. split.
    + unfold table. rewrite (list_table [] l (Z.to_nat size) (eq_sym L)) at 1. apply map_ext_in. intros i Hi. apply zrange_In in Hi.
      assert (ZI : nth_error Z0 (Z.to_nat i) = Some i). { unfold Z0. rewrite zrange_nth by lia. f_equal. lia. }
      destruct (F2_table _ _ _ F _ _ ZI) as (row & Er & Fr). apply nth_error_nth with (d := []) in Er. rewrite Er. apply list_table.
      pose proof (F2_len _ _ _ Fr) as L2. rewrite LZ in L2. lia.
    + intros i j Hi Hj. assert (ZI : forall k, (0 <= k < size)%Z -> nth_error Z0 (Z.to_nat k) = Some k). { intros q Hq. unfold Z0. rewrite zrange_nth by lia. f_equal. lia. }
      destruct (F2_table _ _ _ F _ _ (ZI i Hi)) as (row & Er & Fr). apply nth_error_nth with (d := []) in Er. rewrite Er.
      destruct (F2_table _ _ _ Fr _ _ (ZI j Hj)) as (y & Ey & Py). apply nth_error_nth with (d := 0) in Ey. rewrite Ey. exact Py.
  - intros i Hi. apply zrange_In in Hi. apply mapM_okq. intros j Hj. apply zrange_In in Hj. apply H; lia.
Qed.
Lemma ffinish_holds normalize v size : (0 < size)%Z -> holds_b64 normalize (ffinish b64 normalize (table v size)) size v.
Proof.
  intros S0. unfold holds_b64, ffinish. destruct normalize.
  - split; [rewrite table_map; apply table_square; lia|]. exists (kmax (table v size)). split; [apply kmax_table, S0|].
    intros i j Hi Hj. rewrite table_map, table_entry by assumption. reflexivity.
  - split; [rewrite table_map; apply table_square; lia|]. intros i j Hi Hj. rewrite table_map, table_entry by assumption. reflexivity.
Qed.
Section All.
Variable pw : R -> Z -> R.
Variables fcos fsin : R -> R.
Variable npsum : list R -> R.
Variable fhyp : R -> R -> R.
Variable fsq : R -> R.
Variable fatan2 : R -> R -> R.
Hypothesis NP : numpy64 pw fcos fsin npsum fhyp fsq fatan2.
Variable fuel : nat.
Variables (ps : list (Z * Z)) (amps : list R).
Hypothesis OK : Forall (okp fuel) ps.
Hypothesis NE : ps <> [].
Hypothesis LEN : length amps = length ps.
Hypothesis KM : (length ps <= 2 ^ 20)%nat.
Variables n_r n_phi : Z.
Hypothesis NR : (20 <= n_r <= 2 ^ 24)%Z.
Hypothesis NPH : (36 <= n_phi <= 2 ^ 24)%Z.
Let Phi (x phi : R) : R := zsum amps ps x phi.

Lemma kmR : INR (length ps) <= 1048576.
Proof. rewrite INR_IZR_INZ. apply (IZR_le _ 1048576). apply Nat2Z.inj_le in KM. rewrite Nat2Z.inj_pow in KM. exact KM. Qed.
Lemma total_bound r dr dt : dr <= 8 * u * Rabs r -> dt <= 18 * u ->
  26 * Rmin (phase_err (phase_D amps ps) (size_of amps ps) (steep_t amps ps) r dr dt) 2 + 300 * ((IZR n_r + IZR n_phi) * u) <= rounding n_r n_phi amps ps (steep_t amps ps) r.
Proof.
  intros Hr Ht. pose proof u_pos as U. pose proof (Rabs_pos r) as R0. unfold rounding, Rdiv. fold u. pose proof (Rmin_l (phase_err (phase_D amps ps) (size_of amps ps) (steep_t amps ps) r dr dt) 2) as M.
  apply Rle_trans with (26 * phase_err (phase_D amps ps) (size_of amps ps) (steep_t amps ps) r dr dt + 300 * ((IZR n_r + IZR n_phi) * u)); [lra|]. unfold phase_err, phase_D.
  pose proof (size_nonneg amps ps) as S0. pose proof (steep_t_nonneg amps ps) as T0. set (K := INR (length ps)). set (B := size_of amps ps) in *. set (V := values_error amps ps). set (T := steep_t amps ps) in *.
  assert (RT : Rabs r * dt <= Rabs r * (18 * u)) by (apply Rmult_le_compat_l; assumption).
  assert (0 <= u * B) by (apply Rmult_le_pos; lra). assert (0 <= u * T) by (apply Rmult_le_pos; lra). assert (0 <= u * Rabs r) by (apply Rmult_le_pos; lra).
  replace (26 * (2 * (2 * V + 4 * K * u * (B + 1)) + (1 + B + T + Rabs r) * (64 * u) + 2 * dr + 2 * (Rabs r * dt)) + 300 * ((IZR n_r + IZR n_phi) * u))
    with (104 * V + 208 * K * (B + 1) * u + 1664 * (u + u * B + u * T + u * Rabs r) + 52 * dr + 52 * (Rabs r * dt) + 300 * (IZR n_r + IZR n_phi) * u) by ring.
  replace (104 * V + (208 * K * (B + 1) + 3328 * (1 + B + T + Rabs r) + 300 * (IZR n_r + IZR n_phi)) * u)
    with (104 * V + 208 * K * (B + 1) * u + 3328 * (u + u * B + u * T + u * Rabs r) + 300 * (IZR n_r + IZR n_phi) * u) by ring.
  assert (8 * u * Rabs r = 8 * (u * Rabs r)) by ring. assert (Rabs r * (18 * u) = 18 * (u * Rabs r)) by ring. lra.
Qed.
Lemma list_point_okq mt r theta r' theta' : Rabs (r' - r) <= 8 * u * Rabs r -> Rabs (theta' - theta) <= 18 * u -> Rabs theta' <= 7 ->
  okq (fpoint_by b64 fcos fsin npsum fhyp fsq mt (fphase_pols b64 pw fcos fsin fuel ps amps) n_r n_phi r' theta')
    (fun v => Rabs (v - psf_rnd b64 n_r n_phi Phi r theta) <= rounding n_r n_phi amps ps (steep_t amps ps) r).
Proof.
  intros HR HT H7. destruct NP as [P1 P2 P3 P4 P5 P6]. pose proof (okp_valid fuel ps OK) as V.
  eapply okq_weak; [|apply (point_okq fcos fsin npsum fhyp fsq P2 P3 P4 P5 (fphase_pols b64 pw fcos fsin fuel ps amps) Phi (phase_D amps ps) (size_of amps ps) (steep_t amps ps))].
  - intros v Hv. eapply Rle_trans; [exact Hv|]. unfold bound. apply (total_bound r (8 * u * Rabs r) (18 * u)); lra.
  - intros x phi Fx Hx Hphi. apply pols_okq; try assumption. apply kmR.
  - intros x phi Hx. apply zsum_bound; assumption.
  - intros x p q Hx. apply zsum_t; assumption.
  - exact HR.
  - exact HT.
  - exact H7.
  - exact NR.
  - exact NPH.
Qed.
Lemma placed : placement b64 n_r.
Proof. right. split; [reflexivity|]. split; [lia|]. apply Z.le_trans with (2 ^ 24)%Z; [lia|]. apply Z.pow_le_mono_r; lia. Qed.
Lemma to_integral r theta v e : Rabs (v - psf_rnd b64 n_r n_phi Phi r theta) <= e ->
  Rabs (v - diffraction_integral Phi r theta) <= accuracy n_r n_phi (steep_r amps ps) (steep_t amps ps) r + e.
Proof.
  intros H. pose proof (psf_zsum_converges ps amps r theta b64 n_r n_phi (okp_valid fuel ps OK) placed ltac:(lia)) as C.
  pose proof (abs_sum _ _ _ _ _ H C) as E. eapply Rle_trans; [exact E|]. lra.
Qed.

Lemma pixel_okq mt wl NA px size i j : ordinary wl -> ordinary NA -> ordinary px -> (0 <= i < size)%Z -> (0 <= j < size)%Z -> (size <= 2 ^ 53)%Z ->
  okq (fpoint_by b64 fcos fsin npsum fhyp fsq mt (fphase_pols b64 pw fcos fsin fuel ps amps) n_r n_phi (fpixel_r b64 (b64 (two_pi b64 / wl)) NA px size i j) (fpixel_theta b64 fatan2 size i j))
    (fun v => forall rho t, polar (IZR (size / 2 - j)) (IZR (size / 2 - i)) rho t ->
      Rabs (v - diffraction_integral Phi (2 * PI / wl * NA * px * rho) t) <=
        accuracy n_r n_phi (steep_r amps ps) (steep_t amps ps) (2 * PI / wl * NA * px * rho) + rounding n_r n_phi amps ps (steep_t amps ps) (2 * PI / wl * NA * px * rho)).
Proof.
  intros OW ON OP Hi Hj HS. destruct (pixel_theta_err fatan2 (np_arctan2 _ _ _ _ _ _ _ NP) size i j Hi Hj HS) as (T7 & TE).
  eapply okq_weak; [|apply (list_point_okq mt (2 * PI / wl * NA * px * pix_d size i j) (pix_t size i j)); [apply pixel_r_err; assumption|exact TE|exact T7]].
  intros v Hv rho t PO. apply to_integral.
  assert (VP := value_polar b64 n_r n_phi wl NA px Phi size i j rho t PO). unfold value_at in VP. rewrite <- VP. rewrite <- (pix_rho size i j rho t PO). exact Hv.
Qed.
End All.
