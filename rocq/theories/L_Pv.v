(** Lemmas for C78: peak-to-valley values. *)
From Coq Require Import Reals Lra Lia.
From Flocq Require Import Core.
From Coquelicot Require Import Coquelicot.
From Verif Require Import Py SpecIndex SpecRadial RadialMath M_Index M_Radial M_Coeffs SpecCoeffs L_Trig M_Init SpecInit L_Init M_Sum SpecSum L_Sum SpecGeo M_Geo L_Geo SpecDiff L_Slope L_Conv2 L_Ortho L_DrErr L_Disk
  M_Crop M_Fit L_Fit M_Polar L_Polar L_Float L_Plot M_Plot SpecPlot L_Plot2 M_Perf L_Perf SpecPv M_Pv P_Plot.
Local Open Scope R_scope.

(** ** the largest and the smallest element *)
Lemma fold_fmax l : forall a, exists v, fold_left fmax (map Fin l) (Fin a) = Fin v /\ (v = a \/ In v l) /\ a <= v /\ forall x, In x l -> x <= v.
Proof.
  induction l as [|b l IH]; intros a; cbn [map fold_left].
  - exists a. split; [reflexivity|]. split; [left; reflexivity|]. split; [lra|]. intros x [].
  - assert (E : fmax (Fin a) (Fin b) = Fin (if Rltb a b then b else a)) by (cbn; destruct (Rltb a b); reflexivity). rewrite E.
    unfold Rltb. destruct (Rlt_dec a b) as [L|L]; [destruct (IH b) as (v & F & I & A & B)|destruct (IH a) as (v & F & I & A & B)]; exists v; rewrite F; (split; [reflexivity|]).
    + split; [destruct I as [->|I]; [right; left; reflexivity|right; right; exact I]|]. split; [lra|]. intros x [<-|Hx]; [exact A|apply B, Hx].
    + split; [destruct I as [->|I]; [left; reflexivity|right; right; exact I]|]. split; [lra|]. intros x [<-|Hx]; [lra|apply B, Hx].
Qed.
Lemma fold_fmin l : forall a, exists v, fold_left fmin (map Fin l) (Fin a) = Fin v /\ (v = a \/ In v l) /\ v <= a /\ forall x, In x l -> v <= x.
Proof.
  induction l as [|b l IH]; intros a; cbn [map fold_left].
  - exists a. split; [reflexivity|]. split; [left; reflexivity|]. split; [lra|]. intros x [].
  - assert (E : fmin (Fin a) (Fin b) = Fin (if Rltb b a then b else a)) by (cbn; destruct (Rltb b a); reflexivity). rewrite E.
    unfold Rltb. destruct (Rlt_dec b a) as [L|L]; [destruct (IH b) as (v & F & I & A & B)|destruct (IH a) as (v & F & I & A & B)]; exists v; rewrite F; (split; [reflexivity|]).
    + split; [destruct I as [->|I]; [right; left; reflexivity|right; right; exact I]|]. split; [lra|]. intros x [<-|Hx]; [exact A|apply B, Hx].
    + split; [destruct I as [->|I]; [left; reflexivity|right; right; exact I]|]. split; [lra|]. intros x [<-|Hx]; [lra|apply B, Hx].
Qed.
Lemma extremes l : l <> [] -> exists hi lo, np_max (map Fin l) = Ok (Fin hi) /\ np_min (map Fin l) = Ok (Fin lo) /\ In hi l /\ In lo l /\
  forall x, In x l -> lo <= x <= hi.
Proof.
  destruct l as [|a l]; [congruence|]. intros _. destruct (fold_fmax l a) as (hi & E1 & I1 & A1 & B1). destruct (fold_fmin l a) as (lo & E2 & I2 & A2 & B2).
  exists hi, lo. cbn [map np_max np_min]. rewrite E1, E2. split; [reflexivity|]. split; [reflexivity|].
  split; [destruct I1 as [->|I1]; [left; reflexivity|right; exact I1]|]. split; [destruct I2 as [->|I2]; [left; reflexivity|right; exact I2]|].
  intros x [<-|Hx]; [lra|]. split; [apply B2, Hx|apply B1, Hx].
Qed.

(** ** the peak-to-valley value *)
Definition steps_err (cs : list R) (ps : list (Z * Z)) (a b : R) : R := steep_r cs ps * a + steep_t cs ps * b.

Lemma okps_valid fuel ps : Forall (okp fuel) ps -> all_valid ps.
Proof. intros F. eapply Forall_impl; [|exact F]. intros (m & n) (V & _). exact V. Qed.

Lemma near_mesh fuel cs ps rs ts a b x t : Forall (okp fuel) ps -> mesh_ok rs ts a b -> 0 <= x <= 1 ->
  exists i j, (i < length rs)%nat /\ (j < length ts)%nat /\
    Rabs (zsum cs ps x t - zsum cs ps (nth i rs 0) (nth j ts 0)) <= steps_err cs ps a (b + 8 * u).
Proof.
  intros OK [D DR (lim & L1 & L0 & DT)] Hx. pose proof (okps_valid _ _ OK) as V.
  assert (NTH : forall i, (i < length rs)%nat -> in_disk (nth i rs 0)) by (intros i Hi; rewrite Forall_forall in D; apply D, nth_In, Hi).
  destruct (pixel_polar (sin t) (cos t)) as (_ & P0 & Cx & Sy). set (phi := pixel_theta (sin t) (cos t)) in *.
  assert (N1 : norm2 (cos t) (sin t) = 1).
  { pose proof (norm2_sqr (cos t) (sin t)) as Q. pose proof (norm2_pos (cos t) (sin t)) as N0. pose proof (sin2_cos2 t) as P. unfold Rsqr in P.
    assert (norm2 (cos t) (sin t) * norm2 (cos t) (sin t) = 1) by lra. nra. }
  rewrite N1, !Rmult_1_l in *.
  assert (E : zsum cs ps x t = zsum cs ps x phi) by (apply (zsum_point fuel); [exact OK|lra|lra|rewrite Cx; reflexivity|rewrite Sy; reflexivity]).
  destruct (DR x Hx) as (r & Ir & Er). pose proof u_pos as U0.
  destruct (DT (Rmin phi lim)) as (s & Is & Es). { split; [apply Rmin_glb; lra|apply Rmin_r]. }
  assert (EP : Rabs (phi - s) <= b + 8 * u).
  { apply Rabs_le_inv in Es. unfold Rmin in Es. destruct (Rle_dec phi lim); apply Rabs_le; lra. }
  destruct (In_nth rs r 0 Ir) as (i & Hi & Ni). destruct (In_nth ts s 0 Is) as (j & Hj & Nj).
  exists i, j. split; [exact Hi|]. split; [exact Hj|]. rewrite E, Ni, Nj. pose proof (NTH i Hi) as DI. rewrite Ni in DI. unfold in_disk in DI.
  replace (zsum cs ps x phi - zsum cs ps r s) with ((zsum cs ps x phi - zsum cs ps r phi) + (zsum cs ps r phi - zsum cs ps r s)) by ring.
  eapply Rle_trans; [apply Rabs_triang|]. unfold steps_err. apply Rplus_le_compat.
  - eapply Rle_trans; [apply (zsum_r ps phi V cs x r Hx DI)|]. apply Rmult_le_compat_l; [|exact Er]. clear - V. revert cs. induction V as [|[m n] ps W V IH]; intros [|c cs]; cbn [steep_r]; try lra.
    pose proof (IH cs). pose proof (slope_nonneg m n W). destruct W as (Hn & _). pose proof (norm_pos m n Hn). pose proof (Rabs_pos c).
    assert (0 <= Rabs c * norm_nm m n * slope m n) by (apply Rmult_le_pos; [apply Rmult_le_pos; lra|lra]). lra.
  - eapply Rle_trans; [apply (zsum_t ps V cs r phi s DI)|]. apply Rmult_le_compat_l; [|exact EP]. clear - V. revert cs. induction V as [|[m n] ps W V IH]; intros [|c cs]; cbn [steep_t]; try lra.
    pose proof (IH cs). destruct W as (Hn & _). pose proof (norm_pos m n Hn). pose proof (Rabs_pos c). assert (0 <= IZR (Z.abs m)) by (apply IZR_le, Z.abs_nonneg).
    assert (0 <= Rabs c * norm_nm m n * IZR (Z.abs m)) by (apply Rmult_le_pos; [apply Rmult_le_pos; lra|lra]). lra.
Qed.

Lemma mat_elements rows cols f g : (forall i j, (i < rows)%nat -> (j < cols)%nat -> f i j = Fin (g i j)) ->
  elements_of (SMat rows cols f) = map Fin (flat_map (fun i => map (g i) (seq 0 cols)) (seq 0 rows)).
Proof.
  intros F. cbn [elements_of]. rewrite flat_map_concat_map, (flat_map_concat_map (fun i => map (g i) _)), concat_map. f_equal. rewrite map_map. apply map_ext_in.
  intros i Hi. apply in_seq in Hi. rewrite map_map. apply map_ext_in. intros j Hj. apply in_seq in Hj. apply F; lia.
Qed.

Lemma pv_mesh fuel cs ps rs ts a b f D : Forall (okp fuel) ps -> mesh_ok rs ts a b ->
  (forall i j, (i < length rs)%nat -> (j < length ts)%nat -> f i j = Fin (zsum cs ps (nth i rs 0) (nth j ts 0))) ->
  peak_to_valley cs ps D ->
  exists hi lo, np_max (elements_of (SMat (length rs) (length ts) f)) = Ok (Fin hi) /\ np_min (elements_of (SMat (length rs) (length ts) f)) = Ok (Fin lo) /\
    (exists i j, (i < length rs)%nat /\ (j < length ts)%nat /\ f i j = Fin hi) /\ (exists i j, (i < length rs)%nat /\ (j < length ts)%nat /\ f i j = Fin lo) /\
    (forall i j v, (i < length rs)%nat -> (j < length ts)%nat -> f i j = Fin v -> lo <= v <= hi) /\
    hi - lo <= D <= hi - lo + 2 * steps_err cs ps a (b + 8 * u).
Proof.
  intros OK MK F (UB & LUB). set (g := fun i j : nat => zsum cs ps (nth i rs 0) (nth j ts 0)). rewrite (mat_elements _ _ f g F).
  set (l := flat_map (fun i => map (g i) (seq 0 (length ts))) (seq 0 (length rs))).
  assert (IN : forall v, In v l <-> exists i j, (i < length rs)%nat /\ (j < length ts)%nat /\ v = g i j).
  { intros v. unfold l. rewrite in_flat_map. split.
    - intros (i & Hi & Hv). apply in_map_iff in Hv. destruct Hv as (j & <- & Hj). apply in_seq in Hi, Hj. exists i, j. repeat split; lia.
    - intros (i & j & Hi & Hj & ->). exists i. split; [apply in_seq; lia|]. apply in_map, in_seq. lia. }
  assert (DISK : forall i, (i < length rs)%nat -> 0 <= nth i rs 0 <= 1).
  { intros i Hi. pose proof (mk_disk _ _ _ _ MK) as DK. rewrite Forall_forall in DK. apply DK, nth_In, Hi. }
  assert (NE : l <> []).
  { destruct (near_mesh fuel cs ps rs ts a b 0 0 OK MK ltac:(lra)) as (i & j & Hi & Hj & _). intros E. apply (in_nil (a := g i j)). rewrite <- E. apply IN. exists i, j. tauto. }
  destruct (extremes l NE) as (hi & lo & E1 & E2 & I1 & I2 & B). exists hi, lo. split; [exact E1|]. split; [exact E2|].
  apply IN in I1, I2. destruct I1 as (i1 & j1 & Hi1 & Hj1 & V1). destruct I2 as (i2 & j2 & Hi2 & Hj2 & V2).
  split; [exists i1, j1; rewrite F, V1 by assumption; tauto|]. split; [exists i2, j2; rewrite F, V2 by assumption; tauto|]. split.
  { intros i j v Hi Hj E. rewrite F in E by assumption. injection E as <-. apply B, IN. exists i, j. tauto. }
  split.
  - apply UB. exists (nth i1 rs 0), (nth j1 ts 0), (nth i2 rs 0), (nth j2 ts 0). split; [apply DISK, Hi1|]. split; [apply DISK, Hi2|]. rewrite V1, V2. reflexivity.
  - apply LUB. intros y (x & t & x' & t' & Hx & Hx' & ->).
    destruct (near_mesh fuel cs ps rs ts a b x t OK MK Hx) as (i & j & Hi & Hj & E). destruct (near_mesh fuel cs ps rs ts a b x' t' OK MK Hx') as (i' & j' & Hi' & Hj' & E').
    apply Rabs_le_inv in E, E'. pose proof (B (g i j) (proj2 (IN _) (ex_intro _ i (ex_intro _ j (conj Hi (conj Hj eq_refl)))))) as B1.
    pose proof (B (g i' j') (proj2 (IN _) (ex_intro _ i' (ex_intro _ j' (conj Hi' (conj Hj' eq_refl)))))) as B2. unfold g in B1, B2. lra.
Qed.

(** ** values of the single polynomials *)
Lemma zsum_single c m n x t : zsum [c] [(m, n)] x t = c * Z_nm m n x t.
Proof. cbn [zsum]. ring. Qed.

Lemma R_at_0 n b : n = (2 * Z.of_nat b)%Z -> R_nm 0 n 0 = (-1) ^ b.
Proof.
  intros ->. unfold R_nm. change (Z.abs 0) with 0%Z. rewrite Z.add_0_r, Z.sub_0_r. replace (2 * Z.of_nat b / 2)%Z with (Z.of_nat b) by (rewrite Z.mul_comm, Z.div_mul by lia; reflexivity).
  rewrite Nat2Z.id. replace (Z.to_nat (2 * Z.of_nat b)) with (2 * b)%nat by lia. destruct b as [|b].
  - cbn. field.
  - rewrite tech5, sum_eq_R0.
    + replace (2 * S b - S b)%nat with (S b) by lia. rewrite Nat.sub_diag. replace (2 * S b - 2 * S b)%nat with 0%nat by lia.
      change (fact 0) with 1%nat. change (INR 1) with 1. pose proof (INR_fact_neq_0 (S b)). rewrite pow_O. field. assumption.
    + intros k Hk. rewrite (pow_i (2 * S b - 2 * k)) by lia. ring.
Qed.

Lemma single_upper c m n : valid m n -> is_upper_bound (fun y => exists x t x' t', 0 <= x <= 1 /\ 0 <= x' <= 1 /\ y = zsum [c] [(m, n)] x t - zsum [c] [(m, n)] x' t') (2 * norm_nm m n * Rabs c).
Proof.
  intros V y (x & t & x' & t' & Hx & Hx' & ->). rewrite !zsum_single.
  assert (B : forall x t, 0 <= x <= 1 -> Rabs (c * Z_nm m n x t) <= norm_nm m n * Rabs c).
  { intros x0 t0 H0. rewrite Rabs_mult, Rmult_comm. apply Rmult_le_compat_r; [apply Rabs_pos|apply Z_bound; assumption]. }
  pose proof (B x t Hx) as B1. pose proof (B x' t' Hx') as B2. apply Rabs_le_inv in B1, B2. lra.
Qed.
Lemma single_attained c m n x1 t1 x2 t2 : valid m n -> 0 <= x1 <= 1 -> 0 <= x2 <= 1 -> Z_nm m n x1 t1 = norm_nm m n -> Z_nm m n x2 t2 = - norm_nm m n ->
  peak_to_valley [c] [(m, n)] (2 * norm_nm m n * Rabs c).
Proof.
  intros V H1 H2 E1 E2. split; [apply single_upper, V|]. intros b UB. apply UB. destruct (Rle_lt_dec 0 c) as [C|C].
  - exists x1, t1, x2, t2. rewrite !zsum_single, E1, E2, Rabs_pos_eq by exact C. repeat split; lra.
  - exists x2, t2, x1, t1. rewrite !zsum_single, E1, E2, Rabs_left by exact C. repeat split; lra.
Qed.

Lemma single_turning c m n : valid m n -> m <> 0%Z -> peak_to_valley [c] [(m, n)] (2 * norm_nm m n * Rabs c).
Proof.
  intros V M. assert (A0 : IZR (Z.abs m) <> 0) by (apply not_0_IZR; lia). destruct (Z_lt_le_dec 0 m) as [P|P].
  - apply (single_attained c m n 1 0 1 (PI / IZR m)); try lra; [exact V| |].
    + unfold Z_nm, T_m. rewrite R_at_1 by exact V. replace (0 <=? m)%Z with true by (symmetry; apply Z.leb_le; lia). rewrite Rmult_0_r, cos_0. ring.
    + unfold Z_nm, T_m. rewrite R_at_1 by exact V. replace (0 <=? m)%Z with true by (symmetry; apply Z.leb_le; lia).
      replace (IZR m * (PI / IZR m)) with PI by (rewrite Z.abs_eq in A0 by lia; field; exact A0). rewrite cos_PI. ring.
  - apply (single_attained c m n 1 (PI / 2 / IZR (Z.abs m)) 1 (- (PI / 2) / IZR (Z.abs m))); try lra; [exact V| |].
    + unfold Z_nm, T_m. rewrite R_at_1 by exact V. replace (0 <=? m)%Z with false by (symmetry; apply Z.leb_gt; lia).
      replace (IZR (Z.abs m) * (PI / 2 / IZR (Z.abs m))) with (PI / 2) by (field; exact A0). rewrite sin_PI2. ring.
    + unfold Z_nm, T_m. rewrite R_at_1 by exact V. replace (0 <=? m)%Z with false by (symmetry; apply Z.leb_gt; lia).
      replace (IZR (Z.abs m) * (- (PI / 2) / IZR (Z.abs m))) with (- (PI / 2)) by (field; exact A0). rewrite sin_neg, sin_PI2. ring.
Qed.
Lemma single_odd c n : valid 0 n -> (n mod 4 = 2)%Z -> peak_to_valley [c] [(0%Z, n)] (2 * norm_nm 0 n * Rabs c).
Proof.
  intros V M. assert (T0 : forall t, T_m 0 t = 1) by (intros t; unfold T_m; cbn; rewrite Rmult_0_l, cos_0; reflexivity).
  apply (single_attained c 0 n 1 0 0 0); try lra; [exact V| |]; unfold Z_nm; rewrite T0.
  - rewrite R_at_1 by exact V. ring.
  - pose proof (Z.div_mod n 4 ltac:(lia)) as E. destruct V as (Hn & _).
    rewrite (R_at_0 n (S (2 * Z.to_nat (n / 4)))); [|rewrite Nat2Z.inj_succ, Nat2Z.inj_mul, Z2Nat.id by (apply Z.div_pos; lia); lia].
    rewrite pow_1_odd. ring.
Qed.

Lemma ptv_bounds c n D : valid 0 n -> (0 < n)%Z -> peak_to_valley [c] [(0%Z, n)] D -> norm_nm 0 n * Rabs c <= D.
Proof.
  intros V Hn (UB & _). destruct (Rle_lt_dec (norm_nm 0 n * Rabs c) D) as [H|H]; [exact H|]. exfalso.
  assert (N0 : 0 < norm_nm 0 n) by (apply norm_pos; lia). pose proof (Rabs_pos c) as C0.
  assert (T0 : forall t, T_m 0 t = 1) by (intros t; unfold T_m; cbn; rewrite Rmult_0_l, cos_0; reflexivity).
  assert (D0 : 0 <= D). { apply UB. exists 0, 0, 0, 0. repeat split; lra. }
  assert (CP : 0 < Rabs c) by nra. set (k := norm_nm 0 n * Rabs c) in *. assert (K : 0 < k) by (unfold k; nra).
  assert (LOW : forall x, 0 <= x <= 1 -> (k - D) / k <= R_nm 0 n x).
  { intros x Hx. assert (E : k * (1 - R_nm 0 n x) <= D).
    { apply UB. destruct (Rle_lt_dec 0 c) as [C|C].
      - exists 1, 0, x, 0. split; [lra|]. split; [exact Hx|]. rewrite !zsum_single. unfold Z_nm. rewrite !T0, R_at_1 by exact V. unfold k. rewrite Rabs_pos_eq by exact C. ring.
      - exists x, 0, 1, 0. split; [exact Hx|]. split; [lra|]. rewrite !zsum_single. unfold Z_nm. rewrite !T0, R_at_1 by exact V. unfold k. rewrite Rabs_left by exact C. ring. }
    apply (Rmult_le_reg_l k); [exact K|]. replace (k * ((k - D) / k)) with (k - D) by (field; lra). lra. }
  pose proof (radial_ortho 0 n 0 V ltac:(split; [lia|split; [lia|exists 0%Z; reflexivity]])) as O. destruct (Z.eq_dec n 0); [lia|].
  assert (R0 : forall x, R_nm 0 0 x = 1) by (intros x; unfold R_nm; cbn; field).
  assert (P : 0 < RInt (fun r => R_nm 0 n r * R_nm 0 0 r * r) 0 1); [|lra].
  assert (CT : cts (R_nm 0 n)) by (apply (cts_ext (F (oa 0 n) (ob 0 n))); [intros; symmetry; apply R_nm_F, V|apply cts_F]).
  assert (E0 : 0 < (k - D) / k) by (apply Rdiv_lt_0_compat; lra).
  apply RInt_gt_0; [lra| |].
  - intros x Hx. rewrite R0. pose proof (LOW x ltac:(lra)). rewrite Rmult_1_r. apply Rmult_lt_0_compat; lra.
  - intros x Hx. apply (cts_mult (fun r => R_nm 0 n r * R_nm 0 0 r) (fun r => r)); [|apply cts_id].
    apply (cts_mult (R_nm 0 n) (R_nm 0 0)); [exact CT|]. apply (cts_ext (fun _ => 1)); [intros; symmetry; apply R0|apply cts_const].
Qed.
Lemma ptv_upper c m n D : valid m n -> peak_to_valley [c] [(m, n)] D -> D <= 2 * norm_nm m n * Rabs c.
Proof. intros V (_ & LUB). apply LUB, single_upper, V. Qed.
Lemma ptv_unique cs ps D D' : peak_to_valley cs ps D -> peak_to_valley cs ps D' -> D = D'.
Proof. intros (U & L) (U' & L'). apply Rle_antisym; [apply L, U'|apply L', U]. Qed.
Lemma ptv_nonneg cs ps D : peak_to_valley cs ps D -> 0 <= D.
Proof. intros (U & _). apply U. exists 0, 0, 0, 0. repeat split; lra. Qed.

(** existence, for any sum *)
Fixpoint size2 (cs : list R) (ps : list (Z * Z)) : R :=
  match cs, ps with c :: cs', (m, n) :: ps' => (if Z.eqb n 0 then 0 else 2 * norm_nm m n * Rabs c) + size2 cs' ps' | _, _ => 0 end.
Lemma piston m : valid m 0 -> m = 0%Z. Proof. intros (_ & A & _). lia. Qed.
Lemma Z_piston x t : Z_nm 0 0 x t = 1.
Proof.
  unfold Z_nm, T_m, norm_nm. cbn [Z.eqb Z.leb Z.compare]. rewrite Rmult_0_l, cos_0. replace (R_nm 0 0 x) with 1 by (unfold R_nm; cbn; field).
  replace (2 * (0 + 1) / (1 + 1)) with 1 by field. rewrite sqrt_1. ring.
Qed.
Lemma zsum_diff ps : all_valid ps -> forall cs x t x' t', 0 <= x <= 1 -> 0 <= x' <= 1 -> zsum cs ps x t - zsum cs ps x' t' <= size2 cs ps.
Proof.
  induction 1 as [|[m n] ps V F IH]; intros [|c cs] x t x' t' Hx Hx'; cbn [zsum size2]; try lra. pose proof (IH cs x t x' t' Hx Hx') as A.
  enough (c * Z_nm m n x t - c * Z_nm m n x' t' <= (if (n =? 0)%Z then 0 else 2 * norm_nm m n * Rabs c)) by lra.
  destruct (Z.eqb_spec n 0) as [->|N].
  - rewrite (piston m V), !Z_piston. lra.
  - rewrite <- !zsum_single. apply (single_upper c m n V). exists x, t, x', t'. tauto.
Qed.
Lemma ptv_exists cs ps : all_valid ps -> exists D, peak_to_valley cs ps D /\ 0 <= D <= size2 cs ps.
Proof.
  intros V. destruct (completeness (fun y => exists x t x' t', 0 <= x <= 1 /\ 0 <= x' <= 1 /\ y = zsum cs ps x t - zsum cs ps x' t')) as (D & H).
  - exists (size2 cs ps). intros y (x & t & x' & t' & Hx & Hx' & ->). apply zsum_diff; assumption.
  - exists 0, 0, 0, 0, 0. repeat split; lra.
  - exists D. split; [exact H|]. split; [apply (ptv_nonneg cs ps), H|]. destruct H as (_ & LUB). apply LUB. intros y (x & t & x' & t' & Hx & Hx' & ->). apply zsum_diff; assumption.
Qed.
Lemma zsum_scale a ps : forall cs x t, zsum (map (Rmult a) cs) ps x t = a * zsum cs ps x t.
Proof. induction ps as [|[m n] ps IH]; intros [|c cs] x t; cbn [map zsum]; try ring. rewrite IH. ring. Qed.
Lemma ptv_scale a cs ps D : peak_to_valley cs ps D -> peak_to_valley (map (Rmult a) cs) ps (Rabs a * D).
Proof.
  intros (UB & LUB). split.
  - intros y (x & t & x' & t' & Hx & Hx' & ->). rewrite !zsum_scale.
    assert (A : zsum cs ps x t - zsum cs ps x' t' <= D) by (apply UB; exists x, t, x', t'; tauto).
    assert (B : zsum cs ps x' t' - zsum cs ps x t <= D) by (apply UB; exists x', t', x, t; tauto).
    unfold Rabs. destruct (Rcase_abs a); nra.
  - intros b Hb. destruct (Req_dec a 0) as [->|A0].
    + rewrite Rabs_R0, Rmult_0_l. apply Hb. exists 0, 0, 0, 0. repeat split; lra.
    + assert (P : 0 < Rabs a) by (apply Rabs_pos_lt, A0). apply (Rmult_le_reg_l (/ Rabs a)); [apply Rinv_0_lt_compat, P|]. rewrite <- Rmult_assoc, Rinv_l, Rmult_1_l by lra.
      apply LUB. intros y (x & t & x' & t' & Hx & Hx' & ->). apply (Rmult_le_reg_l (Rabs a)); [exact P|].
      rewrite <- Rmult_assoc, Rinv_r, Rmult_1_l by lra. apply Hb. destruct (Rle_lt_dec 0 a) as [C|C].
      * exists x, t, x', t'. rewrite !zsum_scale, Rabs_pos_eq by exact C. split; [exact Hx|]. split; [exact Hx'|ring].
      * exists x', t', x, t. rewrite !zsum_scale, Rabs_left by exact C. split; [exact Hx'|]. split; [exact Hx|ring].
Qed.
Lemma zsum_add ps : forall cs ds x t, length cs = length ds -> zsum (map (fun q => fst q + snd q) (combine cs ds)) ps x t = zsum cs ps x t + zsum ds ps x t.
Proof.
  induction ps as [|[m n] ps IH]; intros [|c cs] [|d ds] x t L; cbn [combine map zsum fst snd]; try ring; try discriminate.
  rewrite IH by (injection L; auto). ring.
Qed.
Lemma zsum_piston c cs ps x t : zsum (c :: cs) ((0%Z, 0%Z) :: ps) x t = c + zsum cs ps x t.
Proof. cbn [zsum]. rewrite Z_piston. ring. Qed.
