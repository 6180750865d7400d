(** Lemmas for C78: the script define_pv_values.py. *)
From Coq Require Import Reals Lra Lia.
From Flocq Require Import Core.
From Verif Require Import Py SpecIndex SpecRadial M_Index M_Radial M_Coeffs SpecCoeffs L_Trig M_Init SpecInit L_Init M_Sum SpecSum L_Sum SpecDiff L_Slope
  M_Crop M_Fit L_Fit M_Polar L_Polar L_Float L_Plot M_Plot SpecPlot L_Plot2 M_Perf L_Perf SpecPv M_Pv L_Pv.
Local Open Scope R_scope.

Section Script.
Variable rnd : R -> R.
Variable fuel : nat.
Hypothesis HR : rnd = idr \/ rnd = b64.

Lemma rnd_near x : Rabs (rnd x - x) <= u * Rabs x + u / 2.
Proof.
  destruct HR as [-> | ->]; [|apply b64_rel]. unfold idr. replace (x - x) with 0 by ring. rewrite Rabs_R0. pose proof u_pos. pose proof (Rabs_pos x). nra.
Qed.
Lemma rnd_mono x y : x <= y -> rnd x <= rnd y.
Proof. destruct HR as [-> | ->]; [intros H; exact H|apply b64_mono]. Qed.
Lemma rnd_close x : Rabs x <= 1000 -> Rabs (rnd x - x) <= 1 / 100000000.
Proof.
  intros H. eapply Rle_trans; [apply rnd_near|]. pose proof u_pos. pose proof u_small. pose proof (Rabs_pos x).
  assert (u * Rabs x <= 1 / 1000000000000 * 1000) by (apply Rmult_le_compat; lra). lra.
Qed.

Lemma default_mesh_pv : exists rs ts a b, gen_polar_coordinates rnd (pyr_r_step rnd) (pyr_theta_step rnd) = Ok (rs, ts) /\ mesh_ok rs ts a b /\
  a <= 102 / 10000 /\ b + 8 * u <= 177 / 10000.
Proof.
  pose proof u_pos as U0. pose proof u_small as U1.
  assert (P14 : (1 / 10 ^ 14 = 1 / 100000000000000)%R) by (f_equal; ring).
  assert (G : (((rnd = idr /\ 0 < pyr_r_step rnd /\ 0 < pyr_theta_step rnd) \/
    (rnd = b64 /\ F64 (pyr_r_step rnd) /\ F64 (pyr_theta_step rnd) /\ bpow radix2 (-50) <= pyr_r_step rnd <= 1 / 2 /\ bpow radix2 (-48) <= pyr_theta_step rnd <= b64 PI)) /\
    0 <= pyr_r_step rnd <= 101 / 10000 /\ 0 <= pyr_theta_step rnd <= 176 / 10000)%R).
  { destruct HR as [-> | ->]; unfold pyr_r_step, pyr_theta_step.
    - unfold idr. split; [left; split; [reflexivity|lra]|lra].
    - pose proof (b64_rel (1 / 100)) as A. rewrite (Rabs_pos_eq (1 / 100)) in A by lra. apply Rabs_le_inv in A.
      pose proof (b64_rel (174533 / 10000000)) as B. rewrite (Rabs_pos_eq (174533 / 10000000)) in B by lra. apply Rabs_le_inv in B.
      destruct two_pi_facts as (_ & _ & T & _).
      split; [right; split; [reflexivity|]; split; [apply b64_F|]; split; [apply b64_F|]|lra].
      assert (BP : forall z, (z <= -10)%Z -> (bpow radix2 z <= 1 / 1000)%R).
      { intros z Hz. apply Rle_trans with (bpow radix2 (-10)); [apply bpow_le, Hz|simpl; lra]. }
      pose proof (BP (-50)%Z ltac:(lia)). pose proof (BP (-48)%Z ltac:(lia)). lra. }
  destruct G as (G & A & B). destruct (polar_mesh_ok rnd _ _ G) as (rs & ts & E & OK).
  exists rs, ts, (pyr_r_step rnd + 1 / 10 ^ 14)%R, (pyr_theta_step rnd + 1 / 10 ^ 14)%R. split; [exact E|]. split; [exact OK|]. lra.
Qed.

(** slack of the default mesh for one polynomial with the coefficient 1 *)
Definition slack (m n : Z) : R := norm_nm m n * (slope m n * (102 / 10000) + IZR (Z.abs m) * (177 / 10000)).
Lemma slack_nonneg m n : valid m n -> 0 <= slack m n.
Proof.
  intros V. pose proof (slope_nonneg m n V). destruct V as (Hn & _). pose proof (norm_pos m n Hn). assert (0 <= IZR (Z.abs m)) by (apply IZR_le, Z.abs_nonneg).
  apply Rmult_le_pos; [lra|]. apply Rplus_le_le_0_compat; apply Rmult_le_pos; lra.
Qed.

Lemma pv_value_ok d a p : okp fuel (zp_m p, zp_n p) ->
  okq (pv_value rnd fuel d a p) (fun v => exists y, v = Fin (rnd (np_round d y)) /\
    forall D, peak_to_valley [1] [(zp_m p, zp_n p)] D -> y <= Rabs a * D <= y + 2 * (Rabs a * slack (zp_m p) (zp_n p))).
Proof.
  intros OK. destruct default_mesh_pv as (rs & ts & ga & gb & E & MK & GA & GB).
  assert (OKS : Forall (okp fuel) [(zp_m p, zp_n p)]) by (constructor; [exact OK|constructor]).
  unfold pv_value, gen_zernikes_surface. cbn [negb].
  eapply okq_bind with (P := fun zs => exists f, zs = ZSurf (SMat (length rs) (length ts) f) rs ts /\
     forall i j, (i < length rs)%nat -> (j < length ts)%nat -> f i j = Fin (zsum [a] [(zp_m p, zp_n p)] (nth i rs 0) (nth j ts 0))).
  - rewrite E. eapply okq_bind with (P := fun q => q = (rs, ts)); [apply okq_ret; reflexivity|]. intros q ->. cbn [fst snd].
    eapply okq_bind; [apply (sum_zernikes_surface fuel [a] [(zp_m p, zp_n p)] rs ts ltac:(discriminate) eq_refl OKS (mk_disk _ _ _ _ MK))|].
    intros v (f & -> & F). apply okq_ret. exists f. split; [reflexivity|exact F].
  - intros zs (f & -> & F). cbn [zs_S].
    destruct (ptv_exists [a] [(zp_m p, zp_n p)]) as (Da & PDa & _). { apply (okps_valid fuel), OKS. }
    destruct (pv_mesh fuel [a] _ rs ts ga gb f Da OKS MK F PDa) as (hi & lo & E1 & E2 & _ & _ & _ & B).
    unfold max_minus_min. rewrite E1, E2. cbn [bind fl_sub].
    eapply okq_bind with (P := fun v => v = Fin (hi - lo)); [apply okq_ret; reflexivity|]. intros v ->. apply okq_ret. exists (hi - lo). split; [reflexivity|].
    intros D PD. assert (ED : Da = Rabs a * D).
    { apply (ptv_unique [a] [(zp_m p, zp_n p)] Da _ PDa). pose proof (ptv_scale a _ _ _ PD) as Q. cbn [map] in Q. rewrite Rmult_1_r in Q. exact Q. }
    rewrite <- ED. split; [apply (proj1 B)|]. eapply Rle_trans; [apply (proj2 B)|]. apply Rplus_le_compat_l. apply Rmult_le_compat_l; [lra|].
    unfold steps_err, slack. cbn [steep_r steep_t]. destruct OK as (V & _). cbn [fst snd] in V. pose proof (slope_nonneg _ _ V) as S0. destruct V as (Hn & _). pose proof (norm_pos (zp_m p) (zp_n p) Hn) as N0.
    assert (A0 : 0 <= IZR (Z.abs (zp_m p))) by (apply IZR_le, Z.abs_nonneg). pose proof (Rabs_pos a) as P0.
    set (N := norm_nm (zp_m p) (zp_n p)) in *. set (sl := slope (zp_m p) (zp_n p)) in *. set (am := IZR (Z.abs (zp_m p))) in *.
    assert (X1 : sl * ga <= sl * (102 / 10000)) by (apply Rmult_le_compat_l; lra).
    assert (X2 : am * (gb + 8 * u) <= am * (177 / 10000)) by (apply Rmult_le_compat_l; lra).
    assert (X3 : 0 <= Rabs a * N) by (apply Rmult_le_pos; lra).
    replace ((Rabs a * N * sl + 0) * ga + (Rabs a * N * am + 0) * (gb + 8 * u)) with (Rabs a * N * (sl * ga + am * (gb + 8 * u))) by ring.
    replace (Rabs a * (N * (sl * (102 / 10000) + am * (177 / 10000)))) with (Rabs a * N * (sl * (102 / 10000) + am * (177 / 10000))) by ring.
    apply Rmult_le_compat_l; [exact X3|lra].
Qed.

(** ** the search *)
Lemma ampl_near i : (0 <= i < 150)%Z -> Rabs (pv_ampl rnd i - IZR (i + 1) / 50) <= 1 / 100000.
Proof.
  intros H. unfold pv_ampl. assert (H1 : 1 <= IZR (i + 1) <= 150) by (split; apply IZR_le; lia). set (k := IZR (i + 1)) in *.
  pose proof (rnd_close (2 / 100)) as A. rewrite Rabs_pos_eq in A by lra. specialize (A ltac:(lra)). apply Rabs_le_inv in A.
  assert (B0 : Rabs (rnd (2 / 100) * k) <= 1000). { rewrite Rabs_pos_eq; [nra|]. apply Rmult_le_pos; lra. }
  pose proof (rnd_close _ B0) as B. apply Rabs_le_inv in B. apply Rabs_le. nra.
Qed.
Lemma ampl_pos i : (0 <= i < 150)%Z -> 0 < pv_ampl rnd i.
Proof. intros H. pose proof (ampl_near i H) as A. apply Rabs_le_inv in A. assert (1 <= IZR (i + 1)) by (apply IZR_le; lia). lra. Qed.

Lemma round1 y : np_round 1 y = IZR (ZnearestE (y * 10)) / 10.
Proof. unfold np_round. replace (powerRZ 10 1) with 10 by (symmetry; apply powerRZ_1). reflexivity. Qed.
Lemma above_rounded T y : rnd (IZR T / 10) < rnd (np_round 1 y) -> IZR T / 10 + 1 / 20 <= y.
Proof.
  rewrite round1. intros H. pose proof (Znearest_half (fun z => negb (Z.even z)) (y * 10)) as E. apply Rabs_le_inv in E. set (K := ZnearestE (y * 10)) in *.
  assert (L : (T + 1 <= K)%Z).
  { destruct (Z_lt_le_dec T K) as [L|L]; [lia|]. exfalso. apply IZR_le in L. pose proof (rnd_mono (IZR K / 10) (IZR T / 10) ltac:(lra)). lra. }
  apply IZR_le in L. rewrite plus_IZR in L. change (Znearest _ _) with K in E. lra.
Qed.
Lemma not_above T y : (0 <= T <= 100)%Z -> ~ rnd (IZR T / 10) < rnd (np_round 1 y) -> y <= IZR T / 10 + 1 / 20.
Proof.
  rewrite round1. intros HT H. pose proof (Znearest_half (fun z => negb (Z.even z)) (y * 10)) as E. apply Rabs_le_inv in E. change (Znearest _ _) with (ZnearestE (y * 10)) in E.
  set (K := ZnearestE (y * 10)) in *. assert (T0 : 0 <= IZR T <= 100) by (split; apply IZR_le; lia).
  assert (L : (K <= T)%Z).
  { destruct (Z_lt_le_dec T K) as [L|L]; [|exact L]. exfalso. apply H. assert (L1 : (T + 1 <= K)%Z) by lia. apply IZR_le in L1. rewrite plus_IZR in L1.
    pose proof (rnd_mono ((IZR T + 1) / 10) (IZR K / 10) ltac:(lra)) as M. pose proof (rnd_close (IZR T / 10)) as A. rewrite Rabs_pos_eq in A by lra. specialize (A ltac:(lra)).
    pose proof (rnd_close ((IZR T + 1) / 10)) as B. rewrite Rabs_pos_eq in B by lra. specialize (B ltac:(lra)). apply Rabs_le_inv in A, B. lra. }
  apply IZR_le in L. lra.
Qed.

Definition passed (p : zernpol) (T i : Z) : Prop := forall D, peak_to_valley [1] [(zp_m p, zp_n p)] D -> IZR T / 10 + 1 / 20 <= pv_ampl rnd i * D.
Definition waits (p : zernpol) (T i : Z) : Prop := forall D, peak_to_valley [1] [(zp_m p, zp_n p)] D ->
  pv_ampl rnd i * (D - 2 * slack (zp_m p) (zp_n p)) <= IZR T / 10 + 1 / 20.

Lemma pv_search_ok p T : okp fuel (zp_m p, zp_n p) -> (0 <= T <= 100)%Z -> forall todo i, (0 <= i)%Z -> (i + Z.of_nat todo <= 150)%Z ->
  okq (pv_search rnd fuel todo i (rnd (IZR T / 10)) p) (fun r => match r with
    | Some c => exists k, (i <= k < i + Z.of_nat todo)%Z /\ c = rnd (np_round 1 (pv_ampl rnd k)) /\ passed p T k /\ (forall k', (i <= k' < k)%Z -> waits p T k')
    | None => forall k, (i <= k < i + Z.of_nat todo)%Z -> waits p T k end).
Proof.
  intros OK HT. induction todo as [|todo IH]; intros i Hi Hl; cbn [pv_search].
  - apply okq_ret. intros k Hk. lia.
  - eapply okq_bind; [apply (pv_value_ok 1 (pv_ampl rnd i) p OK)|]. intros v (y & -> & B). cbn [fltb]. unfold Rltb.
    pose proof (ampl_pos i ltac:(lia)) as AP. rewrite (Rabs_pos_eq (pv_ampl rnd i)) in B by lra.
    destruct (Rlt_dec (rnd (IZR T / 10)) (rnd (np_round 1 y))) as [L|L].
    + apply okq_ret. exists i. split; [lia|]. split; [reflexivity|]. split; [|intros k' Hk'; lia]. intros D PD. pose proof (B D PD). pose proof (above_rounded T y L). lra.
    + assert (W : waits p T i). { intros D PD. pose proof (B D PD). pose proof (not_above T y HT L). lra. }
      eapply okq_weak; [|apply (IH (i + 1)%Z); lia]. intros [c|].
      * intros (k & Hk & Ec & P & Wk). exists k. split; [lia|]. split; [exact Ec|]. split; [exact P|]. intros k' Hk'. destruct (Z.eq_dec k' i) as [->|N]; [exact W|apply Wk; lia].
      * intros Wk k Hk. destruct (Z.eq_dec k i) as [->|N]; [exact W|apply Wk; lia].
Qed.

(** at the largest amplitude every polynomial has passed its goal *)
Definition ptv_units (m n : Z) : Z := if Z.eqb m 0 then (if Z.eqb (n mod 4) 2 then 2 else 1) else 2.
Lemma units_le m n D : valid m n -> (0 < n)%Z -> peak_to_valley [1] [(m, n)] D -> IZR (ptv_units m n) * norm_nm m n <= D.
Proof.
  intros V Hn PD. unfold ptv_units. destruct (Z.eqb_spec m 0) as [->|M].
  - destruct (Z.eqb_spec (n mod 4) 2) as [Q|Q].
    + rewrite (ptv_unique _ _ _ _ PD (single_odd 1 n V Q)), Rabs_R1. lra.
    + pose proof (ptv_bounds 1 n D V Hn PD) as B. rewrite Rabs_R1 in B. lra.
  - rewrite (ptv_unique _ _ _ _ PD (single_turning 1 m n V M)), Rabs_R1. lra.
Qed.
Lemma norm_ge m n q : (0 <= n)%Z -> 0 <= q -> q * q * (1 + (if Z.eqb m 0 then 1 else 0)) <= 2 * (IZR n + 1) -> q <= norm_nm m n.
Proof.
  intros Hn Hq H. unfold norm_nm. rewrite <- (sqrt_square q) by exact Hq. apply sqrt_le_1_alt. destruct (m =? 0)%Z; lra.
Qed.
Definition q10 (m n : Z) : Z := match n with 1 => 20 | 2 => if Z.eqb m 0 then 17 else 24 | 3 => 28 | _ => 22 end%Z.
Lemma q10_nonneg m n : (0 <= q10 m n)%Z.
Proof. unfold q10. destruct n as [|[[x|x|]|[x|x|]|]|x]; try lia. destruct (m =? 0)%Z; lia. Qed.
Definition enough (q : (Z * Z) * Z) : bool :=
  let '((m, n), T) := q in
  ((0 <? n) && (0 <=? T) && (T <=? 100) && (q10 m n * q10 m n * (if m =? 0 then 2 else 1) <=? 200 * (n + 1)) &&
   (0 <=? 10000 * ptv_units m n - 102 * (n * (n + 2) - m * m) - 354 * Z.abs m) &&
   ((100 * T + 60) * 10000 <=? 299 * q10 m n * (10000 * ptv_units m n - 102 * (n * (n + 2) - m * m) - 354 * Z.abs m)))%Z.
Lemma enough_passes p T : valid (zp_m p) (zp_n p) -> enough ((zp_m p, zp_n p), T) = true -> ~ waits p T 149.
Proof.
  intros V H W. unfold enough in H. set (m := zp_m p) in *. set (n := zp_n p) in *. set (q := q10 m n) in *. set (w := ptv_units m n) in *.
  rewrite !Bool.andb_true_iff, Z.ltb_lt, !Z.leb_le in H. destruct H as (((((Hn & T0) & T1) & HQ) & HP) & HE).
  destruct (ptv_exists [1] [(m, n)]) as (D & PD & _); [constructor; [exact V|constructor]|].
  pose proof (W D PD) as WD. fold m n in WD. pose proof (units_le m n D V Hn PD) as HD. fold w in HD.
  pose proof (ampl_near 149 ltac:(lia)) as A. apply Rabs_le_inv in A. change (IZR (149 + 1)) with 150 in A.
  pose proof (q10_nonneg m n) as q0. fold q in q0.
  assert (NQ : IZR q / 10 <= norm_nm m n).
  { apply norm_ge; [lia|apply IZR_le in q0; lra|]. apply IZR_le in HQ. rewrite !mult_IZR, plus_IZR in HQ. destruct (m =? 0)%Z; lra. }
  unfold slack, slope in WD. apply IZR_le in HP, HE, q0, T0. set (X := (10000 * w - 102 * (n * (n + 2) - m * m) - 354 * Z.abs m)%Z) in *.
  assert (EX : IZR X = 10000 * IZR w - 102 * IZR (n * (n + 2) - m * m) - 354 * IZR (Z.abs m)).
  { unfold X. rewrite !minus_IZR, (mult_IZR 10000), (mult_IZR 102), (mult_IZR 354), !minus_IZR. reflexivity. }
  rewrite !mult_IZR, plus_IZR, mult_IZR in HE. set (N := norm_nm m n) in *.
  assert (LO : N * (IZR X / 10000) <= D - 2 * (N * (IZR (n * (n + 2) - m * m) / 2 * (102 / 10000) + IZR (Z.abs m) * (177 / 10000)))).
  { rewrite EX. lra. }
  assert (N1 : IZR q / 10 * (IZR X / 10000) <= N * (IZR X / 10000)) by (apply Rmult_le_compat_r; lra).
  assert (N2 : 299 / 100 * (IZR q / 10 * (IZR X / 10000)) <= pv_ampl rnd 149 * (D - 2 * (N * (IZR (n * (n + 2) - m * m) / 2 * (102 / 10000) + IZR (Z.abs m) * (177 / 10000))))).
  { apply Rmult_le_compat; lra. }
  lra.
Qed.

(** ** the loops *)
Definition pv_T : list Z := [80; 80; 51; 50; 51; 36; 30; 30; 36; 20; 18; 15; 18; 20; 13; 11; 11; 11; 11; 13; 10; 9; 9; 7; 9; 9; 10; 7; 6; 5; 5; 5; 5; 6; 7]%Z.
Lemma targets_T k : (k < 35)%nat -> nth k (pv_targets rnd) 0 = rnd (IZR (nth k pv_T 0%Z) / 10) /\ nth k pv_goals 0 = IZR (nth k pv_T 0%Z) / 10.
Proof.
  intros H. do 35 (destruct k as [|k]; [split; cbn [nth pv_targets map pv_goals pv_T]; [f_equal|]; lra|]). lia.
Qed.

Definition found_for (p : zernpol) (T : Z) (c : R) : Prop :=
  exists k, (0 <= k < 150)%Z /\ c = rnd (np_round 1 (pv_ampl rnd k)) /\ passed p T k /\ forall k', (0 <= k' < k)%Z -> waits p T k'.

Lemma pv_find_ok ps : forall j, (1 <= j)%nat -> (j + length ps = 36)%nat ->
  (forall i p, nth_error ps i = Some p -> okp fuel (zp_m p, zp_n p) /\ enough ((zp_m p, zp_n p), nth (j - 1 + i) pv_T 0%Z) = true) ->
  okq (pv_find rnd fuel j ps) (fun l => length l = length ps /\
    forall i p, nth_error ps i = Some p -> exists c, nth_error l i = Some (p, c) /\ found_for p (nth (j - 1 + i) pv_T 0%Z) c).
Proof.
  induction ps as [|p ps IH]; intros j Hj L G; cbn [pv_find].
  - apply okq_ret. split; [reflexivity|]. intros [|i] p E; discriminate.
  - cbn [length] in L. replace (Nat.eqb j 0) with false by (symmetry; apply Nat.eqb_neq; lia).
    change (length (pv_targets rnd)) with 35%nat. replace (Nat.ltb (j - 1) 35) with true by (symmetry; apply Nat.ltb_lt; lia).
    destruct (G 0%nat p eq_refl) as (OK & EN). rewrite Nat.add_0_r in EN. destruct (targets_T (j - 1) ltac:(lia)) as (-> & _).
    set (T := nth (j - 1) pv_T 0%Z) in *.
    assert (HT : (0 <= T <= 100)%Z). { unfold enough in EN. rewrite !Bool.andb_true_iff, !Z.leb_le in EN. lia. }
    eapply okq_bind; [apply (pv_search_ok p T OK HT 150 0); cbn; lia|]. intros c Hc.
    eapply okq_bind; [apply (IH (S j)); [lia|lia|]|].
    + intros i q E. destruct (G (S i) q E) as (O & W). split; [exact O|]. replace (S j - 1 + i)%nat with (j - 1 + S i)%nat by lia. exact W.
    + intros l (LL & N). apply okq_ret. destruct c as [c|].
      * split; [cbn [length]; lia|]. intros [|i] q E; cbn [nth_error] in *.
        -- injection E as <-. exists c. split; [reflexivity|]. rewrite Nat.add_0_r. fold T. destruct Hc as (k & Hk & Ec & P & W). exists k. split; [lia|]. tauto.
        -- destruct (N i q E) as (c' & E' & F). exists c'. split; [exact E'|]. replace (j - 1 + S i)%nat with (S j - 1 + i)%nat by lia. exact F.
      * exfalso. destruct OK as (V & _). apply (enough_passes p T V EN). apply Hc. cbn. lia.
Qed.

Lemma pv_table_ok ps : (forall p, In p ps -> okp fuel (zp_m p, zp_n p)) ->
  okq (pv_table rnd fuel ps) (fun l => map fst l = ps /\ forall p v, In (p, v) l -> exists y, v = Fin (rnd (np_round 3 y)) /\
    forall D, peak_to_valley [1] [(zp_m p, zp_n p)] D -> y <= D <= y + 2 * slack (zp_m p) (zp_n p)).
Proof.
  induction ps as [|p ps IH]; intros G; cbn [pv_table].
  - apply okq_ret. split; [reflexivity|]. intros p v [].
  - eapply okq_bind; [apply (pv_value_ok 3 1 p), G; left; reflexivity|]. intros v (y & -> & B).
    eapply okq_bind; [apply IH; intros q Hq; apply G; right; exact Hq|]. intros l (M & N). apply okq_ret. cbn [map fst]. split; [f_equal; exact M|].
    intros q w [E|I]; [|apply N, I]. injection E as <- <-. exists y. split; [reflexivity|]. intros D PD. pose proof (B D PD) as X. rewrite Rabs_R1, !Rmult_1_l in X. exact X.
Qed.
End Script.

(** the polynomials of the script *)
Definition pv_pols : list zernpol := flat_map row_objs (zrange 0 8).
Lemma pv_pols_ok : generate_polynomials 7 = Ok pv_pols. Proof. apply (gen_pols_ok 7). lia. Qed.
Lemma pv_pols_enough : forallb enough (combine (map (fun p => (zp_m p, zp_n p)) (tl pv_pols)) pv_T) = true.
Proof. vm_compute. reflexivity. Qed.
Lemma pv_pols_nth i p : nth_error pv_pols i = Some p -> valid (zp_m p) (zp_n p) /\ (0 <= zp_n p <= 7)%Z /\ get_osa_index (zp_m p) (zp_n p) = Z.of_nat i /\ zp_osa p = Z.of_nat i.
Proof.
  intros E. destruct (pyramid_nth 8 0 ltac:(lia)) as (_ & N). destruct (N i) as (m & n & E' & V & B & O).
  - apply nth_error_Some. unfold pv_pols in E. rewrite E. discriminate.
  - unfold pv_pols in E. rewrite E in E'. injection E' as ->. cbn [obj zp_m zp_n zp_osa]. change (0 * (0 + 1) / 2)%Z with 0%Z in O. split; [exact V|]. split; [lia|]. lia.
Qed.

Lemma pv_pols_len : length (tl pv_pols) = 35%nat. Proof. vm_compute. reflexivity. Qed.
Lemma pv_pols_eq : exists p ps, pv_pols = p :: ps /\ tl pv_pols = ps /\ length ps = 35%nat.
Proof. pose proof pv_pols_len as L. destruct pv_pols as [|p ps]; [discriminate|]. exists p, ps. cbn [tl] in L. tauto. Qed.
Opaque pv_pols.
Lemma script_ok rnd fuel s : rnd = idr \/ rnd = b64 -> reachable s -> (9 <= fuel)%nat ->
  exists found table, snd (define_pv_values rnd fuel s) = Ok (found, table) /\ length found = 35%nat /\
    (forall i p c, nth_error found i = Some (p, c) -> nth_error pv_pols (S i) = Some p /\ found_for rnd p (nth i pv_T 0%Z) c) /\
    map fst table = pv_pols /\ (forall p v, In (p, v) table -> exists y, v = Fin (rnd (np_round 3 y)) /\
      forall D, peak_to_valley [1] [(zp_m p, zp_n p)] D -> y <= D <= y + 2 * slack (zp_m p) (zp_n p)).
Proof.
  intros HR RS HF.
  assert (OKP : forall i p, nth_error pv_pols i = Some p -> okp fuel (zp_m p, zp_n p)).
  { intros i p E. destruct (pv_pols_nth i p E) as (V & B & _). split; [exact V|cbn [snd]; lia]. }
  assert (Q : okq (define_pv_values rnd fuel) (fun r => length (fst r) = 35%nat /\
    (forall i p c, nth_error (fst r) i = Some (p, c) -> nth_error pv_pols (S i) = Some p /\ found_for rnd p (nth i pv_T 0%Z) c) /\
    map fst (snd r) = pv_pols /\ (forall p v, In (p, v) (snd r) -> exists y, v = Fin (rnd (np_round 3 y)) /\
      forall D, peak_to_valley [1] [(zp_m p, zp_n p)] D -> y <= D <= y + 2 * slack (zp_m p) (zp_n p)))).
  { unfold define_pv_values. eapply okq_bind with (P := fun l => l = pv_pols); [rewrite pv_pols_ok; apply okq_ret; reflexivity|]. intros l ->.
    eapply okq_bind with (P := fun found => length found = 35%nat /\
      (forall i p c, nth_error found i = Some (p, c) -> nth_error pv_pols (S i) = Some p /\ found_for rnd p (nth i pv_T 0%Z) c)).
    - destruct pv_pols_eq as (p0 & ps & EP & ET & LP). rewrite EP. cbn [pv_find]. change (Nat.eqb 0 0) with true. cbv iota.
      eapply okq_weak; [|apply (pv_find_ok rnd fuel HR ps 1); [lia|lia|]].
      + intros found (LF & N). split; [lia|]. intros i p c Hi. assert (Hl : (i < length ps)%nat) by (rewrite <- LF; apply nth_error_Some; rewrite Hi; discriminate).
        destruct (nth_error ps i) as [q|] eqn:Eq; [|apply nth_error_None in Eq; lia]. destruct (N i q Eq) as (c' & E' & FF). rewrite Hi in E'. injection E' as <- <-.
        split; [exact Eq|]. exact FF.
      + intros i p E. split; [apply (OKP (S i)); rewrite EP; exact E|]. cbn [Nat.sub Nat.add].
        pose proof pv_pols_enough as FB. rewrite forallb_forall in FB. apply FB. rewrite ET.
        assert (Hl : (i < 35)%nat) by (rewrite <- LP; apply nth_error_Some; rewrite E; discriminate).
        assert (EM : nth i (map (fun p => (zp_m p, zp_n p)) ps) (0, 0)%Z = (zp_m p, zp_n p)) by (apply nth_error_nth; rewrite nth_error_map, E; reflexivity).
        rewrite <- EM, <- combine_nth by (rewrite map_length, LP; reflexivity). apply nth_In. rewrite combine_length, map_length, LP. exact Hl.
    - intros found (LF & F). eapply okq_bind; [apply (pv_table_ok rnd fuel HR pv_pols)|].
      + intros p Hp. destruct (In_nth_error _ _ Hp) as (i & E). apply (OKP i p E).
      + intros table (M & N). apply okq_ret. cbn [fst snd]. tauto. }
  destruct (Q s RS) as (_ & (found & table) & E & R1 & R2 & R3 & R4). cbn [fst snd] in *. exists found, table. tauto.
Qed.
