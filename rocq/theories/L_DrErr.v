(** The exact error of the coefficient route of the radial derivative at r = 1 (line 550 of
    calc_zernike_pol.py uses the derivative instead of the polynomial). *)
From Coq Require Import Reals Lra Arith.
From Verif Require Import Py SpecIndex SpecRadial RadialMath L_Index M_Radial M_Coeffs SpecCoeffs L_Dict L_Coeffs L_Cache L_Radial L_RadialD L_CoeffVal L_Value.
Local Open Scope R_scope.

Lemma F_at_1 a b : F a b 1 = 1.
Proof.
  assert (H : forall N a b, (a + b <= N)%nat -> F a b 1 = 1).
  { clear a b. induction N as [N IH] using lt_wf_ind. intros a b H. destruct a as [|a].
    - rewrite F_0_l. apply pow1.
    - destruct b as [|b]; [rewrite F_0_r; apply pow1|]. rewrite F_rec.
      rewrite (IH (N - 1)%nat) by lia. rewrite (IH (N - 1)%nat) by lia. rewrite (IH (N - 1)%nat) by lia. ring. }
  apply (H (a + b)%nat). lia.
Qed.

Lemma Dmn_rec m n r : valid m n -> (Z.abs m < n)%Z ->
  Dmn m n r = (Fmn (Z.abs (m - 1)) (n - 1) r + Fmn (m + 1) (n - 1) r) + r * (Dmn (Z.abs (m - 1)) (n - 1) r + Dmn (m + 1) (n - 1) r)
              - Dmn m (n - 2) r.
Proof. intros V H. symmetry. apply Dmn_eq. apply d_rec; [assumption|assumption| | |]; apply Dmn_ok. Qed.

Lemma powerRZ_1 z : powerRZ 1 z = 1.
Proof. destruct z; simpl; rewrite ?pow1; try reflexivity. apply Rinv_1. Qed.

Lemma Dmn_at_1 : forall N m n, valid m n -> (Z.to_nat n <= N)%nat -> 2 * Dmn m n 1 = IZR (n * (n + 2) - m * m).
Proof.
  induction N as [N IH] using lt_wf_ind. intros m n V H. pose proof V as (Hn & Hm & _).
  destruct (Z.eq_dec (Z.abs m) n) as [E|NE].
  - destruct (Z.eq_dec n 0) as [->|N0].
    + assert (m = 0)%Z by lia. subst m. rewrite <- (Dmn_eq 0 0 1 0).
      * simpl. ring.
      * apply dlim_ext with (f := fun _ => 1); [|apply derivable_pt_lim_const].
        intros y. unfold Fmn. cbn. unfold F, term. cbn. ring.
    + rewrite <- (Dmn_eq m n 1 _ (d_diag m n 1 V ltac:(lia) E)), powerRZ_1.
      replace (m * m)%Z with (n * n)%Z by nia. replace (n * (n + 2) - n * n)%Z with (2 * n)%Z by ring.
      rewrite mult_IZR. ring.
  - assert (LT : (Z.abs m < n)%Z) by lia.
    pose proof (valid_pred_l m n V LT) as V1. pose proof (valid_pred_r m n V LT) as V2. pose proof (valid_pred2 m n V LT) as V3.
    rewrite (Dmn_rec m n 1 V LT). unfold Fmn. rewrite !F_at_1.
    pose proof (IH (Z.to_nat (n - 1)) ltac:(lia) _ _ V1 ltac:(lia)) as E1.
    pose proof (IH (Z.to_nat (n - 1)) ltac:(lia) _ _ V2 ltac:(lia)) as E2.
    pose proof (IH (Z.to_nat (n - 2)) ltac:(lia) _ _ V3 ltac:(lia)) as E3.
    replace (2 * (1 + 1 + 1 * (Dmn (Z.abs (m - 1)) (n - 1) 1 + Dmn (m + 1) (n - 1) 1) - Dmn m (n - 2) 1))
      with (4 + 2 * Dmn (Z.abs (m - 1)) (n - 1) 1 + 2 * Dmn (m + 1) (n - 1) 1 - 2 * Dmn m (n - 2) 1) by ring.
    rewrite E1, E2, E3. rewrite <- !plus_IZR, <- !minus_IZR. f_equal.
    assert (Z.abs (m - 1) * Z.abs (m - 1) = (m - 1) * (m - 1))%Z as -> by nia. ring.
Qed.

Fixpoint cerr (b : nat) : R :=
  match b with
  | O => 0
  | S b' => if (b <? 20)%nat then 0 else 3 * cerr b' + 4 * INR b * INR b - 4
  end.
Lemma cerr_small b : (b < 20)%nat -> cerr b = 0.
Proof. destruct b as [|b]; intros H; [reflexivity|]. cbn [cerr]. destruct (Nat.ltb_spec (S b) 20); [reflexivity|lia]. Qed.
Lemma cerr_S b : (20 <= S b)%nat -> cerr (S b) = 3 * cerr b + 4 * INR (S b) * INR (S b) - 4.
Proof. intros H. cbn [cerr]. destruct (Nat.ltb_spec (S b) 20); [lia|reflexivity]. Qed.
Lemma cerr_pos b : (20 <= b)%nat -> 0 < cerr b.
Proof.
  intros H. assert (G : forall b, 0 <= cerr b /\ ((20 <= b)%nat -> 0 < cerr b)).
  { clear b H. induction b as [|b [IH _]]; [split; [simpl; lra|lia]|].
    destruct (Nat.ltb_spec (S b) 20) as [L|L].
    - rewrite cerr_small by exact L. split; [lra|lia].
    - rewrite cerr_S by exact L. assert (20 <= INR (S b)) by (apply le_INR in L; simpl (INR 20) in L; lra).
      split; [|intros _]; nra. }
  apply G, H.
Qed.

Lemma ob_val m n b : valid m n -> (n - Z.abs m = 2 * Z.of_nat b)%Z -> ob m n = b.
Proof. intros V H. destruct (oab m n V) as (_ & H2 & H3). lia. Qed.

Lemma rpcd_at_1 fuel : forall m n, valid m n -> (9 <= n)%Z ->
  keeps (radial_polynomial_coeffs_dr fuel m n 1) (res_v fuel n (Ok (Dmn m n 1 + cerr (ob m n)))).
Proof.
  induction fuel as [|f IH]; intros m n V Hn; pose proof V as (_ & Hm & k & Hk).
  { apply keeps_ret. right. split; [reflexivity|lia]. }
  destruct (oab m n V) as (O1 & O2 & O3).
  destruct (Z_le_gt_dec (n - Z.abs m) 38) as [G|G].
  { rewrite cerr_small by lia. rewrite Rplus_0_r. apply rpcd_ok; [exact V|split; lia]. }
  cbn [radial_polynomial_coeffs_dr]. destruct (n <=? MAX_RADIAL_ORDER_COEFFS_dR)%Z eqn:L; unfold MAX_RADIAL_ORDER_COEFFS_dR in L; [lia|].
  destruct (Z.eqb_spec (Z.abs m) n) as [E|NE]; [lia|].
  assert (LT : (Z.abs m < n)%Z) by lia.
  pose proof (valid_pred_l m n V LT) as V1. pose proof (valid_pred_r m n V LT) as V2. pose proof (valid_pred2 m n V LT) as V3.
  destruct (ob m n) as [|b] eqn:EB; [lia|].
  destruct (Z.eqb_spec m 0) as [->|NZ].
  { change (Z.abs (0 - 1)) with 1%Z in V1. cbn [Z.abs] in *.
    pose proof (ob_val 1 (n - 1) b V1 ltac:(lia)) as B1. pose proof (ob_val 0 (n - 2) b V3 ltac:(lia)) as B3.
    pose proof (IH 1%Z (n - 1)%Z V1 ltac:(lia)) as K1. pose proof (IH 0%Z (n - 2)%Z V3 ltac:(lia)) as K3. rewrite B1 in K1. rewrite B3 in K3.
    kbind K1. intros p [[= ->]|[[=] _]]. kbind K1. intros x [[= ->]|[[=] _]]. kbind K3. intros y [[= ->]|[[=] _]].
    apply (keeps_ret (Ok _)). left. f_equal.
    rewrite (Dmn_rec 0 n 1 V LT). change (Z.abs (0 - 1)) with 1%Z. change (0 + 1)%Z with 1%Z.
    unfold Fmn. rewrite !F_at_1, cerr_S by lia.
    pose proof (Dmn_at_1 _ 1 (n - 1) V1 (le_n _)) as D1.
    replace ((n - 1) * (n - 1 + 2) - 1 * 1)%Z with (4 * Z.of_nat (S b) * Z.of_nat (S b) - 2)%Z in D1 by nia.
    rewrite minus_IZR, !mult_IZR, <- INR_IZR_INZ in D1.
    replace (4 * INR (S b) * INR (S b) - 4) with (2 * Dmn 1 (n - 1) 1 - 2) by lra. lra. }
  destruct (Z.eqb_spec (Z.abs m) (n - 2)) as [E|NE2]; [lia|].
  pose proof (ob_val m (n - 2) b V3 ltac:(lia)) as B3.
  assert (B12 : cerr (ob (Z.abs (m - 1)) (n - 1)) + cerr (ob (m + 1) (n - 1)) = cerr (S b) + cerr b).
  { destruct (Z_lt_le_dec 0 m).
    - rewrite (ob_val (Z.abs (m - 1)) (n - 1) (S b) V1) by lia. rewrite (ob_val (m + 1) (n - 1) b V2) by lia. reflexivity.
    - rewrite (ob_val (Z.abs (m - 1)) (n - 1) b V1) by lia. rewrite (ob_val (m + 1) (n - 1) (S b) V2) by lia. ring. }
  kbind (rpc_ok f _ _ 1 V1). intros p [[= ->]|[[=] _]].
  kbind (rpc_ok f _ _ 1 V2). intros q [[= ->]|[[=] _]].
  pose proof (IH _ _ V1 ltac:(lia)) as K1. pose proof (IH _ _ V2 ltac:(lia)) as K2. pose proof (IH _ _ V3 ltac:(lia)) as K3.
  kbind K1. intros x [[= ->]|[[=] _]]. kbind K2. intros y [[= ->]|[[=] _]]. kbind K3. intros z [[= ->]|[[=] _]].
  apply (keeps_ret (Ok _)). left. f_equal. rewrite (Dmn_rec m n 1 V LT), B3. lra.
Qed.

Lemma zp_radial_dr_wrong s fuel m n : reachable s -> valid m n -> (n + 1 < Z.of_nat fuel)%Z -> (40 <= n - Z.abs m)%Z ->
  exists d, snd (zp_radial_dr fuel m n false 1 s) = Ok d /\ ~ derivable_pt_lim (R_nm m n) 1 d.
Proof.
  intros RS V HF HE. pose proof V as (Hn & Hm & _). destruct (oab m n V) as (O1 & O2 & O3).
  unfold zp_radial_dr. replace (n <=? 12)%Z with false by lia.
  exists (Dmn m n 1 + cerr (ob m n)). split.
  - pose proof (keeps_at _ _ s RS (rpcd_at_1 fuel m n V ltac:(lia))) as [H|[_ H]]; [exact H|lia].
  - intros D. assert (E : Dmn m n 1 + cerr (ob m n) = Dmn m n 1).
    { apply Dmn_eq. revert D. apply dlim_ext. intros y. apply R_nm_F, V. }
    pose proof (cerr_pos (ob m n) ltac:(lia)). lra.
Qed.

(** the wrong call is reachable from the public constructor range (n <= 54) *)
Lemma R_at_1 m n : valid m n -> R_nm m n 1 = 1.
Proof. intros V. rewrite R_nm_F by exact V. apply F_at_1. Qed.
