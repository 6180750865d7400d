(** Error bound of the floating-point derivatives (helper lemmas for C61). *)
From Coq Require Import Reals Lra Lia Arith Psatz.
From Flocq Require Import Core.
From Verif Require Import Py SpecIndex SpecRadial RadialMath M_Radial M_Coeffs SpecCoeffs L_Dict L_Coeffs L_Cache L_Radial L_RadialD L_Bound L_Value L_CoeffVal
  L_Polar L_DrErr SpecDiff L_Slope SpecFloat M_Float L_Float L_Float2 L_Float3 SpecFloatDr M_FloatDr.
Local Open Scope R_scope.

(** ** without rounding *)
Lemma derivative_src_table m n r : radial_derivative_table m n r = option_map (fun e => evalR e r) (derivative_src m n).
Proof.
  unfold radial_derivative_table, derivative_src.
  repeat match goal with |- (if ?b then _ else _) = _ => destruct b; [cbn [option_map feval]; unfold idR; f_equal;
     try reflexivity; cbn [powerRZ Pos.to_nat Pos.iter_op Nat.add]; try reflexivity; ring|] end.
  reflexivity.
Qed.
Lemma fderivative_exact fuel : forall m n r, fradial_derivative idR powerRZ fuel m n r = radial_derivative fuel m n r.
Proof.
  induction fuel as [|f IH]; intros m n r; [reflexivity|]. cbn [fradial_derivative radial_derivative].
  rewrite derivative_src_table. destruct (derivative_src m n); [reflexivity|]. cbn [option_map].
  rewrite !IH, !fradial_exact. reflexivity.
Qed.
Lemma feq_loop_dr_exact ks : forall m n r v, feq_loop_dr idR powerRZ ks m n r v = eq_loop_dr ks m n r v.
Proof.
  induction ks as [|k tl IH]; intros m n r v; [reflexivity|]. cbn [feq_loop_dr eq_loop_dr]. cbv zeta. destruct (0 <? n - 2 * k)%Z; [|apply IH].
  destruct (py_factorial (n - k)); [|reflexivity]. cbn [bind].
  destruct (py_factorial k); [|reflexivity]. cbn [bind].
  destruct (py_factorial ((n + m) / 2 - k)); [|reflexivity]. cbn [bind].
  destruct (py_factorial ((n - m) / 2 - k)); [|reflexivity]. cbn [bind]. apply IH.
Qed.
Lemma fcoeffs_dr_exact fuel : forall m n r s, fradial_polynomial_coeffs_dr idR powerRZ fuel m n r s = radial_polynomial_coeffs_dr fuel m n r s.
Proof.
  induction fuel as [|f IH]; intros m n r s; [reflexivity|]. cbn [fradial_polynomial_coeffs_dr radial_polynomial_coeffs_dr].
  destruct (n <=? MAX_RADIAL_ORDER_COEFFS_dR)%Z.
  { unfold mbind. destruct (find_coeffs_orders_dr f NoFlag m n s) as [s' [d|e]]; [|reflexivity]. rewrite feval_dict_exact. reflexivity. }
  destruct (Z.abs m =? n)%Z; [reflexivity|].
  destruct (m =? 0)%Z.
  { unfold mbind. rewrite IH. destruct (radial_polynomial_coeffs_dr f 1 (n - 1) r s) as [s' [d|e]]; [|reflexivity].
    rewrite IH. destruct (radial_polynomial_coeffs_dr f 1 (n - 1) r s') as [s2 [d'|e]]; [|reflexivity].
    rewrite IH. destruct (radial_polynomial_coeffs_dr f 0 (n - 2) r s2) as [s3 [d3|e]]; reflexivity. }
  destruct (Z.abs m =? n - 2)%Z; [reflexivity|].
  unfold mbind. rewrite fcoeffs_exact. destruct (radial_polynomial_coeffs f _ (n - 1) r s) as [s' [d|e]]; [|reflexivity].
  rewrite fcoeffs_exact. destruct (radial_polynomial_coeffs f _ (n - 1) r s') as [s2 [d'|e]]; [|reflexivity].
  rewrite IH. destruct (radial_polynomial_coeffs_dr f _ (n - 1) r s2) as [s3 [d3|e]]; [|reflexivity].
  rewrite IH. destruct (radial_polynomial_coeffs_dr f _ (n - 1) r s3) as [s4 [d4|e]]; [|reflexivity].
  rewrite IH. destruct (radial_polynomial_coeffs_dr f _ (n - 2) r s4) as [s5 [d5|e]]; reflexivity.
Qed.
Lemma fzp_radial_dr_exact fuel m n e r s : fzp_radial_dr idR powerRZ fuel m n e r s = zp_radial_dr fuel m n e r s.
Proof.
  unfold fzp_radial_dr, zp_radial_dr, fradial_derivative_eq, radial_derivative_eq.
  rewrite fderivative_exact, feq_loop_dr_exact. destruct e; [reflexivity|]. destruct (n <=? 12)%Z; [reflexivity|]. apply fcoeffs_dr_exact.
Qed.

(** ** the bound *)
Notation D_ := derivative_error.
Lemma D_E n : D_ n = IZR n * E_ n. Proof. reflexivity. Qed.
Definition kbd (n K : Z) : bool := (K * 100 ^ n <=? 8 * n * 242 ^ n)%Z.
Lemma kbd_ok n K : (0 <= n)%Z -> kbd n K = true -> IZR K * u <= D_ n.
Proof.
  intros Hn H. unfold kbd in H. apply Z.leb_le in H. apply IZR_le in H. rewrite !mult_IZR in H.
  assert (H' : IZR K * IZR (100 ^ n) <= 8 * IZR n * IZR (242 ^ n)) by lra. clear H. rewrite D_E.
  assert (PZ : forall z, IZR (z ^ n) = IZR z ^ Z.to_nat n) by (intros z; rewrite pow_IZR, Z2Nat.id by lia; reflexivity). rewrite !PZ in H'. rewrite E_u.
  unfold Rdiv. rewrite Rpow_mult_distr, pow_inv.
  assert (P : 0 < 100 ^ Z.to_nat n) by (apply pow_lt; lra). pose proof u_pos.
  assert (L : IZR K <= 8 * IZR n * (242 ^ Z.to_nat n * / 100 ^ Z.to_nat n)).
  { apply Rmult_le_reg_r with (100 ^ Z.to_nat n); [exact P|]. replace (8 * IZR n * (242 ^ Z.to_nat n * / 100 ^ Z.to_nat n) * 100 ^ Z.to_nat n) with (8 * IZR n * 242 ^ Z.to_nat n) by (field; lra). exact H'. }
  apply Rle_trans with (8 * IZR n * (242 ^ Z.to_nat n * / 100 ^ Z.to_nat n) * u); [apply Rmult_le_compat_r; lra|]. apply Req_le. ring.
Qed.
Lemma src_dr_ok m n e : derivative_src m n = Some e -> wfe e = true /\ kbd n (kerr e) = true.
Proof.
  unfold derivative_src.
  repeat match goal with |- (if ?b then _ else _) = _ -> _ => destruct b eqn:HB; [intros [= <-]; split; [vm_compute; reflexivity|];
     first [ replace n with 0%Z by lia; vm_compute; reflexivity | replace n with 1%Z by lia; vm_compute; reflexivity
           | replace n with 2%Z by lia; vm_compute; reflexivity | replace n with 3%Z by lia; vm_compute; reflexivity
           | replace n with 4%Z by lia; vm_compute; reflexivity | replace n with 5%Z by lia; vm_compute; reflexivity
           | replace n with 6%Z by lia; vm_compute; reflexivity | replace n with 7%Z by lia; vm_compute; reflexivity
           | replace n with 8%Z by lia; vm_compute; reflexivity | replace n with 9%Z by lia; vm_compute; reflexivity
           | replace n with 10%Z by lia; vm_compute; reflexivity ] |clear HB] end.
  discriminate.
Qed.
(** quadratic against exponential *)
Lemma E_quad n : (9 <= n)%Z -> 100 * (IZR n + 2) * (IZR n + 2) * u <= E_ n.
Proof.
  intros H. rewrite E_u. pose proof u_pos as U.
  assert (L : forall k, 100 * (INR (k + 9) + 2) * (INR (k + 9) + 2) <= 8 * (242 / 100) ^ (k + 9)).
  { induction k as [|k IH]; [cbn [pow Nat.add]; rewrite INR_IZR_INZ; cbn; lra|]. cbn [Nat.add pow]. rewrite S_INR.
    assert (B : 9 <= INR (k + 9)) by (rewrite plus_INR; pose proof (pos_INR k); replace (INR 9) with 9 by (rewrite INR_IZR_INZ; reflexivity); lra).
    set (x := INR (k + 9)) in *. set (p := (242 / 100) ^ (k + 9)) in *. clearbody x p. nra. }
  specialize (L (Z.to_nat n - 9)%nat). replace (Z.to_nat n - 9 + 9)%nat with (Z.to_nat n) in L by lia.
  rewrite INR_IZR_INZ, Z2Nat.id in L by lia. set (p := (242 / 100) ^ Z.to_nat n) in *.
  apply Rle_trans with (8 * p * u); [apply Rmult_le_compat_r; lra|]. lra.
Qed.
Lemma slope_le m n : valid m n -> (2 <= n)%Z -> slope m n <= IZR n * IZR n.
Proof.
  intros V H. unfold slope. rewrite <- mult_IZR. apply Rmult_le_reg_l with 2; [lra|]. replace (2 * (IZR (n * (n + 2) - m * m) / 2)) with (IZR (n * (n + 2) - m * m)) by field.
  rewrite <- mult_IZR. apply IZR_le. nia.
Qed.
Lemma D_step n : (11 <= n)%Z -> 2 * IZR n * E_ (n - 1) + IZR (n - 2) * E_ (n - 2) + 100 * IZR n * IZR n * u + (IZR n + 2) * E_ (n - 1) * u * 100 <= D_ n.
Proof.
  intros H. pose proof u_pos as U. pose proof u_small as US. rewrite D_E.
  pose proof (E_quad (n - 2) ltac:(lia)) as B. pose proof (E_pos (n - 2)) as B0.
  pose proof (E_succ (n - 2) ltac:(lia)) as E1. replace (n - 2 + 1)%Z with (n - 1)%Z in E1 by lia.
  pose proof (E_succ (n - 1) ltac:(lia)) as E2. replace (n - 1 + 1)%Z with n in E2 by lia.
  rewrite E2, E1. rewrite minus_IZR in *. assert (N : 11 <= IZR n) by (apply IZR_le; lia). set (A := E_ (n - 2)) in *. set (x := IZR n) in *. clearbody A x.
  assert (A0 : 0 <= A) by lra. assert (UA : A * u <= A / 1000000000000) by (replace (A / 1000000000000) with (A * (1 / 1000000000000)) by field; apply Rmult_le_compat_l; lra).
  assert (XA : 0 <= x * A) by (apply Rmult_le_pos; lra).
  assert (UXA : (x + 2) * (A * u) <= (x + 2) * (A / 1000000000000)) by (apply Rmult_le_compat_l; lra).
  replace (x - 2 + 2) with x in B by ring. lra.
Qed.

(** ** the recurrences *)
Lemma step4 x y M d : Rabs x <= M -> 1 <= M -> Rabs (y - x) <= d -> Rabs (b64 y - x) <= d * (1 + u) + 3 / 2 * M * u.
Proof. intros H1 H2 H3. pose proof (b64_step x y M d H1 H3) as S. pose proof u_pos as U. assert (u * 1 <= u * M) by (apply Rmult_le_compat_l; lra). lra. Qed.
Lemma small_mul w : 0 <= w -> w * u * u <= w * u / 1000 /\ w * u * u * u <= w * u / 1000 /\ w * u * u * u * u <= w * u / 1000 /\ 0 <= w * u.
Proof.
  intros H. pose proof u_pos as U. pose proof u_small as US. assert (A : 0 <= w * u) by (apply Rmult_le_pos; lra). assert (B : 0 <= w * u * u) by (apply Rmult_le_pos; lra). assert (C : 0 <= w * u * u * u) by (apply Rmult_le_pos; lra).
  assert (T : forall v, 0 <= v -> v * u <= v / 1000) by (intros v V; replace (v / 1000) with (v * (1 / 1000)) by field; apply Rmult_le_compat_l; lra).
  pose proof (T _ A). pose proof (T _ B). pose proof (T _ C). lra.
Qed.
Lemma frec_err r p q x y z p' q' x' y' z' ep ex ez M : 0 <= r <= 1 -> 2 <= M -> Rabs p <= 1 -> Rabs q <= 1 -> Rabs x <= M -> Rabs y <= M -> Rabs z <= M ->
  Rabs (p' - p) <= ep -> Rabs (q' - q) <= ep -> Rabs (x' - x) <= ex -> Rabs (y' - y) <= ex -> Rabs (z' - z) <= ez ->
  Rabs (frec b64 r p' q' x' y' z' - ((p + q) + r * (x + y) - z)) <= 2 * ep + 2 * ex + ez + 30 * M * u + 30 * u * (ep + ex + ez).
Proof.
  intros Hr HM Hp Hq Hx Hy Hz Ep Eq Ex Ey Ez. pose proof u_pos as U. unfold frec.
  pose proof (Rabs_pos (p' - p)) as P1. pose proof (Rabs_pos (x' - x)) as P2. pose proof (Rabs_pos (z' - z)) as P3.
  assert (S1 : Rabs (b64 (p' + q') - (p + q)) <= 2 * ep * (1 + u) + 3 / 2 * 2 * u).
  { apply step4; [eapply Rle_trans; [apply Rabs_triang|]; lra|lra|]. replace (p' + q' - (p + q)) with ((p' - p) + (q' - q)) by ring. eapply Rle_trans; [apply Rabs_triang|]. lra. }
  assert (XY : Rabs (x + y) <= 2 * M) by (eapply Rle_trans; [apply Rabs_triang|]; lra).
  assert (S2 : Rabs (b64 (x' + y') - (x + y)) <= 2 * ex * (1 + u) + 3 / 2 * (2 * M) * u).
  { apply step4; [exact XY|lra|]. replace (x' + y' - (x + y)) with ((x' - x) + (y' - y)) by ring. eapply Rle_trans; [apply Rabs_triang|]. lra. }
  assert (RXY : Rabs (r * (x + y)) <= 2 * M) by (rewrite Rabs_mult, (Rabs_pos_eq r) by lra; pose proof (Rabs_pos (x + y)); nra).
  assert (S3 : Rabs (b64 (r * b64 (x' + y')) - r * (x + y)) <= (2 * ex * (1 + u) + 3 / 2 * (2 * M) * u) * (1 + u) + 3 / 2 * (2 * M) * u).
  { apply step4; [exact RXY|lra|]. replace (r * b64 (x' + y') - r * (x + y)) with (r * (b64 (x' + y') - (x + y))) by ring. rewrite Rabs_mult, (Rabs_pos_eq r) by lra.
    pose proof (Rabs_pos (b64 (x' + y') - (x + y))). nra. }
  set (s1 := b64 (p' + q')) in *. set (s3 := b64 (r * b64 (x' + y'))) in *. clearbody s1 s3.
  assert (PQ : Rabs (p + q) <= 2) by (eapply Rle_trans; [apply Rabs_triang|]; lra).
  assert (S4 : Rabs (b64 (s1 + s3) - ((p + q) + r * (x + y))) <= (2 * ep * (1 + u) + 3 / 2 * 2 * u + ((2 * ex * (1 + u) + 3 / 2 * (2 * M) * u) * (1 + u) + 3 / 2 * (2 * M) * u)) * (1 + u) + 3 / 2 * (3 * M) * u).
  { apply step4; [eapply Rle_trans; [apply Rabs_triang|]; lra|lra|]. replace (s1 + s3 - (p + q + r * (x + y))) with ((s1 - (p + q)) + (s3 - r * (x + y))) by ring. eapply Rle_trans; [apply Rabs_triang|]. lra. }
  set (s4 := b64 (s1 + s3)) in *. clearbody s4.
  assert (SM : Rabs ((p + q) + r * (x + y)) <= 3 * M) by (eapply Rle_trans; [apply Rabs_triang|]; lra).
  eapply Rle_trans; [apply (step4 _ _ (4 * M) ((2 * ep * (1 + u) + 3 / 2 * 2 * u + ((2 * ex * (1 + u) + 3 / 2 * (2 * M) * u) * (1 + u) + 3 / 2 * (2 * M) * u)) * (1 + u) + 3 / 2 * (3 * M) * u + ez))|].
  - unfold Rminus. eapply Rle_trans; [apply Rabs_triang|]. rewrite Rabs_Ropp. lra.
  - lra.
  - replace (s4 - z' - (p + q + r * (x + y) - z)) with ((s4 - (p + q + r * (x + y))) + - (z' - z)) by ring. eapply Rle_trans; [apply Rabs_triang|]. rewrite Rabs_Ropp. lra.
  - destruct (small_mul ep ltac:(lra)) as (A1 & A2 & A3 & A4). destruct (small_mul ex ltac:(lra)) as (B1 & B2 & B3 & B4). destruct (small_mul ez ltac:(lra)) as (C1 & C2 & C3 & C4). destruct (small_mul M ltac:(lra)) as (F1 & F2 & F3 & F4).
    destruct (small_mul 1 ltac:(lra)) as (G1 & G2 & G3 & G4). assert (MU : 2 * u <= M * u) by (apply Rmult_le_compat_r; lra). lra.
Qed.
Lemma frec0_err r p x z p' x' z' ep ex ez M : 0 <= r <= 1 -> 2 <= M -> Rabs p <= 1 -> Rabs x <= M -> Rabs z <= M ->
  Rabs (p' - p) <= ep -> Rabs (x' - x) <= ex -> Rabs (z' - z) <= ez ->
  Rabs (frec0 b64 r p' x' z' - (2 * (p + r * x) - z)) <= 2 * ep + 2 * ex + ez + 30 * M * u + 30 * u * (ep + ex + ez).
Proof.
  intros Hr HM Hp Hx Hz Ep Ex Ez. pose proof u_pos as U. unfold frec0.
  pose proof (Rabs_pos (p' - p)) as P1. pose proof (Rabs_pos (x' - x)) as P2. pose proof (Rabs_pos (z' - z)) as P3.
  assert (RX : Rabs (r * x) <= M) by (rewrite Rabs_mult, (Rabs_pos_eq r) by lra; pose proof (Rabs_pos x); nra).
  assert (S1 : Rabs (b64 (r * x') - r * x) <= ex * (1 + u) + 3 / 2 * M * u).
  { apply step4; [exact RX|lra|]. replace (r * x' - r * x) with (r * (x' - x)) by ring. rewrite Rabs_mult, (Rabs_pos_eq r) by lra. nra. }
  set (s1 := b64 (r * x')) in *. clearbody s1.
  assert (PR : Rabs (p + r * x) <= 2 * M) by (eapply Rle_trans; [apply Rabs_triang|]; lra).
  assert (S2 : Rabs (b64 (p' + s1) - (p + r * x)) <= (ep + (ex * (1 + u) + 3 / 2 * M * u)) * (1 + u) + 3 / 2 * (2 * M) * u).
  { apply step4; [exact PR|lra|]. replace (p' + s1 - (p + r * x)) with ((p' - p) + (s1 - r * x)) by ring. eapply Rle_trans; [apply Rabs_triang|]. lra. }
  set (s2 := b64 (p' + s1)) in *. clearbody s2.
  assert (P2R : Rabs (2 * (p + r * x)) <= 4 * M) by (rewrite Rabs_mult, (Rabs_pos_eq 2) by lra; lra).
  assert (S3 : Rabs (b64 (2 * s2) - 2 * (p + r * x)) <= (2 * ((ep + (ex * (1 + u) + 3 / 2 * M * u)) * (1 + u) + 3 / 2 * (2 * M) * u)) * (1 + u) + 3 / 2 * (4 * M) * u).
  { apply step4; [exact P2R|lra|]. replace (2 * s2 - 2 * (p + r * x)) with (2 * (s2 - (p + r * x))) by ring. rewrite Rabs_mult, (Rabs_pos_eq 2) by lra. lra. }
  set (s3 := b64 (2 * s2)) in *. clearbody s3.
  eapply Rle_trans; [apply (step4 _ _ (5 * M) ((2 * ((ep + (ex * (1 + u) + 3 / 2 * M * u)) * (1 + u) + 3 / 2 * (2 * M) * u)) * (1 + u) + 3 / 2 * (4 * M) * u + ez))|].
  - unfold Rminus. eapply Rle_trans; [apply Rabs_triang|]. rewrite Rabs_Ropp. lra.
  - lra.
  - replace (s3 - z' - (2 * (p + r * x) - z)) with ((s3 - 2 * (p + r * x)) + - (z' - z)) by ring. eapply Rle_trans; [apply Rabs_triang|]. rewrite Rabs_Ropp. lra.
  - destruct (small_mul ep ltac:(lra)) as (A1 & A2 & A3 & A4). destruct (small_mul ex ltac:(lra)) as (B1 & B2 & B3 & B4). destruct (small_mul ez ltac:(lra)) as (C1 & C2 & C3 & C4). destruct (small_mul M ltac:(lra)) as (F1 & F2 & F3 & F4).
    destruct (small_mul 1 ltac:(lra)) as (G1 & G2 & G3 & G4). assert (MU : 2 * u <= M * u) by (apply Rmult_le_compat_r; lra). lra.
Qed.
