(** Proofs about the radial derivative functions (C13). *)
From Coq Require Import Reals Lra Arith.
From Verif Require Import Py SpecIndex SpecRadial RadialMath L_Index M_Radial L_Radial.
Local Open Scope R_scope.

Lemma dlim_ext f g x d : (forall y, f y = g y) -> derivable_pt_lim f x d -> derivable_pt_lim g x d.
Proof.
  intros E H eps He. destruct (H eps He) as [del Hd]. exists del. intros h H0 Hh.
  rewrite <- !E. apply Hd; assumption.
Qed.
Lemma dlim_eq f x d d' : d = d' -> derivable_pt_lim f x d -> derivable_pt_lim f x d'.
Proof. intros ->. auto. Qed.

Lemma dlim_plus f g x a b : derivable_pt_lim f x a -> derivable_pt_lim g x b -> derivable_pt_lim (fun y => f y + g y) x (a + b).
Proof. apply derivable_pt_lim_plus. Qed.
Lemma dlim_minus f g x a b : derivable_pt_lim f x a -> derivable_pt_lim g x b -> derivable_pt_lim (fun y => f y - g y) x (a - b).
Proof. apply derivable_pt_lim_minus. Qed.
Lemma dlim_mult f g x a b : derivable_pt_lim f x a -> derivable_pt_lim g x b ->
  derivable_pt_lim (fun y => f y * g y) x (a * g x + f x * b).
Proof. apply derivable_pt_lim_mult. Qed.
Lemma dlim_scal c f x a : derivable_pt_lim f x a -> derivable_pt_lim (fun y => c * f y) x (c * a).
Proof. apply derivable_pt_lim_scal. Qed.
Lemma dlim_id x : derivable_pt_lim (fun y => y) x 1.
Proof. apply derivable_pt_lim_id. Qed.

Lemma dlim_sum (f : nat -> R -> R) (d : nat -> R) x N : (forall k, derivable_pt_lim (f k) x (d k)) ->
  derivable_pt_lim (fun y => sum_f_R0 (fun k => f k y) N) x (sum_f_R0 d N).
Proof.
  intros H. induction N as [|N IH]; cbn [sum_f_R0]; [apply H|]. apply dlim_plus; [exact IH|apply H].
Qed.

(** derivative of the polynomial *)
Definition dterm (a b : nat) (r : R) (k : nat) : R :=
  IZR (cz a b k) * (IZR (Z.of_nat (a + b - 2 * k)) * r ^ (pred (a + b - 2 * k))).
Definition dF (a b : nat) (r : R) : R := sum_f_R0 (dterm a b r) (Nat.min a b).

Lemma dF_ok a b r : derivable_pt_lim (F a b) r (dF a b r).
Proof.
  unfold F, dF. apply (dlim_sum (fun k y => term a b y k)). intros k. unfold term, dterm.
  apply dlim_scal. rewrite <- INR_IZR_INZ. apply derivable_pt_lim_pow.
Qed.

Lemma dFmn_uniq m n r d : derivable_pt_lim (Fmn m n) r d -> d = dF (oa m n) (ob m n) r.
Proof. intros H. eapply uniqueness_limite; [exact H|apply dF_ok]. Qed.

Ltac eval_dF := 
  repeat match goal with |- context [oa ?m ?n] => ev (oa m n) end;
  repeat match goal with |- context [ob ?m ?n] => ev (ob m n) end;
  unfold dF; cbn [Nat.min sum_f_R0]; unfold dterm;
  repeat match goal with |- context [cz ?a ?b ?k] => ev (cz a b k) end;
  repeat match goal with |- context [(?a + ?b - 2 * ?k)%nat] => ev (a + b - 2 * k)%nat end;
  cbn [pred];
  repeat match goal with |- context [Z.of_nat ?k] => ev (Z.of_nat k) end.

Lemma radial_derivative_table_ok m n r : valid m n -> (n <= 10)%Z ->
  match radial_derivative_table m n r with
  | Some v => v = dF (oa m n) (ob m n) r
  | None => (7 < n /\ Z.abs m = n \/ 8 < n /\ Z.abs m = n - 2)%Z
  end.
Proof.
  intros V B. small_orders V B; eval_tab;
  try (left; split; [reflexivity|reflexivity]);
  try (right; split; [reflexivity|reflexivity]);
  try (eval_dF; ring).
Qed.

Lemma radial_derivative_table_none m n r : (10 < n)%Z -> radial_derivative_table m n r = None.
Proof.
  intros H. unfold radial_derivative_table.
  repeat match goal with |- context [(n =? ?k)%Z] => replace (n =? k)%Z with false by lia end.
  rewrite !andb_false_r. reflexivity.
Qed.

Lemma d_powerRZ r n : (1 <= n)%Z -> derivable_pt_lim (fun x => powerRZ x n) r (IZR n * powerRZ r (n - 1)).
Proof.
  intros H. set (k := Z.to_nat n). assert (n = Z.of_nat k) by (unfold k; lia). assert (1 <= k)%nat by lia.
  clearbody k. subst n.
  apply dlim_ext with (f := fun x => x ^ k).
  - intros y. symmetry. apply powerRZ_nat. reflexivity.
  - rewrite (powerRZ_nat r (pred k)) by lia. rewrite <- INR_IZR_INZ. apply derivable_pt_lim_pow.
Qed.

Lemma d_diag m n r : valid m n -> (1 <= n)%Z -> Z.abs m = n ->
  derivable_pt_lim (Fmn m n) r (IZR n * powerRZ r (n - 1)).
Proof.
  intros V L E. apply dlim_ext with (f := fun x => powerRZ x n).
  - intros y. symmetry. apply Fmn_diag; assumption.
  - apply d_powerRZ, L.
Qed.

Lemma d_sub m n r : valid m n -> (3 <= n)%Z -> (Z.abs m = n - 2)%Z ->
  derivable_pt_lim (Fmn m n) r
    (IZR n * IZR n * powerRZ r (n - 1) - IZR (n - 1) * IZR (n - 2) * powerRZ r (n - 3)).
Proof.
  intros V L E. apply dlim_ext with (f := fun x => IZR n * powerRZ x n - IZR (n - 1) * powerRZ x (n - 2)).
  - intros y. symmetry. apply Fmn_sub; [assumption|lia|assumption].
  - eapply dlim_eq; [|apply dlim_minus; apply dlim_scal; apply d_powerRZ; lia].
    replace (n - 2 - 1)%Z with (n - 3)%Z by lia. ring.
Qed.

Lemma d_rec m n r x y z : valid m n -> (Z.abs m < n)%Z ->
  derivable_pt_lim (Fmn (Z.abs (m - 1)) (n - 1)) r x ->
  derivable_pt_lim (Fmn (m + 1) (n - 1)) r y ->
  derivable_pt_lim (Fmn m (n - 2)) r z ->
  derivable_pt_lim (Fmn m n) r
    ((Fmn (Z.abs (m - 1)) (n - 1) r + Fmn (m + 1) (n - 1) r) + r * (x + y) - z).
Proof.
  intros V L Hx Hy Hz.
  apply dlim_ext with (f := fun s => s * (Fmn (Z.abs (m - 1)) (n - 1) s + Fmn (m + 1) (n - 1) s) - Fmn m (n - 2) s).
  - intros s. symmetry. apply Fmn_rec; assumption.
  - apply dlim_minus; [|exact Hz].
    eapply dlim_eq; [|apply (dlim_mult (fun s => s) (fun s => Fmn (Z.abs (m - 1)) (n - 1) s + Fmn (m + 1) (n - 1) s) r 1 (x + y)); [apply dlim_id|apply dlim_plus; [exact Hx|exact Hy]]]. cbv beta. ring.
Qed.

Lemma d_rec0 n r x z : valid 0 n -> (0 < n)%Z ->
  derivable_pt_lim (Fmn 1 (n - 1)) r x -> derivable_pt_lim (Fmn 0 (n - 2)) r z ->
  derivable_pt_lim (Fmn 0 n) r (2 * (Fmn 1 (n - 1) r + r * x) - z).
Proof.
  intros V L Hx Hz.
  apply dlim_ext with (f := fun s => 2 * (s * Fmn 1 (n - 1) s) - Fmn 0 (n - 2) s).
  - intros s. rewrite (Fmn_rec0 n s) by assumption. ring.
  - apply dlim_minus; [|exact Hz]. apply dlim_scal.
    eapply dlim_eq; [|apply (dlim_mult (fun s => s) (Fmn 1 (n - 1)) r 1 x); [apply dlim_id|exact Hx]]. ring.
Qed.

Lemma radial_derivative_ok fuel : forall m n r, valid m n -> (Z.to_nat n < fuel)%nat ->
  exists d, radial_derivative fuel m n r = Ok d /\ derivable_pt_lim (Fmn m n) r d.
Proof.
  induction fuel as [|f IH]; intros m n r V HF; [lia|]. cbn [radial_derivative].
  pose proof V as (Hn & Hm & _).
  assert (TAIL : radial_derivative_table m n r = None -> (7 < n)%Z ->
    (n <= 10 -> Z.abs m = n \/ (8 < n /\ Z.abs m = n - 2))%Z ->
    exists d, radial_derivative (S f) m n r = Ok d /\ derivable_pt_lim (Fmn m n) r d).
  { intros T N7 SM. cbn [radial_derivative]. rewrite T.
    destruct ((7 <? n)%Z && (Z.abs m =? n)%Z) eqn:B1.
    { eexists. split; [reflexivity|]. apply d_diag; [assumption|lia|lia]. }
    destruct ((8 <? n)%Z && (Z.abs m =? n - 2)%Z) eqn:B2.
    { eexists. split; [reflexivity|]. apply d_sub; [assumption|lia|lia]. }
    assert (10 < n)%Z by lia. assert (LT : (Z.abs m < n)%Z) by lia.
    destruct ((10 <? n)%Z && (m =? 0)%Z) eqn:B3.
    { assert (m = 0)%Z by lia. subst m.
      pose proof (valid_pred_l 0 n V ltac:(lia)) as V1. change (Z.abs (0 - 1)) with 1%Z in V1.
      pose proof (valid_pred2 0 n V ltac:(lia)) as V2.
      rewrite (radial_polynomial_F f 1%Z (n - 1)%Z r V1) by lia.
      destruct (IH 1%Z (n - 1)%Z r V1 ltac:(lia)) as (x & -> & Dx).
      destruct (IH 0%Z (n - 2)%Z r V2 ltac:(lia)) as (z & -> & Dz). cbn [bind].
      eexists. split; [reflexivity|]. apply d_rec0; (assumption || lia). }
    pose proof (valid_pred_l m n V LT) as V1. pose proof (valid_pred_r m n V LT) as V2.
    pose proof (valid_pred2 m n V LT) as V3.
    rewrite (radial_polynomial_F f _ (n - 1)%Z r V1) by lia.
    rewrite (radial_polynomial_F f _ (n - 1)%Z r V2) by lia.
    destruct (IH _ _ r V1 ltac:(lia)) as (x & -> & Dx).
    destruct (IH _ _ r V2 ltac:(lia)) as (y & -> & Dy).
    destruct (IH _ _ r V3 ltac:(lia)) as (z & -> & Dz). cbn [bind].
    eexists. split; [reflexivity|]. apply d_rec; assumption. }
  destruct (Z_le_gt_dec n 10) as [L|G].
  - pose proof (radial_derivative_table_ok m n r V L) as T. destruct (radial_derivative_table m n r) as [v|] eqn:ET.
    + exists v. split; [reflexivity|]. rewrite T. apply dF_ok.
    + cbn [radial_derivative] in TAIL. rewrite ET in TAIL. apply TAIL; [reflexivity|lia|lia].
  - pose proof (radial_derivative_table_none m n r ltac:(lia)) as ET. rewrite ET.
    cbn [radial_derivative] in TAIL. rewrite ET in TAIL. apply TAIL; [reflexivity|lia|lia].
Qed.

(** ** exact equation for the derivative *)
Lemma eq_loop_dr_ok m n r (a b : nat) : (Z.of_nat a + Z.of_nat b = n)%Z -> (Z.of_nat a - Z.of_nat b = Z.abs m)%Z ->
  forall cnt k0 v, (k0 + cnt <= S b)%nat ->
  eq_loop_dr (zrange (Z.of_nat k0) cnt) m n r v =
  Ok (v + match cnt with O => 0 | S c => sum_f_R0 (fun i => dterm a b r (k0 + i)) c end).
Proof.
  intros H1 H2. induction cnt as [|cnt IH]; intros k0 v HB.
  - cbn [zrange eq_loop_dr]. f_equal. ring.
  - cbn [zrange eq_loop_dr].
    assert (Hba : (b <= a)%nat) by lia.
    assert (SUM : dterm a b r k0 + match cnt with O => 0 | S c => sum_f_R0 (fun i => dterm a b r (S k0 + i)) c end
                  = sum_f_R0 (fun i => dterm a b r (k0 + i)) cnt).
    { destruct cnt as [|c].
      - cbn [sum_f_R0]. replace (k0 + 0)%nat with k0 by lia. ring.
      - rewrite (decomp_sum (fun i => dterm a b r (k0 + i)) (S c)) by lia. cbn [pred].
        replace (k0 + 0)%nat with k0 by lia.
        rewrite (sum_eq (fun i => dterm a b r (S k0 + i)) (fun i => dterm a b r (k0 + S i))); [reflexivity|].
        intros i _. f_equal. lia. }
    rewrite <- SUM.
    destruct (Z.ltb_spec 0 (n - 2 * Z.of_nat k0)) as [P|NP].
    + replace (n - Z.of_nat k0)%Z with (Z.of_nat (a + b - k0)) by lia.
      rewrite !py_factorial_ok. cbn [bind].
      assert (X : exists x y, ((n + m) / 2 - Z.of_nat k0 = Z.of_nat x)%Z /\ ((n - m) / 2 - Z.of_nat k0 = Z.of_nat y)%Z
                 /\ INR (fact k0) * INR (fact x) * INR (fact y) = INR (fact k0) * INR (fact (a - k0)) * INR (fact (b - k0))).
      { destruct (signed_ab m n a b H1 H2) as [[-> ->]|[-> ->]].
        - exists (a - k0)%nat, (b - k0)%nat. split; [lia|split; [lia|ring]].
        - exists (b - k0)%nat, (a - k0)%nat. split; [lia|split; [lia|ring]]. }
      destruct X as (x & y & -> & -> & EX). rewrite !py_factorial_ok. cbn [bind]. rewrite EX. clear EX.
      replace (Z.of_nat k0 + 1)%Z with (Z.of_nat (S k0)) by lia. rewrite IH by lia. f_equal.
      rewrite (powerRZ_nat (-1) k0) by lia.
      rewrite (powerRZ_nat r (pred (a + b - 2 * k0))) by lia.
      unfold dterm at 2. rewrite cz_fact by lia.
      replace (n - 2 * Z.of_nat k0)%Z with (Z.of_nat (a + b - 2 * k0)) by lia. unfold Rdiv. ring.
    + replace (Z.of_nat k0 + 1)%Z with (Z.of_nat (S k0)) by lia. rewrite IH by lia. f_equal.
      unfold dterm at 2. replace (a + b - 2 * k0)%nat with 0%nat by lia. simpl. ring.
Qed.

Lemma radial_derivative_eq_ok m n r : valid m n ->
  exists d, radial_derivative_eq m n r = Ok d /\ derivable_pt_lim (Fmn m n) r d.
Proof.
  intros V. exists (dF (oa m n) (ob m n) r). split; [|apply dF_ok].
  destruct (oab m n V) as (H1 & H2 & H3). unfold radial_derivative_eq.
  destruct (Z.ltb_spec 0 n) as [P|NP].
  - replace (Z.to_nat ((n - Z.abs m) / 2 + 1)) with (S (ob m n)).
    2:{ unfold ob. destruct V as (Hn & Hm & k & Hk). rewrite Hk, Z.mul_comm, Z.div_mul by lia. lia. }
    change 0%Z with (Z.of_nat 0). rewrite (eq_loop_dr_ok m n r (oa m n) (ob m n)) by lia.
    f_equal. rewrite Rplus_0_l. unfold dF. replace (Nat.min (oa m n) (ob m n)) with (ob m n) by lia. reflexivity.
  - assert (oa m n = 0%nat /\ ob m n = 0%nat) as [-> ->] by lia.
    f_equal. unfold dF, dterm. simpl. ring.
Qed.
