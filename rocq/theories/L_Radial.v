(** Proofs about the radial value functions (C11, C12). *)
From Coq Require Import Reals Lra Arith.
From Verif Require Import Py SpecIndex SpecRadial RadialMath L_Index M_Radial.
Local Open Scope R_scope.

Definition Fmn (m n : Z) (r : R) : R := F (oa m n) (ob m n) r.

(** evaluate the closed integer parts of a goal *)
Ltac ev t := let v := eval vm_compute in t in change t with v.
Ltac eval_F := unfold Fmn;
  repeat match goal with |- context [oa ?m ?n] => ev (oa m n) end;
  repeat match goal with |- context [ob ?m ?n] => ev (ob m n) end;
  unfold F; cbn [Nat.min sum_f_R0]; unfold term;
  repeat match goal with |- context [cz ?a ?b ?k] => ev (cz a b k) end;
  repeat match goal with |- context [(?a + ?b - 2 * ?k)%nat] => ev (a + b - 2 * k)%nat end.
Ltac eval_tab := cbv [radial_table radial_derivative_table Z.eqb Pos.eqb andb orb];
  cbv iota beta.

(** case split over all valid (m, n) with n <= 10 *)
Ltac small_orders V B :=
  let R := fresh "R" in let i := fresh "i" in let Hi := fresh "Hi" in
  let C := fresh "C" in
  match type of V with valid ?m ?n =>
    pose proof (proj2 (row_pos m n (proj1 V)) V) as R;
    assert (C : (n = 0 \/ n = 1 \/ n = 2 \/ n = 3 \/ n = 4 \/ n = 5 \/ n = 6 \/ n = 7 \/ n = 8 \/ n = 9 \/ n = 10)%Z)
      by (pose proof (proj1 V); lia);
    clear V B; destruct R as (i & Hi & ->);
    destruct C as [->|[->|[->|[->|[->|[->|[->|[->|[->|[->| ->]]]]]]]]]];
    (do 11 try (destruct i as [|i]; [|]));
    try (exfalso; clear -Hi; lia);
    clear Hi;
    repeat match goal with |- context [(- ?a + 2 * Z.of_nat ?b)%Z] => ev (- a + 2 * Z.of_nat b)%Z end
  end.

Lemma radial_table_ok m n r : valid m n -> (n <= 10)%Z ->
  match radial_table m n r with
  | Some v => v = Fmn m n r
  | None => (7 < n)%Z /\ Z.abs m = n
  end.
Proof.
  intros V B. small_orders V B; eval_tab; try (split; [reflexivity|reflexivity]);
  try (eval_F; ring).
Qed.

Lemma radial_table_none m n r : (10 < n)%Z -> radial_table m n r = None.
Proof.
  intros H. unfold radial_table.
  repeat match goal with |- context [(n =? ?k)%Z] => replace (n =? k)%Z with false by lia end.
  rewrite !andb_false_r. reflexivity.
Qed.

(** powers *)
Lemma powerRZ_nat r (k : nat) z : z = Z.of_nat k -> powerRZ r z = r ^ k.
Proof. intros ->. symmetry. apply pow_powerRZ. Qed.

(** orders of the recursive calls *)
Lemma Fmn_nat m n r a b : (Z.of_nat a + Z.of_nat b = n)%Z -> (Z.of_nat a - Z.of_nat b = Z.abs m)%Z ->
  Fmn m n r = F a b r.
Proof. intros H1 H2. unfold Fmn. destruct (oab_eq m n a b H1 H2) as [-> ->]. reflexivity. Qed.

Lemma valid_pred_l m n : valid m n -> (Z.abs m < n)%Z -> valid (Z.abs (m - 1)) (n - 1).
Proof.
  intros (Hn & Hm & k & Hk) H. split; [lia|]. split; [lia|].
  destruct (Z_le_gt_dec 1 m); [exists k|exists (k - 1)%Z]; lia.
Qed.
Lemma valid_pred_r m n : valid m n -> (Z.abs m < n)%Z -> valid (m + 1) (n - 1).
Proof.
  intros (Hn & Hm & k & Hk) H. split; [lia|]. split; [lia|].
  destruct (Z_le_gt_dec 0 m); [exists (k - 1)%Z|exists k]; lia.
Qed.
Lemma valid_pred2 m n : valid m n -> (Z.abs m < n)%Z -> valid m (n - 2).
Proof. intros (Hn & Hm & k & Hk) H. split; [lia|]. split; [lia|]. exists (k - 1)%Z. lia. Qed.

(** the recurrence in terms of orders *)
Lemma Fmn_rec m n r : valid m n -> (Z.abs m < n)%Z ->
  Fmn m n r = r * (Fmn (Z.abs (m - 1)) (n - 1) r + Fmn (m + 1) (n - 1) r) - Fmn m (n - 2) r.
Proof.
  intros V H. destruct (oab m n V) as (H1 & H2 & H3).
  destruct (oa m n) as [|a] eqn:Ea; [lia|]. destruct (ob m n) as [|b] eqn:Eb; [lia|].
  rewrite (Fmn_nat m n r (S a) (S b)) by lia.
  rewrite (Fmn_nat m (n - 2) r a b) by lia.
  rewrite F_rec. f_equal. f_equal.
  destruct (Z_le_gt_dec 1 m).
  - rewrite (Fmn_nat (Z.abs (m - 1)) (n - 1) r a (S b)) by lia.
    rewrite (Fmn_nat (m + 1) (n - 1) r (S a) b) by lia. reflexivity.
  - destruct (Z.eq_dec m 0) as [->|D].
    + assert (a = b) by lia. subst b.
      rewrite (F_sym a (S a)).
      rewrite (Fmn_nat (Z.abs (0 - 1)) (n - 1) r (S a) a) by lia.
      rewrite (Fmn_nat (0 + 1) (n - 1) r (S a) a) by lia. ring.
    + rewrite (Fmn_nat (Z.abs (m - 1)) (n - 1) r (S a) b) by lia.
      rewrite (Fmn_nat (m + 1) (n - 1) r a (S b)) by lia. ring.
Qed.

Lemma Fmn_rec0 n r : valid 0 n -> (0 < n)%Z ->
  Fmn 0 n r = 2 * r * Fmn 1 (n - 1) r - Fmn 0 (n - 2) r.
Proof.
  intros V H. rewrite Fmn_rec by (assumption || (simpl; lia)).
  change (Z.abs (0 - 1)) with 1%Z. change (0 + 1)%Z with 1%Z. ring.
Qed.

Lemma Fmn_diag m n r : valid m n -> Z.abs m = n -> Fmn m n r = powerRZ r n.
Proof.
  intros V E. destruct V as (Hn & _). rewrite (Fmn_nat m n r (Z.to_nat n) 0) by lia.
  rewrite F_0_r, (powerRZ_nat r (Z.to_nat n)) by lia. reflexivity.
Qed.

Lemma Fmn_sub m n r : valid m n -> (2 <= n)%Z -> (Z.abs m = n - 2)%Z ->
  Fmn m n r = IZR n * powerRZ r n - IZR (n - 1) * powerRZ r (n - 2).
Proof.
  intros V H E. set (a := Z.to_nat (n - 2)). assert (n = Z.of_nat (S (S a)))%Z by (unfold a; lia).
  clearbody a. subst n.
  rewrite (Fmn_nat m _ r (S a) 1) by lia. rewrite F_1_r.
  rewrite (powerRZ_nat r (S (S a))), (powerRZ_nat r a) by lia.
  rewrite (INR_IZR_INZ (S (S a))), (INR_IZR_INZ (S a)).
  replace (Z.of_nat (S (S a)) - 1)%Z with (Z.of_nat (S a)) by lia. reflexivity.
Qed.

Lemma radial_polynomial_F fuel : forall m n r, valid m n -> (Z.to_nat n < fuel)%nat ->
  radial_polynomial fuel m n r = Ok (Fmn m n r).
Proof.
  induction fuel as [|f IH]; intros m n r V HF; [lia|]. cbn [radial_polynomial].
  destruct (Z_le_gt_dec n 10) as [L|G].
  - pose proof (radial_table_ok m n r V L) as T. destruct (radial_table m n r) as [v|].
    + rewrite T. reflexivity.
    + destruct T as [T1 T2].
      replace ((7 <? n)%Z && (Z.abs m =? n)%Z) with true by lia. rewrite (Fmn_diag m n r V T2). reflexivity.
  - rewrite radial_table_none by lia.
    pose proof V as (Hn & Hm & _).
    destruct ((7 <? n)%Z && (Z.abs m =? n)%Z) eqn:B1.
    { rewrite (Fmn_diag m n r V) by lia. reflexivity. }
    assert (Z.abs m < n)%Z by lia.
    destruct ((10 <? n)%Z && (m =? 0)%Z) eqn:B2.
    { assert (m = 0)%Z by lia. subst m.
      pose proof (valid_pred_l 0 n V ltac:(lia)) as V1. change (Z.abs (0 - 1)) with 1%Z in V1.
      pose proof (valid_pred2 0 n V ltac:(lia)) as V2.
      rewrite (IH 1%Z (n - 1)%Z r V1) by lia. rewrite (IH 0%Z (n - 2)%Z r V2) by lia. cbn [bind].
      rewrite <- Fmn_rec0 by (assumption || lia). reflexivity. }
    destruct ((10 <? n)%Z && (Z.abs m =? n - 2)%Z) eqn:B3.
    { rewrite Fmn_sub by (assumption || lia). reflexivity. }
    rewrite (IH (Z.abs (m - 1)) (n - 1)%Z r (valid_pred_l m n V ltac:(lia))) by lia.
    rewrite (IH (m + 1)%Z (n - 1)%Z r (valid_pred_r m n V ltac:(lia))) by lia.
    rewrite (IH m (n - 2)%Z r (valid_pred2 m n V ltac:(lia))) by lia. cbn [bind].
    rewrite <- Fmn_rec by assumption. reflexivity.
Qed.

(** invalid orders never return: the recursion is infinite *)
Lemma radial_polynomial_diverges fuel : forall m n r, (n < Z.abs m)%Z -> (exists k, n - Z.abs m = 2 * k)%Z ->
  radial_polynomial fuel m n r = Raise RecursionError.
Proof.
  induction fuel as [|f IH]; intros m n r L (k & Hk); [reflexivity|]. cbn [radial_polynomial].
  assert (T : radial_table m n r = None).
  { unfold radial_table.
    repeat match goal with |- context [if ?c then _ else _] => replace c with false by lia end. reflexivity. }
  rewrite T.
  replace ((7 <? n)%Z && (Z.abs m =? n)%Z) with false by lia.
  replace ((10 <? n)%Z && (m =? 0)%Z) with false by lia.
  replace ((10 <? n)%Z && (Z.abs m =? n - 2)%Z) with false by lia.
  rewrite IH; [reflexivity|lia|].
  destruct (Z_le_gt_dec 1 m); [exists k|exists (k - 1)%Z]; lia.
Qed.

(** ** exact equation *)
Lemma py_factorial_ok k : py_factorial (Z.of_nat k) = Ok (INR (fact k)).
Proof. unfold py_factorial. destruct (Z.ltb_spec (Z.of_nat k) 0); [lia|]. rewrite Nat2Z.id. reflexivity. Qed.

Lemma signed_ab m n (a b : nat) : (Z.of_nat a + Z.of_nat b = n)%Z -> (Z.of_nat a - Z.of_nat b = Z.abs m)%Z ->
  ((n + m) / 2 = Z.of_nat a /\ (n - m) / 2 = Z.of_nat b)%Z \/
  ((n + m) / 2 = Z.of_nat b /\ (n - m) / 2 = Z.of_nat a)%Z.
Proof.
  intros H1 H2. destruct (Z.abs_eq_or_opp m) as [E|E]; [left|right];
  split; [replace (n + m)%Z with (Z.of_nat a * 2)%Z by lia|replace (n - m)%Z with (Z.of_nat b * 2)%Z by lia
         |replace (n + m)%Z with (Z.of_nat b * 2)%Z by lia|replace (n - m)%Z with (Z.of_nat a * 2)%Z by lia];
  apply Z.div_mul; lia.
Qed.

Lemma eq_loop_ok m n r (a b : nat) : (Z.of_nat a + Z.of_nat b = n)%Z -> (Z.of_nat a - Z.of_nat b = Z.abs m)%Z ->
  forall cnt k0 v, (k0 + cnt <= S b)%nat ->
  eq_loop (zrange (Z.of_nat k0) cnt) m n r v =
  Ok (v + match cnt with O => 0 | S c => sum_f_R0 (fun i => term a b r (k0 + i)) c end).
Proof.
  intros H1 H2. induction cnt as [|cnt IH]; intros k0 v HB.
  - cbn [zrange eq_loop]. f_equal. ring.
  - cbn [zrange eq_loop].
    assert (Hba : (b <= a)%nat) by lia.
    replace (n - Z.of_nat k0)%Z with (Z.of_nat (a + b - k0)) by lia.
    rewrite !py_factorial_ok. cbn [bind].
    assert (X : exists x y, ((n + m) / 2 - Z.of_nat k0 = Z.of_nat x)%Z /\ ((n - m) / 2 - Z.of_nat k0 = Z.of_nat y)%Z
                 /\ INR (fact k0) * INR (fact x) * INR (fact y) = INR (fact k0) * INR (fact (a - k0)) * INR (fact (b - k0))).
    { destruct (signed_ab m n a b H1 H2) as [[-> ->]|[-> ->]].
      - exists (a - k0)%nat, (b - k0)%nat. split; [lia|split; [lia|ring]].
      - exists (b - k0)%nat, (a - k0)%nat. split; [lia|split; [lia|ring]]. }
    destruct X as (x & y & -> & -> & EX). rewrite !py_factorial_ok. cbn [bind]. rewrite EX. clear EX.
    replace (Z.of_nat k0 + 1)%Z with (Z.of_nat (S k0)) by lia. rewrite IH by lia. f_equal.
    rewrite (powerRZ_nat (-1) k0) by lia.
    rewrite (powerRZ_nat r (a + b - 2 * k0)) by lia.
    assert (T0 : (-1) ^ k0 * (INR (fact (a + b - k0)) / (INR (fact k0) * INR (fact (a - k0)) * INR (fact (b - k0))) * r ^ (a + b - 2 * k0)) = term a b r k0).
    { unfold term. rewrite cz_fact by lia. unfold Rdiv. ring. }
    rewrite T0. destruct cnt as [|c].
    + cbn [sum_f_R0]. replace (k0 + 0)%nat with k0 by lia. ring.
    + rewrite (decomp_sum (fun i => term a b r (k0 + i)) (S c)) by lia. cbn [pred].
      replace (k0 + 0)%nat with k0 by lia.
      rewrite (sum_eq (fun i => term a b r (S k0 + i)) (fun i => term a b r (k0 + S i))).
      * ring.
      * intros i _. f_equal. lia.
Qed.

Lemma radial_polynomial_eq_F m n r : valid m n -> radial_polynomial_eq m n r = Ok (Fmn m n r).
Proof.
  intros V. destruct (oab m n V) as (H1 & H2 & H3). unfold radial_polynomial_eq, Fmn.
  replace (Z.to_nat ((n - Z.abs m) / 2 + 1)) with (S (ob m n)).
  2:{ unfold ob. destruct V as (Hn & Hm & k & Hk). rewrite Hk, Z.mul_comm, Z.div_mul by lia. lia. }
  change 0%Z with (Z.of_nat 0). rewrite (eq_loop_ok m n r (oa m n) (ob m n)) by lia.
  f_equal. rewrite Rplus_0_l. rewrite (F_sum _ _ r (ob m n)) by lia. reflexivity.
Qed.

Lemma radial_polynomial_eq_invalid m n r : (n < Z.abs m)%Z -> (exists k, n - Z.abs m = 2 * k)%Z ->
  radial_polynomial_eq m n r = Ok 0.
Proof.
  intros L (k & Hk). unfold radial_polynomial_eq.
  replace (Z.to_nat ((n - Z.abs m) / 2 + 1)) with 0%nat; [reflexivity|].
  rewrite Hk, Z.mul_comm, Z.div_mul by lia. lia.
Qed.
