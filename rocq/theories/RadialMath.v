(** Mathematics of the radial polynomials: integer coefficients, Pascal-type
    recurrence, the three-term recurrence used by the code, link to the factorial
    specification. Helper file (no model of code). *)
From Coq Require Import Reals Lra Arith.
From Verif Require Import Py SpecIndex SpecRadial.

(** ** factorials and trinomial coefficients over Z *)
Fixpoint zf (n : nat) : Z := match n with O => 1 | S n' => Z.of_nat n * zf n' end.
Fixpoint binom (n k : nat) : Z :=
  match k with
  | O => 1
  | S k' => match n with O => 0 | S n' => binom n' k' + binom n' k end
  end.

Lemma zf_pos n : 0 < zf n.
Proof. induction n; cbn [zf]; lia. Qed.
Lemma zf_S n : zf (S n) = Z.of_nat (S n) * zf n.
Proof. reflexivity. Qed.
Lemma zf_fact n : IZR (zf n) = INR (fact n).
Proof.
  induction n; [reflexivity|]. rewrite zf_S, mult_IZR, IHn, fact_simpl, mult_INR, <- INR_IZR_INZ. reflexivity.
Qed.

Lemma binom_0_r n : binom n 0 = 1.
Proof. destruct n; reflexivity. Qed.
Lemma binom_S n k : binom (S n) (S k) = binom n k + binom n (S k).
Proof. reflexivity. Qed.
Lemma binom_big n : forall k, (n < k)%nat -> binom n k = 0.
Proof.
  induction n; intros [|k] H; try lia; [reflexivity|].
  rewrite binom_S, !IHn by lia. reflexivity.
Qed.
Lemma binom_diag n : binom n n = 1.
Proof. induction n; [reflexivity|]. rewrite binom_S, IHn, binom_big by lia. reflexivity. Qed.

Lemma binom_zf i j : zf i * zf j * binom (i + j) i = zf (i + j).
Proof.
  remember (i + j)%nat as n eqn:E. revert i j E. induction n as [|n IH]; intros i j E.
  - assert (i = 0%nat /\ j = 0%nat) as [-> ->] by lia. reflexivity.
  - destruct i as [|i].
    + assert (j = S n) by lia. subst j. rewrite binom_0_r. change (zf 0) with 1. lia.
    + destruct j as [|j].
      * assert (n = i) by lia. subst i. rewrite binom_diag. change (zf 0) with 1. lia.
      * rewrite binom_S. 
        pose proof (IH i (S j) ltac:(lia)) as H1. pose proof (IH (S i) j ltac:(lia)) as H2.
        rewrite (zf_S n). rewrite (zf_S i), (zf_S j) in *.
        replace (Z.of_nat (S n)) with (Z.of_nat (S i) + Z.of_nat (S j)) by lia.
        rewrite Z.mul_add_distr_r.
        transitivity (Z.of_nat (S i) * (zf i * (Z.of_nat (S j) * zf j) * binom n i)
                      + Z.of_nat (S j) * (Z.of_nat (S i) * zf i * zf j * binom n (S i))); [ring|].
        rewrite H1, H2. reflexivity.
Qed.

Definition Tri (i j k : nat) : Z := binom (i + j + k) k * binom (i + j) i.

Lemma Tri_zf i j k : zf i * zf j * zf k * Tri i j k = zf (i + j + k).
Proof.
  unfold Tri. rewrite (Nat.add_comm (i + j) k).
  pose proof (binom_zf k (i + j)) as H1. pose proof (binom_zf i j) as H2.
  rewrite <- H1, <- H2. ring.
Qed.

Lemma Tri_unique i j k x : zf i * zf j * zf k * x = zf (i + j + k) -> x = Tri i j k.
Proof.
  intros H. pose proof (Tri_zf i j k) as H2. rewrite <- H2 in H.
  apply Z.mul_reg_l in H; [exact H|].
  pose proof (zf_pos i). pose proof (zf_pos j). pose proof (zf_pos k). nia.
Qed.

Lemma Tri_sym i j k : Tri i j k = Tri j i k.
Proof.
  symmetry. apply Tri_unique. pose proof (Tri_zf j i k) as H.
  replace (j + i + k)%nat with (i + j + k)%nat in H by lia. rewrite <- H. ring.
Qed.
Lemma Tri_sym23 i j k : Tri i j k = Tri i k j.
Proof.
  symmetry. apply Tri_unique. pose proof (Tri_zf i k j) as H.
  replace (i + k + j)%nat with (i + j + k)%nat in H by lia. rewrite <- H. ring.
Qed.

Lemma Tri_pascal i j k : Tri (S i) (S j) (S k) = Tri i (S j) (S k) + Tri (S i) j (S k) + Tri (S i) (S j) k.
Proof.
  symmetry. apply Tri_unique.
  pose proof (Tri_zf i (S j) (S k)) as H1. pose proof (Tri_zf (S i) j (S k)) as H2.
  pose proof (Tri_zf (S i) (S j) k) as H3.
  set (N := (i + j + k + 2)%nat).
  replace (i + S j + S k)%nat with N in H1 by (unfold N; lia).
  replace (S i + j + S k)%nat with N in H2 by (unfold N; lia).
  replace (S i + S j + k)%nat with N in H3 by (unfold N; lia).
  replace (S i + S j + S k)%nat with (S N) by (unfold N; lia).
  rewrite (zf_S N). replace (Z.of_nat (S N)) with (Z.of_nat (S i) + Z.of_nat (S j) + Z.of_nat (S k)) by (unfold N; lia).
  rewrite !Z.mul_add_distr_r. rewrite <- H1 at 1. rewrite <- H2 at 1. rewrite <- H3 at 1.
  rewrite (zf_S i), (zf_S j), (zf_S k). ring.
Qed.

(** the two-index case: one of the three is 0 *)
Lemma Tri_0_mid i k : Tri i 0 k = binom (i + k) k.
Proof. unfold Tri. replace (i + 0)%nat with i by lia. rewrite binom_diag. ring. Qed.
Lemma Tri_pascal0 i k : Tri (S i) 0 (S k) = Tri i 0 (S k) + Tri (S i) 0 k.
Proof.
  rewrite !Tri_0_mid. replace (S i + S k)%nat with (S (S i + k)) by lia. rewrite binom_S.
  replace (i + S k)%nat with (S i + k)%nat by lia. lia.
Qed.
Lemma Tri_00 k : Tri 0 0 k = 1.
Proof. rewrite Tri_0_mid. apply binom_diag. Qed.

(** ** signed coefficients: cz a b k is the coefficient of r^(a+b-2k) of the polynomial
    with (n+|m|)/2 = a and (n-|m|)/2 = b *)
Definition cz (a b k : nat) : Z :=
  if ((k <=? a) && (k <=? b))%nat then (-1) ^ Z.of_nat k * Tri (a - k) (b - k) k else 0.

Lemma cz_zero a b k : (a < k \/ b < k)%nat -> cz a b k = 0.
Proof. intros H. unfold cz. destruct (Nat.leb_spec k a), (Nat.leb_spec k b); simpl; lia. Qed.
Lemma cz_val i j k : cz (i + k) (j + k) k = (-1) ^ Z.of_nat k * Tri i j k.
Proof.
  unfold cz. destruct (Nat.leb_spec k (i + k)), (Nat.leb_spec k (j + k)); try lia.
  cbn [andb]. do 2 f_equal; lia.
Qed.
Lemma cz_sym a b k : cz a b k = cz b a k.
Proof. unfold cz. rewrite Tri_sym. rewrite andb_comm. reflexivity. Qed.

Lemma sgn_S k : (-1) ^ Z.of_nat (S k) = - (-1) ^ Z.of_nat k.
Proof. rewrite Nat2Z.inj_succ, Z.pow_succ_r by lia. ring. Qed.

Lemma cz_rec0 a b : cz (S a) (S b) 0 = cz a (S b) 0 + cz (S a) b 0.
Proof.
  unfold cz. cbn [Nat.leb andb]. rewrite !Nat.sub_0_r.
  rewrite !(Tri_sym23 _ _ 0), Tri_pascal0. change (Z.of_nat 0) with 0. change ((-1) ^ 0) with 1. ring.
Qed.

Lemma cz_recS a b k : cz (S a) (S b) (S k) = cz a (S b) (S k) + cz (S a) b (S k) - cz a b k.
Proof.
  destruct (le_lt_dec k a) as [Ha|Ha]; [|rewrite !cz_zero by lia; reflexivity].
  destruct (le_lt_dec k b) as [Hb|Hb]; [|rewrite !cz_zero by lia; reflexivity].
  destruct (a - k)%nat as [|i] eqn:Ei.
  - assert (a = k) by lia. subst a. rewrite (cz_zero k (S b) (S k)) by lia.
    destruct (b - k)%nat as [|j] eqn:Ej.
    + assert (b = k) by lia. subst b. rewrite (cz_zero (S k) k (S k)) by lia.
      pose proof (cz_val 0 0 (S k)) as E1. pose proof (cz_val 0 0 k) as E2. simpl plus in *.
      rewrite E1, E2, sgn_S, !Tri_00. ring.
    + replace b with (S j + k)%nat by lia.
      replace (S (S j + k))%nat with (S j + S k)%nat by lia.
      pose proof (cz_val 0 (S j) (S k)) as E1. pose proof (cz_val 0 (S j) k) as E2.
      pose proof (cz_val 0 j (S k)) as E3. simpl plus in *.
      replace (S (j + k))%nat with (j + S k)%nat by lia. rewrite E3.
      replace (S (j + S k))%nat with (S (j + S k))%nat in * by lia. rewrite E1.
      replace (j + S k)%nat with (S (j + k))%nat by lia. rewrite E2, sgn_S.
      rewrite (Tri_sym 0 (S j)), (Tri_sym 0 j), (Tri_sym 0 (S j)), Tri_pascal0. ring.
  - destruct (b - k)%nat as [|j] eqn:Ej.
    + assert (b = k) by lia. subst b. rewrite (cz_zero (S a) k (S k)) by lia.
      replace a with (S i + k)%nat by lia.
      pose proof (cz_val (S i) 0 (S k)) as E1. pose proof (cz_val (S i) 0 k) as E2.
      pose proof (cz_val i 0 (S k)) as E3. simpl plus in *.
      replace (S (i + k))%nat with (i + S k)%nat by lia. rewrite E3, E1.
      replace (i + S k)%nat with (S (i + k))%nat by lia. rewrite E2, sgn_S, Tri_pascal0. ring.
    + replace a with (S i + k)%nat by lia. replace b with (S j + k)%nat by lia.
      pose proof (cz_val (S i) (S j) (S k)) as E1. pose proof (cz_val (S i) (S j) k) as E2.
      pose proof (cz_val i (S j) (S k)) as E3. pose proof (cz_val (S i) j (S k)) as E4.
      simpl plus in *. rewrite E2.
      replace (S (i + k))%nat with (i + S k)%nat by lia. replace (S (j + k))%nat with (j + S k)%nat by lia.
      rewrite E1, E3, E4, sgn_S, Tri_pascal. ring.
Qed.

(** ** the polynomial *)
Local Open Scope R_scope.

Definition term (a b : nat) (r : R) (k : nat) : R := IZR (cz a b k) * r ^ (a + b - 2 * k).
(** sum over all k (terms with k > min a b vanish) *)
Definition F (a b : nat) (r : R) : R := sum_f_R0 (term a b r) (Nat.min a b).

Lemma term_zero a b r k : (a < k \/ b < k)%nat -> term a b r k = 0.
Proof. intros H. unfold term. rewrite cz_zero by exact H. ring. Qed.

Lemma sum_extend f M N : (M <= N)%nat -> (forall k, (M < k)%nat -> f k = 0) -> sum_f_R0 f N = sum_f_R0 f M.
Proof.
  intros H Z0. induction N as [|N IH].
  - assert (M = 0%nat) by lia. subst. reflexivity.
  - destruct (Nat.eq_dec M (S N)) as [->|D]; [reflexivity|].
    rewrite tech5, IH, Z0 by lia. ring.
Qed.

Lemma F_sum a b r N : (Nat.min a b <= N)%nat -> F a b r = sum_f_R0 (term a b r) N.
Proof. intros H. unfold F. symmetry. apply sum_extend; [exact H|]. intros k Hk. apply term_zero. lia. Qed.

Lemma F_sym a b r : F a b r = F b a r.
Proof.
  unfold F. rewrite Nat.min_comm. apply sum_eq. intros k Hk. unfold term. rewrite cz_sym.
  do 2 f_equal. lia.
Qed.

Lemma term_recS a b r k : term (S a) (S b) r (S k) =
  r * (term a (S b) r (S k) + term (S a) b r (S k)) - term a b r k.
Proof.
  unfold term. rewrite cz_recS, minus_IZR, plus_IZR.
  replace (S a + S b - 2 * S k)%nat with (a + b - 2 * k)%nat by lia.
  assert (E1 : IZR (cz a (S b) (S k)) * r ^ (a + b - 2 * k) = r * (IZR (cz a (S b) (S k)) * r ^ (a + S b - 2 * S k))).
  { destruct (le_lt_dec (S k) a) as [L|L].
    - destruct (le_lt_dec k b) as [L2|L2].
      + replace (a + b - 2 * k)%nat with (S (a + S b - 2 * S k)) by lia. cbn [pow]. ring.
      + rewrite cz_zero by lia. ring.
    - rewrite cz_zero by lia. ring. }
  assert (E2 : IZR (cz (S a) b (S k)) * r ^ (a + b - 2 * k) = r * (IZR (cz (S a) b (S k)) * r ^ (S a + b - 2 * S k))).
  { destruct (le_lt_dec (S k) b) as [L|L].
    - destruct (le_lt_dec k a) as [L2|L2].
      + replace (a + b - 2 * k)%nat with (S (S a + b - 2 * S k)) by lia. cbn [pow]. ring.
      + rewrite cz_zero by lia. ring.
    - rewrite cz_zero by lia. ring. }
  rewrite Rmult_minus_distr_r, Rmult_plus_distr_r, E1, E2. ring.
Qed.

Lemma term_rec0 a b r : term (S a) (S b) r 0 = r * (term a (S b) r 0 + term (S a) b r 0).
Proof.
  unfold term. rewrite cz_rec0, plus_IZR.
  replace (S a + S b - 2 * 0)%nat with (S (S a + b)) by lia.
  replace (a + S b - 2 * 0)%nat with (S a + b)%nat by lia.
  replace (S a + b - 2 * 0)%nat with (S a + b)%nat by lia. cbn [pow]. ring.
Qed.

(** three-term recurrence (Shakibaei-Paramesran) *)
Lemma F_rec a b r : F (S a) (S b) r = r * (F a (S b) r + F (S a) b r) - F a b r.
Proof.
  set (N := (a + b)%nat).
  rewrite (F_sum (S a) (S b) r (S N)) by (unfold N; lia).
  rewrite (F_sum a (S b) r (S N)) by (unfold N; lia).
  rewrite (F_sum (S a) b r (S N)) by (unfold N; lia).
  rewrite (F_sum a b r N) by (unfold N; lia).
  clearbody N. induction N as [|N IH].
  - cbn [sum_f_R0]. rewrite term_recS, term_rec0. ring.
  - rewrite (tech5 (term (S a) (S b) r)), IH, term_recS.
    rewrite (tech5 (term a (S b) r) (S N)), (tech5 (term (S a) b r) (S N)), (tech5 (term a b r) N). ring.
Qed.

Lemma F_0_r a r : F a 0 r = r ^ a.
Proof.
  unfold F. rewrite Nat.min_0_r. cbn [sum_f_R0]. unfold term, cz. cbn [Nat.leb andb].
  rewrite !Nat.sub_0_r. change (Z.of_nat 0) with 0%Z. unfold Tri.
  replace (a + 0 - 2 * 0)%nat with a by lia.
  rewrite !Nat.add_0_r, binom_0_r, binom_diag. simpl. ring.
Qed.
Lemma F_0_l b r : F 0 b r = r ^ b.
Proof. rewrite F_sym. apply F_0_r. Qed.

(** |m| = n - 2 *)
Lemma F_1_r a r : F (S a) 1 r = INR (S (S a)) * r ^ (S (S a)) - INR (S a) * r ^ a.
Proof.
  induction a as [|a IH].
  - rewrite F_rec, F_0_l, F_0_r, F_0_r. simpl. ring.
  - rewrite F_rec, IH, !F_0_r. rewrite !S_INR. cbn [pow]. ring.
Qed.

(** ** link with the factorial specification *)
Lemma IZR_sgn k : IZR ((-1) ^ Z.of_nat k) = (-1) ^ k.
Proof.
  induction k; [reflexivity|]. rewrite sgn_S, opp_IZR, IHk. simpl. ring.
Qed.

Lemma Tri_R i j k : IZR (Tri i j k) = INR (fact (i + j + k)) / (INR (fact k) * INR (fact i) * INR (fact j)).
Proof.
  pose proof (Tri_zf i j k) as H. apply (f_equal IZR) in H. rewrite !mult_IZR, !zf_fact in H.
  pose proof (INR_fact_neq_0 i). pose proof (INR_fact_neq_0 j). pose proof (INR_fact_neq_0 k).
  rewrite <- H. field. auto.
Qed.

Lemma cz_fact a b k : (k <= a)%nat -> (k <= b)%nat ->
  IZR (cz a b k) = (-1) ^ k * INR (fact (a + b - k)) / (INR (fact k) * INR (fact (a - k)) * INR (fact (b - k))).
Proof.
  intros Ha Hb. unfold cz. destruct (Nat.leb_spec k a), (Nat.leb_spec k b); try lia. cbn [andb].
  rewrite mult_IZR, IZR_sgn, Tri_R. replace (a - k + (b - k) + k)%nat with (a + b - k)%nat by lia.
  unfold Rdiv. ring.
Qed.

Definition oa (m n : Z) : nat := Z.to_nat ((n + Z.abs m) / 2).
Definition ob (m n : Z) : nat := Z.to_nat ((n - Z.abs m) / 2).

Lemma oab m n : valid m n -> (ob m n <= oa m n)%nat /\ (Z.of_nat (oa m n) + Z.of_nat (ob m n) = n)%Z /\
  (Z.of_nat (oa m n) - Z.of_nat (ob m n) = Z.abs m)%Z.
Proof.
  intros (Hn & Hm & k & Hk). unfold oa, ob.
  replace (n + Z.abs m)%Z with ((n - k) * 2)%Z by lia. replace (n - Z.abs m)%Z with (k * 2)%Z by lia.
  rewrite !Z.div_mul by lia. lia.
Qed.

Lemma R_nm_F m n r : valid m n -> R_nm m n r = F (oa m n) (ob m n) r.
Proof.
  intros V. destruct (oab m n V) as (H1 & H2 & H3).
  unfold R_nm. fold (oa m n) (ob m n).
  rewrite (F_sum _ _ r (ob m n)) by lia. apply sum_eq. intros k Hk.
  unfold term. rewrite cz_fact by lia.
  replace (Z.to_nat n) with (oa m n + ob m n)%nat by lia. reflexivity.
Qed.

(** integers a, b from a decomposition *)
Lemma oab_eq m n a b : (Z.of_nat a + Z.of_nat b = n)%Z -> (Z.of_nat a - Z.of_nat b = Z.abs m)%Z -> oa m n = a /\ ob m n = b.
Proof.
  intros H1 H2. unfold oa, ob. 
  replace (n + Z.abs m)%Z with (Z.of_nat a * 2)%Z by lia. replace (n - Z.abs m)%Z with (Z.of_nat b * 2)%Z by lia.
  rewrite !Z.div_mul by lia. lia.
Qed.
