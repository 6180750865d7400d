(** Error bound of the floating-point radial polynomials (helper lemmas for C57). *)
From Coq Require Import Reals Lra Lia Arith Psatz.
From Flocq Require Import Core.
From Verif Require Import Py SpecIndex SpecRadial RadialMath M_Radial M_Coeffs L_Dict L_Coeffs L_Cache L_Radial L_Bound L_Value L_CoeffVal
  L_Polar SpecFloat M_Float L_Float.
Local Open Scope R_scope.

(** ** the bound *)
Notation E_ := radial_error.
Lemma E_u n : E_ n = 8 * u * (242 / 100) ^ Z.to_nat n.
Proof. unfold radial_error, u, Rdiv. replace (2 ^ 53) with (8 * 2 ^ 50) by ring. rewrite Rinv_mult. field. Qed.
Lemma E_succ n : (0 <= n)%Z -> E_ (n + 1) = 242 / 100 * E_ n.
Proof. intros H. rewrite !E_u. replace (Z.to_nat (n + 1)) with (S (Z.to_nat n)) by lia. cbn [pow]. ring. Qed.
Lemma pow242_ge1 k : 1 <= (242 / 100) ^ k.
Proof. apply pow_R1_Rle. lra. Qed.
Lemma E_pos n : 8 * u <= E_ n.
Proof. rewrite E_u. pose proof u_pos. pose proof (pow242_ge1 (Z.to_nat n)). nra. Qed.
Lemma E_9 n : (9 <= n)%Z -> 20000 * u <= E_ n.
Proof.
  intros H. rewrite E_u. pose proof u_pos as U.
  replace (Z.to_nat n) with (9 + (Z.to_nat n - 9))%nat by lia. rewrite pow_add.
  pose proof (pow242_ge1 (Z.to_nat n - 9)) as P.
  assert (2800 <= (242 / 100) ^ 9) by (cbn [pow]; lra). nra.
Qed.

Definition kb (n K : Z) : bool := (K * 100 ^ n <=? 8 * 242 ^ n)%Z.
Lemma kb_ok n K : (0 <= n)%Z -> kb n K = true -> IZR K * u <= E_ n.
Proof.
  intros Hn H. unfold kb in H. apply Z.leb_le in H. apply IZR_le in H. rewrite !mult_IZR in H.
  rewrite <- (Z2Nat.id n Hn) in H. rewrite <- !pow_IZR in H. rewrite E_u.
  unfold Rdiv. rewrite Rpow_mult_distr, pow_inv.
  assert (P : 0 < 100 ^ Z.to_nat n) by (apply pow_lt; lra). pose proof u_pos.
  assert (IZR K <= 8 * (242 ^ Z.to_nat n * / 100 ^ Z.to_nat n)).
  { apply Rmult_le_reg_r with (100 ^ Z.to_nat n); [exact P|]. field_simplify; [|lra]. lra. }
  nra.
Qed.

(** ** the table *)
Lemma src_ok m n e : radial_src m n = Some e -> wfe e = true /\ kb n (kerr e) = true.
Proof.
  unfold radial_src.
  repeat match goal with |- (if ?b then _ else _) = _ -> _ => destruct b eqn:HB; [intros [= <-]; split; [vm_compute; reflexivity|];
     first [ replace n with 0%Z by lia; vm_compute; reflexivity | replace n with 1%Z by lia; vm_compute; reflexivity
           | replace n with 2%Z by lia; vm_compute; reflexivity | replace n with 3%Z by lia; vm_compute; reflexivity
           | replace n with 4%Z by lia; vm_compute; reflexivity | replace n with 5%Z by lia; vm_compute; reflexivity
           | replace n with 6%Z by lia; vm_compute; reflexivity | replace n with 7%Z by lia; vm_compute; reflexivity
           | replace n with 8%Z by lia; vm_compute; reflexivity | replace n with 9%Z by lia; vm_compute; reflexivity
           | replace n with 10%Z by lia; vm_compute; reflexivity ] |clear HB] end.
  discriminate.
Qed.

(** ** coefficients, computed with factorials *)
Definition czf (a b k : nat) : Z :=
  if ((k <=? a) && (k <=? b))%nat then ((if Nat.even k then 1 else -1) * (zf (a + b - k) / (zf k * zf (a - k) * zf (b - k))))%Z else 0%Z.
Lemma sgn_even k : ((-1) ^ Z.of_nat k = if Nat.even k then 1 else -1)%Z.
Proof.
  induction k as [|k IH]; [reflexivity|]. rewrite sgn_S, IH, Nat.even_succ, <- Nat.negb_even. destruct (Nat.even k); reflexivity.
Qed.
Lemma czf_ok a b k : czf a b k = cz a b k.
Proof.
  unfold czf, cz. destruct ((k <=? a) && (k <=? b))%nat eqn:B; [|reflexivity].
  rewrite sgn_even. f_equal.
  assert (E : (zf (a + b - k) = Tri (a - k) (b - k) k * (zf k * zf (a - k) * zf (b - k)))%Z).
  { apply eq_IZR. rewrite !mult_IZR, Tri_R, !zf_fact.
    replace (a - k + (b - k) + k)%nat with (a + b - k)%nat by (apply andb_prop in B as [B1 B2]; apply Nat.leb_le in B1, B2; lia).
    field. repeat split; apply INR_fact_neq_0. }
  rewrite E. apply Z.div_mul. pose proof (zf_pos k). pose proof (zf_pos (a - k)). pose proof (zf_pos (b - k)). nia.
Qed.
Definition coeff (a b : nat) (p : Z) : Z :=
  let d := (Z.of_nat (a + b) - p)%Z in
  if ((0 <=? d) && (d mod 2 =? 0))%Z then czf a b (Z.to_nat (d / 2)) else 0%Z.
Lemma coeff_ok a b p : coeff a b p = coef a b p.
Proof. unfold coeff, coef. cbv zeta. rewrite czf_ok. reflexivity. Qed.

(** ascending (dictionary) and descending (exact equation) lists of terms *)
Definition up_list (a b : nat) : dict := can 0 (coeff a b) (S (a + b)).
Definition down_list (a b : nat) : dict := map (fun k => (Z.of_nat (a + b) - 2 * k, czf a b (Z.to_nat k))%Z) (zrange 0 (S b)).
Definition check_ab (a b : nat) : bool :=
  wfd (up_list a b) && kb (Z.of_nat (a + b)) (kdict (up_list a b) 0 0) &&
  (wfd (down_list a b) && kb (Z.of_nat (a + b)) (kdict (down_list a b) 0 0)).
Definition chk (n b : nat) : bool := (n <? 2 * b)%nat || check_ab (n - b) b.
Lemma check_all_true : forallb (fun n => forallb (chk n) (List.seq 0 21)) (List.seq 0 41) = true.
Proof. vm_compute. reflexivity. Qed.
Lemma forallb2 (f : nat -> nat -> bool) (x y : nat) : forallb (fun n => forallb (f n) (List.seq 0 y)) (List.seq 0 x) = true ->
  forall n b, (n < x)%nat -> (b < y)%nat -> f n b = true.
Proof.
  intros C n b Hn Hb. rewrite forallb_forall in C. specialize (C n). rewrite in_seq in C. specialize (C (conj (Nat.le_0_l n) Hn)).
  rewrite forallb_forall in C. apply C. apply in_seq. split; [apply Nat.le_0_l|exact Hb].
Qed.
Lemma check_ab_true a b : (b <= a)%nat -> (a + b <= 40)%nat -> check_ab a b = true.
Proof.
  intros H1 H2. assert (L1 : (a + b < 41)%nat) by lia. assert (L2 : (b < 21)%nat) by lia.
  assert (L3 : (a + b <? 2 * b)%nat = false) by (apply Nat.ltb_ge; lia). assert (L4 : (a + b - b = a)%nat) by lia.
  pose proof (forallb2 chk 41 21 check_all_true (a + b)%nat b L1 L2) as C. unfold chk in C. rewrite L3, L4 in C. exact C.
Qed.

(** the exact equation is a sum over the descending list *)
Lemma feq_loop_dict rnd pw : (forall x, rnd (rnd x) = rnd x) -> (forall x, rnd (- x) = - rnd x) ->
  forall m n r a b, (Z.of_nat a + Z.of_nat b = n)%Z -> (Z.of_nat a - Z.of_nat b = Z.abs m)%Z ->
  forall cnt k0 v, (k0 + cnt <= S b)%nat ->
  feq_loop rnd pw (zrange (Z.of_nat k0) cnt) m n r v =
  Ok (feval_dict rnd pw (map (fun k => (Z.of_nat (a + b) - 2 * k, czf a b (Z.to_nat k))%Z) (zrange (Z.of_nat k0) cnt)) r v).
Proof.
  intros I Op m n r a b H1 H2. induction cnt as [|cnt IH]; intros k0 v HB; [reflexivity|].
  cbn [zrange feq_loop map feval_dict]. cbv zeta.
  assert (Hba : (b <= a)%nat) by lia.
  replace (n - Z.of_nat k0)%Z with (Z.of_nat (a + b - k0)) by lia.
  rewrite !py_factorial_ok. cbn [bind].
  assert (X : exists x y, ((n + m) / 2 - Z.of_nat k0 = Z.of_nat x)%Z /\ ((n - m) / 2 - Z.of_nat k0 = Z.of_nat y)%Z
               /\ INR (fact k0) * INR (fact x) * INR (fact y) = INR (fact k0) * INR (fact (a - k0)) * INR (fact (b - k0))).
  { destruct (signed_ab m n a b H1 H2) as [[-> ->]|[-> ->]].
    - exists (a - k0)%nat, (b - k0)%nat. split; [lia|split; [lia|ring]].
    - exists (b - k0)%nat, (a - k0)%nat. split; [lia|split; [lia|ring]]. }
  destruct X as (x & y & -> & -> & EX). rewrite !py_factorial_ok. cbn [bind]. rewrite EX. clear EX.
  replace (Z.of_nat k0 + 1)%Z with (Z.of_nat (S k0)) by lia. rewrite IH by lia. do 2 f_equal.
  rewrite Nat2Z.id, (powerRZ_nat (-1) k0) by lia.
  replace (n - 2 * Z.of_nat k0)%Z with (Z.of_nat (a + b) - 2 * Z.of_nat k0)%Z by lia.
  set (P := pw r _). pose proof (cz_fact a b k0 ltac:(lia) ltac:(lia)) as CF. rewrite <- czf_ok in CF.
  set (Q := INR (fact (a + b - k0)) / (INR (fact k0) * INR (fact (a - k0)) * INR (fact (b - k0)))).
  assert (CQ : IZR (czf a b k0) = (-1) ^ k0 * Q) by (rewrite CF; unfold Q, Rdiv; ring).
  assert (NZ : (0 <? Z.abs (czf a b k0))%Z = true).
  { rewrite czf_ok. unfold cz. destruct (Nat.leb_spec k0 a), (Nat.leb_spec k0 b); try lia. cbn [andb].
    rewrite sgn_even. unfold Tri.
    pose proof (binom_pos (a - k0 + (b - k0) + k0) k0 ltac:(lia)). pose proof (binom_pos (a - k0 + (b - k0)) (b - k0) ltac:(lia)).
    pose proof (binom_pos (a - k0 + (b - k0)) (a - k0) ltac:(lia)).
    destruct (Nat.even k0); nia. }
  rewrite NZ, CQ. f_equal. f_equal.
  assert (S2 : (-1) ^ k0 = 1 \/ (-1) ^ k0 = -1).
  { clear. induction k0 as [|k [H|H]]; cbn [pow]; [left; ring|right|left]; rewrite H; ring. }
  destruct S2 as [-> | ->].
  - rewrite !Rmult_1_l. apply I.
  - replace (-1 * rnd (rnd Q * P)) with (- rnd (rnd Q * P)) by ring. rewrite Op, I.
    replace (-1 * Q) with (- Q) by ring. rewrite Op. replace (- rnd Q * P) with (- (rnd Q * P)) by ring. rewrite Op. reflexivity.
Qed.
