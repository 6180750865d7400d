(** Error bound of radial_dr() in binary64 (helper lemmas for C61). *)
From Coq Require Import Reals Lra Lia Arith Psatz.
From Flocq Require Import Core.
From Verif Require Import Py SpecIndex SpecRadial RadialMath M_Radial M_Coeffs SpecCoeffs L_Dict L_Coeffs L_Cache L_Radial L_RadialD L_Bound L_Value L_CoeffVal
  L_Polar L_DrErr SpecDiff L_Slope SpecFloat M_Float L_Float L_Float2 L_Float3 L_Float4 SpecFloatDr M_FloatDr L_FloatDr.
Local Open Scope R_scope.

(** ** a coefficient times a power *)
Lemma coef_err pw r c c' k : power_within_ulp pw -> F64 r -> 0 <= r <= 1 -> (0 <= k)%Z -> 1 <= c -> Rabs (c' - c) <= 5 * c * u ->
  Rabs (c * powerRZ r k) <= c /\ Rabs (b64 (c' * pw r k) - c * powerRZ r k) <= 9 * c * u.
Proof.
  intros P Fr Hr Hk C1 B. pose proof u_pos as U. pose proof u_small as US. pose proof (powerRZ01 r k Hr Hk) as P01.
  pose proof (pw_err pw r k P Fr Hr Hk) as PE.
  assert (M0 : Rabs (c * powerRZ r k) <= c). { rewrite Rabs_mult, (Rabs_pos_eq c), (Rabs_pos_eq (powerRZ r k)) by lra. rewrite <- (Rmult_1_r c) at 2. apply Rmult_le_compat_l; lra. }
  split; [exact M0|]. set (p := powerRZ r k) in *. set (p' := pw r k) in *.
  assert (D : Rabs (c' * p' - c * p) <= 71 / 10 * c * u).
  { replace (c' * p' - c * p) with (c * (p' - p) + ((c' - c) * p + (c' - c) * (p' - p))) by ring.
    eapply Rle_trans; [apply Rabs_triang|]. eapply Rle_trans; [apply Rplus_le_compat_l, Rabs_triang|].
    rewrite !Rabs_mult, (Rabs_pos_eq c), (Rabs_pos_eq p) by lra.
    pose proof (Rabs_pos (c' - c)) as A0. pose proof (Rabs_pos (p' - p)) as B0.
    set (a := Rabs (c' - c)) in *. set (b := Rabs (p' - p)) in *.
    assert (X1 : c * b <= c * (2 * u)) by (apply Rmult_le_compat_l; lra). assert (X2 : a * p <= a * 1) by (apply Rmult_le_compat_l; lra).
    assert (X3 : a * b <= 5 * c * u * (2 * u)) by (apply Rmult_le_compat; lra). destruct (small_mul c ltac:(lra)) as (S1 & _ & _ & S4). lra. }
  pose proof (b64_step _ _ _ _ M0 D) as S. destruct (small_mul c ltac:(lra)) as (S1 & _ & _ & S4). assert (UC : 1 * u <= c * u) by (apply Rmult_le_compat_r; lra). lra.
Qed.
Lemma int_err z : (1 <= z)%Z -> 1 <= IZR z /\ Rabs (b64 (IZR z) - IZR z) <= 3 / 2 * IZR z * u.
Proof.
  intros H. assert (Z1 : 1 <= IZR z) by (apply IZR_le; lia). split; [exact Z1|]. pose proof (b64_rel (IZR z)) as B. rewrite (Rabs_pos_eq (IZR z)) in B by lra.
  pose proof u_pos as U. assert (1 * u <= IZR z * u) by (apply Rmult_le_compat_r; lra). lra.
Qed.
Lemma prod_err a b : (1 <= a)%Z -> (1 <= b)%Z -> 1 <= IZR a * IZR b /\ Rabs (b64 (b64 (IZR a) * b64 (IZR b)) - IZR a * IZR b) <= 5 * (IZR a * IZR b) * u.
Proof.
  intros Ha Hb. destruct (int_err a Ha) as [A1 A2]. destruct (int_err b Hb) as [B1 B2]. pose proof u_pos as U. pose proof u_small as US.
  set (x := IZR a) in *. set (y := IZR b) in *. set (x' := b64 x) in *. set (y' := b64 y) in *. clearbody x y x' y'.
  assert (XY : 1 <= x * y) by (rewrite <- (Rmult_1_r 1); apply Rmult_le_compat; lra). split; [exact XY|].
  assert (D : Rabs (x' * y' - x * y) <= 31 / 10 * (x * y) * u).
  { replace (x' * y' - x * y) with (x * (y' - y) + ((x' - x) * y + (x' - x) * (y' - y))) by ring.
    eapply Rle_trans; [apply Rabs_triang|]. eapply Rle_trans; [apply Rplus_le_compat_l, Rabs_triang|].
    rewrite !Rabs_mult, (Rabs_pos_eq x), (Rabs_pos_eq y) by lra.
    pose proof (Rabs_pos (x' - x)) as A0. pose proof (Rabs_pos (y' - y)) as B0.
    assert (X1 : x * Rabs (y' - y) <= x * (3 / 2 * y * u)) by (apply Rmult_le_compat_l; lra).
    assert (X2 : Rabs (x' - x) * y <= 3 / 2 * x * u * y) by (apply Rmult_le_compat_r; lra).
    assert (X3 : Rabs (x' - x) * Rabs (y' - y) <= 3 / 2 * x * u * (3 / 2 * y * u)) by (apply Rmult_le_compat; lra).
    destruct (small_mul (x * y) ltac:(lra)) as (S1 & _ & _ & S4). lra. }
  pose proof (b64_step _ _ _ _ (Req_le _ _ (Rabs_pos_eq (x * y) ltac:(lra))) D) as S. destruct (small_mul (x * y) ltac:(lra)) as (S1 & _ & _ & S4).
  assert (UC : 1 * u <= (x * y) * u) by (apply Rmult_le_compat_r; lra). lra.
Qed.
Lemma fdiag_err pw r n : power_within_ulp pw -> F64 r -> 0 <= r <= 1 -> (4 <= n)%Z -> Rabs (fdiag b64 pw n r - IZR n * powerRZ r (n - 1)) <= D_ n.
Proof.
  intros P Fr Hr Hn. destruct (int_err n ltac:(lia)) as [A1 A2]. pose proof u_pos as U.
  destruct (coef_err pw r (IZR n) (b64 (IZR n)) (n - 1) P Fr Hr ltac:(lia) A1) as [_ E].
  { eapply Rle_trans; [exact A2|]. apply Rmult_le_compat_r; lra. }
  unfold fdiag. eapply Rle_trans; [exact E|]. rewrite D_E.
  assert (EN : 9 * u <= E_ n). { rewrite E_u. assert (2 <= (242 / 100) ^ Z.to_nat n). { eapply Rle_trans; [|apply (Rle_pow (242 / 100) 4); [lra|lia]]. cbn [pow]. lra. } assert (u * 2 <= u * (242 / 100) ^ Z.to_nat n) by (apply Rmult_le_compat_l; lra). lra. }
  replace (9 * IZR n * u) with (IZR n * (9 * u)) by ring. apply Rmult_le_compat_l; lra.
Qed.
Lemma fsub_err pw r n : power_within_ulp pw -> F64 r -> 0 <= r <= 1 -> (9 <= n)%Z ->
  Rabs (fsub b64 pw n r - (IZR n * IZR n * powerRZ r (n - 1) - IZR (n - 1) * IZR (n - 2) * powerRZ r (n - 3))) <= D_ n.
Proof.
  intros P Fr Hr Hn. pose proof u_pos as U. pose proof u_small as US.
  destruct (prod_err n n ltac:(lia) ltac:(lia)) as [A1 A2]. destruct (prod_err (n - 1) (n - 2) ltac:(lia) ltac:(lia)) as [B1 B2].
  destruct (coef_err pw r _ _ (n - 1) P Fr Hr ltac:(lia) A1 A2) as [M1 E1]. destruct (coef_err pw r _ _ (n - 3) P Fr Hr ltac:(lia) B1 B2) as [M2 E2].
  unfold fsub. set (X' := b64 (_ * pw r (n - 1)%Z)) in *. set (Y' := b64 (_ * pw r (n - 3)%Z)) in *. set (X := IZR n * IZR n * powerRZ r (n - 1)) in *. set (Y := _ * powerRZ r (n - 3)) in *.
  assert (LE : IZR (n - 1) * IZR (n - 2) <= IZR n * IZR n) by (rewrite <- !mult_IZR; apply IZR_le; nia).
  set (q := IZR n * IZR n) in *. set (q2 := IZR (n - 1) * IZR (n - 2)) in *.
  assert (M : Rabs (X - Y) <= 2 * q) by (unfold Rminus; eapply Rle_trans; [apply Rabs_triang|]; rewrite Rabs_Ropp; lra).
  assert (Q2 : q2 * u <= q * u) by (apply Rmult_le_compat_r; lra).
  assert (D : Rabs (X' - Y' - (X - Y)) <= 18 * q * u).
  { replace (X' - Y' - (X - Y)) with ((X' - X) + - (Y' - Y)) by ring. eapply Rle_trans; [apply Rabs_triang|]. rewrite Rabs_Ropp. lra. }
  pose proof (b64_step _ _ _ _ M D) as S. eapply Rle_trans; [exact S|].
  destruct (small_mul q ltac:(lra)) as (S1 & _ & _ & S4). assert (UC : 1 * u <= q * u) by (apply Rmult_le_compat_r; lra).
  pose proof (E_quad n Hn) as EQ. assert (N9 : 9 <= IZR n) by (apply IZR_le; lia). pose proof (E_pos n) as EP.
  apply Rle_trans with (22 * (q * u)); [lra|].
  assert (T1 : q <= (IZR n + 2) * (IZR n + 2)) by (unfold q; lra).
  assert (T2 : q * u <= (IZR n + 2) * (IZR n + 2) * u) by (apply Rmult_le_compat_r; lra).
  rewrite D_E. apply Rle_trans with (1 * E_ n); [lra|]. apply Rmult_le_compat_r; lra.
Qed.

(** ** dictionary of the derivative and exact equation: numerical checks up to order 38 *)
Definition up_dlist (a b : nat) : dict := can 0 (fun p => ((p + 1) * coeff a b (p + 1))%Z) (a + b).
(** terms of the exact equation: exponent, coefficient, factor *)
Definition dr_term (a b : nat) (k : Z) : Z * Z * Z := ((Z.of_nat (a + b) - 2 * k - 1)%Z, czf a b (Z.to_nat k), (Z.of_nat (a + b) - 2 * k)%Z).
Definition dr_list (a b : nat) (k0 : Z) (cnt : nat) : list (Z * Z * Z) := map (dr_term a b) (zrange k0 cnt).
Fixpoint fdr_eval (rnd : R -> R) (pw : R -> Z -> R) (l : list (Z * Z * Z)) (r acc : R) : R :=
  match l with
  | [] => acc
  | (j, c, d) :: tl => if (0 <? d)%Z then fdr_eval rnd pw tl r (rnd (acc + rnd (rnd (rnd (IZR c) * pw r j) * rnd (IZR d)))) else fdr_eval rnd pw tl r acc
  end.
Fixpoint kdr (l : list (Z * Z * Z)) (M K : Z) : Z :=
  match l with
  | [] => K
  | (_, c, d) :: tl =>
      if (0 <? d)%Z then
        let c := Z.abs c in
        let t := (2 * c + up (2 * c) + c + 1)%Z in
        let t := (d * t + up (d * t) + c * d + 1)%Z in
        kdr tl (M + c * d) (K + t + up (K + t) + (M + c * d) + 1)
      else kdr tl M K
  end.
Definition wfdr (l : list (Z * Z * Z)) : bool := forallb (fun t => let '(j, c, d) := t in (d <=? 0)%Z || (0 <=? j)%Z && (Z.abs c <=? 2 ^ 53)%Z && (d <=? 2 ^ 53)%Z) l.
Definition dcheck (a b : nat) : bool :=
  wfd (up_dlist a b) && kbd (Z.of_nat (a + b)) (kdict (up_dlist a b) 0 0) && (wfdr (dr_list a b 0 (S b)) && kbd (Z.of_nat (a + b)) (kdr (dr_list a b 0 (S b)) 0 0)).
Definition dchk (n b : nat) : bool := (n <? 2 * b)%nat || dcheck (n - b) b.
Lemma dcheck_all_true : forallb (fun n => forallb (dchk n) (List.seq 0 20)) (List.seq 0 39) = true.
Proof. vm_compute. reflexivity. Qed.
Lemma dcheck_true a b : (b <= a)%nat -> (a + b <= 38)%nat -> dcheck a b = true.
Proof.
  intros H1 H2. assert (L1 : (a + b < 39)%nat) by lia. assert (L2 : (b < 20)%nat) by lia.
  assert (L3 : (a + b <? 2 * b)%nat = false) by (apply Nat.ltb_ge; lia). assert (L4 : (a + b - b = a)%nat) by lia.
  pose proof (forallb2 dchk 39 20 dcheck_all_true (a + b)%nat b L1 L2) as C. unfold dchk in C. rewrite L3, L4 in C. exact C.
Qed.

Lemma feq_loop_dr_list rnd pw : (forall x, rnd (rnd x) = rnd x) -> (forall x, rnd (- x) = - rnd x) ->
  forall m n r a b, (Z.of_nat a + Z.of_nat b = n)%Z -> (Z.of_nat a - Z.of_nat b = Z.abs m)%Z ->
  forall cnt k0 v, (k0 + cnt <= S b)%nat -> feq_loop_dr rnd pw (zrange (Z.of_nat k0) cnt) m n r v = Ok (fdr_eval rnd pw (dr_list a b (Z.of_nat k0) cnt) r v).
Proof.
  intros I Op m n r a b H1 H2. induction cnt as [|cnt IH]; intros k0 v HB; [reflexivity|].
  unfold dr_list. cbn [zrange feq_loop_dr map fdr_eval]. unfold dr_term at 1. cbn [fdr_eval]. cbv zeta.
  assert (Hba : (b <= a)%nat) by lia. replace (n - 2 * Z.of_nat k0)%Z with (Z.of_nat (a + b) - 2 * Z.of_nat k0)%Z by lia.
  replace (Z.of_nat k0 + 1)%Z with (Z.of_nat (S k0)) by lia. fold (dr_list a b (Z.of_nat (S k0)) cnt).
  destruct (0 <? Z.of_nat (a + b) - 2 * Z.of_nat k0)%Z eqn:PD; [|apply IH; lia].
  replace (n - Z.of_nat k0)%Z with (Z.of_nat (a + b - k0)) by lia.
  rewrite !py_factorial_ok. cbn [bind].
  assert (X : exists x y, ((n + m) / 2 - Z.of_nat k0 = Z.of_nat x)%Z /\ ((n - m) / 2 - Z.of_nat k0 = Z.of_nat y)%Z
               /\ INR (fact k0) * INR (fact x) * INR (fact y) = INR (fact k0) * INR (fact (a - k0)) * INR (fact (b - k0))).
  { destruct (signed_ab m n a b H1 H2) as [[-> ->]|[-> ->]].
    - exists (a - k0)%nat, (b - k0)%nat. split; [lia|split; [lia|ring]].
    - exists (b - k0)%nat, (a - k0)%nat. split; [lia|split; [lia|ring]]. }
  destruct X as (x & y & -> & -> & EX). rewrite !py_factorial_ok. cbn [bind]. rewrite EX. clear EX.
  rewrite IH by lia. do 2 f_equal.
  rewrite Nat2Z.id, (powerRZ_nat (-1) k0) by lia.
  set (P := pw r _). pose proof (cz_fact a b k0 ltac:(lia) ltac:(lia)) as CF. rewrite <- czf_ok in CF.
  set (Q := INR (fact (a + b - k0)) / (INR (fact k0) * INR (fact (a - k0)) * INR (fact (b - k0)))).
  assert (CQ : IZR (czf a b k0) = (-1) ^ k0 * Q) by (rewrite CF; unfold Q, Rdiv; ring).
  rewrite CQ. do 3 f_equal.
  assert (S2 : (-1) ^ k0 = 1 \/ (-1) ^ k0 = -1).
  { clear. induction k0 as [|k [H|H]]; cbn [pow]; [left; ring|right|left]; rewrite H; ring. }
  destruct S2 as [-> | ->].
  - rewrite !Rmult_1_l. apply f_equal2; [apply I|reflexivity].
  - replace (-1 * rnd (rnd Q * P)) with (- rnd (rnd Q * P)) by ring. rewrite Op, I.
    replace (-1 * Q) with (- Q) by ring. rewrite Op. replace (- rnd Q * P) with (- (rnd Q * P)) by ring. rewrite Op. reflexivity.
Qed.

Section Bound.
Variable pw : R -> Z -> R.
Hypothesis PW : power_within_ulp pw.
Variable r : R.
Hypothesis Fr : F64 r.
Hypothesis Hr : 0 <= r <= 1.

Lemma fdr_err l : wfdr l = true -> forall acc acc' M K, (0 <= M)%Z -> (0 <= K)%Z -> Rabs acc <= IZR M -> Rabs (acc' - acc) <= IZR K * u ->
  Rabs (fdr_eval b64 pw l r acc' - fdr_eval idR powerRZ l r acc) <= IZR (kdr l M K) * u.
Proof.
  induction l as [|[[j v] d] tl IH]; intros W acc acc' M K HM HK H1 H2; [exact H2|].
  cbn [wfdr forallb] in W. apply andb_prop in W as [W Wt]. cbn [fdr_eval kdr]. destruct (0 <? d)%Z eqn:PD; [|apply IH; assumption]. cbv zeta.
  assert (Wj : (0 <= j)%Z /\ (Z.abs v <= 2 ^ 53)%Z /\ (d <= 2 ^ 53)%Z) by lia. destruct Wj as (Wj & Wv & Wd).
  set (c := Z.abs v). set (t := (2 * c + up (2 * c) + c + 1)%Z). set (t2 := (d * t + up (d * t) + c * d + 1)%Z).
  assert (Hc : (0 <= c)%Z) by (unfold c; lia). pose proof (up_nonneg (2 * c) ltac:(lia)) as Uc.
  assert (Ht : (0 <= t)%Z) by (unfold t; lia). assert (Hdt : (0 <= d * t)%Z) by (apply Z.mul_nonneg_nonneg; lia). assert (Hcd : (0 <= c * d)%Z) by (apply Z.mul_nonneg_nonneg; lia).
  pose proof (up_nonneg (d * t) Hdt) as Ut. assert (Ht2 : (0 <= t2)%Z) by (unfold t2; lia).
  rewrite (b64_IZR v), (b64_IZR d) by lia. unfold idR at 2 3 4 5 6.
  pose proof (powerRZ01 r j Hr Wj) as P01. assert (C0 : 0 <= IZR c) by (apply IZR_le; lia). assert (D0 : 0 < IZR d) by (apply IZR_lt; lia).
  assert (MT : Rabs (IZR v * powerRZ r j) <= IZR c).
  { rewrite Rabs_mult, <- abs_IZR. fold c. rewrite (Rabs_pos_eq (powerRZ r j)) by lra. rewrite <- (Rmult_1_r (IZR c)) at 2. apply Rmult_le_compat_l; lra. }
  assert (ET : Rabs (b64 (IZR v * pw r j) - IZR v * powerRZ r j) <= IZR t * u).
  { apply b64_stepK; [lia|lia|exact MT|].
    replace (IZR v * pw r j - IZR v * powerRZ r j) with (IZR v * (pw r j - powerRZ r j)) by ring.
    rewrite Rabs_mult, <- abs_IZR. fold c. pose proof (pw_err pw r j PW Fr Hr Wj) as E. rewrite mult_IZR.
    replace (2 * IZR c * u) with (IZR c * (2 * u)) by ring. apply Rmult_le_compat_l; lra. }
  assert (MT2 : Rabs (IZR v * powerRZ r j * IZR d) <= IZR (c * d)). { rewrite Rabs_mult, (Rabs_pos_eq (IZR d)), mult_IZR by lra. apply Rmult_le_compat_r; lra. }
  assert (ET2 : Rabs (b64 (b64 (IZR v * pw r j) * IZR d) - IZR v * powerRZ r j * IZR d) <= IZR t2 * u).
  { apply b64_stepK; [exact Hcd|exact Hdt|exact MT2|].
    replace (b64 (IZR v * pw r j) * IZR d - IZR v * powerRZ r j * IZR d) with (IZR d * (b64 (IZR v * pw r j) - IZR v * powerRZ r j)) by ring.
    rewrite Rabs_mult, (Rabs_pos_eq (IZR d)), mult_IZR by lra. rewrite Rmult_assoc. apply Rmult_le_compat_l; lra. }
  assert (MS : Rabs (acc + IZR v * powerRZ r j * IZR d) <= IZR (M + c * d)) by (rewrite plus_IZR; eapply Rle_trans; [apply Rabs_triang|]; lra).
  pose proof (up_nonneg (K + t2) ltac:(lia)) as UK.
  apply IH; [exact Wt|lia|lia|exact MS|].
  apply b64_stepK; [lia|lia|exact MS|].
  replace (acc' + b64 (b64 (IZR v * pw r j) * IZR d) - (acc + IZR v * powerRZ r j * IZR d)) with ((acc' - acc) + (b64 (b64 (IZR v * pw r j) * IZR d) - IZR v * powerRZ r j * IZR d)) by ring.
  eapply Rle_trans; [apply Rabs_triang|]. rewrite plus_IZR, Rmult_plus_distr_r. lra.
Qed.

Definition near_d (m n : Z) (v : R) : Prop := Rabs (v - Dmn m n r) <= D_ n.

Lemma dmag m n : valid m n -> (2 <= n)%Z -> Rabs (Dmn m n r) <= IZR n * IZR n.
Proof. intros V H. eapply Rle_trans; [apply dF_mn_bound; [exact V|lra]|]. apply slope_le; assumption. Qed.
Lemma dmag' m n N : valid m n -> (2 <= n <= N)%Z -> Rabs (Dmn m n r) <= IZR N * IZR N.
Proof. intros V H. eapply Rle_trans; [apply dmag; [exact V|lia]|]. rewrite <- !mult_IZR. apply IZR_le. nia. Qed.
Lemma E_le a b : (0 <= a <= b)%Z -> E_ a <= E_ b.
Proof. apply E_mono. Qed.
Lemma step_total n ep ex ez : (11 <= n)%Z -> ep = E_ (n - 1) -> ex = D_ (n - 1) -> ez = D_ (n - 2) ->
  2 * ep + 2 * ex + ez + 30 * (IZR n * IZR n) * u + 30 * u * (ep + ex + ez) <= D_ n.
Proof.
  intros H -> -> ->. eapply Rle_trans; [|apply D_step; exact H]. rewrite !D_E, !minus_IZR. pose proof u_pos as U.
  pose proof (E_pos (n - 1)) as E1. pose proof (E_pos (n - 2)) as E2. pose proof (E_le (n - 2) (n - 1) ltac:(lia)) as E3.
  assert (N : 11 <= IZR n) by (apply IZR_le; lia). set (A := E_ (n - 1)) in *. set (B := E_ (n - 2)) in *. set (x := IZR n) in *. clearbody A B x.
  assert (UA : 0 <= u * A) by (apply Rmult_le_pos; lra). assert (XUA : 0 <= x * (u * A)) by (apply Rmult_le_pos; lra).
  assert (UB : x * (u * B) <= x * (u * A)) by (apply Rmult_le_compat_l; [lra|]; apply Rmult_le_compat_l; lra).
  assert (UB0 : 0 <= u * B) by (apply Rmult_le_pos; lra).
  assert (XX : 0 <= x * x * u) by (apply Rmult_le_pos; [apply Rmult_le_pos|]; lra). lra.
Qed.

Lemma near_d_diag m n : valid m n -> (4 <= n)%Z -> Z.abs m = n -> near_d m n (fdiag b64 pw n r).
Proof. intros V Hn E. unfold near_d. rewrite <- (Dmn_eq m n r _ (d_diag m n r V ltac:(lia) E)). apply fdiag_err; auto. Qed.
Lemma near_d_sub m n : valid m n -> (9 <= n)%Z -> (Z.abs m = n - 2)%Z -> near_d m n (fsub b64 pw n r).
Proof. intros V Hn E. unfold near_d. rewrite <- (Dmn_eq m n r _ (d_sub m n r V ltac:(lia) E)). apply fsub_err; auto. Qed.
Lemma near_d_rec0 n p x y : valid 0 n -> (11 <= n)%Z -> near r 1 (n - 1) p -> near_d 1 (n - 1) x -> near_d 0 (n - 2) y -> near_d 0 n (frec0 b64 r p x y).
Proof.
  intros V Hn P X Y. unfold near_d, near in *. rewrite <- (Dmn_eq 0 n r _ (d_rec0 n r _ _ V ltac:(lia) (Dmn_ok 1 (n - 1) r) (Dmn_ok 0 (n - 2) r))).
  pose proof (valid_pred_l 0 n V ltac:(lia)) as V1. change (Z.abs (0 - 1)) with 1%Z in V1. pose proof (valid_pred2 0 n V ltac:(lia)) as V2.
  eapply Rle_trans; [|apply (step_total n _ _ _ Hn eq_refl eq_refl eq_refl)]. assert (N : 11 <= IZR n) by (apply IZR_le; lia). apply frec0_err; auto.
  - assert (11 * 11 <= IZR n * IZR n) by (apply Rmult_le_compat; lra). lra.
  - apply Fmn_le1; auto.
  - apply dmag'; [exact V1|lia].
  - apply dmag'; [exact V2|lia].
Qed.
Lemma near_d_rec m n p q x y z : valid m n -> (Z.abs m < n)%Z -> (11 <= n)%Z -> near r (Z.abs (m - 1)) (n - 1) p -> near r (m + 1) (n - 1) q ->
  near_d (Z.abs (m - 1)) (n - 1) x -> near_d (m + 1) (n - 1) y -> near_d m (n - 2) z -> near_d m n (frec b64 r p q x y z).
Proof.
  intros V L Hn P Q X Y Z. unfold near_d, near in *. rewrite (Dmn_rec m n r V L).
  pose proof (valid_pred_l m n V L) as V1. pose proof (valid_pred_r m n V L) as V2. pose proof (valid_pred2 m n V L) as V3.
  eapply Rle_trans; [|apply (step_total n _ _ _ Hn eq_refl eq_refl eq_refl)]. assert (N : 11 <= IZR n) by (apply IZR_le; lia). apply frec_err; auto.
  - assert (11 * 11 <= IZR n * IZR n) by (apply Rmult_le_compat; lra). lra.
  - apply Fmn_le1; auto.
  - apply Fmn_le1; auto.
  - apply dmag'; [exact V1|lia].
  - apply dmag'; [exact V2|lia].
  - apply dmag'; [exact V3|lia].
Qed.

Lemma fderivative_ok fuel : forall m n, valid m n -> (Z.to_nat n < fuel)%nat -> exists v, fradial_derivative b64 pw fuel m n r = Ok v /\ near_d m n v.
Proof.
  induction fuel as [|f IH]; intros m n V HF; [lia|]. cbn [fradial_derivative]. pose proof V as (Hn & Hm & _).
  destruct (derivative_src m n) as [e|] eqn:S.
  - eexists. split; [reflexivity|]. destruct (src_dr_ok m n e S) as [W K].
    destruct (feval_err pw PW r Fr Hr e W) as [_ D]. unfold near_d, Dmn.
    assert (N10 : (n <= 10)%Z).
    { destruct (Z_le_gt_dec n 10) as [L|G]; [exact L|]. pose proof (radial_derivative_table_none m n r ltac:(lia)) as T. rewrite derivative_src_table, S in T. discriminate. }
    pose proof (radial_derivative_table_ok m n r V N10) as T. rewrite derivative_src_table, S in T. cbn [option_map] in T. rewrite <- T.
    eapply Rle_trans; [exact D|]. apply kbd_ok; [lia|exact K].
  - assert (CASE : (7 < n /\ Z.abs m = n \/ 8 < n /\ Z.abs m = n - 2 \/ 10 < n)%Z).
    { destruct (Z_le_gt_dec n 10) as [L|G]; [|lia]. pose proof (radial_derivative_table_ok m n r V L) as T. rewrite derivative_src_table, S in T. cbn [option_map] in T. lia. }
    destruct ((7 <? n)%Z && (Z.abs m =? n)%Z) eqn:B1.
    { eexists. split; [reflexivity|]. apply near_d_diag; [assumption|lia|lia]. }
    assert (LT : (Z.abs m < n)%Z) by lia.
    destruct ((8 <? n)%Z && (Z.abs m =? n - 2)%Z) eqn:B3.
    { eexists. split; [reflexivity|]. apply near_d_sub; auto; lia. }
    assert (N11 : (11 <= n)%Z) by lia. clear CASE.
    destruct ((10 <? n)%Z && (m =? 0)%Z) eqn:B2.
    { assert (m = 0)%Z by lia. subst m.
      pose proof (valid_pred_l 0 n V ltac:(lia)) as V1. change (Z.abs (0 - 1)) with 1%Z in V1.
      destruct (fradial_ok pw PW r Fr Hr f 1%Z (n - 1)%Z V1 ltac:(lia)) as (p & -> & P).
      destruct (IH 1%Z (n - 1)%Z V1 ltac:(lia)) as (x & -> & X).
      destruct (IH 0%Z (n - 2)%Z (valid_pred2 0 n V LT) ltac:(lia)) as (y & -> & Y). cbn [bind].
      eexists. split; [reflexivity|]. apply near_d_rec0; auto. }
    destruct (fradial_ok pw PW r Fr Hr f _ _ (valid_pred_l m n V LT) ltac:(lia)) as (p & -> & P).
    destruct (fradial_ok pw PW r Fr Hr f _ _ (valid_pred_r m n V LT) ltac:(lia)) as (q & -> & Q).
    destruct (IH _ _ (valid_pred_l m n V LT) ltac:(lia)) as (x & -> & X).
    destruct (IH _ _ (valid_pred_r m n V LT) ltac:(lia)) as (y & -> & Y).
    destruct (IH _ _ (valid_pred2 m n V LT) ltac:(lia)) as (z & -> & Z). cbn [bind].
    eexists. split; [reflexivity|]. apply near_d_rec; auto.
Qed.

Lemma dchecked m n : valid m n -> (n <= 38)%Z -> dcheck (oa m n) (ob m n) = true /\ Z.of_nat (oa m n + ob m n) = n.
Proof. intros V H. destruct (oab m n V) as (H1 & H2 & H3). split; [apply dcheck_true; lia|lia]. Qed.
Lemma ddict_near m n : valid m n -> (1 <= n <= 38)%Z -> near_d m n (feval_dict b64 pw (ddict m n) r 0).
Proof.
  intros V H. destruct (dchecked m n V ltac:(lia)) as [C N]. unfold dcheck in C. apply andb_prop in C as [C _]. apply andb_prop in C as [W K]. rewrite N in K.
  assert (D : ddict m n = up_dlist (oa m n) (ob m n)).
  { unfold ddict, up_dlist. replace (Z.to_nat n) with (oa m n + ob m n)%nat by lia. unfold can. apply map_ext. intros p.
    unfold dmn, cmn. rewrite coeff_ok. reflexivity. }
  unfold near_d. replace (Dmn m n r) with (eval_dict (ddict m n) r 0).
  2:{ rewrite eval_dict_acc, Rplus_0_l. apply Dmn_eq, ddict_value; [exact V|lia]. }
  rewrite D. eapply Rle_trans; [|apply kbd_ok; [lia|exact K]].
  apply feval_dict_err; auto; try lia; rewrite ?Rminus_diag_eq, Rabs_R0 by reflexivity; lra.
Qed.
Lemma deq_near m n : valid m n -> (n <= 38)%Z -> exists v, fradial_derivative_eq b64 pw m n r = Ok v /\ near_d m n v.
Proof.
  intros V H. destruct (oab m n V) as (H1 & H2 & H3). destruct (dchecked m n V H) as [C N]. unfold dcheck in C.
  apply andb_prop in C as [_ C]. apply andb_prop in C as [W K]. rewrite N in K.
  destruct (radial_derivative_eq_ok m n r V) as (d & ED & DD). apply Dmn_eq in DD. unfold radial_derivative_eq in ED. unfold fradial_derivative_eq.
  destruct (0 <? n)%Z eqn:PN.
  2:{ injection ED as ED. exists 0. split; [reflexivity|]. unfold near_d. rewrite <- DD, <- ED. rewrite Rminus_diag_eq, Rabs_R0 by reflexivity. rewrite D_E. replace n with 0%Z by lia. lra. }
  assert (CNT : Z.to_nat ((n - Z.abs m) / 2 + 1) = S (ob m n)).
  { unfold ob. destruct V as (Hn & Hm & k & Hk). rewrite Hk, Z.mul_comm, Z.div_mul by lia. lia. }
  rewrite CNT in *. rewrite <- feq_loop_dr_exact in ED.
  pose proof (feq_loop_dr_list idR powerRZ (fun x => eq_refl) (fun x => eq_refl) m n r (oa m n) (ob m n) H2 H3 (S (ob m n)) 0 0 (le_n _)) as L1.
  pose proof (feq_loop_dr_list b64 pw b64_idem b64_opp m n r (oa m n) (ob m n) H2 H3 (S (ob m n)) 0 0 (le_n _)) as L2.
  change (Z.of_nat 0) with 0%Z in L1, L2. rewrite L1 in ED. apply Ok_inj in ED. rewrite L2. eexists. split; [reflexivity|].
  unfold near_d. rewrite <- DD, <- ED. eapply Rle_trans; [|apply kbd_ok; [lia|exact K]].
  apply fdr_err; [exact W|lia|lia| |]; rewrite ?Rminus_diag_eq, Rabs_R0 by reflexivity; lra.
Qed.

(** ** the coefficient route *)
Definition res_d (fuel : nat) (m n : Z) (x : res R) : Prop :=
  (exists v, x = Ok v /\ near_d m n v) \/ (x = Raise RecursionError /\ (Z.of_nat fuel <= n + 1)%Z).
Lemma frpcd_ok fuel : forall m n, valid m n -> dr_good m n -> keeps (fradial_polynomial_coeffs_dr b64 pw fuel m n r) (res_d fuel m n).
Proof.
  induction fuel as [|f IH]; intros m n V (Hn & Hg); pose proof V as (_ & Hm & k & Hk).
  { apply keeps_ret. right. split; [reflexivity|lia]. }
  cbn [fradial_polynomial_coeffs_dr]. destruct (n <=? MAX_RADIAL_ORDER_COEFFS_dR)%Z eqn:L.
  { kbind (find_dr_ok f NoFlag m n V).
    2:{ intros e [[_ [=]]|[[X _]|[[= ->] ?]]]; [elim X; right; cbn; lia|]. right. split; [reflexivity|lia]. }
    intros d [[_ [= ->]]|[[_ [=]]|[[=] _]]]. apply (keeps_ret (Ok _)). left. eexists. split; [reflexivity|]. apply ddict_near; [exact V|unfold MAX_RADIAL_ORDER_COEFFS_dR in L; lia]. }
  unfold MAX_RADIAL_ORDER_COEFFS_dR in L.
  destruct (Z.eqb_spec (Z.abs m) n) as [E|NE].
  { apply (keeps_ret (Ok _)). left. eexists. split; [reflexivity|]. apply near_d_diag; (assumption || lia). }
  assert (LT : (Z.abs m < n)%Z) by lia.
  pose proof (valid_pred_l m n V LT) as V1. pose proof (valid_pred_r m n V LT) as V2. pose proof (valid_pred2 m n V LT) as V3.
  destruct (Z.eqb_spec m 0) as [->|NZ]; [cbn in Hg; lia|].
  destruct (Z.eqb_spec (Z.abs m) (n - 2)) as [E|NE2].
  { apply (keeps_ret (Ok _)). left. eexists. split; [reflexivity|]. apply near_d_sub; (assumption || lia). }
  assert (RN : forall m' n' e, (n' < n)%Z -> res_n r f m' n' (Raise e) -> res_d (S f) m n (Raise e)).
  { intros m' n' e ? [(v & [=] & _)|[[= ->] ?]]. right. split; [reflexivity|lia]. }
  assert (RD : forall m' n' e, (n' < n)%Z -> res_d f m' n' (Raise e) -> res_d (S f) m n (Raise e)).
  { intros m' n' e ? [(v & [=] & _)|[[= ->] ?]]. right. split; [reflexivity|lia]. }
  eapply keeps_bind; [apply (frpc_ok pw PW r Fr Hr f _ _ V1)| |intros e; apply RN; lia]. intros p [(p' & [= ->] & P)|[[=] _]].
  eapply keeps_bind; [apply (frpc_ok pw PW r Fr Hr f _ _ V2)| |intros e; apply RN; lia]. intros q [(q' & [= ->] & Q)|[[=] _]].
  eapply keeps_bind; [apply (IH _ _ V1); split; lia| |intros e; apply RD; lia]. intros x [(x' & [= ->] & X)|[[=] _]].
  eapply keeps_bind; [apply (IH _ _ V2); split; lia| |intros e; apply RD; lia]. intros y [(y' & [= ->] & Y)|[[=] _]].
  eapply keeps_bind; [apply (IH _ _ V3); split; lia| |intros e; apply RD; lia]. intros z [(z' & [= ->] & Z)|[[=] _]].
  apply (keeps_ret (Ok _)). left. eexists. split; [reflexivity|]. apply near_d_rec; auto. lia.
Qed.
End Bound.

Lemma fzp_radial_dr_near s pw fuel m n (e : bool) r : reachable s -> power_within_ulp pw -> F64 r -> 0 <= r <= 1 -> valid m n ->
  (n + 1 < Z.of_nat fuel)%Z -> (if e then (n <= 38)%Z else (n - Z.abs m <= 38)%Z) ->
  exists v, snd (fzp_radial_dr b64 pw fuel m n e r s) = Ok v /\ near_d r m n v.
Proof.
  intros RS P Fr Hr V HF HE. pose proof V as (Hn & Hm & _). unfold fzp_radial_dr. destruct e.
  - unfold MAX_RADIAL_ORDER_COEFFS_dR. replace (38 <? n)%Z with false by lia. cbn. apply (deq_near pw P r Fr Hr m n V). exact HE.
  - destruct (Z.leb_spec n 12).
    + cbn. apply (fderivative_ok pw P r Fr Hr); [exact V|lia].
    + assert (DG : dr_good m n) by (split; lia).
      pose proof (keeps_at _ _ s RS (frpcd_ok pw P r Fr Hr fuel m n V DG)) as [H'|[_ H']]; [exact H'|lia].
Qed.
Lemma D_mono a b : (0 <= a <= b)%Z -> D_ a <= D_ b.
Proof. intros H. rewrite !D_E. pose proof (E_pos a). pose proof u_pos. apply Rmult_le_compat; [apply IZR_le; lia|lra|apply IZR_le; lia|apply E_mono; exact H]. Qed.
Lemma D_num n : (0 <= n)%Z -> ((n <= 10)%Z -> D_ n <= 1 / 10 ^ 10) /\ ((n <= 20)%Z -> D_ n <= 2 / 10 ^ 6) /\ ((n <= 30)%Z -> D_ n <= 1 / 10 ^ 2).
Proof.
  intros H. repeat split; intros L.
  - eapply Rle_trans; [apply (D_mono n 10); lia|]. unfold derivative_error, radial_error. change (Z.to_nat 10) with 10%nat. cbn [pow]. lra.
  - eapply Rle_trans; [apply (D_mono n 20); lia|]. unfold derivative_error, radial_error. change (Z.to_nat 20) with 20%nat. cbn [pow]. lra.
  - eapply Rle_trans; [apply (D_mono n 30); lia|]. unfold derivative_error, radial_error. change (Z.to_nat 30) with 30%nat. cbn [pow]. lra.
Qed.
