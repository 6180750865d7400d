(** Error bound of radial() and polynomial_value() in binary64 (helper lemmas for C57). *)
From Coq Require Import Reals Lra Lia Arith Psatz.
From Flocq Require Import Core.
From Verif Require Import Py SpecIndex SpecRadial RadialMath M_Radial M_Coeffs SpecCoeffs L_Dict L_Coeffs L_Cache L_Radial L_Bound L_Value L_CoeffVal
  L_Polar SpecFloat M_Float L_Float L_Float2.
Local Open Scope R_scope.

Lemma b64_idem x : b64 (b64 x) = b64 x.
Proof. apply b64_id, b64_F. Qed.
Lemma b64_opp x : b64 (- x) = - b64 x.
Proof. unfold b64. apply round_NE_opp. Qed.
Lemma b64_0 : b64 0 = 0.
Proof. unfold b64. apply round_0. apply valid_rnd_N. Qed.

(** ** the recurrence: errors e1 of the two neighbours, e2 of the order below *)
Lemma rec_err r x y z x' y' z' e1 e2 : 0 <= r <= 1 -> Rabs x <= 1 -> Rabs y <= 1 -> Rabs z <= 1 ->
  Rabs (x' - x) <= e1 -> Rabs (y' - y) <= e1 -> Rabs (z' - z) <= e2 -> 
  Rabs (b64 (b64 (r * b64 (x' + y')) - z') - (r * (x + y) - z)) <= ((2 * e1 * (1 + u) + 3 * u) * (1 + u) + 3 * u + e2) * (1 + u) + 4 * u.
Proof.
  intros Hr Hx Hy Hz Ex Ey Ez. pose proof u_pos as U.
  assert (S0 : Rabs (x + y) <= 2) by (eapply Rle_trans; [apply Rabs_triang|]; lra).
  assert (S1 : Rabs (x' + y' - (x + y)) <= 2 * e1).
  { replace (x' + y' - (x + y)) with ((x' - x) + (y' - y)) by ring. eapply Rle_trans; [apply Rabs_triang|]. lra. }
  pose proof (b64_step _ _ _ _ S0 S1) as S2.
  assert (P0 : Rabs (r * (x + y)) <= 2). { rewrite Rabs_mult, (Rabs_pos_eq r) by lra. pose proof (Rabs_pos (x + y)). nra. }
  assert (P1 : Rabs (r * b64 (x' + y') - r * (x + y)) <= 2 * e1 * (1 + u) + 3 * u).
  { replace (r * b64 (x' + y') - r * (x + y)) with (r * (b64 (x' + y') - (x + y))) by ring.
    rewrite Rabs_mult, (Rabs_pos_eq r) by lra. pose proof (Rabs_pos (b64 (x' + y') - (x + y))). nra. }
  pose proof (b64_step _ _ _ _ P0 P1) as P2.
  assert (Q0 : Rabs (r * (x + y) - z) <= 3). { unfold Rminus. eapply Rle_trans; [apply Rabs_triang|]. rewrite Rabs_Ropp. lra. }
  assert (Q1 : Rabs (b64 (r * b64 (x' + y')) - z' - (r * (x + y) - z)) <= (2 * e1 * (1 + u) + 3 * u) * (1 + u) + 3 * u + e2).
  { replace (b64 (r * b64 (x' + y')) - z' - (r * (x + y) - z)) with ((b64 (r * b64 (x' + y')) - r * (x + y)) + - (z' - z)) by ring.
    eapply Rle_trans; [apply Rabs_triang|]. rewrite Rabs_Ropp. lra. }
  pose proof (b64_step _ _ _ _ Q0 Q1) as Q2. lra.
Qed.
Lemma rec0_err r x z x' z' e1 e2 : F64 r -> 0 <= r <= 1 -> Rabs x <= 1 -> Rabs z <= 1 ->
  Rabs (x' - x) <= e1 -> Rabs (z' - z) <= e2 -> 
  Rabs (b64 (b64 (b64 (2 * r) * x') - z') - (2 * r * x - z)) <= ((2 * e1 * (1 + u) + 3 * u) * (1 + u) + 3 * u + e2) * (1 + u) + 4 * u.
Proof.
  intros Fr Hr Hx Hz Ex Ez. pose proof u_pos as U. pose proof (Rabs_pos (x' - x)) as E0.
  rewrite (b64_id (2 * r)) by (apply F64_double, Fr).
  assert (P0 : Rabs (2 * r * x) <= 2). { rewrite !Rabs_mult, (Rabs_pos_eq r), (Rabs_pos_eq 2) by lra. pose proof (Rabs_pos x). nra. }
  assert (P1 : Rabs (2 * r * x' - 2 * r * x) <= 2 * e1).
  { replace (2 * r * x' - 2 * r * x) with (2 * r * (x' - x)) by ring.
    rewrite !Rabs_mult, (Rabs_pos_eq r), (Rabs_pos_eq 2) by lra. nra. }
  pose proof (b64_step _ _ _ _ P0 P1) as P2.
  assert (Q0 : Rabs (2 * r * x - z) <= 3). { unfold Rminus. eapply Rle_trans; [apply Rabs_triang|]. rewrite Rabs_Ropp. lra. }
  assert (Q1 : Rabs (b64 (2 * r * x') - z' - (2 * r * x - z)) <= 2 * e1 * (1 + u) + 3 * u + e2).
  { replace (b64 (2 * r * x') - z' - (2 * r * x - z)) with ((b64 (2 * r * x') - 2 * r * x) + - (z' - z)) by ring.
    eapply Rle_trans; [apply Rabs_triang|]. rewrite Rabs_Ropp. lra. }
  pose proof (b64_step _ _ _ _ Q0 Q1) as Q2.
  assert (0 <= e1) by lra. assert (0 <= e1 * u) by nra. nra.
Qed.
(** 2.42 exceeds the growth rate of the recurrence *)
Lemma rec_E n : (11 <= n)%Z ->
  ((2 * E_ (n - 1) * (1 + u) + 3 * u) * (1 + u) + 3 * u + E_ (n - 2)) * (1 + u) + 4 * u <= E_ n.
Proof.
  intros H. pose proof u_pos as U. pose proof u_small as US.
  pose proof (E_9 (n - 2) ltac:(lia)) as B.
  pose proof (E_succ (n - 2) ltac:(lia)) as E1. replace (n - 2 + 1)%Z with (n - 1)%Z in E1 by lia.
  pose proof (E_succ (n - 1) ltac:(lia)) as E2. replace (n - 1 + 1)%Z with n in E2 by lia.
  rewrite E2, E1. set (A := E_ (n - 2)) in *. clearbody A. clear E1 E2 H.
  assert (T : u * u <= u / 1000000) by nra.
  assert (T3 : u * u * u <= u / 1000000) by nra.
  assert (A0 : 0 <= A) by lra.
  assert (TA : A * u <= A / 1000000) by nra. assert (TA2 : A * u * u <= A / 1000000) by nra. assert (TA3 : A * u * u * u <= A / 1000000) by nra.
  lra.
Qed.
(** direct formula for |m| = n - 2 *)
Lemma sub_err pw r n : power_within_ulp pw -> F64 r -> 0 <= r <= 1 -> (11 <= n)%Z ->
  Rabs (b64 (b64 (b64 (IZR n) * pw r n) - b64 (b64 (IZR (n - 1)) * pw r (n - 2)%Z)) - (IZR n * powerRZ r n - IZR (n - 1) * powerRZ r (n - 2))) <= E_ n.
Proof.
  intros P Fr Hr Hn. pose proof u_pos as U. pose proof u_small as US.
  assert (T : forall z k, (1 <= z)%Z -> (0 <= k)%Z -> Rabs (IZR z * powerRZ r k) <= IZR z /\
             Rabs (b64 (b64 (IZR z) * pw r k) - IZR z * powerRZ r k) <= 6 * IZR z * u).
  { intros z k Hz Hk. assert (Z1 : 1 <= IZR z) by (apply IZR_le; lia). pose proof (powerRZ01 r k Hr Hk) as P01.
    pose proof (pw_err pw r k P Fr Hr Hk) as PE.
    assert (M0 : Rabs (IZR z * powerRZ r k) <= IZR z) by (rewrite Rabs_mult, (Rabs_pos_eq (IZR z)), (Rabs_pos_eq (powerRZ r k)) by lra; nra).
    split; [exact M0|].
    pose proof (b64_rel (IZR z)) as B. rewrite (Rabs_pos_eq (IZR z)) in B by lra.
    set (c' := b64 (IZR z)) in *. set (p := powerRZ r k) in *. set (p' := pw r k) in *.
    assert (D : Rabs (c' * p' - IZR z * p) <= 39 / 10 * IZR z * u).
    { replace (c' * p' - IZR z * p) with (IZR z * (p' - p) + ((c' - IZR z) * p + (c' - IZR z) * (p' - p))) by ring.
      eapply Rle_trans; [apply Rabs_triang|]. eapply Rle_trans; [apply Rplus_le_compat_l, Rabs_triang|].
      rewrite !Rabs_mult, (Rabs_pos_eq (IZR z)), (Rabs_pos_eq p) by lra.
      pose proof (Rabs_pos (c' - IZR z)). pose proof (Rabs_pos (p' - p)).
      set (a := Rabs (c' - IZR z)) in *. set (b := Rabs (p' - p)) in *.
      assert (ZU : 0 <= u * (IZR z - 1)) by (apply Rmult_le_pos; lra).
      assert (a <= 3 / 2 * IZR z * u) by lra. assert (IZR z * b <= 2 * IZR z * u) by nra.
      assert (a * p <= 3 / 2 * IZR z * u) by nra. assert (a * b <= 1 / 10 * IZR z * u) by nra. lra. }
    pose proof (b64_step _ _ _ _ M0 D) as S.
    assert (ZU : 0 <= u * (IZR z - 1)) by (apply Rmult_le_pos; lra).
    assert (ZUU : IZR z * u * u <= IZR z * u * (1 / 1000000000000)) by (apply Rmult_le_compat_l; [nra|lra]). lra. }
  destruct (T n n ltac:(lia) ltac:(lia)) as [M1 T1]. destruct (T (n - 1)%Z (n - 2)%Z ltac:(lia) ltac:(lia)) as [M2 T2]. clear T.
  set (X := IZR n * powerRZ r n) in *. set (Y := IZR (n - 1) * powerRZ r (n - 2)) in *.
  set (X' := b64 (b64 (IZR n) * pw r n)) in *. set (Y' := b64 (b64 (IZR (n - 1)) * pw r (n - 2)%Z)) in *.
  assert (Z1 : IZR (n - 1) <= IZR n) by (apply IZR_le; lia). assert (Z2 : 11 <= IZR n) by (apply IZR_le; lia).
  assert (M : Rabs (X - Y) <= 2 * IZR n). { unfold Rminus. eapply Rle_trans; [apply Rabs_triang|]. rewrite Rabs_Ropp. lra. }
  assert (D : Rabs (X' - Y' - (X - Y)) <= 12 * IZR n * u).
  { replace (X' - Y' - (X - Y)) with ((X' - X) + - (Y' - Y)) by ring. eapply Rle_trans; [apply Rabs_triang|]. rewrite Rabs_Ropp. nra. }
  pose proof (b64_step _ _ _ _ M D) as S. eapply Rle_trans; [exact S|].
  (* linear against exponential *)
  assert (L : forall k, 100 * INR (k + 11) <= (242 / 100) ^ (k + 11)).
  { induction k as [|k IH]; [cbn [pow Nat.add]; rewrite INR_IZR_INZ; cbn; lra|]. cbn [Nat.add pow]. rewrite S_INR.
    assert (11 <= INR (k + 11)) by (rewrite plus_INR; pose proof (pos_INR k); replace (INR 11) with 11 by (rewrite INR_IZR_INZ; reflexivity); lra). lra. }
  specialize (L (Z.to_nat n - 11)%nat). replace (Z.to_nat n - 11 + 11)%nat with (Z.to_nat n) in L by lia.
  rewrite INR_IZR_INZ, Z2Nat.id in L by lia. rewrite E_u. set (p := (242 / 100) ^ Z.to_nat n) in *.
  assert (ZU : 0 <= u * (IZR n - 1)) by (apply Rmult_le_pos; lra).
  assert (ZUU : IZR n * u * u <= IZR n * u * (1 / 1000000000000)) by (apply Rmult_le_compat_l; [nra|lra]).
  assert (LU : u * (100 * IZR n) <= u * p) by (apply Rmult_le_compat_l; lra). lra.
Qed.

Lemma Ok_inj {A} (a b : A) : Ok a = Ok b -> a = b.
Proof. congruence. Qed.

Section Bound.
Variable pw : R -> Z -> R.
Hypothesis PW : power_within_ulp pw.
Variable r : R.
Hypothesis Fr : F64 r.
Hypothesis Hr : 0 <= r <= 1.

Lemma Fmn_le1 m n : valid m n -> Rabs (Fmn m n r) <= 1.
Proof. intros V. unfold Fmn. apply F_bound. lra. Qed.
Lemma E_2u n : 2 * u <= E_ n.
Proof. pose proof (E_pos n). pose proof u_pos. lra. Qed.

Definition near (m n : Z) (v : R) : Prop := Rabs (v - Fmn m n r) <= E_ n.

Lemma near_diag m n : valid m n -> Z.abs m = n -> near m n (pw r n).
Proof.
  intros V E. unfold near. rewrite (Fmn_diag m n r V E). eapply Rle_trans; [apply pw_err; auto; destruct V; lia|apply E_2u].
Qed.
Lemma near_rec0 n x y : valid 0 n -> (11 <= n)%Z -> near 1 (n - 1) x -> near 0 (n - 2) y -> near 0 n (b64 (b64 (b64 (2 * r) * x) - y)).
Proof.
  intros V Hn X Y. unfold near in *. rewrite (Fmn_rec0 n r V) by lia.
  pose proof (valid_pred_l 0 n V ltac:(lia)) as V1. change (Z.abs (0 - 1)) with 1%Z in V1. pose proof (valid_pred2 0 n V ltac:(lia)) as V2.
  eapply Rle_trans; [|apply rec_E; exact Hn]. apply rec0_err; auto using Fmn_le1.
Qed.
Lemma near_rec m n x y z : valid m n -> (Z.abs m < n)%Z -> (11 <= n)%Z -> near (Z.abs (m - 1)) (n - 1) x -> near (m + 1) (n - 1) y -> near m (n - 2) z ->
  near m n (b64 (b64 (r * b64 (x + y)) - z)).
Proof.
  intros V L Hn X Y Z. unfold near in *. rewrite (Fmn_rec m n r V L).
  pose proof (valid_pred_l m n V L) as V1. pose proof (valid_pred_r m n V L) as V2. pose proof (valid_pred2 m n V L) as V3.
  eapply Rle_trans; [|apply rec_E; exact Hn]. apply rec_err; auto using Fmn_le1.
Qed.
Lemma near_sub m n : valid m n -> (11 <= n)%Z -> (Z.abs m = n - 2)%Z ->
  near m n (b64 (b64 (b64 (IZR n) * pw r n) - b64 (b64 (IZR (n - 1)) * pw r (n - 2)%Z))).
Proof. intros V Hn E. unfold near. rewrite (Fmn_sub m n r V) by lia. apply sub_err; auto. Qed.

Lemma fradial_ok fuel : forall m n, valid m n -> (Z.to_nat n < fuel)%nat -> exists v, fradial_polynomial b64 pw fuel m n r = Ok v /\ near m n v.
Proof.
  induction fuel as [|f IH]; intros m n V HF; [lia|]. cbn [fradial_polynomial]. pose proof V as (Hn & Hm & _).
  destruct (radial_src m n) as [e|] eqn:S.
  - eexists. split; [reflexivity|]. destruct (src_ok m n e S) as [W K].
    destruct (feval_err pw PW r Fr Hr e W) as [_ D]. unfold near.
    assert (N10 : (n <= 10)%Z).
    { destruct (Z_le_gt_dec n 10) as [L|G]; [exact L|]. pose proof (radial_table_none m n r ltac:(lia)) as T. rewrite radial_src_table, S in T. discriminate. }
    pose proof (radial_table_ok m n r V N10) as T. rewrite radial_src_table, S in T. cbn [option_map] in T. rewrite <- T.
    eapply Rle_trans; [exact D|]. apply kb_ok; [lia|exact K].
  - destruct (Z_le_gt_dec n 10) as [L|G].
    + pose proof (radial_table_ok m n r V L) as T. rewrite radial_src_table, S in T. cbn [option_map] in T. destruct T as [T1 T2].
      replace ((7 <? n)%Z && (Z.abs m =? n)%Z) with true by lia. eexists. split; [reflexivity|]. apply near_diag; assumption.
    + destruct ((7 <? n)%Z && (Z.abs m =? n)%Z) eqn:B1.
      { eexists. split; [reflexivity|]. apply near_diag; [assumption|lia]. }
      assert (LT : (Z.abs m < n)%Z) by lia.
      destruct ((10 <? n)%Z && (m =? 0)%Z) eqn:B2.
      { assert (m = 0)%Z by lia. subst m.
        pose proof (valid_pred_l 0 n V ltac:(lia)) as V1. change (Z.abs (0 - 1)) with 1%Z in V1.
        destruct (IH 1%Z (n - 1)%Z V1 ltac:(lia)) as (x & -> & X).
        destruct (IH 0%Z (n - 2)%Z (valid_pred2 0 n V LT) ltac:(lia)) as (y & -> & Y). cbn [bind].
        eexists. split; [reflexivity|]. apply near_rec0; auto. lia. }
      destruct ((10 <? n)%Z && (Z.abs m =? n - 2)%Z) eqn:B3.
      { eexists. split; [reflexivity|]. apply near_sub; auto; lia. }
      destruct (IH _ _ (valid_pred_l m n V LT) ltac:(lia)) as (x & -> & X).
      destruct (IH _ _ (valid_pred_r m n V LT) ltac:(lia)) as (y & -> & Y).
      destruct (IH _ _ (valid_pred2 m n V LT) ltac:(lia)) as (z & -> & Z). cbn [bind].
      eexists. split; [reflexivity|]. apply near_rec; auto. lia.
Qed.

Lemma checked m n : valid m n -> (n <= 40)%Z -> check_ab (oa m n) (ob m n) = true /\ Z.of_nat (oa m n + ob m n) = n.
Proof. intros V H. destruct (oab m n V) as (H1 & H2 & H3). split; [apply check_ab_true; lia|lia]. Qed.

Lemma dict_near m n : valid m n -> (n <= 40)%Z -> near m n (feval_dict b64 pw (cdict m n) r 0).
Proof.
  intros V H. destruct (checked m n V H) as [C N]. unfold check_ab in C. apply andb_prop in C as [C _]. apply andb_prop in C as [W K]. rewrite N in K.
  assert (D : cdict m n = up_list (oa m n) (ob m n)).
  { unfold cdict, up_list. replace (Z.to_nat (n + 1)) with (S (oa m n + ob m n)) by lia. unfold can. apply map_ext. intros p.
    rewrite coeff_ok. reflexivity. }
  unfold near. replace (Fmn m n r) with (eval_dict (cdict m n) r 0) by (rewrite eval_dict_acc, cdict_value by exact V; ring).
  rewrite D. eapply Rle_trans; [|apply kb_ok; [destruct V; lia|exact K]].
  apply feval_dict_err; auto; try lia; rewrite ?Rminus_diag_eq, Rabs_R0 by reflexivity; lra.
Qed.

Lemma idR_loop m n : valid m n -> eval_dict (down_list (oa m n) (ob m n)) r 0 = Fmn m n r.
Proof.
  intros V. destruct (oab m n V) as (H1 & H2 & H3).
  pose proof (radial_polynomial_eq_F m n r V) as E. unfold radial_polynomial_eq in E. rewrite <- feq_loop_exact in E.
  replace (Z.to_nat ((n - Z.abs m) / 2 + 1)) with (S (ob m n)) in E.
  2:{ unfold ob. destruct V as (Hn & Hm & k & Hk). rewrite Hk, Z.mul_comm, Z.div_mul by lia. lia. }
  pose proof (feq_loop_dict idR powerRZ (fun x => eq_refl) (fun x => eq_refl) m n r (oa m n) (ob m n) H2 H3 (S (ob m n)) 0 0 (le_n _)) as D.
  change (Z.of_nat 0) with 0%Z in D. rewrite D in E. apply Ok_inj in E. rewrite <- E.
  unfold down_list. symmetry. apply feval_dict_exact.
Qed.
Lemma eq_near m n : valid m n -> (n <= 40)%Z -> exists v, fradial_polynomial_eq b64 pw m n r = Ok v /\ near m n v.
Proof.
  intros V H. destruct (oab m n V) as (H1 & H2 & H3). destruct (checked m n V H) as [C N]. unfold check_ab in C.
  apply andb_prop in C as [_ C]. apply andb_prop in C as [W K]. rewrite N in K.
  unfold fradial_polynomial_eq.
  replace (Z.to_nat ((n - Z.abs m) / 2 + 1)) with (S (ob m n)).
  2:{ unfold ob. destruct V as (Hn & Hm & k & Hk). rewrite Hk, Z.mul_comm, Z.div_mul by lia. lia. }
  pose proof (feq_loop_dict b64 pw b64_idem b64_opp m n r (oa m n) (ob m n) H2 H3 (S (ob m n)) 0 0 (le_n _)) as D.
  change (Z.of_nat 0) with 0%Z in D. rewrite D. eexists. split; [reflexivity|]. fold (down_list (oa m n) (ob m n)).
  unfold near. rewrite <- (idR_loop m n V). eapply Rle_trans; [|apply kb_ok; [destruct V; lia|exact K]].
  apply feval_dict_err; auto; try lia; rewrite ?Rminus_diag_eq, Rabs_R0 by reflexivity; lra.
Qed.

(** ** the coefficient route *)
Definition res_n (fuel : nat) (m n : Z) (x : res R) : Prop :=
  (exists v, x = Ok v /\ near m n v) \/ (x = Raise RecursionError /\ (Z.of_nat fuel <= n + 1)%Z).

Lemma frpc_ok fuel : forall m n, valid m n -> keeps (fradial_polynomial_coeffs b64 pw fuel m n r) (res_n fuel m n).
Proof.
  induction fuel as [|f IH]; intros m n V; pose proof V as (Hn & Hm & _).
  { apply keeps_ret. right. split; [reflexivity|lia]. }
  cbn [fradial_polynomial_coeffs]. destruct (n <=? MAX_RADIAL_ORDER_COEFFS)%Z eqn:L.
  { eapply keeps_bind; [apply (find_ok f NoFlag m n V)| |].
    - intros d [[= ->]|[[=] _]]. apply (keeps_ret (Ok _)). left. eexists. split; [reflexivity|]. apply dict_near; [exact V|unfold MAX_RADIAL_ORDER_COEFFS in L; lia].
    - intros e [[=]|[[= ->] ?]]. right. split; [reflexivity|lia]. }
  unfold MAX_RADIAL_ORDER_COEFFS in L.
  destruct (Z.eqb_spec (Z.abs m) n) as [E|NE].
  { apply (keeps_ret (Ok _)). left. eexists. split; [reflexivity|]. apply near_diag; assumption. }
  assert (LT : (Z.abs m < n)%Z) by lia.
  pose proof (valid_pred_l m n V LT) as V1. pose proof (valid_pred_r m n V LT) as V2. pose proof (valid_pred2 m n V LT) as V3.
  assert (RE : forall m' n' e, (n' < n)%Z -> res_n f m' n' (Raise e) -> res_n (S f) m n (Raise e)).
  { intros m' n' e ? [(v & [=] & _)|[[= ->] ?]]. right. split; [reflexivity|lia]. }
  destruct (Z.eqb_spec m 0) as [->|NZ].
  { change (Z.abs (0 - 1)) with 1%Z in V1.
    eapply keeps_bind; [apply (IH 1%Z (n - 1)%Z V1)| |intros e; apply RE; lia]. intros x [(v & [= ->] & X)|[[=] _]].
    eapply keeps_bind; [apply (IH 0%Z (n - 2)%Z V3)| |intros e; apply RE; lia]. intros y [(w & [= ->] & Y)|[[=] _]].
    apply (keeps_ret (Ok _)). left. eexists. split; [reflexivity|]. apply near_rec0; auto. lia. }
  destruct (Z.eqb_spec (Z.abs m) (n - 2)) as [E|NE2].
  { apply (keeps_ret (Ok _)). left. eexists. split; [reflexivity|]. apply near_sub; auto; lia. }
  eapply keeps_bind; [apply (IH _ _ V1)| |intros e; apply RE; lia]. intros x [(v & [= ->] & X)|[[=] _]].
  eapply keeps_bind; [apply (IH _ _ V2)| |intros e; apply RE; lia]. intros y [(w & [= ->] & Y)|[[=] _]].
  eapply keeps_bind; [apply (IH _ _ V3)| |intros e; apply RE; lia]. intros z [(t & [= ->] & Z)|[[=] _]].
  apply (keeps_ret (Ok _)). left. eexists. split; [reflexivity|]. apply near_rec; auto. lia.
Qed.
End Bound.
