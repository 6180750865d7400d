(** Property theorems C76: the bundled self-checks. *)
From Coq Require Import QArith Reals Lra Lia.
From Flocq Require Import Core.
From Verif Require Import Py SpecIndex SpecRadial RadialMath M_Index L_Index M_Radial M_Coeffs SpecCoeffs L_Cache L_Radial L_RadialD L_Bound L_Value L_RadialProps
  L_Polar L_Slope M_Polar M_Geo M_Sum L_Sum M_Psf M_Phases L_Phases M_Fit L_Fit SpecFloat M_Float L_Float L_Float2 L_Float3 L_Float4 L_FloatC SpecFloatDr M_FloatDr L_FloatDr L_FloatDr2 M_FloatFit L_FPsf4 L_DrErr M_Selfcheck
  L_Selfcheck L_Selfcheck2.
Local Open Scope R_scope.

Definition exactly (x : R) : R := x.
Definition zeros (rows columns : nat) : list (list R) := repeat (repeat 0 columns) rows.

(** which polynomials compare_radial_calculations(max_order) and compare_radial_derivatives(max_order) test:
    every valid polynomial with n < max_order (always at least (0, 0)) once, row j of the matrix being the one of OSA index j *)
Theorem C76_tested_orders z :
  (forall m n, In (m, n) (tested_orders z) <-> valid m n /\ (n < Z.max 1 z)%Z) /\
  (forall j m n, nth_error (tested_orders z) j = Some (m, n) -> (2 * Z.of_nat j = n * (n + 2) + m)%Z) /\
  length (tested_orders z) = Z.to_nat (Z.max 1 z * (Z.max 1 z + 1) / 2).
Proof.
  split; [intros m n; apply tested_In|]. split; [|apply tested_length]. intros j m n H.
  assert (X : nth_error (map (fun o => get_osa_index (fst o) (snd o)) (tested_orders z)) j = Some (get_osa_index m n)) by (erewrite map_nth_error by exact H; reflexivity).
  rewrite tested_osa in X. assert (J : (j < length (tested_orders z))%nat) by (apply nth_error_Some; congruence). rewrite tested_length in J.
  apply (nth_error_nth _ _ 0%Z) in X. rewrite zrange_nth in X by exact J. apply nth_error_In, tested_In in H. destruct H as ((Hn & Hm & k & Hk) & _).
  unfold get_osa_index in X.
  assert (E : exists c, (n * (n + 2) + m = c * 2)%Z).
  { destruct (Z.Even_or_Odd n) as [[q Q]|[q Q]]; subst n;
    [exists (q * (2 * q + 2) + (if (0 <=? m)%Z then q - k else k - q))%Z|exists (2 * q * q + 4 * q + 1 + (if (0 <=? m)%Z then q - k + 1 else k - q))%Z];
    destruct (Z.leb_spec 0 m); nia. }
  destruct E as (c & E). rewrite E, Z.div_mul in X by lia. lia.
Qed.
Print Assumptions C76_tested_orders.

(** how max_order is read: every int, and the numpy ints not below 2, as they are; the documented minimum 2 replaces only small floats and small numpy ints *)
Theorem C76_max_order v : check_max_order v =
  match v with
  | PInt z => Ok z
  | PBool b => Ok (Z.b2z b)
  | PNpInt z => Ok (Z.max 2 z)
  | PFloat q => if Qlt_le_dec q 2 then Ok 2%Z else Raise TypeError
  | PInf true => Ok 2%Z
  | PInf false | PNan | PStr _ | POther => Raise TypeError
  end.
Proof.
  destruct v as [z|b|z|q|neg| |str|]; cbn [check_max_order]; try reflexivity.
  - f_equal. destruct (Z.ltb_spec z 2); lia.
  - destruct (Qlt_le_dec q 2) as [L|L]; destruct (Qle_bool (inject_Z 2) q) eqn:B; try reflexivity; exfalso.
    + apply Qle_bool_iff in B. change (inject_Z 2) with 2%Q in B. apply (Qlt_not_le _ _ L B).
    + apply Bool.not_true_iff_false in B. apply B, Qle_bool_iff, L.
Qed.
Print Assumptions C76_max_order.

(** ** in exact arithmetic *)
Lemma tol9 : Rltb 0 (exactly (1 / 10 ^ 9)) = true.
Proof. unfold Rltb, exactly. destruct (Rlt_dec 0 (1 / 10 ^ 9)) as [_|N]; [reflexivity|]. elim N. lra. Qed.
Lemma differ_zero f g a o r : isok (f o r) a -> isok (g o r) a -> isok (differ exactly f g o r) 0 /\ fround exactly 9 0 = 0.
Proof.
  intros F G. split; [|apply fround0; reflexivity]. unfold differ. eapply isok_bind; [exact F|]. eapply isok_bind; [exact G|].
  unfold exactly. replace 0 with (a - a) by ring. apply isok_ret.
Qed.

Theorem C76_radial_exact s fuel v z : reachable s -> check_max_order v = Ok z -> (Z.max 1 z <= Z.of_nat fuel)%Z ->
  snd (compare_radial_calculations exactly powerRZ fuel v s) = Ok (Passed (zeros (Z.to_nat (Z.max 1 z * (Z.max 1 z + 1) / 2)) 21)).
Proof.
  intros RS HV HF. apply (fun H : isok _ _ => proj2 (H s RS)). unfold compare_radial_calculations.
  eapply isok_bind; [apply isok_lift, HV|]. rewrite <- tested_length. rewrite <- (radii_length exactly 21) at 2.
  apply (self_check_zero exactly _ (fun _ _ => 0)); [|exact tol9]. intros (m, n) r O HR. apply tested_In in O. destruct O as [V L]. pose proof V as (Hn & _). cbn [fst snd].
  apply (differ_zero _ _ (Fmn m n r) (m, n)); cbn [fst snd]; apply isok_lift.
  - change exactly with (fun x : R => x). etransitivity; [apply fradial_exact|]. apply radial_polynomial_F; [exact V|lia].
  - etransitivity; [apply feq_loop_exact|]. apply radial_polynomial_eq_F, V.
Qed.
Print Assumptions C76_radial_exact.

Theorem C76_derivatives_exact s fuel v z : reachable s -> check_max_order v = Ok z -> (Z.max 1 z <= Z.of_nat fuel)%Z ->
  snd (compare_radial_derivatives exactly powerRZ fuel v s) = Ok (Passed (zeros (Z.to_nat (Z.max 1 z * (Z.max 1 z + 1) / 2)) 21)).
Proof.
  intros RS HV HF. apply (fun H : isok _ _ => proj2 (H s RS)). unfold compare_radial_derivatives.
  eapply isok_bind; [apply isok_lift, HV|]. rewrite <- tested_length. rewrite <- (radii_length exactly 21) at 2.
  apply (self_check_zero exactly _ (fun _ _ => 0)); [|exact tol9]. intros (m, n) r O HR. apply tested_In in O. destruct O as [V L]. pose proof V as (Hn & _). cbn [fst snd].
  destruct (deriv_routes fuel m n r V ltac:(lia)) as (d & D1 & D2 & _).
  apply (differ_zero _ _ d (m, n)); cbn [fst snd]; apply isok_lift.
  - change exactly with (fun x : R => x). etransitivity; [apply fderivative_exact|]. exact D1.
  - etransitivity; [|exact D2]. unfold fradial_derivative_eq, radial_derivative_eq. destruct (0 <? n)%Z; [apply feq_loop_dr_exact|reflexivity].
Qed.
Print Assumptions C76_derivatives_exact.

Lemma coeffs_isok fuel m n r : valid m n -> (12 < n)%Z -> (n + 1 < Z.of_nat fuel)%Z -> isok (fradial_polynomial_coeffs exactly powerRZ fuel m n r) (R_nm m n r).
Proof.
  intros V G HF s RS. change exactly with (fun x : R => x). rewrite fcoeffs_exact.
  pose proof (reach_radial s fuel m n false r RS V) as R1. pose proof (zp_radial_ok s fuel m n false r RS V HF ltac:(discriminate)) as E.
  unfold zp_radial in R1, E. replace (n <=? 12)%Z with false in R1, E by lia. split; assumption.
Qed.
Lemma coeffs_dr_isok fuel m n r : valid m n -> (12 < n <= 39)%Z -> (n - Z.abs m <= 38)%Z -> (n + 1 < Z.of_nat fuel)%Z ->
  exists d, isok (fradial_polynomial_coeffs_dr exactly powerRZ fuel m n r) d /\ derivable_pt_lim (R_nm m n) r d.
Proof.
  intros V G H38 HF. exists (Dmn m n r). split.
  - intros s RS. change exactly with (fun x : R => x). rewrite fcoeffs_dr_exact. pose proof (reach_radial_dr s fuel m n false r RS V) as R1.
    unfold zp_radial_dr in R1. replace (n <=? 12)%Z with false in R1 by lia. split; [exact R1|].
    pose proof (keeps_at _ _ s RS (rpcd_ok fuel m n r V ltac:(split; lia))) as [H|[_ H]]; [exact H|lia].
  - apply (dlim_ext (Fmn m n)); [intros y; symmetry; apply R_nm_F, V|apply Dmn_ok].
Qed.

(** the two checks of the tables of coefficients: 783 and 700 polynomials, 101 radii *)
Theorem C76_coefficients_exact s fuel : reachable s -> (42 < Z.of_nat fuel)%Z ->
  snd (compare_recursive_coeffs_radials exactly powerRZ fuel s) = Ok (Passed (zeros 783 101)) /\
  snd (compare_recursive_coeffs_radials_dr exactly powerRZ fuel s) = Ok (Passed (zeros 700 101)).
Proof.
  intros RS HF. split.
  - apply (fun H : isok _ _ => proj2 (H s RS)). unfold compare_recursive_coeffs_radials, zeros.
    replace 783%nat with (length (orders_between 15 (MAX_RADIAL_ORDER_COEFFS + 2))) by reflexivity. replace 101%nat with (length (test_radii exactly 101)) at 2 by apply radii_length.
    apply (self_check_zero exactly _ (fun _ _ => 0)).
    2:{ unfold Rltb, exactly. destruct (Rlt_dec 0 (2 / 10 ^ 2)) as [_|N]; [reflexivity|]. elim N. lra. }
    intros (m, n) r O HR. apply orders_between_In in O; [|lia]. unfold MAX_RADIAL_ORDER_COEFFS in O. destruct O as [V L]. cbn [fst snd].
    apply (differ_zero _ _ (R_nm m n r) (m, n)); cbn [fst snd].
    + apply isok_lift. etransitivity; [apply feq_loop_exact|]. etransitivity; [apply radial_polynomial_eq_F, V|]. f_equal. symmetry. apply R_nm_F, V.
    + apply coeffs_isok; [exact V|lia|lia].
  - apply (fun H : isok _ _ => proj2 (H s RS)). unfold compare_recursive_coeffs_radials_dr, zeros.
    replace 700%nat with (length (orders_between 15 (MAX_RADIAL_ORDER_COEFFS_dR + 2))) by reflexivity. replace 101%nat with (length (test_radii exactly 101)) at 2 by apply radii_length.
    apply (self_check_zero exactly _ (fun _ _ => 0)).
    2:{ unfold Rltb, exactly. destruct (Rlt_dec 0 (5 / 10 ^ 2)) as [_|N]; [reflexivity|]. elim N. lra. }
    intros (m, n) r O HR. apply orders_between_In in O; [|lia]. unfold MAX_RADIAL_ORDER_COEFFS_dR in O. destruct O as [V L]. cbn [fst snd].
    assert (H38 : (n - Z.abs m <= 38)%Z) by (destruct V as (_ & _ & k & Hk); lia).
    destruct (coeffs_dr_isok fuel m n r V ltac:(lia) H38 ltac:(lia)) as (d & D1 & D2).
    destruct (deriv_routes fuel m n r V ltac:(lia)) as (d' & _ & E2 & E3).
    assert (d' = d) as -> by (eapply uniqueness_limite; eassumption).
    apply (differ_zero _ _ d (m, n)); cbn [fst snd]; [|exact D1].
    apply isok_lift. etransitivity; [|exact E2]. unfold fradial_derivative_eq, radial_derivative_eq. destruct (0 <? n)%Z; [apply feq_loop_dr_exact|reflexivity].
Qed.
Print Assumptions C76_coefficients_exact.

Lemma Forall2_map_r' {A B} (P : A -> B -> Prop) (f : A -> B) l : Forall (fun a => P a (f a)) l -> Forall2 P l (map f l).
Proof. induction 1; cbn [map]; constructor; assumption. Qed.
Lemma orders_220 : length (orders_between (MAX_RADIAL_ORDER_COEFFS + 1) (MAX_RADIAL_ORDER_COEFFS + 6)) = 220%nat.
Proof. reflexivity. Qed.
Lemma round_within digits x : (0 <= digits)%Z -> Rabs (fround exactly digits x - x) <= / 2 / powerRZ 10 digits.
Proof.
  intros HD. unfold fround, exactly. replace (0 <=? digits)%Z with true by lia. assert (P : 0 < powerRZ 10 digits) by (apply powerRZ_lt; lra).
  pose proof (Znearest_half (fun z => negb (Z.even z)) (x * powerRZ 10 digits)) as H. fold ZnearestE in H.
  replace (IZR (ZnearestE (x * powerRZ 10 digits)) / powerRZ 10 digits - x) with (- ((x * powerRZ 10 digits - IZR (ZnearestE (x * powerRZ 10 digits))) / powerRZ 10 digits)) by (field; lra).
  rewrite Rabs_Ropp. unfold Rdiv. rewrite Rabs_mult, (Rabs_pos_eq (/ powerRZ 10 digits)) by (left; apply Rinv_0_lt_compat, P).
  apply Rmult_le_compat_r; [left; apply Rinv_0_lt_compat, P|exact H].
Qed.
Lemma round6_le1 x : Rabs x <= 1 -> Rabs (fround exactly 6 x) <= 1.
Proof.
  intros H. apply Rabs_le_inv in H. unfold fround, exactly. change (0 <=? 6)%Z with true. cbv iota.
  assert (P : powerRZ 10 6 = 1000000) by (unfold powerRZ; simpl; ring). rewrite P.
  assert (A : (-1000000 <= ZnearestE (x * 1000000)%R <= 1000000)%Z).
  { split.
    - apply (Z.le_trans _ (ZnearestE (IZR (-1000000)))); [rewrite (Zrnd_IZR ZnearestE); lia|apply Zrnd_le; [apply valid_rnd_N|lra]].
    - apply (Z.le_trans _ (ZnearestE (IZR 1000000))); [apply Zrnd_le; [apply valid_rnd_N|lra]|rewrite (Zrnd_IZR ZnearestE); lia]. }
  assert (B : -1000000 <= IZR (ZnearestE (x * 1000000)) <= 1000000) by (split; [apply (IZR_le (-1000000))|apply (IZR_le _ 1000000)]; apply A).
  apply Rabs_le. lra.
Qed.

(** the check of the recursion for the radial orders 41..45 *)
Theorem C76_high_orders_exact s fuel : reachable s -> (46 < Z.of_nat fuel)%Z ->
  exists d, snd (check_high_orders_recursion exactly powerRZ fuel s) = Ok (Passed d) /\ length d = 220%nat /\
    Forall2 (fun o row => valid (fst o) (snd o) /\ (41 <= snd o <= 45)%Z /\ length row = 51%nat /\
       forall i, (i < 51)%nat -> Rabs (nth i row 0 - R_nm (fst o) (snd o) (INR i / 50)) <= 5 / 10 ^ 7 /\ Rabs (nth i row 0) <= 1)
      (orders_between 41 46) d.
Proof.
  intros RS HF. set (v := fun (o : orders) r => R_nm (fst o) (snd o) r).
  assert (RV : test_radii exactly 51 = map (fun i => INR i / 50) (seq 0 51)).
  { change exactly with (fun x : R => x). rewrite radii_val by (try reflexivity; lia). apply map_ext. intros i. f_equal. rewrite INR_IZR_INZ. reflexivity. }
  assert (VO : forall m n, In (m, n) (orders_between 41 46) -> valid m n /\ (41 <= n < 46)%Z) by (intros m n; apply orders_between_In; lia).
  assert (DISK : forall r, In r (test_radii exactly 51) -> 0 <= r <= 1).
  { assert (F := radii_disk exactly 51 (or_introl eq_refl) ltac:(lia) ltac:(lia)). rewrite Forall_forall in F. exact F. }
  pose proof (self_check_isok exactly (fun o r => fradial_polynomial_coeffs exactly powerRZ fuel (fst o) (snd o) r) v 6 (fun x => negb (Rltb 1 x))
    (orders_between 41 46) (test_radii exactly 51)) as S.
  assert (E : forall o r, In o (orders_between 41 46) -> In r (test_radii exactly 51) -> isok (fradial_polynomial_coeffs exactly powerRZ fuel (fst o) (snd o) r) (v o r)).
  { intros (m, n) r O HR. destruct (VO m n O) as [V L]. cbn [fst snd]. apply coeffs_isok; [exact V|lia|lia]. }
  specialize (S E). cbv beta zeta in S. set (d := map (fun o => map (fun r => fround exactly 6 (v o r)) (test_radii exactly 51)) (orders_between 41 46)) in *.
  assert (A : negb (Rltb 1 (max_abs d)) = true).
  { destruct (max_abs_spec d) as (_ & _ & H). apply negb_true_iff. unfold Rltb. destruct (Rlt_dec 1 (max_abs d)) as [L|_]; [|reflexivity]. exfalso.
    destruct H as [H|(row & x & H1 & H2 & H3)]; [lra|]. unfold d in H1. apply in_map_iff in H1. destruct H1 as ((m, n) & <- & O). apply in_map_iff in H2. destruct H2 as (r & <- & HR).
    destruct (VO m n O) as [V _]. pose proof (DISK r HR). pose proof (round6_le1 (v (m, n) r) (R_bound m n r V ltac:(lra))). lra. }
  rewrite A in S. exists d. split; [exact (proj2 (S s RS))|]. split; [unfold d; rewrite map_length; exact orders_220|].
  unfold d. apply Forall2_map_r'. apply Forall_forall. intros (m, n) O. destruct (VO m n O) as [V L]. cbn [fst snd]. split; [exact V|]. split; [lia|].
  split; [rewrite map_length; apply radii_length|]. intros i I.
  assert (N : nth i (map (fun r => fround exactly 6 (v (m, n) r)) (test_radii exactly 51)) 0 = fround exactly 6 (R_nm m n (INR i / 50))).
  { rewrite RV, map_map. rewrite (nth_indep _ 0 ((fun i => fround exactly 6 (v (m, n) (INR i / 50))) 0%nat)) by (rewrite map_length, seq_length; lia).
    rewrite (map_nth (fun i => fround exactly 6 (v (m, n) (INR i / 50)))). rewrite seq_nth by lia. reflexivity. }
  rewrite N. split.
  - eapply Rle_trans; [apply round_within; lia|]. unfold powerRZ. simpl. lra.
  - apply round6_le1, R_bound; [exact V|]. assert (0 <= INR i <= 50) by (split; [apply pos_INR|replace 50 with (INR 50) by (rewrite INR_IZR_INZ; reflexivity); apply le_INR; lia]). lra.
Qed.
Print Assumptions C76_high_orders_exact.

(** what the outcome of such a check says, whatever two implementations [f] and [g] are compared *)
Theorem C76_outcome (f g : orders -> R -> M R) F G digits tol os rs s : (0 <= digits)%Z -> 0 < tol -> reachable s ->
  (forall o r, In o os -> In r rs -> isok (f o r) (F o r) /\ isok (g o r) (G o r)) ->
  match snd (self_check exactly (differ exactly f g) digits (fun x => Rltb x tol) os rs s) with
  | Ok (Passed d) => d = map (fun o => map (fun r => np_round digits (F o r - G o r)) rs) os /\
      forall o r, In o os -> In r rs -> Rabs (F o r - G o r) < tol + / 2 / powerRZ 10 digits
  | Ok AssertionFails => exists o r, In o os /\ In r rs /\ tol - / 2 / powerRZ 10 digits <= Rabs (F o r - G o r)
  | Raise _ => False
  end.
Proof.
  intros HD HT RS H.
  pose proof (self_check_isok exactly (differ exactly f g) (fun o r => F o r - G o r) digits (fun x => Rltb x tol) os rs) as S.
  assert (E : forall o r, In o os -> In r rs -> isok (differ exactly f g o r) (F o r - G o r)).
  { intros o r O HR. destruct (H o r O HR) as [A B]. unfold differ. eapply isok_bind; [exact A|]. eapply isok_bind; [exact B|]. apply isok_ret. }
  specialize (S E). cbv beta zeta in S. set (d := map _ os) in S. rewrite (proj2 (S s RS)). destruct (max_abs_spec d) as (_ & M1 & M2).
  unfold Rltb. destruct (Rlt_dec (max_abs d) tol) as [L|L].
  - split.
    + unfold d. apply map_ext. intros o. apply map_ext. intros r. unfold fround, np_round, exactly. replace (0 <=? digits)%Z with true by lia. reflexivity.
    + intros o r O HR. assert (A : Rabs (fround exactly digits (F o r - G o r)) <= max_abs d).
      { apply (M1 (map (fun r => fround exactly digits (F o r - G o r)) rs)); [unfold d; apply (in_map (fun o => map (fun r => fround exactly digits (F o r - G o r)) rs)), O|].
        apply (in_map (fun r => fround exactly digits (F o r - G o r))), HR. }
      pose proof (round_within digits (F o r - G o r) HD) as B. apply Rabs_le_inv in B. apply Rabs_le_inv in A. apply Rabs_def1; lra.
  - destruct M2 as [M2|(row & x & H1 & H2 & H3)]; [lra|]. unfold d in H1. apply in_map_iff in H1. destruct H1 as (o & <- & O). apply in_map_iff in H2. destruct H2 as (r & <- & HR).
    exists o, r. split; [exact O|]. split; [exact HR|]. pose proof (round_within digits (F o r - G o r) HD) as B.
    pose proof (Rabs_triang (fround exactly digits (F o r - G o r) - (F o r - G o r)) (F o r - G o r)) as T.
    replace (fround exactly digits (F o r - G o r) - (F o r - G o r) + (F o r - G o r)) with (fround exactly digits (F o r - G o r)) in T by ring. lra.
Qed.
Print Assumptions C76_outcome.

(** ** in binary64: the documented checks of low orders pass with a matrix of exact zeros *)
Lemma round9_zero x : Rabs x <= 43 / 10 ^ 11 -> fround near64 9 (near64 x) = 0.
Proof.
  intros H. change near64 with b64. pose proof u_small as US. pose proof u_pos as UP. pose proof (b64_rel x) as B1.
  assert (A1 : Rabs (b64 x) <= 44 / 10 ^ 11).
  { pose proof (Rabs_triang (b64 x - x) x) as T. replace (b64 x - x + x) with (b64 x) in T by ring. assert (u * Rabs x <= u) by (rewrite <- (Rmult_1_r u) at 2; apply Rmult_le_compat_l; lra). lra. }
  unfold fround. change (0 <=? 9)%Z with true. cbv iota. rewrite pow10_9. set (y := b64 x * 1000000000).
  assert (A2 : Rabs y <= 44 / 100) by (unfold y; rewrite Rabs_mult, (Rabs_pos_eq 1000000000) by lra; lra).
  pose proof (b64_rel y) as B2.
  assert (A3 : Rabs (b64 y) < / 2).
  { pose proof (Rabs_triang (b64 y - y) y) as T. replace (b64 y - y + y) with (b64 y) in T by ring. assert (u * Rabs y <= u) by (rewrite <- (Rmult_1_r u) at 2; apply Rmult_le_compat_l; lra). lra. }
  rewrite (near_zero _ A3). unfold Rdiv. rewrite Rmult_0_l. apply b64_0.
Qed.
Lemma tol9_64 : Rltb 0 (near64 (1 / 10 ^ 9)) = true.
Proof.
  unfold Rltb. destruct (Rlt_dec 0 (near64 (1 / 10 ^ 9))) as [_|N]; [reflexivity|]. elim N. change near64 with b64.
  pose proof (b64_rel (1 / 10 ^ 9)) as B. rewrite (Rabs_pos_eq (1 / 10 ^ 9)) in B by lra. pose proof u_pos as UP.
  assert (US : u <= 1 / 1000000000000000) by (unfold u; assert (1000000000000000 <= 2 ^ 53) by (rewrite (pow_IZR 2 53); apply IZR_le; lia); unfold Rdiv; rewrite Rmult_1_l; apply Rinv_le; lra).
  apply Rabs_le_inv in B. lra.
Qed.
Lemma check_okq rnd (entry : orders -> R -> M R) digits accept os rs :
  (forall o r, In o os -> In r rs -> okq (entry o r) (fun x => fround rnd digits x = 0)) -> accept 0 = true ->
  isok (self_check rnd entry digits accept os rs) (Passed (zeros (length os) (length rs))).
Proof.
  intros H A. assert (Q : okq (self_check rnd entry digits accept os rs) (fun x => x = Passed (zeros (length os) (length rs)))).
  { unfold self_check. eapply okq_bind.
    - apply (mapM_okq _ (fun o row => map (fround rnd digits) row = repeat 0 (length rs))). intros o O.
      eapply okq_weak; [|apply (mapM_okq _ (fun _ x => fround rnd digits x = 0)); intros r HR; apply H; assumption].
      intros row F. clear -F. induction F as [|r x rs row E F IH]; [reflexivity|]. cbn [map length repeat]. rewrite E, IH. reflexivity.
    - intros d F. assert (E : map (map (fround rnd digits)) d = zeros (length os) (length rs)).
      { unfold zeros. clear -F. induction F as [|o row os d E F IH]; [reflexivity|]. cbn [map length repeat]. rewrite E, IH. reflexivity. }
      cbv zeta. rewrite E. unfold zeros. rewrite max_abs_zeros, A. apply okq_ret. reflexivity. }
  intros s RS. destruct (Q s RS) as [R1 (a & E & ->)]. auto.
Qed.
Lemma differ_small (f g : orders -> R -> M R) o r a e : 2 * e <= 43 / 10 ^ 11 ->
  okq (f o r) (fun x => Rabs (x - a) <= e) -> okq (g o r) (fun x => Rabs (x - a) <= e) ->
  okq (differ near64 f g o r) (fun x => fround near64 9 x = 0).
Proof.
  intros E F G. unfold differ. eapply okq_bind; [exact F|]. intros x X. eapply okq_bind; [exact G|]. intros y Y. apply okq_ret. apply round9_zero.
  apply Rabs_le_inv in X. apply Rabs_le_inv in Y. apply Rabs_le. lra.
Qed.
Lemma okq_lift {A} (x : res A) (P : A -> Prop) : (exists a, x = Ok a /\ P a) -> okq (mlift x) P.
Proof. intros (a & -> & H). apply okq_ret, H. Qed.

Theorem C76_radial_binary64 s pw fuel z : reachable s -> power_within_ulp pw -> (z <= 15)%Z -> (Z.max 1 z <= Z.of_nat fuel)%Z ->
  snd (compare_radial_calculations near64 pw fuel (PInt z) s) = Ok (Passed (zeros (Z.to_nat (Z.max 1 z * (Z.max 1 z + 1) / 2)) 21)).
Proof.
  intros RS PW HZ HF. apply (fun H : isok _ _ => proj2 (H s RS)). unfold compare_radial_calculations.
  eapply isok_bind; [apply isok_lift; reflexivity|]. rewrite <- tested_length. rewrite <- (radii_length near64 21) at 2.
  apply check_okq; [|exact tol9_64]. intros (m, n) r O HR. apply tested_In in O. destruct O as [V L]. pose proof V as (Hn & _). cbn [fst snd].
  assert (Fr : F64 r) by (pose proof (radii_float 21) as F; rewrite Forall_forall in F; apply F, HR).
  assert (Hr : 0 <= r <= 1) by (pose proof (radii_disk near64 21 (or_intror eq_refl) ltac:(lia) ltac:(lia)) as F; rewrite Forall_forall in F; apply F, HR).
  assert (EB : 2 * radial_error n <= 43 / 10 ^ 11).
  { apply Rle_trans with (2 * radial_error 14); [apply Rmult_le_compat_l; [lra|apply E_mono; lia]|]. unfold radial_error. change (Z.to_nat 14) with 14%nat. lra. }
  apply (differ_small _ _ (m, n) r (Fmn m n r) (radial_error n) EB); cbn [fst snd]; apply okq_lift; change near64 with b64.
  - apply (fradial_ok pw PW r Fr Hr); [exact V|lia].
  - apply (eq_near pw PW r Fr Hr); [exact V|lia].
Qed.
Print Assumptions C76_radial_binary64.

Theorem C76_derivatives_binary64 s pw fuel z : reachable s -> power_within_ulp pw -> (z <= 12)%Z -> (Z.max 1 z <= Z.of_nat fuel)%Z ->
  snd (compare_radial_derivatives near64 pw fuel (PInt z) s) = Ok (Passed (zeros (Z.to_nat (Z.max 1 z * (Z.max 1 z + 1) / 2)) 21)).
Proof.
  intros RS PW HZ HF. apply (fun H : isok _ _ => proj2 (H s RS)). unfold compare_radial_derivatives.
  eapply isok_bind; [apply isok_lift; reflexivity|]. rewrite <- tested_length. rewrite <- (radii_length near64 21) at 2.
  apply check_okq; [|exact tol9_64]. intros (m, n) r O HR. apply tested_In in O. destruct O as [V L]. pose proof V as (Hn & _). cbn [fst snd].
  assert (Fr : F64 r) by (pose proof (radii_float 21) as F; rewrite Forall_forall in F; apply F, HR).
  assert (Hr : 0 <= r <= 1) by (pose proof (radii_disk near64 21 (or_intror eq_refl) ltac:(lia) ltac:(lia)) as F; rewrite Forall_forall in F; apply F, HR).
  assert (EB : 2 * derivative_error n <= 43 / 10 ^ 11).
  { apply Rle_trans with (2 * derivative_error 11); [apply Rmult_le_compat_l; [lra|apply D_mono; lia]|]. unfold derivative_error, radial_error. change (Z.to_nat 11) with 11%nat. lra. }
  apply (differ_small _ _ (m, n) r (Dmn m n r) (derivative_error n) EB); cbn [fst snd]; apply okq_lift; change near64 with b64.
  - apply (fderivative_ok pw PW r Fr Hr); [exact V|lia].
  - apply (deq_near pw PW r Fr Hr); [exact V|lia].
Qed.
Print Assumptions C76_derivatives_binary64.

(** ** check_equal_coeffs and the tests of the coefficient tables *)
Theorem C76_equal_coeffs c1 c2 : NoDup (map fst c1) -> NoDup (map fst c2) ->
  (check_equal_coeffs c1 c2 = Ok true <-> forall k, dget k c1 = dget k c2) /\
  (forall e, check_equal_coeffs c1 c2 = Raise e -> e = KeyError /\ length c1 = length c2 /\ exists k, In k (map fst c1) /\ ~ In k (map fst c2)).
Proof.
  intros N1 N2. split; [apply check_equal_spec; assumption|]. intros e H. unfold check_equal_coeffs in H.
  destruct (Nat.eqb_spec (length c1) (length c2)) as [L|L]; [|discriminate]. destruct (equal_loop_raise _ _ _ H) as (A & k & B & C).
  split; [exact A|]. split; [exact L|]. exists k. split; [exact B|]. apply dget_None, C.
Qed.
Print Assumptions C76_equal_coeffs.

Theorem C76_table_tests s fuel : reachable s -> (10 < Z.of_nat fuel)%Z ->
  snd (test_coeffs_calc fuel s) = Ok true /\ snd (test_coeffs_dr_calc fuel s) = Ok true.
Proof. intros RS HF. split; [apply test_coeffs_ok|apply test_coeffs_dr_ok]; assumption. Qed.
Print Assumptions C76_table_tests.

(** Whatever the tables contain: True means that every line agreed, an AssertionError that some line did not. *)
Theorem C76_table_lines fuel s :
  (snd (test_coeffs_calc fuel s) = Ok true -> forall m n, In (m, n) [(-9, 9); (-7, 9); (-5, 9); (-3, 9); (-1, 9); (1, 9); (5, 9); (0, 10); (2, 10); (4, 10); (-6, 10); (7, 9)]%Z ->
     exists s1 s2 d t, find_coeffs_orders fuel (Kw true) m n s1 = (s2, Ok d) /\ tget (m, n) (pre s2 false) = Some t /\ check_equal_coeffs d t = Ok true) /\
  (snd (test_coeffs_calc fuel s) = Ok false -> exists m n s1 s2 d t, find_coeffs_orders fuel (Kw true) m n s1 = (s2, Ok d) /\ tget (m, n) (pre s2 false) = Some t /\ check_equal_coeffs d t = Ok false) /\
  (snd (test_coeffs_dr_calc fuel s) = Ok true -> forall m n, In (m, n) [(-9, 9); (-7, 9); (-5, 9); (-1, 9); (1, 9); (3, 9); (-6, 10); (-2, 10); (0, 10); (4, 10)]%Z ->
     exists s1 s2 d t, find_coeffs_orders_dr fuel (Kw true) m n s1 = (s2, Ok d) /\ tget (m, n) (pre_dr s2 false) = Some t /\ check_equal_coeffs d t = Ok true) /\
  (snd (test_coeffs_dr_calc fuel s) = Ok false -> exists m n s1 s2 d t, find_coeffs_orders_dr fuel (Kw true) m n s1 = (s2, Ok d) /\ tget (m, n) (pre_dr s2 false) = Some t /\ check_equal_coeffs d t = Ok false).
Proof.
  assert (G : forall line l s, (snd (check_lines line l s) = Ok true -> forall o, In o l -> exists s1, snd (line o s1) = Ok true) /\
                               (snd (check_lines line l s) = Ok false -> exists o s1, snd (line o s1) = Ok false)).
  { intros line l. induction l as [|o l IH]; intros s0; cbn [check_lines]; [split; [intros _ ? []|discriminate]|]. unfold mbind.
    destruct (line o s0) as [s1 [[|]|e]] eqn:EL; cbn [snd].
    - destruct (IH s1) as [H1 H2]. split; [|exact H2]. intros H o' [<- | HI]; [exists s0; rewrite EL; reflexivity|apply H1; assumption].
    - split; [discriminate|]. intros _. exists o, s0. rewrite EL. reflexivity.
    - split; discriminate. }
  assert (A : forall o s0 b, snd (check_line fuel o s0) = Ok b -> exists s2 d t, find_coeffs_orders fuel (Kw true) (fst o) (snd o) s0 = (s2, Ok d) /\ tget o (pre s2 false) = Some t /\ check_equal_coeffs d t = Ok b).
  { intros o s0 b. unfold check_line, mbind. destruct (find_coeffs_orders fuel (Kw true) (fst o) (snd o) s0) as [s2 [d|e]]; [|discriminate].
    destruct (tget o (pre s2 false)) as [t|] eqn:ET; [|discriminate]. intros H. exists s2, d, t. split; [reflexivity|]. split; [exact ET|exact H]. }
  assert (B : forall o s0 b, snd (check_line_dr fuel o s0) = Ok b -> exists s2 d t, find_coeffs_orders_dr fuel (Kw true) (fst o) (snd o) s0 = (s2, Ok d) /\ tget o (pre_dr s2 false) = Some t /\ check_equal_coeffs d t = Ok b).
  { intros o s0 b. unfold check_line_dr, mbind. destruct (find_coeffs_orders_dr fuel (Kw true) (fst o) (snd o) s0) as [s2 [d|e]]; [|discriminate].
    destruct (tget o (pre_dr s2 false)) as [t|] eqn:ET; [|discriminate]. intros H. exists s2, d, t. split; [reflexivity|]. split; [exact ET|exact H]. }
  unfold test_coeffs_calc, test_coeffs_dr_calc. repeat split.
  - intros H m n HI. destruct (proj1 (G _ _ s) H _ HI) as (s1 & E). exists s1. exact (A _ _ _ E).
  - intros H. destruct (proj2 (G _ _ s) H) as ((m, n) & s1 & E). exists m, n, s1. exact (A _ _ _ E).
  - intros H m n HI. destruct (proj1 (G _ _ s) H _ HI) as (s1 & E). exists s1. exact (B _ _ _ E).
  - intros H. destruct (proj2 (G _ _ s) H) as ((m, n) & s1 & E). exists m, n, s1. exact (B _ _ _ E).
Qed.
Print Assumptions C76_table_lines.
(** the check of the derivative tables stops at n = 39, one radial order before the first polynomial whose derivative is wrong *)
Theorem C76_missed_bug s fuel : reachable s -> (42 < Z.of_nat fuel)%Z ->
  (exists d, snd (compare_recursive_coeffs_radials_dr exactly powerRZ fuel s) = Ok (Passed d)) /\
  (exists d, snd (zp_radial_dr fuel 0 40 false 1 s) = Ok d /\ ~ derivable_pt_lim (R_nm 0 40) 1 d) /\
  ~ In (0, 40)%Z (orders_between 15 (MAX_RADIAL_ORDER_COEFFS_dR + 2)).
Proof.
  intros RS HF. split; [eexists; apply (C76_coefficients_exact s fuel RS HF)|]. split.
  - apply (zp_radial_dr_wrong s fuel 0 40 RS); [split; [lia|split; [lia|exists 20%Z; lia]]|lia|cbn; lia].
  - intros H. apply orders_between_In in H; [|lia]. unfold MAX_RADIAL_ORDER_COEFFS_dR in H. lia.
Qed.
Print Assumptions C76_missed_bug.

Example C76_nonvacuous : reachable (fst (find_coeffs_orders 100 (Kw true) 0 12 import_state)) /\ (Z.max 1 17 <= Z.of_nat 1000)%Z /\
  (forall x : orders, In x [(-1, 1); (1, 1); (-2, 2); (0, 2); (2, 2)]%Z -> In x (tested_orders 3)) /\
  (exists pw, power_within_ulp pw) /\
  check_equal_coeffs [(1, 3); (3, 2)]%Z [(3, 2); (1, 3)]%Z = Ok true /\ check_equal_coeffs [(1, 3)]%Z [(2, 3)]%Z = Raise KeyError.
Proof.
  split; [apply reach_find; [apply reach_import|split; [lia|split; [lia|exists 6%Z; lia]]]|]. split; [cbn; lia|].
  split; [intros x H; vm_compute in H |- *; tauto|]. split; [exists cpow; apply cpow_ok|]. split; reflexivity.
Qed.
