(** Lemmas behind the statements of P_Radial.v (C11-C19). *)
From Coq Require Import Reals Lra.
From Verif Require Import Py SpecIndex SpecRadial RadialMath M_Radial M_Coeffs SpecCoeffs L_Index L_Radial L_RadialD
  L_Dict L_Coeffs L_Cache L_CoeffVal L_Value L_DrErr L_Bound L_Trig.
Open Scope Z_scope.

Lemma dr_supported_dom t m n : dr_supported t m n <-> drdom t m n.
Proof. unfold dr_supported, drdom, special_dr, lim. destruct t; lia. Qed.

(** ** history independence *)
Lemma find_val s fuel fl m n : reachable s -> valid m n -> n < Z.of_nat fuel ->
  snd (find_coeffs_orders fuel fl m n s) = Ok (cdict m n).
Proof. intros RS V HF. destruct (keeps_at _ _ s RS (find_ok fuel fl m n V)) as [H|[_ H]]; [exact H|lia]. Qed.

Lemma find_history s fuel fl m n : reachable s -> valid m n -> n < Z.of_nat fuel ->
  exists d, snd (find_coeffs_orders fuel fl m n s) = Ok d /\ snd (find_coeffs_orders fuel fl m n import_state) = Ok d.
Proof. intros RS V HF. exists (cdict m n). split; apply find_val; try assumption. constructor. Qed.

Lemma find_dr_val s fuel fl m n : reachable s -> valid m n -> n < Z.of_nat fuel ->
  (dr_supported (flag_value fl) m n /\ snd (find_coeffs_orders_dr fuel fl m n s) = Ok (ddict m n)) \/
  (~ dr_supported (flag_value fl) m n /\ snd (find_coeffs_orders_dr fuel fl m n s) = Raise ValueError).
Proof.
  intros RS V HF. rewrite dr_supported_dom. destruct (keeps_at _ _ s RS (find_dr_ok fuel fl m n V)) as [H|[H|[_ H]]]; [auto|auto|lia].
Qed.

Lemma find_dr_history s fuel fl m n : reachable s -> valid m n -> n < Z.of_nat fuel ->
  snd (find_coeffs_orders_dr fuel fl m n s) = snd (find_coeffs_orders_dr fuel fl m n import_state).
Proof.
  intros RS V HF. destruct (find_dr_val s fuel fl m n RS V HF) as [[A ->]|[A ->]];
  destruct (find_dr_val import_state fuel fl m n reach_import V HF) as [[B ->]|[B ->]]; tauto || reflexivity.
Qed.

Lemma zp_radial_history s fuel m n e r : reachable s -> valid m n -> n + 1 < Z.of_nat fuel ->
  snd (zp_radial fuel m n e r s) = snd (zp_radial fuel m n e r import_state).
Proof.
  intros RS V HF. destruct (Z_le_gt_dec n 40) as [L|L].
  - rewrite !zp_radial_ok; try assumption; try lia; [reflexivity|constructor].
  - destruct e.
    + rewrite !(proj1 (zp_high_exact_zero _ fuel m n r 0%R ltac:(lia))). reflexivity.
    + rewrite !zp_radial_ok; try assumption; try discriminate; [reflexivity|constructor].
Qed.

Lemma zp_value_history s fuel m n e r th : reachable s -> valid m n -> n + 1 < Z.of_nat fuel ->
  snd (zp_polynomial_value fuel m n e r th s) = snd (zp_polynomial_value fuel m n e r th import_state).
Proof.
  intros RS V HF. destruct (Z_le_gt_dec n 40) as [L|L].
  - rewrite !zp_value_ok; try assumption; try lia; [reflexivity|constructor].
  - destruct e.
    + rewrite !(proj2 (zp_high_exact_zero _ fuel m n r th ltac:(lia))). reflexivity.
    + rewrite !zp_value_ok; try assumption; try discriminate; [reflexivity|constructor].
Qed.

Lemma zp_radial_dr_history s fuel m n e r : reachable s -> valid m n -> n + 1 < Z.of_nat fuel ->
  snd (zp_radial_dr fuel m n e r s) = snd (zp_radial_dr fuel m n e r import_state).
Proof.
  intros RS V HF. unfold zp_radial_dr. destruct e; [destruct (_ <? _)%Z; reflexivity|].
  destruct (_ <=? _)%Z; [reflexivity|].
  destruct (rpcd_det r (Z.to_nat n) m n V (le_n _)) as (v & H).
  destruct (keeps_at _ _ s RS (H fuel)) as [A|[_ A]]; [|lia].
  destruct (keeps_at _ _ import_state reach_import (H fuel)) as [B|[_ B]]; [|lia]. congruence.
Qed.

(** ** C19 *)
Lemma keys_can s f k : map fst (can s f k) = zrange s k.
Proof. unfold can. rewrite map_map. cbn [fst]. apply map_id. Qed.

Lemma in_can s f k p c : In (p, c) (can s f k) -> c = f p /\ s <= p < s + Z.of_nat k.
Proof.
  revert s. induction k as [|k IH]; intros s H; [destruct H|]. rewrite can_S in H. destruct H as [[= <- <-]|H]; [split; [reflexivity|lia]|].
  apply IH in H. split; [apply H|lia].
Qed.

Lemma oa_def m n : valid m n -> Z.to_nat ((n + Z.abs m) / 2) = oa m n /\ Z.to_nat ((n - Z.abs m) / 2) = ob m n /\
  Z.to_nat n = (oa m n + ob m n)%nat.
Proof.
  intros V. destruct (oab m n V) as (H1 & H2 & H3).
  replace (n + Z.abs m) with (Z.of_nat (oa m n) * 2) by lia. replace (n - Z.abs m) with (Z.of_nat (ob m n) * 2) by lia.
  rewrite !Z.div_mul by lia. lia.
Qed.

Lemma cmn_coefficient m n p : valid m n -> radial_coefficient m n p (cmn m n p).
Proof.
  intros V. destruct (oab m n V) as (H1 & H2 & H3). destruct (oa_def m n V) as (E1 & E2 & E3).
  unfold radial_coefficient, cmn. rewrite E1, E2, E3.
  assert (DIV : (n - Z.abs m) / 2 = Z.of_nat (ob m n)).
  { replace (n - Z.abs m) with (Z.of_nat (ob m n) * 2) by lia. apply Z.div_mul. lia. }
  rewrite DIV. set (d := Z.of_nat (oa m n + ob m n) - p).
  destruct (Z_le_gt_dec 0 d) as [D0|D0]; [destruct (Z.eq_dec (d mod 2) 0) as [D2|D2]; [destruct (Z_le_gt_dec (d / 2) (Z.of_nat (ob m n))) as [D3|D3]|]|].
  - left. pose proof (Z.div_mod d 2 ltac:(lia)) as DM. exists (Z.to_nat (d / 2)).
    split; [lia|]. split; [lia|]. rewrite (coef_at _ _ (Z.to_nat (d / 2))) by lia. apply cz_fact; lia.
  - right. pose proof (Z.div_mod d 2 ltac:(lia)) as DM. split; [intros (k & K1 & K2); lia|].
    rewrite (coef_at _ _ (Z.to_nat (d / 2))) by lia. apply cz_zero. lia.
  - right. split; [|apply coef_odd; exact D2]. intros (k & K1 & K2). apply D2.
    replace d with (Z.of_nat k * 2) by lia. apply Z.mod_mul. lia.
  - right. split; [intros (k & K1 & K2); lia|]. apply coef_out. lia.
Qed.

Lemma coefficient_support m n p c : valid m n -> radial_coefficient m n p c -> c <> 0 ->
  Z.abs m <= p <= n /\ exists k, n - p = 2 * k.
Proof.
  intros V [(k & K1 & K2 & _)|[_ ->]] H; [|lia]. destruct V as (Hn & Hm & j & Hj).
  pose proof (Z.mul_div_le (n - Z.abs m) 2 ltac:(lia)). split; [lia|]. exists (Z.of_nat k). lia.
Qed.

Lemma dict_value_1 d : dict_value d 1 = IZR (fold_right Z.add 0 (map snd d)).
Proof.
  induction d as [|[k v] d IH]; [reflexivity|]. cbn [dict_value fold_right map fst snd]. fold (dict_value d 1).
  rewrite IH, powerRZ_1, plus_IZR. ring.
Qed.

Lemma C19_lemma s fuel fl m n : reachable s -> valid m n -> n < Z.of_nat fuel ->
  exists d, snd (find_coeffs_orders fuel fl m n s) = Ok d /\
    map fst d = zrange 0 (Z.to_nat (n + 1)) /\
    (forall p c, In (p, c) d -> radial_coefficient m n p c) /\
    (forall p c, In (p, c) d -> c <> 0 -> Z.abs m <= p <= n /\ exists k, n - p = 2 * k) /\
    fold_right Z.add 0 (map snd d) = 1 /\
    (forall r, dict_value d r = R_nm m n r).
Proof.
  intros RS V HF. exists (cdict m n). split; [apply find_val; assumption|]. split; [apply keys_can|].
  assert (C : forall p c, In (p, c) (cdict m n) -> radial_coefficient m n p c).
  { intros p c H. apply in_can in H. destruct H as [-> _]. apply cmn_coefficient, V. }
  split; [exact C|]. split; [intros p c H; apply coefficient_support; [exact V|apply C, H]|].
  assert (VAL : forall r, dict_value (cdict m n) r = R_nm m n r).
  { intros r. rewrite cdict_value, R_nm_F by exact V. reflexivity. }
  split; [|exact VAL]. apply eq_IZR. rewrite <- dict_value_1, VAL. apply R_at_1, V.
Qed.

Lemma C19_dr_lemma s fuel fl m n : reachable s -> valid m n -> n < Z.of_nat fuel -> dr_supported (flag_value fl) m n ->
  exists d, snd (find_coeffs_orders_dr fuel fl m n s) = Ok d /\
    map fst d = zrange 0 (Z.to_nat n) /\
    (forall p c, In (p, c) d -> exists c', radial_coefficient m n (p + 1) c' /\ c = (p + 1) * c') /\
    (forall r, derivable_pt_lim (R_nm m n) r (dict_value d r)).
Proof.
  intros RS V HF D. assert (1 <= n).
  { destruct V as (? & ? & _). unfold dr_supported in D. destruct (flag_value fl); lia. }
  exists (ddict m n). split.
  { destruct (find_dr_val s fuel fl m n RS V HF) as [[_ E]|[E _]]; [exact E|contradiction]. }
  split; [apply keys_can|]. split.
  - intros p c H'. apply in_can in H'. destruct H' as [-> _]. exists (cmn m n (p + 1)). split; [apply cmn_coefficient, V|reflexivity].
  - intros r. eapply dlim_ext; [|apply ddict_value; [exact V|lia]]. intros y. symmetry. apply R_nm_F, V.
Qed.

(** ** routes *)
Lemma routes_agree s fuel m n r : reachable s -> valid m n -> n + 1 < Z.of_nat fuel ->
  radial_polynomial fuel m n r = Ok (R_nm m n r) /\
  radial_polynomial_eq m n r = Ok (R_nm m n r) /\
  snd (radial_polynomial_coeffs fuel m n r s) = Ok (R_nm m n r).
Proof.
  intros RS V HF. pose proof V as (Hn & _). rewrite R_nm_F by exact V. split; [apply radial_polynomial_F; [exact V|lia]|].
  split; [apply radial_polynomial_eq_F, V|].
  destruct (keeps_at _ _ s RS (rpc_ok fuel m n r V)) as [H|[_ H]]; [exact H|lia].
Qed.

Lemma deriv_ext m n r d : valid m n -> derivable_pt_lim (Fmn m n) r d -> derivable_pt_lim (R_nm m n) r d.
Proof. intros V. apply dlim_ext. intros y. symmetry. apply R_nm_F, V. Qed.

Lemma deriv_routes fuel m n r : valid m n -> n < Z.of_nat fuel ->
  exists d, radial_derivative fuel m n r = Ok d /\ radial_derivative_eq m n r = Ok d /\ derivable_pt_lim (R_nm m n) r d.
Proof.
  intros V HF. pose proof V as (Hn & _). destruct (radial_derivative_ok fuel m n r V ltac:(lia)) as (d & E & D).
  destruct (radial_derivative_eq_ok m n r V) as (d' & E' & D'). exists d. split; [exact E|].
  rewrite (uniqueness_limite (Fmn m n) r d d') in * by assumption. split; [exact E'|apply deriv_ext; assumption].
Qed.

Lemma find_dr_unsupported s fuel fl m n : reachable s -> valid m n -> n < Z.of_nat fuel ->
  ~ dr_supported (flag_value fl) m n -> snd (find_coeffs_orders_dr fuel fl m n s) = Raise ValueError.
Proof. intros RS V HF H. destruct (find_dr_val s fuel fl m n RS V HF) as [[A _]|[_ A]]; [contradiction|exact A]. Qed.

Lemma radial_facts s fuel m n : reachable s -> valid m n -> (n + 1 < Z.of_nat fuel) ->
  (snd (zp_radial fuel m n false 1 s) = Ok 1 /\
  forall r, exists v, snd (zp_radial fuel m n false r s) = Ok v /\
    snd (zp_radial fuel m n false (- r) s) = Ok ((-1) ^ Z.to_nat n * v) /\
    (-1 <= r <= 1 -> Rabs v <= 1))%R.
Proof.
  intros RS V HF. split; [rewrite zp_radial_ok by (assumption || discriminate); f_equal; apply R_at_1, V|].
  intros r. exists (R_nm m n r). split; [apply zp_radial_ok; assumption || discriminate|].
  split; [rewrite zp_radial_ok by (assumption || discriminate); f_equal; apply R_parity, V|apply R_bound, V].
Qed.

Lemma triangular_facts m theta :
  (triangular_function m theta = (if (0 <=? m)%Z then cos (IZR m * theta) else sin (IZR (Z.abs m) * theta)) /\
  Rabs (triangular_function m theta) <= 1 /\
  (forall k : Z, triangular_function m (theta + 2 * IZR k * PI) = triangular_function m theta) /\
  derivable_pt_lim (triangular_function m) theta (triangular_derivative m theta))%R.
Proof.
  split; [apply triangular_T|]. split; [rewrite triangular_T; apply T_bound|].
  split; [intros k; rewrite !triangular_T; apply T_period|].
  eapply dlim_ext; [|apply triangular_derivative_ok]. intros; symmetry; apply triangular_T.
Qed.

Lemma value_facts s fuel m n r theta (k : Z) : reachable s -> valid m n -> (n + 1 < Z.of_nat fuel) ->
  (exists v, snd (zp_polynomial_value fuel m n false r theta s) = Ok v /\
    snd (zp_polynomial_value fuel m n false r (theta + 2 * IZR k * PI) s) = Ok v /\
    (0 <= r <= 1 -> Rabs v <= normalization_factor m n))%R.
Proof.
  intros RS V HF. exists (Z_nm m n r theta). split; [apply zp_value_ok; assumption || discriminate|].
  split; [rewrite zp_value_ok by (assumption || discriminate); f_equal; apply Z_period|].
  intros H. rewrite normalization_norm by apply V. apply Z_bound; assumption.
Qed.
