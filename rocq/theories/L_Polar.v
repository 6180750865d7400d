From Coq Require Import Reals Lra Lia.
From Flocq Require Import Core.
From Verif Require Import Py M_Polar.
Local Open Scope R_scope.

(** [covers l limit step]: 0 = l_0 < l_1 < ... < l_last = limit with gaps of at most [step] *)
Definition covers (l : list R) (limit step : R) : Prop :=
  nth 0 l 1 = 0 /\ last l 0 = limit /\
  (forall i, (S i < length l)%nat -> 0 < nth (S i) l 0 - nth i l 0 <= step) /\
  (forall x, In x l -> 0 <= x <= limit).

Lemma nth_seq_map (f : nat -> R) n i d : (i < n)%nat -> nth i (map f (seq 0 n)) d = f i.
Proof.
  intros H. rewrite (nth_indep _ d (f 0%nat)) by (rewrite map_length, seq_length; exact H).
  rewrite map_nth, seq_nth by exact H. reflexivity.
Qed.
Lemma last_seq_map (f : nat -> R) n d : last (map f (seq 0 (S n))) d = f n.
Proof. rewrite seq_S, map_app. apply last_last. Qed.

Lemma clip_seq f q limit : clip_last (map f (seq 0 (S q))) limit =
  Ok (map (fun i => if Nat.eqb i q then Rmin (f q) limit else f i) (seq 0 (S q))).
Proof.
  unfold clip_last. replace (map f (seq 0 (S q))) with (f 0%nat :: map f (seq 1 q)) at 1 by reflexivity. f_equal.
  rewrite last_seq_map. unfold Rlt_b. rewrite !seq_S, !map_app. cbn [map plus]. rewrite Nat.eqb_refl.
  assert (E : map (fun i => if Nat.eqb i q then Rmin (f q) limit else f i) (seq 0 q) = map f (seq 0 q)).
  { apply map_ext_in. intros i Hi. apply in_seq in Hi. destruct (Nat.eqb_spec i q); [lia|reflexivity]. }
  rewrite E. destruct (Rlt_dec limit (f q)).
  - rewrite removelast_last, Rmin_right by lra. reflexivity.
  - rewrite Rmin_left by lra. reflexivity.
Qed.

(** ** C22: the two chained comparisons are never true *)
Lemma chain_false x y : 0 <= y -> Rleb x 0 && Rlt_b y x = false.
Proof. intros H. unfold Rleb, Rlt_b. destruct (Rle_dec x 0), (Rlt_dec y x); try reflexivity; lra. Qed.

Lemma never_value_error rnd a b : (forall x, 0 <= x -> 0 <= rnd x) -> gen_polar_coordinates rnd a b <> Raise ValueError.
Proof.
  intros R. unfold gen_polar_coordinates. rewrite !chain_false; [|apply R; left; apply PI_RGT_0|lra].
  unfold arange. destruct (Req_EM_T a 0); [discriminate|]. cbn [bind]. destruct (Req_EM_T b 0); [discriminate|]. cbn [bind].
  set (l := map _ _). set (l' := map _ _). destruct l; cbn [clip_last bind]; [discriminate|]. destruct l'; cbn [clip_last bind]; discriminate.
Qed.

(** ** C23, exact arithmetic *)
Definition idr (x : R) : R := x.

Lemma arange_exact limit h : 0 < limit -> 0 < h -> exists q, (0 < q)%nat /\
  arange idr (limit + h) h = Ok (map (fun i => INR i * h) (seq 0 (S q))) /\ limit <= INR q * h /\ INR q * h - h < limit.
Proof.
  intros HL Hh. unfold arange, idr. destruct (Req_EM_T h 0); [lra|].
  replace ((limit + h) / h) with (limit / h + IZR 1) by (field; lra).
  set (y := limit / h). assert (Y : 0 < y) by (apply Rdiv_lt_0_compat; assumption).
  assert (C : Zceil (y + IZR 1) = (Zceil y + 1)%Z).
  { apply Zceil_imp. rewrite minus_IZR, plus_IZR. pose proof (Zceil_ub y). pose proof (Zceil_lb y). lra. }
  rewrite C. pose proof (Zceil_ub y) as U. assert (LB : IZR (Zceil y) - 1 < y) by (pose proof (Zceil_lb y); lra).
  assert (P : (0 < Zceil y)%Z) by (apply lt_IZR; lra).
  exists (Z.to_nat (Zceil y)). split; [lia|]. split; [replace (Z.to_nat (Zceil y + 1)) with (S (Z.to_nat (Zceil y))) by lia; reflexivity|].
  rewrite INR_IZR_INZ, Z2Nat.id by lia. assert (E : limit = y * h) by (unfold y; field; lra). rewrite E. split; nra.
Qed.

Lemma covers_clip q h limit : (0 < q)%nat -> 0 < h -> 0 < limit -> limit <= INR q * h -> INR q * h - h < limit ->
  covers (map (fun i => if Nat.eqb i q then Rmin (INR q * h) limit else INR i * h) (seq 0 (S q))) limit h.
Proof.
  intros Hq Hh HL H1 H2. rewrite Rmin_right by exact H1.
  set (f := fun i => if Nat.eqb i q then limit else INR i * h).
  assert (F : forall i, (i < q)%nat -> f i = INR i * h) by (intros i Hi; unfold f; destruct (Nat.eqb_spec i q); [lia|reflexivity]).
  assert (FQ : f q = limit) by (unfold f; rewrite Nat.eqb_refl; reflexivity).
  split; [rewrite nth_seq_map by lia; rewrite F by exact Hq; simpl; ring|].
  split; [rewrite last_seq_map; exact FQ|]. split.
  - rewrite map_length, seq_length. intros i Hi. rewrite !nth_seq_map by lia.
    rewrite (F i) by lia. destruct (Nat.eq_dec (S i) q) as [E|NE].
    + rewrite E, FQ. rewrite <- E in H1, H2. rewrite S_INR in H1, H2. lra.
    + rewrite F by lia. rewrite S_INR. lra.
  - intros x Hx. apply in_map_iff in Hx. destruct Hx as (i & <- & Hi). apply in_seq in Hi.
    destruct (Nat.eq_dec i q) as [->|NE]; [rewrite FQ; lra|]. rewrite F by lia.
    pose proof (pos_INR i). assert (LE : (S i <= q)%nat) by lia. apply le_INR in LE. rewrite S_INR in LE. nra.
Qed.

Lemma polar_exact a b : 0 < a -> 0 < b ->
  exists rs ts, gen_polar_coordinates idr a b = Ok (rs, ts) /\ covers rs 1 a /\ covers ts (2 * PI) b.
Proof.
  intros Ha Hb. pose proof PI_RGT_0 as P.
  destruct (arange_exact 1 a) as (q & Q & E & L1 & L2); try lra.
  destruct (arange_exact (2 * PI) b) as (q' & Q' & E' & L1' & L2'); try lra.
  unfold gen_polar_coordinates. rewrite !chain_false by (unfold idr; lra).
  unfold two_pi. change (idr (1 + a)) with (1 + a). change (idr (idr (2 * idr PI) + b)) with (2 * PI + b). change (idr (2 * idr PI)) with (2 * PI).
  rewrite E, E'. cbn [bind]. rewrite !clip_seq. cbn [bind].
  eexists _, _. split; [reflexivity|]. split; apply covers_clip; lra || assumption.
Qed.

(** ** binary64 *)
Definition b64 (x : R) : R := round radix2 (FLT_exp (-1074) 53) ZnearestE x.
Notation fexp64 := (FLT_exp (-1074) 53).
Notation F64 := (generic_format radix2 fexp64).
Local Instance prec53 : Prec_gt_0 53.
Proof. reflexivity. Qed.

Lemma b64_mono x y : x <= y -> b64 x <= b64 y.
Proof. apply round_le; [apply FLT_exp_valid|apply valid_rnd_N]; reflexivity. Qed.
Lemma b64_id x : F64 x -> b64 x = x.
Proof. apply round_generic. apply valid_rnd_N. Qed.
Lemma b64_F x : F64 (b64 x).
Proof. apply generic_format_round; [apply FLT_exp_valid; reflexivity|apply valid_rnd_N]. Qed.

Lemma F64_IZR z : (Z.abs z <= 2 ^ 53)%Z -> F64 (IZR z).
Proof.
  intros H. destruct (Z.eq_dec (Z.abs z) (2 ^ 53)) as [E|NE].
  - apply generic_format_abs_inv. rewrite <- abs_IZR, E. change (IZR (2 ^ 53)) with (bpow radix2 53).
    apply generic_format_bpow. unfold FLT_exp. lia.
  - apply generic_format_FLT. exists (Float radix2 z 0); [|cbn; lia|cbn; lia].
    unfold F2R. cbn [Fnum Fexp bpow]. ring.
Qed.
Lemma b64_IZR z : (Z.abs z <= 2 ^ 53)%Z -> b64 (IZR z) = IZR z.
Proof. intros H. apply b64_id, F64_IZR, H. Qed.

(** absolute error when the exponent is known *)
Lemma b64_err x e : (-1021 <= e)%Z -> bpow radix2 (e - 1) <= Rabs x < bpow radix2 e -> Rabs (b64 x - x) <= bpow radix2 (e - 54).
Proof.
  intros He H. pose proof (error_le_half_ulp radix2 fexp64 (fun z => negb (Z.even z)) x) as E. fold ZnearestE in E.
  unfold b64. eapply Rle_trans; [apply E|]. rewrite ulp_neq_0.
  - unfold cexp. rewrite (mag_unique radix2 x e H). unfold FLT_exp. rewrite Z.max_l by lia.
    replace (/ 2) with (bpow radix2 (-1)) by reflexivity. rewrite <- bpow_plus. apply bpow_le. lia.
  - intros ->. rewrite Rabs_R0 in H. pose proof (bpow_gt_0 radix2 (e - 1)). lra.
Qed.
(** a value strictly below the midpoint above [u] is not rounded above [u] *)
Lemma b64_below u x e : F64 u -> (-1021 <= e)%Z -> bpow radix2 (e - 1) <= u < bpow radix2 e -> x < u + bpow radix2 (e - 54) -> b64 x <= u.
Proof.
  intros Fu He Hu H. apply round_N_le_midp; try exact Fu; try (apply FLT_exp_valid; reflexivity).
  pose proof (bpow_gt_0 radix2 (e - 1)). rewrite succ_eq_pos by lra. rewrite ulp_neq_0 by lra.
  unfold cexp. rewrite (mag_unique radix2 u e) by (rewrite Rabs_pos_eq; lra). unfold FLT_exp. rewrite Z.max_l by lia.
  replace (bpow radix2 (e - 53)) with (2 * bpow radix2 (e - 54)). lra.
  replace (e - 53)%Z with (1 + (e - 54))%Z by lia. rewrite bpow_plus. reflexivity.
Qed.

Lemma F64_double x : F64 x -> F64 (2 * x).
Proof.
  intros H. apply FLT_format_generic in H; [|reflexivity]. destruct H as [f E A B].
  apply generic_format_FLT. exists (Float radix2 (Fnum f) (Fexp f + 1)); [|exact A|cbn; lia].
  rewrite E. unfold F2R. cbn [Fnum Fexp]. rewrite bpow_plus. change (bpow radix2 1) with 2. ring.
Qed.

(** first element 0, non-decreasing, inside [0, limit] *)
Definition within (l : list R) (limit : R) : Prop :=
  l <> [] /\ nth 0 l 1 = 0 /\ (forall i, (S i < length l)%nat -> nth i l 0 <= nth (S i) l 0) /\ (forall x, In x l -> 0 <= x <= limit).

Lemma b64_0 : b64 0 = 0.
Proof. apply round_0. apply valid_rnd_N. Qed.

Lemma within_clip h limit q : 0 <= h -> 0 <= limit -> (0 < q)%nat -> b64 (INR (q - 1) * h) <= limit ->
  within (map (fun i => if Nat.eqb i q then Rmin (b64 (INR q * h)) limit else b64 (INR i * h)) (seq 0 (S q))) limit.
Proof.
  intros Hh HL Hq H. set (f := fun i => if Nat.eqb i q then Rmin (b64 (INR q * h)) limit else b64 (INR i * h)).
  assert (F : forall i, (i < q)%nat -> f i = b64 (INR i * h)) by (intros i Hi; unfold f; destruct (Nat.eqb_spec i q); [lia|reflexivity]).
  assert (FQ : f q = Rmin (b64 (INR q * h)) limit) by (unfold f; rewrite Nat.eqb_refl; reflexivity).
  assert (M : forall i j, (i <= j)%nat -> b64 (INR i * h) <= b64 (INR j * h)).
  { intros i j L. apply b64_mono. apply Rmult_le_compat_r; [exact Hh|apply le_INR, L]. }
  assert (Z : b64 (INR 0 * h) = 0) by (simpl; rewrite Rmult_0_l; apply b64_0).
  split; [discriminate|]. split; [rewrite nth_seq_map by lia; rewrite F by exact Hq; exact Z|]. split.
  - rewrite map_length, seq_length. intros i Hi. rewrite !nth_seq_map by lia. rewrite (F i) by lia.
    destruct (Nat.eq_dec (S i) q) as [E|NE].
    + rewrite E, FQ. apply Rmin_glb; [apply M; lia|]. replace i with (q - 1)%nat by lia. exact H.
    + rewrite F by lia. apply M. lia.
  - intros x Hx. apply in_map_iff in Hx. destruct Hx as (i & <- & Hi). apply in_seq in Hi.
    destruct (Nat.eq_dec i q) as [->|NE].
    + rewrite FQ. split; [|apply Rmin_r]. apply Rmin_glb; [|exact HL]. rewrite <- Z. apply M. lia.
    + rewrite F by lia. split; [rewrite <- Z; apply M; lia|]. apply Rle_trans with (b64 (INR (q - 1) * h)); [apply M; lia|exact H].
Qed.

(** number of elements: q + 1 with q < (rounded quotient) *)
Lemma arange_b64 L h : F64 L -> 0 < L -> L <= bpow radix2 100 -> 0 < h -> 2 * h <= L -> 2 * L <= IZR (2 ^ 53) * h ->
  exists q, (0 < q)%nat /\ (Z.of_nat q < 2 ^ 53)%Z /\ arange b64 (b64 (L + h)) h = Ok (map (fun i => b64 (INR i * h)) (seq 0 (S q))) /\
    INR q < b64 (b64 (L + h) / h) <= INR q + 1.
Proof.
  intros FL L0 LB Hh H2 Hbig. unfold arange. destruct (Req_EM_T h 0); [lra|].
  set (s := b64 (L + h)). set (y := s / h).
  assert (S1 : L <= s) by (rewrite <- (b64_id L FL); apply b64_mono; lra).
  assert (F2 : F64 (2 * L)).
  { apply F64_double, FL. }
  assert (S2 : s <= 2 * L) by (rewrite <- (b64_id _ F2); apply b64_mono; lra).
  assert (Y1 : 2 <= y). { unfold y. apply Rmult_le_reg_r with h; [exact Hh|]. unfold Rdiv. rewrite Rmult_assoc, Rinv_l by lra. lra. }
  assert (Y2 : y <= IZR (2 ^ 53)). { unfold y. apply Rmult_le_reg_r with h; [exact Hh|]. unfold Rdiv. rewrite Rmult_assoc, Rinv_l by lra. lra. }
  assert (Q1 : 2 <= b64 y). { rewrite <- (b64_IZR 2) by lia. apply b64_mono. exact Y1. }
  assert (Q2 : b64 y <= IZR (2 ^ 53)). { rewrite <- (b64_IZR (2 ^ 53)) by lia. apply b64_mono. exact Y2. }
  set (N := Zceil (b64 y)). pose proof (Zceil_ub (b64 y)) as U. fold N in U.
  assert (LB' : IZR N - 1 < b64 y) by (pose proof (Zceil_lb (b64 y)); unfold N; lra).
  assert (N2 : (2 <= N)%Z) by (apply le_IZR; lra).
  assert (NB : (N <= 2 ^ 53)%Z). { apply Zceil_glb. exact Q2. }
  exists (Z.to_nat (N - 1)). split; [lia|]. split; [lia|]. split.
  - replace (S (Z.to_nat (N - 1))) with (Z.to_nat N) by lia. reflexivity.
  - rewrite INR_IZR_INZ, Z2Nat.id by lia. rewrite minus_IZR. lra.
Qed.

Lemma second_last L h e q : F64 L -> (-900 <= e <= 90)%Z -> bpow radix2 (e - 1) <= L < bpow radix2 e -> 0 < h ->
  L + h < bpow radix2 e -> (0 < q)%nat -> (Z.of_nat q < 2 ^ 53)%Z -> INR q < b64 (b64 (L + h) / h) -> b64 (INR (q - 1) * h) <= L.
Proof.
  intros FL He HL Hh HLh Hq QB HQ. apply (b64_below L _ e FL); [lia|exact HL|].
  assert (Y : INR q < b64 (L + h) / h).
  { apply Rnot_le_lt. intros LE. apply b64_mono in LE. rewrite INR_IZR_INZ in LE, HQ. rewrite b64_IZR in LE by lia. lra. }
  assert (S : INR q * h < b64 (L + h)).
  { apply Rmult_lt_compat_r with (r := h) in Y; [|exact Hh]. unfold Rdiv in Y. rewrite Rmult_assoc, Rinv_l in Y by lra. lra. }
  pose proof (bpow_gt_0 radix2 (e - 1)).
  pose proof (b64_err (L + h) e ltac:(lia) ltac:(rewrite Rabs_pos_eq; lra)) as E. apply Rabs_le_inv in E.
  rewrite minus_INR by lia. simpl (INR 1). lra.
Qed.

Lemma PI_bounds : 3 < PI < 33 / 10.
Proof.
  split; [pose proof PI2_3_2; lra|].
  destruct (PI_ineq 3) as [_ H]. change (2 * 3)%nat with 6%nat in H. cbn [sum_f_R0] in H.
  unfold tg_alt, PI_tg in H. simpl in H. lra.
Qed.

Lemma two_pi_facts : F64 (two_pi b64) /\ 6 <= two_pi b64 <= 27 / 4 /\ 3 <= b64 PI <= 27 / 8 /\ two_pi b64 = 2 * b64 PI.
Proof.
  pose proof PI_bounds as [A B].
  assert (P1 : 3 <= b64 PI) by (rewrite <- (b64_IZR 3) by lia; apply b64_mono; lra).
  assert (F72 : F64 (27 / 8)).
  { assert (E : 27 / 8 = IZR 27 * bpow radix2 (-3)) by (simpl; lra). rewrite E. apply generic_format_FLT.
    exists (Float radix2 27 (-3)); [reflexivity|cbn; lia|cbn; lia]. }
  assert (P2 : b64 PI <= 27 / 8) by (rewrite <- (b64_id _ F72); apply b64_mono; lra).
  assert (F2 : F64 (2 * b64 PI)).
  { apply F64_double, b64_F. }
  assert (E : two_pi b64 = 2 * b64 PI) by (apply b64_id, F2).
  split; [rewrite E; exact F2|]. rewrite E. lra.
Qed.

(** the angles, when the rounded sum 2 pi + step leaves the binade *)
Lemma second_last_theta h q : F64 h -> 0 < h -> h <= b64 PI -> 8 <= two_pi b64 + h ->
  (0 < q)%nat -> INR q < b64 (b64 (two_pi b64 + h) / h) -> b64 (INR (q - 1) * h) <= two_pi b64.
Proof.
  intros Fh Hh Hp H8 Hq HQ. destruct two_pi_facts as (FL & HL & HP & E2). set (L := two_pi b64) in *.
  set (s := b64 (L + h)) in *.
  assert (SE : Rabs (s - (L + h)) <= bpow radix2 (-50)).
  { apply (b64_err (L + h) 4); [lia|]. rewrite Rabs_pos_eq by lra. simpl. lra. }
  apply Rabs_le_inv in SE.
  assert (B50 : bpow radix2 (-50) = 2 * bpow radix2 (-51)) by (change (-50)%Z with (1 + -51)%Z; rewrite bpow_plus; reflexivity).
  assert (B51 : 0 < bpow radix2 (-51) < / 1000) by (split; [apply bpow_gt_0|simpl; lra]).
  (* at most 4 steps fit *)
  assert (Y : s / h < 7).
  { apply Rmult_lt_reg_r with h; [exact Hh|]. unfold Rdiv. rewrite Rmult_assoc, Rinv_l by lra. lra. }
  assert (Q7 : b64 (s / h) <= 7) by (rewrite <- (b64_IZR 7) by lia; apply b64_mono; lra).
  assert (QN : (q < 7)%nat). { apply INR_lt. simpl (INR 7). lra. }
  assert (YQ : INR q < s / h).
  { apply Rnot_le_lt. intros LE. apply b64_mono in LE. rewrite INR_IZR_INZ in LE, HQ. rewrite b64_IZR in LE by lia. lra. }
  assert (SQ : INR q * h < s).
  { apply Rmult_lt_compat_r with (r := h) in YQ; [|exact Hh]. unfold Rdiv in YQ. rewrite Rmult_assoc, Rinv_l in YQ by lra. lra. }
  (* strictly above the midpoint over q *)
  assert (MID : forall e, (-900 <= e <= 90)%Z -> bpow radix2 (e - 1) <= INR q < bpow radix2 e -> (INR q + bpow radix2 (e - 54)) * h <= s).
  { intros e He HB. apply Rnot_lt_le. intros C. 
    assert (b64 (s / h) <= INR q); [|lra]. apply (b64_below (INR q) _ e); [rewrite INR_IZR_INZ; apply F64_IZR; lia|lia|exact HB|].
    apply Rmult_lt_reg_r with h; [exact Hh|]. unfold Rdiv. rewrite Rmult_assoc, Rinv_l by lra. lra. }
  apply (b64_below L _ 3 FL); [lia|simpl; lra|]. change (3 - 54)%Z with (-51)%Z.
  rewrite minus_INR by lia. change (INR 1) with 1.
  assert (CASES : q = 1%nat \/ q = 2%nat \/ q = 3%nat \/ (4 <= q)%nat) by lia. destruct CASES as [->|[->|[->|Q4]]].
  - simpl (INR 1). lra.
  - simpl (INR 2). lra.
  - specialize (MID 2%Z ltac:(lia) ltac:(simpl; lra)). change (2 - 54)%Z with (-52)%Z in MID.
    assert (B52 : bpow radix2 (-51) = 2 * bpow radix2 (-52)) by (change (-51)%Z with (1 + -52)%Z; rewrite bpow_plus; reflexivity).
    simpl (INR 3) in *. destruct (Rle_lt_dec h (5 / 2)); [lra|nra].
  - assert (Q4' : 4 <= INR q) by (apply le_INR in Q4; simpl (INR 4) in Q4; lra).
    assert (Q8 : INR q < 8) by (apply lt_INR in QN; simpl (INR 7) in QN; lra).
    specialize (MID 3%Z ltac:(lia) ltac:(simpl; lra)). change (3 - 54)%Z with (-51)%Z in MID. nra.
Qed.

Lemma polar_b64 a b : F64 a -> F64 b -> bpow radix2 (-50) <= a <= 1 / 2 -> bpow radix2 (-48) <= b <= b64 PI ->
  exists rs ts, gen_polar_coordinates b64 a b = Ok (rs, ts) /\ within rs 1 /\ within ts (two_pi b64).
Proof.
  intros Fa Fb Ha Hb. destruct two_pi_facts as (FL & HL & HP & E2).
  assert (A0 : 0 < a) by (pose proof (bpow_gt_0 radix2 (-50)); lra). assert (B0 : 0 < b) by (pose proof (bpow_gt_0 radix2 (-48)); lra).
  assert (F1 : F64 1) by (apply (F64_IZR 1); lia).
  assert (BIG : forall c z, bpow radix2 z <= c -> (-53 <= z)%Z -> bpow radix2 (z + 53) <= IZR (2 ^ 53) * c).
  { intros c z Hc Hz. rewrite bpow_plus, Rmult_comm. change (bpow radix2 53) with (IZR (2 ^ 53)). apply Rmult_le_compat_l; [apply IZR_le; lia|exact Hc]. }
  destruct (arange_b64 1 a F1) as (q & Q & QB & E & L1 & L2); try lra.
  { simpl. lra. }
  { pose proof (BIG a (-50)%Z ltac:(apply Ha) ltac:(lia)) as X. simpl bpow in X. lra. }
  destruct (arange_b64 (two_pi b64) b FL) as (q' & Q' & QB' & E' & L1' & L2'); try lra.
  { simpl. lra. }
  { pose proof (BIG b (-48)%Z ltac:(apply Hb) ltac:(lia)) as X. simpl bpow in X. lra. }
  unfold gen_polar_coordinates. rewrite !chain_false by lra. rewrite E, E'. cbn [bind]. rewrite !clip_seq. cbn [bind].
  eexists _, _. split; [reflexivity|]. split; apply within_clip; try lra; try assumption.
  - apply (second_last 1 a 1 q F1); try lra; try lia; try (simpl; lra); assumption.
  - destruct (Rlt_le_dec (two_pi b64 + b) 8).
    + apply (second_last (two_pi b64) b 3 q' FL); try lra; try lia; try (simpl; lra); assumption.
    + apply second_last_theta; try assumption; lra.
Qed.

(** ** C23 in binary64: the exact statement fails *)
Lemma b64_val x m e : (-1074 <= e)%Z -> bpow radix2 (e + 52) <= x < bpow radix2 (e + 53) ->
  Rabs (x * bpow radix2 (- e) - IZR m) < / 2 -> b64 x = IZR m * bpow radix2 e.
Proof.
  intros He Hx Hm. unfold b64, round, scaled_mantissa, cexp. pose proof (bpow_gt_0 radix2 (e + 52)).
  rewrite (mag_unique radix2 x (e + 53)).
  2:{ rewrite Rabs_pos_eq by lra. replace (e + 53 - 1)%Z with (e + 52)%Z by lia. exact Hx. }
  unfold FLT_exp. rewrite Z.max_l by lia. replace (e + 53 - 53)%Z with e by lia.
  rewrite (Znearest_imp _ _ m Hm). reflexivity.
Qed.

(** the double nearest to 1/30, and the one before the double nearest to 1/5 *)
Definition step30 : R := 4803839602528529 / 144115188075855872.
Definition step5 : R := 7205759403792793 / 36028797018963968.

Lemma F64_ratio z k : (Z.abs z < 2 ^ 53)%Z -> (0 <= k <= 1000)%Z -> F64 (IZR z / IZR (2 ^ k)).
Proof.
  intros Hz Hk. apply generic_format_FLT. exists (Float radix2 z (- k)); [|exact Hz|cbn; lia].
  unfold F2R. cbn [Fnum Fexp]. rewrite bpow_opp. rewrite <- IZR_Zpower by lia. reflexivity.
Qed.
Lemma F64_step30 : F64 step30.
Proof. apply (F64_ratio 4803839602528529 57); lia. Qed.
Lemma F64_step5 : F64 step5.
Proof. apply (F64_ratio 7205759403792793 55); lia. Qed.

Lemma polar_radii b a q : F64 a -> 0 < a <= 1 / 2 -> bpow radix2 (-48) <= b <= b64 PI ->
  Z.to_nat (Zceil (b64 (b64 (1 + a) / a))) = S q ->
  exists ts, gen_polar_coordinates b64 a b =
    Ok (map (fun i => if Nat.eqb i q then Rmin (b64 (INR q * a)) 1 else b64 (INR i * a)) (seq 0 (S q)), ts).
Proof.
  intros Fa Ha Hb E. destruct two_pi_facts as (FL & HL & HP & E2).
  assert (B0 : 0 < b) by (pose proof (bpow_gt_0 radix2 (-48)); lra).
  assert (BIG : bpow radix2 (-48 + 53) <= IZR (2 ^ 53) * b).
  { rewrite bpow_plus, Rmult_comm. change (bpow radix2 53) with (IZR (2 ^ 53)). apply Rmult_le_compat_l; [apply IZR_le; lia|apply Hb]. }
  destruct (arange_b64 (two_pi b64) b FL) as (q' & Q' & QB' & E' & L1' & L2'); try lra.
  { simpl. lra. }
  { simpl bpow in BIG. lra. }
  unfold gen_polar_coordinates. rewrite !chain_false by lra. rewrite E'. unfold arange at 1. rewrite E.
  destruct (Req_EM_T a 0); [lra|]. cbn [bind]. rewrite !clip_seq. cbn [bind]. eexists. reflexivity.
Qed.

Lemma polar_duplicate b : bpow radix2 (-48) <= b <= b64 PI ->
  exists rs ts, gen_polar_coordinates b64 step30 b = Ok (rs, ts) /\ length rs = 32%nat /\ nth 30 rs 0 = 1 /\ nth 31 rs 0 = 1.
Proof.
  intros Hb. 
  assert (E1 : b64 (1 + step30) = IZR 4653719614949513 * bpow radix2 (-52)).
  { apply b64_val; [lia|unfold step30; simpl; lra|]. unfold step30. simpl. apply Rabs_def1; lra. }
  assert (E2 : b64 (b64 (1 + step30) / step30) = IZR 8725724278030337 * bpow radix2 (-48)).
  { rewrite E1. apply b64_val; [lia|unfold step30; simpl; lra|]. unfold step30. simpl. apply Rabs_def1; lra. }
  assert (E3 : Zceil (b64 (b64 (1 + step30) / step30)) = 32%Z).
  { rewrite E2. apply Zceil_imp. simpl. lra. }
  assert (E4 : b64 (INR 30 * step30) = 1).
  { rewrite (b64_val _ (2 ^ 53) (-53)); [simpl; lra|lia|rewrite INR_IZR_INZ; unfold step30; simpl; lra|].
    rewrite INR_IZR_INZ. unfold step30. simpl. apply Rabs_def1; lra. }
  destruct (polar_radii b step30 31 F64_step30) as (ts & G); [unfold step30; lra|exact Hb|rewrite E3; reflexivity|].
  rewrite G. eexists _, ts. split; [reflexivity|]. split; [rewrite map_length, seq_length; reflexivity|].
  rewrite !nth_seq_map by lia. cbn [Nat.eqb]. split; [exact E4|]. apply Rmin_right.
  rewrite <- E4. apply b64_mono. rewrite !INR_IZR_INZ. unfold step30. simpl. lra.
Qed.

Lemma polar_short b : bpow radix2 (-48) <= b <= b64 PI ->
  exists rs ts, gen_polar_coordinates b64 step5 b = Ok (rs, ts) /\ length rs = 6%nat /\ forall x, In x rs -> x < 1.
Proof.
  intros Hb. 
  assert (E1 : b64 (1 + step5) = IZR 5404319552844595 * bpow radix2 (-52)).
  { apply b64_val; [lia|unfold step5; simpl; lra|]. unfold step5. simpl. apply Rabs_def1; lra. }
  assert (E2 : b64 (b64 (1 + step5) / step5) = IZR 6755399441055744 * bpow radix2 (-50)).
  { rewrite E1. apply b64_val; [lia|unfold step5; simpl; lra|]. unfold step5. simpl. apply Rabs_def1; lra. }
  assert (E3 : Zceil (b64 (b64 (1 + step5) / step5)) = 6%Z).
  { rewrite E2. apply Zceil_imp. simpl. lra. }
  assert (E4 : b64 (INR 5 * step5) < 1).
  { rewrite (b64_val _ (2 ^ 53 - 1) (-53)); [simpl; lra|lia|rewrite INR_IZR_INZ; unfold step5; simpl; lra|].
    rewrite INR_IZR_INZ. unfold step5. simpl. apply Rabs_def1; lra. }
  destruct (polar_radii b step5 5 F64_step5) as (ts & G); [unfold step5; lra|exact Hb|rewrite E3; reflexivity|].
  rewrite G. eexists _, ts. split; [reflexivity|]. split; [rewrite map_length, seq_length; reflexivity|].
  intros x Hx. apply in_map_iff in Hx. destruct Hx as (i & <- & Hi). apply in_seq in Hi.
  apply Rle_lt_trans with (b64 (INR 5 * step5)); [|exact E4].
  destruct (Nat.eqb_spec i 5); [apply Rmin_l|]. apply b64_mono. apply Rmult_le_compat_r; [unfold step5; lra|]. apply le_INR. lia.
Qed.

Lemma polar_zero rnd a b : a = 0 \/ (a <> 0 /\ b = 0) -> (forall x, 0 <= x -> 0 <= rnd x) -> gen_polar_coordinates rnd a b = Raise ZeroDivisionError.
Proof.
  intros H R. unfold gen_polar_coordinates. rewrite !chain_false; [|apply R; left; apply PI_RGT_0|lra]. unfold arange.
  destruct H as [->|[H ->]].
  - destruct (Req_EM_T 0 0); [reflexivity|congruence].
  - destruct (Req_EM_T a 0); [congruence|]. cbn [bind]. destruct (Req_EM_T 0 0); [reflexivity|congruence].
Qed.

Lemma polar_negative a b : -1 <= a < 0 -> 0 < b -> gen_polar_coordinates idr a b = Raise IndexError.
Proof.
  intros Ha Hb. pose proof PI_RGT_0. unfold gen_polar_coordinates. rewrite !chain_false by (unfold idr; lra). unfold arange, idr.
  destruct (Req_EM_T a 0); [lra|]. destruct (Req_EM_T b 0); [lra|]. cbn [bind].
  assert (E : Z.to_nat (Zceil ((1 + a) / a)) = 0%nat).
  { assert (Zceil ((1 + a) / a) <= 0)%Z; [|lia]. apply Zceil_glb. simpl. apply Rmult_le_reg_r with (- a); [lra|]. 
    replace ((1 + a) / a * - a) with (- (1 + a)) by (field; lra). lra. }
  rewrite E. reflexivity.
Qed.

Lemma polar_below a b : a < -1 -> 0 < b -> exists ts, gen_polar_coordinates idr a b = Ok ([0], ts).
Proof.
  intros Ha Hb. pose proof PI_RGT_0. destruct (polar_exact 1 b) as (rs & ts & G & _); [lra|exact Hb|].
  unfold gen_polar_coordinates in G |- *. rewrite !chain_false in G by (unfold idr; lra). rewrite !chain_false by (unfold idr; lra).
  assert (E : arange idr (idr (1 + a)) a = Ok [0]).
  { unfold arange, idr. destruct (Req_EM_T a 0); [lra|]. 
    assert (E : Zceil ((1 + a) / a) = 1%Z).
    { apply Zceil_imp. assert (Q : (1 + a) / a = 1 - / - a) by (field; lra). 
      assert (0 < / - a) by (apply Rinv_0_lt_compat; lra). assert (/ - a < 1) by (rewrite <- Rinv_1; apply Rinv_lt_contravar; lra).
      rewrite Q. simpl. lra. }
    rewrite E. change (Z.to_nat 1) with 1%nat. cbn [map seq]. change (INR 0) with 0. rewrite Rmult_0_l. reflexivity. }
  rewrite E. destruct (arange idr (idr (two_pi idr + b)) b) as [t|]; [|destruct (arange idr (idr (1 + 1)) 1); discriminate]. cbn [bind] in *.
  destruct (arange idr (idr (1 + 1)) 1) as [r|]; [|discriminate]. cbn [bind] in G. destruct (clip_last r 1) as [r'|]; [|discriminate]. cbn [bind] in G.
  replace (clip_last [0] 1) with (@Ok (list R) [0]).
  - cbn [bind]. destruct (clip_last t (two_pi idr)) as [t'|]; [|discriminate]. cbn [bind]. eexists; reflexivity.
  - unfold clip_last, Rlt_b. cbn [last]. destruct (Rlt_dec 1 0); [lra|reflexivity].
Qed.

Lemma linspace_covers stop n : 0 < stop -> (2 <= n)%nat -> length (linspace idr stop n) = n /\ covers (linspace idr stop n) stop (stop / INR (n - 1)).
Proof.
  intros Hs Hn. destruct n as [|[|k]]; [lia|lia|]. replace (S (S k) - 1)%nat with (S k) by lia.
  assert (P : 0 < INR (S k)) by (apply lt_0_INR; lia). set (h := stop / INR (S k)).
  assert (Hh : 0 < h) by (apply Rdiv_lt_0_compat; assumption).
  assert (E : INR (S k) * h = stop) by (unfold h; field; lra).
  assert (EQ : linspace idr stop (S (S k)) = map (fun i => if Nat.eqb i (S k) then Rmin (INR (S k) * h) stop else INR i * h) (seq 0 (S (S k)))).
  { unfold linspace. replace (S (S k) - 1)%nat with (S k) by lia. fold h. rewrite (seq_S (S k)), map_app. cbn [map plus]. rewrite Nat.eqb_refl, E.
    rewrite Rmin_left by lra. f_equal. apply map_ext_in. intros i Hi. apply in_seq in Hi. destruct (Nat.eqb_spec i (S k)); [lia|reflexivity]. }
  rewrite EQ. split; [rewrite map_length, seq_length; reflexivity|]. apply covers_clip; try assumption; try lia; lra.
Qed.

Lemma equal_mesh N : let n := Z.to_nat (Z.max 4 N) in let h := INR (n - 1) in
  let '(rs, ts) := gen_equal_polar_mesh idr N in
  length rs = n /\ length ts = n /\ covers rs 1 (1 / h) /\ covers ts (2 * PI) (2 * PI / h).
Proof.
  intros n h. unfold gen_equal_polar_mesh. pose proof PI_RGT_0.
  replace (if (N <? 4)%Z then 4%Z else N) with (Z.max 4 N) by (destruct (Z.ltb_spec N 4); lia).
  destruct (linspace_covers 1 n) as [A B]; [lra|lia|]. destruct (linspace_covers (2 * PI) n) as [C D]; [lra|lia|]. fold n. tauto.
Qed.

Lemma Ok_inj {A} (a b : A) : Ok a = Ok b -> b = a.
Proof. congruence. Qed.
Lemma arange_len limit h : 0 < limit -> 0 < h -> limit < 2 * h -> exists l, arange idr (limit + h) h = Ok l /\ (length l <= 3)%nat.
Proof.
  intros HL Hh H. destruct (arange_exact limit h HL Hh) as (q & Q & E & _ & L2). rewrite E. eexists. split; [reflexivity|].
  rewrite map_length, seq_length. assert (INR q < INR 3); [|apply INR_lt in H0; lia]. simpl (INR 3). nra.
Qed.
Lemma large_accepted a b : 1 / 2 < a -> PI < b ->
  exists rs ts, gen_polar_coordinates idr a b = Ok (rs, ts) /\ (length rs <= 3)%nat /\ (length ts <= 3)%nat.
Proof.
  intros Ha Hb. pose proof PI_RGT_0 as P. destruct (arange_exact 1 a) as (q & Q & E & L1 & L2); try lra.
  destruct (arange_exact (2 * PI) b) as (q' & Q' & E' & L1' & L2'); try lra.
  destruct (arange_len 1 a) as (l & G & GL); try lra. rewrite E in G. apply Ok_inj in G; subst l.
  destruct (arange_len (2 * PI) b) as (l & G & GL'); try lra. rewrite E' in G. apply Ok_inj in G; subst l. rewrite map_length, seq_length in GL, GL'.
  unfold gen_polar_coordinates. rewrite !chain_false by (unfold idr; lra).
  unfold two_pi. change (idr (1 + a)) with (1 + a). change (idr (idr (2 * idr PI) + b)) with (2 * PI + b). change (idr (2 * idr PI)) with (2 * PI).
  rewrite E, E'. cbn [bind]. rewrite !clip_seq. cbn [bind].
  eexists _, _. split; [reflexivity|]. rewrite !map_length, !seq_length. tauto.
Qed.
