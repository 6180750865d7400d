(** Lemmas for C23 (binary64 mesh) and C58 (surfaces and plots). *)
From Coq Require Import Reals Lra Lia.
From Flocq Require Import Core Relative.
From Verif Require Import Py M_Polar L_Polar L_Float.
Local Open Scope R_scope.

Lemma b64_relN x : bpow radix2 (-1000) <= Rabs x -> Rabs (b64 x - x) <= u * Rabs x.
Proof.
  intros H. pose proof (relative_error_N_FLT radix2 (-1074) 53 ltac:(reflexivity) (fun z => negb (Z.even z)) x) as E.
  fold ZnearestE in E. unfold b64. eapply Rle_trans; [apply E|].
  - eapply Rle_trans; [|exact H]. apply bpow_le. lia.
  - apply Rmult_le_compat_r; [apply Rabs_pos|]. rewrite u_val. replace (/ 2) with (bpow radix2 (-1)) by reflexivity. rewrite <- bpow_plus. apply bpow_le. lia.
Qed.

Lemma covers_list (f : nat -> R) k L g : (0 < k)%nat -> f 0%nat = 0 -> (forall i, (S i < k)%nat -> 0 < f (S i) - f i <= g) -> 0 < L - f (k - 1)%nat <= g ->
  length (map f (seq 0 k) ++ [L]) = S k /\ covers (map f (seq 0 k) ++ [L]) L g.
Proof.
  intros K F0 ST LA. assert (LN : length (map f (seq 0 k) ++ [L]) = S k) by (rewrite app_length, map_length, seq_length; cbn; lia).
  assert (NTH : forall i d, (i < k)%nat -> nth i (map f (seq 0 k) ++ [L]) d = f i).
  { intros i d Hi. rewrite app_nth1 by (rewrite map_length, seq_length; lia). apply nth_seq_map, Hi. }
  assert (NL : forall d, nth k (map f (seq 0 k) ++ [L]) d = L).
  { intros d. rewrite app_nth2 by (rewrite map_length, seq_length; lia). rewrite map_length, seq_length, Nat.sub_diag. reflexivity. }
  assert (MON : forall i, (i < k)%nat -> 0 <= f i <= L).
  { assert (UP : forall i, (i < k)%nat -> 0 <= f i) by (induction i as [|i IH]; intros Hi; [lra|]; pose proof (ST i Hi); specialize (IH ltac:(lia)); lra).
    assert (DN : forall d, (d < k)%nat -> f (k - 1 - d)%nat <= L).
    { induction d as [|d IH]; intros Hd; [rewrite Nat.sub_0_r; lra|]. specialize (IH ltac:(lia)). pose proof (ST (k - 1 - S d)%nat ltac:(lia)) as G.
      replace (S (k - 1 - S d)) with (k - 1 - d)%nat in G by lia. lra. }
    intros i Hi. split; [apply UP, Hi|]. replace i with (k - 1 - (k - 1 - i))%nat by lia. apply DN. lia. }
  split; [exact LN|]. split; [rewrite NTH by exact K; exact F0|]. split; [apply last_last|]. rewrite LN. split.
  - intros i Hi. destruct (Nat.eq_dec (S i) k) as [E|NE].
    + rewrite E, NL. rewrite NTH by lia. replace i with (k - 1)%nat by lia. exact LA.
    + rewrite !NTH by lia. apply ST. lia.
  - intros x Hx. apply in_app_or in Hx as [Hx|[<- |[]]].
    + apply in_map_iff in Hx as (i & <- & Hi). apply in_seq in Hi. apply MON. lia.
    + pose proof (MON (k - 1)%nat ltac:(lia)). lra.
Qed.

Lemma linspace_b64 L n : 1 <= L <= 7 -> (4 <= n)%nat -> (Z.of_nat n <= 2 ^ 26)%Z ->
  length (linspace b64 L n) = n /\ covers (linspace b64 L n) L ((1 + 1 / 1000000) * (L / INR (n - 1))).
Proof.
  intros HL Hn Hb. unfold linspace. set (k := (n - 1)%nat). replace n with (S k) at 1 by (unfold k; lia).
  assert (K1 : 3 <= INR k) by (replace 3 with (INR 3) by (simpl; lra); apply le_INR; unfold k; lia).
  assert (K2 : INR k <= 67108864) by (rewrite INR_IZR_INZ; apply IZR_le; unfold k; lia).
  pose proof u_pos as U0. pose proof u_small as U1. set (K := INR k) in *.
  assert (P53 : 2 ^ 53 = 9007199254740992) by (rewrite (pow_IZR 2 53); reflexivity).
  assert (UV : u * 9007199254740992 = 1) by (unfold u; rewrite P53; field).
  assert (UK : u * K <= 1 / 100000000) by nra.
  assert (Q : L / K * K = L) by (field; lra). set (q := L / K) in *.
  assert (Q0 : 0 < q) by (apply Rdiv_lt_0_compat; lra).
  assert (QS : 1 <= q * 67108864) by nra.
  assert (BP : bpow radix2 (-1000) <= Rabs q).
  { rewrite Rabs_pos_eq by lra. apply Rle_trans with (bpow radix2 (-26)); [apply bpow_le; lia|]. simpl. lra. }
  pose proof (b64_relN q BP) as E. rewrite (Rabs_pos_eq q) in E by lra. apply Rabs_le_inv in E. set (s := b64 q) in *.
  assert (UQ : u <= q / 100000) by lra.
  assert (UQ2 : u * L <= q / 100000000) by (rewrite <- Q; nra).
  assert (VAL : forall i, (i < k)%nat -> Rabs (b64 (INR i * s) - INR i * s) <= 2 * (u * L)).
  { intros i Hi. assert (IK : INR i <= K - 1) by (unfold K; replace (INR k - 1) with (INR (k - 1)) by (rewrite minus_INR by lia; reflexivity); apply le_INR; lia).
    pose proof (pos_INR i) as I0. assert (IS : 0 <= INR i * s <= L).
    { assert (0 <= u * q) by nra. assert (S0 : 0 <= s <= q + u * q) by nra. split; [nra|]. assert (INR i * s <= (K - 1) * (q + u * q)) by (apply Rmult_le_compat; lra). nra. }
    eapply Rle_trans; [apply b64_rel|]. rewrite Rabs_pos_eq by lra. nra. }
  apply covers_list.
  - unfold k; lia.
  - simpl. rewrite Rmult_0_l. apply L_Polar.b64_0.
  - intros i Hi. pose proof (VAL i ltac:(lia)) as A. pose proof (VAL (S i) Hi) as B. apply Rabs_le_inv in A, B. rewrite S_INR in *. nra.
  - pose proof (VAL (k - 1)%nat ltac:(unfold k; lia)) as A. apply Rabs_le_inv in A.
    assert (EK : INR (k - 1) = K - 1) by (unfold K; rewrite minus_INR by (unfold k; lia); reflexivity). rewrite EK in *.
    assert (T : Rabs ((K - 1) * s - (L - q)) <= u * L).
    { replace ((K - 1) * s - (L - q)) with ((K - 1) * (s - q)) by (rewrite <- Q; ring). rewrite Rabs_mult, (Rabs_pos_eq (K - 1)) by lra.
      assert (Rabs (s - q) <= u * q) by (apply Rabs_le; lra). assert (u * L = u * q * K) by (rewrite <- Q; ring). assert (0 <= u * q) by nra. pose proof (Rabs_pos (s - q)). nra. }
    apply Rabs_le_inv in T. lra.
Qed.

Lemma equal_mesh_b64 N : (N <= 2 ^ 26)%Z -> let n := Z.to_nat (Z.max 4 N) in let h := INR (n - 1) in
  let '(rs, ts) := gen_equal_polar_mesh b64 N in
  length rs = n /\ length ts = n /\ covers rs 1 ((1 + 1 / 1000000) * (1 / h)) /\ covers ts (two_pi b64) ((1 + 1 / 1000000) * (two_pi b64 / h)).
Proof.
  intros HN n h. unfold gen_equal_polar_mesh. destruct two_pi_facts as (_ & HL & _ & _).
  replace (if (N <? 4)%Z then 4%Z else N) with (Z.max 4 N) by (destruct (Z.ltb_spec N 4); lia).
  destruct (linspace_b64 1 n) as [A B]; [lra|lia|lia|]. destruct (linspace_b64 (two_pi b64) n) as [C D]; [lra|lia|lia|]. fold n. tauto.
Qed.

(** every number of [0, limit] is within [g] of an element *)
Definition dense (l : list R) (limit g : R) : Prop := forall x, 0 <= x <= limit -> exists y, In y l /\ Rabs (x - y) <= g.

Lemma gaps_dense g x : 0 <= g -> forall l a, (forall i, (S i < length (a :: l))%nat -> nth (S i) (a :: l) 0 - nth i (a :: l) 0 <= g) ->
  a <= x <= last (a :: l) 0 -> exists y, In y (a :: l) /\ Rabs (x - y) <= g.
Proof.
  intros Hg. induction l as [|b l IH]; intros a ST Hx.
  - exists a. split; [left; reflexivity|]. cbn in Hx. rewrite Rabs_pos_eq; lra.
  - destruct (Rle_lt_dec b x) as [B|B].
    + destruct (IH b) as (y & Y & D); [|split; [exact B|exact (proj2 Hx)]|exists y; split; [right; exact Y|exact D]].
      intros i Hi. apply (ST (S i)). cbn [length] in *. lia.
    + exists a. split; [left; reflexivity|]. pose proof (ST 0%nat ltac:(cbn; lia)) as G. cbn [nth] in G. rewrite Rabs_pos_eq; lra.
Qed.
Lemma covers_dense l limit g : 0 <= g -> covers l limit g -> dense l limit g.
Proof.
  intros Hg (F0 & FL & ST & _) x Hx. destruct l as [|a l]; [cbn in F0; lra|]. cbn [nth] in F0. rewrite <- FL in Hx. apply gaps_dense; [exact Hg| |].
  - intros i Hi. apply ST, Hi.
  - rewrite F0 at 1. exact Hx.
Qed.

Lemma dense_clip h L q d : 0 < h -> 1 <= L <= 7 -> 0 <= d -> L <= INR q * h + d ->
  dense (map (fun i => if Nat.eqb i q then Rmin (b64 (INR q * h)) L else b64 (INR i * h)) (seq 0 (S q))) L (h + d + 8 * u).
Proof.
  intros Hh HL Hd HQ x Hx. set (f := fun i => if Nat.eqb i q then Rmin (b64 (INR q * h)) L else b64 (INR i * h)).
  pose proof u_pos as U0. pose proof u_small as U1.
  assert (IN : forall i, (i <= q)%nat -> In (f i) (map f (seq 0 (S q)))) by (intros i Hi; apply in_map, in_seq; lia).
  assert (XH : x / h * h = x) by (field; lra). assert (XP : 0 <= x / h) by (apply Rmult_le_pos; [lra|left; apply Rinv_0_lt_compat, Hh]).
  pose proof (Zfloor_lb (x / h)) as A. pose proof (Zfloor_ub (x / h)) as B. set (z := Zfloor (x / h)) in *.
  assert (Z0 : (0 <= z)%Z) by (apply Zfloor_lub; exact XP).
  assert (ER : forall y, 0 <= y <= L -> Rabs (b64 y - y) <= 8 * u).
  { intros y Hy. eapply Rle_trans; [apply b64_rel|]. rewrite Rabs_pos_eq by lra. nra. }
  destruct (Z_le_gt_dec z (Z.of_nat q)) as [LE|GT].
  - exists (f (Z.to_nat z)). split; [apply IN; lia|].
    assert (EI : INR (Z.to_nat z) = IZR z) by (rewrite INR_IZR_INZ, Z2Nat.id by lia; reflexivity).
    assert (IZ : 0 <= IZR z * h <= x) by (split; [apply IZR_le in Z0; nra|rewrite <- XH; nra]).
    assert (XU : x < IZR z * h + h) by (rewrite <- XH; nra).
    pose proof (ER (IZR z * h) ltac:(lra)) as E. apply Rabs_le_inv in E.
    unfold f. destruct (Nat.eqb_spec (Z.to_nat z) q) as [EQ|NE].
    + assert (EZ : IZR z = INR q) by (rewrite <- EQ; symmetry; exact EI). rewrite EZ in *. unfold Rmin. destruct (Rle_dec (b64 (INR q * h)) L); apply Rabs_le; lra.
    + rewrite EI. apply Rabs_le. lra.
  - exists (f q). split; [apply IN; lia|]. unfold f. rewrite Nat.eqb_refl.
    assert (QX : INR q * h <= x). { rewrite <- XH. apply Rmult_le_compat_r; [lra|]. apply Rle_trans with (IZR z); [|exact A]. rewrite INR_IZR_INZ. apply IZR_le. lia. }
    pose proof (pos_INR q). assert (0 <= INR q * h) by nra.
    pose proof (ER (INR q * h) ltac:(lra)) as E. apply Rabs_le_inv in E.
    unfold Rmin. destruct (Rle_dec (b64 (INR q * h)) L); apply Rabs_le; lra.
Qed.
Lemma last_slack h L q : 0 < h -> 1 <= L <= 7 -> h <= L -> b64 (b64 (L + h) / h) <= INR q + 1 -> L <= INR q * h + 50 * u.
Proof.
  intros Hh HL Hl Q. pose proof u_pos as U0. pose proof u_small as U1.
  assert (N : forall x, 1 <= x -> x - u * x <= b64 x).
  { intros x Hx. pose proof (b64_relN x) as E. rewrite Rabs_pos_eq in E by lra. assert (H : bpow radix2 (-1000) <= x) by (apply Rle_trans with (bpow radix2 0); [apply bpow_le; lia|simpl; lra]).
    specialize (E H). apply Rabs_le_inv in E. lra. }
  pose proof (N (L + h) ltac:(lra)) as S1. set (s := b64 (L + h)) in *.
  assert (SH : s / h * h = s) by (field; lra).
  assert (S0 : u * (L + h) <= 14 * u) by nra.
  assert (S3 : 1 <= s / h) by (apply Rmult_le_reg_r with h; [exact Hh|]; rewrite SH; lra).
  pose proof (N (s / h) S3) as S2.
  assert (S4 : (s / h - u * (s / h)) * h <= (INR q + 1) * h) by (apply Rmult_le_compat_r; lra).
  replace ((s / h - u * (s / h)) * h) with (s - u * s) in S4 by (transitivity (s / h * h - u * (s / h * h)); [rewrite SH; reflexivity|ring]).
  assert (S5 : s <= 15). { pose proof (b64_rel (L + h)) as E. rewrite (Rabs_pos_eq (L + h)) in E by lra. fold s in E. apply Rabs_le_inv in E. nra. }
  assert (u * s <= 15 * u) by nra. assert (u * (L + h) <= 14 * u) by nra. lra.
Qed.

Lemma polar_b64_dense a b : F64 a -> F64 b -> bpow radix2 (-50) <= a <= 1 / 2 -> bpow radix2 (-48) <= b <= b64 PI ->
  exists rs ts, gen_polar_coordinates b64 a b = Ok (rs, ts) /\ (within rs 1 /\ within ts (two_pi b64)) /\
    dense rs 1 (a + 1 / 10 ^ 14) /\ dense ts (two_pi b64) (b + 1 / 10 ^ 14).
Proof.
  intros Fa Fb Ha Hb. destruct (polar_b64 a b Fa Fb Ha Hb) as (rs & ts & E0 & W). exists rs, ts. split; [exact E0|]. split; [exact W|].
  destruct two_pi_facts as (FL & HL & HP & E2).
  assert (A0 : 0 < a) by (pose proof (bpow_gt_0 radix2 (-50)); lra). assert (B0 : 0 < b) by (pose proof (bpow_gt_0 radix2 (-48)); lra).
  assert (F1 : F64 1) by (apply (F64_IZR 1); lia).
  assert (BIG : forall c z, bpow radix2 z <= c -> (-53 <= z)%Z -> bpow radix2 (z + 53) <= IZR (2 ^ 53) * c).
  { intros c z Hc Hz. rewrite bpow_plus, Rmult_comm. change (bpow radix2 53) with (IZR (2 ^ 53)). apply Rmult_le_compat_l; [apply IZR_le; lia|exact Hc]. }
  destruct (arange_b64 1 a F1) as (q & Q & QB & E & L1 & L2); try lra.
  { simpl. lra. }
  { pose proof (BIG a (-50)%Z ltac:(apply Ha) ltac:(lia)) as X. simpl bpow in X. lra. }
  destruct (arange_b64 (two_pi b64) b FL) as (q' & Q' & QB' & E' & L1' & L2'); try lra.
  { simpl. lra. }
  { pose proof (BIG b (-48)%Z ltac:(apply Hb) ltac:(lia)) as X. simpl bpow in X. lra. }
  unfold gen_polar_coordinates in E0. rewrite !chain_false in E0 by lra. rewrite E, E' in E0. cbn [bind] in E0. rewrite !clip_seq in E0. cbn [bind] in E0.
  injection E0 as <- <-.
  assert (P53 : 2 ^ 53 = 9007199254740992) by (rewrite (pow_IZR 2 53); reflexivity).
  assert (UV : u * 9007199254740992 = 1) by (unfold u; rewrite P53; field).
  assert (P14 : 1 / 10 ^ 14 = 1 / 100000000000000) by (f_equal; ring).
  pose proof u_pos as U0.
  assert (WK : forall l lim g g', g <= g' -> dense l lim g -> dense l lim g').
  { intros l lim g g' Hg D x Hx. destruct (D x Hx) as (y & Y & Z). exists y. split; [exact Y|lra]. }
  split.
  - eapply WK; [|apply (dense_clip a 1 q (50 * u)); [exact A0|lra|lra|apply last_slack; lra]]. lra.
  - eapply WK; [|apply (dense_clip b (two_pi b64) q' (50 * u)); [exact B0|lra|lra|apply last_slack; lra]]. lra.
Qed.
