(** Lemmas for C76: the bundled self-checks. *)
From Coq Require Import Reals Lra Lia Permutation.
From Flocq Require Import Core.
From Verif Require Import Py SpecIndex SpecRadial RadialMath M_Index L_Index M_Radial M_Coeffs SpecCoeffs L_Cache L_Radial L_Bound L_Value L_RadialProps
  L_Polar L_Slope M_Polar M_Geo M_Sum L_Sum M_Psf M_Crop L_Crop M_Phases L_Phases M_Fit L_Fit SpecFloat M_Float L_Float L_Float2 L_Float3 L_Float4 SpecFloatDr M_FloatDr L_FloatDr L_FloatDr2 M_FloatFit M_Selfcheck.
Local Open Scope Z_scope.

(** ** the tested orders *)
Lemma azimuthals_In k : forall m n m' n', In (m', n') (azimuthals k m n) <-> n' = n /\ exists j, 1 <= j <= Z.of_nat k /\ m' = m + 2 * j.
Proof.
  induction k as [|k IH]; intros m n m' n'; cbn [azimuthals In].
  - split; [intros []|intros (_ & j & H & _); lia].
  - rewrite IH. split.
    + intros [[= <- <-]|(-> & j & H & ->)]; (split; [reflexivity|]); [exists 1|exists (j + 1)]; lia.
    + intros (-> & j & H & ->). destruct (Z.eq_dec j 1) as [->|N]; [left; f_equal; lia|]. right. split; [reflexivity|]. exists (j - 1). lia.
Qed.
Lemma orders_of_In n m' n' : 0 <= n -> In (m', n') (orders_of n) <-> n' = n /\ valid m' n.
Proof.
  intros Hn. unfold orders_of. cbn [In]. rewrite azimuthals_In. unfold valid. split.
  - intros [[= <- <-]|(-> & j & H & ->)]; (split; [reflexivity|]); split; try lia; split; try lia; [exists 0; lia|].
    destruct (Z_le_gt_dec 0 (- n + 2 * j)); [exists (n - j)|exists j]; lia.
  - intros (-> & _ & H & k & Hk). destruct (Z.eq_dec m' (- n)) as [->|N]; [left; reflexivity|]. right. split; [reflexivity|].
    destruct (Z_le_gt_dec 0 m'); [exists (n - k)|exists k]; lia.
Qed.
Lemma orders_between_In a b m n : 0 <= a -> In (m, n) (orders_between a b) <-> valid m n /\ a <= n < b.
Proof.
  intros Ha. unfold orders_between. rewrite in_flat_map. split.
  - intros (x & X & H). apply zrange_In in X. apply orders_of_In in H; [|lia]. destruct H as [-> V]. split; [exact V|lia].
  - intros (V & H). exists n. split; [apply zrange_In; lia|]. apply orders_of_In; [lia|]. auto.
Qed.
Lemma tested_In z m n : In (m, n) (tested_orders z) <-> valid m n /\ n < Z.max 1 z.
Proof.
  unfold tested_orders. cbn [In]. rewrite orders_between_In by lia. split.
  - intros [[= <- <-]|(V & H)]; [split; [|lia]; split; [lia|split; [lia|exists 0; lia]]|split; [exact V|lia]].
  - intros (V & H). destruct (Z.eq_dec n 0) as [->|N]; [|right; split; [exact V|destruct V; lia]].
    left. destruct V as (_ & A & _). assert (m = 0) as -> by lia. reflexivity.
Qed.

Lemma azimuthals_osa k : forall m n c, n * (n + 2) + m = 2 * c ->
  map (fun o => get_osa_index (fst o) (snd o)) (azimuthals k m n) = zrange (c + 1) k.
Proof.
  induction k as [|k IH]; intros m n c H; cbn [azimuthals map zrange fst snd]; [reflexivity|]. f_equal.
  - unfold get_osa_index. replace (n * (n + 2) + (m + 2)) with ((c + 1) * 2) by lia. apply Z.div_mul. lia.
  - apply IH. lia.
Qed.
Lemma orders_of_osa n : 0 <= n -> map (fun o => get_osa_index (fst o) (snd o)) (orders_of n) = zrange (n * (n + 1) / 2) (Z.to_nat (n + 1)).
Proof.
  intros H. assert (E : exists c, n * (n + 1) = 2 * c).
  { destruct (Z.Even_or_Odd n) as [[k ->]|[k ->]]; [exists (k * (2 * k + 1))|exists ((2 * k + 1) * (k + 1))]; lia. }
  destruct E as (c & E). rewrite E, Z.mul_comm, Z.div_mul by lia.
  replace (Z.to_nat (n + 1)) with (S (Z.to_nat n)) by lia. unfold orders_of. cbn [map zrange fst snd]. f_equal.
  - unfold get_osa_index. replace (n * (n + 2) + - n) with (c * 2) by lia. apply Z.div_mul. lia.
  - apply azimuthals_osa. lia.
Qed.
Lemma zrange_app k : forall a j, zrange a (k + j) = zrange a k ++ zrange (a + Z.of_nat k) j.
Proof.
  induction k as [|k IH]; intros a j; cbn [zrange app Nat.add]; [f_equal; lia|]. f_equal. rewrite IH. do 2 f_equal. lia.
Qed.
Lemma between_osa k : forall a, 0 <= a ->
  map (fun o => get_osa_index (fst o) (snd o)) (flat_map orders_of (zrange a k)) =
  zrange (a * (a + 1) / 2) (Z.to_nat ((a + Z.of_nat k) * (a + Z.of_nat k + 1) / 2 - a * (a + 1) / 2)).
Proof.
  assert (T : forall n, exists c, n * (n + 1) = 2 * c).
  { intros n. destruct (Z.Even_or_Odd n) as [[k' ->]|[k' ->]]; [exists (k' * (2 * k' + 1))|exists ((2 * k' + 1) * (k' + 1))]; lia. }
  induction k as [|k IH]; intros a Ha.
  - cbn [zrange flat_map map]. replace (a + Z.of_nat 0) with a by lia. rewrite Z.sub_diag. reflexivity.
  - cbn [zrange flat_map]. rewrite map_app, orders_of_osa, IH by lia.
    destruct (T a) as (c & E), (T (a + 1)) as (c1 & E1), (T (a + Z.of_nat (S k))) as (c2 & E2).
    replace (a + 1 + Z.of_nat k) with (a + Z.of_nat (S k)) by lia. rewrite E, E1, E2.
    rewrite !(Z.mul_comm 2), !Z.div_mul by lia. assert (C : c1 = c + (a + 1)) by lia.
    assert (L : c1 <= c2) by nia.
    replace (Z.to_nat (c2 - c)) with (Z.to_nat (a + 1) + Z.to_nat (c2 - c1))%nat by lia. rewrite zrange_app. do 2 f_equal. lia.
Qed.
Lemma between_length a b : 0 <= a <= b -> Z.of_nat (length (orders_between a b)) = b * (b + 1) / 2 - a * (a + 1) / 2.
Proof.
  intros H. unfold orders_between. rewrite <- (map_length (fun o => get_osa_index (fst o) (snd o))), between_osa by lia. rewrite zrange_len.
  replace (a + Z.of_nat (Z.to_nat (b - a))) with b by lia.
  assert (a * (a + 1) / 2 <= b * (b + 1) / 2) by (apply Z.div_le_mono; nia). lia.
Qed.
Lemma tested_osa z : map (fun o => get_osa_index (fst o) (snd o)) (tested_orders z) = zrange 0 (Z.to_nat (Z.max 1 z * (Z.max 1 z + 1) / 2)).
Proof.
  unfold tested_orders, orders_between. cbn [map fst snd]. change (get_osa_index 0 0) with 0. rewrite between_osa by lia.
  change (1 * (1 + 1) / 2) with 1. destruct (Z_le_gt_dec z 1) as [L|G].
  - replace (Z.to_nat (z - 1)) with 0%nat by lia. change (1 + Z.of_nat 0) with 1. replace (Z.max 1 z) with 1 by lia. reflexivity.
  - replace (1 + Z.of_nat (Z.to_nat (z - 1))) with z by lia. replace (Z.max 1 z) with z by lia.
    assert (1 <= z * (z + 1) / 2) by (apply Z.div_le_lower_bound; nia).
    replace (Z.to_nat (z * (z + 1) / 2)) with (S (Z.to_nat (z * (z + 1) / 2 - 1))) by lia. reflexivity.
Qed.
Lemma tested_length z : length (tested_orders z) = Z.to_nat (Z.max 1 z * (Z.max 1 z + 1) / 2).
Proof. rewrite <- (map_length (fun o => get_osa_index (fst o) (snd o))), tested_osa, zrange_len. reflexivity. Qed.

Local Open Scope R_scope.
(** ** the radii *)
Lemma radii_val N : (2 <= N)%nat -> (Z.of_nat (N - 1) <= 10000)%Z -> (10000 mod Z.of_nat (N - 1) = 0)%Z ->
  test_radii (fun x => x) N = map (fun i => INR i / INR (N - 1)) (seq 0 N).
Proof.
  intros HN HL HD. unfold test_radii. apply map_ext. intros i. unfold fround. change (0 <=? 4)%Z with true. cbv iota.
  assert (P : powerRZ 10 4 = 10000) by (unfold powerRZ; simpl; ring). rewrite P.
  set (d := Z.of_nat (N - 1)). assert (D0 : (0 < d)%Z) by lia.
  apply Z.div_exact in HD; [|lia]. fold d in HD. set (q := (10000 / d)%Z) in *.
  assert (E : INR (N - 1) = IZR d) by (unfold d; apply INR_IZR_INZ). rewrite E.
  assert (DN : IZR d <> 0) by (apply IZR_neq; lia).
  assert (K : 10000 = IZR d * IZR q) by (rewrite <- mult_IZR, <- HD; reflexivity).
  replace (INR i / IZR d * 10000) with (IZR (q * Z.of_nat i)).
  2:{ rewrite mult_IZR, <- INR_IZR_INZ, K. field. exact DN. }
  rewrite (Zrnd_IZR ZnearestE), mult_IZR, <- INR_IZR_INZ. rewrite K. field.
  assert (QN : IZR q <> 0) by (intros Q0; rewrite Q0, Rmult_0_r in K; lra). auto.
Qed.
Lemma radii_disk (rnd : R -> R) N : rnd = (fun x => x) \/ rnd = near64 -> (2 <= N)%nat -> (Z.of_nat (N - 1) <= 10000)%Z ->
  Forall (fun r => 0 <= r <= 1) (test_radii rnd N).
Proof.
  intros HR HN HL. unfold test_radii. apply Forall_forall. intros x X. apply in_map_iff in X. destruct X as (i & <- & I). apply in_seq in I.
  assert (M0 : forall x y, x <= y -> rnd x <= rnd y).
  { destruct HR as [-> | ->]; [auto|]. exact b64_mono. }
  assert (FI : forall z, (0 <= z <= 10000)%Z -> rnd (IZR z) = IZR z).
  { intros z Z. destruct HR as [-> | ->]; [reflexivity|]. change near64 with b64. apply b64_IZR. change (2 ^ 53)%Z with 9007199254740992%Z. lia. }
  assert (F0 : rnd 0 = 0) by (apply (FI 0%Z); lia). assert (F1 : rnd 1 = 1) by (apply (FI 1%Z); lia).
  assert (D : 0 < INR (N - 1)) by (apply lt_0_INR; lia).
  assert (A : 0 <= INR i / INR (N - 1) <= 1).
  { split; [apply Rmult_le_pos; [apply pos_INR|left; apply Rinv_0_lt_compat, D]|].
    apply (Rmult_le_reg_r (INR (N - 1)) _ _ D). unfold Rdiv. rewrite Rmult_assoc, Rinv_l, Rmult_1_r, Rmult_1_l by lra. apply le_INR. lia. }
  assert (B : 0 <= rnd (INR i / INR (N - 1)) <= 1) by (split; [rewrite <- F0|rewrite <- F1]; apply M0; apply A).
  unfold fround. change (0 <=? 4)%Z with true. cbv iota.
  assert (P : powerRZ 10 4 = 10000) by (unfold powerRZ; simpl; ring). rewrite P.
  set (y := rnd (INR i / INR (N - 1))) in *.
  assert (C : 0 <= rnd (y * 10000) <= 10000).
  { split; [rewrite <- F0; apply M0; lra|eapply Rle_trans; [|right; apply (FI 10000%Z); lia]; apply M0; lra]. }
  assert (G : (0 <= ZnearestE (rnd (y * 10000)%R) <= 10000)%Z).
  { split.
    - apply (Z.le_trans _ (ZnearestE (IZR 0))); [rewrite (Zrnd_IZR ZnearestE); lia|apply Zrnd_le; [apply valid_rnd_N|apply C]].
    - apply (Z.le_trans _ (ZnearestE (IZR 10000))); [apply Zrnd_le; [apply valid_rnd_N|apply C]|rewrite (Zrnd_IZR ZnearestE); lia]. }
  assert (H : 0 <= IZR (ZnearestE (rnd (y * 10000))) <= 10000) by (split; [apply (IZR_le 0)|apply (IZR_le _ 10000)]; apply G).
  split; [eapply Rle_trans; [right; symmetry; exact F0|]|eapply Rle_trans; [|right; exact F1]]; apply M0; lra.
Qed.
Lemma radii_float N : Forall float64 (test_radii near64 N).
Proof.
  unfold test_radii. apply Forall_forall. intros x X. apply in_map_iff in X. destruct X as (i & <- & I).
  unfold fround. change (0 <=? 4)%Z with true. cbv iota. apply b64_F.
Qed.

(** ** the check itself *)
Definition all_entries (P : orders -> R -> R -> Prop) (os : list orders) (rs : list R) (d : list (list R)) : Prop :=
  Forall2 (fun o row => Forall2 (P o) rs row) os d.
Lemma mapM_isok2 (entry : orders -> R -> M R) v os rs : (forall o r, In o os -> In r rs -> isok (entry o r) (v o r)) ->
  isok (mapM (fun o => mapM (entry o) rs) os) (map (fun o => map (v o) rs) os).
Proof.
  intros H. apply (mapM_isok _ (fun o => map (v o) rs)). intros o O. apply (mapM_isok _ (v o)). intros r HR. apply H; assumption.
Qed.
Lemma self_check_isok rnd (entry : orders -> R -> M R) v digits accept os rs :
  (forall o r, In o os -> In r rs -> isok (entry o r) (v o r)) ->
  let diff := map (fun o => map (fun r => fround rnd digits (v o r)) rs) os in
  isok (self_check rnd entry digits accept os rs) (if accept (max_abs diff) then Passed diff else AssertionFails).
Proof.
  intros H diff. unfold self_check. eapply isok_bind; [apply (mapM_isok2 _ v), H|]. rewrite map_map.
  replace (map (fun x => map (fround rnd digits) (map (v x) rs)) os) with diff.
  2:{ unfold diff. apply map_ext. intros o. rewrite map_map. reflexivity. }
  cbv zeta. destruct (accept (max_abs diff)); apply isok_ret.
Qed.
Lemma max_abs_spec d : 0 <= max_abs d /\ (forall row x, In row d -> In x row -> Rabs x <= max_abs d) /\
  (max_abs d = 0 \/ exists row x, In row d /\ In x row /\ Rabs x = max_abs d).
Proof.
  assert (ROW : forall row acc, 0 <= acc -> let m := fold_right (fun x a => Rmax (Rabs x) a) acc row in
    acc <= m /\ (forall x, In x row -> Rabs x <= m) /\ (m = acc \/ exists x, In x row /\ Rabs x = m)).
  { induction row as [|x row IH]; intros acc HA; cbn [fold_right In]; [repeat split; [lra|intros _ []|left; reflexivity]|].
    destruct (IH acc HA) as (A & B & C). cbv zeta in *. set (t := fold_right _ _ row) in *. pose proof (Rmax_l (Rabs x) t). pose proof (Rmax_r (Rabs x) t).
    split; [lra|]. split; [intros y [->|Y]; [assumption|specialize (B y Y); lra]|].
    unfold Rmax. destruct (Rle_dec (Rabs x) t); [destruct C as [C|(y & Y & E)]; [left; exact C|right; exists y; auto]|right; exists x; auto]. }
  induction d as [|row d IH]; cbn [max_abs fold_right In].
  - split; [lra|]. split; [intros _ _ []|left; reflexivity].
  - destruct IH as (A & B & C). unfold max_abs in A, B, C. set (t := fold_right (fun (r : list R) acc => _) 0 d) in *.
    destruct (ROW row t A) as (D & E & F). cbv zeta in *. set (m := fold_right _ _ row) in *.
    split; [lra|]. split; [intros r x [->|RW] X; [apply E, X|specialize (B r x RW X); lra]|].
    destruct F as [F|(x & X & F)]; [|right; exists row, x; auto].
    rewrite F. destruct C as [C|(r & x & RW & X & C)]; [left; exact C|right; exists r, x; auto].
Qed.
Lemma max_abs_zeros a b : max_abs (repeat (repeat 0 b) a) = 0.
Proof.
  destruct (max_abs_spec (repeat (repeat 0 b) a)) as (_ & _ & [H|(row & x & H1 & H2 & H3)]); [exact H|].
  apply repeat_spec in H1. subst row. apply repeat_spec in H2. subst x. rewrite Rabs_R0 in H3. auto.
Qed.
Lemma map_const_repeat {A B} (f : A -> B) c l : (forall x, In x l -> f x = c) -> map f l = repeat c (length l).
Proof.
  induction l as [|x l IH]; intros H; [reflexivity|]. cbn [map length repeat]. rewrite H by (left; reflexivity). f_equal. apply IH. intros y Y. apply H. right. exact Y.
Qed.
Lemma pow10_9 : powerRZ 10 9 = 1000000000.
Proof. unfold powerRZ. simpl. ring. Qed.
Lemma near_zero x : Rabs x < / 2 -> ZnearestE x = 0%Z.
Proof. intros H. apply Znearest_imp. rewrite Rminus_0_r. exact H. Qed.
Lemma fround0 rnd digits : rnd 0 = 0 -> fround rnd digits 0 = 0.
Proof.
  intros F. assert (Z0 : ZnearestE 0 = 0%Z) by (apply near_zero; rewrite Rabs_R0; lra).
  unfold fround. destruct (0 <=? digits)%Z; unfold Rdiv; rewrite !Rmult_0_l, F, Z0, Rmult_0_l, F; reflexivity.
Qed.
(** all differences round to zero: the check passes with a matrix of zeros *)
Lemma self_check_zero rnd (entry : orders -> R -> M R) v digits accept os rs :
  (forall o r, In o os -> In r rs -> isok (entry o r) (v o r) /\ fround rnd digits (v o r) = 0) -> accept 0 = true ->
  isok (self_check rnd entry digits accept os rs) (Passed (repeat (repeat 0 (length rs)) (length os))).
Proof.
  intros H A. pose proof (self_check_isok rnd entry v digits accept os rs (fun o r O HR => proj1 (H o r O HR))) as S. cbv zeta in S.
  assert (E : map (fun o => map (fun r => fround rnd digits (v o r)) rs) os = repeat (repeat 0 (length rs)) (length os)).
  { apply map_const_repeat. intros o O. apply map_const_repeat. intros r HR. apply H; assumption. }
  rewrite E, max_abs_zeros, A in S. exact S.
Qed.
Lemma radii_length rnd N : length (test_radii rnd N) = N.
Proof. unfold test_radii. rewrite map_length, seq_length. reflexivity. Qed.
