(** Kernels: the model fills them with the values of the quadrature formula. *)
From Coq Require Import Reals Lra.
From Flocq Require Import Core.
From Verif Require Import Py SpecIndex SpecRadial M_Radial M_Coeffs SpecCoeffs M_Sum SpecSum M_Geo SpecGeo M_Fit L_Sum M_Polar L_Polar L_Phases L_Geo L_Fit M_Psf SpecPsf L_Psf.
Local Open Scope R_scope.

Lemma zrange_nth k : forall a i, (i < k)%nat -> nth_error (zrange a k) i = Some (a + Z.of_nat i)%Z.
Proof.
  induction k as [|k IH]; intros a i H; [lia|]. destruct i; cbn [zrange nth_error]; [f_equal; lia|]. rewrite IH by lia. f_equal. lia.
Qed.
Lemma zrange_In k a x : In x (zrange a k) <-> (a <= x < a + Z.of_nat k)%Z.
Proof. revert a. induction k as [|k IH]; intros a; cbn [zrange In]; [lia|]. rewrite IH. lia. Qed.

Definition table {A} (v : Z -> Z -> A) (size : Z) : list (list A) :=
  map (fun i => map (fun j => v i j) (zrange 0 (Z.to_nat size))) (zrange 0 (Z.to_nat size)).
Lemma table_square {A} (v : Z -> Z -> A) size : (0 <= size)%Z -> square (table v size) size.
Proof.
  intros H. unfold square, table. rewrite map_length, zrange_len. split; [lia|]. rewrite Forall_map. apply Forall_forall. intros i _.
  rewrite map_length, zrange_len. lia.
Qed.
Lemma table_entry {A} (v : Z -> Z -> A) size i j : (0 <= i < size)%Z -> (0 <= j < size)%Z -> entry (table v size) i j = Some (v i j).
Proof.
  intros Hi Hj. unfold entry, table.
  rewrite (map_nth_error _ _ _ (zrange_nth (Z.to_nat size) 0 (Z.to_nat i) ltac:(lia))).
  rewrite (map_nth_error _ _ _ (zrange_nth (Z.to_nat size) 0 (Z.to_nat j) ltac:(lia))). rewrite !Z2Nat.id by lia. reflexivity.
Qed.
Lemma table_map {A B} (f : A -> B) (v : Z -> Z -> A) size : map (map f) (table v size) = table (fun i j => f (v i j)) size.
Proof. unfold table. rewrite map_map. apply map_ext. intros i. rewrite map_map. reflexivity. Qed.
Lemma table_ext {A} (v w : Z -> Z -> A) size : (forall i j, (0 <= i < size)%Z -> (0 <= j < size)%Z -> v i j = w i j) -> table v size = table w size.
Proof.
  intros H. unfold table. apply map_ext_in. intros i Hi. apply map_ext_in. intros j Hj. apply zrange_In in Hi, Hj. apply H; lia.
Qed.

(** np.max *)
Lemma fold_max l : forall x, (forall y, In y (x :: l) -> y <= fold_left Rmax l x) /\ In (fold_left Rmax l x) (x :: l).
Proof.
  induction l as [|a l IH]; intros x; cbn [fold_left].
  - split; [intros y [->|[]]; lra|left; reflexivity].
  - destruct (IH (Rmax x a)) as [U I]. split.
    + intros y [->|[->|Hy]].
      * apply Rle_trans with (Rmax y a); [apply Rmax_l|apply U; left; reflexivity].
      * apply Rle_trans with (Rmax x y); [apply Rmax_r|apply U; left; reflexivity].
      * apply U. right. exact Hy.
    + destruct I as [E|I]; [|right; right; exact I]. rewrite <- E. unfold Rmax. destruct (Rle_dec x a); [right; left; reflexivity|left; reflexivity].
Qed.
Lemma kmax_table v size : (0 < size)%Z -> is_max v size (kmax (table v size)).
Proof.
  intros H. unfold kmax.
  assert (IN : forall y, In y (concat (table v size)) <-> exists i j, (0 <= i < size)%Z /\ (0 <= j < size)%Z /\ v i j = y).
  { intros y. rewrite in_concat. unfold table. split.
    - intros (row & Hr & Hy). apply in_map_iff in Hr. destruct Hr as (i & <- & Hi). apply in_map_iff in Hy. destruct Hy as (j & <- & Hj).
      apply zrange_In in Hi, Hj. exists i, j. repeat split; lia.
    - intros (i & j & Hi & Hj & <-). eexists. split; [apply in_map_iff; exists i; split; [reflexivity|apply zrange_In; lia]|].
      apply in_map_iff. exists j. split; [reflexivity|apply zrange_In; lia]. }
  destruct (concat (table v size)) as [|x l] eqn:E.
  - exfalso. apply (proj2 (IN (v 0 0)%Z)). exists 0%Z, 0%Z. repeat split; lia.
  - destruct (fold_max l x) as [U I]. split.
    + intros i j Hi Hj. apply U, IN. exists i, j. auto.
    + apply IN, I.
Qed.
Lemma finish_holds normalize v size : (0 < size)%Z -> holds normalize (finish normalize (table v size)) size v.
Proof.
  intros H. unfold holds, finish. destruct normalize.
  - split; [rewrite table_map; apply table_square; lia|]. exists (kmax (table v size)). split; [apply kmax_table, H|].
    intros i j Hi Hj. rewrite table_map. rewrite table_entry by assumption. reflexivity.
  - split; [rewrite table_map; apply table_square; lia|]. intros i j Hi Hj. rewrite table_map, table_entry by assumption. reflexivity.
Qed.
Lemma list_ext {A} (K K' : list A) : length K = length K' -> (forall i, (i < length K)%nat -> nth_error K i = nth_error K' i) -> K = K'.
Proof.
  revert K'. induction K as [|a K IH]; intros [|a' K'] L H; try discriminate; [reflexivity|].
  assert (E := H 0%nat ltac:(cbn; lia)). injection E as ->. f_equal. apply IH; [injection L; auto|]. intros i Hi. apply (H (S i)). cbn. lia.
Qed.
(** a square kernel is determined by its entries *)
Lemma square_ext {A} (K K' : list (list A)) size : square K size -> square K' size ->
  (forall i j, (0 <= i < size)%Z -> (0 <= j < size)%Z -> entry K i j = entry K' i j) -> K = K'.
Proof.
  intros [L F] [L' F'] H. apply list_ext; [lia|]. intros i Hi.
  destruct (nth_error K i) as [r|] eqn:E; [|apply nth_error_None in E; lia].
  destruct (nth_error K' i) as [r'|] eqn:E'; [|apply nth_error_None in E'; lia]. f_equal.
  assert (LR := proj1 (Forall_forall _ _) F _ (nth_error_In _ _ E)). assert (LR' := proj1 (Forall_forall _ _) F' _ (nth_error_In _ _ E')). cbv beta in LR, LR'.
  apply list_ext; [lia|]. intros j Hj. assert (G := H (Z.of_nat i) (Z.of_nat j) ltac:(lia) ltac:(lia)). unfold entry in G.
  rewrite !Nat2Z.id, E, E' in G. exact G.
Qed.

Definition good (rnd : R -> R) (n : Z) : Prop :=
  (n <> 0)%Z /\ Forall in_disk (r_nodes rnd (rnd (1 / IZR n))) /\ r_nodes rnd (rnd (1 / IZR n)) <> [].
Definition psf_rnd (rnd : R -> R) (n_r n_phi : Z) (Phi : R -> R -> R) (r theta : R) : R :=
  psf_on (rnd (1 / IZR n_r)) (r_nodes rnd (rnd (1 / IZR n_r))) n_phi Phi r theta.
Lemma good_exact n : (2 <= n)%Z -> good idr n.
Proof. intros H. unfold good. rewrite nodes_exact by exact H. destruct (inner_disk n H). repeat split; [lia|assumption|assumption]. Qed.
Lemma psf_rnd_exact n nphi Phi r t : (2 <= n)%Z -> psf_rnd idr n nphi Phi r t = psf n nphi Phi r t.
Proof. intros H. unfold psf_rnd, psf. rewrite nodes_exact by exact H. reflexivity. Qed.

(** pixel distance and angle as the code computes them *)
Definition pix_d (size i j : Z) : R := sqrt (IZR (i - size / 2) * IZR (i - size / 2) + IZR (j - size / 2) * IZR (j - size / 2)).
Definition pix_t (size i j : Z) : R := arctan2 (IZR (i - size / 2)) (IZR (j - size / 2)) + PI.

Lemma fill_isok point f k NA px size : (forall d t, isok (point d t) (f d t)) ->
  isok (fill_kernel point k NA px size) (table (fun i j => f (k * NA * px * pix_d size i j) (pix_t size i j)) size).
Proof.
  intros H. unfold fill_kernel, table. apply mapM_isok. intros i _. apply (mapM_isok _ (fun j => f (k * NA * px * pix_d size i j) (pix_t size i j))). intros j _. apply H.
Qed.

(** the direction of the pixel: the vector from the pixel to the centre *)
Lemma pix_dir size i j phi : pix_d size i j * cos (phi - pix_t size i j) = IZR (size / 2 - j) * cos phi + IZR (size / 2 - i) * sin phi.
Proof.
  unfold pix_t. set (y := IZR (i - size / 2)). set (x := IZR (j - size / 2)).
  destruct (arctan2_spec y x) as (_ & C & S). rewrite cos_minus, cos_add_PI, sin_add_PI.
  assert (D : pix_d size i j = norm2 x y) by (unfold pix_d, norm2; f_equal; fold x y; ring). rewrite D.
  replace (IZR (size / 2 - j)) with (- x) by (unfold x; rewrite !minus_IZR; ring).
  replace (IZR (size / 2 - i)) with (- y) by (unfold y; rewrite !minus_IZR; ring).
  set (a := arctan2 y x) in *. set (q := norm2 x y) in *.
  replace (- x) with (- (q * cos a)) by (rewrite C; reflexivity). replace (- y) with (- (q * sin a)) by (rewrite S; reflexivity). ring.
Qed.
Lemma polar_dir x y rho t phi : polar x y rho t -> rho * cos (phi - t) = x * cos phi + y * sin phi.
Proof. intros (_ & _ & <- & <-). rewrite cos_minus. ring. Qed.
Lemma pix_polar size i j rho t phi c : polar (IZR (size / 2 - j)) (IZR (size / 2 - i)) rho t ->
  c * pix_d size i j * cos (phi - pix_t size i j) = c * rho * cos (phi - t).
Proof. intros P. rewrite !Rmult_assoc, pix_dir, (polar_dir _ _ _ _ phi P). reflexivity. Qed.
Lemma pix_rho size i j rho t : polar (IZR (size / 2 - j)) (IZR (size / 2 - i)) rho t -> pix_d size i j = rho.
Proof.
  intros P. rewrite (polar_rho _ _ _ _ P). unfold pix_d, norm2. f_equal. rewrite !minus_IZR. ring.
Qed.

Lemma odd_size_odd size : Z.odd (odd_size size) = true.
Proof.
  unfold odd_size. destruct (size mod 2 =? 0)%Z eqn:E.
  - apply Z.eqb_eq in E. rewrite Zodd_mod. apply Zeq_is_eq_bool. rewrite Z.add_mod by lia. rewrite E. reflexivity.
  - apply Z.eqb_neq in E. rewrite Zodd_mod. apply Zeq_is_eq_bool. assert (0 <= size mod 2 < 2)%Z by (apply Z.mod_pos_bound; lia). lia.
Qed.
Lemma odd_size_ge size : (size <= odd_size size <= size + 1)%Z.
Proof. unfold odd_size. destruct (_ =? _)%Z; lia. Qed.

(** ** the kernel functions *)
Section Kernels.
Variables (rnd jv1 : R -> R) (fuel : nat) (n_r n_phi : Z) (wavelength NA px : R).
Hypothesis HG : good rnd n_r.
Hypothesis HP : (n_phi <> 0)%Z.
Hypothesis HW : wavelength <> 0.
Hypothesis HA : NA <> 0.
Let k := 2 * PI / wavelength.
Definition value_at (Phi : R -> R -> R) (size i j : Z) : R :=
  psf_rnd rnd n_r n_phi Phi (k * NA * px * pix_d size i j) (pix_t size i j).

Lemma pydiv_isok a b : b <> 0 -> isok (mlift (pydiv a b)) (a / b).
Proof. intros H. apply isok_lift. unfold pydiv. destruct (Req_EM_T b 0); [contradiction|reflexivity]. Qed.

Lemma single_isok p alpha normalize kernel_size mt : okp fuel p -> (3 <= kernel_size)%Z ->
  isok (get_psf_kernel rnd jv1 fuel p px alpha wavelength NA n_r n_phi normalize false kernel_size mt)
       (finish normalize (table (value_at (fun x phi => alpha / wavelength * Zv p x phi) (odd_size kernel_size)) (odd_size kernel_size))).
Proof.
  intros OK S. unfold get_psf_kernel. eapply isok_bind; [apply pydiv_isok, HW|]. eapply isok_bind; [apply pydiv_isok, HW|].
  cbv beta. replace (kernel_size <? 3)%Z with false by (symmetry; apply Z.ltb_ge; lia). eapply isok_bind; [apply isok_lift; reflexivity|].
  cbv beta zeta. assert (B := odd_size_ge kernel_size). replace (odd_size kernel_size <? 0)%Z with false by (symmetry; apply Z.ltb_ge; lia).
  eapply isok_bind; [apply pydiv_isok, HA|]. eapply isok_bind; [|apply isok_ret].
  destruct HG as (N & D & NE). eapply isok_ext; [|apply fill_isok; intros d t; apply by_isok; [apply phase_pol_computes, OK|exact N|exact D|exact NE|exact HP]].
  reflexivity.
Qed.
Lemma zerns_isok ps amps normalize kernel_size : ps <> [] -> length amps = length ps -> Forall (okp fuel) ps -> (0 <= kernel_size)%Z ->
  isok (get_psf_kernel_zerns rnd fuel ps amps px wavelength NA kernel_size n_r n_phi normalize)
       (finish normalize (table (value_at (fun x phi => zsum amps ps x phi) (odd_size kernel_size)) (odd_size kernel_size))).
Proof.
  intros E L OK S. unfold get_psf_kernel_zerns. eapply isok_bind; [apply pydiv_isok, HW|].
  cbv beta zeta. assert (B := odd_size_ge kernel_size). replace (odd_size kernel_size <? 0)%Z with false by (symmetry; apply Z.ltb_ge; lia).
  eapply isok_bind; [apply pydiv_isok, HA|]. eapply isok_bind; [|apply isok_ret].
  destruct HG as (N & D & NE). eapply isok_ext; [|apply fill_isok; intros d t; apply vec_isok;
    [apply phase_pols_computes; eassumption|exact N|exact D|exact NE|exact HP|intros [_ H]; discriminate]].
  reflexivity.
Qed.
(** the value depends on the position of the pixel only *)
Lemma value_polar Phi size i j rho t : polar (IZR (size / 2 - j)) (IZR (size / 2 - i)) rho t ->
  value_at Phi size i j = psf_rnd rnd n_r n_phi Phi (k * NA * px * rho) t.
Proof.
  intros P. unfold value_at, psf_rnd. rewrite (pix_rho size i j rho t P). apply psf_on_ext; [reflexivity|].
  intros phi. assert (G := pix_polar size i j rho t phi (k * NA * px) P). rewrite (pix_rho size i j rho t P) in G. exact G.
Qed.
Lemma value_ext Phi Phi' size i j : (forall x phi, Phi' x phi = Phi x phi) -> value_at Phi' size i j = value_at Phi size i j.
Proof. intros H. unfold value_at, psf_rnd. apply psf_on_ext; [exact H|reflexivity]. Qed.
Lemma value_shift Phi Phi' c size i j : (forall x phi, Phi' x phi = Phi x phi + c) -> value_at Phi' size i j = value_at Phi size i j.
Proof. intros H. unfold value_at, psf_rnd. apply (psf_on_shift _ _ _ _ _ c), H. Qed.
Lemma value_neg Phi Phi' size i j : Z.odd size = true -> (forall x phi, Phi' x phi = - Phi x phi) ->
  value_at Phi' size i j = value_at Phi size (size - 1 - i) (size - 1 - j).
Proof.
  intros O H. unfold value_at, psf_rnd.
  assert (F : forall z, (size / 2 - (size - 1 - z) = - (size / 2 - z))%Z).
  { intros z. apply Z.odd_spec in O. destruct O as [q ->]. replace ((2 * q + 1) / 2)%Z with q by (apply (Z.div_unique _ _ _ 1); lia). lia. }
  assert (D : pix_d size (size - 1 - i) (size - 1 - j) = pix_d size i j).
  { unfold pix_d. f_equal. replace (size - 1 - i - size / 2)%Z with (- (i - size / 2))%Z by (specialize (F i); lia).
    replace (size - 1 - j - size / 2)%Z with (- (j - size / 2))%Z by (specialize (F j); lia). rewrite !opp_IZR. ring. }
  rewrite D. apply psf_on_neg; [exact H|]. intros phi. rewrite !Rmult_assoc.
  rewrite <- D at 2. rewrite !pix_dir, !F, !opp_IZR. ring.
Qed.
End Kernels.

(** rotating a kernel by 180 degrees: its maximum is the same *)
Lemma is_max_unique v size M M' : is_max v size M -> is_max v size M' -> M = M'.
Proof.
  intros [U (i & j & Hi & Hj & E)] [U' (i' & j' & Hi' & Hj' & E')]. apply Rle_antisym; [rewrite <- E; apply U'; assumption|rewrite <- E'; apply U; assumption].
Qed.
Lemma kmax_rot v w size : (0 < size)%Z -> (forall i j, (0 <= i < size)%Z -> (0 <= j < size)%Z -> w i j = v (size - 1 - i) (size - 1 - j))%Z ->
  kmax (table w size) = kmax (table v size).
Proof.
  intros P H. apply (is_max_unique v size); [|apply kmax_table, P]. destruct (kmax_table w size P) as [U (i & j & Hi & Hj & E)]. split.
  - intros a b Ha Hb. assert (G : w (size - 1 - a)%Z (size - 1 - b)%Z <= kmax (table w size)) by (apply U; lia). rewrite H in G by lia.
    replace (size - 1 - (size - 1 - a))%Z with a in G by lia. replace (size - 1 - (size - 1 - b))%Z with b in G by lia. exact G.
  - exists (size - 1 - i)%Z, (size - 1 - j)%Z. rewrite <- H by assumption. repeat split; try lia. exact E.
Qed.
Lemma finish_entry normalize v size i j : (0 <= i < size)%Z -> (0 <= j < size)%Z ->
  entry (finish normalize (table v size)) i j =
  Some (if normalize then (if Req_EM_T (kmax (table v size)) 0 then NaN else Fin (v i j / kmax (table v size))) else Fin (v i j)).
Proof. intros Hi Hj. unfold finish. destruct normalize; rewrite table_map, table_entry by assumption; reflexivity. Qed.
