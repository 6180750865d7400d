(** Lemmas on convolution and the bump image. *)
From Coq Require Import Reals Lra Psatz Permutation.
From Flocq Require Import Core.
From Verif Require Import Py M_Radial M_Coeffs M_Sum M_Psf SpecPsf L_Psf L_PsfKernel L_Phases M_Numba M_Img SpecImg.
Local Open Scope R_scope.

Definition table2 {A} (v : Z -> Z -> A) (h w : Z) : list (list A) := map (fun i => map (fun j => v i j) (zrange 0 (Z.to_nat w))) (zrange 0 (Z.to_nat h)).
Lemma table2_shape {A} (v : Z -> Z -> A) h w : (0 <= h)%Z -> (0 <= w)%Z -> shape (table2 v h w) h w.
Proof.
  intros H W. unfold table2, shape. rewrite map_length, zrange_len. split; [lia|]. apply Forall_forall. intros r R. apply in_map_iff in R. destruct R as (i & <- & _).
  rewrite map_length, zrange_len. lia.
Qed.
Lemma table2_entry {A} (v : Z -> Z -> A) h w i j : (0 <= i < h)%Z -> (0 <= j < w)%Z -> entry (table2 v h w) i j = Some (v i j).
Proof.
  intros Hi Hj. unfold entry, table2. rewrite nth_error_map, L_PsfKernel.zrange_nth by lia. cbn [option_map]. rewrite nth_error_map, L_PsfKernel.zrange_nth by lia. cbn [option_map].
  do 2 f_equal; lia.
Qed.
Lemma table2_array {A} (v : Z -> Z -> A) h w : (1 <= h)%Z -> (1 <= w)%Z -> is_array (table2 v h w) h w v.
Proof. intros H W. split; [exact H|]. split; [exact W|]. split; [apply table2_shape; lia|]. intros i j. apply table2_entry. Qed.
Lemma table2_map {A B} (f : A -> B) (v : Z -> Z -> A) h w : map (map f) (table2 v h w) = table2 (fun i j => f (v i j)) h w.
Proof. unfold table2. rewrite map_map. apply map_ext. intros i. rewrite map_map. reflexivity. Qed.
Lemma array_eq {A} (I : list (list A)) h w v : is_array I h w v -> I = table2 v h w.
Proof.
  intros (H & W & [L F] & E). apply list_ext.
  - unfold table2. rewrite map_length, zrange_len. lia.
  - intros i Hi. unfold table2. rewrite nth_error_map, L_PsfKernel.zrange_nth by lia. cbn [option_map]. destruct (nth_error I i) as [r|] eqn:ER; [|apply nth_error_None in ER; lia]. f_equal.
    rewrite Forall_forall in F. assert (LR := F r (nth_error_In _ _ ER)). apply list_ext; [rewrite map_length, zrange_len; lia|].
    intros j Hj. rewrite nth_error_map, L_PsfKernel.zrange_nth by lia. cbn [option_map]. specialize (E (Z.of_nat i) (Z.of_nat j) ltac:(lia) ltac:(lia)). unfold entry in E. rewrite !Nat2Z.id, ER in E. exact E.
Qed.
Lemma table2_pix v h w i j : (0 <= i < h)%Z -> (0 <= j < w)%Z -> pix (table2 v h w) i j = v i j.
Proof.
  intros Hi Hj. assert (E := table2_entry v h w i j Hi Hj). unfold entry in E. unfold pix. destruct (nth_error (table2 v h w) (Z.to_nat i)) as [r|] eqn:ER; [|discriminate].
  rewrite (nth_error_nth _ _ [] ER). apply (nth_error_nth _ _ 0 E).
Qed.
Lemma table2_height v h w : (0 <= h)%Z -> height (table2 v h w) = h.
Proof. intros H. unfold height, table2. rewrite map_length, zrange_len. lia. Qed.
Lemma table2_width v h w : (1 <= h)%Z -> (0 <= w)%Z -> width (table2 v h w) = w.
Proof.
  intros H W. unfold width, table2. destruct (Z.to_nat h) eqn:E; [lia|]. cbn [zrange map hd]. rewrite map_length, zrange_len. lia.
Qed.
Lemma table2_ext {A} (v u : Z -> Z -> A) h w : (forall i j, (0 <= i < h)%Z -> (0 <= j < w)%Z -> v i j = u i j) -> table2 v h w = table2 u h w.
Proof. intros E. unfold table2. apply map_ext_in. intros i Hi. apply map_ext_in. intros j Hj. apply zrange_In in Hi, Hj. apply E; lia. Qed.

(** mirroring *)
Lemma reflect_mirrors n : (1 <= n)%Z -> mirrors n (reflect n).
Proof.
  intros N. assert (G : forall x, reflect n (2 * n - 1 - x) = reflect n x).
  { intros x. unfold reflect. cbv zeta. assert (B := Z.mod_pos_bound x (2 * n) ltac:(lia)). assert (E : ((2 * n - 1 - x) mod (2 * n) = 2 * n - 1 - x mod (2 * n))%Z).
    { symmetry. apply Z.mod_unique with (q := (- (x / (2 * n)))%Z); [left; lia|]. assert (D := Z.div_mod x (2 * n) ltac:(lia)). lia. }
    rewrite E. destruct (Z.ltb_spec (x mod (2 * n)) n), (Z.ltb_spec (2 * n - 1 - x mod (2 * n)) n); lia. }
  split; [|split].
  - intros x Hx. unfold reflect. rewrite Z.mod_small by lia. replace (x <? n)%Z with true by (symmetry; apply Z.ltb_lt; lia). reflexivity.
  - intros x. rewrite <- (G x). unfold reflect. replace (2 * n - 1 - x)%Z with (-1 - x + 1 * (2 * n))%Z by lia. rewrite Z.mod_add by lia. reflexivity.
  - exact G.
Qed.
Lemma reflect_range n x : (1 <= n)%Z -> (0 <= reflect n x < n)%Z.
Proof. intros N. unfold reflect. cbv zeta. assert (B := Z.mod_pos_bound x (2 * n) ltac:(lia)). destruct (Z.ltb_spec (x mod (2 * n)) n); lia. Qed.
Lemma mirrors_unique n f : (1 <= n)%Z -> mirrors n f -> forall x, f x = reflect n x.
Proof.
  intros N (A & B & C).
  assert (P1 : forall x, f (x + 2 * n)%Z = f x) by (intros x; rewrite <- (B x), <- (C (-1 - x)%Z); f_equal; lia).
  assert (PN : forall (q : nat) x, f (x + Z.of_nat q * (2 * n))%Z = f x).
  { induction q as [|q IH]; intros x; [f_equal; lia|]. rewrite <- (IH x). rewrite <- (P1 (x + Z.of_nat q * (2 * n))%Z). f_equal. lia. }
  assert (PZ : forall q x, f (x + q * (2 * n))%Z = f x).
  { intros q x. destruct (Z_le_gt_dec 0 q) as [L|G]; [rewrite <- (PN (Z.to_nat q) x); f_equal; lia|]. rewrite <- (PN (Z.to_nat (- q)) (x + q * (2 * n))%Z). f_equal. lia. }
  intros x. unfold reflect. cbv zeta. assert (BD := Z.mod_pos_bound x (2 * n) ltac:(lia)). assert (D := Z.div_mod x (2 * n) ltac:(lia)).
  assert (E : f x = f (x mod (2 * n))%Z) by (rewrite <- (PZ (x / (2 * n))%Z (x mod (2 * n))%Z); f_equal; lia). rewrite E.
  destruct (Z.ltb_spec (x mod (2 * n)) n); [apply A; lia|]. rewrite <- C. apply A. lia.
Qed.

(** sums *)
Definition idr (x : R) : R := x.
Lemma fold_rsum {A} (l : list A) f : forall acc, fold_left (fun acc x => acc + f x) l acc = acc + rsum l f.
Proof. induction l as [|a l IH]; intros acc; cbn [fold_left]; [unfold rsum; cbn; ring|]. rewrite IH, rsum_cons. ring. Qed.
Lemma rsum_app {A} (l m : list A) f : rsum (l ++ m) f = rsum l f + rsum m f.
Proof. induction l as [|a l IH]; [unfold rsum; cbn; ring|]. cbn [app]. rewrite !rsum_cons, IH. ring. Qed.
Lemma rsum_rev {A} (l : list A) f : rsum (rev l) f = rsum l f.
Proof. induction l as [|a l IH]; [reflexivity|]. cbn [rev]. rewrite rsum_app, IH, !rsum_cons. unfold rsum at 2. cbn. ring. Qed.
Lemma rsum_filter {A} (p : A -> bool) l f : rsum (filter p l) f = rsum l (fun x => if p x then f x else 0).
Proof. induction l as [|a l IH]; [reflexivity|]. cbn [filter]. rewrite rsum_cons, <- IH. destruct (p a); [rewrite rsum_cons; reflexivity|ring]. Qed.
Lemma rsum_flat {A B} (l : list A) (h : A -> list B) f : rsum (flat_map h l) f = rsum l (fun x => rsum (h x) f).
Proof. induction l as [|a l IH]; [reflexivity|]. cbn [flat_map]. rewrite rsum_app, rsum_cons, IH. reflexivity. Qed.
Lemma rsum_coords kh kw f : rsum (coords kh kw) f = sum2 kh kw (fun a b => f (a, b)).
Proof. unfold coords, sum2. rewrite rsum_flat. apply rsum_ext. intros a _. rewrite rsum_map. reflexivity. Qed.
Lemma sum2_ext kh kw f g : (forall a b, (0 <= a < kh)%Z -> (0 <= b < kw)%Z -> f a b = g a b) -> sum2 kh kw f = sum2 kh kw g.
Proof. intros H. unfold sum2. apply rsum_ext. intros a Ha. apply rsum_ext. intros b Hb. apply zrange_In in Ha, Hb. apply H; lia. Qed.
Lemma sum2_plus kh kw f g : sum2 kh kw (fun a b => f a b + g a b) = sum2 kh kw f + sum2 kh kw g.
Proof. unfold sum2. rewrite <- rsum_plus. apply rsum_ext. intros a _. apply rsum_plus. Qed.
Lemma sum2_scal kh kw c f : sum2 kh kw (fun a b => c * f a b) = c * sum2 kh kw f.
Proof. unfold sum2. rewrite <- rsum_scal. apply rsum_ext. intros a _. apply rsum_scal. Qed.
Lemma rsum_le {A} (l : list A) f g : (forall x, In x l -> f x <= g x) -> rsum l f <= rsum l g.
Proof. induction l as [|a l IH]; intros H; [unfold rsum; cbn; lra|]. rewrite !rsum_cons. assert (f a <= g a) by (apply H; left; reflexivity). assert (rsum l f <= rsum l g) by (apply IH; intros; apply H; right; assumption). lra. Qed.
Lemma sum2_le kh kw f g : (forall a b, (0 <= a < kh)%Z -> (0 <= b < kw)%Z -> f a b <= g a b) -> sum2 kh kw f <= sum2 kh kw g.
Proof. intros H. unfold sum2. apply rsum_le. intros a Ha. apply rsum_le. intros b Hb. apply zrange_In in Ha, Hb. apply H; lia. Qed.
Lemma sum_table2 v h w : np_sum idr (table2 v h w) = sum2 h w v.
Proof.
  unfold np_sum, idr. rewrite (fold_rsum _ (fun x => x) 0), Rplus_0_l. unfold table2, sum2. rewrite <- flat_map_concat_map, rsum_flat. apply rsum_ext. intros i _. rewrite rsum_map. reflexivity.
Qed.
Lemma max_table2 v h w : (1 <= h)%Z -> (1 <= w)%Z -> max2 h w v (np_max (table2 v h w)).
Proof.
  intros H W. unfold np_max. destruct (concat (table2 v h w)) as [|x l] eqn:E.
  - exfalso. unfold table2 in E. destruct (Z.to_nat h) eqn:EH; [lia|]. destruct (Z.to_nat w) eqn:EW; [lia|]. cbn in E. discriminate.
  - destruct (fold_max l x) as [U I]. rewrite <- E in U, I.
    assert (IN : forall y, In y (concat (table2 v h w)) <-> exists i j, (0 <= i < h)%Z /\ (0 <= j < w)%Z /\ v i j = y).
    { intros y. rewrite in_concat. unfold table2. split.
      - intros (r & R & Y). apply in_map_iff in R. destruct R as (i & <- & R). apply in_map_iff in Y. destruct Y as (j & <- & Y). apply zrange_In in R, Y. exists i, j. repeat split; lia.
      - intros (i & j & Hi & Hj & <-). eexists. split; [apply in_map_iff; exists i; split; [reflexivity|apply zrange_In; lia]|]. apply in_map_iff. exists j. split; [reflexivity|apply zrange_In; lia]. }
    split; [intros i j Hi Hj; apply U, IN; exists i, j; auto|]. apply IN in I. exact I.
Qed.

(** a pixel of the convolution, in exact arithmetic *)
Lemma conv_exact eps v k h w kh kw i j : (1 <= h)%Z -> (1 <= w)%Z -> (1 <= kh)%Z -> (1 <= kw)%Z -> 
  conv_pixel idr eps (table2 v h w) (table2 k kh kw) i j =
  sum2 kh kw (fun a b => if Rltb eps (Rabs (k a b)) then k a b * v (reflect h (i + kh / 2 - a)) (reflect w (j + kw / 2 - b)) else 0).
Proof.
  intros H W KH KW. unfold conv_pixel, idr. rewrite (fold_rsum _ (fun ab => conv_term (table2 v h w) (table2 k kh kw) i j ab) 0), Rplus_0_l, rsum_rev, rsum_filter, table2_height, table2_width, rsum_coords by lia.
  apply sum2_ext. intros a b Ha Hb. unfold used, conv_term. cbn [fst snd]. rewrite (table2_pix k) by lia. destruct (Rltb eps (Rabs (k a b))); [|reflexivity].
  rewrite !table2_height, !table2_width by lia. rewrite table2_pix by (apply reflect_range; lia). reflexivity.
Qed.
Lemma convolve_table eps v k h w kh kw : (1 <= h)%Z -> (1 <= w)%Z -> 
  convolve idr eps (table2 v h w) (table2 k kh kw) = table2 (conv_pixel idr eps (table2 v h w) (table2 k kh kw)) h w.
Proof. intros H W. unfold convolve. rewrite table2_height, table2_width by lia. reflexivity. Qed.
Lemma convolve_table_g rnd eps v K h w : (1 <= h)%Z -> (1 <= w)%Z -> 
  convolve rnd eps (table2 v h w) K = table2 (conv_pixel rnd eps (table2 v h w) K) h w.
Proof. intros H W. unfold convolve. rewrite table2_height, table2_width by lia. reflexivity. Qed.

(** the result in exact arithmetic before scaling and conversion; weights up to eps count as zero *)
Definition heavy (eps : R) (k : Z -> Z -> R) (a b : Z) : R := if Rltb eps (Rabs (k a b)) then k a b else 0.
Definition raw (f g : Z -> Z) eps kh kw k v (i j : Z) : R :=
  let c := convolution f g kh kw (heavy eps k) v i j in if Rltb 0 (sum2 kh kw k) then c / sum2 kh kw k else c.
Lemma raw_table f g eps v k h w kh kw : (1 <= h)%Z -> (1 <= w)%Z -> (1 <= kh)%Z -> (1 <= kw)%Z -> mirrors h f -> mirrors w g ->
  (let c := convolve idr eps (table2 v h w) (table2 k kh kw) in let coeff := np_sum idr (table2 k kh kw) in
   if Rltb 0 coeff then map (map (fun x => idr (x / coeff))) c else c) = table2 (raw f g eps kh kw k v) h w.
Proof.
  intros H W KH KW F G. cbv zeta. rewrite convolve_table, sum_table2 by lia. unfold raw, idr.
  assert (E : forall i j, conv_pixel (fun x => x) eps (table2 v h w) (table2 k kh kw) i j = convolution f g kh kw (heavy eps k) v i j).
  { intros i j. change (fun x : R => x) with idr. rewrite conv_exact by lia. unfold convolution. apply sum2_ext. intros a b _ _. rewrite (mirrors_unique h f H F), (mirrors_unique w g W G). unfold heavy.
    destruct (Rltb eps (Rabs (k a b))); [reflexivity|]. ring. }
  destruct (Rltb 0 (sum2 kh kw k)); rewrite ?table2_map; apply table2_ext; intros i j _ _; rewrite E; reflexivity.
Qed.
Lemma Rltb_true' x y : Rltb x y = true <-> x < y.
Proof. unfold Rltb. destruct (Rlt_dec x y); split; intros H; congruence || lra || auto. Qed.
Lemma raw_blurred f g eps kh kw k v i j : no_tiny eps kh kw k -> raw f g eps kh kw k v i j = blurred f g kh kw k v i j.
Proof.
  intros NT. unfold raw, blurred. assert (E : convolution f g kh kw (heavy eps k) v i j = convolution f g kh kw k v i j).
  { unfold convolution. apply sum2_ext. intros a b Ha Hb. unfold heavy. destruct (NT a b Ha Hb) as [Z|L]; [rewrite Z; destruct (Rltb _ _); reflexivity|]. rewrite (proj2 (Rltb_true' _ _) L). reflexivity. }
  rewrite E. unfold Rltb. destruct (Rlt_dec 0 (sum2 kh kw k)); reflexivity.
Qed.
Lemma max2_unique h w v M M' : max2 h w v M -> max2 h w v M' -> M = M'.
Proof. intros [U (i & j & Hi & Hj & E)] [U' (i' & j' & Hi' & Hj' & E')]. assert (A := U i' j' Hi' Hj'). assert (B := U' i j Hi Hj). lra. Qed.
Lemma max2_ext h w v u M : (forall i j, (0 <= i < h)%Z -> (0 <= j < w)%Z -> v i j = u i j) -> max2 h w v M -> max2 h w u M.
Proof. intros E [U (i & j & Hi & Hj & X)]. split; [intros a b Ha Hb; rewrite <- E by assumption; apply U; assumption|]. exists i, j. rewrite <- E by assumption. auto. Qed.
(** the whole function in exact arithmetic *)
Lemma conv_result f g eps cast t I K s h w v kh kw k : is_array I h w v -> is_array K kh kw k -> mirrors h f -> mirrors w g ->
  convolute_img_psf idr eps cast t I K s =
  table2 (fun i j => astype cast t (if s then np_mul idr (raw f g eps kh kw k v i j) (np_div idr (np_max (table2 v h w)) (np_max (table2 (raw f g eps kh kw k v) h w)))
                                    else Fin (raw f g eps kh kw k v i j))) h w.
Proof.
  intros HI HK F G. destruct (HI) as (H & W & _). destruct (HK) as (KH & KW & _). rewrite (array_eq _ _ _ _ HI), (array_eq _ _ _ _ HK).
  unfold convolute_img_psf. assert (E := raw_table f g eps v k h w kh kw H W KH KW F G). cbv zeta in *. rewrite E. destruct s; rewrite !table2_map; reflexivity.
Qed.
Lemma conv_entry f g eps cast t I K s h w v kh kw k i j : is_array I h w v -> is_array K kh kw k -> mirrors h f -> mirrors w g -> (0 <= i < h)%Z -> (0 <= j < w)%Z ->
  entry (convolute_img_psf idr eps cast t I K s) i j =
  Some (astype cast t (if s then np_mul idr (raw f g eps kh kw k v i j) (np_div idr (np_max (table2 v h w)) (np_max (table2 (raw f g eps kh kw k v) h w)))
                                    else Fin (raw f g eps kh kw k v i j))).
Proof. intros HI HK F G Hi Hj. rewrite (conv_result f g eps cast t I K s h w v kh kw k HI HK F G). rewrite table2_entry by assumption. reflexivity. Qed.
Lemma max_of f g eps kh kw k v h w M : (1 <= h)%Z -> (1 <= w)%Z -> no_tiny eps kh kw k -> max2 h w (blurred f g kh kw k v) M -> np_max (table2 (raw f g eps kh kw k v) h w) = M.
Proof.
  intros H W NT MX. apply (max2_unique h w (blurred f g kh kw k v)); [|exact MX]. apply (max2_ext h w (raw f g eps kh kw k v)); [intros; apply raw_blurred; exact NT|apply max_table2; assumption].
Qed.
(** a weighted mean stays between the bounds of the image *)
Lemma sum2_pos kh kw k : (forall a b, (0 <= a < kh)%Z -> (0 <= b < kw)%Z -> 0 <= k a b) -> 0 <= sum2 kh kw k.
Proof. intros H. replace 0 with (sum2 kh kw (fun _ _ => 0 * 0)). - apply sum2_le. intros. rewrite Rmult_0_l. apply H; assumption. - rewrite sum2_scal. ring. Qed.
Lemma blurred_range f g kh kw k v h w lo hi i j : (1 <= h)%Z -> (1 <= w)%Z -> mirrors h f -> mirrors w g ->
  (forall a b, (0 <= a < kh)%Z -> (0 <= b < kw)%Z -> 0 <= k a b) -> 0 < sum2 kh kw k ->
  (forall a b, (0 <= a < h)%Z -> (0 <= b < w)%Z -> lo <= v a b <= hi) -> lo <= blurred f g kh kw k v i j <= hi.
Proof.
  intros H W F G P S V. unfold blurred. destruct (Rlt_dec 0 (sum2 kh kw k)); [|contradiction].
  assert (FR : forall x, (0 <= f x < h)%Z) by (intros x; rewrite (mirrors_unique h f H F); apply reflect_range; exact H).
  assert (GR : forall x, (0 <= g x < w)%Z) by (intros x; rewrite (mirrors_unique w g W G); apply reflect_range; exact W).
  assert (A : lo * sum2 kh kw k <= convolution f g kh kw k v i j).
  { rewrite <- sum2_scal. unfold convolution. apply sum2_le. intros a b Ha Hb. destruct (V _ _ (FR (i + kh / 2 - a)%Z) (GR (j + kw / 2 - b)%Z)). specialize (P a b Ha Hb). nra. }
  assert (B : convolution f g kh kw k v i j <= hi * sum2 kh kw k).
  { rewrite <- sum2_scal. unfold convolution. apply sum2_le. intros a b Ha Hb. destruct (V _ _ (FR (i + kh / 2 - a)%Z) (GR (j + kw / 2 - b)%Z)). specialize (P a b Ha Hb). nra. }
  split; [apply Rmult_le_reg_r with (sum2 kh kw k)|apply Rmult_le_reg_r with (sum2 kh kw k)]; try assumption; unfold Rdiv; rewrite Rmult_assoc, Rinv_l by lra; lra.
Qed.
(** a kernel with one weight, in the middle *)
Lemma rsum_single x0 n f : (0 <= x0 < n)%Z -> (forall x, (0 <= x < n)%Z -> x <> x0 -> f x = 0) -> rsum (zrange 0 (Z.to_nat n)) f = f x0.
Proof.
  intros H Z0. assert (G : forall m s, (s <= x0 < s + Z.of_nat m)%Z -> (forall x, (s <= x < s + Z.of_nat m)%Z -> x <> x0 -> f x = 0) -> rsum (zrange s m) f = f x0).
  { assert (N : forall m s, (forall x, (s <= x < s + Z.of_nat m)%Z -> f x = 0) -> rsum (zrange s m) f = 0).
    { induction m as [|m IH]; intros s E; [reflexivity|]. cbn [zrange]. rewrite rsum_cons, IH; [rewrite E by lia; ring|]. intros x Hx. apply E. lia. }
    induction m as [|m IH]; intros s B E; [lia|]. cbn [zrange]. rewrite rsum_cons. destruct (Z.eq_dec s x0) as [->|NE].
    - rewrite N; [ring|]. intros x Hx. apply E; lia.
    - rewrite IH; [rewrite E by lia; ring|lia|]. intros x Hx. apply E. lia. }
  apply G; [lia|]. intros x Hx. apply Z0. lia.
Qed.
Lemma sum2_single a0 b0 kh kw g : (0 <= a0 < kh)%Z -> (0 <= b0 < kw)%Z -> (forall a b, (0 <= a < kh)%Z -> (0 <= b < kw)%Z -> (a, b) <> (a0, b0) -> g a b = 0) -> sum2 kh kw g = g a0 b0.
Proof.
  intros A B E. unfold sum2. rewrite (rsum_single a0 kh); [apply (rsum_single b0 kw); [exact B|]|exact A|].
  - intros x Hx NE. apply E; [exact A|exact Hx|congruence].
  - intros x Hx NE. rewrite (rsum_single b0 kw); [apply E; [exact Hx|exact B|congruence]|exact B|]. intros y Hy NY. apply E; [exact Hx|exact Hy|congruence].
Qed.
Lemma one_by_one rnd eps cast t x c : eps < Rabs c -> 0 < rnd (0 + c) ->
  convolute_img_psf rnd eps cast t [[x]] [[c]] false = [[astype cast t (Fin (rnd (rnd (0 + rnd (c * x)) / rnd (0 + c))))]].
Proof.
  intros C P. unfold convolute_img_psf, convolve, conv_pixel, np_sum.
  assert (F : filter (used eps [[c]]) (coords (height [[c]]) (width [[c]])) = [(0, 0)]%Z).
  { cbn [height width length hd coords zrange Z.of_nat Pos.of_succ_nat]. change (coords 1 1) with [(0, 0)%Z]. cbn [filter]. unfold used. cbn [fst snd]. change (pix [[c]] 0 0) with c. rewrite (proj2 (Rltb_true' _ _) C). reflexivity. }
  rewrite F. cbn [rev app fold_left concat]. rewrite (proj2 (Rltb_true' _ _) P). reflexivity.
Qed.
