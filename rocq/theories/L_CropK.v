(** Lemmas on crop_kernel. *)
From Coq Require Import Reals Lra Psatz.
From Verif Require Import Py M_Sum SpecSum M_Geo L_Phases M_Fit M_Psf SpecPsf L_Psf L_PsfKernel M_PsfClass SpecPsfClass SpecCropK.
Local Open Scope R_scope.

Lemma fmax_Fin l : forall x, fold_left fmax (map Fin l) (Fin x) = Fin (fold_left Rmax l x).
Proof.
  induction l as [|a l IH]; intros x; [reflexivity|]. cbn [map fold_left]. rewrite <- IH. f_equal. unfold fmax, fltb, Rltb, Rmax.
  destruct (Rlt_dec x a), (Rle_dec x a); try reflexivity; [lra|]. f_equal. lra.
Qed.
Lemma fmax_list_below l limit : l <> [] -> fltb (fmax_list (map Fin l)) (Fin limit) = true <-> (forall x, In x l -> x < limit).
Proof.
  intros N. destruct l as [|x l]; [elim N; reflexivity|]. cbn [map fmax_list]. rewrite fmax_Fin. cbn [fltb]. unfold Rltb.
  destruct (fold_max l x) as [U I]. destruct (Rlt_dec (fold_left Rmax l x) limit) as [L|L]; split; intros H; try reflexivity; try discriminate.
  - intros y Hy. apply U in Hy. lra.
  - elim L. apply H, I.
Qed.
Lemma raw_table (K : kernel) n v : (0 <= n)%Z -> holds_raw K n v -> K = map (map Fin) (table v n).
Proof.
  intros N [SQ E]. rewrite table_map. eapply square_ext; [exact SQ|apply table_square, N|]. intros i j Hi Hj. rewrite table_entry by assumption. apply E; assumption.
Qed.
Lemma table_row v n i : (0 <= i < n)%Z -> row (map (map Fin) (table v n)) i = map Fin (map (fun j => v i j) (zrange 0 (Z.to_nat n))).
Proof.
  intros H. unfold row, table. rewrite map_map. erewrite nth_error_nth; [reflexivity|].
  rewrite (map_nth_error _ _ _ (zrange_nth (Z.to_nat n) 0 (Z.to_nat i) ltac:(lia))). rewrite Z2Nat.id by lia. reflexivity.
Qed.
Lemma table_column v n j : (0 <= j < n)%Z -> column (map (map Fin) (table v n)) j = map Fin (map (fun i => v i j) (zrange 0 (Z.to_nat n))).
Proof.
  intros H. unfold column, table. rewrite !map_map. apply map_ext. intros i. erewrite nth_error_nth; [reflexivity|].
  rewrite map_map. rewrite (map_nth_error _ _ _ (zrange_nth (Z.to_nat n) 0 (Z.to_nat j) ltac:(lia))). rewrite Z2Nat.id by lia. reflexivity.
Qed.
Lemma In_line (f : Z -> R) n x : In x (map f (zrange 0 (Z.to_nat n))) <-> exists t, (0 <= t < n)%Z /\ f t = x.
Proof.
  rewrite in_map_iff. split; [intros (t & E & I); exists t; split; [apply zrange_In in I; lia|exact E]|].
  intros (t & B & E). exists t. split; [exact E|apply zrange_In; lia].
Qed.
Lemma line_below (f : Z -> R) n limit : (0 < n)%Z ->
  fltb (fmax_list (map Fin (map f (zrange 0 (Z.to_nat n))))) (Fin limit) = true <-> (forall t, (0 <= t < n)%Z -> f t < limit).
Proof.
  intros N. rewrite fmax_list_below.
  - split; intros H; [intros t B; apply H, In_line; exists t; auto|]. intros x I. apply In_line in I. destruct I as (t & B & <-). apply H, B.
  - destruct (Z.to_nat n) eqn:E; [lia|discriminate].
Qed.
Lemma dark_iff v n d limit : (0 <= d < n)%Z ->
  dark (map (map Fin) (table v n)) n n d (Fin limit) = true <-> border_below v n d limit.
Proof.
  intros H. unfold dark, border_below. rewrite !andb_true_iff. rewrite !table_row, !table_column by lia. rewrite !line_below by lia.
  split; [intros [[[A B] C] D] t Ht; repeat split; auto|]. intros A. repeat split; intros t Ht; apply (A t Ht).
Qed.

Lemma crop_steps_spec K rows cols lim : forall f d, (d <= crop_steps f K rows cols d lim <= d + Z.of_nat f)%Z /\
  (forall t, (d <= t < crop_steps f K rows cols d lim)%Z -> dark K rows cols t lim = true) /\
  ((crop_steps f K rows cols d lim < d + Z.of_nat f)%Z -> dark K rows cols (crop_steps f K rows cols d lim) lim = false).
Proof.
  induction f as [|f IH]; intros d; cbn [crop_steps].
  - split; [lia|split; [intros; lia|lia]].
  - destruct (dark K rows cols d lim) eqn:D.
    + destruct (IH (d + 1)%Z) as (B & A & N). split; [lia|split; [|intros; apply N; lia]].
      intros t Ht. destruct (Z.eq_dec t d) as [->|]; [exact D|apply A; lia].
    + split; [lia|split; [intros; lia|intros; exact D]].
Qed.

Lemma max_of v n : (0 < n)%Z -> exists M, is_max v n M /\ fmax_list (concat (map (map Fin) (table v n))) = Fin M.
Proof.
  intros N. exists (kmax (table v n)). split; [apply kmax_table, N|].
  rewrite <- concat_map. unfold kmax, fmax_list. destruct (concat (table v n)) as [|x l] eqn:E; [|cbn [map]; apply fmax_Fin].
  exfalso. assert (I : In (v 0 0)%Z (concat (table v n))); [|rewrite E in I; exact I].
  apply in_concat. exists (map (fun j => v 0%Z j) (zrange 0 (Z.to_nat n))). split; apply in_map_iff.
  - exists 0%Z. split; [reflexivity|apply zrange_In; lia].
  - exists 0%Z. split; [reflexivity|apply zrange_In; lia].
Qed.

(** the number of removed borders *)
Lemma steps_ok v n part M : (0 < n)%Z -> is_max v n M -> 0 <= M -> 0 < part < 1 ->
  let d := crop_steps (Z.to_nat n) (map (map Fin) (table v n)) n n 0 (Fin (part * M)) in
  (0 <= d)%Z /\ (1 <= n - 2 * d)%Z /\ (forall t, (0 <= t < d)%Z -> border_below v n t (part * M)) /\ ~ border_below v n d (part * M).
Proof.
  intros N [U (i & j & Hi & Hj & E)] M0 P d. destruct (crop_steps_spec (map (map Fin) (table v n)) n n (Fin (part * M)) (Z.to_nat n) 0) as (B & A & ND).
  fold d in B, A, ND. set (s0 := Z.min i (n - 1 - i)).
  assert (S0 : ~ border_below v n s0 (part * M)).
  { intros H. destruct (H j Hj) as (H1 & H2 & _). assert (X : v i j < part * M).
    { unfold s0 in *. destruct (Z.le_gt_cases i (n - 1 - i)) as [L|L]; [rewrite Z.min_l in H1 by lia; exact H1|].
      rewrite Z.min_r in H2 by lia. replace (n - 1 - (n - 1 - i))%Z with i in H2 by lia. exact H2. }
    rewrite E in X. nra. }
  assert (D0 : (d <= s0)%Z).
  { destruct (Z.le_gt_cases d s0) as [L|L]; [exact L|]. elim S0. apply dark_iff; [lia|]. apply A. lia. }
  split; [lia|]. split; [lia|]. split.
  - intros t Ht. apply dark_iff; [lia|]. apply A. lia.
  - intros H. apply dark_iff in H; [|lia]. rewrite ND in H by lia. discriminate.
Qed.

Lemma nth_firstn {A} : forall (l : list A) k i, (i < k)%nat -> nth_error (firstn k l) i = nth_error l i.
Proof. induction l as [|a l IH]; intros [|k] [|i] H; cbn; try lia; try reflexivity. apply IH. lia. Qed.
Lemma nth_skipn {A} : forall (l : list A) k i, nth_error (skipn k l) i = nth_error l (k + i).
Proof. induction l as [|a l IH]; intros [|k] i; cbn; try reflexivity; [destruct i; reflexivity|]. apply IH. Qed.
Lemma zrange_slice a n d e : (0 <= d)%Z -> (d <= e <= Z.of_nat n)%Z -> slice (zrange a n) d e = zrange (a + d) (Z.to_nat (e - d)).
Proof.
  intros D E. apply list_ext.
  - unfold slice. rewrite firstn_length, skipn_length, !zrange_len. lia.
  - intros i Hi. unfold slice in *. rewrite firstn_length, skipn_length, zrange_len in Hi. rewrite zrange_nth by lia.
    rewrite nth_firstn by lia. rewrite nth_skipn. rewrite zrange_nth by lia. f_equal. lia.
Qed.
Lemma slice_map {A B} (f : A -> B) l d e : slice (map f l) d e = map f (slice l d e).
Proof. unfold slice. rewrite skipn_map, firstn_map. reflexivity. Qed.
Lemma zrange_shift f a n : forall (A : Type) (g : Z -> A), (forall i, g (i + f)%Z = g (i + f)%Z) -> map g (zrange (a + f) n) = map (fun i => g (i + f)%Z) (zrange a n).
Proof. intros A g _. revert a. induction n as [|n IH]; intros a; [reflexivity|]. cbn [zrange map]. f_equal. rewrite <- IH. f_equal. f_equal. lia. Qed.
Lemma subkernel_table {A} (v : Z -> Z -> A) n d : (0 <= d)%Z -> (0 <= n - 2 * d)%Z ->
  map (fun r => slice r d (n - d)) (slice (table v n) d (n - d)) = table (fun i j => v (i + d) (j + d))%Z (n - 2 * d).
Proof.
  intros D N. unfold table. rewrite slice_map, map_map, zrange_slice by lia. replace (n - d - d)%Z with (n - 2 * d)%Z by lia.
  rewrite zrange_shift by reflexivity. apply map_ext. intros i. rewrite slice_map, zrange_slice by lia. replace (n - d - d)%Z with (n - 2 * d)%Z by lia.
  rewrite zrange_shift by reflexivity. reflexivity.
Qed.

(** crop_kernel on a kernel of finite values *)
Lemma crop_ok o n v part : odd_positive n -> holds_raw (kern o) n v -> (forall i j, (0 <= i < n)%Z -> (0 <= j < n)%Z -> 0 <= v i j) -> (3 < kernel_size o)%Z -> 0 < part < 1 / 2 ->
  exists M d, is_max v n M /\ (0 <= d)%Z /\ odd_positive (n - 2 * d) /\
    (forall t, (0 <= t < d)%Z -> border_below v n t (part * M)) /\ ~ border_below v n d (part * M) /\
    crop_kernel part o = ((if (0 <? d)%Z then with_kernel_size (n - 2 * d) (with_kern (map (map Fin) (table (fun i j => v (i + d) (j + d))%Z (n - 2 * d))) o) else o), Ok Datatypes.tt).
Proof.
  intros [N O] H V KS P. apply raw_table in H; [|lia]. destruct (max_of v n ltac:(lia)) as (M & IM & EM). exists M.
  assert (M0 : 0 <= M) by (destruct IM as [_ (i & j & Hi & Hj & <-)]; apply V; assumption).
  assert (P1 : 0 < part < 1) by lra. assert (ST := steps_ok v n part M ltac:(lia) IM M0 P1). cbv zeta in ST.
  exists (crop_steps (Z.to_nat n) (map (map Fin) (table v n)) n n 0 (Fin (part * M))). set (d := crop_steps _ _ _ _ _ _) in *.
  destruct ST as (D0 & D1 & DA & DN). split; [exact IM|]. split; [exact D0|]. split; [split; [exact D1|]|].
  { rewrite Z.odd_sub, Z.odd_mul. rewrite O. reflexivity. }
  split; [exact DA|]. split; [exact DN|].
  unfold crop_kernel. replace (kernel_size o <=? 3)%Z with false by lia. rewrite H, EM. unfold Rleb.
  destruct (Rle_dec part 0); [lra|]. destruct (Rle_dec (5 / 10) part); [lra|].
  assert (LK : length (map (map Fin) (table v n)) = Z.to_nat n) by (rewrite map_length; unfold table; rewrite map_length; apply zrange_len).
  assert (LR : Z.of_nat (length (row (map (map Fin) (table v n)) 0)) = n) by (rewrite table_row, !map_length, zrange_len by lia; lia).
  rewrite LR, LK. cbn [fscale]. rewrite Z2Nat.id by lia. cbv zeta. fold d. destruct (0 <? d)%Z; [|reflexivity].
  assert (SK : subkernel (map (map Fin) (table v n)) d (n - d) d (n - d) = map (map Fin) (table (fun i j => v (i + d) (j + d))%Z (n - 2 * d))).
  { unfold subkernel. rewrite table_map. rewrite (subkernel_table (fun i j => Fin (v i j))) by lia. rewrite table_map. reflexivity. }
  rewrite SK. do 2 f_equal. rewrite map_length. unfold table. rewrite map_length, zrange_len. lia.
Qed.
