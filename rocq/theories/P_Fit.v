(** Property theorems C28, C29 (exact arithmetic on values; [lstsq] is any function that meets the
    documented contract of numpy.linalg.lstsq, [np_round] is numpy.round). *)
From Coq Require Import Reals Lra Permutation.
From Flocq Require Import Core.
From Verif Require Import Py SpecIndex SpecRadial M_Radial M_Coeffs SpecCoeffs M_Sum SpecSum L_Sum SpecFit L_LinAlg M_Crop M_Fit SpecCrop L_Crop L_Phases L_Fit L_Indep.
Local Open Scope R_scope.

Lemma ts_nonempty (rs ts : list R) (b : list R) : b <> [] -> length b = length (sample_points rs ts) -> rs <> [] /\ ts <> [].
Proof.
  intros N L. unfold sample_points in L. split; intros ->; apply N; apply length_zero_iff_nil; rewrite L.
  - destruct (Nat.eqb _ _); reflexivity.
  - destruct (Nat.eqb _ _); [destruct rs; reflexivity|]. rewrite prod_length. cbn. lia.
Qed.

(** ** C28 *)
Lemma np_round_all d a i : (i < length a)%nat -> Rabs (nth i (map (np_round d) a) 0 - nth i a 0) <= / 2 * powerRZ 10 (- d).
Proof.
  intros H. rewrite (nth_indep (map (np_round d) a) 0 (np_round d 0)) by (rewrite map_length; exact H). rewrite map_nth. apply np_round_err.
Qed.
Lemma rec_vectors lstsq fuel ps a rs ts d s : lstsq_contract lstsq -> reachable s ->
  Forall (okp fuel) ps -> NoDup ps -> ps <> [] -> length a = length ps -> rs <> [] -> ts <> [] -> Forall in_disk rs ->
  let pts := sample_points rs ts in
  independent (length pts) (design pts ps) ->
  exists result,
    snd (fit_polynomials_vectors lstsq fuel (map Some ps) (Arr1 (map (fun q => zsum a ps (fst q) (snd q)) pts))
           (Arr1 (map Fin rs)) (Arr1 (map Fin ts)) d s) = Ok result /\
    length result = length ps /\ forall i, (i < length ps)%nat -> Rabs (nth i result 0 - nth i a 0) <= / 2 * powerRZ 10 (- d).
Proof.
  intros C RS OK ND NP La NR NT F pts I. exists (map (np_round d) a). split.
  - assert (L : length (map (fun q => zsum a ps (fst q) (snd q)) pts) = length pts) by apply map_length.
    destruct (vectors_isok lstsq fuel _ rs ts ps d OK ND NP NR NT F L s RS) as [_ E]. rewrite E. fold pts. do 2 f_equal.
    assert (LD : length (design pts ps) = length ps) by (unfold design; apply map_length).
    rewrite (zsum_design pts ps a La). apply (lstsq_exact (design pts ps) a _ (length pts)); [apply design_wf|exact I|congruence|].
    apply C. rewrite (mulmv_len (length pts)) by apply design_wf. apply design_wf.
  - split; [rewrite map_length; exact La|]. intros i Hi. apply np_round_all. rewrite La. exact Hi.
Qed.
Theorem C28_vectors_exact_recovery : forall lstsq fuel ps a rs ts digits s, lstsq_contract lstsq -> reachable s ->
  Forall (okp fuel) ps -> NoDup ps -> ps <> [] -> length a = length ps -> rs <> [] -> ts <> [] -> Forall in_disk rs ->
  let pts := sample_points rs ts in
  independent (length pts) (design pts ps) ->
  exists result,
    snd (fit_polynomials_vectors lstsq fuel (map Some ps) (Arr1 (map (fun q => zsum a ps (fst q) (snd q)) pts))
           (Arr1 (map Fin rs)) (Arr1 (map Fin ts)) digits s) = Ok result /\
    length result = length ps /\ forall i, (i < length ps)%nat -> Rabs (nth i result 0 - nth i a 0) <= / 2 * powerRZ 10 (- digits).
Proof. exact rec_vectors. Qed.
Print Assumptions C28_vectors_exact_recovery.

(** the returned image is the input inside the circle and 0 outside *)
Theorem C28_image_exact_recovery : forall rnd lstsq fuel rows cols f ps a x strict digits (return_cropped : bool) s,
  sane rnd -> lstsq_contract lstsq -> reachable s -> Forall (okp fuel) ps -> NoDup ps -> ps <> [] -> length a = length ps ->
  (3 <= Z.min rows cols)%Z -> 1 / 2 <= round4 rnd x <= 1 ->
  exists mask phases radii thetas,
    crop_phases_img rnd (Img rows cols f) (RadNum x) strict = Ok (mask, (phases, radii, thetas)) /\
    (phases = map (fun q => zsum a ps (fst q) (snd q)) (combine radii thetas) ->
     independent (length phases) (design (combine radii thetas) ps) ->
     exists result img,
       snd (fit_polynomials rnd lstsq fuel (Img rows cols f) (map Some ps) (RadNum x) strict digits return_cropped s) = Ok (result, img) /\
       length result = length ps /\
       (forall i, (i < length ps)%nat -> Rabs (nth i result 0 - nth i a 0) <= / 2 * powerRZ 10 (- digits)) /\
       (if return_cropped then exists g, img = Some g /\ forall i j, g i j = IZR (mask i j) * f i j else img = None)).
Proof.
  intros rnd lstsq fuel rows cols f ps a x strict d rc s SA C RS OK ND NP La HM HR.
  destruct (@crop_ok R rnd rows cols f x strict SA HM HR) as (sel & mask & phases & radii & thetas & EC & NS & EP & LR & LT & DR & _).
  exists mask, phases, radii, thetas. split; [exact EC|]. intros PH IN.
  assert (NR : radii <> []) by (intros ->; destruct (filter sel (row_major rows cols)); [apply NS; reflexivity|discriminate]).
  assert (LP : length phases = length radii) by (rewrite EP, map_length; congruence).
  assert (LTR : length thetas = length radii) by congruence.
  assert (F : Forall in_disk radii) by (apply Forall_forall; exact DR).
  destruct (image_isok rnd lstsq fuel rows cols f ps x strict d rc mask phases radii thetas OK ND NP EC F NR LP LTR s RS) as [_ E].
  set (pts := combine radii thetas) in *.
  assert (LPT : length phases = length pts) by (rewrite PH, map_length; reflexivity).
  assert (X : lstsq (design pts ps) phases = a).
  { rewrite LPT in IN. assert (LD : length (design pts ps) = length ps) by (unfold design; apply map_length).
    rewrite PH, (zsum_design pts ps a La). apply (lstsq_exact (design pts ps) a _ (length pts)); [apply design_wf|exact IN|congruence|].
    apply C. rewrite (mulmv_len (length pts)) by apply design_wf. apply design_wf. }
  rewrite X in E. eexists. eexists. split; [exact E|]. split; [rewrite map_length; exact La|]. split.
  - intros i Hi. apply np_round_all. rewrite La. exact Hi.
  - destruct rc; [|reflexivity]. eexists. split; [reflexivity|]. reflexivity.
Qed.
Print Assumptions C28_image_exact_recovery.

(** for every list of distinct valid polynomials there are sampling points at which they are independent *)
Theorem C28_sampling_exists : forall ps, Forall (fun p => valid (fst p) (snd p)) ps -> NoDup ps ->
  exists rs ts, length rs = length ts /\ Forall in_disk rs /\
    independent (length (sample_points rs ts)) (design (sample_points rs ts) ps).
Proof.
  intros ps F ND. destruct (points_exist ps F ND) as (pts & D & I). exists (map fst pts), (map snd pts).
  assert (E : sample_points (map fst pts) (map snd pts) = pts) by (unfold sample_points; rewrite !map_length, Nat.eqb_refl; symmetry; apply split_list).
  rewrite E. split; [rewrite !map_length; reflexivity|]. split; [|exact I]. rewrite Forall_map. exact D.
Qed.
Print Assumptions C28_sampling_exists.

(** a solver with the contract exists *)
Theorem C28_contract_satisfiable : exists lstsq, lstsq_contract lstsq.
Proof. exists gs_lstsq. exact gs_contract. Qed.
Print Assumptions C28_contract_satisfiable.
Example C28_nonvacuous : okp 1000 (0, 0)%Z /\ okp 1000 (1, 1)%Z /\ NoDup [(0, 0)%Z; (1, 1)%Z] /\ lstsq_contract gs_lstsq /\
  sample_points [0; 1] [0; 0] = [(0, 0); (1, 0)] /\ length (sample_points [0; 1/2; 1] [0; 1]) = 6%nat.
Proof.
  split; [split; [split; [cbn; lia|split; [cbn; lia|exists 0%Z; reflexivity]]|cbn; lia]|].
  split; [split; [split; [cbn; lia|split; [cbn; lia|exists 0%Z; reflexivity]]|cbn; lia]|].
  split; [constructor; [intros [H|[]]; discriminate|constructor; [intros []|constructor]]|].
  split; [exact gs_contract|]. split; reflexivity.
Qed.

(** ** C29 *)
(** the result is the (unique) least-squares solution for the values of the polynomials, rounded *)
Theorem C29_least_squares : forall lstsq fuel ps b rs ts digits s, lstsq_contract lstsq -> reachable s ->
  Forall (okp fuel) ps -> NoDup ps -> ps <> [] -> b <> [] -> length b = length (sample_points rs ts) -> Forall in_disk rs ->
  exists x, lstsq_solution (design (sample_points rs ts) ps) b x /\
    (forall y, lstsq_solution (design (sample_points rs ts) ps) b y -> y = x) /\
    snd (fit_polynomials_vectors lstsq fuel (map Some ps) (Arr1 b) (Arr1 (map Fin rs)) (Arr1 (map Fin ts)) digits s)
      = Ok (map (np_round digits) x).
Proof.
  intros lstsq fuel ps b rs ts d s C RS OK ND NP NB L F. destruct (ts_nonempty rs ts b NB L) as [NR NT].
  assert (W : wf (length b) (design (sample_points rs ts) ps)) by (rewrite L; apply design_wf).
  assert (S := C _ _ W). eexists. split; [exact S|]. split.
  - intros y Hy. apply (lstsq_unique (design (sample_points rs ts) ps) b); assumption.
  - apply (vectors_isok lstsq fuel b rs ts ps d OK ND NP NR NT F L s RS).
Qed.
Print Assumptions C29_least_squares.

(** every polynomial keeps its coefficient when the polynomials are given in another order *)
Theorem C29_permutation : forall lstsq fuel ps ps' b rs ts digits s s', lstsq_contract lstsq -> reachable s -> reachable s' ->
  Forall (okp fuel) ps -> NoDup ps -> ps <> [] -> b <> [] -> length b = length (sample_points rs ts) -> Forall in_disk rs ->
  Permutation ps ps' ->
  exists x x', 
    snd (fit_polynomials_vectors lstsq fuel (map Some ps) (Arr1 b) (Arr1 (map Fin rs)) (Arr1 (map Fin ts)) digits s) = Ok x /\
    snd (fit_polynomials_vectors lstsq fuel (map Some ps') (Arr1 b) (Arr1 (map Fin rs)) (Arr1 (map Fin ts)) digits s') = Ok x' /\
    length x = length ps /\ length x' = length ps' /\ Permutation (combine ps x) (combine ps' x').
Proof.
  intros lstsq fuel ps ps' b rs ts d s s' C RS RS' OK ND NP NB L F P.
  assert (OK' : Forall (okp fuel) ps') by (eapply Permutation_Forall; eassumption).
  assert (ND' : NoDup ps') by (eapply Permutation_NoDup; eassumption).
  assert (NP' : ps' <> []) by (intros ->; apply Permutation_sym, Permutation_nil in P; contradiction).
  destruct (C29_least_squares lstsq fuel ps b rs ts d s C RS OK ND NP NB L F) as (x & Sx & _ & Ex).
  destruct (C29_least_squares lstsq fuel ps' b rs ts d s' C RS' OK' ND' NP' NB L F) as (x' & _ & U' & Ex').
  set (pts := sample_points rs ts) in *. set (col := fun p : Z * Z => map (fun q => Z_nm (fst p) (snd p) (fst q) (snd q)) pts).
  assert (Lx : length x = length ps) by (destruct Sx as [H _]; unfold design in H; rewrite map_length in H; exact H).
  assert (EP : ps = map fst (combine ps x)) by (symmetry; apply map_fst_combine; congruence).
  assert (P1 : Permutation ps' (map fst (combine ps x))) by (rewrite <- EP; symmetry; exact P).
  destruct (Permutation_map_inv _ _ P1) as (l & El & Pl).
  assert (Sl : lstsq_solution (design pts ps') b (map snd l)).
  { assert (Q := lstsq_perm b (map (fun q => (col (fst q), snd q)) (combine ps x)) (map (fun q => (col (fst q), snd q)) l) (Permutation_map _ Pl)).
    rewrite !map_map in Q. cbn [fst snd] in Q. rewrite <- (map_map fst col l), <- (map_map fst col (combine ps x)), <- El, <- EP in Q.
    assert (EX : map (fun q : Z * Z * R => snd q) (combine ps x) = x) by (apply map_snd_combine; congruence).
    rewrite EX in Q. apply Q; [rewrite L; apply design_wf|exact Sx]. }
  apply U' in Sl. eexists. eexists. split; [exact Ex|]. split; [exact Ex'|].
  assert (Lx' : length x' = length ps') by (rewrite <- Sl, El, !map_length; reflexivity).
  rewrite !map_length. split; [exact Lx|]. split; [exact Lx'|].
  assert (G : forall (u : list (Z * Z)) v, combine u (map (np_round d) v) = map (fun q => (fst q, np_round d (snd q))) (combine u v)).
  { induction u as [|p u IH]; intros [|c v]; try reflexivity. cbn. f_equal. apply IH. }
  rewrite !G. apply Permutation_map. rewrite <- Sl, El, <- (split_list l). exact Pl.
Qed.
Print Assumptions C29_permutation.

(** linearity in the phases (up to the final rounding) *)
Theorem C29_linear : forall lstsq fuel ps b1 b2 u v rs ts digits s1 s2 s3, lstsq_contract lstsq ->
  reachable s1 -> reachable s2 -> reachable s3 ->
  Forall (okp fuel) ps -> NoDup ps -> ps <> [] -> b1 <> [] -> length b1 = length (sample_points rs ts) -> length b2 = length b1 -> Forall in_disk rs ->
  let fit b s := snd (fit_polynomials_vectors lstsq fuel (map Some ps) (Arr1 b) (Arr1 (map Fin rs)) (Arr1 (map Fin ts)) digits s) in
  exists x1 x2, length x1 = length ps /\ length x2 = length ps /\
    fit b1 s1 = Ok (map (np_round digits) x1) /\ fit b2 s2 = Ok (map (np_round digits) x2) /\
    fit (vadd (vscale u b1) (vscale v b2)) s3 = Ok (map (np_round digits) (vadd (vscale u x1) (vscale v x2))).
Proof.
  intros lstsq fuel ps b1 b2 u v rs ts d s1 s2 s3 C R1 R2 R3 OK ND NP NB L1 L2 F fit.
  assert (NB2 : b2 <> []) by (intros ->; destruct b1; [apply NB; reflexivity|discriminate]).
  assert (L2' : length b2 = length (sample_points rs ts)) by congruence.
  set (b3 := vadd (vscale u b1) (vscale v b2)).
  assert (L3 : length b3 = length b1) by (unfold b3; rewrite vadd_len; rewrite !vscale_len; congruence).
  assert (NB3 : b3 <> []) by (intros E; rewrite E in L3; destruct b1; [apply NB; reflexivity|discriminate]).
  assert (L3' : length b3 = length (sample_points rs ts)) by congruence.
  destruct (C29_least_squares lstsq fuel ps b1 rs ts d s1 C R1 OK ND NP NB L1 F) as (x1 & S1 & _ & E1).
  destruct (C29_least_squares lstsq fuel ps b2 rs ts d s2 C R2 OK ND NP NB2 L2' F) as (x2 & S2 & _ & E2).
  destruct (C29_least_squares lstsq fuel ps b3 rs ts d s3 C R3 OK ND NP NB3 L3' F) as (x3 & _ & U3 & E3).
  assert (S3 := lstsq_linear (design (sample_points rs ts) ps) b1 b2 x1 x2 u v (eq_sym L2)). fold b3 in S3.
  rewrite L1 in S3. specialize (S3 (design_wf _ _) S1 S2). apply U3 in S3.
  exists x1, x2. destruct S1 as [A1 _], S2 as [A2 _]. unfold design in A1, A2. rewrite map_length in A1, A2.
  split; [exact A1|]. split; [exact A2|]. split; [exact E1|]. split; [exact E2|]. unfold fit. rewrite E3, S3. reflexivity.
Qed.
Print Assumptions C29_linear.

Theorem C29_rejects : forall lstsq fuel (ps : list (option (Z * Z))) phases radii thetas digits s,
  (ps = [] \/ (exists l, ps = map Some l /\ ~ NoDup l) ->
   fit_polynomials_vectors lstsq fuel ps (Arr1 phases) (Arr1 radii) (Arr1 thetas) digits s = (s, Raise ValueError)) /\
  (In None ps -> fit_polynomials_vectors lstsq fuel ps (Arr1 phases) (Arr1 radii) (Arr1 thetas) digits s = (s, Raise AttributeError)) /\
  (forall rnd rows cols f x strict rc, sane rnd -> (3 <= Z.min rows cols)%Z -> 1 / 2 <= round4 rnd x <= 1 ->
   (ps = [] \/ (exists l, ps = map Some l /\ ~ NoDup l) ->
    fit_polynomials rnd lstsq fuel (Img rows cols f) ps (RadNum x) strict digits rc s = (s, Raise ValueError)) /\
   (In None ps -> fit_polynomials rnd lstsq fuel (Img rows cols f) ps (RadNum x) strict digits rc s = (s, Raise AttributeError))).
Proof.
  intros lstsq fuel ps phases radii thetas d s.
  assert (V : forall b r t, ps = [] \/ (exists l, ps = map Some l /\ ~ NoDup l) -> fit_zernikes lstsq fuel b r t ps s = (s, Raise ValueError)).
  { intros b r t [->|(l & -> & N)]; [reflexivity|]. unfold fit_zernikes. destruct (map Some l) as [|o k] eqn:E; [reflexivity|].
    rewrite <- E, all_orders_some. unfold mlift, mbind. cbn. apply repeated_iff in N. rewrite N. reflexivity. }
  assert (W : forall b r t, In None ps -> fit_zernikes lstsq fuel b r t ps s = (s, Raise AttributeError)).
  { intros b r t H. unfold fit_zernikes. destruct ps as [|o k] eqn:E; [destruct H|]. rewrite <- E in *. rewrite all_orders_none by exact H. reflexivity. }
  split; [|split].
  - intros H. unfold fit_polynomials_vectors, mbind. cbn. rewrite V by exact H. reflexivity.
  - intros H. unfold fit_polynomials_vectors, mbind. cbn. rewrite W by exact H. reflexivity.
  - intros rnd rows cols f x strict rc SA HM HR.
    destruct (@crop_ok R rnd rows cols f x strict SA HM HR) as (sel & mask & ph & ra & th & EC & _).
    split; intros H; unfold fit_polynomials; rewrite EC; unfold mlift, mbind; [rewrite V by exact H|rewrite W by exact H]; reflexivity.
Qed.
Print Assumptions C29_rejects.

Theorem C29_rejects_dimensions : forall lstsq fuel ps phases radii thetas digits s,
  (exists k, (1 < k)%nat /\ (phases = ArrN k \/ radii = ArrN k \/ thetas = ArrN k)) ->
  fit_polynomials_vectors lstsq fuel ps phases radii thetas digits s = (s, Raise TypeError).
Proof.
  intros lstsq fuel ps phases radii thetas d s (k & K & H). unfold fit_polynomials_vectors.
  assert (B : Nat.ltb 1 k = true) by (apply Nat.ltb_lt; exact K).
  destruct H as [->|[->| ->]]; cbn [ndim]; rewrite B, ?orb_true_r; reflexivity.
Qed.
Print Assumptions C29_rejects_dimensions.
Example C29_nonvacuous : ~ NoDup [(1, 1)%Z; (0, 2)%Z; (1, 1)%Z] /\ lstsq_contract gs_lstsq /\
  Permutation [(1, 1)%Z; (0, 2)%Z] [(0, 2)%Z; (1, 1)%Z] /\ length [1; 2; 3; 4; 5; 6] = length (sample_points [0; 1/2; 1] [0; 1]).
Proof.
  split; [intros H; inversion H as [|? ? N]; apply N; right; left; reflexivity|]. split; [exact gs_contract|]. split; [constructor|reflexivity].
Qed.
