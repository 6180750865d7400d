From Coq Require Import Reals Lra.
From Verif Require Import Py SpecIndex SpecRadial M_Init M_Radial M_Coeffs SpecCoeffs M_Sum SpecSum M_Geo SpecGeo M_Phases SpecPhases L_Geo L_Sum.
Local Open Scope R_scope.

Lemma zrange_len k : forall a, length (zrange a k) = k.
Proof. induction k as [|k IH]; intros a; cbn; [|rewrite IH]; reflexivity. Qed.
Lemma zrange_nth k : forall a i d, (i < k)%nat -> nth i (zrange a k) d = (a + Z.of_nat i)%Z.
Proof.
  induction k as [|k IH]; intros a i d H; [lia|]. cbn [zrange]. destruct i as [|i]; cbn [nth]; [lia|]. rewrite IH by lia. lia.
Qed.
Lemma zsum_polar cs : forall ps x y r1 p1 r2 p2 c, Forall (fun p => valid (fst p) (snd p)) ps -> polar x y r1 p1 -> polar x y r2 p2 ->
  zsum cs ps (r1 / c) p1 = zsum cs ps (r2 / c) p2.
Proof.
  induction cs as [|a cs IH]; intros [|[m n] ps] x y r1 p1 r2 p2 c F H1 H2; try reflexivity.
  cbn. inversion F; subst. rewrite (Z_polar m n x y r1 p1 r2 p2 c) by assumption. rewrite (IH ps x y r1 p1 r2 p2 c) by assumption. reflexivity.
Qed.

Lemma pixel_dist_norm2 w h i j : pixel_dist w h i j = norm2 (IZR (j - w / 2)) (IZR (h / 2 - i)).
Proof. unfold pixel_dist, norm2. f_equal. rewrite <- !mult_IZR, <- plus_IZR. f_equal. ring. Qed.

Lemma radius_pos w h : (0 <= w)%Z -> (0 <= h)%Z -> (1 <= img_radius w h)%Z.
Proof. intros. unfold img_radius. pose proof (Z.div_pos (Z.min w h) 2). lia. Qed.

Lemma aperture_iff w h i j : (0 <= w)%Z -> (0 <= h)%Z -> in_aperture w h i j = true <->
  ((j - w / 2) * (j - w / 2) + (h / 2 - i) * (h / 2 - i) <= img_radius w h * img_radius w h)%Z.
Proof.
  intros Hw Hh. pose proof (radius_pos w h Hw Hh) as P. apply IZR_le in P. unfold in_aperture. rewrite pixel_dist_norm2.
  set (x := (j - w / 2)%Z). set (y := (h / 2 - i)%Z). set (q := img_radius w h) in *.
  pose proof (norm2_pos (IZR x) (IZR y)) as N0. pose proof (norm2_sqr (IZR x) (IZR y)) as N2.
  rewrite <- !mult_IZR, <- plus_IZR in N2.
  destruct (Rle_dec _ _) as [L|L]; split; intros H; try reflexivity; try discriminate.
  - apply le_IZR. rewrite <- N2, mult_IZR. nra.
  - exfalso. apply L. apply IZR_le in H. rewrite <- N2, mult_IZR in H. nra.
Qed.

Definition rr w h i j := if in_aperture w h i j then pixel_dist w h i j / IZR (img_radius w h) else 0.
Definition tt w h i j := if in_aperture w h i j then pixel_theta (IZR (h / 2 - i)) (IZR (j - w / 2)) else 0.

Lemma rr_disk w h i j : (0 <= w)%Z -> (0 <= h)%Z -> in_disk (rr w h i j).
Proof.
  intros Hw Hh. pose proof (radius_pos w h Hw Hh) as P. apply IZR_le in P. unfold rr, in_disk, in_aperture. rewrite pixel_dist_norm2.
  pose proof (norm2_pos (IZR (j - w / 2)) (IZR (h / 2 - i))). destruct (Rle_dec _ _) as [L|L]; [|lra]. split.
  - apply Rmult_le_pos; [assumption|]. left. apply Rinv_0_lt_compat. lra.
  - apply Rmult_le_reg_r with (IZR (img_radius w h)); [lra|]. unfold Rdiv. rewrite Rmult_assoc, Rinv_l by lra. lra.
Qed.

Definition row_of cs ps w h i : list fl :=
  map (fun j => if in_aperture w h i j then Fin (zsum cs ps (rr w h i j) (tt w h i j)) else Fin 0) (zrange 0 (Z.to_nat w)).

Lemma combine_map_same {A B C} (f : A -> B) (g : A -> C) l : combine (map f l) (map g l) = map (fun a => (f a, g a)) l.
Proof. induction l as [|a l IH]; [reflexivity|]. cbn. rewrite IH. reflexivity. Qed.
Lemma combine_id_map {A C} (g : A -> C) l : combine l (map g l) = map (fun a => (a, g a)) l.
Proof. induction l as [|a l IH]; [reflexivity|]. cbn. rewrite IH. reflexivity. Qed.

Lemma phase_rows_ok fuel cs ps w h : cs <> [] -> length cs = length ps -> Forall (okp fuel) ps -> (0 < w)%Z -> (0 <= h)%Z ->
  forall rows, isok (phase_rows fuel cs (map Some ps) w h rows) (map (row_of cs ps w h) rows).
Proof.
  intros N L OK Hw Hh. induction rows as [|i rows IH]; cbn [phase_rows map]; [apply isok_ret|].
  set (js := zrange 0 (Z.to_nat w)). assert (JN : js <> []) by (unfold js; destruct (Z.to_nat w) eqn:E; [lia|discriminate]).
  eapply isok_bind.
  - apply (sum_zernikes_points fuel cs ps _ _ (combine (map (rr w h i) js) (map (tt w h i) js)) (fun l => KArr (map Fin l)) N L OK).
    + unfold row_r, row_theta. fold js. rewrite <- (map_map (rr w h i) Fin), <- (map_map (tt w h i) Fin). apply bc_vv; [constructor|constructor| |].
      * destruct js; [contradiction|discriminate].
      * rewrite !map_length. reflexivity.
    + rewrite combine_map_same. apply Forall_map, Forall_forall. intros j _. cbn. apply rr_disk; lia.
  - cbv beta iota. eapply isok_bind; [exact IH|]. eapply isok_ext; [|apply isok_ret]. f_equal.
    rewrite combine_map_same, !map_map. unfold mask_row, row_of. fold js. cbn [fst snd]. rewrite combine_id_map, map_map. reflexivity.
Qed.

Lemma rows_show cs ps w h : (0 < w)%Z -> (0 <= h)%Z -> Forall (fun p => valid (fst p) (snd p)) ps ->
  shows (map (row_of cs ps w h) (zrange 0 (Z.to_nat h))) cs ps w h.
Proof.
  intros Hw Hh V. split; [rewrite map_length, zrange_len; reflexivity|]. split.
  { intros row Hr. apply in_map_iff in Hr. destruct Hr as (i & <- & _). unfold row_of. rewrite map_length, zrange_len. reflexivity. }
  intros i j Hi Hj x y a.
  assert (P : pixel (map (row_of cs ps w h) (zrange 0 (Z.to_nat h))) i j =
              if in_aperture w h i j then Fin (zsum cs ps (rr w h i j) (tt w h i j)) else Fin 0).
  { unfold pixel. rewrite (nth_indep _ [] (row_of cs ps w h 0)) by (rewrite map_length, zrange_len; lia).
    rewrite map_nth, zrange_nth by lia. replace (0 + Z.of_nat (Z.to_nat i))%Z with i by lia. unfold row_of.
    set (f := fun j => _). rewrite (nth_indep _ NaN (f 0%Z)) by (rewrite map_length, zrange_len; lia).
    rewrite map_nth, zrange_nth by lia. replace (0 + Z.of_nat (Z.to_nat j))%Z with j by lia. reflexivity. }
  rewrite P. assert (AI := aperture_iff w h i j ltac:(lia) Hh). fold x y in AI. change (img_radius w h) with a in AI. split.
  - intros H rho phi HP. destruct AI as [_ AI]. specialize (AI H). pose proof (rr_disk w h i j ltac:(lia) Hh) as D.
    unfold rr, tt in *. rewrite AI in *. change (img_radius w h) with a in *. rewrite pixel_dist_norm2 in *. fold x y in D |- *.
    pose proof (pixel_polar (IZR y) (IZR x)) as PP. destruct (polar_unique _ _ _ _ _ _ PP HP) as [E _]. rewrite E in D. split; [exact D|].
    f_equal. apply (zsum_polar cs ps (IZR x) (IZR y)); assumption.
  - intros H. destruct (in_aperture w h i j); [|reflexivity]. exfalso. assert (true = true) by reflexivity. apply AI in H0. lia.
Qed.

Lemma okp_valid fuel ps : Forall (okp fuel) ps -> Forall (fun p => valid (fst p) (snd p)) ps.
Proof. apply Forall_impl. intros p [V _]. exact V. Qed.

Lemma phases_image_ok fuel cs ps w h s : reachable s -> cs <> [] -> length cs = length ps -> Forall (okp fuel) ps -> (0 < w)%Z -> (0 <= h)%Z ->
  exists img, snd (generate_phases_image fuel (map Some ps) cs w h s) = Ok img /\ shows img cs ps w h.
Proof.
  intros RS N L OK Hw Hh. unfold generate_phases_image. replace ((w <? 0)%Z || (h <? 0)%Z)%bool with false by lia.
  eexists. split; [apply (phase_rows_ok fuel cs ps w h N L OK Hw Hh (zrange 0 (Z.to_nat h)) s RS)|].
  apply rows_show; [exact Hw|exact Hh|eapply okp_valid; exact OK].
Qed.
(** image functions agree with themselves whatever was computed before *)
Lemma phases_image_same fuel cs ps w h s s' : reachable s -> reachable s' -> cs <> [] -> length cs = length ps -> Forall (okp fuel) ps -> (0 < w)%Z -> (0 <= h)%Z ->
  snd (generate_phases_image fuel (map Some ps) cs w h s) = snd (generate_phases_image fuel (map Some ps) cs w h s').
Proof.
  intros RS RS' N L OK Hw Hh. unfold generate_phases_image. replace ((w <? 0)%Z || (h <? 0)%Z)%bool with false by lia.
  destruct (phase_rows_ok fuel cs ps w h N L OK Hw Hh (zrange 0 (Z.to_nat h)) s RS) as [_ ->].
  destruct (phase_rows_ok fuel cs ps w h N L OK Hw Hh (zrange 0 (Z.to_nat h)) s' RS') as [_ ->]. reflexivity.
Qed.
Lemma phases_image_reject fuel cs ps w h s : (w < 0)%Z \/ (h < 0)%Z \/ ((0 < h)%Z /\ (length cs <> length ps \/ (cs = [] /\ ps = []))) ->
  snd (generate_phases_image fuel ps cs w h s) = Raise ValueError.
Proof.
  intros H. unfold generate_phases_image. destruct ((w <? 0)%Z || (h <? 0)%Z)%bool eqn:E; [reflexivity|].
  destruct H as [H|[H|[H1 H2]]]; [lia|lia|]. destruct (Z.to_nat h) eqn:EH; [lia|]. cbn [zrange phase_rows]. unfold mbind.
  destruct H2 as [H2|[-> ->]]; [rewrite sum_length_error by exact H2|rewrite sum_empty_error]; reflexivity.
Qed.

(** ** random phases *)
Lemma set_nth_len i x l : length (set_nth i x l) = length l.
Proof. revert i. induction l as [|y l IH]; intros [|i]; cbn; try reflexivity. rewrite IH. reflexivity. Qed.
Lemma set_nth_In i x l : (i < length l)%nat -> In x (set_nth i x l).
Proof. revert i. induction l as [|y l IH]; intros [|i] H; cbn in *; try lia; [left; reflexivity|right; apply IH; lia]. Qed.
Lemma set_nth_sub i x l y : In y (set_nth i x l) -> y = x \/ In y l.
Proof. revert i. induction l as [|z l IH]; intros [|i] H; cbn in *; try tauto; destruct H as [H|H]; try tauto; [left; congruence|]. destruct (IH i H); tauto. Qed.

Lemma max_ge l : ~ fold_right Rmax 0 (map Rabs l) < 0.08 -> exists a, In a l /\ 0.08 <= Rabs a.
Proof.
  induction l as [|a l IH]; cbn; intros H; [elim H; lra|]. destruct (Rle_lt_dec 0.08 (Rabs a)) as [L|L]; [exists a; split; [left; reflexivity|exact L]|].
  destruct IH as (b & I & B); [|exists b; split; [right; exact I|exact B]]. intros C. apply H. apply Rmax_lub_lt; assumption.
Qed.

Lemma amplitudes_ok n d : legal_draws n d -> length (random_amplitudes n d) = n /\
  (exists a, In a (random_amplitudes n d) /\ 0.08 <= Rabs a) /\
  forall a, In a (random_amplitudes n d) -> a = rnd d 0 \/ (exists i, a = rnd d (ampl d i)) \/ 0.08 <= Rabs a <= 1.5.
Proof.
  intros (H1 & H2 & H3 & H4). unfold random_amplitudes. set (l := map (rnd d) _).
  assert (L : length l = n) by (unfold l; rewrite !map_length, seq_length; reflexivity).
  assert (SUB : forall a, In a l -> a = rnd d 0 \/ (exists i, a = rnd d (ampl d i))).
  { intros a Ha. unfold l in Ha. rewrite map_map in Ha. apply in_map_iff in Ha. destruct Ha as (i & <- & _). destruct (pick d i); [right; exists i|left]; reflexivity. }
  set (v := if Rlt_dec (Rabs (again d)) 0.08 then shifted d else again d).
  assert (V : 0.08 <= Rabs v <= 1.5).
  { unfold v. destruct (Rlt_dec _ _); [rewrite Rabs_pos_eq by lra; lra|]. split; [lra|]. apply Rabs_le. lra. }
  destruct (Rlt_dec (fold_right Rmax 0 (map Rabs l)) 0.08) as [B|B].
  - split; [rewrite set_nth_len; exact L|]. split; [exists v; split; [apply set_nth_In; rewrite L; exact H2|apply V]|].
    intros a Ha. apply set_nth_sub in Ha. destruct Ha as [->|Ha]; [tauto|]. destruct (SUB a Ha); tauto.
  - split; [exact L|]. split; [apply max_ge, B|]. intros a Ha. destruct (SUB a Ha); tauto.
Qed.

Lemma random_phases_ok fuel N w h d s pols : reachable s -> (0 <= N <= 54)%Z -> (0 < w)%Z -> (0 <= h)%Z -> (56 <= Z.of_nat fuel)%Z ->
  generate_polynomials N = Ok pols -> Forall (fun p => valid (zp_m p) (zp_n p) /\ (zp_n p <= N)%Z) pols -> pols <> [] -> legal_draws (length pols) d ->
  let orders := map (fun p => (zp_m p, zp_n p)) pols in
  exists img a, snd (generate_random_phases fuel N w h d s) = Ok (img, a, pols) /\ length a = length pols /\ shows img a orders w h /\
    snd (generate_phases_image fuel (map Some orders) a w h s) = Ok img /\ exists x, In x a /\ 0.08 <= Rabs x.
Proof.
  intros RS HN Hw Hh HF G V NE LD orders. destruct (amplitudes_ok _ _ LD) as (AL & AB & _). set (a := random_amplitudes (length pols) d) in *.
  assert (OK : Forall (okp fuel) orders). { apply Forall_map. eapply Forall_impl; [|exact V]. cbn. intros p [A B]. split; cbn; [exact A|lia]. }
  assert (AN : a <> []). { intros E. rewrite E in AL. destruct pols; [contradiction|discriminate]. }
  assert (LO : length a = length orders) by (unfold orders; rewrite map_length; exact AL).
  destruct (phase_rows_ok fuel a orders w h AN LO OK Hw Hh (zrange 0 (Z.to_nat h)) s RS) as [_ E].
  exists (map (row_of a orders w h) (zrange 0 (Z.to_nat h))), a. split; [|split; [exact AL|split; [apply rows_show; [exact Hw|exact Hh|eapply okp_valid; exact OK]|split; [|exact AB]]]].
  - unfold generate_random_phases. rewrite G. unfold mbind at 1. cbn [mlift]. fold a. replace ((w <? 0)%Z || (h <? 0)%Z)%bool with false by lia.
    unfold mbind. unfold orders in E. rewrite map_map in E. destruct (phase_rows _ _ _ _ _ _ s) as [s' r]. cbn in E. subst r. reflexivity.
  - unfold generate_phases_image. replace ((w <? 0)%Z || (h <? 0)%Z)%bool with false by lia. exact E.
Qed.

From Verif Require Import M_Index SpecInit L_IndexProps.
Lemma random_phases_full fuel N w h s : reachable s -> (0 <= N <= 54)%Z -> (0 < w)%Z -> (0 <= h)%Z -> (56 <= Z.of_nat fuel)%Z ->
  exists pols, generate_polynomials N = Ok pols /\ (2 * Z.of_nat (length pols) = (N + 1) * (N + 2))%Z /\
    forall d, legal_draws (length pols) d ->
    exists img a, snd (generate_random_phases fuel N w h d s) = Ok (img, a, pols) /\ length a = length pols /\
      shows img a (map (fun p => (zp_m p, zp_n p)) pols) w h /\
      snd (generate_phases_image fuel (map Some (map (fun p => (zp_m p, zp_n p)) pols)) a w h s) = Ok img /\
      exists x, In x a /\ 0.08 <= Rabs x.
Proof.
  intros RS HN Hw Hh HF. destruct (gen_pols_spec N HN) as (l & G & LEN & NTH & _). exists l. split; [exact G|]. split; [exact LEN|].
  intros d LD. apply (random_phases_ok fuel N w h d s l); try assumption.
  - apply Forall_forall. intros p Hp. apply In_nth_error in Hp. destruct Hp as (i & Hi).
    assert (LI : (i < length l)%nat) by (apply nth_error_Some; congruence). destruct (NTH i LI) as (p' & E & _ & V & B & _).
    rewrite Hi in E. injection E as <-. tauto.
  - intros ->. cbn in LEN. lia.
Qed.
