(** Fitting the image that generate_phases_image made (C63). *)
From Coq Require Import Reals Lra Lia List Psatz.
From Flocq Require Import Core.
From Verif Require Import Py SpecIndex SpecRadial M_Init M_Radial M_Coeffs SpecCoeffs M_Sum SpecSum L_Sum SpecFit SpecGeo M_Geo M_Crop M_Fit M_Phases SpecPhases SpecCrop L_Geo L_Polar L_Crop L_LinAlg L_Phases L_Fit L_Indep L_Stable SpecDiff L_Conv L_Conv2 SpecFitNoise L_FitNoise.
Local Open Scope R_scope.

Lemma circle_square size : circle_radius size size = (IZR size - 1) / 2.
Proof. unfold circle_radius. rewrite Z.sub_diag. cbn. rewrite Z.max_id. reflexivity. Qed.
Lemma polar_norm x y rho t : polar x y rho t -> sqrt (x * x + y * y) = rho /\ rho * rho = x * x + y * y.
Proof.
  intros (R0 & _ & <- & <-). assert (E : rho * cos t * (rho * cos t) + rho * sin t * (rho * sin t) = rho * rho).
  { pose proof (sin2_cos2 t) as SC. unfold Rsqr in SC. transitivity (rho * rho * (sin t * sin t + cos t * cos t)); [ring|rewrite SC; ring]. }
  rewrite E. split; [apply sqrt_square, R0|reflexivity].
Qed.

(** the pixels that the fit reads from an image with side 2 half + 1, and their coordinates *)
Lemma odd_crop {A} rnd (f : Z -> Z -> A) half x (strict : bool) : sane rnd -> (1 <= half <= 800)%Z -> 1 / 2 <= round4 rnd x <= 1 ->
  exists mask S radii thetas q,
    crop_phases_img rnd (Img (2 * half + 1) (2 * half + 1) f) (RadNum x) strict = Ok (mask, (map (fun p => f (fst p) (snd p)) S, radii, thetas)) /\
    S <> [] /\ length radii = length S /\ length thetas = length S /\ Forall in_disk radii /\ 1 <= q <= 1002 / 1000 /\
    (forall p, (0 <= fst p <= 2 * half)%Z -> (0 <= snd p <= 2 * half)%Z -> rel_dist (2 * half + 1) (2 * half + 1) p <= round4 rnd x -> In p S) /\
    forall k, (k < length S)%nat -> let i := fst (nth k S (0, 0)%Z) in let j := snd (nth k S (0, 0)%Z) in
      (0 <= i <= 2 * half)%Z /\ (0 <= j <= 2 * half)%Z /\
      exists rho, polar (IZR (j - half)) (IZR (half - i)) rho (nth k thetas 0) /\ rho <= 10012 / 10000 * IZR half /\
        ((j - half) * (j - half) + (half - i) * (half - i) <= (half + 1) * (half + 1))%Z /\
        Rabs (nth k radii 0 - rho / IZR half / q) <= 2 / 10000.
Proof.
  intros SN HH HC. set (s := (2 * half + 1)%Z). assert (HM : (3 <= Z.min s s)%Z) by (unfold s; lia).
  assert (O : Z.odd s = true) by (unfold s; rewrite Z.odd_add, Z.odd_mul; reflexivity).
  assert (BM : border_margin s s strict = 1 / 1000).
  { unfold border_margin. rewrite <- Z.negb_odd, O, Z.sub_diag. destruct strict; reflexivity. }
  destruct (crop_ok rnd s s f x strict SN HM HC) as (sel & mask & phases & radii & thetas & H). cbn zeta in H.
  destruct H as (EC & NS & EP & LR & LT & RR & PO & _ & SELIN & SELOUT & q & HQ & RAD). set (S := filter sel (row_major s s)) in *.
  rewrite BM in *. exists mask, S, radii, thetas, q. rewrite EP in EC. split; [exact EC|]. split; [exact NS|]. split; [exact LR|]. split; [exact LT|].
  split; [apply Forall_forall; exact RR|]. split; [lra|]. split.
  { intros [i j] Hi Hj H. cbn [fst snd] in Hi, Hj. apply filter_In. split; [apply row_major_In; unfold s; lia|apply SELIN; lra]. }
  intros k Hk i j. specialize (PO k Hk). specialize (RAD k Hk).
  assert (IN : In (nth k S (0, 0)%Z) S) by (apply nth_In, Hk). apply filter_In in IN. destruct IN as [I1 I2]. specialize (SELOUT _ I2).
  rewrite (surjective_pairing (nth k S (0, 0)%Z)) in I1, PO, RAD, SELOUT. fold i j in I1, PO, RAD, SELOUT. apply row_major_In in I1. unfold s in I1.
  split; [lia|]. split; [lia|]. destruct PO as (rho & PO).
  assert (CS : (IZR s - 1) / 2 = IZR half) by (unfold s; rewrite plus_IZR, mult_IZR; lra).
  assert (EX : off_x s (i, j) = IZR (j - half)) by (unfold off_x; cbn [snd]; rewrite CS, minus_IZR; reflexivity).
  assert (EY : off_y s (i, j) = IZR (half - i)) by (unfold off_y; cbn [fst]; rewrite CS, minus_IZR; reflexivity).
  unfold rel_dist in RAD, SELOUT. rewrite EX, EY in *. rewrite circle_square, CS in *. destruct (polar_norm _ _ _ _ PO) as [N1 N2]. rewrite N1 in *.
  assert (HR : 1 <= IZR half <= 800) by (split; apply IZR_le; lia).
  assert (RB : rho < 10012 / 10000 * IZR half).
  { apply Rmult_lt_reg_r with (/ IZR half); [apply Rinv_0_lt_compat; lra|]. replace (10012 / 10000 * IZR half * / IZR half) with (10012 / 10000) by (field; lra).
    fold (rho / IZR half). lra. }
  exists rho. split; [exact PO|]. split; [lra|]. split; [|exact RAD].
  apply le_IZR. rewrite plus_IZR, !(mult_IZR (_ - _)), <- N2, mult_IZR, plus_IZR. destruct PO as (R0 & _). apply Rmult_le_compat; lra.
Qed.

Lemma steep_nonneg ps cs : Forall (fun p => valid (fst p) (snd p)) ps -> 0 <= steep_r cs ps.
Proof. intros V. apply (lip_nonneg (fun x => zsum cs ps x 0) 0 1); [lra|apply zsum_r]. exact V. Qed.

Lemma mismatch half q rho r : (1 <= half <= 800)%Z -> 1 <= q <= 1002 / 1000 -> 0 <= rho <= 10012 / 10000 * IZR half ->
  Rabs (r - rho / IZR half / q) <= 2 / 10000 -> Rabs (rho / (IZR half + 1) - r) <= radius_mismatch half.
Proof.
  intros HH Q [P0 P1] E. assert (H1 : 1 <= IZR half) by (apply IZR_le; lia). set (h := IZR half) in *.
  set (u := rho / h). assert (U : 0 <= u <= 10012 / 10000).
  { split; [apply div_ge0; lra|]. unfold u. apply Rmult_le_reg_r with h; [lra|]. unfold Rdiv at 1. rewrite Rmult_assoc, Rinv_l by lra. lra. }
  assert (E1 : rho / (h + 1) = u - u * / (h + 1)) by (unfold u; field; lra).
  assert (IQ : 998 / 1000 <= / q <= 1).
  { split; [|rewrite <- Rinv_1; apply Rinv_le_contravar; lra]. apply Rmult_le_reg_r with q; [lra|]. rewrite Rinv_l by lra. lra. }
  assert (IH : 0 < / (h + 1)) by (apply Rinv_0_lt_compat; lra).
  assert (UH : 0 <= u * / (h + 1) <= 101 / 100 * / (h + 1)) by (split; [apply Rmult_le_pos; lra|apply Rmult_le_compat_r; lra]).
  fold u in E. change (u / q) with (u * / q) in E. assert (UQ : u - 2 / 1000 * (10012 / 10000) <= u * / q <= u).
  { split; [|rewrite <- (Rmult_1_r u) at 2; apply Rmult_le_compat_l; lra]. assert (u * (1 - / q) <= 10012 / 10000 * (2 / 1000)) by (apply Rmult_le_compat; lra). lra. }
  unfold radius_mismatch. fold h. replace (101 / 100 / (h + 1)) with (101 / 100 * / (h + 1)) by reflexivity. rewrite E1. apply Rabs_le_inv in E.
  set (v := u * / (h + 1)) in *. set (w := / (h + 1)) in *. set (z := u * / q) in *. clearbody u v w z. apply Rabs_le. split; lra.
Qed.

(** the image is square, with an odd side *)
Lemma round_trip_odd rnd lstsq fuel half ps a x (strict : bool) digits (rc : bool) s s' :
  sane rnd -> lstsq_contract lstsq -> reachable s -> reachable s' -> Forall (okp fuel) ps -> NoDup ps -> ps <> [] -> length a = length ps ->
  (1 <= half <= 800)%Z -> 1 / 2 <= round4 rnd x <= 1 ->
  exists img, snd (generate_phases_image fuel (map Some ps) a (2 * half + 1) (2 * half + 1) s) = Ok img /\
  forall f, (forall i j, (0 <= i <= 2 * half)%Z -> (0 <= j <= 2 * half)%Z -> pixel img i j = Fin (f i j)) ->
  exists mask phases radii thetas y out,
    crop_phases_img rnd (Img (2 * half + 1) (2 * half + 1) f) (RadNum x) strict = Ok (mask, (phases, radii, thetas)) /\
    snd (fit_polynomials rnd lstsq fuel (Img (2 * half + 1) (2 * half + 1) f) (map Some ps) (RadNum x) strict digits rc s') = Ok (map (np_round digits) y, out) /\
    length y = length ps /\
    square_difference y a ps (combine radii thetas) <= INR (length phases) * ((steep_r a ps * radius_mismatch half) * (steep_r a ps * radius_mismatch half)).
Proof.
  intros SN C RS RS' OK ND NP La HH HC.
  assert (NA : a <> []) by (intros ->; destruct ps; [congruence|discriminate]).
  assert (V : Forall (fun p => valid (fst p) (snd p)) ps) by (apply (okp_valid fuel); exact OK).
  destruct (phases_image_ok fuel a ps (2 * half + 1) (2 * half + 1) s RS NA La OK ltac:(lia) ltac:(lia)) as (img & EI & _ & _ & SH).
  exists img. split; [exact EI|]. intros f HF.
  destruct (odd_crop rnd f half x strict SN HH HC) as (mask & S & radii & thetas & q & EC & NS & LR & LT & DR & HQ & _ & PT).
  assert (H1 : 1 <= IZR half) by (apply IZR_le; lia).
  assert (E0 : 0 <= steep_r a ps * radius_mismatch half).
  { apply Rmult_le_pos; [apply steep_nonneg, V|]. unfold radius_mismatch. assert (0 < / (IZR half + 1)) by (apply Rinv_0_lt_compat; lra). lra. }
  assert (NR : radii <> []) by (intros ->; destruct S; [congruence|discriminate]).
  destruct (fit_close rnd lstsq fuel (2 * half + 1) (2 * half + 1) f ps a x strict digits rc s' mask S radii thetas _ C RS' OK ND NP La EC DR NR LR LT E0) as (y & out & EF & Ly & SQ & _).
  { intros k Hk. specialize (PT k Hk). cbn zeta in PT. set (i := fst (nth k S (0, 0)%Z)) in *. set (j := snd (nth k S (0, 0)%Z)) in *.
    destruct PT as (Hi & Hj & rho & PO & RB & IN & RK). specialize (SH i j ltac:(lia) ltac:(lia)). cbn zeta in SH.
    replace ((2 * half + 1) / 2)%Z with half in SH by (rewrite Z.mul_comm, Z.div_add_l by lia; cbn; lia). rewrite Z.min_id in SH.
    replace ((2 * half + 1) / 2)%Z with half in SH by (rewrite Z.mul_comm, Z.div_add_l by lia; cbn; lia).
    destruct SH as [SH _]. rewrite (Z.add_comm 1 half) in SH. destruct (SH IN rho _ PO) as [UD PX]. rewrite HF in PX by assumption. injection PX as PX. rewrite PX.
    set (th := nth k thetas 0) in *. set (r := nth k radii 0) in *.
    assert (RD : 0 <= r <= 1). { rewrite Forall_forall in DR. apply DR. unfold r. apply nth_In. congruence. }
    rewrite plus_IZR in UD |- *. eapply Rle_trans; [apply (zsum_r ps th V a (rho / (IZR half + 1)) r); assumption|].
    apply Rmult_le_compat_l; [apply steep_nonneg, V|]. apply (mismatch half q); try assumption. destruct PO as (R0 & _). lra. }
  exists mask, (map (fun p => f (fst p) (snd p)) S), radii, thetas, y, out. split; [exact EC|]. split; [exact EF|]. split; [exact Ly|].
  rewrite map_length. exact SQ.
Qed.

(** ** one polynomial *)
Lemma one_column d b y : length d = length b -> lstsq_solution [d] b [y] -> y * normsq d = dot b d.
Proof.
  intros L H. apply lstsq_normal in H; [|constructor; [exact L|constructor]]. destruct H as (_ & M & _). specialize (M [1] eq_refl).
  cbn [mulmv] in M. fold (zeros (length b)) in M. rewrite !vadd_zeros_r in M by (rewrite vscale_len; exact L). rewrite vscale_1 in M.
  rewrite dot_sub_l, dot_scale_l in M by (rewrite vscale_len; congruence). unfold normsq. lra.
Qed.
(** the values are at most k times the column *)
Lemma dot_le_normsq k d : forall b, (forall i, (i < length d)%nat -> nth i b 0 * nth i d 0 <= k * (nth i d 0 * nth i d 0)) -> length b = length d -> dot b d <= k * normsq d.
Proof.
  unfold normsq. induction d as [|v d IH]; intros [|w b] H L; try discriminate; [cbn; lra|]. cbn [dot].
  assert (H0 := H 0%nat ltac:(cbn; lia)). cbn [nth] in H0. assert (HI := IH b (fun i Hi => H (S i) ltac:(cbn; lia)) ltac:(injection L; auto)). lra.
Qed.

Lemma tilt_value r t : Z_nm 1 1 r t = 2 * r * cos t.
Proof.
  unfold Z_nm, norm_nm, R_nm, T_m. cbn -[cos sqrt]. replace (2 * (1 + 1) / (1 + 0)) with (2 * 2) by field. rewrite sqrt_square by lra.
  change (Pos.to_nat 1) with 1%nat. cbn -[cos]. rewrite !Rmult_1_l. field.
Qed.
Lemma piston_value r t : Z_nm 0 0 r t = 1.
Proof.
  unfold Z_nm, norm_nm, R_nm, T_m. cbn -[cos sqrt]. replace (2 * (0 + 1) / (1 + 1)) with (1 * 1) by field. rewrite sqrt_square by lra.
  rewrite Rmult_0_l, cos_0. field.
Qed.
Lemma ok11 fuel : (3 <= fuel)%nat -> okp fuel (1, 1)%Z.
Proof. intros H. split; cbn [fst snd]; [|lia]. split; [lia|]. split; [lia|]. exists 0%Z. reflexivity. Qed.
Lemma ok00 fuel : (3 <= fuel)%nat -> okp fuel (0, 0)%Z.
Proof. intros H. split; cbn [fst snd]; [|lia]. split; [lia|]. split; [lia|]. exists 0%Z. reflexivity. Qed.
Lemma singleton (y : list R) : length y = 1%nat -> exists v, y = [v].
Proof. destruct y as [|v [|]]; try discriminate. intros _. exists v. reflexivity. Qed.

(** the tilt of a small image comes back at most 0.92 times as large *)
Lemma tilt_shrinks rnd lstsq fuel half amp (strict : bool) digits (rc : bool) s s' :
  sane rnd -> lstsq_contract lstsq -> reachable s -> reachable s' -> (3 <= fuel)%nat -> (1 <= half <= 10)%Z -> 0 < amp ->
  exists img, snd (generate_phases_image fuel [Some (1, 1)%Z] [amp] (2 * half + 1) (2 * half + 1) s) = Ok img /\
  forall f, (forall i j, (0 <= i <= 2 * half)%Z -> (0 <= j <= 2 * half)%Z -> pixel img i j = Fin (f i j)) ->
  exists y out, snd (fit_polynomials rnd lstsq fuel (Img (2 * half + 1) (2 * half + 1) f) [Some (1, 1)%Z] (RadNum 1) strict digits rc s') = Ok ([np_round digits y], out) /\
    y <= 92 / 100 * amp.
Proof.
  intros SN C RS RS' HFu HH HA. assert (OK : Forall (okp fuel) [(1, 1)%Z]) by (constructor; [apply ok11, HFu|constructor]).
  destruct (phases_image_ok fuel [amp] [(1, 1)%Z] (2 * half + 1) (2 * half + 1) s RS ltac:(discriminate) eq_refl OK ltac:(lia) ltac:(lia)) as (img & EI & _ & _ & SH).
  exists img. split; [exact EI|]. intros f HF.
  assert (HC : 1 / 2 <= round4 rnd 1 <= 1) by (rewrite (round4_1 rnd SN); lra).
  destruct (odd_crop rnd f half 1 strict SN ltac:(lia) HC) as (mask & S & radii & thetas & q & EC & NS & LR & LT & DR & HQ & SELIN & PT).
  set (phases := map (fun p => f (fst p) (snd p)) S) in *. assert (LP : length phases = length S) by apply map_length.
  assert (NR : radii <> []) by (intros ->; destruct S; [congruence|discriminate]).
  assert (ND : NoDup [(1, 1)%Z]) by (constructor; [intros []|constructor]).
  destruct (image_isok rnd lstsq fuel (2 * half + 1) (2 * half + 1) f [(1, 1)%Z] 1 strict digits rc mask phases radii thetas OK ND ltac:(discriminate) EC DR NR ltac:(congruence) ltac:(congruence) s' RS') as [_ E].
  set (pts := combine radii thetas) in *. assert (LPT : length pts = length S) by (unfold pts; rewrite combine_length; lia).
  assert (W : wf (length phases) (design pts [(1, 1)%Z])) by (rewrite LP, <- LPT; apply design_wf).
  assert (SOL := C _ _ W). set (y := lstsq (design pts [(1, 1)%Z]) phases) in *.
  destruct (singleton y) as (v & EV); [apply SOL|]. rewrite EV in *. clear EV y. cbn [map] in E.
  exists v. eexists. split; [exact E|]. unfold design in SOL. cbn [map fst snd] in SOL. set (d := map _ pts) in SOL.
  assert (LD : length d = length S) by (unfold d; rewrite map_length; exact LPT).
  apply one_column in SOL; [|congruence].
  assert (DV : forall k, (k < length S)%nat -> nth k d 0 = 2 * nth k radii 0 * cos (nth k thetas 0)).
  { intros k Hk. unfold d. rewrite (nth_indep _ 0 ((fun q => Z_nm 1 1 (fst q) (snd q)) (0, 0))) by (rewrite map_length, LPT; exact Hk).
    rewrite (map_nth (fun q => Z_nm 1 1 (fst q) (snd q))). unfold pts. rewrite nth_combine_pts by congruence. cbn [fst snd]. apply tilt_value. }
  assert (HR : 1 <= IZR half <= 10) by (split; apply IZR_le; lia).
  assert (ALL : dot phases d <= 92 / 100 * amp * normsq d).
  { apply dot_le_normsq; [|congruence]. intros k Hk. rewrite LD in Hk. rewrite DV by exact Hk. specialize (PT k Hk). cbn zeta in PT.
    unfold phases. rewrite (nth_indep _ 0 (f (fst (0, 0)%Z) (snd (0, 0)%Z))) by (rewrite map_length; exact Hk). rewrite (map_nth (fun p => f (fst p) (snd p)) S (0, 0)%Z k).
    set (i := fst (nth k S (0, 0)%Z)) in *. set (j := snd (nth k S (0, 0)%Z)) in *. destruct PT as (Hi & Hj & rho & PO & RB & IN & RK).
    specialize (SH i j ltac:(lia) ltac:(lia)). cbn zeta in SH.
    replace ((2 * half + 1) / 2)%Z with half in SH by (rewrite Z.mul_comm, Z.div_add_l by lia; cbn; lia). rewrite Z.min_id in SH.
    replace ((2 * half + 1) / 2)%Z with half in SH by (rewrite Z.mul_comm, Z.div_add_l by lia; cbn; lia).
    destruct SH as [SH _]. rewrite (Z.add_comm 1 half) in SH. destruct (SH IN rho _ PO) as [UD PX]. rewrite HF in PX by assumption. injection PX as PX. rewrite PX.
    cbn [zsum]. rewrite tilt_value. set (th := nth k thetas 0) in *. set (r := nth k radii 0) in *. rewrite plus_IZR.
    set (h := IZR half) in *. assert (RD : 0 <= r <= 1) by (rewrite Forall_forall in DR; apply DR; unfold r; apply nth_In; congruence).
    (* the radius is 0 or at least 1 *)
    assert (KEY : rho / (h + 1) <= 92 / 100 * r).
    { destruct PO as (R0 & PO'). destruct (Req_dec rho 0) as [->|NZ]; [unfold Rdiv; rewrite Rmult_0_l; lra|].
      assert (R1 : 1 <= rho).
      { destruct (polar_norm _ _ _ _ (conj R0 PO')) as [_ N2]. assert (Z1 : (1 <= (j - half) * (j - half) + (half - i) * (half - i))%Z).
        { assert (0 < (j - half) * (j - half) + (half - i) * (half - i))%Z; [|lia]. apply lt_IZR. rewrite plus_IZR, !(mult_IZR (_ - _)), <- N2. nra. }
        apply IZR_le in Z1. rewrite plus_IZR, !(mult_IZR (_ - _)), <- N2 in Z1. nra. }
      set (u := rho / h) in *. assert (U : / 10 <= u). { unfold u. apply Rmult_le_reg_r with h; [lra|]. unfold Rdiv. rewrite Rmult_assoc, Rinv_l by lra. lra. }
      assert (IQ : 998 / 1000 <= / q). { apply Rmult_le_reg_r with q; [lra|]. rewrite Rinv_l by lra. lra. }
      assert (UQ : 998 / 1000 * u <= u / q) by (unfold Rdiv; rewrite (Rmult_comm u); apply Rmult_le_compat_r; lra).
      assert (IH : 9 / 100 <= / (h + 1)). { apply Rmult_le_reg_r with (h + 1); [lra|]. rewrite Rinv_l by lra. lra. }
      assert (E1 : rho / (h + 1) = u - u * / (h + 1)) by (unfold u; field; lra).
      assert (u * (9 / 100) <= u * / (h + 1)) by (apply Rmult_le_compat_l; lra).
      apply Rabs_le_inv in RK. rewrite E1. lra. }
    set (cc := cos th). assert (CC : 0 <= cc * cc) by apply Rle_0_sqr.
    replace ((amp * (2 * (rho / (h + 1)) * cc) + 0) * (2 * r * cc)) with (4 * amp * r * (cc * cc) * (rho / (h + 1))) by ring.
    replace (92 / 100 * amp * (2 * r * cc * (2 * r * cc))) with (4 * amp * r * (cc * cc) * (92 / 100 * r)) by ring.
    apply Rmult_le_compat_l; [|exact KEY]. apply Rmult_le_pos; [|exact CC]. apply Rmult_le_pos; lra. }
  (* the pixel right of the centre *)
  assert (POS : 0 < normsq d).
  { set (p := (half, half + 1)%Z). assert (RDp : rel_dist (2 * half + 1) (2 * half + 1) p <= 1).
    { unfold rel_dist, off_x, off_y, p. cbn [fst snd]. rewrite circle_square, !plus_IZR, mult_IZR.
      replace (IZR half + 1 - (2 * IZR half + 1 - 1) / 2) with 1 by field. replace ((2 * IZR half + 1 - 1) / 2 - IZR half) with 0 by field. replace ((2 * IZR half + 1 - 1) / 2) with (IZR half) by field.
      replace (1 * 1 + 0 * 0) with 1 by ring. rewrite sqrt_1. apply div_le1; lra. }
    assert (IN : In p S) by (apply SELIN; [unfold p; cbn [fst snd]; lia|unfold p; cbn [fst snd]; lia|rewrite (round4_1 rnd SN); exact RDp]).
    destruct (In_nth S p (0, 0)%Z IN) as (k & Hk & EK). specialize (PT k Hk). rewrite EK in PT. unfold p in PT. cbn [fst snd] in PT. cbn zeta in PT.
    destruct PT as (_ & _ & rho & PO & _ & _ & RK). replace (half + 1 - half)%Z with 1%Z in PO by ring. rewrite Z.sub_diag in PO.
    destruct (polar_norm _ _ _ _ PO) as [N1 _]. replace (1 * 1 + 0 * 0) with 1 in N1 by ring. rewrite sqrt_1 in N1. subst rho. destruct PO as (_ & _ & CT & _). rewrite Rmult_1_l in CT.
    apply Rlt_le_trans with (nth k d 0 * nth k d 0); [|apply coord_le]. rewrite DV, CT by exact Hk. set (r := nth k radii 0) in *.
    assert (R1 : 9 / 100 <= r).
    { assert (IQ : 998 / 1000 <= / q). { apply Rmult_le_reg_r with q; [lra|]. rewrite Rinv_l by lra. lra. }
      assert (IHh : / 10 <= 1 / IZR half). { apply Rmult_le_reg_r with (IZR half); [lra|]. unfold Rdiv. rewrite Rmult_assoc, Rinv_l by lra. lra. }
      assert (/ 10 * (998 / 1000) <= 1 / IZR half / q) by (unfold Rdiv at 3; apply Rmult_le_compat; lra).
      apply Rabs_le_inv in RK. lra. }
    nra. }
  apply Rmult_le_reg_r with (normsq d); [exact POS|]. rewrite SOL. exact ALL.
Qed.

(** ** squares with an even side, the default border: pixels outside the generated disk are fitted *)
Lemma even_background rnd half : (44 <= half)%Z -> sane rnd ->
  exists k, (0 <= k < 2 * half)%Z /\ ((half + 1) * (half + 1) < (k - half) * (k - half) + (half - k) * (half - k))%Z /\
    rel_dist (2 * half) (2 * half) (k, k) <= 1 + border_margin (2 * half) (2 * half) false - / 10000.
Proof.
  intros HH SN.
  assert (BM : border_margin (2 * half) (2 * half) false = 55 / 1000).
  { unfold border_margin. rewrite Z.even_mul. reflexivity. }
  rewrite BM. set (d := (half * 725 / 1000 + 1)%Z). pose proof (Z.div_mod (half * 725) 1000 ltac:(lia)) as DM. pose proof (Z.mod_pos_bound (half * 725) 1000 ltac:(lia)) as MB.
  exists (half - d)%Z. split; [unfold d; lia|]. split.
  - replace (half - d - half)%Z with (- d)%Z by ring. replace (half - (half - d))%Z with d by ring. 
    assert (D1 : (725 * half < 1000 * d)%Z) by (unfold d; lia). assert (D2 : (725 * half * (725 * half) < 1000 * d * (1000 * d))%Z) by (apply Z.mul_lt_mono_nonneg; lia).
    assert (D3 : (44 * half <= half * half)%Z) by (apply Z.mul_le_mono_nonneg_r; lia). replace (- d * - d)%Z with (d * d)%Z by ring.
    replace (725 * half * (725 * half))%Z with (525625 * (half * half))%Z in D2 by ring. replace (1000 * d * (1000 * d))%Z with (1000000 * (d * d))%Z in D2 by ring.
    replace ((half + 1) * (half + 1))%Z with (half * half + 2 * half + 1)%Z by ring. lia.
  - unfold rel_dist, off_x, off_y. cbn [fst snd]. rewrite circle_square, minus_IZR, mult_IZR. set (h := IZR half). set (e := IZR d).
    assert (HR : 44 <= h) by (apply IZR_le; lia). assert (ER : e <= 725 / 1000 * h + 1).
    { assert (H : (1000 * d <= 725 * half + 1000)%Z) by (unfold d; lia). apply IZR_le in H. rewrite plus_IZR, !mult_IZR in H. unfold h, e. lra. }
    assert (E0 : 1 <= e) by (apply IZR_le; unfold d; lia).
    replace (h - e - (2 * h - 1) / 2) with (- (e - / 2)) by field. replace ((2 * h - 1) / 2 - (h - e)) with (e - / 2) by field.
    replace ((2 * h - 1) / 2) with (h - / 2) by field.
    apply Rmult_le_reg_r with (h - / 2); [lra|]. unfold Rdiv at 1. rewrite Rmult_assoc, Rinv_l, Rmult_1_r by lra.
    apply Rsqr_incr_0_var; [|nra]. unfold Rsqr. rewrite sqrt_sqrt by nra.
    assert (T : e - / 2 <= 7455 / 10000 * (h - / 2)) by lra. nra.
Qed.

Lemma dot_le_slack k d : forall b k0, (forall i, (i < length d)%nat -> nth i b 0 * nth i d 0 <= k * (nth i d 0 * nth i d 0)) -> length b = length d -> (k0 < length d)%nat ->
  dot b d <= k * normsq d - (k * (nth k0 d 0 * nth k0 d 0) - nth k0 b 0 * nth k0 d 0).
Proof.
  induction d as [|v d IH]; intros [|w b] k0 H L K; try discriminate; [cbn in K; lia|]. change (normsq (v :: d)) with (v * v + normsq d). cbn [dot].
  assert (H0 := H 0%nat ltac:(cbn; lia)). cbn [nth] in H0. assert (HT : forall i, (i < length d)%nat -> nth i b 0 * nth i d 0 <= k * (nth i d 0 * nth i d 0)) by (intros i Hi; apply (H (S i)); cbn; lia).
  assert (L' : length b = length d) by (injection L; auto). destruct k0 as [|k0]; cbn [nth].
  - assert (Q := dot_le_normsq k d b HT L'). lra.
  - assert (Q := IH b k0 HT L' ltac:(cbn in K; lia)). lra.
Qed.
Lemma normsq_ones n : normsq (repeat 1 n) = INR n.
Proof. unfold normsq. induction n as [|n IH]; [reflexivity|]. cbn [repeat dot]. rewrite IH, S_INR. ring. Qed.
Lemma row_major_length rows cols : (0 <= rows)%Z -> (0 <= cols)%Z -> INR (length (row_major rows cols)) = IZR (rows * cols).
Proof.
  intros HR HC. rewrite INR_IZR_INZ. f_equal. unfold row_major.
  assert (E : forall l : list Z, length (flat_map (fun i => map (fun j => (i, j)) (zrange 0 (Z.to_nat cols))) l) = (length l * Z.to_nat cols)%nat).
  { induction l as [|i l IH]; [reflexivity|]. cbn [flat_map]. rewrite app_length, map_length, IH, zrange_len. cbn. lia. }
  rewrite E, zrange_len. lia.
Qed.
(** the piston of an image with an even side comes back too small *)
Lemma piston_shrinks rnd lstsq fuel half amp digits (rc : bool) s s' :
  sane rnd -> lstsq_contract lstsq -> reachable s -> reachable s' -> (3 <= fuel)%nat -> (44 <= half)%Z -> 0 < amp ->
  exists img, snd (generate_phases_image fuel [Some (0, 0)%Z] [amp] (2 * half) (2 * half) s) = Ok img /\
  forall f, (forall i j, (0 <= i < 2 * half)%Z -> (0 <= j < 2 * half)%Z -> pixel img i j = Fin (f i j)) ->
  exists y out, snd (fit_polynomials rnd lstsq fuel (Img (2 * half) (2 * half) f) [Some (0, 0)%Z] (RadNum 1) false digits rc s') = Ok ([np_round digits y], out) /\
    y <= amp * (1 - / IZR (2 * half * (2 * half))).
Proof.
  intros SN C RS RS' HFu HH HA. assert (OK : Forall (okp fuel) [(0, 0)%Z]) by (constructor; [apply ok00, HFu|constructor]).
  destruct (phases_image_ok fuel [amp] [(0, 0)%Z] (2 * half) (2 * half) s RS ltac:(discriminate) eq_refl OK ltac:(lia) ltac:(lia)) as (img & EI & _ & _ & SH).
  exists img. split; [exact EI|]. intros f HF.
  assert (HC : 1 / 2 <= round4 rnd 1 <= 1) by (rewrite (round4_1 rnd SN); lra).
  destruct (crop_ok rnd (2 * half) (2 * half) f 1 false SN ltac:(lia) HC) as (sel & mask & phases & radii & thetas & H). cbn zeta in H.
  destruct H as (EC & NS & EP & LR & LT & RR & PO & _ & SELIN & _). set (S := filter sel (row_major (2 * half) (2 * half))) in *.
  assert (LP : length phases = length S) by (rewrite EP; apply map_length).
  assert (NR : radii <> []) by (intros ->; destruct S; [congruence|discriminate]).
  assert (ND : NoDup [(0, 0)%Z]) by (constructor; [intros []|constructor]).
  assert (DR : Forall in_disk radii) by (apply Forall_forall; exact RR).
  destruct (image_isok rnd lstsq fuel (2 * half) (2 * half) f [(0, 0)%Z] 1 false digits rc mask phases radii thetas OK ND ltac:(discriminate) EC DR NR ltac:(congruence) ltac:(congruence) s' RS') as [_ E].
  set (pts := combine radii thetas) in *. assert (LPT : length pts = length S) by (unfold pts; rewrite combine_length; lia).
  assert (W : wf (length phases) (design pts [(0, 0)%Z])) by (rewrite LP, <- LPT; apply design_wf).
  assert (SOL := C _ _ W). set (y := lstsq (design pts [(0, 0)%Z]) phases) in *.
  destruct (singleton y) as (v & EV); [apply SOL|]. rewrite EV in *. clear EV y. cbn [map] in E.
  exists v. eexists. split; [exact E|]. unfold design in SOL. cbn [map fst snd] in SOL. set (d := map _ pts) in SOL.
  assert (ED : d = repeat 1 (length S)).
  { unfold d. rewrite <- LPT. clear. induction pts as [|q pts IH]; [reflexivity|]. cbn [map length repeat]. rewrite piston_value, IH. reflexivity. }
  clearbody d. subst d.
  assert (LD : length (repeat 1 (length S)) = length S) by apply repeat_length.
  apply one_column in SOL; [|congruence]. rewrite normsq_ones in SOL.
  (* every pixel is amp or 0 *)
  assert (PV : forall i j, (0 <= i < 2 * half)%Z -> (0 <= j < 2 * half)%Z -> f i j <= amp /\ (((1 + half) * (1 + half) < (j - half) * (j - half) + (half - i) * (half - i))%Z -> f i j = 0)).
  { intros i j Hi Hj. specialize (SH i j Hi Hj). cbn zeta in SH. rewrite Z.min_id in SH.
    replace (2 * half / 2)%Z with half in SH by (rewrite Z.mul_comm, Z.div_mul by lia; reflexivity). destruct SH as [SI SO]. rewrite HF in SI, SO by assumption.
    destruct (Z_le_gt_dec ((j - half) * (j - half) + (half - i) * (half - i)) ((1 + half) * (1 + half))) as [IN|OUT].
    - split; [|lia]. pose proof (pixel_polar (IZR (half - i)) (IZR (j - half))) as PO'. destruct (SI IN _ _ PO') as [_ X]. injection X as X. rewrite X.
      cbn [zsum]. rewrite piston_value. lra.
    - assert (X := SO ltac:(lia)). injection X as X. rewrite X. split; [lra|reflexivity]. }
  destruct (even_background rnd half HH SN) as (k & KR & KO & KD).
  assert (IN : In (k, k) S).
  { apply filter_In. split; [apply row_major_In; lia|]. apply SELIN. rewrite (round4_1 rnd SN). exact KD. }
  destruct (In_nth S (k, k) (0, 0)%Z IN) as (k0 & Hk0 & EK).
  assert (NV : forall i, (i < length S)%nat -> nth i phases 0 = f (fst (nth i S (0, 0)%Z)) (snd (nth i S (0, 0)%Z))).
  { intros i Hi. rewrite EP. rewrite (nth_indep _ 0 (f (fst (0, 0)%Z) (snd (0, 0)%Z))) by (rewrite map_length; exact Hi). exact (map_nth (fun p => f (fst p) (snd p)) S (0, 0)%Z i). }
  assert (ON : forall i, (i < length S)%nat -> nth i (repeat 1 (length S)) 0 = 1) by (intros i Hi; rewrite (nth_indep _ 0 1) by (rewrite LD; exact Hi); apply nth_repeat).
  assert (ALL := dot_le_slack amp (repeat 1 (length S)) phases k0). rewrite normsq_ones, LD, !ON, NV, EK in ALL by exact Hk0. cbn [fst snd] in ALL.
  destruct (PV k k KR KR) as [_ PZ]. rewrite PZ in ALL by lia.
  assert (B : dot phases (repeat 1 (length S)) <= amp * INR (length S) - (amp * (1 * 1) - 0 * 1)).
  { apply ALL; [|exact LP|exact Hk0]. intros i Hi. rewrite ON, NV by exact Hi. assert (IS : In (nth i S (0, 0)%Z) S) by (apply nth_In, Hi).
    apply filter_In in IS. destruct IS as [IS _]. rewrite (surjective_pairing (nth i S (0, 0)%Z)) in IS. apply row_major_In in IS. 
    destruct (PV (fst (nth i S (0, 0)%Z)) (snd (nth i S (0, 0)%Z))) as [Q _]; [lia|lia|]. lra. }
  rewrite <- SOL in B. set (N := INR (length S)) in *.
  assert (N1 : 1 <= N). { unfold N. change 1 with (INR 1). apply le_INR. lia. }
  assert (N2 : N <= IZR (2 * half * (2 * half))).
  { rewrite <- row_major_length by lia. apply le_INR. unfold S. clear. induction (row_major (2 * half) (2 * half)) as [|p l IH]; [apply le_n|]. cbn [filter]. destruct (sel p); cbn; lia. }
  set (M := IZR (2 * half * (2 * half))) in *. clearbody N M.
  apply Rle_trans with (amp * (1 - / N)).
  - apply Rmult_le_reg_r with N; [lra|]. replace (amp * (1 - / N) * N) with (amp * N - amp) by (field; lra). lra.
  - apply Rmult_le_compat_l; [lra|]. assert (/ M <= / N) by (apply Rinv_le_contravar; lra). lra.
Qed.
