(** Property theorems C74 in binary64: the normalised kernel of a weak aberration, with every operation rounded. *)
From Coq Require Import Reals Lra Lia Psatz.
From Flocq Require Import Core.
From Verif Require Import Py SpecIndex SpecRadial M_Radial M_Coeffs SpecCoeffs M_Sum SpecSum L_Sum M_Polar L_Polar M_Geo SpecGeo M_Psf SpecPsf SpecDiff L_Fit L_Psf L_PsfKernel L_PsfNodes
  P_Psf P_Conv SpecFloat M_Float L_Float SpecFloatPsf M_FloatPsf L_FPsf1 L_FPsf4 L_FPsf5 L_FPsf6 L_FPsf8 P_FPsf L_Conv2 M_Numba M_FloatNumba SpecWeak P_Weak P_FloatNumba.
Import ListNotations.
Local Open Scope R_scope.

(** weight of the radial rule, from below *)
Lemma radial_weight_lower n : (20 <= n <= 2 ^ 24)%Z -> 49 / 100 <= trapezoid (b64 (1 / IZR n)) (r_nodes b64 (b64 (1 / IZR n))) (fun p => p).
Proof.
  intros [N1 N2]. assert (N3 : (2 <= n <= 2 ^ 50)%Z) by (change (2 ^ 50)%Z with 1125899906842624%Z; change (2 ^ 24)%Z with 16777216%Z in N2; lia).
  pose proof (proj1 (sum_nodes n N3)) as H. cbv zeta in H. eapply Rle_trans; [|exact H].
  pose proof (h_rel n N3) as R. pose proof (h_range n N3) as HR.
  set (h := b64 (1 / IZR n)) in *. set (c := IZR (count64 n)) in *. set (nr := IZR n) in *.
  assert (NR : 20 <= nr) by (apply (IZR_le 20); lia).
  assert (C : nr - 1 <= c <= nr). { unfold c, nr. destruct (count_cases n N3) as [->|[-> _]]; [rewrite minus_IZR|]; lra. }
  assert (E0 : 0 < eps <= / 1000000) by (unfold eps; lra). assert (HP : 0 < h) by lra.
  assert (NH : 99 / 100 <= nr * h <= 101 / 100) by lra.
  set (t := nr * h) in *. assert (CH : t - h <= c * h <= t) by (unfold t; nra).
  replace (h * (h * (c * (c + 1) / 2) - 4 * eps * c + / 2)) with ((c * h) * (c * h + h) / 2 - 4 * eps * (c * h) + h / 2) by field.
  assert (h <= 6 / 100) by (apply Rmult_le_reg_l with 20; [lra|]; unfold t in NH; nra).
  assert (Y : eps * (c * h) <= eps * (101 / 100)) by (apply Rmult_le_compat_l; lra).
  assert (X : (t - h) * t <= (c * h) * (c * h + h)) by (apply Rmult_le_compat; lra).
  assert (T2 : 98 / 100 <= (1 - 2 * eps) * (1 - 2 * eps) * 1) by nra.
  assert (t * t >= (1 - 2 * eps) * (1 - 2 * eps)) by nra. assert (t * h <= (1 + 2 * eps) * h) by (apply Rmult_le_compat_r; lra).
  assert (h * eps <= 6 / 100 * eps) by (apply Rmult_le_compat_r; lra). nra.
Qed.
(** the value at the focus, from below *)
Lemma focus_lower n_r n_phi Phi t B : (20 <= n_r <= 2 ^ 24)%Z -> (36 <= n_phi)%Z -> B < PI / 2 ->
  (forall x phi, 0 <= x <= 1 -> Rabs (Phi x phi) <= B) -> 3 / 4 * cos B ^ 2 <= psf_rnd b64 n_r n_phi Phi 0 t.
Proof.
  intros NR NP HB HPhi. pose proof PI_RGT_0 as P0. assert (B0 : 0 <= B) by (eapply Rle_trans; [apply Rabs_pos|apply (HPhi 0 0); lra]).
  assert (CB : 0 < cos B <= 1) by (split; [apply cos_gt_0; lra|apply COS_bound]).
  unfold psf_rnd, psf_on. cbv zeta. set (h := b64 (1 / IZR n_r)). set (nodes := r_nodes b64 h).
  assert (PLC : placement b64 n_r) by (right; split; [reflexivity|]; change (2 ^ 24)%Z with 16777216%Z in NR; change (2 ^ 50)%Z with 1125899906842624%Z; lia).
  assert (HP : 0 < h) by (apply (step_pos b64 n_r PLC)).
  assert (FN : Forall in_disk nodes) by (apply (placement_good b64 n_r PLC)).
  set (w := trapezoid h nodes (fun p => p)). assert (W : 49 / 100 <= w) by (apply radial_weight_lower, NR).
  set (g := fun phi => trapezoid h nodes (fun p => p * cos (Phi p phi - 0 * p * cos (phi - t)))).
  assert (CC : forall p phi, 0 <= p <= 1 -> cos B <= cos (Phi p phi - 0 * p * cos (phi - t))).
  { intros p phi Hp. replace (Phi p phi - 0 * p * cos (phi - t)) with (Phi p phi) by ring. specialize (HPhi p phi Hp).
    destruct (Rle_dec 0 (Phi p phi)) as [S|S].
    - rewrite Rabs_pos_eq in HPhi by exact S. apply cos_decr_1; lra.
    - rewrite Rabs_left in HPhi by lra. rewrite <- (cos_neg (Phi p phi)). apply cos_decr_1; lra. }
  assert (G : forall phi, cos B * w * 1 + 0 * 1 <= g phi).
  { intros phi. unfold g. replace (cos B * w * 1 + 0 * 1) with (trapezoid h nodes (fun p => cos B * p)) by (unfold w, trapezoid; rewrite rsum_scal; field).
    apply trapezoid_le; [lra|lra| |].
    - specialize (CC 1 phi ltac:(lra)). lra.
    - intros x I. rewrite Forall_forall in FN. specialize (FN x I). unfold in_disk in FN. rewrite Rmult_comm. apply Rmult_le_compat_l; [lra|]. apply CC. lra. }
  assert (A : cos B * w * (2 * PI * P_Psf.weight n_phi) <= angular n_phi g).
  { eapply Rle_trans; [|apply (angular_le n_phi (fun _ => cos B * w * 1 + 0 * 1) g); [lia|exact G]].
    rewrite (angular_lin n_phi (cos B * w) 0 (fun _ => 1) (fun _ => 1)), angular_weight by lia. unfold P_Psf.weight. lra. }
  destruct (weight_bound n_phi ltac:(lia)) as [W1 W2].
  assert (W3 : 94 / 100 <= P_Psf.weight n_phi).
  { eapply Rle_trans; [|exact W2]. assert (N : 36 <= IZR n_phi) by (apply (IZR_le 36); lia). assert (2 / IZR n_phi <= 2 / 36); [|lra]. apply Rmult_le_compat_l; [lra|apply Rinv_le_contravar; lra]. }
  set (re := angular n_phi g) in *. set (im := angular n_phi _).
  assert (K : 92 / 100 <= w * (2 * P_Psf.weight n_phi)).
  { replace (92 / 100) with (49 / 100 * (92 / 49)) by lra. apply Rle_trans with (w * (92 / 49)); [apply Rmult_le_compat_r; lra|]. apply Rmult_le_compat_l; lra. }
  assert (RE : cos B * (92 / 100) * PI <= re).
  { eapply Rle_trans; [|exact A]. replace (cos B * w * (2 * PI * P_Psf.weight n_phi)) with (cos B * (w * (2 * P_Psf.weight n_phi)) * PI) by ring.
    apply Rmult_le_compat_r; [lra|]. apply Rmult_le_compat_l; lra. }
  assert (R2 : (cos B * (92 / 100) * PI) * (cos B * (92 / 100) * PI) <= re * re).
  { assert (0 <= cos B * (92 / 100) * PI) by (apply Rmult_le_pos; [apply Rmult_le_pos; lra|lra]). apply Rmult_le_compat; assumption. }
  pose proof (Rle_0_sqr im) as I2. unfold Rsqr in I2. assert (PP : 0 < PI * PI) by (apply Rmult_lt_0_compat; lra).
  set (v := (re * re + im * im) / (PI * PI)). assert (EV : v * (PI * PI) = re * re + im * im) by (unfold v; field; lra).
  apply Rmult_le_reg_r with (PI * PI); [exact PP|]. rewrite EV.
  assert (C2 : 0 <= cos B ^ 2 * (PI * PI)) by (apply Rmult_le_pos; [apply pow2_ge_0|lra]).
  replace ((cos B * (92 / 100) * PI) * (cos B * (92 / 100) * PI)) with (92 / 100 * (92 / 100) * (cos B ^ 2 * (PI * PI))) in R2 by ring.
  replace (3 / 4 * cos B ^ 2 * (PI * PI)) with (3 / 4 * (cos B ^ 2 * (PI * PI))) by ring.
  lra.
Qed.
(** a property of every value returned *)
Definition always {A} (x : M A) (P : A -> Prop) : Prop := forall s s' a, x s = (s', Ok a) -> P a.
Lemma always_bind {A B} (x : M A) (f : A -> M B) P : (forall a, always (f a) P) -> always (mbind x f) P.
Proof. intros H s s' b. unfold mbind. destruct (x s) as [s1 [a|e]]; [apply H|discriminate]. Qed.
Lemma always_ret {A} (a : A) (P : A -> Prop) : P a -> always (mret a) P.
Proof. intros H s s' b E. injection E as _ <-. exact H. Qed.
Lemma okq_and {A} (x : M A) P Q : okq x P -> always x Q -> okq x (fun a => P a /\ Q a).
Proof. intros H1 H2 s RS. destruct (H1 s RS) as (R1 & a & E & Pa). split; [exact R1|]. exists a. split; [exact E|]. split; [exact Pa|]. apply (H2 s (fst (x s))). rewrite (surjective_pairing (x s)) at 1. rewrite E. reflexivity. Qed.
Lemma near64_nonneg x : 0 <= x -> 0 <= near64 x.
Proof. intros H. rewrite <- b64_0. apply b64_mono, H. Qed.

Lemma proper_of64 v size : (1 <= size)%Z -> (forall i j, (0 <= i < size)%Z -> (0 <= j < size)%Z -> 0 <= v i j /\ (i = (size / 2)%Z -> j = (size / 2)%Z -> 0 < v i j)) ->
  proper (ffinish near64 true (table v size)) size.
Proof.
  intros S V. assert (C : (0 <= size / 2 < size)%Z) by (split; [apply Z.div_pos; lia|apply Z.div_lt_upper_bound; lia]).
  pose proof (ffinish_holds true v size ltac:(lia)) as H. pose proof H as (Q & M & IM & _).
  assert (MP : 0 < M). { apply Rlt_le_trans with (v (size / 2)%Z (size / 2)%Z); [apply (V _ _ C C); reflexivity|apply IM; exact C]. }
  destruct (C59_normalized _ _ _ _ H IM MP) as (A & B). split; [exact Q|]. split; [|exact A].
  intros i j Hi Hj. destruct (B i j Hi Hj) as (x & E & X1 & X0). exists x. split; [exact E|]. split; [apply X0, V; assumption|exact X1].
Qed.

Section All.
Variable pw : R -> Z -> R.
Variables fcos fsin : R -> R.
Variable npsum : list R -> R.
Variable fhyp : R -> R -> R.
Variable fsq : R -> R.
Variable fatan2 : R -> R -> R.
Hypothesis NP : numpy64 pw fcos fsin npsum fhyp fsq fatan2.
Hypothesis SQ : forall x, 0 <= fsq x.
Lemma point_nonneg mt ph n_r n_phi r theta : always (fpoint_by near64 fcos fsin npsum fhyp fsq mt ph n_r n_phi r theta) (fun v => 0 <= v).
Proof.
  assert (E : forall h e o, always (fsimpson_end near64 fcos fsin npsum fhyp fsq ph n_r r theta h e o) (fun v => 0 <= v)).
  { intros h e o. unfold fsimpson_end. apply always_bind. intros a. apply always_bind. intros b. cbv zeta. apply always_ret.
    apply near64_nonneg, Rmult_le_pos; [apply SQ|]. apply near64_nonneg. unfold Rdiv. rewrite Rmult_1_l.
    destruct (Rle_lt_or_eq_dec 0 (near64 (near64 PI * near64 PI))) as [Q|Q].
    - apply near64_nonneg, Rle_0_sqr.
    - apply Rlt_le, Rinv_0_lt_compat, Q.
    - rewrite <- Q, Rinv_0. lra. }
  unfold fpoint_by. destruct (n_phi =? 0)%Z; [intros s s' a H; discriminate|]. cbv zeta.
  destruct mt; (apply always_bind; intros ?; apply always_bind; intros ?; apply E).
Qed.
Variable fuel : nat.
Variables (ps : list (Z * Z)) (amps : list R).
Hypothesis OK : Forall (okp fuel) ps.
Hypothesis NE : ps <> [].
Hypothesis LEN : length amps = length ps.
Hypothesis KM : (length ps <= 2 ^ 20)%nat.
Variables n_r n_phi : Z.
Hypothesis NR : (20 <= n_r <= 2 ^ 24)%Z.
Hypothesis NPH : (36 <= n_phi <= 2 ^ 24)%Z.
Hypothesis WEAK : size_of amps ps < PI / 2.
Hypothesis ROUND : rounding n_r n_phi amps ps (steep_t amps ps) 0 < 3 / 4 * cos (size_of amps ps) ^ 2.
Lemma weak_pixel mt wl NA px size i j : ordinary wl -> ordinary NA -> ordinary px -> (0 <= i < size)%Z -> (0 <= j < size)%Z -> (size <= 2 ^ 53)%Z ->
  okq (fpoint_by near64 fcos fsin npsum fhyp fsq mt (fphase_pols near64 pw fcos fsin fuel ps amps) n_r n_phi (fpixel_r near64 (near64 (two_pi near64 / wl)) NA px size i j) (fpixel_theta near64 fatan2 size i j))
    (fun v => 0 <= v /\ (i = (size / 2)%Z -> j = (size / 2)%Z -> 0 < v)).
Proof.
  intros OW ON OP Hi Hj HS. destruct (pixel_theta_err fatan2 (np_arctan2 _ _ _ _ _ _ _ NP) size i j Hi Hj HS) as (T7 & TE).
  pose proof (list_point_okq pw fcos fsin npsum fhyp fsq fatan2 NP fuel ps amps OK NE LEN KM n_r n_phi NR NPH mt (2 * PI / wl * NA * px * pix_d size i j) (pix_t size i j) _ _
    (pixel_r_err wl NA px OW ON OP size i j) TE T7) as H.
  eapply okq_weak; [|apply (okq_and _ _ _ H (point_nonneg mt _ n_r n_phi _ _))].
  intros v [H1 H2]. split; [exact H2|]. intros Ei Ej.
  assert (D : pix_d size i j = 0). { unfold pix_d. rewrite Ei, Ej, Z.sub_diag, Rmult_0_l, Rplus_0_l. apply sqrt_0. }
  rewrite D, Rmult_0_r in H1.
  assert (F : 3 / 4 * cos (size_of amps ps) ^ 2 <= psf_rnd b64 n_r n_phi (fun x phi => zsum amps ps x phi) 0 (pix_t size i j)).
  { apply focus_lower; [exact NR|lia|exact WEAK|]. intros x phi Hx. apply zsum_bound; [|exact Hx]. apply (okp_valid fuel ps OK). }
  apply Rabs_le_inv in H1. lra.
Qed.
End All.

Theorem C74_binary64_list : forall pw fcos fsin npsum fhyp fsq fatan2 fuel ps amps px wavelength NA n_r n_phi kernel_size s,
  numpy64 pw fcos fsin npsum fhyp fsq fatan2 -> (forall x, 0 <= fsq x) ->
  reachable s -> Forall (okp fuel) ps -> ps <> [] -> length amps = length ps -> (length ps <= 2 ^ 20)%nat -> (20 <= n_r <= 2 ^ 24)%Z -> (36 <= n_phi <= 2 ^ 24)%Z ->
  ordinary wavelength -> ordinary NA -> ordinary px -> (1 <= kernel_size < 2 ^ 53)%Z ->
  size_of amps ps < PI / 2 -> rounding n_r n_phi amps ps (steep_t amps ps) 0 < 3 / 4 * cos (size_of amps ps) ^ 2 ->
  exists K, snd (fget_psf_kernel_zerns near64 pw fcos fsin npsum fhyp fsq fatan2 fuel ps amps px wavelength NA kernel_size n_r n_phi true s) = Ok K /\
    proper K (made_odd kernel_size).
Proof.
  intros pw fcos fsin npsum fhyp fsq fatan2 fuel ps amps px wavelength NA n_r n_phi kernel_size s NP SQ Hs OK NE L KM NR NPH OW ON OP KS WK RD.
  assert (P0 : 0 < / 2 ^ 200) by (apply Rinv_0_lt_compat, pow_lt; lra). assert (W0 : wavelength <> 0) by (destruct OW; lra). assert (A0 : NA <> 0) by (destruct ON; lra).
  assert (Q := odd_size_ge kernel_size). rewrite made_odd_eq in Q. set (size := made_odd kernel_size) in *.
  assert (X : okq (fget_psf_kernel_zerns near64 pw fcos fsin npsum fhyp fsq fatan2 fuel ps amps px wavelength NA kernel_size n_r n_phi true) (fun K => proper K size)).
  { unfold fget_psf_kernel_zerns. eapply isok_bindq; [apply isok_lift; destruct (Req_EM_T wavelength 0); [contradiction|reflexivity]|]. cbv zeta. rewrite made_odd_eq. fold size.
    eapply isok_bindq; [apply isok_lift; destruct (Req_EM_T NA 0); [contradiction|reflexivity]|].
    eapply okq_bind; [apply fill_okq; [lia|intros i j Hi Hj; apply (weak_pixel pw fcos fsin npsum fhyp fsq fatan2 NP SQ fuel ps amps OK NE L KM n_r n_phi NR NPH WK RD Vectorized wavelength NA px size i j OW ON OP Hi Hj)]|].
    - assert (size <> 2 ^ 53 + 1)%Z; [|lia]. assert (HK : (kernel_size <= 2 ^ 53 - 1)%Z) by lia. lia.
    - intros l (v & -> & V). apply okq_ret. apply proper_of64; [lia|exact V]. }
  destruct (X s Hs) as (_ & K & E & PK). exists K. split; [exact E|exact PK].
Qed.
Print Assumptions C74_binary64_list.
Theorem C74_binary64 : forall pw fcos fsin npsum fhyp fsq fatan2 mt fuel p alpha px wavelength NA n_r n_phi kernel_size s,
  numpy64 pw fcos fsin npsum fhyp fsq fatan2 -> (forall x, 0 <= fsq x) ->
  reachable s -> okp fuel p -> (20 <= n_r <= 2 ^ 24)%Z -> (36 <= n_phi <= 2 ^ 24)%Z -> ordinary wavelength -> ordinary NA -> ordinary px -> (3 <= kernel_size < 2 ^ 53)%Z ->
  let amps := [near64 (alpha / wavelength)] in
  size_of amps [p] < PI / 2 -> rounding n_r n_phi amps [p] (steep_t amps [p]) 0 < 3 / 4 * cos (size_of amps [p]) ^ 2 ->
  exists K, snd (fget_psf_kernel near64 pw fcos fsin npsum fhyp fsq fatan2 fuel p px alpha wavelength NA n_r n_phi true kernel_size mt s) = Ok K /\
    proper K (made_odd kernel_size).
Proof.
  intros pw fcos fsin npsum fhyp fsq fatan2 mt fuel p alpha px wavelength NA n_r n_phi kernel_size s NP SQ Hs OK1 NR NPH OW ON OP KS amps WK RD.
  assert (OK : Forall (okp fuel) [p]) by (constructor; [exact OK1|constructor]). assert (NE : [p] <> []) by discriminate.
  assert (KM : (length [p] <= 2 ^ 20)%nat). { cbn [length]. apply Nat.pow_le_mono_r with (b := 0%nat) (a := 2%nat) (c := 20%nat); lia. }
  assert (P0 : 0 < / 2 ^ 200) by (apply Rinv_0_lt_compat, pow_lt; lra). assert (W0 : wavelength <> 0) by (destruct OW; lra). assert (A0 : NA <> 0) by (destruct ON; lra).
  assert (Q := odd_size_ge kernel_size). rewrite made_odd_eq in Q. set (size := made_odd kernel_size) in *.
  assert (L : length amps = length [p]) by reflexivity.
  assert (X : okq (fget_psf_kernel near64 pw fcos fsin npsum fhyp fsq fatan2 fuel p px alpha wavelength NA n_r n_phi true kernel_size mt) (fun K => proper K size)).
  { unfold fget_psf_kernel. eapply isok_bindq; [apply isok_lift; destruct (Req_EM_T wavelength 0); [contradiction|reflexivity]|]. cbv zeta. rewrite made_odd_eq. fold size.
    eapply isok_bindq; [apply isok_lift; destruct (Req_EM_T NA 0); [contradiction|reflexivity]|].
    eapply okq_bind; [apply fill_okq; [lia|intros i j Hi Hj; apply (weak_pixel pw fcos fsin npsum fhyp fsq fatan2 NP SQ fuel [p] amps OK NE L KM n_r n_phi NR NPH WK RD mt wavelength NA px size i j OW ON OP Hi Hj)]|].
    - lia.
    - intros l (v & -> & V). apply okq_ret. apply proper_of64; [lia|exact V]. }
  destruct (X s Hs) as (_ & K & E & PK). exists K. split; [exact E|exact PK].
Qed.
Print Assumptions C74_binary64.
(** the accelerated calculation *)
Theorem C74_binary64_accelerated : forall pw fcos fsin npsum fhyp fsq fatan2 p alpha px wavelength NA n_r n_phi kernel_size s,
  numpy64 pw fcos fsin npsum fhyp fsq fatan2 -> (forall x, 0 <= fsq x) -> (forall x, pw x 0%Z = 1) ->
  reachable s -> compiled p -> (20 <= n_r <= 2 ^ 24)%Z -> (36 <= n_phi <= 2 ^ 24)%Z -> ordinary wavelength -> ordinary NA -> ordinary px -> (3 <= kernel_size < 2 ^ 53)%Z ->
  let amps := [near64 (alpha / wavelength)] in
  size_of amps [p] < PI / 2 -> rounding n_r n_phi amps [p] (steep_t amps [p]) 0 < 3 / 4 * cos (size_of amps [p]) ^ 2 ->
  exists K, snd (fget_psf_kernel_comp near64 pw fcos fsin npsum fhyp fsq fatan2 (Single p) px (AFloat alpha) wavelength NA n_r n_phi true kernel_size s) = Ok K /\
    proper K (made_odd kernel_size).
Proof.
  intros pw fcos fsin npsum fhyp fsq fatan2 p alpha px wavelength NA n_r n_phi kernel_size s NP SQ P0 Hs C NR NPH OW ON OP KS amps WK RD.
  assert (OK : okp 1000 p). { destruct p as [m n]. destruct C as (V & L & _). split; [exact V|]. cbn [snd]. lia. }
  rewrite (C69_same_bits near64 pw fcos fsin npsum fhyp fsq fatan2 1000 p px alpha wavelength NA n_r n_phi true kernel_size s P0 C OK).
  apply C74_binary64; assumption.
Qed.
Print Assumptions C74_binary64_accelerated.
Theorem C74_binary64_accelerated_list : forall pw fcos fsin npsum fhyp fsq fatan2 ps amps px wavelength NA n_r n_phi kernel_size s,
  numpy64 pw fcos fsin npsum fhyp fsq fatan2 -> (forall x, 0 <= fsq x) -> (forall x, pw x 0%Z = 1) ->
  reachable s -> Forall compiled ps -> ps <> [] -> length amps = length ps -> (length ps <= 2 ^ 20)%nat -> (20 <= n_r <= 2 ^ 24)%Z -> (36 <= n_phi <= 2 ^ 24)%Z ->
  ordinary wavelength -> ordinary NA -> ordinary px -> (1 <= kernel_size < 2 ^ 53)%Z ->
  size_of amps ps < PI / 2 -> rounding n_r n_phi amps ps (steep_t amps ps) 0 < 3 / 4 * cos (size_of amps ps) ^ 2 ->
  exists K, snd (fget_psf_kernel_comp near64 pw fcos fsin npsum fhyp fsq fatan2 (Several ps) px (AArr amps) wavelength NA n_r n_phi true kernel_size s) = Ok K /\
    proper K (made_odd kernel_size).
Proof.
  intros pw fcos fsin npsum fhyp fsq fatan2 ps amps px wavelength NA n_r n_phi kernel_size s NP SQ P0 Hs C NE L KM NR NPH OW ON OP KS WK RD.
  assert (OK : Forall (okp 1000) ps). { eapply Forall_impl; [|exact C]. intros [m n] (V & L' & _). split; [exact V|]. cbn [snd]. lia. }
  rewrite (C69_same_bits_list near64 pw fcos fsin npsum fhyp fsq fatan2 1000 ps amps px wavelength NA n_r n_phi true kernel_size s P0 C OK NE).
  apply C74_binary64_list; assumption.
Qed.
Print Assumptions C74_binary64_accelerated_list.

(** orders up to 10, amplitude * norm up to 1.5, at most 1000 x 1000 nodes: the condition on the rounding errors holds *)
Lemma cos_15 : 7 / 100 <= cos (3 / 2).
Proof.
  pose proof PI2_3_2 as P. destruct (pre_cos_bound (3 / 2) 1 ltac:(lra) ltac:(lra)) as (L & _). eapply Rle_trans; [|exact L].
  unfold cos_approx, cos_term. cbn [sum_f_R0 Nat.mul Nat.add pow fact INR]. simpl fact. simpl INR. lra.
Qed.
Theorem C74_binary64_usual : forall m n alpha n_r n_phi, valid m n -> (n <= 10)%Z -> (20 <= n_r <= 1000)%Z -> (36 <= n_phi <= 1000)%Z ->
  Rabs alpha * norm_nm m n <= 3 / 2 ->
  size_of [alpha] [(m, n)] < PI / 2 /\ rounding n_r n_phi [alpha] [(m, n)] (steep_t [alpha] [(m, n)]) 0 < 3 / 4 * cos (size_of [alpha] [(m, n)]) ^ 2.
Proof.
  intros m n alpha n_r n_phi V N NR NP B. pose proof PI2_3_2 as P. pose proof cos_15 as C. cbn [size_of]. rewrite Rplus_0_r.
  assert (N1 : 1 <= norm_nm m n).
  { unfold norm_nm. rewrite <- sqrt_1 at 1. apply sqrt_le_1_alt. assert (X0 : 0 <= IZR n) by (apply (IZR_le 0); destruct V; lia). destruct (m =? 0)%Z; lra. }
  assert (A : Rabs alpha <= 10).
  { assert (Rabs alpha * 1 <= Rabs alpha * norm_nm m n) by (apply Rmult_le_compat_l; [apply Rabs_pos|exact N1]). lra. }
  split; [lra|]. eapply Rle_lt_trans; [apply (C59_rounding_is_small m n alpha 0 n_r n_phi V N A)|]; [rewrite Rabs_R0; lra|lia|lia|].
  set (b := Rabs alpha * norm_nm m n) in *. assert (B0 : 0 <= b) by (apply Rmult_le_pos; [apply Rabs_pos|lra]).
  assert (CB : cos (3 / 2) <= cos b) by (apply cos_decr_1; lra).
  assert (CC : 7 / 100 * (7 / 100) <= cos b ^ 2) by (cbn [pow]; rewrite Rmult_1_r; apply Rmult_le_compat; lra). lra.
Qed.
Print Assumptions C74_binary64_usual.
Example C74_binary64_nonvacuous : (forall x, 0 <= near64 (x * x)) /\ valid 1 3 /\ Rabs (1 / 2) * norm_nm 1 3 <= 3 / 2 /\ ordinary (55 / 100).
Proof.
  assert (Q8 : sqrt 8 < 29 / 10) by (rewrite <- (sqrt_square (29 / 10)) by lra; apply sqrt_lt_1; lra).
  assert (N1 : norm_nm 1 3 = sqrt 8) by (unfold norm_nm; cbn [Z.eqb]; f_equal; field).
  split; [intros x; apply near64_nonneg, Rle_0_sqr|]. split; [split; [lia|split; [lia|exists 1%Z; reflexivity]]|].
  split; [rewrite N1, Rabs_pos_eq by lra; lra|]. unfold ordinary.
  assert (P : 2 ^ 1 <= 2 ^ 200) by (apply Rle_pow; [lra|lia]). rewrite pow_1 in P.
  assert (I : / 2 ^ 200 <= / 2) by (apply Rinv_le_contravar; lra). lra.
Qed.
