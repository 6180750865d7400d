(** Property theorems C30-C35, C37. Arithmetic is exact except, where stated, the placement of the radial nodes. *)
From Coq Require Import Reals Lra Psatz.
From Flocq Require Import Core.
From Verif Require Import Py SpecIndex SpecRadial M_Radial M_Coeffs SpecCoeffs M_Sum SpecSum M_Geo SpecGeo L_Sum M_Polar L_Polar L_Geo M_Psf SpecPsf L_Psf L_PsfKernel L_PsfNodes.
Local Open Scope R_scope.

Lemma isok_run {A} (x : M A) a s : isok x a -> reachable s -> snd (x s) = Ok a.
Proof. intros H Hs. exact (proj2 (H s Hs)). Qed.

(** the weight of the angular rule: (n - 2)/n for even n, (n - 1)/n for odd n *)
Definition weight (n_phi : Z) : R := IZR (if Z.even n_phi then n_phi - 2 else n_phi - 1) / IZR n_phi.
Lemma weight_bound n : (3 <= n)%Z -> 0 < weight n < 1 /\ 1 - 2 / IZR n <= weight n.
Proof.
  intros N. unfold weight. assert (P : 3 <= IZR n) by (apply IZR_le; exact N).
  assert (Q : 1 <= IZR (if Z.even n then n - 2 else n - 1) /\ IZR n - 2 <= IZR (if Z.even n then n - 2 else n - 1) <= IZR n - 1)
    by (destruct (Z.even n); rewrite ?minus_IZR; lra).
  split; [split|].
  - apply Rdiv_lt_0_compat; lra.
  - apply (Rmult_lt_reg_r (IZR n)); [lra|]. unfold Rdiv. rewrite Rmult_assoc, Rinv_l by lra. lra.
  - apply (Rmult_le_reg_r (IZR n)); [lra|]. unfold Rdiv. rewrite Rmult_minus_distr_r, !Rmult_assoc, Rinv_l by lra. lra.
Qed.

Lemma exact_bound n_r n_phi Phi r t : (2 <= n_r)%Z -> (3 <= n_phi)%Z -> 0 <= psf n_r n_phi Phi r t <= weight n_phi ^ 2 /\ psf n_r n_phi Phi r t < 1.
Proof.
  intros N P. assert (B := psf_on_bound (1 / IZR n_r) (inner_nodes n_r) n_phi). unfold psf.
  assert (W : nonneg_w (1 / IZR n_r) (inner_nodes n_r) n_phi).
  { assert (0 < IZR n_r) by (apply IZR_lt; lia). split; [apply Rlt_le, Rdiv_lt_0_compat; lra|]. split; [|lia].
    eapply Forall_impl; [|apply (inner_disk n_r N)]. intros a [? _]. assumption. }
  specialize (B W Phi r t). rewrite total_exact in B by lia. fold (weight n_phi) in B. assert (WB := weight_bound n_phi P). split; [nra|nra].
Qed.

Lemma by_exact ph Phi mt n nphi r t : computes ph Phi -> (2 <= n)%Z -> (1 <= nphi)%Z -> isok (point_by mt (fun x => x) ph n nphi r t) (psf n nphi Phi r t).
Proof.
  intros HC N P. destruct (good_exact n N) as (A & B & C). rewrite <- psf_rnd_exact by exact N. apply (by_isok _ _ HC); [exact A|exact B|exact C|lia].
Qed.
Lemma vec_exact ph Phi n nphi r t : computes ph Phi -> (2 <= n)%Z -> (1 <= nphi)%Z -> isok (psf_point_vec (fun x => x) ph n nphi r t true NoJobs) (psf n nphi Phi r t).
Proof.
  intros HC N P. destruct (good_exact n N) as (A & B & C). rewrite <- psf_rnd_exact by exact N. apply (vec_isok _ _ HC); [exact A|exact B|exact C|lia|intros [_ H]; discriminate].
Qed.

(** ** C30 *)
Theorem C30_values_exact : forall mt fuel p alpha n_r n_phi r theta s, reachable s -> okp fuel p -> (2 <= n_r)%Z -> (3 <= n_phi)%Z ->
  exists v, snd (point_by mt (fun x => x) (phase_pol fuel p alpha) n_r n_phi r theta s) = Ok v /\
    0 <= v <= weight n_phi ^ 2 /\ v < 1.
Proof.
  intros mt fuel p alpha n_r n_phi r theta s Hs OK N P.
  eexists. split; [apply isok_run; [|exact Hs]; apply (by_exact _ _ _ _ _ _ _ (phase_pol_computes fuel p alpha OK)); lia|]. apply exact_bound; assumption.
Qed.
Print Assumptions C30_values_exact.
Theorem C30_values_exact_list : forall fuel ps amps n_r n_phi r theta s, reachable s -> ps <> [] -> length amps = length ps -> Forall (okp fuel) ps ->
  (2 <= n_r)%Z -> (3 <= n_phi)%Z ->
  exists v, snd (psf_point_vec (fun x => x) (phase_pols fuel ps amps) n_r n_phi r theta true NoJobs s) = Ok v /\
    0 <= v <= weight n_phi ^ 2 /\ v < 1.
Proof.
  intros fuel ps amps n_r n_phi r theta s Hs NE L OK N P.
  eexists. split; [apply isok_run; [|exact Hs]; apply (vec_exact _ _ _ _ _ _ (phase_pols_computes fuel ps amps NE L OK)); lia|]. apply exact_bound; assumption.
Qed.
Print Assumptions C30_values_exact_list.

Lemma b64_total n_r n_phi : (2 <= n_r <= 2 ^ 50)%Z -> (3 <= n_phi)%Z ->
  let h := b64 (1 / IZR n_r) in
  nonneg_w h (r_nodes b64 h) n_phi /\ total h (r_nodes b64 h) n_phi / PI = 2 * weight n_phi * trapezoid h (r_nodes b64 h) (fun p => p).
Proof.
  intros N P h. split.
  - split; [assert (G := h_range n_r N); fold h in G; unfold eps in G; lra|]. split; [|lia].
    destruct (nodes64_good n_r N) as (_ & D & _). eapply Forall_impl; [|exact D]. intros a [? _]. assumption.
  - unfold total. rewrite (angular_ext n_phi _ (fun _ => trapezoid h (r_nodes b64 h) (fun p => p) * 1 + 0 * 1)) by (intros; ring).
    rewrite angular_lin, angular_weight by exact P. fold (weight n_phi). field. apply PI_neq0.
Qed.
(** with the nodes placed in binary64 arithmetic *)
Theorem C30_values_binary64_partial : forall mt fuel p alpha n_r n_phi r theta s, reachable s -> okp fuel p -> (2 <= n_r <= 2 ^ 50)%Z -> (3 <= n_phi)%Z ->
  exists v, snd (point_by mt b64 (phase_pol fuel p alpha) n_r n_phi r theta s) = Ok v /\ 0 <= v <= (1 + 2 / IZR n_r + / 2 ^ 49) ^ 2.
Proof.
  intros mt fuel p alpha n_r n_phi r theta s Hs OK N P. destruct (nodes64_good n_r N) as (A & B & C).
  eexists. split; [apply isok_run; [|exact Hs]; apply (by_isok _ _ (phase_pol_computes fuel p alpha OK)); [exact A|exact B|exact C|lia]|].
  destruct (b64_total n_r n_phi N P) as [W T]. assert (BB := psf_on_bound _ _ _ W (fun x phi => alpha * Zv p x phi) r theta). rewrite T in BB.
  split; [lra|]. eapply Rle_trans; [apply BB|]. assert (RW := radial_weight64 n_r N). assert (WB := weight_bound n_phi P).
  set (t := trapezoid _ _ _) in *. assert (T0 : 0 <= t).
  { unfold t, trapezoid. apply Rmult_le_pos; [apply W|]. assert (0 <= rsum (r_nodes b64 (b64 (1 / IZR n_r))) (fun p => p)); [|lra].
    apply rsum_nonneg. intros x Hx. exact (proj1 (Forall_forall _ _) (proj1 (proj2 W)) x Hx). }
  assert (X : 2 * weight n_phi * t <= 1 + 2 / IZR n_r + / 2 ^ 49).
  { apply Rle_trans with (2 * t); [nra|]. unfold Rdiv. unfold eps in RW. lra. }
  assert (0 <= 2 * weight n_phi * t) by nra. replace ((1 + 2 / IZR n_r + / 2 ^ 49) ^ 2) with ((1 + 2 / IZR n_r + / 2 ^ 49) * (1 + 2 / IZR n_r + / 2 ^ 49)) by ring.
  apply Rmult_le_compat; assumption.
Qed.
Print Assumptions C30_values_binary64_partial.

(** np.arange produces one node too many for n_r = 24, which the constructor accepts *)
Lemma count_24 : count64 24 = 24%Z.
Proof.
  assert (H : b64 (1 / IZR 24) = IZR 6004799503160661 * bpow radix2 (-57)).
  { apply b64_val; [lia| |]; [cbn; lra|]. cbn. apply Rabs_def1; lra. }
  assert (Q : b64 (b64 (1 - b64 (1 / IZR 24)) / b64 (1 / IZR 24)) = IZR (23 * 2 ^ 48 + 1) * bpow radix2 (-48)).
  { rewrite H. assert (S : b64 (1 - IZR 6004799503160661 * bpow radix2 (-57)) = IZR 8631899285793451 * bpow radix2 (-53)).
    { apply b64_val; [lia| |]; [cbn; lra|]. cbn. apply Rabs_def1; lra. }
    rewrite S. apply b64_val; [lia| |]; [cbn; lra|]. cbn. apply Rabs_def1; lra. }
  unfold count64. rewrite Q. apply Zceil_imp. cbn. lra.
Qed.
Theorem C30_unit_interval_refuted : forall mt fuel p n_phi theta s, reachable s -> okp fuel p -> (36 <= n_phi)%Z ->
  exists v, snd (point_by mt b64 (phase_pol fuel p 0) 24 n_phi 0 theta s) = Ok v /\ 1 < v.
Proof.
  intros mt fuel p n_phi theta s Hs OK P. assert (N : (2 <= 24 <= 2 ^ 50)%Z) by (split; [lia|]; apply (Z.pow_le_mono_r 2 5 50); lia).
  destruct (nodes64_good 24 N) as (A & B & C).
  eexists. split; [apply isok_run; [|exact Hs]; apply (by_isok _ _ (phase_pol_computes fuel p 0 OK)); [exact A|exact B|exact C|lia]|].
  destruct (b64_total 24 n_phi N ltac:(lia)) as [W T]. rewrite psf_on_focus by (try exact W; intros; ring). rewrite T.
  assert (RW := radial_weight64_extra 24 N count_24). assert (WB := proj2 (weight_bound n_phi ltac:(lia))).
  assert (36 <= IZR n_phi) by (apply IZR_le; exact P).
  assert (2 / IZR n_phi <= 2 / 36) by (apply Rmult_le_compat_l; [lra|apply Rinv_le_contravar; lra]).
  set (t := trapezoid _ _ _) in *. assert (X : 1 < 2 * weight n_phi * t) by (unfold eps in RW; nra). nra.
Qed.
Print Assumptions C30_unit_interval_refuted.
Example C30_nonvacuous : okp 1000 ((-3), 7)%Z /\ reachable import_state /\ (2 <= 24 <= 2 ^ 50)%Z.
Proof. split; [|split; [constructor|split; [lia|apply (Z.pow_le_mono_r 2 5 50); lia]]]. unfold okp, valid. cbn [fst snd]. split; [split; [lia|split; [lia|exists 2%Z; lia]]|lia]. Qed.

(** ** C31 *)
Lemma Z00 r t : Z_nm 0 0 r t = 1.
Proof.
  unfold Z_nm, norm_nm, R_nm, T_m. cbn. rewrite Rmult_0_l, cos_0. replace (2 * (0 + 1) / (1 + 1)) with 1 by field. rewrite sqrt_1. field.
Qed.
Lemma focus_exact n_r n_phi c theta : (2 <= n_r)%Z -> (3 <= n_phi)%Z -> psf n_r n_phi (fun _ _ => c) 0 theta = weight n_phi ^ 2.
Proof.
  intros N P. unfold psf. rewrite (psf_on_shift _ _ _ (fun _ _ => 0) _ c) by (intros; ring).
  rewrite psf_on_focus by reflexivity. rewrite total_exact by lia. fold (weight n_phi). ring.
Qed.
(** the focus value without aberration: the points left out by the ranges of the code are missing *)
Theorem C31_focus_value : forall mt fuel p alpha n_r n_phi theta s, reachable s -> okp fuel p -> (2 <= n_r)%Z -> (3 <= n_phi)%Z ->
  alpha = 0 \/ p = (0, 0)%Z ->
  snd (point_by mt (fun x => x) (phase_pol fuel p alpha) n_r n_phi 0 theta s) = Ok (weight n_phi ^ 2) /\
  weight n_phi ^ 2 <> 1 /\ 1 - 4 / IZR n_phi <= weight n_phi ^ 2.
Proof.
  intros mt fuel p alpha n_r n_phi theta s Hs OK N P E. destruct (good_exact n_r N) as (A & B & C). assert (WB := weight_bound n_phi P). split.
  - rewrite <- (focus_exact n_r n_phi (if Req_EM_T alpha 0 then 0 else alpha) theta N P).
    apply isok_run; [|exact Hs]. eapply isok_ext; [|apply (by_exact _ _ _ _ _ _ _ (phase_pol_computes fuel p alpha OK)); lia].
    apply psf_on_ext; [|reflexivity]. intros x phi. unfold Zv. destruct (Req_EM_T alpha 0) as [->|NE]; [ring|].
    destruct E as [E| ->]; [contradiction|]. cbn [fst snd]. rewrite Z00. ring.
  - split; [nra|]. assert (0 < 1 / IZR n_phi) by (apply Rdiv_lt_0_compat; [lra|apply IZR_lt; lia]). unfold Rdiv in *. nra.
Qed.
Print Assumptions C31_focus_value.
(** with the default 300 angular points the value is (149/150)^2 = 0.98671..., the discrepancy reported in calc_psfs.py 65-66 *)
Example C31_default_points : weight 300 ^ 2 = (149 / 150) ^ 2 /\ Rabs (weight 300 ^ 2 - 986711 / 1000000) < / 1000000.
Proof. unfold weight. cbn [Z.even]. split; [cbn; lra|]. cbn. apply Rabs_def1; lra. Qed.

(** ** C32 *)
Definition made_odd (size : Z) : Z := if Z.even size then (size + 1)%Z else size.
Lemma made_odd_eq size : odd_size size = made_odd size.
Proof. unfold odd_size, made_odd. rewrite Zeven_mod. destruct (Z.eqb_spec (size mod 2) 0) as [E|E]; [rewrite E; reflexivity|]. destruct (Zeq_bool (size mod 2) 0) eqn:F; [apply Zeq_bool_eq in F; contradiction|reflexivity]. Qed.
Lemma made_odd_odd size : Z.odd (made_odd size) = true.
Proof. rewrite <- made_odd_eq. apply odd_size_odd. Qed.
Theorem C32_kernel : forall jv1 mt fuel p px alpha wavelength NA n_r n_phi (normalize : bool) kernel_size s, reachable s -> okp fuel p ->
  wavelength <> 0 -> NA <> 0 -> (2 <= n_r)%Z -> (1 <= n_phi)%Z -> (3 <= kernel_size)%Z ->
  let size := made_odd kernel_size in Z.odd size = true /\
  exists K v, snd (get_psf_kernel (fun x => x) jv1 fuel p px alpha wavelength NA n_r n_phi normalize false kernel_size mt s) = Ok K /\
    holds normalize K size v /\
    forall i j rho t, polar (IZR (size / 2 - j)) (IZR (size / 2 - i)) rho t ->
      v i j = psf n_r n_phi (fun x phi => alpha / wavelength * Z_nm (fst p) (snd p) x phi) (2 * PI / wavelength * NA * px * rho) t.
Proof.
  intros jv1 mt fuel p px alpha wavelength NA n_r n_phi normalize kernel_size s Hs OK W A N P S size. split; [apply made_odd_odd|].
  assert (Q := odd_size_ge kernel_size). rewrite made_odd_eq in Q. fold size in Q.
  eexists _, (value_at idr n_r n_phi wavelength NA px (fun x phi => alpha / wavelength * Zv p x phi) size). split; [|split].
  - apply isok_run; [|exact Hs]. apply single_isok; try assumption; [apply good_exact, N|lia].
  - rewrite made_odd_eq. fold size. apply finish_holds. lia.
  - intros i j rho t PO. rewrite (value_polar _ _ _ _ _ _ _ _ _ _ _ _ PO), psf_rnd_exact by exact N. reflexivity.
Qed.
Print Assumptions C32_kernel.
Theorem C32_kernel_list : forall fuel ps amps px wavelength NA n_r n_phi (normalize : bool) kernel_size s, reachable s -> ps <> [] ->
  length amps = length ps -> Forall (okp fuel) ps -> wavelength <> 0 -> NA <> 0 -> (2 <= n_r)%Z -> (1 <= n_phi)%Z -> (1 <= kernel_size)%Z ->
  let size := made_odd kernel_size in Z.odd size = true /\
  exists K v, snd (get_psf_kernel_zerns (fun x => x) fuel ps amps px wavelength NA kernel_size n_r n_phi normalize s) = Ok K /\
    holds normalize K size v /\
    forall i j rho t, polar (IZR (size / 2 - j)) (IZR (size / 2 - i)) rho t ->
      v i j = psf n_r n_phi (fun x phi => zsum amps ps x phi) (2 * PI / wavelength * NA * px * rho) t.
Proof.
  intros fuel ps amps px wavelength NA n_r n_phi normalize kernel_size s Hs NE L OK W A N P S size. split; [apply made_odd_odd|].
  assert (Q := odd_size_ge kernel_size). rewrite made_odd_eq in Q. fold size in Q.
  eexists _, (value_at idr n_r n_phi wavelength NA px (fun x phi => zsum amps ps x phi) size). split; [|split].
  - apply isok_run; [|exact Hs]. apply zerns_isok; try assumption; [apply good_exact, N|lia|lia].
  - rewrite made_odd_eq. fold size. apply finish_holds. lia.
  - intros i j rho t PO. rewrite (value_polar _ _ _ _ _ _ _ _ _ _ _ _ PO), psf_rnd_exact by exact N. reflexivity.
Qed.
Print Assumptions C32_kernel_list.
(** every pixel has polar coordinates, so [C32_kernel] determines every value; non-negative values, not all 0: normalised
    values are in [0, 1] and 1 is attained *)
Theorem C32_normalized_range : forall K size v, holds true K size v ->
  (forall i j, (0 <= i < size)%Z -> (0 <= j < size)%Z -> 0 <= v i j) ->
  (exists i j, (0 <= i < size)%Z /\ (0 <= j < size)%Z /\ v i j <> 0) ->
  (forall i j, (0 <= i < size)%Z -> (0 <= j < size)%Z -> exists x, entry K i j = Some (Fin x) /\ 0 <= x <= 1) /\
  exists i j, (0 <= i < size)%Z /\ (0 <= j < size)%Z /\ entry K i j = Some (Fin 1).
Proof.
  intros K size v (_ & M & [U (a & b & Ha & Hb & E)] & H) POS (c & d & Hc & Hd & NZ).
  assert (MP : 0 < M). { assert (G := U c d Hc Hd). assert (G0 := POS c d Hc Hd). lra. }
  destruct (Req_EM_T M 0) as [F|F]; [lra|]. split.
  - intros i j Hi Hj. exists (v i j / M). split; [apply H; assumption|]. assert (G := U i j Hi Hj). assert (G0 := POS i j Hi Hj). split.
    + apply Rmult_le_pos; [exact G0|apply Rlt_le, Rinv_0_lt_compat, MP].
    + apply (Rmult_le_reg_r M); [exact MP|]. unfold Rdiv. rewrite Rmult_assoc, Rinv_l by lra. lra.
  - exists a, b. split; [exact Ha|]. split; [exact Hb|]. rewrite H, E by assumption. do 2 f_equal. field. lra.
Qed.
Print Assumptions C32_normalized_range.
(** the values in the kernels are non-negative *)
Theorem C32_values_nonneg : forall n_r n_phi Phi r t, 0 <= psf n_r n_phi Phi r t.
Proof.
  intros. unfold psf, psf_on. cbv zeta. assert (P := PI_RGT_0). apply Rmult_le_pos; [|apply Rlt_le, Rinv_0_lt_compat; nra].
  apply Rplus_le_le_0_compat; apply Rle_0_sqr.
Qed.
Print Assumptions C32_values_nonneg.
(** the Airy pattern *)
Theorem C32_airy_kernel : forall rnd jv1 mt fuel p px alpha wavelength NA n_r n_phi (normalize : bool) kernel_size s, reachable s ->
  wavelength <> 0 -> NA <> 0 -> (3 <= kernel_size)%Z -> let size := made_odd kernel_size in
  exists K v, snd (get_psf_kernel rnd jv1 fuel p px alpha wavelength NA n_r n_phi normalize true kernel_size mt s) = Ok K /\
    holds normalize K size v /\
    forall i j rho t, polar (IZR (size / 2 - j)) (IZR (size / 2 - i)) rho t ->
      v i j = airy_ref_pattern jv1 (2 * PI / wavelength * NA * px * rho).
Proof.
  intros rnd jv1 mt fuel p px alpha wavelength NA n_r n_phi normalize kernel_size s Hs W A S size.
  assert (Q := odd_size_ge kernel_size). assert (ME := made_odd_eq kernel_size). fold size in ME.
  eexists _, (fun i j => airy_ref_pattern jv1 (2 * PI / wavelength * NA * px * pix_d size i j)). split; [|split].
  - apply isok_run; [|exact Hs]. unfold get_psf_kernel. eapply isok_bind; [apply pydiv_isok, W|]. eapply isok_bind; [apply pydiv_isok, W|].
    cbv beta. replace (kernel_size <? 3)%Z with false by (symmetry; apply Z.ltb_ge; lia). eapply isok_bind; [apply L_Fit.isok_lift; reflexivity|].
    cbv beta zeta. replace (odd_size kernel_size <? 0)%Z with false by (symmetry; apply Z.ltb_ge; lia).
    eapply isok_bind; [apply pydiv_isok, A|]. eapply isok_bind; [|apply isok_ret].
    rewrite ME. apply (fill_isok _ (fun d _ => airy_ref_pattern jv1 d)). intros; apply isok_ret.
  - apply finish_holds. lia.
  - intros i j rho t PO. cbv beta. rewrite (pix_rho _ _ _ _ _ PO). reflexivity.
Qed.
Print Assumptions C32_airy_kernel.
Example C32_nonvacuous : made_odd 18 = 19%Z /\ polar (IZR (19 / 2 - 6)) (IZR (19 / 2 - 9)) 3 0.
Proof. split; [reflexivity|]. unfold polar. rewrite cos_0, sin_0. assert (P := PI_RGT_0). repeat split; cbn; lra. Qed.

(** ** C33-C35, C37: for exact and for binary64 node placement *)
Definition placement (rnd : R -> R) (n_r : Z) : Prop := (rnd = (fun x => x) /\ (2 <= n_r)%Z) \/ (rnd = b64 /\ (2 <= n_r <= 2 ^ 50)%Z).
Lemma placement_good rnd n : placement rnd n -> good rnd n.
Proof. intros [[-> H]|[-> H]]; [apply (good_exact n H)|apply nodes64_good, H]. Qed.

Theorem C33_list_of_one : forall rnd jv1 mt fuel p px alpha wavelength NA n_r n_phi (normalize : bool) kernel_size s s', reachable s -> reachable s' ->
  okp fuel p -> placement rnd n_r -> (1 <= n_phi)%Z -> wavelength <> 0 -> NA <> 0 -> (3 <= kernel_size)%Z ->
  exists K, snd (get_psf_kernel rnd jv1 fuel p px alpha wavelength NA n_r n_phi normalize false kernel_size mt s) = Ok K /\
            snd (get_psf_kernel_zerns rnd fuel [p] [alpha / wavelength] px wavelength NA kernel_size n_r n_phi normalize s') = Ok K.
Proof.
  intros rnd jv1 mt fuel p px alpha wavelength NA n_r n_phi normalize kernel_size s s' Hs Hs' OK PL P W A S. apply placement_good in PL.
  eexists. split; (apply isok_run; [|assumption]).
  - apply single_isok; try assumption; lia.
  - eapply isok_ext; [|apply zerns_isok; try assumption; try lia; [discriminate|reflexivity|constructor; [exact OK|constructor]]].
    f_equal. apply table_ext. intros i j _ _. apply value_ext. intros x phi. destruct p as [m n]. cbn [zsum]. unfold Zv. cbn [fst snd]. ring.
Qed.
Print Assumptions C33_list_of_one.
Example C33_nonvacuous : okp 1000 (0, 4)%Z /\ placement b64 24.
Proof. split; [unfold okp, valid; cbn [fst snd]; split; [split; [lia|split; [lia|exists 2%Z; lia]]|lia]|]. right. split; [reflexivity|split; [lia|apply (Z.pow_le_mono_r 2 5 50); lia]]. Qed.

Lemma zsum_piston a1 l1 c a2 l2 x phi : length a1 = length l1 -> zsum (a1 ++ c :: a2) (l1 ++ (0, 0)%Z :: l2) x phi = zsum (a1 ++ a2) (l1 ++ l2) x phi + c.
Proof.
  revert l1. induction a1 as [|a a1 IH]; intros [|[m n] l1] L; try discriminate; cbn [app zsum].
  - rewrite Z00. ring.
  - rewrite IH by (injection L; auto). ring.
Qed.
Theorem C34_piston : forall rnd fuel l1 l2 a1 a2 c px wavelength NA n_r n_phi (normalize : bool) kernel_size s s', reachable s -> reachable s' ->
  l1 ++ l2 <> [] -> length a1 = length l1 -> length a2 = length l2 -> Forall (okp fuel) (l1 ++ l2) -> (1 < Z.of_nat fuel)%Z ->
  placement rnd n_r -> (1 <= n_phi)%Z -> wavelength <> 0 -> NA <> 0 -> (1 <= kernel_size)%Z ->
  exists K, snd (get_psf_kernel_zerns rnd fuel (l1 ++ l2) (a1 ++ a2) px wavelength NA kernel_size n_r n_phi normalize s) = Ok K /\
            snd (get_psf_kernel_zerns rnd fuel (l1 ++ (0, 0)%Z :: l2) (a1 ++ c :: a2) px wavelength NA kernel_size n_r n_phi normalize s') = Ok K.
Proof.
  intros rnd fuel l1 l2 a1 a2 c px wavelength NA n_r n_phi normalize kernel_size s s' Hs Hs' NE L1 L2 OK FU PL P W A S. apply placement_good in PL.
  apply Forall_app in OK as OK'. destruct OK' as [O1 O2]. eexists. split; (apply isok_run; [|assumption]).
  - apply zerns_isok; try assumption; try lia. rewrite !app_length, L1, L2. reflexivity.
  - eapply isok_ext; [|apply zerns_isok; try assumption; try lia].
    + f_equal. apply table_ext. intros i j _ _. apply (value_shift _ _ _ _ _ _ _ _ c). intros x phi. apply zsum_piston, L1.
    + destruct l1; discriminate.
    + rewrite !app_length. cbn. rewrite L1, L2. reflexivity.
    + apply Forall_app. split; [exact O1|]. constructor; [|exact O2]. unfold okp, valid. cbn [fst snd]. split; [split; [lia|split; [lia|exists 0%Z; lia]]|lia].
Qed.
Print Assumptions C34_piston.
(** piston alone: the amplitude does not matter *)
Theorem C34_piston_alone : forall rnd jv1 mt fuel px c c' wavelength NA n_r n_phi (normalize : bool) kernel_size s s', reachable s -> reachable s' ->
  (1 < Z.of_nat fuel)%Z -> placement rnd n_r -> (1 <= n_phi)%Z -> wavelength <> 0 -> NA <> 0 -> (3 <= kernel_size)%Z ->
  exists K, snd (get_psf_kernel rnd jv1 fuel (0, 0)%Z px c wavelength NA n_r n_phi normalize false kernel_size mt s) = Ok K /\
            snd (get_psf_kernel rnd jv1 fuel (0, 0)%Z px c' wavelength NA n_r n_phi normalize false kernel_size mt s') = Ok K.
Proof.
  intros rnd jv1 mt fuel px c c' wavelength NA n_r n_phi normalize kernel_size s s' Hs Hs' FU PL P W A S. apply placement_good in PL.
  assert (OK : okp fuel (0, 0)%Z) by (unfold okp, valid; cbn [fst snd]; split; [split; [lia|split; [lia|exists 0%Z; lia]]|lia]).
  eexists. split; (apply isok_run; [|assumption]); [apply single_isok; try assumption; lia|].
  eapply isok_ext; [|apply single_isok; try assumption; lia]. f_equal. apply table_ext. intros i j _ _.
  apply (value_shift _ _ _ _ _ _ _ _ (c' / wavelength - c / wavelength)). intros x phi. unfold Zv. cbn [fst snd]. rewrite Z00. ring.
Qed.
Print Assumptions C34_piston_alone.
Example C34_nonvacuous : [(1, 1)%Z] ++ [((-2), 2)%Z] <> [] /\ Forall (okp 1000) ([(1, 1)%Z] ++ [((-2), 2)%Z]).
Proof. split; [discriminate|]. repeat constructor; cbn [fst snd]; try lia; [exists 0%Z|exists 0%Z]; lia. Qed.

(** ** C35 *)
Definition rotated {A} (K K' : list (list A)) (size : Z) : Prop :=
  square K size /\ square K' size /\
  forall i j, (0 <= i < size)%Z -> (0 <= j < size)%Z -> entry K' i j = entry K (size - 1 - i) (size - 1 - j).
Lemma finish_rotated normalize v w size : (0 < size)%Z ->
  (forall i j, w i j = v (size - 1 - i) (size - 1 - j))%Z -> rotated (finish normalize (table v size)) (finish normalize (table w size)) size.
Proof.
  intros P H. assert (SQ : forall u, square (finish normalize (table u size)) size).
  { intros u. unfold finish. destruct normalize; rewrite table_map; apply table_square; lia. }
  split; [apply SQ|]. split; [apply SQ|]. intros i j Hi Hj. rewrite !finish_entry by lia. rewrite H, (kmax_rot v w size P (fun i j _ _ => H i j)). reflexivity.
Qed.
Theorem C35_sign_rotates : forall rnd jv1 mt fuel p px alpha wavelength NA n_r n_phi (normalize : bool) kernel_size s s', reachable s -> reachable s' ->
  okp fuel p -> placement rnd n_r -> (1 <= n_phi)%Z -> wavelength <> 0 -> NA <> 0 -> (3 <= kernel_size)%Z ->
  exists K K', snd (get_psf_kernel rnd jv1 fuel p px alpha wavelength NA n_r n_phi normalize false kernel_size mt s) = Ok K /\
    snd (get_psf_kernel rnd jv1 fuel p px (- alpha) wavelength NA n_r n_phi normalize false kernel_size mt s') = Ok K' /\
    rotated K K' (made_odd kernel_size).
Proof.
  intros rnd jv1 mt fuel p px alpha wavelength NA n_r n_phi normalize kernel_size s s' Hs Hs' OK PL P W A S. apply placement_good in PL.
  eexists _, _. split; [apply isok_run; [|exact Hs]; apply single_isok; try assumption; lia|].
  split; [apply isok_run; [|exact Hs']; apply single_isok; try assumption; lia|]. rewrite <- made_odd_eq. assert (Q := odd_size_ge kernel_size).
  apply finish_rotated; [lia|]. intros i j. apply value_neg; [apply odd_size_odd|]. intros x phi. unfold Rdiv. ring.
Qed.
Print Assumptions C35_sign_rotates.
Theorem C35_sign_rotates_list : forall rnd fuel ps amps px wavelength NA n_r n_phi (normalize : bool) kernel_size s s', reachable s -> reachable s' ->
  ps <> [] -> length amps = length ps -> Forall (okp fuel) ps ->
  placement rnd n_r -> (1 <= n_phi)%Z -> wavelength <> 0 -> NA <> 0 -> (1 <= kernel_size)%Z ->
  exists K K', snd (get_psf_kernel_zerns rnd fuel ps amps px wavelength NA kernel_size n_r n_phi normalize s) = Ok K /\
    snd (get_psf_kernel_zerns rnd fuel ps (map Ropp amps) px wavelength NA kernel_size n_r n_phi normalize s') = Ok K' /\
    rotated K K' (made_odd kernel_size).
Proof.
  intros rnd fuel ps amps px wavelength NA n_r n_phi normalize kernel_size s s' Hs Hs' NE L OK PL P W A S. apply placement_good in PL.
  eexists _, _. split; [apply isok_run; [|exact Hs]; apply zerns_isok; try assumption; lia|].
  split; [apply isok_run; [|exact Hs']; apply zerns_isok; try assumption; try lia; rewrite map_length; exact L|]. rewrite <- made_odd_eq. assert (Q := odd_size_ge kernel_size).
  apply finish_rotated; [lia|]. intros i j. apply value_neg; [apply odd_size_odd|]. intros x phi.
  rewrite (map_ext Ropp (Rmult (-1))) by (intros; ring). rewrite zsum_scale. ring.
Qed.
Print Assumptions C35_sign_rotates_list.
Example C35_nonvacuous : rotated [[1; 2; 3]; [4; 5; 6]; [7; 8; 9]]%Z [[9; 8; 7]; [6; 5; 4]; [3; 2; 1]]%Z 3.
Proof.
  split; [split; [reflexivity|repeat constructor]|]. split; [split; [reflexivity|repeat constructor]|]. intros i j Hi Hj.
  assert (i = 0 \/ i = 1 \/ i = 2)%Z as [-> | [-> | ->]] by lia; assert (j = 0 \/ j = 1 \/ j = 2)%Z as [-> | [-> | ->]] by lia; reflexivity.
Qed.

(** ** C37 *)
Theorem C37_methods_agree : forall rnd mt mt' fuel p alpha n_r n_phi r theta s s', reachable s -> reachable s' -> okp fuel p -> placement rnd n_r -> (1 <= n_phi)%Z ->
  exists v, snd (point_by mt rnd (phase_pol fuel p alpha) n_r n_phi r theta s) = Ok v /\
            snd (point_by mt' rnd (phase_pol fuel p alpha) n_r n_phi r theta s') = Ok v.
Proof.
  intros rnd mt mt' fuel p alpha n_r n_phi r theta s s' Hs Hs' OK PL P. apply placement_good in PL. destruct PL as (A & B & C).
  eexists. split; (apply isok_run; [|assumption]); (apply (by_isok _ _ (phase_pol_computes fuel p alpha OK)); [exact A|exact B|exact C|lia]).
Qed.
Print Assumptions C37_methods_agree.
Theorem C37_kernels_agree : forall rnd jv1 mt mt' fuel p px alpha wavelength NA n_r n_phi (normalize : bool) kernel_size s s', reachable s -> reachable s' ->
  okp fuel p -> placement rnd n_r -> (1 <= n_phi)%Z -> wavelength <> 0 -> NA <> 0 -> (3 <= kernel_size)%Z ->
  exists K, snd (get_psf_kernel rnd jv1 fuel p px alpha wavelength NA n_r n_phi normalize false kernel_size mt s) = Ok K /\
            snd (get_psf_kernel rnd jv1 fuel p px alpha wavelength NA n_r n_phi normalize false kernel_size mt' s') = Ok K.
Proof.
  intros rnd jv1 mt mt' fuel p px alpha wavelength NA n_r n_phi normalize kernel_size s s' Hs Hs' OK PL P W A S. apply placement_good in PL.
  eexists. split; (apply isok_run; [|assumption]); apply single_isok; try assumption; lia.
Qed.
Print Assumptions C37_kernels_agree.
(** an object that is not a joblib Parallel (joblib installed): both inner sums are silently left out *)
Theorem C37_foreign_jobs_refuted : forall fuel p n_r n_phi theta s s', reachable s -> reachable s' -> okp fuel p -> (2 <= n_r)%Z -> (36 <= n_phi)%Z ->
  exists v v', snd (psf_point_vec (fun x => x) (phase_pol fuel p 0) n_r n_phi 0 theta true OtherJobs s) = Ok v /\
               snd (psf_point_vec (fun x => x) (phase_pol fuel p 0) n_r n_phi 0 theta true Joblib s') = Ok v' /\
               v = (2 / (3 * IZR n_phi)) ^ 2 /\ v' = weight n_phi ^ 2 /\ v < v' / 100.
Proof.
  intros fuel p n_r n_phi theta s s' Hs Hs' OK N P. destruct (good_exact n_r N) as (A & B & C). assert (WB := weight_bound n_phi ltac:(lia)).
  assert (PP : 36 <= IZR n_phi) by (apply IZR_le; exact P).
  exists ((2 / (3 * IZR n_phi)) ^ 2), (weight n_phi ^ 2). split; [|split; [|split; [reflexivity|split; [reflexivity|]]]].
  - apply isok_run; [|exact Hs]. unfold psf_point_vec. replace (n_phi =? 0)%Z with false by (symmetry; apply Z.eqb_neq; lia).
    unfold simpson_end. assert (RI : forall phi, isok (radial_integral idr (phase_pol fuel p 0) n_r 0 theta phi) (1 / 2, 0)).
    { intros phi. eapply isok_ext; [|apply (radial_isok _ _ (phase_pol_computes fuel p 0 OK)); assumption]. unfold tr. rewrite nodes_exact by exact N.
      unfold re_psi, im_psi. f_equal.
      - rewrite <- (trapezoid_p n_r) by lia. apply trapezoid_ext; intros; replace (0 * _ - 0 * _ * _) with 0 by ring; rewrite cos_0; ring.
      - transitivity (trapezoid (1 / IZR n_r) (inner_nodes n_r) (fun p => 0 * p + 0 * p)); [|rewrite trapezoid_lin; ring].
        apply trapezoid_ext; intros; replace (0 * _ - 0 * _ * _) with 0 by ring; rewrite sin_0; ring. }
    eapply isok_bind; [apply (RI 0)|]. eapply isok_bind; [apply (RI (2 * PI))|]. cbv beta zeta. eapply isok_ext; [|apply isok_ret].
    rewrite cabs_sq. unfold cscale, cadd. cbn [fst snd]. assert (PI <> 0) by apply PI_neq0. field. split; [lra|assumption].
  - destruct (C31_focus_value Parallel fuel p 0 n_r n_phi theta s' Hs' OK N ltac:(lia) (or_introl eq_refl)) as [E _]. exact E.
  - assert (I : 2 / (3 * IZR n_phi) <= 2 / 108) by (apply Rmult_le_compat_l; [lra|apply Rinv_le_contravar; lra]).
    assert (I0 : 0 < 2 / (3 * IZR n_phi)) by (apply Rdiv_lt_0_compat; lra).
    assert (I2 : 2 / IZR n_phi <= 2 / 36) by (apply Rmult_le_compat_l; [lra|apply Rinv_le_contravar; lra]). nra.
Qed.
Print Assumptions C37_foreign_jobs_refuted.
Example C37_nonvacuous : placement b64 150 /\ placement (fun x => x) 1000.
Proof. split; [right; split; [reflexivity|split; [lia|apply Z.le_trans with (2 ^ 8)%Z; [lia|apply Z.pow_le_mono_r; lia]]]|left; split; [reflexivity|lia]]. Qed.
