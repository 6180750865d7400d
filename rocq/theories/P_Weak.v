(** Property theorems C74: the normalised kernel of a weak aberration is never 0/0. [rnd]: exact or binary64 positions of the
    quadrature nodes; the values are exact. *)
From Coq Require Import Reals Lra Lia Psatz.
From Flocq Require Import Core.
From Verif Require Import Py SpecIndex SpecRadial M_Radial M_Coeffs SpecCoeffs M_Sum SpecSum L_Sum M_Polar L_Polar M_Geo SpecGeo L_Geo M_Fit L_Fit
  L_Trig L_Indep L_Float M_Psf SpecPsf L_Psf L_PsfKernel L_PsfNodes P_Psf M_Numba L_Numba L_Conv2 SpecFloatPsf L_FPsf5 SpecWeak.
Local Open Scope R_scope.

Lemma rsum_nonneg {A} (l : list A) f : (forall x, In x l -> 0 <= f x) -> 0 <= rsum l f.
Proof.
  unfold rsum. induction l as [|x l IH]; intros H; cbn [map fold_right]; [lra|].
  apply Rplus_le_le_0_compat; [apply H; left; reflexivity|apply IH; intros; apply H; right; assumption].
Qed.
(** the value at the focus, for phases smaller than a quarter period *)
Lemma focus_pos h nodes n_phi Phi t : 0 < h -> Forall in_disk nodes -> (1 <= n_phi)%Z ->
  (forall x phi, 0 <= x <= 1 -> Rabs (Phi x phi) < PI / 2) -> 0 < psf_on h nodes n_phi Phi 0 t.
Proof.
  intros H F NP B. unfold psf_on. cbv zeta. pose proof PI_RGT_0 as P0.
  set (psi := fun p phi => Phi p phi - 0 * p * cos (phi - t)).
  assert (C : forall p phi, 0 <= p <= 1 -> 0 < cos (Phi p phi - 0 * p * cos (phi - t))).
  { intros p phi Hp. pose proof (B p phi Hp) as X. apply Rabs_lt_inv in X. apply cos_gt_0; lra. }
  set (g := fun phi => trapezoid h nodes (fun p => p * cos (Phi p phi - 0 * p * cos (phi - t)))).
  assert (G : forall phi, 0 < g phi).
  { intros phi. unfold g, trapezoid. apply Rmult_lt_0_compat; [exact H|].
    assert (S0 : 0 <= rsum nodes (fun p => p * cos (Phi p phi - 0 * p * cos (phi - t)))).
    { apply rsum_nonneg. intros x I. rewrite Forall_forall in F. specialize (F x I). unfold in_disk in F.
      apply Rmult_le_pos; [lra|]. apply Rlt_le, C. lra. }
    pose proof (C 1 phi ltac:(lra)) as C1. lra. }
  assert (A : 0 < angular n_phi g).
  { unfold angular. cbv zeta. set (hp := 2 * PI / IZR n_phi). assert (NP' : 1 <= IZR n_phi) by (apply IZR_le, NP).
    assert (HP : 0 < hp) by (unfold hp; apply Rdiv_lt_0_compat; lra).
    assert (E1 : 0 <= rsum (evens n_phi) (fun i => g (IZR i * hp))) by (apply rsum_nonneg; intros; apply Rlt_le, G).
    assert (E2 : 0 <= rsum (odds n_phi) (fun i => g (IZR i * hp))) by (apply rsum_nonneg; intros; apply Rlt_le, G).
    pose proof (G 0). pose proof (G (2 * PI)). apply Rmult_lt_0_compat; lra. }
  set (re := angular n_phi g) in *. set (im := angular n_phi _).
  apply Rdiv_lt_0_compat; [|apply Rmult_lt_0_compat; lra].
  assert (0 < re * re) by (apply Rmult_lt_0_compat; exact A). pose proof (Rle_0_sqr im) as I2. unfold Rsqr in I2. fold re. lra.
Qed.
Lemma psf_on_nonneg h nodes n_phi Phi r t : 0 <= psf_on h nodes n_phi Phi r t.
Proof.
  unfold psf_on. cbv zeta. set (re := angular _ _). set (im := angular _ _).
  pose proof PI_RGT_0 as P0. pose proof (Rle_0_sqr re) as A. pose proof (Rle_0_sqr im) as B. unfold Rsqr in A, B.
  apply Rmult_le_pos; [lra|]. apply Rlt_le, Rinv_0_lt_compat, Rmult_lt_0_compat; lra.
Qed.
Lemma step_pos rnd n_r : placement rnd n_r -> 0 < rnd (1 / IZR n_r).
Proof.
  intros [[-> H]|[-> H]].
  - apply Rdiv_lt_0_compat; [lra|apply IZR_lt; lia].
  - assert (B : 1 / IZR n_r <= 1) by (assert (1 <= IZR n_r) by (apply IZR_le; lia); apply Rmult_le_reg_r with (IZR n_r); [lra|]; field_simplify; lra).
    assert (L : bpow radix2 (-50) <= 1 / IZR n_r).
    { assert (N0 : 0 < IZR n_r) by (apply IZR_lt; lia). apply Rmult_le_reg_r with (IZR n_r); [exact N0|].
      replace (1 / IZR n_r * IZR n_r) with 1 by (field; lra).
      apply Rle_trans with (bpow radix2 (-50) * bpow radix2 50); [apply Rmult_le_compat_l; [apply bpow_ge_0|]|rewrite <- bpow_plus; simpl; lra].
      rewrite <- (IZR_Zpower radix2 50) by lia. apply IZR_le. simpl. lia. }
    assert (M : b64 (bpow radix2 (-50)) <= b64 (1 / IZR n_r)) by (apply round_le; [apply FLT_exp_valid; reflexivity|apply valid_rnd_N|exact L]).
    unfold b64 in M at 1. rewrite round_generic in M; [|apply valid_rnd_N|apply generic_format_bpow; vm_compute; discriminate].
    pose proof (bpow_gt_0 radix2 (-50)). lra.
Qed.
Lemma proper_of v size : (1 <= size)%Z -> (forall i j, 0 <= v i j) -> 0 < v (size / 2)%Z (size / 2)%Z -> proper (finish true (table v size)) size.
Proof.
  intros S P C. pose proof (finish_holds true v size ltac:(lia)) as Hh.
  assert (M : (0 <= size / 2 < size)%Z) by (split; [apply Z.div_pos; lia|apply Z.div_lt_upper_bound; lia]).
  split; [apply Hh|]. apply (C32_normalized_range _ _ v Hh); [intros; apply P|].
  exists (size / 2)%Z, (size / 2)%Z. split; [exact M|]. split; [exact M|]. lra.
Qed.
Lemma weak_table rnd n_r n_phi wavelength NA px Phi size : placement rnd n_r -> (1 <= n_phi)%Z -> (1 <= size)%Z ->
  (forall x phi, 0 <= x <= 1 -> Rabs (Phi x phi) < PI / 2) ->
  proper (finish true (table (value_at rnd n_r n_phi wavelength NA px Phi size) size)) size.
Proof.
  intros PL NP S B. apply proper_of; [exact S|intros; apply psf_on_nonneg|].
  unfold value_at, pix_d. rewrite Z.sub_diag, Rmult_0_l, Rplus_0_l, sqrt_0, Rmult_0_r. unfold psf_rnd.
  apply focus_pos; [apply step_pos, PL|apply (placement_good _ _ PL)|exact NP|exact B].
Qed.
Lemma single_weak m n a x phi : valid m n -> Rabs a * norm_nm m n < PI / 2 -> 0 <= x <= 1 -> Rabs (a * Z_nm m n x phi) < PI / 2.
Proof.
  intros V H X. rewrite Rabs_mult. apply Rle_lt_trans with (Rabs a * norm_nm m n); [|exact H].
  apply Rmult_le_compat_l; [apply Rabs_pos|apply Z_bound; assumption].
Qed.

(** one polynomial *)
Theorem C74_single : forall rnd jv1 mt fuel m n px alpha wavelength NA n_r n_phi kernel_size s, reachable s -> okp fuel (m, n) ->
  placement rnd n_r -> (1 <= n_phi)%Z -> wavelength <> 0 -> NA <> 0 -> (3 <= kernel_size)%Z ->
  Rabs (alpha / wavelength) * norm_nm m n < PI / 2 ->
  exists K, snd (get_psf_kernel rnd jv1 fuel (m, n) px alpha wavelength NA n_r n_phi true false kernel_size mt s) = Ok K /\ proper K (made_odd kernel_size).
Proof.
  intros rnd jv1 mt fuel m n px alpha wavelength NA n_r n_phi ks s RS OK PL NP W A KS B.
  eexists. split; [apply isok_run; [apply single_isok; try assumption; [apply placement_good, PL|lia]|exact RS]|].
  rewrite <- made_odd_eq. apply weak_table; try assumption; [pose proof (odd_size_ge ks); lia|].
  intros x phi X. apply single_weak; [apply OK|exact B|exact X].
Qed.
Print Assumptions C74_single.
(** several polynomials *)
Theorem C74_list : forall rnd fuel ps amps px wavelength NA n_r n_phi kernel_size s, reachable s -> ps <> [] -> length amps = length ps ->
  Forall (okp fuel) ps -> placement rnd n_r -> (1 <= n_phi)%Z -> wavelength <> 0 -> NA <> 0 -> (1 <= kernel_size)%Z ->
  size_of amps ps < PI / 2 ->
  exists K, snd (get_psf_kernel_zerns rnd fuel ps amps px wavelength NA kernel_size n_r n_phi true s) = Ok K /\ proper K (made_odd kernel_size).
Proof.
  intros rnd fuel ps amps px wavelength NA n_r n_phi ks s RS NE L OK PL NP W A KS B.
  eexists. split; [apply isok_run; [apply zerns_isok; try assumption; [apply placement_good, PL|lia|lia]|exact RS]|].
  rewrite <- made_odd_eq. apply weak_table; try assumption; [pose proof (odd_size_ge ks); lia|].
  intros x phi X. eapply Rle_lt_trans; [|exact B]. apply zsum_bound; [|exact X].
  unfold all_valid. rewrite Forall_forall in OK. apply Forall_forall. intros p I. apply OK, I.
Qed.
Print Assumptions C74_list.
(** the accelerated calculation, for the polynomials it handles (C36) *)
Theorem C74_accelerated : forall rnd m n px alpha wavelength NA n_r n_phi kernel_size s, reachable s -> valid m n -> (n <= 10)%Z ->
  ~ ((8 <= n)%Z /\ Z.abs m = n) -> placement rnd n_r -> (1 <= n_phi)%Z -> wavelength <> 0 -> NA <> 0 -> (1 <= kernel_size)%Z ->
  Rabs (alpha / wavelength) * norm_nm m n < PI / 2 ->
  exists K, snd (get_psf_kernel_comp rnd (Single (m, n)) px (AFloat alpha) wavelength NA n_r n_phi true kernel_size s) = Ok K /\ proper K (made_odd kernel_size).
Proof.
  intros rnd m n px alpha wavelength NA n_r n_phi ks s RS V L N PL NP W A KS B.
  eexists. split; [apply isok_run; [apply comp_single_isok; try assumption; [apply placement_good, PL|lia|split; [exact V|split; assumption]|lia]|exact RS]|].
  rewrite <- made_odd_eq. apply weak_table; try assumption; [pose proof (odd_size_ge ks); lia|].
  intros x phi X. apply single_weak; [exact V|exact B|exact X].
Qed.
Print Assumptions C74_accelerated.
Theorem C74_accelerated_list : forall rnd ps amps px wavelength NA n_r n_phi kernel_size s, reachable s -> ps <> [] -> length amps = length ps ->
  (forall m n, In (m, n) ps -> valid m n /\ (n <= 10)%Z /\ ~ ((8 <= n)%Z /\ Z.abs m = n)) -> placement rnd n_r -> (1 <= n_phi)%Z ->
  wavelength <> 0 -> NA <> 0 -> (1 <= kernel_size)%Z -> size_of amps ps < PI / 2 ->
  exists K, snd (get_psf_kernel_comp rnd (Several ps) px (AArr amps) wavelength NA n_r n_phi true kernel_size s) = Ok K /\ proper K (made_odd kernel_size).
Proof.
  intros rnd ps amps px wavelength NA n_r n_phi ks s RS NE L OK PL NP W A KS B.
  assert (C : Forall comp_ok ps) by (apply Forall_forall; intros [m n] I; exact (OK m n I)).
  eexists. split; [apply isok_run; [apply comp_list_isok; try assumption; [apply placement_good, PL|lia|lia]|exact RS]|].
  rewrite <- made_odd_eq. apply weak_table; try assumption; [pose proof (odd_size_ge ks); lia|].
  intros x phi X. eapply Rle_lt_trans; [|exact B]. apply zsum_bound; [|exact X].
  unfold all_valid. apply Forall_forall. intros [m n] I. apply (OK m n I).
Qed.
Print Assumptions C74_accelerated_list.
(** coma with the coefficient 0.5 wavelengths; with defocus added *)
Example C74_nonvacuous : valid 1 3 /\ Rabs (5 / 10 / 1) * norm_nm 1 3 < PI / 2 /\ placement b64 320 /\ size_of [1 / 2; -1 / 50] [(1, 3); (0, 2)]%Z < PI / 2.
Proof.
  assert (P3 : 3 < PI) by (pose proof PI2_3_2; lra).
  assert (Q8 : sqrt 8 < 29 / 10) by (rewrite <- (sqrt_square (29 / 10)) by lra; apply sqrt_lt_1; lra).
  assert (Q3 : sqrt 3 < 175 / 100) by (rewrite <- (sqrt_square (175 / 100)) by lra; apply sqrt_lt_1; lra).
  assert (N1 : norm_nm 1 3 = sqrt 8) by (unfold norm_nm; cbn [Z.eqb]; f_equal; field).
  assert (N2 : norm_nm 0 2 = sqrt 3) by (unfold norm_nm; cbn [Z.eqb]; f_equal; field).
  split; [split; [lia|split; [lia|exists 1%Z; reflexivity]]|]. split; [rewrite N1, Rabs_pos_eq by lra; lra|].
  split; [right; split; [reflexivity|lia]|]. cbn [size_of]. rewrite N1, N2, (Rabs_pos_eq (1 / 2)), (Rabs_left (-1 / 50)) by lra. lra.
Qed.
