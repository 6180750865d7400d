(** C56: from the calls of the user to the diffraction integral - the kernels of class ZernPSF. *)
From Coq Require Import Reals Lra Lia List.
From Coquelicot Require Import Coquelicot.
From Verif Require Import Py SpecIndex SpecRadial M_Index M_Init SpecInit M_Radial M_Coeffs SpecCoeffs M_Sum SpecSum M_Geo SpecGeo RadialMath L_Radial L_Sum M_Fit L_Fit M_Psf SpecPsf L_Psf L_PsfKernel L_PsfNodes L_Polar L_Value P_Psf
  M_Numba L_Numba P_Numba M_PsfClass SpecPsfClass L_PsfClass L_PsfObj L_PsfSet P_PsfClass P_PsfIO SpecDiff L_Ortho L_Conv L_Conv2 P_Conv L_Airy P_Airy SpecPsfEnd.
Import ListNotations.
Local Open Scope R_scope.

Lemma fresh_object o : fresh o -> object o.
Proof. induction 1; [eapply o_new; eassumption|apply o_physical|apply o_calculation|apply o_calculate|apply o_parallel|apply o_crop]; assumption. Qed.
(** what the calls keep *)
Definition same (o o' : zernpsf) : Prop := zpol o' = zpol o /\ polynomials o' = polynomials o /\ airy o' = airy o.
Definition same_all (o o' : zernpsf) : Prop := same o o' /\ NA o' = NA o /\ wavelength o' = wavelength o /\ pixel_size o' = pixel_size o /\
  expansion_coeff o' = expansion_coeff o /\ amplitudes o' = amplitudes o /\ props_set o' = props_set o.
Lemma same_all_refl o : same_all o o. Proof. repeat split. Qed.
Lemma same_all_trans a b c : same_all a b -> same_all b c -> same_all a c.
Proof. unfold same_all, same. intuition congruence. Qed.
Lemma sa_calculation ks nr nphi o : same_all o (fst (set_calculation_props ks nr nphi o)).
Proof. unfold set_calculation_props. destruct (ks <? 3)%Z; [apply same_all_refl|]. cbv zeta. destruct (nr <? 20)%Z; [repeat split|]. destruct (nphi <? 36)%Z; repeat split. Qed.
Lemma sa_crop part o : same_all o (fst (crop_kernel part o)).
Proof.
  unfold crop_kernel. destruct (_ <=? 3)%Z; [repeat split|]. destruct (Rleb part 0); [repeat split|]. destruct (Rleb (5 / 10) part); [repeat split|]. cbv zeta. destruct (0 <? _)%Z; repeat split.
Qed.
Lemma sa_calculate rnd jv1 fuel su nm ac inst s o : same_all o (fst (snd (calculate_psf_kernel rnd jv1 fuel su nm ac inst o s))).
Proof.
  unfold calculate_psf_kernel. cbv zeta. set (o1 := if negb (props_set o) && negb su then with_kernel_size 19 o else o).
  assert (E1 : forall K, same_all o (with_kern K o1) /\ same_all o o1) by (intros K; unfold o1; destruct (_ && _); repeat split).
  match goal with |- same_all o (fst (snd (match ?x with (_, _) => _ end))) => destruct x as [s' [K|e]] end; [apply (E1 K)|apply (E1 [])].
Qed.
Lemma sa_parallel rnd fuel w nm s o : same_all o (fst (snd (get_kernel_parallel rnd fuel w nm o s))).
Proof.
  unfold get_kernel_parallel. destruct (zpol o) eqn:EZ; [|repeat split]. destruct (_ <? 3)%Z; [repeat split|]. destruct (fill_kernel _ _ _ _ _ s) as [s' [l|]]; repeat split.
Qed.
Lemma later_same o1 o : later o1 o -> same_all o1 o.
Proof. induction 1; [apply same_all_refl|..]; (eapply same_all_trans; [eassumption|]); [apply sa_calculation|apply sa_calculate|apply sa_parallel|apply sa_crop]. Qed.
Lemma later_object o1 o : object o1 -> later o1 o -> object o.
Proof. intros H. induction 1; [exact H|apply o_calculation|apply o_calculate|apply o_parallel|apply o_crop]; assumption. Qed.
Lemma coeff_same c o : same o (fst (set_coeff c o)).
Proof.
  unfold set_coeff. destruct c as [a|l|e].
  - destruct (zpol o); [repeat split|]. destruct (polynomials o) as [|x [|y t]]; repeat split.
  - destruct (_ =? _)%nat; [destruct l; repeat split|]. destruct l as [|x [|y l]]; [repeat split| |repeat split]. destruct (polynomials o); repeat split.
  - destruct (zpol o); [repeat split|]. destruct (polynomials o) as [|x [|y t]]; repeat split.
Qed.
Lemma estimate_same o : same o (fst (estimate_size o)).
Proof.
  unfold estimate_size. destruct (zpol o); [destruct (get_kernel_size _ _ _ _ _); repeat split|]. destruct (polynomials o) as [|x t] eqn:EP; destruct (amplitudes o); try (split; [|split]; reflexivity || assumption);
    destruct (max_sizes _ _ _ _ _ _ _) as [[mx ma]|e]; repeat split.
Qed.
Lemma same_trans a b c : same a b -> same b c -> same a c. Proof. unfold same. intuition congruence. Qed.
Lemma physical_same na wl c px o : same o (fst (set_physical_props na wl c px o)).
Proof.
  unfold set_physical_props. destruct (_ || _); [repeat split|]. destruct (Rleb wl 0); [repeat split|]. cbv zeta. destruct (pydiv _ _) as [nyq|e]; [|repeat split]. destruct (Rleb px 0); [repeat split|]. destruct (Rltb nyq px); [repeat split|].
  match goal with |- context [set_coeff c ?x] => set (o1 := x); assert (S1 : same o o1) by repeat split end. assert (S2 := coeff_same c o1). destruct (set_coeff c o1) as [o2 [u|e]]; cbn [fst] in *.
  - assert (S3 := estimate_same o2). exact (same_trans _ _ _ S1 (same_trans _ _ _ S2 S3)).
  - exact (same_trans _ _ _ S1 S2).
Qed.
(** the Airy flag of an object that read no file is right *)
Lemma fresh_flag o : fresh o -> (zpol o <> None -> polynomials o = []) /\ (airy o = true -> zpol o = None \/ zpol o = Some (0, 0)%Z).
Proof.
  assert (S : forall o o', same o o' -> (zpol o <> None -> polynomials o = []) /\ (airy o = true -> zpol o = None \/ zpol o = Some (0, 0)%Z) ->
    (zpol o' <> None -> polynomials o' = []) /\ (airy o' = true -> zpol o' = None \/ zpol o' = Some (0, 0)%Z)) by (intros o0 o' (-> & -> & ->); tauto).
  induction 1 as [a o P E|na wl c px o F IH|ks nr nphi o F IH|rnd jv1 fuel su nm ac inst s o F IH|rnd fuel w nm s o F IH|part o F IH].
  - assert (PI0 : forall p, (let q := is_piston p in q = true -> p = (0, 0)%Z)) by (intros [m n]; unfold is_piston; cbn [fst snd]; intros X; apply andb_prop in X; destruct X as [X Y]; apply Z.eqb_eq in X, Y; subst; reflexivity).
    destruct a as [[p|]|l].
    + injection E as <-. cbn. split; [reflexivity|]. intros X. right. f_equal. apply PI0, X.
    + injection E as <-. cbn. split; [reflexivity|discriminate].
    + destruct (Nat.leb_spec 2 (length l)) as [L|L].
      * rewrite init_several in E by exact L. destruct (all_pols l); [|discriminate]. destruct (distinct_Z _); [|discriminate]. injection E as <-. cbn. split; [congruence|auto].
      * destruct l as [|[p|] [|y l]]; cbn [length] in L; try lia; try discriminate. injection E as <-. cbn. split; [reflexivity|]. intros X. right. f_equal. apply PI0, X.
  - eapply S; [apply physical_same|exact IH].
  - eapply S; [apply sa_calculation|exact IH].
  - eapply S; [apply sa_calculate|exact IH].
  - eapply S; [apply sa_parallel|exact IH].
  - eapply S; [apply sa_crop|exact IH].
Qed.

(** Whatever was done with the object before, after an accepted call of set_physical_props and any later calculations, croppings and calls of set_calculation_props, calculate_psf_kernel returns the kernel whose
    pixels are, up to the stated accuracy, the diffraction integral of the given aberration (coefficients in the units of the wavelength given), wavelength, aperture and pixel size. *)
Theorem C56_kernel_partial : forall rnd jv1 fuel o0 na wl c px o1 o suppress normalized accelerated installed s,
  fresh o0 -> set_physical_props na wl c px o0 = (o1, Ok Datatypes.tt) -> later o1 o -> (3 <= kernel_size o)%Z ->
  (forall x, jv1 x = bessel_J1 x) -> (56 <= fuel)%nat -> placement rnd (n_int_r o) -> reachable s ->
  accelerated = Some false \/ installed = false \/ Forall compiled_well (pols o0) ->
  let ps := pols o0 in let amps := map (fun a => a / wl) (coeffs c) in
  exists K v, snd (snd (calculate_psf_kernel rnd jv1 fuel suppress normalized accelerated installed o s)) = Ok K /\
    holds normalized K (kernel_size o) v /\
    forall i j rho t, polar (IZR (kernel_size o / 2 - j)) (IZR (kernel_size o / 2 - i)) rho t ->
      let r := 2 * PI / wl * na * px * rho in
      Rabs (v i j - diffraction_integral (fun x phi => zsum amps ps x phi) r t) <= accuracy (n_int_r o) (n_int_phi o) (steep_r amps ps) (steep_t amps ps) r + 5 / 10 ^ 11.
Proof.
  intros rnd jv1 fuel o0 na wl c px o1 o su nm ac inst s FR EP LT K3 HJ FU PL RS NU ps amps.
  destruct (fresh_flag o0 FR) as [FL1 FL2]. assert (O0 := fresh_object o0 FR). assert (O1 : object o1) by (assert (X := o_physical na wl c px o0 O0); rewrite EP in X; exact X).
  assert (O := later_object _ _ O1 LT). assert (IV := object_inv o O). assert (IV0 := object_inv o0 O0).
  destruct (C39_stored_partial na wl c px o0 o1 O0 EP) as (S1 & S2 & S3 & _ & S5 & _ & SC & S6 & S7 & S8 & _).
  destruct (proj1 (C39_accepted na wl c px o0 O0)) as [(R1 & R2 & R3) FT]; [eexists; exact EP|].
  destruct (later_same _ _ LT) as ((L1 & L2 & L3) & L4 & L5 & L6 & L7 & L8 & L9).
  assert (W0 : wl <> 0) by lra. assert (A0 : na <> 0) by lra. assert (NP := i_nphi o IV).
  assert (OS : odd_size (kernel_size o) = kernel_size o) by (unfold odd_size; destruct (i_size o IV) as [_ OD]; rewrite Zmod_odd, OD; reflexivity).
  assert (KOK : forall p, kok p -> okp fuel p) by (intros p [V B]; split; [exact V|lia]).
  assert (PSO : Forall (okp fuel) ps). { unfold ps, pols. assert (X := i_zpol o0 IV0). assert (Y := i_pols o0 IV0). destruct (zpol o0); [constructor; [apply KOK, X|constructor]|eapply Forall_impl; [apply KOK|exact Y]]. }
  assert (PSV : all_valid ps) by (eapply okp_valid; exact PSO).
  assert (ACC : forall i j rho t, polar (IZR (kernel_size o / 2 - j)) (IZR (kernel_size o / 2 - i)) rho t -> let r := 2 * PI / wl * na * px * rho in
     Rabs (value_at rnd (n_int_r o) (n_int_phi o) wl na px (fun x phi => zsum amps ps x phi) (kernel_size o) i j - diffraction_integral (fun x phi => zsum amps ps x phi) r t)
       <= accuracy (n_int_r o) (n_int_phi o) (steep_r amps ps) (steep_t amps ps) r + 5 / 10 ^ 11).
  { intros i j rho t PO r. rewrite (value_polar _ _ _ _ _ _ _ _ _ _ _ _ PO). fold r. eapply Rle_trans; [apply psf_zsum_converges; [exact PSV|exact PL|lia]|lra]. }
  assert (UN : use_numba ac inst = true -> Forall comp_ok ps).
  { intros X. destruct NU as [-> | [-> | NU]]; [discriminate|destruct ac as [[|]|]; discriminate|]. fold ps in NU. rewrite Forall_forall in *. intros q I. destruct (NU q I). split; [apply (PSO q I)|split; assumption]. }
  unfold calculate_psf_kernel. rewrite L9, S5. cbn [negb andb]. cbv zeta. rewrite L1, L2, L3, L4, L5, L6, L7, L8, S1, S2, S3, S6, S7, S8.
  assert (FIN : forall mk v, isok mk (finish nm (table v (kernel_size o))) ->
     (forall i j rho t, polar (IZR (kernel_size o / 2 - j)) (IZR (kernel_size o / 2 - i)) rho t -> let r := 2 * PI / wl * na * px * rho in
        Rabs (v i j - diffraction_integral (fun x phi => zsum amps ps x phi) r t) <= accuracy (n_int_r o) (n_int_phi o) (steep_r amps ps) (steep_t amps ps) r + 5 / 10 ^ 11) ->
     exists K v, snd (snd (let '(s', r) := mk s in match r with Ok K => (s', (with_kern K o, Ok K)) | Raise e => (s', (o, Raise e)) end)) = Ok K /\ holds nm K (kernel_size o) v /\
       forall i j rho t, polar (IZR (kernel_size o / 2 - j)) (IZR (kernel_size o / 2 - i)) rho t -> let r := 2 * PI / wl * na * px * rho in
        Rabs (v i j - diffraction_integral (fun x phi => zsum amps ps x phi) r t) <= accuracy (n_int_r o) (n_int_phi o) (steep_r amps ps) (steep_t amps ps) r + 5 / 10 ^ 11).
  { intros mk v IS H. destruct (IS s RS) as [_ E]. destruct (mk s) as [s' [K|e]]; cbn [snd] in E |- *; [|discriminate]. injection E as ->. eexists _, v. split; [reflexivity|]. split; [apply finish_holds; lia|exact H]. }
  assert (PG := placement_good _ _ PL). unfold ps, amps, pols in *. destruct (zpol o0) as [p|] eqn:EZ.
  - assert (EA : exists a, coeffs c = [a] /\ expansion_coeff o1 = a).
    { rewrite (FL1 ltac:(discriminate)) in SC. destruct c as [a|l|e]; [exists a; tauto| |contradiction]. destruct SC as (a & -> & E & _). exists a. split; [reflexivity|exact E]. }
    destruct EA as (a & EA & ->). rewrite EA in *. cbn [map] in *. assert (OK : okp fuel p) by (inversion PSO; assumption).
    destruct (use_numba ac inst) eqn:EN.
    + apply (FIN (get_psf_kernel_comp rnd (Single p) px (AFloat a) wl na (n_int_r o) (n_int_phi o) nm (kernel_size o)) (value_at rnd (n_int_r o) (n_int_phi o) wl na px (fun x phi => zsum [a / wl] [p] x phi) (kernel_size o))); [|exact ACC].
      specialize (UN eq_refl). inversion UN; subst. eapply isok_ext; [|apply comp_single_isok; try assumption; lia]. rewrite OS. f_equal. apply table_ext. intros i j _ _. apply value_ext. intros. apply zsum_one.
    + destruct (airy o0) eqn:EF.
      * destruct (FL2 eq_refl) as [X|X]; [discriminate|]. injection X as ->.
        destruct (C32_airy_kernel rnd jv1 Vectorized fuel (0, 0)%Z px a wl na (n_int_r o) (n_int_phi o) nm (kernel_size o) s RS W0 A0 K3) as (K & v & EK & HK & VK).
        rewrite <- made_odd_eq, OS in HK, VK. exists K, v. split; [destruct (get_psf_kernel _ _ _ _ _ _ _ _ _ _ _ _ _ _ s) as [s' [K'|e]]; cbn [snd] in EK |- *; [exact EK|discriminate]|]. split; [exact HK|].
        intros i j rho t PO. rewrite (VK i j rho t PO). set (r := 2 * PI / wl * na * px * rho).
        assert (E2 : diffraction_integral (fun x phi => zsum [a / wl] [(0, 0)%Z] x phi) r t = diffraction_integral (fun _ _ => a / wl) r t).
        { unfold diffraction_integral. f_equal. f_equal; f_equal; apply RInt_ext; intros phi _; apply RInt_ext; intros q _; rewrite zsum_const; reflexivity. }
        rewrite E2. eapply Rle_trans; [apply C53_airy_ref_pattern, HJ|]. assert (B := Rabs_pos r).
        replace (steep_r [a / wl] [(0, 0)%Z]) with 0 by (cbn; unfold slope; cbn; lra). replace (steep_t [a / wl] [(0, 0)%Z]) with 0 by (cbn; lra).
        assert (0 <= accuracy (n_int_r o) (n_int_phi o) 0 0 r); [|lra]. unfold accuracy. assert (NR := i_nr o IV).
        apply Rplus_le_le_0_compat; apply Rmult_le_pos; try lra; apply Rlt_le, Rinv_0_lt_compat, IZR_lt; lia.
      * apply (FIN (get_psf_kernel rnd jv1 fuel p px a wl na (n_int_r o) (n_int_phi o) nm false (kernel_size o) Vectorized) (value_at rnd (n_int_r o) (n_int_phi o) wl na px (fun x phi => zsum [a / wl] [p] x phi) (kernel_size o))); [|exact ACC].
        eapply isok_ext; [|apply single_isok; try assumption; lia]. rewrite OS. f_equal. apply table_ext. intros i j _ _. apply value_ext. intros. apply zsum_one.
  - assert (L2' := i_several o0 IV0 EZ). destruct (polynomials o0) as [|p tl] eqn:EPS; [cbn in L2'; lia|].
    assert (EA : amplitudes o1 = Some (map (fun a => a / wl) (coeffs c)) /\ length (map (fun a => a / wl) (coeffs c)) = length (p :: tl)).
    { destruct c as [a|l|e]; [cbn [fits] in FT; congruence| |contradiction]. destruct SC as (_ & X & Y & _). split; [exact X|]. rewrite map_length. exact Y. }
    destruct EA as [EA LA]. rewrite EA. set (am := map (fun a => a / wl) (coeffs c)) in *. cbv beta iota.
    destruct (use_numba ac inst) eqn:EN.
    + apply (FIN (get_psf_kernel_comp rnd (Several (p :: tl)) px (AArr am) wl na (n_int_r o) (n_int_phi o) nm (kernel_size o)) (value_at rnd (n_int_r o) (n_int_phi o) wl na px (fun x phi => zsum am (p :: tl) x phi) (kernel_size o))); [|exact ACC].
      eapply isok_ext; [|apply comp_list_isok; try assumption; try lia; [discriminate|apply UN; reflexivity]]. rewrite OS. reflexivity.
    + apply (FIN (get_psf_kernel_zerns rnd fuel (p :: tl) am px wl na (kernel_size o) (n_int_r o) (n_int_phi o) nm) (value_at rnd (n_int_r o) (n_int_phi o) wl na px (fun x phi => zsum am (p :: tl) x phi) (kernel_size o))); [|exact ACC].
      eapply isok_ext; [|apply zerns_isok; try assumption; try lia; discriminate]. rewrite OS. reflexivity.
Qed.
Print Assumptions C56_kernel_partial.

(** With set_calculation_props in between, size and numbers of points are those given. *)
Theorem C56_configured : forall o1 o2 ks nr nphi, object o1 -> set_calculation_props ks nr nphi o1 = (o2, Ok Datatypes.tt) ->
  kernel_size o2 = made_odd ks /\ n_int_r o2 = nr /\ n_int_phi o2 = nphi /\ (3 <= kernel_size o2)%Z /\ later o1 o2.
Proof.
  intros o1 o2 ks nr nphi O E. assert (L : later o1 (fst (set_calculation_props ks nr nphi o1))) by (apply l_calculation, l_here). rewrite E in L. cbn [fst] in L.
  unfold set_calculation_props in E. destruct (Z.ltb_spec ks 3) as [B|B]; [discriminate|]. cbv zeta in E. destruct (nr <? 20)%Z; [discriminate|]. destruct (nphi <? 36)%Z; [discriminate|]. injection E as <-.
  cbn [kernel_size n_int_r n_int_phi with_n_int_phi with_n_int_r with_kernel_size] in *. fold (odd_size ks) in *. assert (Q := odd_size_ge ks). rewrite made_odd_eq in *.
  split; [reflexivity|]. split; [reflexivity|]. split; [reflexivity|]. split; [lia|exact L].
Qed.
Print Assumptions C56_configured.

(** An object that reads the file of another polynomial keeps its Airy flag: a piston object that reads a tilt returns the Airy pattern, whatever the coefficient is. *)
Lemma J1_bound x : Rabs (bessel_J1 x) <= 1.
Proof.
  assert (P := PI_RGT_0). unfold bessel_J1. rewrite Rabs_mult, (Rabs_right (/ PI)) by (apply Rle_ge, Rlt_le, Rinv_0_lt_compat, P).
  assert (B : Rabs (RInt (fun t => cos (t - x * sin t)) 0 PI) <= (PI - 0) * 1).
  { apply abs_RInt_le_const; [lra| |intros t _; apply Rabs_le; assert (C := COS_bound (t - x * sin t)); lra].
    apply (ex_RInt_continuous (V := R_CompleteNormedModule)). intros z _. apply continuity_pt_filterlim. apply derivable_continuous_pt. reg. }
  apply Rle_trans with (/ PI * ((PI - 0) * 1)); [apply Rmult_le_compat_l; [apply Rlt_le, Rinv_0_lt_compat, P|exact B]|]. rewrite Rminus_0_r. apply Req_le. field. lra.
Qed.
Lemma tilt_integral a theta : a <> 0 -> diffraction_integral (fun x phi => zsum [a] [(1, 1)%Z] x phi) 0 theta <= (1 / a) ^ 2.
Proof.
  intros A. assert (E : diffraction_integral (fun x phi => zsum [a] [(1, 1)%Z] x phi) 0 theta = diffraction_integral (fun _ _ => 0) (2 * a) PI).
  { assert (Q : forall p phi, zsum [a] [(1, 1)%Z] p phi - 0 * p * cos (phi - theta) = 0 - 2 * a * p * cos (phi - PI)).
    { intros p phi. rewrite <- zsum_one. unfold Zv, Z_nm. cbn [fst snd]. rewrite R_nm_F by (split; [lia|split; [lia|exists 0%Z; reflexivity]]).
      fold (Fmn 1 1 p). rewrite (Fmn_diag 1 1 p) by (first [split; [lia|split; [lia|exists 0%Z; reflexivity]]|reflexivity]).
      replace (cos (phi - PI)) with (- cos phi) by (rewrite cos_minus, cos_PI, sin_PI; ring).
      replace (norm_nm 1 1) with 2 by (unfold norm_nm; cbn [Z.eqb]; replace (2 * (1 + 1) / (1 + 0)) with (2 * 2) by field; rewrite sqrt_square; lra).
      change (T_m 1 phi) with (cos (1 * phi)). rewrite (Rmult_1_l phi). rewrite powerRZ_1. ring. }
    unfold diffraction_integral. f_equal. f_equal; f_equal; apply RInt_ext; intros phi _; apply RInt_ext; intros q _; cbv beta; rewrite Q; reflexivity. }
  rewrite E. destruct (C53_integral_is_airy 0 (2 * a) PI) as (H & _ & _). rewrite H by lra. assert (B := J1_bound (2 * a)).
  replace (2 * bessel_J1 (2 * a) / (2 * a)) with (bessel_J1 (2 * a) * (1 / a)) by (field; exact A). rewrite Rpow_mult_distr. assert (0 <= (1 / a) ^ 2) by apply pow2_ge_0.
  assert (bessel_J1 (2 * a) ^ 2 <= 1). { rewrite <- Rsqr_pow2. apply Rabs_le_inv in B. unfold Rsqr. nra. } nra.
Qed.
Theorem C56_after_read_refuted : exists o0 o1 o, object o0 /\ pols o0 = [(1, 1)%Z] /\ set_physical_props 1 1 (KNum 10) (1 / 10) o0 = (o1, Ok Datatypes.tt) /\
  set_calculation_props 5 100000 100000 o1 = (o, Ok Datatypes.tt) /\
  forall rnd jv1 fuel suppress installed s theta, (forall x, jv1 x = bessel_J1 x) -> reachable s ->
    exists K v, snd (snd (calculate_psf_kernel rnd jv1 fuel suppress false (Some false) installed o s)) = Ok K /\ entry K 2 2 = Some (Fin v) /\
      accuracy 100000 100000 (steep_r [10] [(1, 1)%Z]) (steep_t [10] [(1, 1)%Z]) 0 + 5 / 10 ^ 11 < Rabs (v - diffraction_integral (fun x phi => zsum [10] [(1, 1)%Z] x phi) 0 theta).
Proof.
  assert (C : configured tilt) by (split; [cbn; unfold in_range; lra|discriminate]).
  destruct (C43_airy_flag_kept tilt airy_disk (1, 1)%Z tilt_object C airy_object eq_refl) as (j & o0 & E & ER & Z1 & A1). change (airy airy_disk) with true in A1.
  assert (O0 : object o0) by (assert (X := o_read tilt j airy_disk tilt_object E airy_object); rewrite ER in X; exact X). clear E ER.
  destruct (proj2 (C39_accepted 1 1 (KNum 10) (1 / 10) o0 O0)) as [o1 E1]; [split; [unfold in_range; lra|cbn; rewrite Z1; discriminate]|].
  destruct (C39_stored_partial _ _ _ _ _ _ O0 E1) as (S1 & S2 & S3 & _ & S5 & _ & (S6 & _) & S7 & _ & S8 & _).
  assert (O1 : object o1) by (assert (X := o_physical 1 1 (KNum 10) (1 / 10) o0 O0); rewrite E1 in X; exact X).
  destruct (set_calculation_props 5 100000 100000 o1) as [o [u|e]] eqn:E2; [|discriminate]. destruct u.
  destruct (C56_configured o1 o 5 100000 100000 O1 E2) as (K1 & K2 & K3 & K4 & LT). destruct (later_same _ _ LT) as ((L1 & L2 & L3) & L4 & L5 & L6 & L7 & L8 & L9). change (made_odd 5) with 5%Z in K1.
  exists o0, o1, o. split; [exact O0|]. split; [unfold pols; rewrite Z1; reflexivity|]. split; [exact E1|]. split; [exact E2|].
  intros rnd jv1 fuel su inst s theta HJ RS. unfold calculate_psf_kernel. rewrite L9, S5. cbn [negb andb use_numba]. cbv zeta. rewrite L1, L3, L4, L5, L6, L7, S1, S2, S3, S6, S7, S8, Z1, A1, K1.
  destruct (C32_airy_kernel rnd jv1 Vectorized fuel (1, 1)%Z (1 / 10) 10 1 1 (n_int_r o) (n_int_phi o) false 5 s RS) as (K & v & EK & [SQ HK] & VK); [lra|lra|lia|].
  exists K, (v 2 2)%Z. split; [destruct (get_psf_kernel _ _ _ _ _ _ _ _ _ _ _ _ _ _ s) as [s' [K'|e]]; cbn [snd] in EK |- *; [exact EK|discriminate]|].
  split; [apply HK; change (made_odd 5) with 5%Z; lia|]. change (made_odd 5) with 5%Z in *.
  assert (PO : polar (IZR (5 / 2 - 2)) (IZR (5 / 2 - 2)) 0 0). { unfold polar. assert (P := PI_RGT_0). change (5 / 2 - 2)%Z with 0%Z. rewrite cos_0. repeat split; lra. }
  rewrite (VK _ _ _ _ PO), Rmult_0_r. assert (B := C53_centre jv1 HJ). assert (T := tilt_integral 10 theta ltac:(lra)). apply Rabs_le_inv in B.
  set (D := diffraction_integral _ 0 theta) in *. assert (N2 : norm_nm 1 1 = 2) by (unfold norm_nm; cbn [Z.eqb]; replace (2 * (1 + 1) / (1 + 0)) with (2 * 2) by field; rewrite sqrt_square; lra).
  unfold accuracy. cbn [steep_r steep_t]. unfold slope. cbn [Z.mul Z.add Z.sub Z.abs Pos.mul Pos.add Z.opp Z.pos_sub]. rewrite N2, (Rabs_right 10), Rabs_R0 by lra.
  rewrite Rabs_right by lra. lra.
Qed.
Print Assumptions C56_after_read_refuted.
(** Hypotheses of C56_kernel_partial met: the tilt with its default number of points, after set_physical_props and set_calculation_props; accelerated or not. *)
Example C56_nonvacuous : exists o1 o, fresh tilt /\ set_physical_props 1 1 (KNum 10) (1 / 10) tilt = (o1, Ok Datatypes.tt) /\ later o1 o /\ kernel_size o = 25%Z /\ placement b64 (n_int_r o) /\ Forall compiled_well (pols tilt).
Proof.
  assert (F : fresh tilt) by (apply (f_new (COne (IPol (1, 1)%Z))); [cbn; split; [split; [lia|split; [lia|exists 0%Z; reflexivity]]|lia]|reflexivity]).
  destruct (proj2 (C39_accepted 1 1 (KNum 10) (1 / 10) tilt tilt_object)) as [o1 E1]; [split; [unfold in_range; lra|cbn; discriminate]|].
  assert (O1 : object o1) by (assert (X := o_physical 1 1 (KNum 10) (1 / 10) tilt tilt_object); rewrite E1 in X; exact X).
  destruct (set_calculation_props 24 320 300 o1) as [o [u|e]] eqn:E2; [|discriminate]. destruct u. destruct (C56_configured o1 o 24 320 300 O1 E2) as (K1 & K2 & K3 & K4 & LT).
  exists o1, o. split; [exact F|]. split; [exact E1|]. split; [exact LT|]. split; [exact K1|]. split; [right; rewrite K2; split; [reflexivity|lia]|].
  constructor; [|constructor]. split; cbn; lia.
Qed.
