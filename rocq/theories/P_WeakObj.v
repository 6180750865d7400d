(** C74 for ZernPSF objects: whatever was done with the object before, the normalised kernel of a weak aberration is proper, and the
    object stores it. [rnd]: exact or binary64 positions of the quadrature nodes. *)
From Coq Require Import Reals Lra Lia List.
From Coquelicot Require Import Coquelicot.
From Verif Require Import Py SpecIndex SpecRadial M_Index M_Init SpecInit M_Radial M_Coeffs SpecCoeffs M_Sum SpecSum M_Geo SpecGeo L_Radial L_Sum M_Fit L_Fit M_Psf SpecPsf L_Psf L_PsfKernel L_PsfNodes L_Polar P_Psf
  M_Numba L_Numba P_Numba M_PsfClass SpecPsfClass L_PsfClass L_PsfObj L_PsfSet P_PsfClass P_PsfIO SpecDiff L_Ortho L_Conv L_Conv2 P_Conv P_Airy SpecPsfEnd P_PsfEnd SpecFloatPsf L_FPsf5 SpecWeak P_Weak.
Import ListNotations.
Local Open Scope R_scope.

(** the Airy pattern of the piston *)
Lemma airy_isok rnd jv1 mt fuel p px alpha wavelength NA n_r n_phi normalize ks : wavelength <> 0 -> NA <> 0 -> (3 <= ks)%Z ->
  isok (get_psf_kernel rnd jv1 fuel p px alpha wavelength NA n_r n_phi normalize true ks mt)
    (finish normalize (table (fun i j => airy_ref_pattern jv1 (2 * PI / wavelength * NA * px * pix_d (odd_size ks) i j)) (odd_size ks))).
Proof.
  intros W A S. pose proof (odd_size_ge ks) as Q. unfold get_psf_kernel. eapply isok_bind; [apply pydiv_isok, W|]. eapply isok_bind; [apply pydiv_isok, W|].
  cbv beta. replace (ks <? 3)%Z with false by (symmetry; apply Z.ltb_ge; lia). eapply isok_bind; [apply L_Fit.isok_lift; reflexivity|].
  cbv beta zeta. replace (odd_size ks <? 0)%Z with false by (symmetry; apply Z.ltb_ge; lia).
  eapply isok_bind; [apply pydiv_isok, A|]. eapply isok_bind; [|apply isok_ret].
  apply (fill_isok _ (fun d _ => airy_ref_pattern jv1 d)). intros; apply isok_ret.
Qed.
Lemma airy_proper jv1 size f : (forall x, jv1 x = bessel_J1 x) -> (1 <= size)%Z -> proper (finish true (table (fun i j => airy_ref_pattern jv1 (f * pix_d size i j)) size)) size.
Proof.
  intros HJ S. apply proper_of; [exact S| |].
  - intros i j. unfold airy_ref_pattern. cbv zeta. apply Rmult_le_pos; [lra|]. apply Rle_0_sqr.
  - unfold pix_d. rewrite Z.sub_diag. replace (0 * 0 + 0 * 0) with 0 by lra. rewrite sqrt_0, Rmult_0_r.
    pose proof (C53_centre jv1 HJ) as X. apply Rabs_le_between in X. lra.
Qed.

Theorem C74_object : forall rnd jv1 fuel o0 na wl c px o1 o suppress accelerated installed s,
  fresh o0 -> set_physical_props na wl c px o0 = (o1, Ok Datatypes.tt) -> later o1 o -> (3 <= kernel_size o)%Z ->
  (forall x, jv1 x = bessel_J1 x) -> (56 <= fuel)%nat -> placement rnd (n_int_r o) -> reachable s ->
  accelerated = Some false \/ installed = false \/ Forall compiled_well (pols o0) ->
  size_of (map (fun a => a / wl) (coeffs c)) (pols o0) < PI / 2 ->
  exists s' K, calculate_psf_kernel rnd jv1 fuel suppress true accelerated installed o s = (s', (with_kern K o, Ok K)) /\
    reachable s' /\ proper K (kernel_size o).
Proof.
  intros rnd jv1 fuel o0 na wl c px o1 o su ac inst s FR EP LT K3 HJ FU PL RS NU WK.
  destruct (fresh_flag o0 FR) as [FL1 FL2]. assert (O0 := fresh_object o0 FR). assert (O1 : object o1) by (assert (X := o_physical na wl c px o0 O0); rewrite EP in X; exact X).
  assert (O := later_object _ _ O1 LT). assert (IV := object_inv o O). assert (IV0 := object_inv o0 O0).
  destruct (C39_stored_partial na wl c px o0 o1 O0 EP) as (S1 & S2 & S3 & _ & S5 & _ & SC & S6 & S7 & S8 & _).
  destruct (proj1 (C39_accepted na wl c px o0 O0)) as [(R1 & R2 & R3) FT]; [eexists; exact EP|].
  destruct (later_same _ _ LT) as ((L1 & L2 & L3) & L4 & L5 & L6 & L7 & L8 & L9).
  assert (W0 : wl <> 0) by lra. assert (A0 : na <> 0) by lra. assert (NP := i_nphi o IV).
  assert (OS : odd_size (kernel_size o) = kernel_size o) by (unfold odd_size; destruct (i_size o IV) as [_ OD]; rewrite Zmod_odd, OD; reflexivity).
  set (ps := pols o0) in *. set (amps := map (fun a => a / wl) (coeffs c)) in *.
  assert (KOK : forall p, kok p -> okp fuel p) by (intros p [V B]; split; [exact V|lia]).
  assert (PSO : Forall (okp fuel) ps). { unfold ps, pols. assert (X := i_zpol o0 IV0). assert (Y := i_pols o0 IV0). destruct (zpol o0); [constructor; [apply KOK, X|constructor]|eapply Forall_impl; [apply KOK|exact Y]]. }
  assert (PSV : all_valid ps) by (eapply okp_valid; exact PSO).
  assert (TAB : proper (finish true (table (value_at rnd (n_int_r o) (n_int_phi o) wl na px (fun x phi => zsum amps ps x phi) (kernel_size o)) (kernel_size o))) (kernel_size o)).
  { apply weak_table; [exact PL|lia|lia|]. intros x phi X. eapply Rle_lt_trans; [apply zsum_bound; [exact PSV|exact X]|exact WK]. }
  assert (UN : use_numba ac inst = true -> Forall comp_ok ps).
  { intros X. destruct NU as [-> | [-> | NU]]; [discriminate|destruct ac as [[|]|]; discriminate|]. rewrite Forall_forall in *. intros q I. destruct (NU q I). split; [apply (PSO q I)|split; assumption]. }
  unfold calculate_psf_kernel. rewrite L9, S5. cbn [negb andb]. cbv zeta. rewrite L1, L2, L3, L4, L5, L6, L7, L8, S1, S2, S3, S6, S7, S8.
  assert (FIN : forall mk v, isok mk (finish true (table v (kernel_size o))) -> proper (finish true (table v (kernel_size o))) (kernel_size o) ->
     exists s' K, (let '(s', r) := mk s in match r with Ok K => (s', (with_kern K o, Ok K)) | Raise e => (s', (o, Raise e)) end) = (s', (with_kern K o, Ok K)) /\ reachable s' /\ proper K (kernel_size o)).
  { intros mk v IS H. destruct (IS s RS) as [RS' E]. destruct (mk s) as [s' [K|e]]; cbn [fst snd] in E, RS' |- *; [|discriminate]. injection E as ->. eexists s', _. split; [reflexivity|]. split; [exact RS'|exact H]. }
  assert (PG := placement_good _ _ PL). unfold ps, amps, pols in *. destruct (zpol o0) as [p|] eqn:EZ.
  - assert (EA : exists a, coeffs c = [a] /\ expansion_coeff o1 = a).
    { rewrite (FL1 ltac:(discriminate)) in SC. destruct c as [a|l|e]; [exists a; tauto| |contradiction]. destruct SC as (a & -> & E & _). exists a. split; [reflexivity|exact E]. }
    destruct EA as (a & EA & ->). rewrite EA in *. cbn [map] in *. assert (OK : okp fuel p) by (inversion PSO; assumption).
    destruct (use_numba ac inst) eqn:EN.
    + apply (FIN (get_psf_kernel_comp rnd (Single p) px (AFloat a) wl na (n_int_r o) (n_int_phi o) true (kernel_size o)) (value_at rnd (n_int_r o) (n_int_phi o) wl na px (fun x phi => zsum [a / wl] [p] x phi) (kernel_size o))); [|exact TAB].
      specialize (UN eq_refl). inversion UN; subst. eapply isok_ext; [|apply comp_single_isok; try assumption; lia]. rewrite OS. f_equal. apply table_ext. intros i j _ _. apply value_ext. intros. apply zsum_one.
    + destruct (airy o0) eqn:EF.
      * destruct (FL2 eq_refl) as [X|X]; [discriminate|]. injection X as ->.
        apply (FIN (get_psf_kernel rnd jv1 fuel (0, 0)%Z px a wl na (n_int_r o) (n_int_phi o) true true (kernel_size o) Vectorized) (fun i j => airy_ref_pattern jv1 (2 * PI / wl * na * px * pix_d (kernel_size o) i j))); [|apply airy_proper; [exact HJ|lia]].
        eapply isok_ext; [|apply airy_isok; [exact W0|exact A0|lia]]. rewrite OS. reflexivity.
      * apply (FIN (get_psf_kernel rnd jv1 fuel p px a wl na (n_int_r o) (n_int_phi o) true false (kernel_size o) Vectorized) (value_at rnd (n_int_r o) (n_int_phi o) wl na px (fun x phi => zsum [a / wl] [p] x phi) (kernel_size o))); [|exact TAB].
        eapply isok_ext; [|apply single_isok; try assumption; lia]. rewrite OS. f_equal. apply table_ext. intros i j _ _. apply value_ext. intros. apply zsum_one.
  - assert (L2' := i_several o0 IV0 EZ). destruct (polynomials o0) as [|p tl] eqn:EPS; [cbn in L2'; lia|].
    assert (EA : amplitudes o1 = Some (map (fun a => a / wl) (coeffs c)) /\ length (map (fun a => a / wl) (coeffs c)) = length (p :: tl)).
    { destruct c as [a|l|e]; [cbn [fits] in FT; congruence| |contradiction]. destruct SC as (_ & X & Y & _). split; [exact X|]. rewrite map_length. exact Y. }
    destruct EA as [EA LA]. rewrite EA. set (am := map (fun a => a / wl) (coeffs c)) in *. cbv beta iota.
    destruct (use_numba ac inst) eqn:EN.
    + apply (FIN (get_psf_kernel_comp rnd (Several (p :: tl)) px (AArr am) wl na (n_int_r o) (n_int_phi o) true (kernel_size o)) (value_at rnd (n_int_r o) (n_int_phi o) wl na px (fun x phi => zsum am (p :: tl) x phi) (kernel_size o))); [|exact TAB].
      eapply isok_ext; [|apply comp_list_isok; try assumption; try lia; [discriminate|apply UN; reflexivity]]. rewrite OS. reflexivity.
    + apply (FIN (get_psf_kernel_zerns rnd fuel (p :: tl) am px wl na (kernel_size o) (n_int_r o) (n_int_phi o) true) (value_at rnd (n_int_r o) (n_int_phi o) wl na px (fun x phi => zsum am (p :: tl) x phi) (kernel_size o))); [|exact TAB].
      eapply isok_ext; [|apply zerns_isok; try assumption; try lia; discriminate]. rewrite OS. reflexivity.
Qed.
Print Assumptions C74_object.
(** cropping keeps a kernel proper *)
Theorem C74_cropped : forall part o n, object o -> proper (kern o) n -> (1 <= n)%Z ->
  exists n', proper (kern (fst (crop_kernel part o))) n' /\ (1 <= n' <= n)%Z.
Proof.
  intros part o n O PR N. destruct (Z.le_gt_cases (kernel_size o) 3) as [S|S].
  { destruct (C42_other_cases part o O) as (C & _). rewrite (C S). exists n. split; [exact PR|lia]. }
  destruct (Rle_lt_dec part 0) as [P0|P0].
  { destruct (C42_other_cases part o O) as (_ & C & _). rewrite (C S (or_introl P0)). exists n. split; [exact PR|lia]. }
  destruct (Rlt_le_dec part (1 / 2)) as [P1|P1].
  2:{ destruct (C42_other_cases part o O) as (_ & C & _). rewrite (C S (or_intror P1)). exists n. split; [exact PR|lia]. }
  destruct PR as (SQ & E & a & b & Ha & Hb & ME).
  set (v := fun i j => match entry (kern o) i j with Some (Fin x) => x | _ => 0 end).
  assert (EV : forall i j, (0 <= i < n)%Z -> (0 <= j < n)%Z -> entry (kern o) i j = Some (Fin (v i j)) /\ 0 <= v i j <= 1).
  { intros i j Hi Hj. destruct (E i j Hi Hj) as (x & X & B). unfold v. rewrite X. split; [reflexivity|exact B]. }
  assert (V1 : v a b = 1) by (unfold v; rewrite ME; reflexivity).
  assert (HR : holds_raw (kern o) n v) by (split; [exact SQ|intros; apply EV; assumption]).
  destruct (C42_crop part o n v O HR S (conj P0 P1)) as (M & d & o' & EC & (MU & _) & D0 & (DP & _) & _ & _ & HR' & (_ & i & j & Hi & Hj & EM) & _).
  assert (M1 : 1 <= M) by (rewrite <- V1; apply MU; assumption).
  rewrite EC. cbn [fst]. exists (n - 2 * d)%Z. split; [|lia]. destruct HR' as (SQ' & E'). split; [exact SQ'|]. split.
  - intros x y Hx Hy. exists (v (x + d)%Z (y + d)%Z). split; [apply E'; assumption|]. apply EV; lia.
  - exists i, j. split; [exact Hi|]. split; [exact Hj|]. rewrite E' by assumption. do 2 f_equal.
    assert (B : 0 <= v (i + d)%Z (j + d)%Z <= 1) by (apply EV; lia). cbv beta in EM. lra.
Qed.
Print Assumptions C74_cropped.
(** Hypotheses of C74_object met: the tilt with half a wavelength, accelerated or not *)
Example C74_object_nonvacuous : exists o1 o, fresh tilt /\ set_physical_props 1 1 (KNum (1 / 2)) (1 / 10) tilt = (o1, Ok Datatypes.tt) /\ later o1 o /\ kernel_size o = 25%Z /\ placement b64 (n_int_r o) /\
  Forall compiled_well (pols tilt) /\ size_of (map (fun a => a / 1) (coeffs (KNum (1 / 2)))) (pols tilt) < PI / 2.
Proof.
  assert (F : fresh tilt) by (apply (f_new (COne (IPol (1, 1)%Z))); [cbn; split; [split; [lia|split; [lia|exists 0%Z; reflexivity]]|lia]|reflexivity]).
  destruct (proj2 (C39_accepted 1 1 (KNum (1 / 2)) (1 / 10) tilt tilt_object)) as [o1 E1]; [split; [unfold in_range; lra|cbn; discriminate]|].
  assert (O1 : object o1) by (assert (X := o_physical 1 1 (KNum (1 / 2)) (1 / 10) tilt tilt_object); rewrite E1 in X; exact X).
  destruct (set_calculation_props 24 320 300 o1) as [o [u|e]] eqn:E2; [|discriminate]. destruct u. destruct (C56_configured o1 o 24 320 300 O1 E2) as (K1 & K2 & K3 & K4 & LT).
  exists o1, o. split; [exact F|]. split; [exact E1|]. split; [exact LT|]. split; [exact K1|]. split; [right; rewrite K2; split; [reflexivity|lia]|].
  split; [constructor; [|constructor]; split; cbn; lia|]. unfold coeffs, pols, tilt. cbn [map zpol with_airy with_zpol defaults size_of].
  assert (NN : norm_nm 1 1 = 2) by (unfold norm_nm; cbn [Z.eqb]; replace (2 * (1 + 1) / (1 + 0)) with (2 * 2) by field; apply sqrt_square; lra).
  rewrite NN, Rabs_pos_eq by lra. pose proof PI2_3_2. lra.
Qed.
