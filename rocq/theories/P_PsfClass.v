(** Property theorems C38-C43 and the class part of C37: class ZernPSF. *)
From Coq Require Import Reals Lra Psatz.
From Flocq Require Import Core.
From Verif Require Import Py SpecIndex SpecRadial M_Index L_Index M_Init SpecInit L_Init M_Radial M_Coeffs SpecCoeffs M_Sum SpecSum M_Geo SpecGeo L_Sum M_Fit L_Fit M_Psf SpecPsf L_Psf L_PsfKernel L_PsfNodes P_Psf M_Numba L_Numba M_PsfClass SpecPsfClass L_PsfClass SpecCropK L_CropK L_PsfObj L_PsfSet.
Local Open Scope R_scope.

(** ** C38 *)
Lemma distinct_spec l : distinct_Z l = true <-> NoDup l.
Proof.
  induction l as [|x l IH]; cbn [distinct_Z]; [split; [constructor|reflexivity]|]. rewrite andb_true_iff, IH, negb_true_iff. split.
  - intros [E H]. constructor; [|exact H]. intros HI. assert (existsb (Z.eqb x) l = true) by (apply existsb_exists; exists x; split; [exact HI|apply Z.eqb_refl]). congruence.
  - intros H. inversion H; subst. split; [|assumption]. destruct (existsb (Z.eqb x) l) eqn:E; [|reflexivity]. apply existsb_exists in E. destruct E as (y & HI & E). apply Z.eqb_eq in E. subst y. contradiction.
Qed.
Lemma osa_inj p q : kok p -> kok q -> get_osa_index (fst p) (snd p) = get_osa_index (fst q) (snd q) -> p = q.
Proof.
  intros P Q E. assert (E1 := pol_of_osa_ok p P). assert (E2 := pol_of_osa_ok q Q). unfold osa_of in *. rewrite E in E1. congruence.
Qed.
Lemma osa_distinct ps : Forall kok ps -> NoDup (map (fun p => get_osa_index (fst p) (snd p)) ps) <-> NoDup ps.
Proof.
  intros F. split; [apply NoDup_map_inv|]. induction 1 as [|p ps H ND IH]; [constructor|]. inversion F; subst. cbn [map]. constructor; [|apply IH; assumption].
  intros HI. apply in_map_iff in HI. destruct HI as (q & E & HI). apply H. rewrite (osa_inj p q); [exact HI|assumption|rewrite Forall_forall in H3; apply H3, HI|symmetry; exact E].
Qed.
Lemma init_several l : (2 <= length l)%nat -> zernpsf_init (CSeq l) = match all_pols l with None => Raise ValueError | Some ps =>
   if distinct_Z (map (fun p => get_osa_index (fst p) (snd p)) ps) then Ok (with_airy (existsb is_piston ps) (with_polynomials ps (with_zpol None defaults))) else Raise ValueError end.
Proof. destruct l as [|x [|y l]]; cbn [length]; try lia. intros _. destruct x; reflexivity. Qed.

(** Sequences of two or more elements, and empty ones: accepted exactly if all elements are ZernPols with different orders; otherwise ValueError. *)
Theorem C38_sequence_partial : forall l, Forall proper_item l -> length l <> 1%nat ->
  (forall ps, l = map IPol ps -> ps <> [] -> NoDup ps -> exists o, zernpsf_init (CSeq l) = Ok o /\ zpol o = None /\ polynomials o = ps /\ (airy o = true <-> In (0, 0)%Z ps)) /\
  ((forall ps, l = map IPol ps -> ps <> [] -> ~ NoDup ps) -> zernpsf_init (CSeq l) = Raise ValueError).
Proof.
  intros l F L. assert (C : l = [] \/ (2 <= length l)%nat) by (destruct l as [|x [|y l]]; [left; reflexivity|exfalso; apply L; reflexivity|right; cbn; lia]).
  destruct C as [->|L2].
  { split; [intros ps E N; destruct ps; [contradiction|discriminate]|reflexivity]. }
  rewrite (init_several l L2). split.
  - intros ps -> NE ND. assert (K := proper_all ps F). rewrite (proj2 (all_pols_spec _ _) eq_refl).
    rewrite (proj2 (distinct_spec _)) by (apply osa_distinct; assumption). eexists. split; [reflexivity|]. split; [reflexivity|]. split; [reflexivity|].
    cbn [airy with_airy]. rewrite existsb_exists. split.
    + intros ([m n] & HI & E). unfold is_piston in E. cbn [fst snd] in E. apply andb_prop in E. destruct E as [E1 E2]. apply Z.eqb_eq in E1, E2. subst. exact HI.
    + intros HI. exists (0, 0)%Z. split; [exact HI|reflexivity].
  - intros H. destruct (all_pols l) as [ps|] eqn:E; [|reflexivity]. apply all_pols_spec in E. subst l.
    destruct (distinct_Z _) eqn:D; [|reflexivity]. exfalso. apply distinct_spec in D. apply osa_distinct in D; [|apply proper_all, F].
    apply (H ps); [reflexivity|destruct ps; [cbn in L2; lia|discriminate]|exact D].
Qed.
Print Assumptions C38_sequence_partial.
(** One ZernPol, alone or as the only element of a sequence. *)
Theorem C38_single_partial : forall p, exists o, zernpsf_init (COne (IPol p)) = Ok o /\ zernpsf_init (CSeq [IPol p]) = Ok o /\ zpol o = Some p /\ polynomials o = [] /\ (airy o = true <-> p = (0, 0)%Z).
Proof.
  intros [m n]. eexists. split; [reflexivity|]. split; [reflexivity|]. split; [reflexivity|]. split; [reflexivity|]. cbn [airy with_airy]. unfold is_piston. cbn [fst snd].
  rewrite andb_true_iff, !Z.eqb_eq. split; [intros [-> ->]; reflexivity|intros [=]; auto].
Qed.
Print Assumptions C38_single_partial.
(** An object that is neither a ZernPol nor a sequence is silently accepted (and works as the piston, without its Airy formula). *)
Theorem C38_other_accepted_refuted : exists o, zernpsf_init (COne IOther) = Ok o /\ zpol o = Some (0, 0)%Z /\ airy o = false.
Proof. eexists. split; [reflexivity|]. split; reflexivity. Qed.
Print Assumptions C38_other_accepted_refuted.
(** The only element of a sequence is not a ZernPol: AttributeError instead of ValueError. *)
Theorem C38_single_element_refuted : zernpsf_init (CSeq [IOther]) = Raise AttributeError.
Proof. reflexivity. Qed.
Print Assumptions C38_single_element_refuted.
Lemma valid22 : valid (-2) 2. Proof. split; [lia|split; [cbn; lia|exists 0%Z; cbn; lia]]. Qed.
Lemma valid20 : valid 0 2. Proof. split; [lia|split; [cbn; lia|exists 1%Z; cbn; lia]]. Qed.
Lemma valid00 : valid 0 0. Proof. split; [lia|split; [cbn; lia|exists 0%Z; cbn; lia]]. Qed.
Lemma valid11 : valid 1 1. Proof. split; [lia|split; [cbn; lia|exists 0%Z; cbn; lia]]. Qed.
Example C38_nonvacuous : Forall proper_item (map IPol [(-2, 2); (0, 0); (1, 1)]%Z) /\ NoDup [(-2, 2); (0, 0); (1, 1)]%Z /\ Forall proper_item [IPol (1, 1)%Z; IPol (1, 1)%Z; IOther].
Proof.
  split; [|split].
  - repeat constructor; cbn; try lia; [exists 0%Z|exists 0%Z|exists 0%Z]; lia.
  - repeat constructor; cbn; intuition discriminate.
  - repeat constructor; cbn; try lia; exists 0%Z; lia.
Qed.

(** ** C39 *)
(** Which calls are accepted, and what they store. *)
Theorem C39_accepted : forall na wl c px o, object o ->
  ((exists o', set_physical_props na wl c px o = (o', Ok Datatypes.tt)) <-> in_range na wl px /\ fits c o).
Proof.
  intros na wl c px o O. apply object_inv in O. split.
  - intros [o' E]. destruct (physical_success _ _ _ _ _ _ O E) as (A & B & _). split; assumption.
  - intros [A B]. destruct (physical_ok _ _ _ _ _ O A B) as (ks & _ & E). eauto.
Qed.
Print Assumptions C39_accepted.
Theorem C39_stored_partial : forall na wl c px o o', object o -> set_physical_props na wl c px o = (o', Ok Datatypes.tt) ->
  NA o' = na /\ wavelength o' = wl /\ pixel_size o' = px /\ pixel_size_nyquist o' = wl / (4 * na) /\ props_set o' = true /\ odd_positive (kernel_size o') /\
  match c with
  | KNum a => expansion_coeff o' = a /\ alpha o' = a / wl /\ coefficients o' = coefficients o /\ amplitudes o' = amplitudes o
  | KSeq l => match polynomials o with
              | [] => exists a, l = [a] /\ expansion_coeff o' = a /\ alpha o' = a / wl /\ coefficients o' = coefficients o /\ amplitudes o' = amplitudes o
              | _ => coefficients o' = Some l /\ amplitudes o' = Some (map (fun a => a / wl) l) /\ length l = length (polynomials o) /\
                     expansion_coeff o' = expansion_coeff o /\ alpha o' = alpha o
              end
  | KBad _ => False
  end /\
  zpol o' = zpol o /\ polynomials o' = polynomials o /\ airy o' = airy o /\ n_int_r o' = n_int_r o /\ n_int_phi o' = n_int_phi o /\ kern o' = kern o.
Proof.
  intros na wl c px o o' O E. apply object_inv in O. destruct (physical_success _ _ _ _ _ _ O E) as (IR & F & ks & OD & ->).
  assert (A : na <> 0) by (destruct IR; lra). unfold final. destruct c as [a|l|e]; cbn [fits] in F; [| |contradiction].
  - cbn. rewrite nyq_eq by exact A. repeat split; apply OD.
  - cbn [store]. change (polynomials (base na wl px o)) with (polynomials o). destruct F as [NE F]. destruct (polynomials o) as [|p ps] eqn:EP.
    + destruct F as [F|[F _]]; [destruct l; [contradiction|discriminate]|]. destruct l as [|a [|b l]]; try discriminate. cbn. rewrite nyq_eq by exact A. rewrite EP.
      repeat (split; [first [reflexivity|apply OD]|]). split; [exists a; repeat split|repeat split].
    + destruct F as [F|[_ F]]; [|discriminate]. cbn. rewrite nyq_eq by exact A. rewrite EP.
      repeat (split; [first [reflexivity|apply OD]|]). split; [|repeat split]. cbn in F. repeat split. exact F.
Qed.
Print Assumptions C39_stored_partial.
(** Ranges of the stored values after any history of calls. NA = 0 is possible (see C39_zero_na_refuted). *)
Theorem C39_ranges_partial : forall o, object o ->
  0 <= NA o <= 17 / 10 /\ 0 < wavelength o /\ 0 < pixel_size o /\ (20 <= n_int_r o)%Z /\ (36 <= n_int_phi o)%Z /\ 0 < k o.
Proof. intros o O. apply object_inv in O. destruct O as [_ _ _ _ [A B] C D E F G _]. repeat split; assumption. Qed.
Print Assumptions C39_ranges_partial.
(** The wavenumber is that of the wavelength stored before the call, so it is right only after a second call with the same wavelength. *)
Theorem C39_wavenumber_lags : forall na wl c px o o', object o -> set_physical_props na wl c px o = (o', Ok Datatypes.tt) ->
  k o' = 2 * PI / wavelength o /\ (k o' = 2 * PI / wavelength o' <-> wavelength o = wl).
Proof.
  intros na wl c px o o' O E. apply object_inv in O. destruct (physical_success _ _ _ _ _ _ O E) as (IR & F & ks & OD & ->).
  assert (K : k (final na wl c px ks o) = 2 * PI / wavelength o) by (unfold final; destruct c as [a|l|e]; [reflexivity| |reflexivity]; cbn [store]; destruct (polynomials (base na wl px o)); reflexivity).
  assert (W : wavelength (final na wl c px ks o) = wl) by (unfold final; destruct c as [a|l|e]; [reflexivity| |reflexivity]; cbn [store]; destruct (polynomials (base na wl px o)); reflexivity).
  split; [exact K|]. rewrite K, W. assert (P := PI_RGT_0). destruct IR as (_ & W0 & _). assert (W1 := i_wl o O). split; [|intros ->; reflexivity].
  intros H. assert (H' : / wavelength o = / wl) by (unfold Rdiv in H; apply Rmult_eq_reg_l in H; [exact H|lra]). rewrite <- (Rinv_inv (wavelength o)), H'. apply Rinv_inv.
Qed.
Print Assumptions C39_wavenumber_lags.
Definition tilt : zernpsf := with_airy false (with_zpol (Some (1, 1)%Z) defaults).
Lemma tilt_object : object tilt.
Proof. apply (o_new (COne (IPol (1, 1)%Z))); [split; [apply valid11|lia]|reflexivity]. Qed.
Theorem C39_wavenumber_refuted : exists o o', object o /\ set_physical_props 1 1 (KNum 0) (1 / 5) o = (o', Ok Datatypes.tt) /\ object o' /\ k o' <> 2 * PI / wavelength o'.
Proof.
  destruct (physical_ok 1 1 (KNum 0) (1 / 5) tilt (object_inv _ tilt_object)) as (ks & _ & E); [unfold in_range; lra|discriminate|].
  exists tilt, (final 1 1 (KNum 0) (1 / 5) ks tilt). split; [apply tilt_object|]. split; [exact E|]. split.
  - assert (O := o_physical 1 1 (KNum 0) (1 / 5) tilt tilt_object). rewrite E in O. exact O.
  - intros H. apply (proj2 (C39_wavenumber_lags _ _ _ _ _ _ tilt_object E)) in H. cbn in H. lra.
Qed.
Print Assumptions C39_wavenumber_refuted.
(** NA = 0 passes the check, is stored, and the call raises ZeroDivisionError. *)
Theorem C39_zero_na_refuted : forall wl c px o, object o -> 0 < wl -> exists o', set_physical_props 0 wl c px o = (o', Raise ZeroDivisionError) /\ NA o' = 0.
Proof.
  intros wl c px o O W. unfold set_physical_props. rewrite (Rltb_false 0 0), (Rltb_false (17 / 10) 0), (Rleb_false wl 0) by lra. cbn [orb]. cbv zeta.
  unfold pydiv. destruct (Req_EM_T 0 0); [|contradiction]. eexists. split; reflexivity.
Qed.
Print Assumptions C39_zero_na_refuted.
Example C39_nonvacuous : object tilt /\ in_range (95 / 100) (5 / 10) (1 / 10) /\ fits (KNum (1 / 3)) tilt /\ 17 / 10 > 0.
Proof. split; [apply tilt_object|]. unfold in_range. split; [|split; [discriminate|lra]]. split; [lra|split; [lra|]]. split; [lra|]. apply Rle_trans with (5 / 10 * / (4 * (95 / 100))); [|lra]. rewrite Rinv_mult. lra. Qed.

(** ** C40 *)
Theorem C40_size_odd_partial : forall o, object o -> odd_positive (kernel_size o).
Proof. intros o O. apply (i_size o (object_inv o O)). Qed.
Print Assumptions C40_size_odd_partial.
Lemma calc_kernel rnd jv1 fuel suppress normalized accelerated installed o s s' o' K : inv o ->
  calculate_psf_kernel rnd jv1 fuel suppress normalized accelerated installed o s = (s', (o', Ok K)) -> kern o' = K /\ kgood K /\ ((3 <= kernel_size o')%Z -> square K (kernel_size o')).
Proof.
  intros I E. unfold calculate_psf_kernel in E. set (o1 := if negb (props_set o) && negb suppress then with_kernel_size 19 o else o) in E.
  assert (I1 : inv o1) by (unfold o1; destruct (_ && _); [apply inv_size; [split; [lia|reflexivity]|exact I]|exact I]). clearbody o1. cbv zeta in E.
  assert (OS : odd_size (kernel_size o1) = kernel_size o1).
  { destruct (i_size o1 I1) as [_ O]. unfold odd_size. destruct (Z.eqb_spec (kernel_size o1 mod 2) 0) as [E0|_]; [|reflexivity].
    apply Z.odd_spec in O. destruct O as [q O]. lia. }
  assert (SH : forall K, kgood K -> ((3 <= kernel_size o1)%Z -> square K (odd_size (kernel_size o1))) -> kern (with_kern K o1) = K /\ kgood K /\ ((3 <= kernel_size (with_kern K o1))%Z -> square K (kernel_size (with_kern K o1)))).
  { intros K0 G S. rewrite OS in S. split; [reflexivity|split; [exact G|exact S]]. }
  destruct (zpol o1) as [p|] eqn:EZ.
  - destruct (use_numba accelerated installed).
    + destruct (get_psf_kernel_comp _ _ _ _ _ _ _ _ _ _ s) as [s1 [K1|e]] eqn:E1; [|discriminate]. injection E as _ <- <-. apply comp_shape in E1. apply SH; [apply E1|intros _; apply E1].
    + destruct (get_psf_kernel _ _ _ _ _ _ _ _ _ _ _ _ _ _ s) as [s1 [K1|e]] eqn:E1; [|discriminate]. injection E as _ <- <-. apply single_shape in E1. apply SH; apply E1.
  - assert (L := i_several o1 I1 EZ). destruct (polynomials o1) as [|p ps]; [cbn in L; lia|]. destruct (amplitudes o1) as [amps|]; [|discriminate].
    destruct (use_numba accelerated installed).
    + destruct (get_psf_kernel_comp _ _ _ _ _ _ _ _ _ _ s) as [s1 [K1|e]] eqn:E1; [|discriminate]. injection E as _ <- <-. apply comp_shape in E1. apply SH; [apply E1|intros _; apply E1].
    + destruct (get_psf_kernel_zerns _ _ _ _ _ _ _ _ _ _ _ s) as [s1 [K1|e]] eqn:E1; [|discriminate]. injection E as _ <- <-. apply zerns_shape in E1. apply SH; [apply E1|intros _; apply E1].
Qed.
(** The calculated kernel is stored, square of odd size with values >= 0 (or NaN), and of size kernel_size unless that is below 3. *)
Theorem C40_kernel_size_partial : forall rnd jv1 fuel suppress normalized accelerated installed o s s' o' K, object o ->
  calculate_psf_kernel rnd jv1 fuel suppress normalized accelerated installed o s = (s', (o', Ok K)) ->
  kern o' = K /\ (exists n, odd_positive n /\ square K n) /\ ((3 <= kernel_size o')%Z -> square K (kernel_size o')) /\
  (forall i j v, entry K i j = Some (Fin v) -> 0 <= v).
Proof.
  intros rnd jv1 fuel suppress normalized accelerated installed o s s' o' K O E. destruct (calc_kernel _ _ _ _ _ _ _ _ _ _ _ _ (object_inv o O) E) as (A & [B P] & C).
  split; [exact A|]. split; [exact B|]. split; [exact C|]. intros i j v. unfold entry. destruct (nth_error K (Z.to_nat i)) as [r|] eqn:ER; [|discriminate]. intros EX.
  rewrite Forall_forall in P. specialize (P r (nth_error_In _ _ ER)). rewrite Forall_forall in P. exact (P _ (nth_error_In _ _ EX)).
Qed.
Print Assumptions C40_kernel_size_partial.
Definition blur : zernpsf := with_airy false (with_zpol (Some (0, 2)%Z) defaults).
Lemma blur_object : object blur.
Proof. apply (o_new (COne (IPol (0, 2)%Z))); [split; [apply valid20|lia]|reflexivity]. Qed.
Lemma size_one : get_kernel_size (0, 2)%Z 5 (1 / 10 / 1) 1 (5 / 100) = Ok 1%Z.
Proof.
  unfold get_kernel_size. cbn [Z.eqb andb Z.abs]. unfold pol_multiplier, pol_size_ext. cbn [Z.abs Z.ltb Z.compare andb Z.sub Z.add Z.opp Z.pos_sub Pos.add Pos.succ].
  change ((2 + 1) / 2)%Z with 1%Z. change (2 <=? 3 / 2)%Z with false. cbn [bind].
  replace (Rabs (1 / 10 / 1)) with (1 / 10) by (rewrite Rabs_right; lra). rewrite (Rleb_false (5 / 10)), (Rleb_false (25 / 100)) by lra.
  rewrite pydiv_ok by lra. cbn [bind].
  assert (E : ZnearestE (125 / 100 * sqrt 2 * 1 / 5) = 0%Z).
  { assert (S0 := sqrt_pos 2). assert (S1 : sqrt 2 <= 3 / 2) by (apply Rsqr_incr_0_var; [rewrite Rsqr_sqrt; unfold Rsqr; lra|lra]). apply Znearest_imp. rewrite Rabs_right; lra. }
  rewrite E. reflexivity.
Qed.
(** An accepted call of set_physical_props can set the size 1 (defocus, NA = 0.05, pixel size on the Nyquist limit). *)
Theorem C40_size_one_refuted : exists o', set_physical_props (5 / 100) 1 (KNum (1 / 10)) 5 blur = (o', Ok Datatypes.tt) /\ kernel_size o' = 1%Z.
Proof.
  destruct (physical_num (5 / 100) 1 (1 / 10) 5 blur (0, 2)%Z (object_inv _ blur_object)) as (ks & EK & _ & E); [unfold in_range; lra|reflexivity|].
  rewrite size_one in EK. injection EK as <-. eexists. split; [exact E|reflexivity].
Qed.
Print Assumptions C40_size_one_refuted.
(** A new object calculated with suppress_warnings=True: the kernel is larger than the attribute kernel_size, which stays 1. *)
Definition airy_disk : zernpsf := with_airy true (with_zpol (Some (0, 0)%Z) defaults).
Lemma airy_object : object airy_disk.
Proof. apply (o_new (COne (IPol (0, 0)%Z))); [split; [apply valid00|lia]|reflexivity]. Qed.
Lemma airy_calculated rnd jv1 fuel s : reachable s -> exists s' o' n v,
  calculate_psf_kernel rnd jv1 fuel true false None false airy_disk s = (s', (o', Ok (map (map Fin) (table v n)))) /\ kernel_size o' = 1%Z /\ (3 <= n)%Z.
Proof.
  intros Hs. unfold calculate_psf_kernel. cbn [props_set negb andb use_numba zpol kernel_size airy pixel_size expansion_coeff wavelength NA n_int_r n_int_phi airy_disk with_airy with_zpol defaults].
  set (px := 98 / 100 * _). set (wl := 532 / 1000) in *. assert (PX : 0 < px) by (unfold px, wl; lra).
  destruct (kernel_size_ok (0, 0)%Z px (5 / 10 / wl) wl 1 valid00 PX ltac:(unfold wl; lra) ltac:(lra)) as (ks & EK & OD).
  assert (K3 : (3 <= ks)%Z).
  { revert EK. unfold get_kernel_size. cbn [Z.eqb andb]. unfold airy_multiplier. rewrite (Rltb_false 1 1), andb_false_r by lra. rewrite pydiv_ok by lra. cbn [bind].
    rewrite pysqrt_ok by lra. cbn [bind]. replace (1 / 1) with 1 by lra. rewrite sqrt_1. rewrite (Rleb_true (5 / 10)) by (unfold wl; rewrite Rabs_right; lra). rewrite pydiv_ok by lra. cbn [bind].
    set (q := _ / px). assert (Q : (0 <= ZnearestE q)%Z).
    { apply nearest_nonneg. unfold q, wl. assert (S := sqrt_pos (25 / 10 * Rabs (5 / 10 / (532 / 1000)))). apply Rmult_le_pos; [apply Rmult_le_pos; [apply Rmult_le_pos; lra|lra]|]. apply Rlt_le, Rinv_0_lt_compat, PX. }
    intros E. injection E as <-. destruct (_ =? 0)%Z; lia. }
  assert (SZ := odd_size_ge ks).
  assert (H : isok (get_psf_kernel rnd jv1 fuel (0, 0)%Z px (5 / 10) wl 1 320 300 false true 1 Vectorized) (finish false (table (fun i j => airy_ref_pattern jv1 (2 * PI / wl * 1 * px * pix_d (odd_size ks) i j)) (odd_size ks)))).
  { unfold get_psf_kernel. eapply isok_bind; [apply pydiv_isok; unfold wl; lra|]. eapply isok_bind; [apply pydiv_isok; unfold wl; lra|].
    eapply isok_bind; [apply isok_lift; exact EK|]. cbv beta zeta. replace (odd_size ks <? 0)%Z with false by (symmetry; apply Z.ltb_ge; lia).
    eapply isok_bind; [apply pydiv_isok; lra|]. eapply isok_bind; [|apply isok_ret]. apply (fill_isok (fun d _ => mret (airy_ref_pattern jv1 d)) (fun d _ => airy_ref_pattern jv1 d)). intros d t. apply isok_ret. }
  specialize (H s Hs). destruct H as [_ H]. destruct (get_psf_kernel _ _ _ _ _ _ _ _ _ _ _ _ _ _ s) as [s1 r]. cbn [snd] in H. subst r.
  eexists; eexists; exists (odd_size ks); eexists. split; [reflexivity|]. split; [reflexivity|lia].
Qed.
Theorem C40_size_mismatch_refuted : forall rnd jv1 fuel s, reachable s -> exists s' o' K n,
  calculate_psf_kernel rnd jv1 fuel true false None false airy_disk s = (s', (o', Ok K)) /\ kernel_size o' = 1%Z /\ square K n /\ (3 <= n)%Z.
Proof.
  intros rnd jv1 fuel s Hs. destruct (airy_calculated rnd jv1 fuel s Hs) as (s' & o' & n & v & E & K1 & N). exists s', o', (map (map Fin) (table v n)), n.
  split; [exact E|]. split; [exact K1|]. split; [|exact N]. rewrite table_map. apply table_square. lia.
Qed.
Print Assumptions C40_size_mismatch_refuted.
(** "Physical properties haven't been set before, the default ones will be used": not with several polynomials. *)
Theorem C40_unset_several_refuted : forall ps o rnd jv1 fuel suppress normalized accelerated installed s, (2 <= length ps)%nat -> zernpsf_init (CSeq (map IPol ps)) = Ok o ->
  exists o', calculate_psf_kernel rnd jv1 fuel suppress normalized accelerated installed o s = (s, (o', Raise TypeError)).
Proof.
  intros ps o rnd jv1 fuel suppress normalized accelerated installed s L E. rewrite init_several in E by (rewrite map_length; exact L).
  rewrite (proj2 (all_pols_spec _ _) eq_refl) in E. destruct (distinct_Z _); [|discriminate]. injection E as <-. destruct ps as [|p ps]; [cbn in L; lia|].
  unfold calculate_psf_kernel. destruct (_ && _); eexists; reflexivity.
Qed.
Print Assumptions C40_unset_several_refuted.
Example C40_nonvacuous : exists o, zernpsf_init (CSeq (map IPol [(-2, 2); (0, 0)]%Z)) = Ok o /\ object o /\ object airy_disk.
Proof.
  eexists. split; [reflexivity|]. split; [|apply airy_object]. apply (o_new (CSeq (map IPol [(-2, 2); (0, 0)]%Z))); [|reflexivity].
  repeat constructor; cbn; try lia; exists 0%Z; lia.
Qed.

(** ** C41 *)
(** Calls rejected for NA, wavelength or kernel size leave the object as it was. *)
Theorem C41_unchanged_partial : forall o,
  (forall na wl c px, na < 0 \/ 17 / 10 < na \/ wl <= 0 -> set_physical_props na wl c px o = (o, Raise ValueError)) /\
  (forall ks nr nphi, (ks < 3)%Z -> set_calculation_props ks nr nphi o = (o, Raise ValueError)).
Proof.
  intros o. split.
  - intros na wl c px H. unfold set_physical_props. destruct (Rltb na 0 || Rltb (17 / 10) na)%bool eqn:E; [reflexivity|]. apply orb_false_iff in E. destruct E as [E1 E2].
    apply Rltb_f in E1, E2. rewrite (Rleb_true wl 0) by lra. reflexivity.
  - intros ks nr nphi H. unfold set_calculation_props. replace (ks <? 3)%Z with true by lia. reflexivity.
Qed.
Print Assumptions C41_unchanged_partial.
(** Whatever the reason, a rejected call of set_physical_props keeps the kernel, the sizes, the polynomials and the flag, and a rejected call of set_calculation_props
    everything but the kernel size. *)
Theorem C41_kept_partial : forall o o' e, object o ->
  (forall na wl c px, set_physical_props na wl c px o = (o', Raise e) ->
     kern o' = kern o /\ kernel_size o' = kernel_size o /\ zpol o' = zpol o /\ polynomials o' = polynomials o /\ airy o' = airy o /\
     n_int_r o' = n_int_r o /\ n_int_phi o' = n_int_phi o /\ props_set o' = props_set o /\ expansion_coeff o' = expansion_coeff o /\ alpha o' = alpha o /\ amplitudes o' = amplitudes o) /\
  (forall ks nr nphi, set_calculation_props ks nr nphi o = (o', Raise e) -> e = ValueError /\ o' = with_kernel_size (kernel_size o') o).
Proof.
  intros o o' e O. apply object_inv in O. split.
  - intros na wl c px E. revert E. unfold set_physical_props. destruct (Rltb na 0 || Rltb (17 / 10) na)%bool eqn:E1; [intros [= <- _]; repeat split|]. apply orb_false_iff in E1. destruct E1 as [E1 E2].
    destruct (Rleb wl 0) eqn:E3; [intros [= <- _]; repeat split|]. apply Rltb_f in E1, E2. apply Rleb_f in E3. cbv zeta.
    unfold pydiv. destruct (Req_EM_T na 0); [intros [= <- _]; repeat split|]. destruct (Rleb px 0) eqn:E4; [intros [= <- _]; repeat split|].
    destruct (Rltb _ px) eqn:E5; [intros [= <- _]; repeat split|]. apply Rleb_f in E4. apply Rltb_f in E5. rewrite nyq_eq in E5 by assumption.
    assert (IR : in_range na wl px) by (split; [lra|split; lra]). fold (base na wl px o).
    destruct (Classical_Prop.classic (fits c (base na wl px o))) as [F|NF].
    + rewrite (coeff_fits c _ (inv_base na wl px o O IR) F). destruct (estimate_ok o c na wl px O IR F) as (ks & _ & ->). discriminate.
    + destruct (coeff_unfit c _ (inv_base na wl px o O IR) NF) as (o1 & e1 & EC). rewrite EC. intros [= <- _]. revert EC. unfold set_coeff. destruct c as [a|l|ee].
      * destruct (zpol (base na wl px o)); [discriminate|]. destruct (polynomials (base na wl px o)) as [|? [|]]; try discriminate; intros [= <- _]; repeat split.
      * destruct (_ =? _)%nat; [destruct l; [|discriminate]; intros [= <- _]; repeat split|]. destruct l as [|a [|b l]]; [intros [= <- _]; repeat split| |intros [= <- _]; repeat split].
        destruct (polynomials (base na wl px o)); [discriminate|]. intros [= <- _]; repeat split.
      * destruct (zpol (base na wl px o)); [intros [= <- _]; repeat split|]. destruct (polynomials (base na wl px o)) as [|? [|]]; intros [= <- _]; repeat split.
  - intros ks nr nphi. unfold set_calculation_props. destruct (ks <? 3)%Z; [intros [= <- <-]; split; [reflexivity|destruct o; reflexivity]|]. cbv zeta.
    destruct (nr <? 20)%Z; [intros [= <- <-]; split; reflexivity|]. destruct (nphi <? 36)%Z; [intros [= <- <-]; split; reflexivity|discriminate].
Qed.
Print Assumptions C41_kept_partial.
(** A call rejected because of the pixel size has already replaced NA, the wavelength and the wavenumber, but not alpha. *)
Theorem C41_pixel_size_refuted : forall na wl c px o, object o -> 0 < na <= 17 / 10 -> 0 < wl -> px <= 0 \/ wl / (4 * na) < px ->
  exists o', set_physical_props na wl c px o = (o', Raise ValueError) /\ NA o' = na /\ wavelength o' = wl /\ k o' = 2 * PI / wavelength o /\ pixel_size o' = pixel_size o /\ alpha o' = alpha o.
Proof.
  intros na wl c px o O A W H. unfold set_physical_props. rewrite (Rltb_false na 0), (Rltb_false (17 / 10) na), (Rleb_false wl 0) by lra. cbn [orb]. cbv zeta.
  rewrite pydiv_ok by lra. rewrite nyq_eq by lra. destruct (Rleb px 0) eqn:E; [eexists; repeat split|]. apply Rleb_f in E. rewrite (Rltb_true _ px) by lra. eexists. repeat split.
Qed.
Print Assumptions C41_pixel_size_refuted.
(** A call rejected because of the number of points has already replaced the kernel size. *)
Theorem C41_points_refuted : forall ks nr nphi o, (3 <= ks)%Z -> (nr < 20)%Z \/ (nphi < 36)%Z ->
  exists o', set_calculation_props ks nr nphi o = (o', Raise ValueError) /\ kernel_size o' = made_odd ks /\ n_int_r o' = n_int_r o /\ n_int_phi o' = n_int_phi o.
Proof.
  intros ks nr nphi o K H. unfold set_calculation_props. replace (ks <? 3)%Z with false by lia. cbv zeta. eexists. split; [|split].
  - destruct (nr <? 20)%Z eqn:E; [reflexivity|]. replace (nphi <? 36)%Z with true by lia. reflexivity.
  - cbn [kernel_size with_kernel_size]. exact (made_odd_eq ks).
  - split; reflexivity.
Qed.
Print Assumptions C41_points_refuted.
(** what accepted calls store *)
Theorem C41_calculation_accepted : forall ks nr nphi o, (3 <= ks)%Z -> (20 <= nr)%Z -> (36 <= nphi)%Z ->
  set_calculation_props ks nr nphi o = (with_n_int_phi nphi (with_n_int_r nr (with_kernel_size (made_odd ks) o)), Ok Datatypes.tt).
Proof. intros ks nr nphi o K R P. unfold set_calculation_props. replace (ks <? 3)%Z with false by lia. replace (nr <? 20)%Z with false by lia. replace (nphi <? 36)%Z with false by lia. rewrite <- made_odd_eq. reflexivity. Qed.
Print Assumptions C41_calculation_accepted.
Example C41_nonvacuous : object blur /\ (exists o', set_physical_props 1 1 (KNum 0) 1 blur = (o', Raise ValueError) /\ wavelength o' <> wavelength blur).
Proof.
  split; [apply blur_object|]. destruct (C41_pixel_size_refuted 1 1 (KNum 0) 1 blur blur_object ltac:(lra) ltac:(lra) ltac:(right; lra)) as (o' & E & _ & W & _).
  exists o'. split; [exact E|]. rewrite W. cbn. lra.
Qed.
