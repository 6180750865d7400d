(** Property theorems C42, C43 and the class part of C37. *)
From Coq Require Import Reals Lra Psatz.
From Flocq Require Import Core.
From Verif Require Import Py SpecIndex SpecRadial M_Index L_Index M_Init SpecInit L_Init M_Radial M_Coeffs SpecCoeffs M_Sum SpecSum M_Geo SpecGeo L_Sum M_Fit L_Fit M_Psf SpecPsf L_Psf L_PsfKernel L_PsfNodes P_Psf M_Numba L_Numba M_PsfClass SpecPsfClass L_PsfClass SpecCropK L_CropK L_PsfObj L_PsfSet P_PsfClass.
Local Open Scope R_scope.

(** ** C42 *)
Lemma raw_good K n v : kgood K -> holds_raw K n v -> odd_positive n /\ forall i j, (0 <= i < n)%Z -> (0 <= j < n)%Z -> 0 <= v i j.
Proof.
  intros [(n' & O & L' & _) P] [[L _] H]. rewrite L in L'. subst n'. split; [exact O|]. intros i j Hi Hj. specialize (H i j Hi Hj). unfold entry in H.
  destruct (nth_error K (Z.to_nat i)) as [r|] eqn:ER; [|discriminate]. rewrite Forall_forall in P. specialize (P r (nth_error_In _ _ ER)). rewrite Forall_forall in P. exact (P _ (nth_error_In _ _ H)).
Qed.
Lemma holds_table v n : (0 <= n)%Z -> holds_raw (map (map Fin) (table v n)) n v.
Proof. intros N. rewrite table_map. split; [apply table_square, N|]. intros i j Hi Hj. apply (table_entry (fun i j => Fin (v i j))); assumption. Qed.
(** A kernel of numbers: [d] borders are removed on each side; the removed ones contain only values below part * maximum, the next one does not; the result is the
    centred square of odd size n - 2 d, with the same maximum; the size attribute follows; nothing else changes. *)
Theorem C42_crop : forall part o n v, object o -> holds_raw (kern o) n v -> (3 < kernel_size o)%Z -> 0 < part < 1 / 2 ->
  exists M d o', crop_kernel part o = (o', Ok Datatypes.tt) /\ is_max v n M /\ (0 <= d)%Z /\ odd_positive (n - 2 * d) /\
    (forall t, (0 <= t < d)%Z -> border_below v n t (part * M)) /\ ~ border_below v n d (part * M) /\
    holds_raw (kern o') (n - 2 * d) (fun i j => v (i + d) (j + d))%Z /\ is_max (fun i j => v (i + d) (j + d))%Z (n - 2 * d) M /\
    (kernel_size o = n -> kernel_size o' = n - 2 * d)%Z /\ (d = 0%Z -> o' = o) /\ (0 < d -> kernel_size o' = n - 2 * d)%Z /\
    o' = with_kernel_size (kernel_size o') (with_kern (kern o') o).
Proof.
  intros part o n v O H KS P. destruct (raw_good _ _ _ (i_kern o (object_inv o O)) H) as [OD V].
  destruct (crop_ok o n v part OD H V KS P) as (M & d & IM & D0 & OD' & DA & DN & E). exists M, d. eexists. split; [exact E|]. split; [exact IM|]. split; [exact D0|]. split; [exact OD'|].
  split; [exact DA|]. split; [exact DN|].
  assert (IM' : is_max (fun i j => v (i + d) (j + d))%Z (n - 2 * d) M).
  { destruct IM as [UB (i & j & Hi & Hj & EM)]. split; [intros a b Ha Hb; apply UB; lia|]. assert (M0 : 0 <= M) by (rewrite <- EM; apply V; assumption).
    assert (NB : ~ M < part * M) by nra.
    assert (A : (d <= i < n - d)%Z).
    { split; [destruct (Z_lt_ge_dec i d) as [L|G]; [|lia]; destruct (DA i ltac:(lia) j Hj) as (B & _)|destruct (Z_lt_ge_dec i (n - d)) as [L|G]; [lia|]; destruct (DA (n - 1 - i)%Z ltac:(lia) j Hj) as (_ & B & _);
        replace (n - 1 - (n - 1 - i))%Z with i in B by lia]; rewrite EM in B; contradiction. }
    assert (B : (d <= j < n - d)%Z).
    { split; [destruct (Z_lt_ge_dec j d) as [L|G]; [|lia]; destruct (DA j ltac:(lia) i Hi) as (_ & _ & B & _)|destruct (Z_lt_ge_dec j (n - d)) as [L|G]; [lia|]; destruct (DA (n - 1 - j)%Z ltac:(lia) i Hi) as (_ & _ & _ & B);
        replace (n - 1 - (n - 1 - j))%Z with j in B by lia]; rewrite EM in B; contradiction. }
    exists (i - d)%Z, (j - d)%Z. split; [lia|]. split; [lia|]. rewrite !Z.sub_add. exact EM. }
  destruct (Z.ltb_spec 0 d) as [D1|D1].
  - split; [apply holds_table; destruct OD'; lia|]. split; [exact IM'|]. split; [reflexivity|]. split; [lia|]. split; [reflexivity|]. destruct o; reflexivity.
  - assert (d = 0)%Z by lia. subst d. split; [|split; [exact IM'|split; [lia|split; [reflexivity|split; [lia|destruct o; reflexivity]]]]].
    destruct H as [SQ H]. replace (n - 2 * 0)%Z with n by lia. split; [exact SQ|]. intros i j Hi Hj. rewrite !Z.add_0_r. apply H; assumption.
Qed.
Print Assumptions C42_crop.
(** The other cases: a kernel with NaN and a kernel size of at most 3 stay as they are; a threshold outside (0, 0.5) is rejected. *)
Theorem C42_other_cases : forall part o, object o ->
  ((kernel_size o <= 3)%Z -> crop_kernel part o = (o, Ok Datatypes.tt)) /\
  ((3 < kernel_size o)%Z -> part <= 0 \/ 1 / 2 <= part -> crop_kernel part o = (o, Raise ValueError)) /\
  ((3 < kernel_size o)%Z -> 0 < part < 1 / 2 -> (exists i j, (0 <= i)%Z /\ (0 <= j)%Z /\ entry (kern o) i j = Some NaN) -> crop_kernel part o = (o, Ok Datatypes.tt)).
Proof.
  intros part o O. split; [|split].
  - intros H. unfold crop_kernel. replace (kernel_size o <=? 3)%Z with true by lia. reflexivity.
  - intros H P. unfold crop_kernel. replace (kernel_size o <=? 3)%Z with false by lia. cbv zeta. destruct (Rleb part 0) eqn:E; [reflexivity|]. apply Rleb_f in E. rewrite (Rleb_true (5 / 10) part) by lra. reflexivity.
  - intros H P (i & j & _ & _ & E). destruct (kgood_cases _ (i_kern o (object_inv o O))) as [(n & v & OD & HR & _)|N].
    + exfalso. unfold entry in E. destruct (nth_error (kern o) (Z.to_nat i)) as [r|] eqn:ER; [|discriminate].
      destruct HR as [[L FL] HR]. assert (LI : (Z.to_nat i < length (kern o))%nat) by (apply nth_error_Some; congruence). rewrite Forall_forall in FL. assert (LR := FL r (nth_error_In _ _ ER)).
      assert (LJ : (Z.to_nat j < length r)%nat) by (apply nth_error_Some; congruence). specialize (HR (Z.of_nat (Z.to_nat i)) (Z.of_nat (Z.to_nat j)) ltac:(lia) ltac:(lia)).
      unfold entry in HR. rewrite !Nat2Z.id, ER, E in HR. discriminate.
    + assert (C := crop_nan part o N). unfold crop_kernel in *. replace (kernel_size o <=? 3)%Z with false in * by lia. cbv zeta in *. rewrite (Rleb_false part 0), (Rleb_false (5 / 10) part) in * by lra.
      destruct (0 <? _)%Z; [cbn [fst] in C; rewrite C; reflexivity|reflexivity].
Qed.
Print Assumptions C42_other_cases.
(** Cropping again with the same threshold changes nothing. *)
Theorem C42_idempotent : forall part o n v, object o -> holds_raw (kern o) n v -> 0 < part < 1 / 2 ->
  crop_kernel part (fst (crop_kernel part o)) = (fst (crop_kernel part o), Ok Datatypes.tt).
Proof.
  intros part o n v O H P. destruct (Z.leb_spec (kernel_size o) 3) as [KS|KS].
  { rewrite (proj1 (C42_other_cases part o O) KS). cbn [fst]. apply (proj1 (C42_other_cases part o O) KS). }
  assert (O' := o_crop part o O). destruct (C42_crop part o n v O H KS P) as (M & d & o' & E & IM & D0 & OD & DA & DN & H' & IM' & _). rewrite E in *. cbn [fst] in *.
  destruct (Z.leb_spec (kernel_size o') 3) as [KS'|KS']; [apply (proj1 (C42_other_cases part o' O') KS')|].
  destruct (C42_crop part o' _ _ O' H' KS' P) as (M2 & d2 & o2 & E2 & IM2 & D2 & OD2 & DA2 & _ & _ & _ & _ & Z2 & _).
  assert (M2 = M) by (eapply is_max_unique; eassumption). subst M2.
  destruct (Z.eq_dec d2 0) as [Z0|NZ]; [rewrite (Z2 Z0) in E2; exact E2|]. exfalso. apply DN. specialize (DA2 0%Z ltac:(lia)). destruct OD as [OD _].
  intros t Ht. destruct (Z_lt_ge_dec t d) as [L|G].
  - destruct (DA t ltac:(lia) d ltac:(lia)) as (B1 & _ & B3 & _). destruct (DA t ltac:(lia) (n - 1 - d)%Z ltac:(lia)) as (B1' & _ & B3' & _). repeat split; assumption.
  - destruct (Z_lt_ge_dec t (n - d)) as [L|G'].
    + destruct (DA2 (t - d)%Z ltac:(lia)) as (B1 & B2 & B3 & B4). rewrite !Z.sub_add in *. cbn [Z.add] in *.
      replace (n - 2 * d - 1 - 0 + d)%Z with (n - 1 - d)%Z in * by lia. repeat split; assumption.
    + destruct (DA (n - 1 - t)%Z ltac:(lia) d ltac:(lia)) as (_ & B2 & _ & B4). destruct (DA (n - 1 - t)%Z ltac:(lia) (n - 1 - d)%Z ltac:(lia)) as (_ & B2' & _ & B4').
      replace (n - 1 - (n - 1 - t))%Z with t in * by lia. repeat split; assumption.
Qed.
Print Assumptions C42_idempotent.
Example C42_nonvacuous : exists o n v, object o /\ (3 <= n)%Z /\ holds_raw (kern o) n v /\ (3 < kernel_size o)%Z.
Proof.
  assert (R0 : reachable import_state) by constructor.
  destruct (airy_calculated (fun x => x) (fun x => x) 1000 import_state R0) as (s' & o' & n & v & E & _ & N).
  assert (O' : object o') by (assert (OO := o_calculate (fun x => x) (fun x => x) 1000 true false None false import_state airy_disk airy_object); rewrite E in OO; exact OO).
  assert (KE : kern o' = map (map Fin) (table v n)) by apply (calc_kernel _ _ _ _ _ _ _ _ _ _ _ _ (object_inv _ airy_object) E).
  exists (fst (set_calculation_props 5 320 300 o')), n, v. split; [apply o_calculation, O'|]. split; [exact N|]. split; [|reflexivity].
  change (holds_raw (kern o') n v). rewrite KE. apply holds_table. lia.
Qed.

(** ** C43 *)
Definition after_keys (o1 o : zernpsf) : zernpsf := with_n_int_phi (n_int_phi o1) (with_n_int_r (n_int_r o1) (with_kernel_size (kernel_size o1) (with_kern (kern o1) o))).
Lemma read_single o1 o p j : zpol o1 = Some p -> kok p -> saved_data o1 = Ok (Some j) ->
  read_json j o = set_physical_props (NA o1) (wavelength o1) (KNum (expansion_coeff o1)) (pixel_size o1) (with_zpol (Some p) (after_keys o1 o)).
Proof.
  intros EZ KP E. unfold saved_data in E. rewrite EZ in E. injection E as <-. unfold read_json. cbn [opt j_nphi j_nr j_size j_kernel]. fold (after_keys o1 o). unfold read_pols. cbn [j_pol j_pols].
  rewrite (pol_of_osa_ok p KP). reflexivity.
Qed.
Lemma read_several o1 o l j : zpol o1 = None -> Forall kok (polynomials o1) -> (2 <= length (polynomials o1))%nat -> coefficients o1 = Some l -> saved_data o1 = Ok (Some j) ->
  read_json j o = set_physical_props (NA o1) (wavelength o1) (KSeq l) (pixel_size o1) (with_airy false (with_zpol None (with_polynomials (polynomials o1) (after_keys o1 o)))).
Proof.
  intros EZ KP L EL E. unfold saved_data in E. rewrite EZ, EL in E. destruct (polynomials o1) as [|p ps] eqn:EP; [cbn in L; lia|]. injection E as <-.
  unfold read_json. cbn [opt j_nphi j_nr j_size j_kernel]. fold (after_keys o1 o). unfold read_pols. cbn [j_pol j_pols]. destruct ps as [|q ps]; [cbn in L; lia|].
  set (P := p :: q :: ps) in *. cbn [map]. change (osa_of p :: osa_of q :: map osa_of ps) with (map osa_of P). rewrite (pols_of_osa_ok P KP). reflexivity.
Qed.
Lemma inv_after o1 o : inv o1 -> inv o -> inv (after_keys o1 o).
Proof. intros [] []. constructor; assumption. Qed.
Lemma read_ok o1 o j : inv o1 -> configured o1 -> inv o -> saved_data o1 = Ok (Some j) -> exists ks o', odd_positive ks /\ read_json j o = (o', Ok Datatypes.tt) /\
  match zpol o1 with
  | Some p => o' = final (NA o1) (wavelength o1) (KNum (expansion_coeff o1)) (pixel_size o1) ks (with_zpol (Some p) (after_keys o1 o))
  | None => exists l, coefficients o1 = Some l /\ length l = length (polynomials o1) /\ polynomials o1 <> [] /\
      o' = final (NA o1) (wavelength o1) (KSeq l) (pixel_size o1) ks (with_airy false (with_zpol None (with_polynomials (polynomials o1) (after_keys o1 o))))
  end.
Proof.
  intros I1 [IR CF] I E. assert (IA := inv_after o1 o I1 I). destruct (zpol o1) as [p|] eqn:EZ.
  - assert (KP := i_zpol o1 I1). rewrite EZ in KP. rewrite (read_single o1 o p j EZ KP E).
    destruct (physical_ok (NA o1) (wavelength o1) (KNum (expansion_coeff o1)) (pixel_size o1) (with_zpol (Some p) (after_keys o1 o))) as (ks & OD & E');
      [destruct IA; constructor; try assumption; discriminate|exact IR|discriminate|]. exists ks. eexists. split; [exact OD|]. split; [exact E'|reflexivity].
  - destruct (CF eq_refl) as (l & EL & LL). assert (L := i_several o1 I1 EZ). rewrite (read_several o1 o l j EZ (i_pols o1 I1) L EL E).
    destruct (physical_ok (NA o1) (wavelength o1) (KSeq l) (pixel_size o1) (with_airy false (with_zpol None (with_polynomials (polynomials o1) (after_keys o1 o))))) as (ks & OD & E').
    + assert (KP := i_pols o1 I1). destruct IA. apply inv_airy. constructor; try assumption; [exact Logic.I|intros _; exact L].
    + exact IR.
    + split; [destruct l; [cbn in LL; lia|discriminate]|]. left. exact LL.
    + exists ks. eexists. split; [exact OD|]. split; [exact E'|]. exists l. repeat split; try assumption. destruct (polynomials o1); [cbn in L; lia|discriminate].
Qed.
(** Saving and reading: kernel, physical properties, integration points, polynomial(s) and coefficient(s) are restored in whatever object reads the file. Not included: kernel_size, airy. *)
Theorem C43_round_trip_partial : forall o1 o, object o1 -> configured o1 -> object o ->
  exists j o', saved_data o1 = Ok (Some j) /\ read_json j o = (o', Ok Datatypes.tt) /\
    kern o' = kern o1 /\ NA o' = NA o1 /\ wavelength o' = wavelength o1 /\ pixel_size o' = pixel_size o1 /\ pixel_size_nyquist o' = wavelength o1 / (4 * NA o1) /\
    n_int_r o' = n_int_r o1 /\ n_int_phi o' = n_int_phi o1 /\ props_set o' = true /\ zpol o' = zpol o1 /\
    (forall p, zpol o1 = Some p -> expansion_coeff o' = expansion_coeff o1 /\ alpha o' = expansion_coeff o1 / wavelength o1) /\
    (zpol o1 = None -> polynomials o' = polynomials o1 /\ coefficients o' = coefficients o1 /\ exists l, coefficients o1 = Some l /\ amplitudes o' = Some (map (fun a => a / wavelength o1) l)).
Proof.
  intros o1 o O1 C O. apply object_inv in O1, O. assert (S : exists j, saved_data o1 = Ok (Some j)).
  { unfold saved_data. destruct (zpol o1) eqn:EZ; [eexists; reflexivity|]. assert (L := i_several o1 O1 EZ). destruct (polynomials o1) as [|p0 ps0]; [cbn in L; lia|].
    destruct C as [_ C]. destruct (C EZ) as (l & -> & _). eexists; reflexivity. }
  destruct S as [j E]. destruct (read_ok o1 o j O1 C O E) as (ks & o' & OD & ER & F). exists j, o'. split; [exact E|]. split; [exact ER|].
  assert (NE : NA o1 <> 0) by (destruct C as [[C _] _]; lra).
  destruct (zpol o1) as [p|] eqn:EZ.
  - subst o'. set (ob := with_zpol (Some p) (after_keys o1 o)).
    destruct (final_common (NA o1) (wavelength o1) (KNum (expansion_coeff o1)) (pixel_size o1) ks ob) as (H1 & H2 & H3 & H4 & H5 & H6 & H7 & H8 & H9 & _).
    destruct (final_num (NA o1) (wavelength o1) (expansion_coeff o1) (pixel_size o1) ks ob) as (G1 & G2 & _). rewrite nyq_eq in H5 by exact NE.
    repeat (split; [assumption|]). split; [|discriminate]. intros q _. split; assumption.
  - destruct F as (l & EL & LL & NP & ->). set (ob := with_airy false _).
    destruct (final_common (NA o1) (wavelength o1) (KSeq l) (pixel_size o1) ks ob) as (H1 & H2 & H3 & H4 & H5 & H6 & H7 & H8 & H9 & H10 & _).
    destruct (final_seq (NA o1) (wavelength o1) l (pixel_size o1) ks ob NP) as (G1 & G2 & _). rewrite nyq_eq in H5 by exact NE. rewrite EL.
    repeat (split; [assumption|]). split; [discriminate|].
    intros _. split; [exact H10|]. split; [exact G1|]. exists l. split; [reflexivity|exact G2].
Qed.
Print Assumptions C43_round_trip_partial.
(** The written file is what is read afterwards, unless a file of this name exists and overwrite is False. *)
Theorem C43_written_partial : forall show overwrite o fs j, saved_data o = Ok (Some j) -> overwrite = true \/ fs (file_name show o) = None ->
  exists fs', save_json show overwrite o fs = Ok (fs', Some (file_name show o)) /\ fs' (file_name show o) = Some j /\ (forall n, n <> file_name show o -> fs' n = fs n).
Proof.
  intros show overwrite o fs j E H. unfold save_json. rewrite E. cbn [bind]. eexists. split; [reflexivity|].
  assert (W : write fs (file_name show o) j (file_name show o) = Some j) by (unfold write; destruct (fname_eq_dec _ _); [reflexivity|contradiction]).
  assert (W' : forall n, n <> file_name show o -> write fs (file_name show o) j n = fs n) by (intros n N; unfold write; destruct (fname_eq_dec _ _); [contradiction|reflexivity]).
  destruct (fs (file_name show o)) eqn:EF; [|split; assumption]. destruct H as [->|H]; [split; assumption|discriminate].
Qed.
Print Assumptions C43_written_partial.
(** Different polynomials, or one polynomial with another coefficient, are saved under different names: such a file is not changed by the other object. *)
Theorem C43_names : forall show o1 o2, object o1 -> object o2 -> file_name show o1 = file_name show o2 ->
  zpol o1 = zpol o2 /\ (forall p, zpol o1 = Some p -> expansion_coeff o1 = expansion_coeff o2) /\ (zpol o1 = None -> polynomials o1 = polynomials o2).
Proof.
  intros show o1 o2 O1 O2. pose proof (object_inv o1 O1) as I1. pose proof (object_inv o2 O2) as I2. unfold file_name.
  destruct (zpol o1) as [p|] eqn:E1, (zpol o2) as [q|] eqn:E2; intros E; try discriminate.
  - injection E as -> E. split; [reflexivity|]. split; [intros; exact E|discriminate].
  - split; [reflexivity|]. split; [discriminate|]. intros _. pose proof (i_pols _ I1) as F1. pose proof (i_pols _ I2) as F2. assert (M : map osa_of (polynomials o1) = map osa_of (polynomials o2)) by congruence. clear E.
    revert F1 F2 M. generalize (polynomials o2). induction (polynomials o1) as [|x l IH]; intros [|y l'] F1 F2 M; try discriminate; [reflexivity|].
    cbn [map] in M. inversion F1; inversion F2; subst. injection M as M1 M2. f_equal; [apply osa_inj; assumption|apply IH; assumption].
Qed.
Print Assumptions C43_names.
Theorem C43_other_file : forall show overwrite o1 o2 fs fs' r, object o1 -> object o2 -> save_json show overwrite o2 fs = Ok (fs', r) ->
  zpol o1 <> zpol o2 \/ zpol o1 = None /\ polynomials o1 <> polynomials o2 \/ (exists p, zpol o1 = Some p) /\ expansion_coeff o1 <> expansion_coeff o2 ->
  fs' (file_name show o1) = fs (file_name show o1).
Proof.
  intros show overwrite o1 o2 fs fs' r O1 O2 S D. assert (N : file_name show o1 <> file_name show o2).
  { intros E. destruct (C43_names show o1 o2 O1 O2 E) as (A & B & C). destruct D as [D|[[D1 D2]|[(p & D1) D2]]]; [exact (D A)|exact (D2 (C D1))|exact (D2 (B p D1))]. }
  unfold save_json in S. destruct (saved_data o2) as [[j|]|e]; cbn [bind] in S; [|congruence|discriminate].
  assert (W : write fs (file_name show o2) j (file_name show o1) = fs (file_name show o1)) by (unfold write; destruct (fname_eq_dec _ _); [contradiction|reflexivity]).
  destruct (fs (file_name show o2)), overwrite; injection S as <- _; congruence.
Qed.
Print Assumptions C43_other_file.
(** objects are configured after every accepted call of set_physical_props, until the next rejected one *)
Theorem C43_configured : forall o, object o ->
  (forall na wl c px o', set_physical_props na wl c px o = (o', Ok Datatypes.tt) -> configured o') /\
  (configured o -> (forall ks nr nphi, configured (fst (set_calculation_props ks nr nphi o))) /\ (forall part, configured (fst (crop_kernel part o))) /\
     (forall rnd jv1 fuel su nm ac inst s, configured (fst (snd (calculate_psf_kernel rnd jv1 fuel su nm ac inst o s)))) /\
     (forall rnd fuel w nm s, configured (fst (snd (get_kernel_parallel rnd fuel w nm o s))))).
Proof.
  intros o O. apply object_inv in O. split.
  - intros na wl c px o' E. destruct (physical_success _ _ _ _ _ _ O E) as (IR & F & ks & OD & ->). unfold final. destruct c as [a|l|e]; cbn [fits] in F; [| |contradiction].
    + split; [exact IR|]. intros Z. contradiction.
    + cbn [store]. change (polynomials (base na wl px o)) with (polynomials o). destruct (polynomials o) as [|p ps] eqn:EP.
      * split; [exact IR|]. intros Z. assert (L := i_several o O Z). rewrite EP in L. cbn in L. lia.
      * split; [exact IR|]. intros Z. exists l. cbn. rewrite EP. destruct F as [_ [F|[_ F]]]; [|discriminate]. split; [reflexivity|exact F].
  - intros C. assert (CS : forall o', NA o' = NA o -> wavelength o' = wavelength o -> pixel_size o' = pixel_size o -> zpol o' = zpol o -> coefficients o' = coefficients o -> polynomials o' = polynomials o -> configured o').
    { intros o' H1 H2 H3 H4 H5 H6. unfold configured. rewrite H1, H2, H3, H4, H5, H6. exact C. }
    split; [|split; [|split]].
    + intros ks nr nphi. unfold set_calculation_props. destruct (ks <? 3)%Z; [exact C|]. cbv zeta. destruct (nr <? 20)%Z; [apply CS; reflexivity|]. destruct (nphi <? 36)%Z; apply CS; reflexivity.
    + intros part. unfold crop_kernel. destruct (_ <=? 3)%Z; [exact C|]. destruct (Rleb part 0); [exact C|]. destruct (Rleb (5 / 10) part); [exact C|]. cbv zeta. destruct (0 <? _)%Z; [apply CS; reflexivity|exact C].
    + intros rnd jv1 fuel su nm ac inst s. unfold calculate_psf_kernel. cbv zeta. set (o1 := if negb (props_set o) && negb su then with_kernel_size 19 o else o).
      assert (E1 : forall K, configured (with_kern K o1) /\ configured o1) by (intros K; unfold o1; destruct (_ && _); (split; [apply CS; reflexivity|first [exact C|apply CS; reflexivity]])).
      match goal with |- configured (fst (snd (match ?x with (_, _) => _ end))) => destruct x as [s' [K|e]] end; [apply (E1 K)|apply (E1 [])].
    + intros rnd fuel w nm s. unfold get_kernel_parallel. destruct (zpol o) eqn:EZ; [|apply CS; try reflexivity; exact EZ]. destruct (_ <? 3)%Z; [exact C|].
      destruct (fill_kernel _ _ _ _ _ s) as [s' [l|]]; [apply CS; try reflexivity; exact EZ|exact C].
Qed.
Print Assumptions C43_configured.
(** The kernel size in the file is replaced by the one estimated from the physical properties. *)
Theorem C43_kernel_size_estimated : forall o1 o p j o', object o1 -> configured o1 -> object o -> zpol o1 = Some p -> saved_data o1 = Ok (Some j) -> read_json j o = (o', Ok Datatypes.tt) ->
  get_kernel_size p (pixel_size o1) (expansion_coeff o1 / wavelength o1) (wavelength o1) (NA o1) = Ok (kernel_size o').
Proof.
  intros o1 o p j o' O1 C O EZ E ER. apply object_inv in O1, O. assert (KP := i_zpol o1 O1). rewrite EZ in KP. rewrite (read_single o1 o p j EZ KP E) in ER.
  destruct (physical_num (NA o1) (wavelength o1) (expansion_coeff o1) (pixel_size o1) (with_zpol (Some p) (after_keys o1 o)) p) as (ks & EK & _ & E');
    [assert (IA := inv_after o1 o O1 O); destruct IA; constructor; try assumption; discriminate|apply C|reflexivity|].
  rewrite E' in ER. injection ER as <-. destruct (final_common (NA o1) (wavelength o1) (KNum (expansion_coeff o1)) (pixel_size o1) ks (with_zpol (Some p) (after_keys o1 o))) as (_ & _ & _ & _ & _ & _ & _ & _ & _ & _ & _ & H & _).
  rewrite H. exact EK.
Qed.
Print Assumptions C43_kernel_size_estimated.
Theorem C43_kernel_size_refuted : exists o1 j o', object o1 /\ configured o1 /\ kernel_size o1 = 21%Z /\ saved_data o1 = Ok (Some j) /\ read_json j blur = (o', Ok Datatypes.tt) /\ kernel_size o' = 1%Z.
Proof.
  destruct (physical_num (5 / 100) 1 (1 / 10) 5 blur (0, 2)%Z (object_inv _ blur_object)) as (ks & EK & _ & E0); [unfold in_range; lra|reflexivity|].
  set (o0 := final (5 / 100) 1 (KNum (1 / 10)) 5 ks blur) in *.
  assert (O0 : object o0) by (assert (H := o_physical (5 / 100) 1 (KNum (1 / 10)) 5 blur blur_object); rewrite E0 in H; exact H).
  assert (C0 := proj1 (C43_configured blur blur_object) _ _ _ _ _ E0).
  destruct (final_common (5 / 100) 1 (KNum (1 / 10)) 5 ks blur) as (_ & F1 & F2 & F3 & _ & _ & _ & _ & F4 & _). destruct (final_num (5 / 100) 1 (1 / 10) 5 ks blur) as (F5 & _). fold o0 in F1, F2, F3, F4, F5. clearbody o0.
  assert (O1 := o_calculation 21 320 300 o0 O0). assert (C1 := proj1 (proj2 (C43_configured o0 O0) C0) 21%Z 320%Z 300%Z).
  assert (S1 : fst (set_calculation_props 21 320 300 o0) = with_n_int_phi 300 (with_n_int_r 320 (with_kernel_size 21 o0))) by reflexivity. rewrite S1 in O1, C1.
  set (o1 := with_n_int_phi 300 (with_n_int_r 320 (with_kernel_size 21 o0))) in *.
  destruct (C43_round_trip_partial o1 blur O1 C1 blur_object) as (j & o' & E & ER & _). exists o1, j, o'. split; [exact O1|]. split; [exact C1|]. split; [reflexivity|]. split; [exact E|]. split; [exact ER|].
  assert (H := C43_kernel_size_estimated o1 blur (0, 2)%Z j o' O1 C1 blur_object F4 E ER).
  change (pixel_size o1) with (pixel_size o0) in H. change (wavelength o1) with (wavelength o0) in H. change (NA o1) with (NA o0) in H. change (expansion_coeff o1) with (expansion_coeff o0) in H.
  rewrite F1, F2, F3, F5, size_one in H. injection H as H. symmetry. exact H.
Qed.
Print Assumptions C43_kernel_size_refuted.
(** Reading a file of one polynomial leaves the Airy flag of the reading object. With the flag set and no acceleration the calculated kernel does not depend on the polynomial. *)
Theorem C43_airy_flag_kept : forall o1 o p, object o1 -> configured o1 -> object o -> zpol o1 = Some p ->
  exists j o', saved_data o1 = Ok (Some j) /\ read_json j o = (o', Ok Datatypes.tt) /\ zpol o' = Some p /\ airy o' = airy o.
Proof.
  intros o1 o p O1 C O EZ. destruct (C43_round_trip_partial o1 o O1 C O) as (j & o' & E & ER & _). exists j, o'. split; [exact E|]. split; [exact ER|].
  destruct (read_ok o1 o j (object_inv _ O1) C (object_inv _ O) E) as (ks & o2 & _ & ER2 & F). rewrite ER in ER2. injection ER2 as <-. rewrite EZ in F.
  destruct (final_common (NA o1) (wavelength o1) (KNum (expansion_coeff o1)) (pixel_size o1) ks (with_zpol (Some p) (after_keys o1 o))) as (_ & _ & _ & _ & _ & _ & _ & _ & H9 & _ & H11 & _).
  subst o'. rewrite H9, H11. split; reflexivity.
Qed.
Print Assumptions C43_airy_flag_kept.
Theorem C43_airy_flag_refuted : exists j o', saved_data tilt = Ok (Some j) /\ read_json j airy_disk = (o', Ok Datatypes.tt) /\ zpol o' = Some (1, 1)%Z /\ airy o' = true /\
  (forall rnd jv1 fuel suppress normalized installed q s, (3 <= kernel_size o')%Z ->
    snd (snd (calculate_psf_kernel rnd jv1 fuel suppress normalized (Some false) installed o' s)) =
    snd (snd (calculate_psf_kernel rnd jv1 fuel suppress normalized (Some false) installed (with_zpol (Some q) o') s))).
Proof.
  assert (C : configured tilt) by (split; [cbn; unfold in_range; lra|discriminate]).
  destruct (C43_airy_flag_kept tilt airy_disk (1, 1)%Z tilt_object C airy_object eq_refl) as (j & o' & E & ER & Z1 & A1). exists j, o'. split; [exact E|]. split; [exact ER|]. split; [exact Z1|]. split; [exact A1|].
  assert (PS : props_set o' = true).
  { destruct (C43_round_trip_partial tilt airy_disk tilt_object C airy_object) as (j2 & o2 & E2 & ER2 & _ & _ & _ & _ & _ & _ & _ & P & _). rewrite E in E2. injection E2 as <-. rewrite ER in ER2. injection ER2 as <-. exact P. }
  change (airy airy_disk) with true in A1. clear E ER.
  intros rnd jv1 fuel suppress normalized installed q s K3. unfold calculate_psf_kernel. cbv zeta.
  assert (PS' : props_set (with_zpol (Some q) o') = true) by exact PS. rewrite PS, PS'. cbn [negb andb use_numba]. rewrite Z1.
  change (zpol (with_zpol (Some q) o')) with (Some q). cbv iota beta.
  change (airy (with_zpol (Some q) o')) with (airy o'). rewrite A1. change (kernel_size (with_zpol (Some q) o')) with (kernel_size o').
  change (pixel_size (with_zpol (Some q) o')) with (pixel_size o'). change (expansion_coeff (with_zpol (Some q) o')) with (expansion_coeff o'). change (wavelength (with_zpol (Some q) o')) with (wavelength o').
  change (NA (with_zpol (Some q) o')) with (NA o'). change (n_int_r (with_zpol (Some q) o')) with (n_int_r o'). change (n_int_phi (with_zpol (Some q) o')) with (n_int_phi o').
  assert (G : forall p, get_psf_kernel rnd jv1 fuel p (pixel_size o') (expansion_coeff o') (wavelength o') (NA o') (n_int_r o') (n_int_phi o') normalized true (kernel_size o') Vectorized s =
     get_psf_kernel rnd jv1 fuel q (pixel_size o') (expansion_coeff o') (wavelength o') (NA o') (n_int_r o') (n_int_phi o') normalized true (kernel_size o') Vectorized s).
  { intros p. unfold get_psf_kernel. replace (kernel_size o' <? 3)%Z with false by lia. reflexivity. }
  rewrite (G (1, 1)%Z). destruct (get_psf_kernel _ _ _ _ _ _ _ _ _ _ _ _ _ _ s) as [s' [K|e]]; reflexivity.
Qed.
Print Assumptions C43_airy_flag_refuted.
(** The file name is made of the polynomial(s) and the coefficient(s) only: saving with the default overwrite=False after a change of other properties keeps the old file,
    and reading it brings the old properties back. *)
Theorem C43_stale_file_refuted : exists show o1 o2 fs1 fs2 n o', object o1 /\ configured o1 /\ object o2 /\ configured o2 /\
  save_json show false o1 (fun _ => None) = Ok (fs1, Some n) /\ save_json show false o2 fs1 = Ok (fs2, Some n) /\
  match fs2 n with Some j => read_json j o2 = (o', Ok Datatypes.tt) | None => False end /\ NA o' <> NA o2.
Proof.
  assert (C : configured tilt) by (split; [cbn; unfold in_range; lra|discriminate]).
  destruct (physical_num (5 / 10) (532 / 1000) (5 / 10) (1 / 10) tilt (1, 1)%Z (object_inv _ tilt_object)) as (ks & _ & _ & E2); [unfold in_range; lra|reflexivity|].
  set (o2 := final _ _ _ _ ks tilt) in *.
  assert (O2 : object o2) by (assert (H := o_physical (5 / 10) (532 / 1000) (KNum (5 / 10)) (1 / 10) tilt tilt_object); rewrite E2 in H; exact H).
  assert (C2 := proj1 (C43_configured tilt tilt_object) _ _ _ _ _ E2).
  destruct (final_common (5 / 10) (532 / 1000) (KNum (5 / 10)) (1 / 10) ks tilt) as (_ & F1 & _ & _ & _ & _ & _ & _ & F4 & _). destruct (final_num (5 / 10) (532 / 1000) (5 / 10) (1 / 10) ks tilt) as (F5 & _). fold o2 in F1, F4, F5. clearbody o2.
  set (show := fun _ : list R => ""%string).
  assert (N : file_name show o2 = file_name show tilt) by (unfold file_name; rewrite F4, F5; reflexivity).
  destruct (C43_round_trip_partial tilt o2 tilt_object C O2) as (j & o' & E & ER & _ & NA' & _).
  destruct (C43_round_trip_partial o2 tilt O2 C2 tilt_object) as (j2 & _ & E2' & _).
  destruct (C43_written_partial show false tilt (fun _ => None) j E (or_intror eq_refl)) as (fs1 & S1 & W1 & _).
  exists show, tilt, o2, fs1, fs1, (file_name show tilt), o'. split; [apply tilt_object|]. split; [exact C|]. split; [exact O2|]. split; [exact C2|]. split; [exact S1|]. split.
  - unfold save_json. rewrite E2'. cbn [bind]. rewrite N, W1. reflexivity.
  - rewrite W1. split; [exact ER|]. rewrite NA', F1. cbn. lra.
Qed.
Print Assumptions C43_stale_file_refuted.
Example C43_nonvacuous : configured tilt /\ object tilt /\ object airy_disk.
Proof. split; [split; [cbn; unfold in_range; lra|discriminate]|]. split; [apply tilt_object|apply airy_object]. Qed.

(** ** C37: get_kernel_parallel *)
Lemma parallel_vec rnd fuel p a nr nphi r t s : point_parallel rnd fuel true p a nr nphi r t s = psf_point_vec rnd (phase_pol fuel p a) nr nphi r t true NoJobs s.
Proof.
  unfold point_parallel, psf_point_vec. destruct (nphi =? 0)%Z; [reflexivity|]. cbv zeta. unfold mbind. destruct (mapM _ (range2 2 (nphi - 2)) s) as [s1 [l1|]]; [|reflexivity].
  cbn [mret]. destruct (mapM _ (range2 1 (nphi - 1)) s1) as [s2 [l2|]]; reflexivity.
Qed.
Lemma mapM_ext {A B} (f g : A -> M B) : (forall x s, f x s = g x s) -> forall l s, mapM f l s = mapM g l s.
Proof.
  intros H. induction l as [|x l IH]; intros s; [reflexivity|]. cbn [mapM]. unfold mbind. rewrite H. destruct (g x s) as [s1 [y|]]; [|reflexivity]. rewrite IH. reflexivity.
Qed.
Lemma fill_ext f g k0 na px n : (forall d t s, f d t s = g d t s) -> forall s, fill_kernel f k0 na px n s = fill_kernel g k0 na px n s.
Proof. intros H s. unfold fill_kernel. apply mapM_ext. intros i s1. apply mapM_ext. intros j s2. apply H. Qed.
(** With workers the kernel is that of calculate_psf_kernel (not accelerated) - the same steps, in the same order - for the pixel size scaled by k * wavelength / (2 pi): the factor is 1
    if the wavenumber is that of the wavelength, and wavelength / (previous wavelength) after a call that changed it. *)
Theorem C37_class_parallel : forall rnd jv1 fuel normalize o p s, object o -> zpol o = Some p -> (3 <= kernel_size o)%Z -> 0 < NA o -> alpha o = expansion_coeff o / wavelength o ->
  snd (snd (get_kernel_parallel rnd fuel true normalize o s)) =
  snd (get_psf_kernel rnd jv1 fuel p (pixel_size o * (k o * wavelength o / (2 * PI))) (expansion_coeff o) (wavelength o) (NA o) (n_int_r o) (n_int_phi o) normalize false (kernel_size o) Vectorized s).
Proof.
  intros rnd jv1 fuel normalize o p s O EZ K3 A AL. apply object_inv in O. assert (W := i_wl o O). assert (P := PI_RGT_0). unfold get_kernel_parallel. rewrite EZ.
  replace (kernel_size o <? 3)%Z with false by lia. unfold get_psf_kernel, mbind, mlift. rewrite !pydiv_ok by lra. replace (kernel_size o <? 3)%Z with false by lia. cbv zeta.
  destruct (i_size o O) as [SP SO]. assert (OS : odd_size (kernel_size o) = kernel_size o).
  { unfold odd_size. destruct (Z.eqb_spec (kernel_size o mod 2) 0) as [E0|_]; [|reflexivity]. apply Z.odd_spec in SO. destruct SO as [q SO]. lia. }
  rewrite OS. replace (kernel_size o <? 0)%Z with false by lia. rewrite <- AL.
  assert (F : fill_kernel (point_parallel rnd fuel true p (alpha o) (n_int_r o) (n_int_phi o)) (k o) (NA o) (pixel_size o) (kernel_size o) s =
    fill_kernel (point_by Vectorized rnd (phase_pol fuel p (alpha o)) (n_int_r o) (n_int_phi o)) (2 * PI / wavelength o) (NA o) (pixel_size o * (k o * wavelength o / (2 * PI))) (kernel_size o) s).
  { unfold fill_kernel. apply mapM_ext. intros i s1. apply mapM_ext. intros j s2. cbv zeta.
    rewrite (parallel_vec rnd fuel p (alpha o)). unfold point_by. f_equal.
    replace (2 * PI / wavelength o * NA o * (pixel_size o * (k o * wavelength o / (2 * PI)))) with (k o * NA o * pixel_size o) by (field; split; lra). reflexivity. }
  rewrite F. clear F. cbv iota beta. destruct (fill_kernel _ _ _ _ _ s) as [s' [l|]]; reflexivity.
Qed.
Print Assumptions C37_class_parallel.
Theorem C37_class_same_kernel : forall rnd jv1 fuel suppress normalize installed o p s, object o -> zpol o = Some p -> airy o = false -> props_set o = true -> (3 <= kernel_size o)%Z -> 0 < NA o ->
  alpha o = expansion_coeff o / wavelength o -> k o = 2 * PI / wavelength o ->
  snd (snd (get_kernel_parallel rnd fuel true normalize o s)) = snd (snd (calculate_psf_kernel rnd jv1 fuel suppress normalize (Some false) installed o s)).
Proof.
  intros rnd jv1 fuel suppress normalize installed o p s O EZ EA EP K3 A AL EK. rewrite (C37_class_parallel rnd jv1 fuel normalize o p s O EZ K3 A AL).
  assert (W := i_wl o (object_inv o O)). assert (P := PI_RGT_0). replace (pixel_size o * (k o * wavelength o / (2 * PI))) with (pixel_size o) by (rewrite EK; field; split; lra).
  unfold calculate_psf_kernel. rewrite EP. cbn [negb andb use_numba]. cbv zeta. rewrite EZ, EA. destruct (get_psf_kernel _ _ _ _ _ _ _ _ _ _ _ _ _ _ s) as [s' [K|e]]; reflexivity.
Qed.
Print Assumptions C37_class_same_kernel.
(** The first accepted call of set_physical_props: get_kernel_parallel calculates the kernel of pixel size px * wavelength / (previous wavelength). *)
Theorem C37_class_wavelength_refuted : forall rnd jv1 fuel normalize na wl a px o o' p s, object o -> zpol o = Some p -> set_physical_props na wl (KNum a) px o = (o', Ok Datatypes.tt) -> (3 <= kernel_size o')%Z ->
  snd (snd (get_kernel_parallel rnd fuel true normalize o' s)) =
  snd (get_psf_kernel rnd jv1 fuel p (px * (wl / wavelength o)) a wl na (n_int_r o) (n_int_phi o) normalize false (kernel_size o') Vectorized s).
Proof.
  intros rnd jv1 fuel normalize na wl a px o o' p s O EZ E K3.
  assert (O' : object o') by (assert (H := o_physical na wl (KNum a) px o O); rewrite E in H; exact H).
  destruct (physical_success _ _ _ _ _ _ (object_inv o O) E) as (IR & _ & ks & _ & F).
  destruct (final_common na wl (KNum a) px ks o) as (_ & F1 & F2 & F3 & _ & F6 & F7 & _ & F9 & _ & _ & _ & F13). destruct (final_num na wl a px ks o) as (G1 & G2 & _). rewrite <- F in *.
  assert (W := i_wl o (object_inv o O)). assert (P := PI_RGT_0). destruct IR as (A & W' & _).
  rewrite (C37_class_parallel rnd jv1 fuel normalize o' p s O'); [|rewrite F9; exact EZ|exact K3|rewrite F1; lra|rewrite G1, G2, F2; reflexivity].
  rewrite F1, F2, F3, F6, F7, F13, G1. replace (px * (2 * PI / wavelength o * wl / (2 * PI))) with (px * (wl / wavelength o)) by (field; split; lra). reflexivity.
Qed.
Print Assumptions C37_class_wavelength_refuted.
(** kernel_size below 3: the missing size is requested without an argument; several polynomials: a 3 x 3 kernel of 0/0 or 0. *)
Theorem C37_class_unsupported_refuted : forall rnd fuel workers normalize o s, object o ->
  (zpol o <> None -> (kernel_size o < 3)%Z -> get_kernel_parallel rnd fuel workers normalize o s = (s, (o, Raise TypeError))) /\
  (zpol o = None -> exists o', get_kernel_parallel rnd fuel workers normalize o s = (s, (o', Ok (repeat (repeat (if normalize then NaN else Fin 0) 3) 3))) /\ kernel_size o' = 3%Z).
Proof.
  intros rnd fuel workers normalize o s O. split.
  - intros HZ HK. unfold get_kernel_parallel. destruct (zpol o); [|contradiction]. replace (kernel_size o <? 3)%Z with true by lia. reflexivity.
  - intros HZ. unfold get_kernel_parallel. rewrite HZ. cbv zeta. unfold finish. assert (HM : kmax [[0; 0; 0]; [0; 0; 0]; [0; 0; 0]] = 0) by (unfold kmax; cbn [concat app fold_left]; assert (R0 : Rmax 0 0 = 0) by (apply Rmax_left; lra); rewrite !R0; reflexivity).
    destruct normalize; [rewrite HM; cbn; destruct (Req_EM_T 0 0); [|contradiction]|cbn]; eexists; split; reflexivity.
Qed.
Print Assumptions C37_class_unsupported_refuted.
Example C37_class_nonvacuous : exists o, object o /\ zpol o = Some (1, 1)%Z /\ airy o = false /\ props_set o = true /\ (3 <= kernel_size o)%Z /\ 0 < NA o /\ alpha o = expansion_coeff o / wavelength o /\ k o = 2 * PI / wavelength o.
Proof.
  destruct (physical_num 1 (532 / 1000) (1 / 10) (1 / 10) tilt (1, 1)%Z (object_inv _ tilt_object)) as (ks & _ & _ & E); [unfold in_range; lra|reflexivity|].
  set (o1 := final _ _ _ _ ks tilt) in *.
  assert (O1 : object o1) by (assert (H := o_physical 1 (532 / 1000) (KNum (1 / 10)) (1 / 10) tilt tilt_object); rewrite E in H; exact H).
  exists (fst (set_calculation_props 5 320 300 o1)). split; [apply o_calculation, O1|]. repeat split; cbn; try lia; lra.
Qed.
