(** Property theorems C81: the warnings of class ZernPSF. *)
From Coq Require Import Reals Lra Lia List Psatz.
From Flocq Require Import Core.
From Coquelicot Require Import Coquelicot.
From Verif Require Import Py SpecIndex SpecRadial M_Radial M_Coeffs SpecCoeffs M_Sum SpecSum M_Geo SpecGeo M_Fit M_Psf SpecPsf L_Polar L_PsfKernel L_PsfNodes M_Numba M_Init SpecInit M_PsfClass SpecPsfClass L_PsfClass L_PsfSet L_PsfObj P_Phases P_Psf P_PsfClass SpecDiff L_Airy P_Airy SpecSize L_Size P_Size M_Warn SpecWarn L_Warn L_Warn2.
Import ListNotations.
Local Open Scope R_scope.

(** The functions with warnings return what those of the other properties return, and leave the same objects. *)
Theorem C81_outcome :
  (forall na wl c px o o' ws r, set_physical_props_w na wl c px o = (o', (ws, r)) -> set_physical_props na wl c px o = (o', r)) /\
  (forall ks nr nphi o o' ws r, set_calculation_props_w ks nr nphi o = (o', (ws, r)) -> set_calculation_props ks nr nphi o = (o', r)) /\
  (forall rnd jv1 fuel suppress normalized accelerated installed o s s' ws o' r,
     calculate_psf_kernel_w rnd jv1 fuel suppress normalized accelerated installed o s = (s', (ws, (o', r))) ->
     calculate_psf_kernel rnd jv1 fuel suppress normalized accelerated installed o s = (s', (o', r))).
Proof.
  split; [|split].
  - intros na wl c px o o' ws r E. rewrite physical_erase, E. reflexivity.
  - intros ks nr nphi o o' ws r E. rewrite calculation_erase, E. reflexivity.
  - intros rnd jv1 fuel sup nz acc inst o s s' ws o' r E. pose proof (calculate_erase rnd jv1 fuel sup nz acc inst o s) as H. rewrite E in H. exact H.
Qed.
Print Assumptions C81_outcome.
(** set_physical_props: one warning exactly if a coefficient is more than ten wavelengths; no warning if the call is rejected *)
Theorem C81_coefficients : forall o na wl c px, object o -> in_range na wl px -> fits c o ->
  exists o' ws, set_physical_props_w na wl c px o = (o', (ws, Ok Datatypes.tt)) /\ (length ws <= 1)%nat /\
    (ws <> [] <-> exists a, In a (match c with KNum a => [a] | KSeq l => l | KBad _ => [] end) /\ 10 * wl < Rabs a).
Proof.
  intros o na wl c px O IR F. assert (I := object_inv o O). assert (IB := inv_base na wl px o I IR).
  pose proof (physical_ok na wl c px o I IR F) as (ks & _ & E). pose proof (coeff_fits c (base na wl px o) IB F) as CF.
  assert (S : snd (set_coeff c (base na wl px o)) = Ok Datatypes.tt) by (rewrite CF; reflexivity).
  destruct (set_coeff_warns c (base na wl px o) ltac:(apply IR) S) as (H1 & H2). rewrite physical_erase in E. rewrite base_reached_w in * by exact IR.
  rewrite set_coeff_erase in S. destruct (set_coeff_w c (base na wl px o)) as (o1 & w & [u|e]); [|discriminate]. destruct (estimate_size o1) as (o2 & r). cbn [fst snd] in *.
  exists o2, w. injection E as _ ->. split; [reflexivity|]. split; [exact H1|exact H2].
Qed.
Print Assumptions C81_coefficients.
Theorem C81_rejected : forall o na wl c px o' ws e, object o -> set_physical_props_w na wl c px o = (o', (ws, Raise e)) -> ws = [].
Proof.
  intros o na wl c px o' ws e O E. assert (I := object_inv o O). destruct (Classical_Prop.classic (in_range na wl px)) as [IR|N].
  - assert (IB := inv_base na wl px o I IR). assert (E' := E). rewrite base_reached_w in E by exact IR. destruct (Classical_Prop.classic (fits c (base na wl px o))) as [F|F].
    + destruct (physical_ok na wl c px o I IR F) as (ks & _ & EO). rewrite physical_erase, E' in EO. discriminate.
    + destruct (coeff_unfit c _ IB F) as (o1 & e1 & EC). pose proof (set_coeff_silent c (base na wl px o) e1) as S. rewrite EC in S. specialize (S eq_refl).
      rewrite set_coeff_erase in EC. destruct (set_coeff_w c (base na wl px o)) as (o2 & w & [u|e2]); [discriminate|]. cbn [fst snd] in *. congruence.
  - assert (E' := E). unfold set_physical_props_w in E. destruct (Rltb na 0) eqn:E1; [cbn [orb] in E; congruence|]. destruct (Rltb (17 / 10) na) eqn:E2; [cbn [orb] in E; congruence|].
    cbn [orb] in E. destruct (Rleb wl 0) eqn:E3; [congruence|]. apply Rltb_f in E1, E2. apply Rleb_f in E3. cbv zeta in E.
    unfold pydiv in E. destruct (Req_EM_T na 0); [congruence|]. destruct (Rleb px 0) eqn:E4; [congruence|]. destruct (Rltb _ px) eqn:E5; [congruence|].
    exfalso. apply N. apply Rleb_f in E4. apply Rltb_f in E5. rewrite nyq_eq in E5 by assumption. split; [lra|split; lra].
Qed.
Print Assumptions C81_rejected.
(** set_calculation_props: the size (made odd) is compared with the size in the object; also if the call is rejected for its other arguments *)
Theorem C81_size : forall o ks nr nphi o' ws r, set_calculation_props_w ks nr nphi o = (o', (ws, r)) ->
  (In MayBeTruncated ws <-> (3 <= ks)%Z /\ props_set o = true /\ (made_odd ks < kernel_size o)%Z) /\
  (In PhysicalFirst ws <-> (3 <= ks)%Z /\ props_set o = false) /\
  (In SlowPrecision ws <-> (3 <= ks)%Z /\ (500 < nr)%Z /\ (400 < nphi)%Z) /\ (length ws <= 2)%nat.
Proof.
  intros o ks nr nphi o' ws r. unfold set_calculation_props_w. destruct (Z.ltb_spec ks 3).
  { intros E. injection E as _ <- _. cbn [In length]. split; [split; [intros []|lia]|]. split; [split; [intros []|lia]|]. split; [split; [intros []|lia]|lia]. }
  change (if (ks mod 2 =? 0)%Z then (ks + 1)%Z else ks) with (odd_size ks). rewrite made_odd_eq. cbv zeta.
  assert (G : forall b, let w := (if props_set o then if (made_odd ks <? kernel_size o)%Z then [MayBeTruncated] else [] else [PhysicalFirst]) in
    (In MayBeTruncated (w ++ (if b : bool then [SlowPrecision] else [])) <-> (3 <= ks)%Z /\ props_set o = true /\ (made_odd ks < kernel_size o)%Z) /\
    (In PhysicalFirst (w ++ (if b then [SlowPrecision] else [])) <-> (3 <= ks)%Z /\ props_set o = false) /\ (In SlowPrecision (w ++ (if b then [SlowPrecision] else [])) <-> b = true) /\
    (length (w ++ (if b then [SlowPrecision] else [])) <= 2)%nat).
  { intros b. cbv zeta. destruct (props_set o), (Z.ltb_spec (made_odd ks) (kernel_size o)), b; cbn [app In length]; intuition (try discriminate; try lia; try congruence). }
  cbv zeta in G. destruct (nr <? 20)%Z eqn:A1; [|destruct (nphi <? 36)%Z eqn:A2].
  - intros E. injection E as _ <- _. specialize (G false). cbv iota in G. rewrite app_nil_r in G. destruct G as (G1 & G2 & G3 & G4). split; [exact G1|]. split; [exact G2|]. split; [|exact G4]. rewrite G3. split; [discriminate|lia].
  - intros E. injection E as _ <- _. specialize (G false). cbv iota in G. rewrite app_nil_r in G. destruct G as (G1 & G2 & G3 & G4). split; [exact G1|]. split; [exact G2|]. split; [|exact G4]. rewrite G3. split; [discriminate|lia].
  - intros E. injection E as _ <- _. destruct (G ((500 <? nr) && (400 <? nphi))%Z) as (G1 & G2 & G3 & G4). split; [exact G1|]. split; [exact G2|]. split; [|exact G4]. rewrite G3, andb_true_iff, !Z.ltb_lt. lia.
Qed.
Print Assumptions C81_size.
(** calculate_psf_kernel: what each warning means, if a kernel is returned *)
Theorem C81_calculate : forall rnd jv1 fuel suppress normalized accelerated installed o s s' ws o' K, object o ->
  calculate_psf_kernel_w rnd jv1 fuel suppress normalized accelerated installed o s = (s', (ws, (o', Ok K))) ->
  (In BrightBorder ws <-> suppress = false /\ cut_off K) /\
  (In PixelTooLarge ws <-> suppress = false /\ 5 / 10 * (61 / 100) * wavelength o / NA o < pixel_size o) /\
  (In DefaultsUsed ws <-> suppress = false /\ props_set o = false) /\
  (In NoNumbaHere ws <-> suppress = false /\ accelerated = Some true /\ installed = false) /\
  (In LongCalculation ws <-> suppress = false /\ installed = true /\ accelerated <> Some false /\ (85 < Z.of_nat (length K))%Z).
Proof.
  intros rnd jv1 fuel sup nz acc inst o s s' ws o' K O E. assert (I := object_inv o O).
  assert (NE : zpol o = None -> polynomials o <> []) by (intros Z; pose proof (i_several o I Z) as L; intros X; rewrite X in L; cbn in L; lia).
  pose proof (calculate_shown rnd jv1 fuel sup nz acc inst o s NE) as H. rewrite E in H. destruct H as (ws' & EW & [H|(e & _ & H)]); [|discriminate].
  pose proof (calculate_erase rnd jv1 fuel sup nz acc inst o s) as EC. rewrite E in EC. pose proof (inv_calculate rnd jv1 fuel sup nz acc inst s o I) as I'. rewrite EC in I'. cbn [fst snd] in I'.
  assert (KO : kern o' = K /\ (use_numba acc inst = true -> Z.of_nat (length K) = odd_size (used_size sup o))).
  { clear H EW E I'. unfold calculate_psf_kernel in EC. cbv zeta in EC. unfold used_size.
    set (o1 := if negb (props_set o) && negb sup then with_kernel_size 19 o else o) in *.
    assert (E6 : kernel_size o1 = if negb (props_set o) && negb sup then 19%Z else kernel_size o) by (unfold o1; destruct (_ && _)%bool; reflexivity).
    rewrite <- E6. assert (E2 : polynomials o1 = polynomials o) by (unfold o1; destruct (_ && _)%bool; reflexivity). assert (E1 : zpol o1 = zpol o) by (unfold o1; destruct (_ && _)%bool; reflexivity).
    rewrite <- E1, <- E2 in NE. clearbody o1. destruct (zpol o1) as [p|].
    - destruct (use_numba acc inst).
      + destruct (get_psf_kernel_comp _ _ _ _ _ _ _ _ _ _ s) as [s1 [K'|e]] eqn:EK; [|congruence]. apply comp_shape in EK. destruct EK as (_ & L & _). injection EC as _ <- <-. split; [reflexivity|intros _; exact L].
      + destruct (get_psf_kernel _ _ _ _ _ _ _ _ _ _ _ _ _ _ s) as [s1 [K'|e]] eqn:EK; [|congruence]. injection EC as _ <- <-. split; [reflexivity|discriminate].
    - destruct (polynomials o1) as [|p ps]; [exfalso; apply NE; reflexivity|]. destruct (amplitudes o1) as [amps|]; [|unfold no_amplitudes, mlift in EC; congruence]. destruct (use_numba acc inst).
      + destruct (get_psf_kernel_comp _ _ _ _ _ _ _ _ _ _ s) as [s1 [K'|e]] eqn:EK; [|congruence]. apply comp_shape in EK. destruct EK as (_ & L & _). injection EC as _ <- <-. split; [reflexivity|intros _; exact L].
      + destruct (get_psf_kernel_zerns _ _ _ _ _ _ _ _ _ _ _ s) as [s1 [K'|e]] eqn:EK; [|congruence]. injection EC as _ <- <-. split; [reflexivity|discriminate]. }
  destruct KO as (KO & LK). assert (KG : kgood K) by (rewrite <- KO; apply I'). pose proof (bright_iff K KG) as BR.
  unfold shown in H. rewrite EW, H. clear EW H E EC. unfold first_part, pixel_part, border_part, long_part.
  assert (PX : Rltb (5 / 10 * (61 / 100) * wavelength o / NA o) (pixel_size o) = true <-> 5 / 10 * (61 / 100) * wavelength o / NA o < pixel_size o).
  { unfold Rltb. destruct (Rlt_dec _ _); split; intros; try reflexivity; try assumption; try discriminate; contradiction. }
  assert (LG : use_numba acc inst = true -> ((85 <? odd_size (used_size sup o))%Z = true <-> (85 < Z.of_nat (length K))%Z)) by (intros U; rewrite (LK U); apply Z.ltb_lt).
  rewrite <- BR, <- PX. clear BR PX KG I' KO LK I NE.
  destruct (border_is_bright K), (Rltb _ (pixel_size o)), (props_set o), sup, inst, acc as [[|]|]; cbn [use_numba andb negb app] in *;
    try (specialize (LG eq_refl); destruct (85 <? odd_size (used_size _ o))%Z); cbn [app In negb andb] in *; intuition (try discriminate; try congruence).
Qed.
Print Assumptions C81_calculate.
(** suppress_warnings=True: no warning at all, whatever the outcome *)
Theorem C81_suppressed : forall rnd jv1 fuel normalized accelerated installed o s s' ws o' r, object o ->
  calculate_psf_kernel_w rnd jv1 fuel true normalized accelerated installed o s = (s', (ws, (o', r))) -> ws = [].
Proof.
  intros rnd jv1 fuel nz acc inst o s s' ws o' r O E. assert (I := object_inv o O).
  assert (NE : zpol o = None -> polynomials o <> []) by (intros Z; pose proof (i_several o I Z) as L; intros X; rewrite X in L; cbn in L; lia).
  pose proof (calculate_shown rnd jv1 fuel true nz acc inst o s NE) as H. rewrite E in H. destruct H as (ws' & -> & H).
  assert (F : first_part true acc inst o = []) by (unfold first_part; rewrite !andb_false_r; reflexivity). rewrite F. cbn [app].
  assert (P : pixel_part true (pixel_size o) (wavelength o) (NA o) = []) by (unfold pixel_part; rewrite andb_false_r; reflexivity).
  assert (L : (if use_numba acc inst then long_part true (used_size true o) else []) = []) by (unfold long_part; rewrite andb_false_r; destruct (use_numba acc inst); reflexivity).
  destruct H as [H|(e & H & _)]; [|exact H]. unfold shown in H. rewrite L, P in H. destruct r as [K|e].
  - rewrite H. unfold border_part. rewrite andb_false_r. reflexivity.
  - destruct H as [-> | [-> | ->]]; reflexivity.
Qed.
Print Assumptions C81_suppressed.
(** ... and nothing else, once the physical properties are set *)
Theorem C81_only_warnings : forall rnd jv1 fuel normalized accelerated installed o s, props_set o = true ->
  calculate_psf_kernel rnd jv1 fuel true normalized accelerated installed o s = calculate_psf_kernel rnd jv1 fuel false normalized accelerated installed o s.
Proof. intros rnd jv1 fuel nz acc inst o s P. unfold calculate_psf_kernel. rewrite P. reflexivity. Qed.
Print Assumptions C81_only_warnings.
(** before that the flag decides about the size of the kernel *)
Theorem C81_only_warnings_refuted : forall rnd jv1 fuel normalized accelerated installed s,
  kernel_size (fst (snd (calculate_psf_kernel rnd jv1 fuel true normalized accelerated installed airy_disk s))) = 1%Z /\
  kernel_size (fst (snd (calculate_psf_kernel rnd jv1 fuel false normalized accelerated installed airy_disk s))) = 19%Z.
Proof.
  intros rnd jv1 fuel nz acc inst s. unfold calculate_psf_kernel. cbn [props_set negb andb zpol airy_disk with_airy with_zpol with_kernel_size defaults]. cbv zeta. split.
  - destruct (use_numba acc inst); [destruct (get_psf_kernel_comp _ _ _ _ _ _ _ _ _ _ s) as [s1 [K|e]]|destruct (get_psf_kernel _ _ _ _ _ _ _ _ _ _ _ _ _ _ s) as [s1 [K|e]]]; reflexivity.
  - destruct (use_numba acc inst); [destruct (get_psf_kernel_comp _ _ _ _ _ _ _ _ _ _ s) as [s1 [K|e]]|destruct (get_psf_kernel _ _ _ _ _ _ _ _ _ _ _ _ _ _ s) as [s1 [K|e]]]; reflexivity.
Qed.
Print Assumptions C81_only_warnings_refuted.
(** The warning about the pixel size is dead code for programs whose calls of set_physical_props are accepted (and that read no files): the limit of that method is lower. *)
Definition physics (o o' : zernpsf) : Prop := NA o' = NA o /\ wavelength o' = wavelength o /\ pixel_size o' = pixel_size o.
Lemma calculate_physics rnd jv1 fuel sup nz acc inst s o : physics o (fst (snd (calculate_psf_kernel rnd jv1 fuel sup nz acc inst o s))).
Proof.
  unfold calculate_psf_kernel. cbv zeta. set (o1 := if negb (props_set o) && negb sup then with_kernel_size 19 o else o).
  assert (P1 : physics o o1) by (unfold o1; destruct (_ && _)%bool; repeat split). clearbody o1.
  match goal with |- context [let '(_, _) := ?x in _] => destruct x as [s1 [K|e]] end; [|exact P1]. destruct P1 as (A & B & C). cbn [fst snd]. repeat split; assumption.
Qed.
Lemma settled_inv o : settled o -> object o /\ 0 < NA o /\ pixel_size o <= wavelength o / (4 * NA o).
Proof.
  assert (STEP : forall o o', physics o o' -> object o' -> object o /\ 0 < NA o /\ pixel_size o <= wavelength o / (4 * NA o) -> object o' /\ 0 < NA o' /\ pixel_size o' <= wavelength o' / (4 * NA o')).
  { intros a b (-> & -> & ->) H (_ & H1). split; [exact H|exact H1]. }
  induction 1.
  - split; [exact (o_new a o H H0)|]. assert (P : physics defaults o).
    { destruct a as [[p|]|l]; cbn [zernpsf_init] in H0.
      - injection H0 as <-. repeat split.
      - injection H0 as <-. repeat split.
      - destruct l as [|[p|] [|y l]]; try discriminate.
        + injection H0 as <-. repeat split.
        + destruct (all_pols (IPol p :: y :: l)); [|discriminate]. destruct (distinct_Z _); [|discriminate]. injection H0 as <-. repeat split. }
    destruct P as (-> & -> & ->). cbn [NA wavelength pixel_size defaults]. lra.
  - destruct IHsettled as (O & _). assert (O' : object o') by (replace o' with (fst (set_physical_props na wl c px o)) by (rewrite H0; reflexivity); exact (o_physical na wl c px o O)).
    split; [exact O'|]. destruct (physical_success na wl c px o o' (object_inv o O) H0) as (IR & F & ks & _ & ->).
    destruct (final_common na wl c px ks o) as (_ & -> & -> & -> & _). destruct IR as (A & W & P). split; apply A || apply P.
  - destruct IHsettled as (O & R0). apply (STEP o _); [|exact (o_calculation ks nr nphi o O)|split; assumption]. unfold set_calculation_props.
    destruct (ks <? 3)%Z; [repeat split|]. cbv zeta. destruct (nr <? 20)%Z; [repeat split|]. destruct (nphi <? 36)%Z; repeat split.
  - destruct IHsettled as (O & R0). apply (STEP o _); [apply calculate_physics|apply o_calculate, O|split; assumption].
  - destruct IHsettled as (O & R0). apply (STEP o _); [|exact (o_parallel rnd fuel workers normalize s o O)|split; assumption]. unfold get_kernel_parallel.
    destruct (zpol o); [|repeat split]. destruct (kernel_size o <? 3)%Z; [repeat split|]. cbv zeta. destruct (fill_kernel _ _ _ _ _ s) as [s1 [l|e]]; repeat split.
  - destruct IHsettled as (O & R0). apply (STEP o _); [|exact (o_crop part o O)|split; assumption]. unfold crop_kernel.
    destruct (kernel_size o <=? 3)%Z; [repeat split|]. cbv zeta. destruct (Rleb part 0); [repeat split|]. destruct (Rleb (5 / 10) part); [repeat split|]. destruct (0 <? _)%Z; repeat split.
Qed.
Theorem C81_pixel_quiet : forall rnd jv1 fuel suppress normalized accelerated installed o s s' ws o' r, settled o ->
  calculate_psf_kernel_w rnd jv1 fuel suppress normalized accelerated installed o s = (s', (ws, (o', r))) -> ~ In PixelTooLarge ws.
Proof.
  intros rnd jv1 fuel sup nz acc inst o s s' ws o' r S E. destruct (settled_inv o S) as (O & N & P). assert (I := object_inv o O). assert (W := i_wl o I).
  assert (NE : zpol o = None -> polynomials o <> []) by (intros Z; pose proof (i_several o I Z) as L; intros X; rewrite X in L; cbn in L; lia).
  pose proof (calculate_shown rnd jv1 fuel sup nz acc inst o s NE) as H. rewrite E in H. destruct H as (ws' & -> & H).
  assert (F : ~ In PixelTooLarge (first_part sup acc inst o)).
  { unfold first_part. rewrite in_app_iff. repeat match goal with |- context [if ?b then [_] else []] => destruct b end; cbn [In]; intuition discriminate. }
  assert (PP : pixel_part sup (pixel_size o) (wavelength o) (NA o) = []).
  { unfold pixel_part. rewrite Rltb_false; [reflexivity|]. eapply Rle_trans; [exact P|]. assert (Q := Rinv_0_lt_compat _ N).
    replace (wavelength o / (4 * NA o)) with (wavelength o * / NA o * (1 / 4)) by (field; lra). replace (5 / 10 * (61 / 100) * wavelength o / NA o) with (wavelength o * / NA o * (305 / 1000)) by (field; lra).
    pose proof (Rmult_lt_0_compat _ _ W Q). lra. }
  assert (L : ~ In PixelTooLarge (if use_numba acc inst then long_part sup (used_size sup o) else [])).
  { unfold long_part. destruct (use_numba acc inst); [destruct (_ && _)%bool|]; cbn [In]; intuition discriminate. }
  assert (B : forall K, ~ In PixelTooLarge (border_part sup K)) by (intros K; unfold border_part; destruct (_ && _)%bool; cbn [In]; intuition discriminate).
  rewrite in_app_iff. intros [X|X]; [exact (F X)|]. destruct H as [H|(e & -> & _)]; [|exact X]. unfold shown in H. rewrite PP in H. destruct r as [K|e].
  - subst ws'. cbn [app] in X. apply in_app_iff in X. destruct X as [X|X]; [exact (L X)|exact (B K X)].
  - rewrite app_nil_r in H. destruct H as [-> | [-> | ->]]; [exact X|exact (L X)|exact (L X)].
Qed.
Print Assumptions C81_pixel_quiet.
Lemma pixel_comes {A} px wl na (y : unit -> W A) s : na <> 0 -> 5 / 10 * (61 / 100) * wl / na < px -> In PixelTooLarge (fst (snd (wbind (check_pixel false px wl na) y s))).
Proof.
  intros N L. unfold check_pixel, wbind, quiet, mlift, show. rewrite pydiv_ok by exact N. rewrite Rltb_true by exact L. cbn [negb andb].
  destruct (y Datatypes.tt s) as (s1 & w1 & r1). cbn [fst snd app In]. auto.
Qed.
(** A rejected call changes the aperture and the wavelength but not the pixel size: afterwards the warning appears. *)
Theorem C81_pixel_quiet_refuted : forall rnd jv1 fuel s, exists o, set_physical_props (17 / 10) (1 / 10) (KNum 0) 1 airy_disk = (o, Raise ValueError) /\
  In PixelTooLarge (fst (snd (calculate_psf_kernel_w rnd jv1 fuel false false None false o s))).
Proof.
  intros rnd jv1 fuel s. unfold set_physical_props. rewrite (Rltb_false (17 / 10) 0), (Rltb_false (17 / 10) (17 / 10)), (Rleb_false (1 / 10) 0) by lra. cbn [orb]. cbv zeta. rewrite pydiv_ok by lra.
  rewrite (Rleb_false 1 0), (Rltb_true _ 1) by lra. eexists. split; [reflexivity|].
  unfold calculate_psf_kernel_w. cbn [props_set negb andb use_numba zpol with_kernel_size with_nyquist with_wavelength with_NA with_k airy_disk with_airy with_zpol defaults airy pixel_size expansion_coeff wavelength NA n_int_r n_int_phi kernel_size].
  cbv zeta. unfold get_psf_kernel_w. unfold wbind at 1, quiet at 1, mlift at 1. rewrite pydiv_ok by lra. unfold wbind at 1, quiet at 1, mlift at 1. rewrite pydiv_ok by lra.
  unfold wbind at 1, quiet at 1, mlift at 1. cbn [Z.ltb Z.compare Pos.compare Pos.compare_cont]. cbv beta iota zeta. change (odd_size 19 <? 0)%Z with false. cbv iota.
  match goal with |- context [wbind (check_pixel false ?a ?b ?c) ?f s] => assert (H : In PixelTooLarge (fst (snd (wbind (check_pixel false a b c) f s)))) by (apply pixel_comes; lra);
    destruct (wbind (check_pixel false a b c) f s) as (s2 & w2 & [K|e]) end; cbn [fst snd app In] in *; auto.
Qed.
Print Assumptions C81_pixel_quiet_refuted.

(** ** the estimated size keeps the Airy pattern off the border, for NA >= 1 *)
Lemma J1_bound x : Rabs (bessel_J1 x) <= 1.
Proof.
  unfold bessel_J1. assert (P := PI_RGT_0). rewrite Rabs_mult, (Rabs_pos_eq (/ PI)) by (apply Rlt_le, Rinv_0_lt_compat, P).
  assert (B : Rabs (RInt (fun t => cos (t - x * sin t)) 0 PI) <= (PI - 0) * 1).
  { apply abs_RInt_le_const; [lra| |].
    - apply (ex_RInt_continuous (V := R_CompleteNormedModule)). intros z _. apply (cts_comp cos (fun t => t - x * sin t)); [apply cts_cos|apply u_cts].
    - intros t _. apply Rabs_le. apply COS_bound. }
  apply (Rmult_le_reg_l PI); [exact P|]. rewrite <- Rmult_assoc, Rinv_r by lra. lra.
Qed.
Lemma pattern_small jv1 r : (forall x, jv1 x = bessel_J1 x) -> 9 <= r -> airy_ref_pattern jv1 r <= 4 / 81 + 5 / 10 ^ 11.
Proof.
  intros HJ H. pose proof (C53_airy_ref_pattern jv1 0 r 0 HJ) as B. destruct (C53_integral_is_airy 0 r 0) as (I1 & _). rewrite I1 in B by lra. apply Rabs_le_inv in B.
  assert (Q : (2 * bessel_J1 r / r) ^ 2 <= 4 / 81); [|lra].
  assert (J := J1_bound r). assert (R1 : 0 < / r <= / 9) by (split; [apply Rinv_0_lt_compat; lra|apply Rinv_le_contravar; lra]).
  assert (A : Rabs (2 * bessel_J1 r / r) <= 2 / 9).
  { unfold Rdiv. rewrite !Rabs_mult, (Rabs_pos_eq 2), (Rabs_pos_eq (/ r)) by lra. assert (P := Rabs_pos (bessel_J1 r)).
    pose proof (Rmult_le_compat (2 * Rabs (bessel_J1 r)) 2 (/ r) (/ 9) ltac:(lra) ltac:(lra) ltac:(lra) ltac:(lra)). lra. }
  rewrite <- (Rsqr_pow2), Rsqr_abs. unfold Rsqr. assert (P := Rabs_pos (2 * bessel_J1 r / r)). pose proof (Rmult_le_compat _ _ _ _ P P A A). lra.
Qed.
Lemma pattern_centre jv1 : (forall x, jv1 x = bessel_J1 x) -> 1 - 5 / 10 ^ 11 <= airy_ref_pattern jv1 0.
Proof. intros HJ. pose proof (C53_centre jv1 HJ) as B. apply Rabs_le_inv in B. lra. Qed.
(** a pixel on the border is at least half the size away from the centre *)
Lemma border_far size i j rho t : (1 <= size)%Z -> Z.odd size = true -> on_border size i j -> polar (IZR (size / 2 - j)) (IZR (size / 2 - i)) rho t -> IZR (size - 1) / 2 <= rho.
Proof.
  intros S OD B (R0 & _ & EX & EY). set (h := (size / 2)%Z) in *. assert (HS : (size = 2 * h + 1)%Z) by (unfold h; rewrite (Z.div_mod size 2) at 1 by lia; rewrite Zmod_odd, OD; reflexivity).
  replace (IZR (size - 1) / 2) with (IZR h) by (rewrite HS; replace (2 * h + 1 - 1)%Z with (2 * h)%Z by ring; rewrite mult_IZR; field).
  assert (H0 : (0 <= h)%Z) by lia. assert (C : forall c, -1 <= c <= 1 -> Rabs (rho * c) <= rho).
  { intros c Hc. rewrite Rabs_mult, (Rabs_pos_eq rho) by exact R0. rewrite <- (Rmult_1_r rho) at 2. apply Rmult_le_compat_l; [exact R0|apply Rabs_le; lra]. }
  pose proof (C (cos t) (COS_bound t)) as CX. pose proof (C (sin t) (SIN_bound t)) as CY. rewrite EX in CX. rewrite EY in CY. rewrite <- abs_IZR in CX, CY.
  assert (Q : (h <= Z.abs (h - j))%Z \/ (h <= Z.abs (h - i))%Z) by (unfold on_border in B; lia). destruct Q as [Q|Q]; apply IZR_le in Q; lra.
Qed.
Theorem C81_airy_quiet : forall o na wl c px rnd jv1 fuel normalized installed s, object o -> zpol o = Some (0, 0)%Z -> airy o = true -> in_range na wl px -> 1 <= na ->
  (forall x, jv1 x = bessel_J1 x) -> reachable s ->
  exists q K, set_physical_props na wl (KNum c) px o = (q, Ok Datatypes.tt) /\
    snd (snd (snd (calculate_psf_kernel_w rnd jv1 fuel false normalized (Some false) installed q s))) = Ok K /\ square K (kernel_size q) /\
    ~ In BrightBorder (fst (snd (calculate_psf_kernel_w rnd jv1 fuel false normalized (Some false) installed q s))).
Proof.
  intros o na wl c px rnd jv1 fuel nz inst s O EZ EA IR N1 HJ Hs. destruct (C80_single o 0 0 na wl c px O EZ IR) as (q & ES & H). assert (I := object_inv o O).
  destruct (physical_success na wl (KNum c) px o q I ES) as (_ & F & ks & OD & EQ).
  destruct (final_common na wl (KNum c) px ks o) as (_ & F1 & F2 & F3 & _ & F4 & F5 & F6 & F7 & _ & F8 & F9 & _). rewrite <- EQ in *. rewrite EZ in F7. rewrite EA in F8.
  assert (OQ : object q) by (replace q with (fst (set_physical_props na wl (KNum c) px o)) by (rewrite ES; reflexivity); exact (o_physical na wl (KNum c) px o O)).
  assert (PB := PI_RGT_0). assert (P3 : 3 < PI) by (assert (X := PI2_3_2); lra). destruct IR as (A & W & P). assert (IW := Rinv_0_lt_compat _ W). assert (IP : 0 < / px) by (apply Rinv_0_lt_compat; lra).
  assert (PXL : px * na / wl <= 1 / 4).
  { destruct P as (_ & P). apply (Rmult_le_compat_r (na * / wl)) in P; [|apply Rmult_le_pos; lra]. replace (wl / (4 * na) * (na * / wl)) with (1 / 4) in P by (field; lra). unfold Rdiv. lra. }
  assert (WP : 4 <= wl / px).
  { destruct P as (P0 & P). apply (Rmult_le_compat_r (4 * na * / px)) in P; [|apply Rmult_le_pos; lra]. replace (wl / (4 * na) * (4 * na * / px)) with (wl / px) in P by (field; lra).
    replace (px * (4 * na * / px)) with (4 * na) in P by (field; lra). lra. }
  assert (SZ : 9 / 2 * (wl / px) + 1 / 2 <= IZR ks).
  { rewrite F9 in H. destruct H as (k0 & e & (K1 & _) & AZ & OE & NX). cbn in AZ. subst e. apply Rabs_le_inv in K1.
    assert (EX : (0 <= extra_pixels (c / wl))%Z) by (unfold extra_pixels; repeat destruct (Rlt_dec _ _); lia).
    assert (KS : (k0 + 1 <= ks)%Z) by lia. apply IZR_le in KS. rewrite plus_IZR in KS. pose proof (enlarge_ge1 (c / wl)) as G. set (en := enlarge (c / wl)) in *.
    assert (FA : 9 / 2 <= factor 0 0 na) by (unfold factor; cbn [Z.eqb]; pose proof (sqrt_pos (/ na)); destruct (Rlt_dec (1 / 4) na); [destruct (Rlt_dec na 1)|]; lra).
    assert (FE : 9 / 2 * 1 <= factor 0 0 na * en) by (apply Rmult_le_compat; lra).
    pose proof (Rmult_le_compat_r (wl / px) _ _ ltac:(lra) FE) as FF. replace (factor 0 0 na * en * wl / px) with (factor 0 0 na * en * (wl / px)) in K1 by (unfold Rdiv; ring). lra. }
  assert (K3 : (3 <= ks)%Z) by (apply le_IZR; lra).
  destruct OD as (KP & OD). assert (MO : made_odd ks = ks) by (unfold made_odd; rewrite <- Z.negb_odd, OD; reflexivity).
  destruct (C32_airy_kernel rnd jv1 Vectorized fuel (0, 0)%Z px (expansion_coeff q) wl na (n_int_r q) (n_int_phi q) nz ks s Hs ltac:(lra) ltac:(lra) K3) as (K & v & EK & HK & VK).
  rewrite MO in HK, VK. cbv zeta in VK. exists q, K. split; [exact ES|].
  destruct (calculate_psf_kernel_w rnd jv1 fuel false nz (Some false) inst q s) as (s1 & ws & o1 & r) eqn:EX. cbn [fst snd].
  pose proof (proj2 (proj2 C81_outcome) _ _ _ _ _ _ _ _ _ _ _ _ _ EX) as EC.
  assert (RK : r = Ok K).
  { unfold calculate_psf_kernel in EC. rewrite F6 in EC. cbn [negb andb] in EC. cbv zeta in EC. rewrite F7 in EC. cbn [use_numba andb] in EC. rewrite F1, F2, F3, F8, F9 in EC.
    destruct (get_psf_kernel rnd jv1 fuel (0, 0)%Z px (expansion_coeff q) wl na (n_int_r q) (n_int_phi q) nz true ks Vectorized s) as (s2 & r2). cbn [snd] in EK. subst r2. congruence. }
  subst r. rewrite F9. assert (SQ : square K ks) by (destruct nz; apply HK). split; [reflexivity|]. split; [exact SQ|].
  destruct (C81_calculate _ _ _ _ _ _ _ _ _ _ _ _ _ OQ EX) as (HB & _). rewrite HB. intros (_ & i & j & x & EN & Hi & Hj & B & CUT).
  destruct (entry_inside K ks i j _ SQ Hi Hj EN) as (Bi & Bj). assert (LK : Z.of_nat (length K) = ks) by (destruct SQ as [L _]; exact L). rewrite LK in B.
  assert (HC : (0 <= ks / 2 < ks)%Z) by (split; [apply Z.div_pos; lia|apply Z.div_lt; lia]).
  destruct (proj1 (C26_polar_coordinates (IZR (ks / 2 - j)) (IZR (ks / 2 - i)))) as (rho & t & PO). pose proof (VK i j rho t PO) as VB.
  pose proof (border_far ks i j rho t KP OD B PO) as FAR.
  assert (PC : polar (IZR (ks / 2 - ks / 2)) (IZR (ks / 2 - ks / 2)) 0 0) by (replace (ks / 2 - ks / 2)%Z with 0%Z by ring; repeat split; lra).
  pose proof (VK (ks / 2)%Z (ks / 2)%Z 0 0 PC) as VC. rewrite Rmult_0_r in VC. pose proof (pattern_centre jv1 HJ) as C0. rewrite <- VC in C0.
  assert (RB : 9 <= 2 * PI / wl * na * px * rho).
  { rewrite minus_IZR in FAR. set (g := px * na / wl) in *. assert (G0 : 0 < g) by (unfold g, Rdiv; apply Rmult_lt_0_compat; [apply Rmult_lt_0_compat; lra|exact IW]).
    assert (GW : g * (wl / px) = na) by (unfold g; field; lra). replace (2 * PI / wl * na * px * rho) with (2 * PI * (g * rho)) by (unfold g; field; lra).
    assert (GR : g * (9 / 4 * (wl / px) - 1 / 4) <= g * rho) by (apply Rmult_le_compat_l; lra).
    replace (g * (9 / 4 * (wl / px) - 1 / 4)) with (9 / 4 * (g * (wl / px)) - 1 / 4 * g) in GR by ring. rewrite GW in GR.
    assert (X : 2 <= g * rho) by lra. pose proof (Rmult_le_compat 6 (2 * PI) 2 (g * rho) ltac:(lra) ltac:(lra) ltac:(lra) X). lra. }
  pose proof (pattern_small jv1 _ HJ RB) as SM. rewrite <- VB in SM.
  destruct nz; cbn [holds] in HK.
  - destruct HK as (_ & M & [MU _] & HE). rewrite HE in EN by lia. destruct (Req_EM_T M 0) as [M0|M0]; [discriminate|]. injection EN as <-.
    destruct (CUT (ks / 2)%Z (ks / 2)%Z (Fin (v (ks / 2)%Z (ks / 2)%Z / M)) ltac:(lia) ltac:(lia)) as (u & EU & LU); [rewrite HE by lia; destruct (Req_EM_T M 0); [contradiction|reflexivity]|].
    injection EU as <-. specialize (MU (ks / 2)%Z (ks / 2)%Z ltac:(lia) ltac:(lia)). assert (MP : 0 < M) by lra. apply (Rmult_lt_compat_r M) in LU; [|exact MP].
    replace (v (ks / 2)%Z (ks / 2)%Z / M / 20 * M) with (v (ks / 2)%Z (ks / 2)%Z / 20) in LU by (field; lra). replace (v i j / M * M) with (v i j) in LU by (field; lra). lra.
  - destruct HK as (_ & HE). rewrite HE in EN by lia. injection EN as <-.
    destruct (CUT (ks / 2)%Z (ks / 2)%Z (Fin (v (ks / 2)%Z (ks / 2)%Z)) ltac:(lia) ltac:(lia)) as (u & EU & LU); [rewrite HE by lia; reflexivity|]. injection EU as <-. lra.
Qed.
Print Assumptions C81_airy_quiet.
Lemma example_cut_off : cut_off [[Fin 0; Fin 0; Fin 0]; [Fin 0; Fin 1; Fin (1 / 10)]; [Fin 0; Fin 0; Fin 0]].
Proof.
  exists 1%Z, 2%Z, (1 / 10). split; [reflexivity|]. split; [lia|]. split; [lia|]. split; [unfold on_border; cbn; lia|].
    intros i j x Hi Hj E. assert (SQ : square [[Fin 0; Fin 0; Fin 0]; [Fin 0; Fin 1; Fin (1 / 10)]; [Fin 0; Fin 0; Fin 0]] 3) by (split; [reflexivity|repeat constructor]). destruct (entry_inside _ 3 i j x SQ Hi Hj E) as (Bi & Bj).
    assert (CI : (i = 0 \/ i = 1 \/ i = 2)%Z) by lia. assert (CJ : (j = 0 \/ j = 1 \/ j = 2)%Z) by lia.
    destruct CI as [-> | [-> | ->]], CJ as [-> | [-> | ->]]; cbn in E; injection E as <-; eexists; (split; [reflexivity|lra]).
Qed.
Lemma example_sizes : exists q ws, set_physical_props_w 1 (1 / 2) (KNum 6) (1 / 10) airy_disk = (q, (ws, Ok Datatypes.tt)) /\ length ws = 1%nat /\ settled q /\
     exists q' ws', set_calculation_props_w 4 600 500 q = (q', (ws', Ok Datatypes.tt)) /\ ws' = [MayBeTruncated; SlowPrecision].
Proof.
  assert (IR : in_range 1 (1 / 2) (1 / 10)) by (unfold in_range; lra). assert (F : fits (KNum 6) airy_disk) by (cbn; discriminate).
    destruct (C81_coefficients airy_disk 1 (1 / 2) (KNum 6) (1 / 10) airy_object IR F) as (q & ws & E & L & H). exists q, ws. split; [exact E|].
    pose proof (proj1 C81_outcome _ _ _ _ _ _ _ _ E) as ES. destruct (C80_single airy_disk 0 0 1 (1 / 2) 6 (1 / 10) airy_object eq_refl IR) as (q0 & ES0 & SZ). rewrite ES in ES0. injection ES0 as <-.
    assert (WS : length ws = 1%nat).
    { assert (NE : ws <> []) by (apply H; exists 6; split; [left; reflexivity|rewrite Rabs_pos_eq by lra; lra]). destruct ws as [|w0 [|? ?]]; cbn [length] in L |- *; [congruence|reflexivity|lia]. }
    split; [exact WS|]. split.
    { apply (s_physical 1 (1 / 2) (KNum 6) (1 / 10) airy_disk); [|exact ES]. apply (s_new (COne (IPol (0, 0)%Z))); [split; [apply valid00|lia]|reflexivity]. }
    assert (PS : props_set q = true).
    { destruct (physical_success 1 (1 / 2) (KNum 6) (1 / 10) airy_disk q (object_inv _ airy_object) ES) as (_ & _ & ks & _ & ->). reflexivity. }
    assert (KS : (5 < kernel_size q)%Z).
    { destruct SZ as (k0 & e & (K1 & _) & AZ & OE & NX). cbn in AZ. subst e. apply Rabs_le_inv in K1.
      assert (EX : (0 <= extra_pixels (6 / (1 / 2)))%Z) by (unfold extra_pixels; repeat destruct (Rlt_dec _ _); lia).
      pose proof (enlarge_ge1 (6 / (1 / 2))) as G. set (en := enlarge (6 / (1 / 2))) in *.
      assert (FA : 9 / 2 <= factor 0 0 1) by (unfold factor; cbn [Z.eqb]; pose proof (sqrt_pos (/ 1)); destruct (Rlt_dec (1 / 4) 1); [destruct (Rlt_dec 1 1)|]; lra).
      assert (FE : 9 / 2 * 1 <= factor 0 0 1 * en) by (apply Rmult_le_compat; lra).
      replace (factor 0 0 1 * en * (1 / 2) / (1 / 10)) with (5 * (factor 0 0 1 * en)) in K1 by field.
      assert (K2 : (20 < k0)%Z) by (apply lt_IZR; lra). lia. }
    unfold set_calculation_props_w. cbn [Z.ltb Z.compare Pos.compare Pos.compare_cont]. rewrite PS. change (if (4 mod 2 =? 0)%Z then (4 + 1)%Z else 4%Z) with 5%Z. cbv zeta.
    replace (5 <? kernel_size q)%Z with true by (symmetry; apply Z.ltb_lt; exact KS). eexists. eexists. split; [reflexivity|reflexivity].
Qed.
(** concrete cases: a size below the estimate is reported, a coefficient of twelve wavelengths too, and a kernel that ends on a bright pixel *)
Example C81_nonvacuous :
  (exists q ws, set_physical_props_w 1 (1 / 2) (KNum 6) (1 / 10) airy_disk = (q, (ws, Ok Datatypes.tt)) /\ length ws = 1%nat /\ settled q /\
     exists q' ws', set_calculation_props_w 4 600 500 q = (q', (ws', Ok Datatypes.tt)) /\ ws' = [MayBeTruncated; SlowPrecision]) /\
  cut_off [[Fin 0; Fin 0; Fin 0]; [Fin 0; Fin 1; Fin (1 / 10)]; [Fin 0; Fin 0; Fin 0]].
Proof. split; [exact example_sizes|exact example_cut_off]. Qed.
