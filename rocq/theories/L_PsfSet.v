(** Lemmas on the setters of ZernPSF. *)
From Coq Require Import Reals Lra Psatz.
From Flocq Require Import Core.
From Verif Require Import Py SpecIndex SpecRadial M_Index L_Index M_Init SpecInit L_Init M_Radial M_Coeffs SpecCoeffs M_Sum SpecSum M_Geo SpecGeo L_Sum M_Fit L_Fit M_Psf SpecPsf L_Psf L_PsfKernel M_Numba L_Numba M_PsfClass SpecPsfClass L_PsfClass SpecCropK L_CropK L_PsfObj.
Local Open Scope R_scope.

Definition base (na wl px : R) (o : zernpsf) : zernpsf :=
  with_pixel_size px (with_nyquist (5 / 10 * (5 / 10) * wl / na) (with_wavelength wl (with_NA na (with_k (2 * PI / wavelength o) o)))).
Definition store (c : coeff_arg) (o : zernpsf) : zernpsf :=
  match c with
  | KNum a => with_coeff a o
  | KSeq l => match polynomials o with [] => with_coeff (hd 0 l) o | _ => with_amplitudes (Some (map (fun x => x / wavelength o) l)) (with_coefficients (Some l) o) end
  | KBad _ => o
  end.
Definition final (na wl : R) (c : coeff_arg) (px : R) (ks : Z) (o : zernpsf) : zernpsf :=
  with_props_set true (with_kernel_size ks (store c (base na wl px o))).

Lemma nyq_eq na wl : na <> 0 -> 5 / 10 * (5 / 10) * wl / na = wl / (4 * na).
Proof. intros H. field. exact H. Qed.
Lemma Rltb_false x y : y <= x -> Rltb x y = false.
Proof. intros H. unfold Rltb. destruct (Rlt_dec x y); [lra|reflexivity]. Qed.
Lemma Rltb_true x y : x < y -> Rltb x y = true.
Proof. intros H. unfold Rltb. destruct (Rlt_dec x y); [reflexivity|lra]. Qed.
Lemma Rleb_false x y : y < x -> Rleb x y = false.
Proof. intros H. unfold Rleb. destruct (Rle_dec x y); [lra|reflexivity]. Qed.
Lemma Rleb_true x y : x <= y -> Rleb x y = true.
Proof. intros H. unfold Rleb. destruct (Rle_dec x y); [reflexivity|lra]. Qed.

Lemma base_reached na wl c px o : in_range na wl px ->
  set_physical_props na wl c px o = match set_coeff c (base na wl px o) with (o, Raise e) => (o, Raise e) | (o, Ok _) => estimate_size o end.
Proof.
  intros (A & W & P). unfold set_physical_props. rewrite (Rltb_false na 0), (Rltb_false (17 / 10) na), (Rleb_false wl 0) by lra. cbn [orb]. cbv zeta.
  rewrite pydiv_ok by lra. rewrite (Rleb_false px 0) by lra. rewrite (Rltb_false _ px) by (rewrite nyq_eq by lra; lra). reflexivity.
Qed.
Lemma inv_base na wl px o : inv o -> in_range na wl px -> inv (base na wl px o).
Proof.
  intros [] (A & W & P). assert (Q := PI_RGT_0). constructor; cbn; try assumption; try lra. apply Rdiv_lt_0_compat; lra.
Qed.
Lemma coeff_fits c o : inv o -> fits c o -> set_coeff c o = (store c o, Ok Datatypes.tt).
Proof.
  intros I F. destruct c as [a|l|e]; cbn [fits set_coeff store] in *; [| |contradiction].
  - destruct (zpol o); [reflexivity|contradiction].
  - destruct F as [NE [E|[E1 E2]]].
    + rewrite E, Nat.eqb_refl. destruct l as [|a l]; [contradiction|]. destruct (polynomials o); [discriminate|reflexivity].
    + rewrite E1, E2. cbn [length Nat.eqb]. destruct l as [|a [|b l]]; try discriminate. reflexivity.
Qed.
Lemma coeff_unfit c o : inv o -> ~ fits c o -> exists o' e, set_coeff c o = (o', Raise e).
Proof.
  intros I F. destruct c as [a|l|e]; cbn [fits set_coeff] in *.
  - destruct (zpol o) eqn:E; [exfalso; apply F; discriminate|]. assert (L := i_several o I E). destruct (polynomials o) as [|? [|]]; cbn in L; [lia|lia|]. eauto.
  - destruct (Nat.eqb_spec (length l) (length (polynomials o))) as [E|E].
    + destruct l as [|a l]; [eauto|]. exfalso. apply F. split; [discriminate|left; exact E].
    + destruct l as [|a [|b l]]; [eauto| |eauto]. destruct (polynomials o) eqn:EP; [|eauto]. exfalso. apply F. split; [discriminate|]. right. auto.
  - destruct (zpol o) eqn:E; [eauto|]. destruct (polynomials o) as [|? [|]]; eauto.
Qed.
Lemma inv_store c o : inv o -> fits c o -> inv (store c o).
Proof. intros I F. assert (H := inv_set_coeff c o I). rewrite (coeff_fits c o I F) in H. apply H. Qed.
Lemma estimate_ok o c na wl px : inv o -> in_range na wl px -> fits c o ->
  exists ks, odd_positive ks /\ estimate_size (store c (base na wl px o)) = (final na wl c px ks o, Ok Datatypes.tt).
Proof.
  intros I IR F. assert (IB := inv_base na wl px o I IR). assert (IS := inv_store c _ IB F).
  destruct IR as (A & W & P). unfold estimate_size.
  assert (Z1 : zpol (store c (base na wl px o)) = zpol o) by (destruct c as [a|l|e]; [reflexivity| |reflexivity]; cbn [store]; destruct (polynomials (base na wl px o)); reflexivity).
  assert (N1 : NA (store c (base na wl px o)) = na) by (destruct c as [a|l|e]; [reflexivity| |reflexivity]; cbn [store]; destruct (polynomials (base na wl px o)); reflexivity).
  rewrite Z1. destruct (zpol o) as [p|] eqn:E.
  - destruct (kernel_size_ok p (pixel_size (store c (base na wl px o))) (alpha (store c (base na wl px o))) (wavelength (store c (base na wl px o))) (NA (store c (base na wl px o)))) as (ks & -> & O);
      [assert (K := i_zpol o I); rewrite E in K; apply K|apply IS|apply IS|rewrite N1; lra|]. exists ks. split; [exact O|reflexivity].
  - assert (L := i_several o I E). destruct c as [a|l|e]; cbn [fits] in F; [exfalso; apply F, E| |contradiction].
    destruct F as [NE [EL|[_ EL]]]; [|rewrite EL in L; cbn in L; lia].
    assert (KP := i_pols o I). unfold final. cbn [store] in *. change (polynomials (base na wl px o)) with (polynomials o) in *.
    destruct (polynomials o) as [|p ps] eqn:EP; [cbn in L; lia|]. cbn [polynomials amplitudes with_amplitudes with_coefficients pixel_size wavelength NA base with_pixel_size with_nyquist with_wavelength with_NA with_k].
    rewrite EP. destruct (max_sizes_ok px wl na ltac:(lra) ltac:(lra) ltac:(lra) (p :: ps) (map (fun x => x / wl) l) 0%Z 0) as (mx & ma & -> & M0);
      [rewrite map_length; exact EL|exact KP|lia|]. eexists. split; [apply several_odd, M0|reflexivity].
Qed.
(** accepted calls *)
Lemma physical_ok na wl c px o : inv o -> in_range na wl px -> fits c o ->
  exists ks, odd_positive ks /\ set_physical_props na wl c px o = (final na wl c px ks o, Ok Datatypes.tt).
Proof.
  intros I IR F. rewrite base_reached by exact IR. rewrite (coeff_fits c _ (inv_base na wl px o I IR)) by exact F. apply estimate_ok; assumption.
Qed.
(** the others raise *)
Lemma physical_rejected na wl c px o : inv o -> ~ (in_range na wl px /\ fits c o) -> exists o' e, set_physical_props na wl c px o = (o', Raise e).
Proof.
  intros I H. unfold set_physical_props. destruct (Rltb na 0) eqn:E1; [eexists; eexists; reflexivity|]. destruct (Rltb (17 / 10) na) eqn:E2; [eexists; eexists; reflexivity|].
  cbn [orb]. destruct (Rleb wl 0) eqn:E3; [eexists; eexists; reflexivity|]. apply Rltb_f in E1, E2. apply Rleb_f in E3. cbv zeta.
  unfold pydiv. destruct (Req_EM_T na 0); [eexists; eexists; reflexivity|]. destruct (Rleb px 0) eqn:E4; [eexists; eexists; reflexivity|].
  destruct (Rltb _ px) eqn:E5; [eexists; eexists; reflexivity|]. apply Rleb_f in E4. apply Rltb_f in E5. rewrite nyq_eq in E5 by assumption.
  assert (IR : in_range na wl px) by (split; [lra|split; lra]).
  assert (NF : ~ fits c (base na wl px o)) by (intros F; apply H; split; assumption).
  destruct (coeff_unfit c (base na wl px o) (inv_base na wl px o I IR) NF) as (o' & e & E). fold (base na wl px o). rewrite E. eexists; eexists; reflexivity.
Qed.
Lemma physical_success na wl c px o o' : inv o -> set_physical_props na wl c px o = (o', Ok Datatypes.tt) ->
  in_range na wl px /\ fits c o /\ exists ks, odd_positive ks /\ o' = final na wl c px ks o.
Proof.
  intros I E. destruct (Classical_Prop.classic (in_range na wl px /\ fits c o)) as [[IR F]|N].
  - destruct (physical_ok na wl c px o I IR F) as (ks & O & E'). rewrite E' in E. injection E as <-. eauto.
  - destruct (physical_rejected na wl c px o I N) as (o'' & e & E'). rewrite E' in E. discriminate.
Qed.

(** the fields of the object after an accepted call *)
Lemma final_common na wl c px ks o : kern (final na wl c px ks o) = kern o /\ NA (final na wl c px ks o) = na /\ wavelength (final na wl c px ks o) = wl /\
  pixel_size (final na wl c px ks o) = px /\ pixel_size_nyquist (final na wl c px ks o) = 5 / 10 * (5 / 10) * wl / na /\ n_int_r (final na wl c px ks o) = n_int_r o /\
  n_int_phi (final na wl c px ks o) = n_int_phi o /\ props_set (final na wl c px ks o) = true /\ zpol (final na wl c px ks o) = zpol o /\
  polynomials (final na wl c px ks o) = polynomials o /\ airy (final na wl c px ks o) = airy o /\ kernel_size (final na wl c px ks o) = ks /\ k (final na wl c px ks o) = 2 * PI / wavelength o.
Proof.
  unfold final. destruct o as [a1 a2 a3 a4 a5 a6 a7 a8 a9 a10 a11 a12 a13 a14 a15 a16 a17].
  destruct c as [a|l|e]; [repeat split| |repeat split]. destruct a11; repeat split.
Qed.
Lemma final_num na wl a px ks o : expansion_coeff (final na wl (KNum a) px ks o) = a /\ alpha (final na wl (KNum a) px ks o) = a / wl /\
  coefficients (final na wl (KNum a) px ks o) = coefficients o /\ amplitudes (final na wl (KNum a) px ks o) = amplitudes o.
Proof. repeat split. Qed.
Lemma final_seq na wl l px ks o : polynomials o <> [] -> coefficients (final na wl (KSeq l) px ks o) = Some l /\ amplitudes (final na wl (KSeq l) px ks o) = Some (map (fun a => a / wl) l) /\
  expansion_coeff (final na wl (KSeq l) px ks o) = expansion_coeff o /\ alpha (final na wl (KSeq l) px ks o) = alpha o.
Proof.
  unfold final. destruct o as [a1 a2 a3 a4 a5 a6 a7 a8 a9 a10 a11 a12 a13 a14 a15 a16 a17]. cbn [polynomials]. intros N. destruct a11; [contradiction|]. repeat split.
Qed.
Lemma physical_num na wl a px o p : inv o -> in_range na wl px -> zpol o = Some p ->
  exists ks, get_kernel_size p px (a / wl) wl na = Ok ks /\ odd_positive ks /\ set_physical_props na wl (KNum a) px o = (final na wl (KNum a) px ks o, Ok Datatypes.tt).
Proof.
  intros I IR EZ. rewrite base_reached by exact IR. assert (IB := inv_base na wl px o I IR).
  assert (E : set_coeff (KNum a) (base na wl px o) = (with_coeff a (base na wl px o), Ok Datatypes.tt)) by (apply (coeff_fits (KNum a) _ IB); cbn [fits]; change (zpol (base na wl px o)) with (zpol o); congruence).
  rewrite E. destruct IR as (A & W & P). destruct (kernel_size_ok p px (a / wl) wl na) as (ks & EK & O); try lra; [assert (K := i_zpol o I); rewrite EZ in K; apply K|].
  exists ks. split; [exact EK|]. split; [exact O|]. unfold estimate_size. change (zpol (with_coeff a (base na wl px o))) with (zpol o). rewrite EZ.
  change (pixel_size (with_coeff a (base na wl px o))) with px. change (alpha (with_coeff a (base na wl px o))) with (a / wl).
  change (wavelength (with_coeff a (base na wl px o))) with wl. change (NA (with_coeff a (base na wl px o))) with na. rewrite EK. reflexivity.
Qed.
