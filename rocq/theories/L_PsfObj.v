(** The invariant of all reachable ZernPSF objects. *)
From Coq Require Import Reals Lra Psatz.
From Verif Require Import Py SpecIndex SpecRadial M_Index L_Index M_Init SpecInit L_Init M_Radial M_Coeffs SpecCoeffs M_Sum SpecSum M_Geo SpecGeo L_Sum M_Fit L_Fit M_Psf SpecPsf L_Psf L_PsfKernel M_Numba L_Numba M_PsfClass SpecPsfClass L_PsfClass SpecCropK L_CropK.
Local Open Scope R_scope.

Record inv (o : zernpsf) : Prop := {
  i_zpol : match zpol o with Some p => kok p | None => True end;
  i_pols : Forall kok (polynomials o);
  i_size : odd_positive (kernel_size o);
  i_kern : kgood (kern o);
  i_na : 0 <= NA o <= 17 / 10;
  i_wl : 0 < wavelength o;
  i_px : 0 < pixel_size o;
  i_nr : (20 <= n_int_r o)%Z;
  i_nphi : (36 <= n_int_phi o)%Z;
  i_k : 0 < k o;
  i_several : zpol o = None -> (2 <= length (polynomials o))%nat }.

Lemma inv_defaults : inv defaults.
Proof.
  assert (P := PI_RGT_0).
  constructor; cbn [zpol polynomials kernel_size kern NA wavelength pixel_size n_int_r n_int_phi k defaults].
  - split; [|cbn; lia]. unfold valid. cbn. split; [lia|split; [lia|exists 0%Z; lia]].
  - constructor.
  - split; [lia|reflexivity].
  - split; [exists 1%Z; split; [split; [lia|reflexivity]|split; [reflexivity|repeat constructor]]|]. repeat constructor. cbn. lra.
  - lra.
  - lra.
  - lra.
  - lia.
  - lia.
  - apply Rdiv_lt_0_compat; lra.
  - discriminate.
Qed.
Lemma all_pols_spec l ps : all_pols l = Some ps <-> l = map IPol ps.
Proof.
  revert ps. induction l as [|x l IH]; intros ps; cbn [all_pols].
  - split; [intros [=]; subst; reflexivity|]. destruct ps; [reflexivity|discriminate].
  - destruct x as [p|].
    + destruct (all_pols l) as [qs|] eqn:E.
      * split; intros H.
        -- injection H as <-. cbn [map]. f_equal. apply IH. reflexivity.
        -- destruct ps as [|p' ps]; [discriminate|]. cbn [map] in H. injection H as H1 H2. apply IH in H2. congruence.
      * split; [discriminate|]. destruct ps as [|p' ps]; [discriminate|]. cbn [map]. intros H. injection H as H1 H2. apply IH in H2. discriminate.
    + split; [discriminate|]. destruct ps; discriminate.
Qed.
Lemma all_pols_none l : all_pols l = None <-> In IOther l.
Proof.
  induction l as [|[p|] l IH]; cbn [all_pols In].
  - split; [discriminate|intros []].
  - destruct (all_pols l); split; intros H; try discriminate; try reflexivity; [destruct H as [[=]|H]; apply IH in H; discriminate|right; apply IH; reflexivity].
  - split; auto.
Qed.
Lemma proper_all ps : Forall proper_item (map IPol ps) -> Forall kok ps.
Proof. rewrite Forall_map. apply Forall_impl. intros [m n] H. exact H. Qed.
Lemma inv_airy b o : inv o -> inv (with_airy b o).
Proof. intros []. constructor; assumption. Qed.
Lemma inv_init a o : proper_arg a -> zernpsf_init a = Ok o -> inv o.
Proof.
  intros P H. destruct inv_defaults as []. destruct a as [[p|]|l]; cbn [zernpsf_init proper_arg proper_item] in *.
  - injection H as <-. destruct p as [m n]. apply inv_airy. constructor; try assumption; discriminate.
  - injection H as <-. constructor; assumption.
  - destruct l as [|x l]; [discriminate|]. destruct l as [|y l].
    + destruct x as [[m n]|]; [|discriminate]. injection H as <-. inversion P; subst. apply inv_airy. constructor; try assumption; discriminate.
    + assert (H' : match all_pols (x :: y :: l) with None => Raise ValueError | Some ps =>
          if distinct_Z (map (fun p => get_osa_index (fst p) (snd p)) ps) then Ok (with_airy (existsb is_piston ps) (with_polynomials ps (with_zpol None defaults))) else Raise ValueError end = Ok o) by (destruct x; exact H).
      destruct (all_pols (x :: y :: l)) as [ps|] eqn:E; [|discriminate]. destruct (distinct_Z _); [|discriminate]. injection H' as <-.
      apply all_pols_spec in E. rewrite E in P. apply proper_all in P. apply inv_airy. constructor; try assumption; [exact I|].
      intros _. cbn [polynomials with_polynomials]. apply (f_equal (@length item)) in E. rewrite map_length in E. cbn [length] in E. lia.
Qed.

Lemma max_sizes_nonneg px wl na : 0 < px -> 0 < wl -> 0 < na -> forall ps amps mx ma mx' ma', Forall kok ps -> (0 <= mx)%Z ->
  max_sizes ps amps px wl na mx ma = Ok (mx', ma') -> (0 <= mx')%Z.
Proof.
  intros PX W A. induction ps as [|p ps IH]; intros [|a amps] mx ma mx' ma' F M0 E; cbn [max_sizes] in E; try discriminate.
  - injection E as <- _. exact M0.
  - injection E as <- _. exact M0.
  - inversion F; subst. destruct (kernel_size_ok p px a wl na) as (ks & EK & K1 & _); try assumption; [apply H1|]. rewrite EK in E. cbn [bind] in E.
    eapply IH; [eassumption| |exact E]. destruct (mx <? ks)%Z; lia.
Qed.
Lemma inv_size ks o : odd_positive ks -> inv o -> inv (with_kernel_size ks o).
Proof. intros H []. constructor; assumption. Qed.
Lemma inv_props b o : inv o -> inv (with_props_set b o).
Proof. intros []. constructor; assumption. Qed.
Lemma inv_estimate o : inv o -> 0 < NA o -> inv (fst (estimate_size o)).
Proof.
  intros I A. assert (I' := I). destruct I'. unfold estimate_size. destruct (zpol o) as [p|] eqn:E.
  - destruct (kernel_size_ok p (pixel_size o) (alpha o) (wavelength o) (NA o)) as (ks & -> & O); try assumption; [apply i_zpol0|]. apply inv_props, inv_size; assumption.
  - destruct (polynomials o) as [|p ps] eqn:EP.
    + destruct (amplitudes o); cbn [max_sizes fst]; apply inv_props, inv_size; try assumption; apply several_odd; lia.
    + destruct (amplitudes o) as [l|]; [|exact I].
      destruct (max_sizes (p :: ps) l (pixel_size o) (wavelength o) (NA o) 0 0) as [[mx ma]|] eqn:EM; [|exact I].
      apply max_sizes_nonneg in EM; try assumption; [|lia]. apply inv_props, inv_size; [apply several_odd, EM|exact I].
Qed.
Lemma inv_set_coeff c o : inv o -> inv (fst (set_coeff c o)) /\ NA (fst (set_coeff c o)) = NA o.
Proof.
  intros I. assert (I' := I). destruct I'. unfold set_coeff. destruct c as [a|l|e].
  - destruct (zpol o) as [p|] eqn:E; [|destruct (polynomials o) as [|? [|]] eqn:EP]; (split; [constructor; cbn; rewrite ?E, ?EP; assumption|reflexivity]).
  - destruct (_ =? _)%nat; [destruct l as [|a l]; (split; [constructor; assumption|reflexivity])|].
    destruct l as [|a [|b l]]; [split; [exact I|reflexivity]| |split; [exact I|reflexivity]].
    destruct (polynomials o) eqn:EP; (split; [constructor; cbn; rewrite ?EP; assumption|reflexivity]).
  - destruct (zpol o) as [p|] eqn:E; [|destruct (polynomials o) as [|? [|]] eqn:EP]; (split; [exact I|reflexivity]).
Qed.
Lemma Rltb_t x y : Rltb x y = true -> x < y.
Proof. unfold Rltb. destruct (Rlt_dec x y); [auto|discriminate]. Qed.
Lemma Rltb_f x y : Rltb x y = false -> y <= x.
Proof. unfold Rltb. destruct (Rlt_dec x y); [discriminate|lra]. Qed.
Lemma Rleb_t x y : Rleb x y = true -> x <= y.
Proof. unfold Rleb. destruct (Rle_dec x y); [auto|discriminate]. Qed.
Lemma Rleb_f x y : Rleb x y = false -> y < x.
Proof. unfold Rleb. destruct (Rle_dec x y); [discriminate|lra]. Qed.
Lemma inv_physical na wl c px o : inv o -> inv (fst (set_physical_props na wl c px o)).
Proof.
  intros I. assert (I' := I). destruct I'. unfold set_physical_props. destruct (Rltb na 0) eqn:E1; [exact I|]. destruct (Rltb (17 / 10) na) eqn:E2; [exact I|]. cbn [orb].
  destruct (Rleb wl 0) eqn:E3; [exact I|]. apply Rltb_f in E1, E2. apply Rleb_f in E3. cbv zeta.
  set (o1 := with_wavelength wl (with_NA na (with_k (2 * PI / wavelength o) o))).
  assert (P := PI_RGT_0).
  assert (I1 : inv o1) by (constructor; cbn; try assumption; try lra; apply Rdiv_lt_0_compat; lra).
  unfold pydiv. destruct (Req_EM_T na 0); [exact I1|]. set (o2 := with_nyquist _ o1).
  assert (I2 : inv o2) by (destruct I1; constructor; assumption).
  destruct (Rleb px 0) eqn:E4; [exact I2|]. destruct (Rltb _ px); [exact I2|]. apply Rleb_f in E4.
  assert (I3 : inv (with_pixel_size px o2)) by (destruct I2; constructor; assumption).
  destruct (inv_set_coeff c _ I3) as [I4 N4]. destruct (set_coeff c (with_pixel_size px o2)) as [o4 [u|e]]; [|exact I4].
  apply inv_estimate; [exact I4|]. cbn [fst] in N4. rewrite N4. cbn. lra.
Qed.
Lemma inv_calculation ks nr nphi o : inv o -> inv (fst (set_calculation_props ks nr nphi o)).
Proof.
  intros I. unfold set_calculation_props. destruct (ks <? 3)%Z eqn:E; [exact I|]. cbv zeta.
  assert (I1 : inv (with_kernel_size (if (ks mod 2 =? 0)%Z then (ks + 1)%Z else ks) o)) by (apply inv_size; [apply odd_up; lia|exact I]).
  destruct (nr <? 20)%Z eqn:E1; [exact I1|]. destruct (nphi <? 36)%Z eqn:E2; [exact I1|]. destruct I1. constructor; cbn in *; try assumption; lia.
Qed.
Lemma inv_kern K o : kgood K -> inv o -> inv (with_kern K o).
Proof. intros H []. constructor; assumption. Qed.
Lemma inv_calculate rnd jv1 fuel suppress normalized accelerated installed s o : inv o ->
  inv (fst (snd (calculate_psf_kernel rnd jv1 fuel suppress normalized accelerated installed o s))).
Proof.
  intros I. unfold calculate_psf_kernel. set (o1 := if negb (props_set o) && negb suppress then with_kernel_size 19 o else o).
  assert (I1 : inv o1) by (unfold o1; destruct (_ && _); [apply inv_size; [split; [lia|reflexivity]|exact I]|exact I]). clearbody o1. cbv zeta.
  destruct (zpol o1) as [p|].
  - destruct (use_numba accelerated installed).
    + destruct (get_psf_kernel_comp _ _ _ _ _ _ _ _ _ _ s) as [s' [K|e]] eqn:E; [|exact I1]. apply comp_shape in E. apply inv_kern; [apply E|exact I1].
    + destruct (get_psf_kernel _ _ _ _ _ _ _ _ _ _ _ _ _ _ s) as [s' [K|e]] eqn:E; [|exact I1]. apply single_shape in E. apply inv_kern; [apply E|exact I1].
  - destruct (polynomials o1) as [|p ps]; [cbn; apply inv_kern; [apply I1|exact I1]|]. destruct (amplitudes o1) as [amps|]; [|exact I1].
    destruct (use_numba accelerated installed).
    + destruct (get_psf_kernel_comp _ _ _ _ _ _ _ _ _ _ s) as [s' [K|e]] eqn:E; [|exact I1]. apply comp_shape in E. apply inv_kern; [apply E|exact I1].
    + destruct (get_psf_kernel_zerns _ _ _ _ _ _ _ _ _ _ _ s) as [s' [K|e]] eqn:E; [|exact I1]. apply zerns_shape in E. apply inv_kern; [apply E|exact I1].
Qed.
Lemma parallel_nonneg rnd fuel w p a nr nphi r t s s' v : point_parallel rnd fuel w p a nr nphi r t s = (s', Ok v) -> 0 <= v.
Proof.
  assert (B : forall A (x : M A) (f : A -> M R) s s' v, (forall a s s' v, f a s = (s', Ok v) -> 0 <= v) -> mbind x f s = (s', Ok v) -> 0 <= v).
  { intros A x f s0 s0' v0 H. unfold mbind. destruct (x s0) as [s1 [y|]]; [apply H|discriminate]. }
  unfold point_parallel. destruct (nphi =? 0)%Z; [discriminate|]. cbv zeta. apply B. intros a1 s1 s1' v1. apply B. intros a2 s2 s2' v2. apply simpson_nonneg.
Qed.
Lemma inv_parallel rnd fuel w normalize s o : inv o -> inv (fst (snd (get_kernel_parallel rnd fuel w normalize o s))).
Proof.
  intros I. assert (O := i_size o I). unfold get_kernel_parallel. destruct (zpol o) as [p|].
  - destruct (kernel_size o <? 3)%Z; [exact I|].
    destruct (fill_kernel _ (k o) (NA o) (pixel_size o) (kernel_size o) s) as [s' [l|]] eqn:E; [|exact I]. apply fill_shape in E; [|destruct O; lia|apply parallel_nonneg].
    destruct E as [SQ P]. destruct (finish_good normalize l _ SQ P) as [SQ' P']. apply inv_kern; [|exact I]. split; [exists (kernel_size o); auto|exact P'].
  - cbv zeta. cbn [fst snd]. apply inv_kern; [|apply inv_size; [split; [lia|reflexivity]|exact I]].
    assert (SQ : square [[0; 0; 0]; [0; 0; 0]; [0; 0; 0]] 3) by (split; [reflexivity|repeat constructor]).
    assert (P : Forall (Forall (fun v => 0 <= v)) [[0; 0; 0]; [0; 0; 0]; [0; 0; 0]]) by (repeat constructor; lra).
    destruct (finish_good normalize _ _ SQ P) as [SQ' P']. split; [exists 3%Z; split; [split; [lia|reflexivity]|exact SQ']|exact P'].
Qed.

(** a good kernel is finite, or its maximum is NaN *)
Lemma fold_fmax_nan l : fold_left fmax l NaN = NaN.
Proof. induction l as [|a l IH]; [reflexivity|]. exact IH. Qed.
Lemma finite_or_nan l : Forall pix_ok l -> (exists xs, l = map Fin xs /\ Forall (fun x => 0 <= x) xs) \/ fmax_list l = NaN.
Proof.
  intros F. assert (G : forall l, Forall pix_ok l -> (exists xs, l = map Fin xs /\ Forall (fun x => 0 <= x) xs) \/ forall x, fold_left fmax l (Fin x) = NaN).
  { clear. induction 1 as [|a l Ha F IH]; [left; exists []; split; [reflexivity|constructor]|]. destruct a as [a| |b]; [|right; intros x; cbn; apply fold_fmax_nan|destruct Ha].
    destruct IH as [(xs & -> & P)|N]; [left; exists (a :: xs); split; [reflexivity|constructor; assumption]|]. right. intros x. cbn [fold_left].
    assert (E : fmax (Fin x) (Fin a) = Fin (if Rltb x a then a else x)) by (unfold fmax; cbn [fltb]; destruct (Rltb x a); reflexivity). rewrite E. apply N. }
  destruct l as [|[x| |b] l]; [left; exists []; split; [reflexivity|constructor]| | |inversion F; contradiction].
  - inversion F; subst. destruct (G l) as [(xs & -> & P)|N]; [assumption|left; exists (x :: xs); split; [reflexivity|constructor; assumption]|]. right. apply N.
  - right. cbn. apply fold_fmax_nan.
Qed.
Lemma kgood_cases K : kgood K -> (exists n v, odd_positive n /\ holds_raw K n v /\ forall i j, (0 <= i < n)%Z -> (0 <= j < n)%Z -> 0 <= v i j) \/ fmax_list (concat K) = NaN.
Proof.
  intros [(n & O & SQ) F]. assert (FC : Forall pix_ok (concat K)).
  { apply Forall_forall. intros x H. apply in_concat in H. destruct H as (r & I & H). rewrite Forall_forall in F. specialize (F r I). rewrite Forall_forall in F. apply F, H. }
  destruct (finite_or_nan _ FC) as [(xs & E & P)|N]; [left|right; exact N].
  assert (V : forall i j, (0 <= i < n)%Z -> (0 <= j < n)%Z -> exists x, entry K i j = Some (Fin x) /\ 0 <= x).
  { intros i j Hi Hj. destruct SQ as [L FL]. unfold entry. destruct (nth_error K (Z.to_nat i)) as [r|] eqn:ER; [|apply nth_error_None in ER; lia].
    assert (IR := nth_error_In _ _ ER). rewrite Forall_forall in FL. assert (LR := FL r IR).
    destruct (nth_error r (Z.to_nat j)) as [x|] eqn:EX; [|apply nth_error_None in EX; lia]. assert (IX := nth_error_In _ _ EX).
    assert (IC : In x (concat K)) by (apply in_concat; exists r; auto). rewrite E in IC. apply in_map_iff in IC. destruct IC as (y & <- & IY).
    exists y. split; [reflexivity|]. rewrite Forall_forall in P. apply P, IY. }
  exists n, (fun i j => match entry K i j with Some (Fin x) => x | _ => 0 end). split; [exact O|]. split.
  - split; [exact SQ|]. intros i j Hi Hj. destruct (V i j Hi Hj) as (x & -> & _). reflexivity.
  - intros i j Hi Hj. destruct (V i j Hi Hj) as (x & -> & P0). exact P0.
Qed.
Lemma fltb_nan a : fltb a NaN = false.
Proof. destruct a; reflexivity. Qed.
Lemma crop_nan part o : fmax_list (concat (kern o)) = NaN -> fst (crop_kernel part o) = o.
Proof.
  intros E. unfold crop_kernel. destruct (kernel_size o <=? 3)%Z; [reflexivity|]. rewrite E. destruct (Rleb part 0); [reflexivity|]. destruct (Rleb (5 / 10) part); [reflexivity|].
  cbv zeta. cbn [fscale].
  assert (S0 : forall f rows cols, crop_steps f (kern o) rows cols 0 NaN = 0%Z).
  { intros [|f] rows cols; [reflexivity|]. cbn [crop_steps]. unfold dark. rewrite fltb_nan. reflexivity. }
  rewrite S0. reflexivity.
Qed.
Lemma inv_crop part o : inv o -> inv (fst (crop_kernel part o)).
Proof.
  intros I. destruct (kgood_cases _ (i_kern o I)) as [(n & v & O & H & V)|N]; [|rewrite crop_nan by exact N; exact I].
  destruct (Z.leb_spec (kernel_size o) 3) as [L|L].
  { unfold crop_kernel. replace (kernel_size o <=? 3)%Z with true by lia. exact I. }
  destruct (Rle_dec part 0) as [P0|P0]; [unfold crop_kernel, Rleb; destruct (_ <=? _)%Z; [exact I|]; destruct (Rle_dec part 0); [exact I|contradiction]|].
  destruct (Rle_dec (5 / 10) part) as [P1|P1].
  { unfold crop_kernel, Rleb; destruct (_ <=? _)%Z; [exact I|]; destruct (Rle_dec part 0); [exact I|]; destruct (Rle_dec (5 / 10) part); [exact I|contradiction]. }
  destruct (crop_ok o n v part O H V L) as (M & d & _ & D0 & OD & _ & _ & ->); [lra|]. cbn [fst]. destruct (0 <? d)%Z; [|exact I].
  apply inv_size; [exact OD|]. apply inv_kern; [|exact I]. split.
  - exists (n - 2 * d)%Z. split; [exact OD|]. rewrite table_map. apply table_square. destruct OD. lia.
  - rewrite Forall_map. unfold table. rewrite Forall_map. apply Forall_forall. intros i Hi. rewrite !Forall_map. apply Forall_forall. intros j Hj. apply zrange_In in Hi, Hj.
    destruct OD. cbn. apply V; lia.
Qed.

(** reading a saved file *)
Lemma pol_of_osa_ok p : kok p -> pol_of_osa (osa_of p) = Ok p.
Proof.
  destruct p as [m n]. intros [V L]. cbn [fst snd] in *. unfold pol_of_osa, osa_of. cbn [fst snd].
  rewrite (init_denotes _ m n).
  - reflexivity.
  - apply den_osa; [cbn; auto|exact V|reflexivity].
  - destruct V as (N & A & E). split; [lia|split; [exact E|lia]].
Qed.
Lemma pols_of_osa_ok ps : Forall kok ps -> mapR pol_of_osa (map osa_of ps) = Ok ps.
Proof. induction 1 as [|p ps H F IH]; [reflexivity|]. cbn [map mapR]. rewrite pol_of_osa_ok by exact H. cbn [bind]. rewrite IH. reflexivity. Qed.

Lemma inv_read o1 j o : inv o1 -> saved_data o1 = Ok (Some j) -> inv o -> inv (fst (read_json j o)).
Proof.
  intros I1 E I. unfold saved_data in E.
  set (b := fun o => with_n_int_phi (n_int_phi o1) (with_n_int_r (n_int_r o1) (with_kernel_size (kernel_size o1) (with_kern (kern o1) o)))).
  assert (IB : inv (b o)) by (destruct I1, I; constructor; assumption).
  destruct (zpol o1) as [p|] eqn:EP.
  - injection E as <-. unfold read_json. cbn [opt j_nphi j_nr j_size j_kernel]. fold (b o). unfold read_pols. cbn [j_pol j_pols].
    assert (KP := i_zpol o1 I1). rewrite EP in KP. rewrite (pol_of_osa_ok p KP). cbn [j_na j_wl j_px j_coeff j_amps j_kernel j_size j_nr j_nphi is_some andb].
    apply inv_physical. destruct IB. constructor; try assumption; discriminate.
  - destruct (polynomials o1) as [|p ps] eqn:EPS; [discriminate|]. destruct (coefficients o1) as [l|]; [|discriminate]. injection E as <-.
    assert (KP := i_pols o1 I1). rewrite EPS in KP.
    unfold read_json. cbn [opt j_nphi j_nr j_size j_kernel]. fold (b o). unfold read_pols. cbn [j_pol j_pols].
    destruct ps as [|q ps].
    + cbn [map]. inversion KP; subst. rewrite (pol_of_osa_ok p) by assumption. cbn [j_na j_wl j_px j_coeff j_amps j_kernel j_size j_nr j_nphi is_some andb].
      apply inv_physical. apply inv_airy. destruct IB. constructor; try assumption; discriminate.
    + set (P := p :: q :: ps) in *. change (osa_of p :: map osa_of (q :: ps)) with (map osa_of P).
      cbn [map]. change (osa_of p :: osa_of q :: map osa_of ps) with (map osa_of P). rewrite (pols_of_osa_ok P KP).
      cbn [j_na j_wl j_px j_coeff j_amps j_kernel j_size j_nr j_nphi is_some andb].
      apply inv_physical. apply inv_airy. destruct IB. constructor; try assumption; [exact Logic.I|]. intros _. cbn. lia.
Qed.

Lemma object_inv o : object o -> inv o.
Proof.
  induction 1; [eapply inv_init; eassumption|apply inv_physical; assumption|apply inv_calculation; assumption|apply inv_calculate; assumption|apply inv_parallel; assumption
    |apply inv_crop; assumption|match goal with E : saved_data ?a = _ |- _ => apply (inv_read a); assumption end].
Qed.
