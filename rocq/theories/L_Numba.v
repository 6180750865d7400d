(** Lemmas on the accelerated calculation. *)
From Coq Require Import Reals Lra Psatz.
From Verif Require Import Py SpecIndex SpecRadial RadialMath M_Radial L_Radial M_Coeffs SpecCoeffs L_CoeffVal L_Value M_Sum SpecSum M_Geo SpecGeo L_Sum M_Polar L_Polar L_Geo M_Fit L_Fit M_Psf SpecPsf L_Psf L_PsfKernel M_Numba.
Local Open Scope R_scope.

Lemma table_comp_eq m n r : radial_table_comp m n r = radial_table m n r.
Proof. reflexivity. Qed.

(** polynomials for which the accelerated value is the right one *)
Definition comp_ok (p : Z * Z) : Prop := valid (fst p) (snd p) /\ (snd p <= 10)%Z /\ ~ ((8 <= snd p)%Z /\ Z.abs (fst p) = snd p).

Lemma norm_comp m n : valid m n -> (if (m =? 0)%Z then sqrt (IZR (n + 1)) else sqrt (IZR (2 * (n + 1)))) = norm_nm m n.
Proof.
  intros V. unfold norm_nm. rewrite mult_IZR, plus_IZR. destruct (m =? 0)%Z; f_equal; field.
Qed.
Lemma trig_comp m t : (if (0 <=? m)%Z then cos (IZR m * t) else - sin (IZR m * t)) = T_m m t.
Proof.
  unfold T_m. destruct (Z.leb_spec 0 m) as [L|L]; [reflexivity|]. rewrite Z.abs_neq by lia. rewrite opp_IZR.
  replace (- IZR m * t) with (- (IZR m * t)) by ring. rewrite sin_neg. reflexivity.
Qed.
Lemma zernpol_value_ok p r t : comp_ok p -> zernpol_value p r t = Ok (Zv p r t).
Proof.
  destruct p as [m n]. intros (V & L & N). cbn [fst snd] in *. unfold zernpol_value. rewrite table_comp_eq.
  assert (T := radial_table_ok m n r V L). destruct (radial_table m n r) as [v|]; [|elim N; lia].
  rewrite norm_comp, trig_comp by exact V. subst v. unfold Zv, Z_nm. cbn [fst snd]. rewrite R_nm_F by exact V. fold (Fmn m n r). f_equal. ring.
Qed.
Lemma zernpol_value_diag m n r t : (8 <= n)%Z -> Z.abs m = n -> zernpol_value (m, n) r t = Ok (powerRZ r n).
Proof.
  intros L E. unfold zernpol_value. rewrite table_comp_eq.
  assert (T : radial_table m n r = None).
  { unfold radial_table.
    repeat match goal with |- context [((?a =? ?b) && (?c =? ?d))%Z] => replace ((a =? b) && (c =? d))%Z with false by lia end. reflexivity. }
  rewrite T. replace ((7 <? n) && (Z.abs m =? n))%Z with true by lia. reflexivity.
Qed.

Lemma mapR_ok {A B} (f : A -> res B) g l : (forall x, f x = Ok (g x)) -> mapR f l = Ok (map g l).
Proof. intros H. induction l as [|a l IH]; [reflexivity|]. cbn [mapR map]. rewrite H, IH. reflexivity. Qed.

Lemma pointwise_computes z Phi : (forall x phi, z x phi = Ok (Phi x phi)) -> computes (pointwise z) Phi.
Proof.
  intros H. split.
  - intros x phi _. unfold pointwise. apply isok_lift. rewrite H. reflexivity.
  - intros xs phi _ _. unfold pointwise. eapply isok_bind; [apply isok_lift, finite_Fin|]. cbv beta. apply isok_lift.
    rewrite (mapR_ok _ (fun x => Phi x phi)) by (intros x; apply H). reflexivity.
Qed.
Lemma phase_comp_computes p alpha : comp_ok p -> computes (phase_pol_comp p alpha) (fun x phi => alpha * Zv p x phi).
Proof. intros H. apply pointwise_computes. intros x phi. rewrite zernpol_value_ok by exact H. reflexivity. Qed.

Lemma pol_sums_tl_ok x phi : forall ps amps acc, length amps = length ps -> Forall comp_ok ps ->
  pol_sums_tl ps amps x phi acc = Ok (acc + zsum amps ps x phi).
Proof.
  induction ps as [|[m n] ps IH]; intros [|a amps] acc L F; try discriminate.
  - cbn. f_equal. ring.
  - inversion F; subst. cbn [pol_sums_tl]. rewrite zernpol_value_ok by assumption. cbn [bind]. rewrite IH by (try assumption; injection L; auto).
    cbn [zsum]. f_equal. unfold Zv. cbn [fst snd]. ring.
Qed.
Lemma pols_comp_computes ps amps : ps <> [] -> length amps = length ps -> Forall comp_ok ps ->
  computes (phase_pols_comp ps amps) (fun x phi => zsum amps ps x phi).
Proof.
  intros N L F. apply pointwise_computes. intros x phi. destruct ps as [|[m n] ps]; [elim N; reflexivity|]. destruct amps as [|a amps]; [discriminate|].
  inversion F; subst. cbn [pol_sums]. rewrite zernpol_value_ok by assumption. cbn [bind]. rewrite pol_sums_tl_ok by (try assumption; injection L; auto).
  cbn [zsum]. reflexivity.
Qed.

Lemma rejected_iff p : rejected_comp p = true <-> (10 < snd p)%Z.
Proof. destruct p as [m n]. unfold rejected_comp. cbn [snd]. lia. Qed.
Lemma not_rejected p : (snd p <= 10)%Z -> rejected_comp p = false.
Proof. intros H. destruct (rejected_comp p) eqn:E; [apply rejected_iff in E; lia|reflexivity]. Qed.

Section Kernels.
Variables (rnd : R -> R) (n_r n_phi : Z) (wavelength NA px : R).
Hypothesis HG : good rnd n_r.
Hypothesis HP : (n_phi <> 0)%Z.
Hypothesis HW : wavelength <> 0.
Hypothesis HA : NA <> 0.

Lemma comp_isok tg al ph Phi normalize kernel_size : (0 <= kernel_size)%Z -> computes ph Phi ->
  (match tg, al with
   | Single p, AFloat a => do a <- pydiv a wavelength; if rejected_comp p then Raise ValueError else Ok (phase_pol_comp p a)
   | Single _, _ => Raise TypeError
   | Several ps, AArr amps => if existsb rejected_comp ps then Raise ValueError else Ok (phase_pols_comp ps amps)
   | Several ps, _ => if existsb rejected_comp ps then Raise ValueError else Raise TypeError
   end) = Ok ph ->
  isok (get_psf_kernel_comp rnd tg px al wavelength NA n_r n_phi normalize kernel_size)
       (finish normalize (table (value_at rnd n_r n_phi wavelength NA px Phi (odd_size kernel_size)) (odd_size kernel_size))).
Proof.
  intros S C E. unfold get_psf_kernel_comp. eapply isok_bind; [apply pydiv_isok, HW|].
  cbv beta zeta. assert (B := odd_size_ge kernel_size). replace (odd_size kernel_size <? 0)%Z with false by (symmetry; apply Z.ltb_ge; lia).
  eapply isok_bind; [apply isok_lift; exact E|]. cbv beta.
  eapply isok_bind; [apply pydiv_isok, HA|]. eapply isok_bind; [|apply isok_ret].
  destruct HG as (N & D & NE). eapply isok_ext; [|apply fill_isok; intros d t; apply vec_isok;
    [exact C|exact N|exact D|exact NE|exact HP|intros [_ H]; discriminate]].
  reflexivity.
Qed.
Lemma comp_single_isok p alpha normalize kernel_size : comp_ok p -> (0 <= kernel_size)%Z ->
  isok (get_psf_kernel_comp rnd (Single p) px (AFloat alpha) wavelength NA n_r n_phi normalize kernel_size)
       (finish normalize (table (value_at rnd n_r n_phi wavelength NA px (fun x phi => alpha / wavelength * Zv p x phi) (odd_size kernel_size)) (odd_size kernel_size))).
Proof.
  intros OK S. apply (comp_isok _ _ _ _ _ _ S (phase_comp_computes p (alpha / wavelength) OK)).
  unfold pydiv. destruct (Req_EM_T wavelength 0); [contradiction|]. cbn [bind]. rewrite not_rejected by (apply OK). reflexivity.
Qed.
Lemma existsb_false ps : Forall comp_ok ps -> existsb rejected_comp ps = false.
Proof. induction 1 as [|p ps H F IH]; [reflexivity|]. cbn [existsb]. rewrite IH, not_rejected by (apply H). reflexivity. Qed.
Lemma comp_list_isok ps amps normalize kernel_size : ps <> [] -> length amps = length ps -> Forall comp_ok ps -> (0 <= kernel_size)%Z ->
  isok (get_psf_kernel_comp rnd (Several ps) px (AArr amps) wavelength NA n_r n_phi normalize kernel_size)
       (finish normalize (table (value_at rnd n_r n_phi wavelength NA px (fun x phi => zsum amps ps x phi) (odd_size kernel_size)) (odd_size kernel_size))).
Proof.
  intros N L OK S. apply (comp_isok _ _ _ _ _ _ S (pols_comp_computes ps amps N L OK)). rewrite existsb_false by exact OK. reflexivity.
Qed.
End Kernels.
