(** The accelerated calculation in binary64 is the normal one, operation by operation. *)
From Coq Require Import Reals Lra Lia.
From Verif Require Import Py SpecIndex SpecRadial M_Radial L_Radial M_Coeffs M_Sum M_Polar M_Float L_Float M_Psf M_FloatPsf M_Numba L_Numba M_FloatNumba L_Sum.
Import ListNotations.
Local Open Scope R_scope.

Section Same.
Variable rnd : R -> R.
Variable pw : R -> Z -> R.
Variables fcos fsin : R -> R.
Variable npsum : list R -> R.
Variable fhyp : R -> R -> R.
Variable fsq : R -> R.
Variable fatan2 : R -> R -> R.
Hypothesis PW0 : forall x, pw x 0%Z = 1.

Lemma src_same m n : (m = 0 /\ n = 0)%Z \/ comp_src m n = radial_src m n.
Proof.
  destruct ((m =? 0) && (n =? 0))%Z eqn:E; [left; lia|right].
  unfold comp_src, radial_src. match goal with |- (if _ then _ else ?r) = _ => set (rest := r) end. rewrite E. reflexivity.
Qed.
Lemma src_feval m n r : option_map (fun e => feval rnd pw e r) (comp_src m n) = option_map (fun e => feval rnd pw e r) (radial_src m n).
Proof.
  destruct (src_same m n) as [(-> & ->)| ->]; [|reflexivity]. cbn [comp_src radial_src option_map feval Z.eqb andb]. rewrite PW0. reflexivity.
Qed.
Lemma value_same fuel p x phi s : comp_ok p -> (0 < fuel)%nat ->
  fzp_polynomial_value rnd pw fcos fsin fuel (fst p) (snd p) false x phi s = (s, fzernpol_value rnd pw fcos fsin p x phi).
Proof.
  destruct p as [m n]. intros (V & L & N) F. cbn [fst snd] in *. destruct fuel as [|fuel]; [lia|]. unfold fzp_polynomial_value, fzp_radial, mbind, mlift, mret. cbn [andb].
  replace (n <=? 12)%Z with true by (symmetry; apply Z.leb_le; lia). cbn [fradial_polynomial]. unfold fzernpol_value.
  assert (T := radial_table_ok m n x V L). rewrite radial_src_table in T. pose proof (src_feval m n x) as E.
  destruct (radial_src m n) as [e|]; [|elim N; cbn [option_map] in T; lia]. destruct (comp_src m n) as [e'|]; [|discriminate E]. cbn [option_map] in E. injection E as E. rewrite E. reflexivity.
Qed.
Lemma phase_same fuel p alpha x phi s : comp_ok p -> (0 < fuel)%nat -> fphase_pol rnd pw fcos fsin fuel p alpha x phi s = fphase_pol_comp rnd pw fcos fsin p alpha x phi s.
Proof.
  intros C F. unfold fphase_pol, fphase_pol_comp, mbind. rewrite value_same by assumption. unfold mlift. destruct (fzernpol_value rnd pw fcos fsin p x phi); reflexivity.
Qed.
Lemma tl_same fuel x phi ps : Forall comp_ok ps -> (0 < fuel)%nat -> forall amps W s,
  fphase_pols_tl rnd pw fcos fsin fuel ps amps x phi W s = (s, fpol_sums_tl rnd pw fcos fsin ps amps x phi W).
Proof.
  intros F F0. induction F as [|p ps C F IH]; intros [|a amps] W s; try reflexivity. cbn [fphase_pols_tl fpol_sums_tl]. unfold mbind. rewrite value_same by assumption.
  destruct (fzernpol_value rnd pw fcos fsin p x phi) as [v|e]; [|reflexivity]. cbn [bind]. apply IH.
Qed.
Lemma phases_same fuel ps amps x phi s : Forall comp_ok ps -> (0 < fuel)%nat -> fphase_pols rnd pw fcos fsin fuel ps amps x phi s = fphase_pols_comp rnd pw fcos fsin ps amps x phi s.
Proof.
  intros F F0. unfold fphase_pols, fphase_pols_comp. destruct F as [|p ps C F]; [reflexivity|]. destruct amps as [|a amps]; [reflexivity|]. unfold mbind, mlift. rewrite value_same by assumption.
  destruct (fzernpol_value rnd pw fcos fsin p x phi) as [v|e]; [|reflexivity]. cbn [bind]. apply tl_same; assumption.
Qed.

(** equal phases give equal results *)
Definition same {A} (x y : M A) : Prop := forall s, x s = y s.
Lemma same_bind {A B} (x y : M A) (f g : A -> M B) : same x y -> (forall a, same (f a) (g a)) -> same (mbind x f) (mbind y g).
Proof. intros H K s. unfold mbind. rewrite H. destruct (y s) as [s' [a|e]]; [apply K|reflexivity]. Qed.
Lemma same_refl {A} (x : M A) : same x x. Proof. intros s. reflexivity. Qed.
Lemma same_trans {A} (x y z : M A) : same x y -> same y z -> same x z. Proof. intros H K s. rewrite H. apply K. Qed.
Lemma same_sym {A} (x y : M A) : same x y -> same y x. Proof. intros H s. symmetry. apply H. Qed.
Lemma lift_bind {A B} (a : A) (f : A -> M B) : same (mbind (mlift (Ok a)) f) (f a). Proof. intros s. reflexivity. Qed.
Lemma same_mapM {A B} (f g : A -> M B) l : (forall a, same (f a) (g a)) -> same (mapM f l) (mapM g l).
Proof.
  intros H. induction l as [|a l IH]; [apply same_refl|]. cbn [mapM]. apply same_bind; [apply H|]. intros b. apply same_bind; [exact IH|]. intros bs. apply same_refl.
Qed.
Section Phase.
Variables ph ph' : fphase.
Hypothesis PH : forall x phi, same (ph x phi) (ph' x phi).
Lemma diffraction_same phi theta r x : same (fdiffraction rnd fcos fsin ph phi theta r x) (fdiffraction rnd fcos fsin ph' phi theta r x).
Proof. apply same_bind; [apply PH|]. intros a. apply same_refl. Qed.
Lemma radial_same n r theta phi : same (fradial_integral rnd fcos fsin npsum ph n r theta phi) (fradial_integral rnd fcos fsin npsum ph' n r theta phi).
Proof.
  unfold fradial_integral. destruct (n =? 0)%Z; [apply same_refl|]. cbv zeta. apply same_bind; [apply diffraction_same|]. intros fa. apply same_bind; [apply diffraction_same|]. intros fb.
  apply same_bind; [apply same_mapM; intros a; apply diffraction_same|]. intros fs. apply same_refl.
Qed.
Lemma simpson_same n r theta h e o : same (fsimpson_end rnd fcos fsin npsum fhyp fsq ph n r theta h e o) (fsimpson_end rnd fcos fsin npsum fhyp fsq ph' n r theta h e o).
Proof. unfold fsimpson_end. apply same_bind; [apply radial_same|]. intros a. apply same_bind; [apply radial_same|]. intros b. apply same_refl. Qed.
Lemma point_same n n' r theta : same (fpoint_by rnd fcos fsin npsum fhyp fsq Vectorized ph n n' r theta) (fpoint_by rnd fcos fsin npsum fhyp fsq Vectorized ph' n n' r theta).
Proof.
  unfold fpoint_by. destruct (n' =? 0)%Z; [apply same_refl|]. cbv zeta. apply same_bind; [apply same_mapM; intros i; apply radial_same|]. intros e.
  apply same_bind; [apply same_mapM; intros i; apply radial_same|]. intros o. apply simpson_same.
Qed.
Lemma fill_same n n' k NA px size :
  same (ffill_kernel rnd fatan2 (fpoint_by rnd fcos fsin npsum fhyp fsq Vectorized ph n n') k NA px size) (ffill_kernel rnd fatan2 (fpoint_by rnd fcos fsin npsum fhyp fsq Vectorized ph' n n') k NA px size).
Proof. unfold ffill_kernel. apply same_mapM. intros i. apply same_mapM. intros j. apply point_same. Qed.
End Phase.

Lemma kernel_same fuel p px alpha wl NA n_r n_phi normalize size : comp_ok p -> (0 < fuel)%nat ->
  same (fget_psf_kernel rnd pw fcos fsin npsum fhyp fsq fatan2 fuel p px alpha wl NA n_r n_phi normalize size Vectorized)
       (fget_psf_kernel_comp rnd pw fcos fsin npsum fhyp fsq fatan2 (Single p) px (AFloat alpha) wl NA n_r n_phi normalize size).
Proof.
  intros C F. unfold fget_psf_kernel, fget_psf_kernel_comp. destruct (Req_EM_T wl 0); [intros s; reflexivity|]. cbv zeta.
  apply same_trans with (2 := same_sym _ _ (lift_bind _ _)). eapply same_trans; [apply lift_bind|]. rewrite not_rejected by apply C. apply same_trans with (2 := same_sym _ _ (lift_bind _ _)).
  apply same_bind; [apply same_refl|]. intros _. apply same_bind; [apply fill_same|intros l; apply same_refl]. intros x phi s'. apply phase_same; assumption.
Qed.
Lemma kernels_same fuel ps amps px wl NA n_r n_phi normalize size : Forall comp_ok ps -> (0 < fuel)%nat ->
  same (fget_psf_kernel_zerns rnd pw fcos fsin npsum fhyp fsq fatan2 fuel ps amps px wl NA size n_r n_phi normalize)
       (fget_psf_kernel_comp rnd pw fcos fsin npsum fhyp fsq fatan2 (Several ps) px (AArr amps) wl NA n_r n_phi normalize size).
Proof.
  intros C F. unfold fget_psf_kernel_zerns, fget_psf_kernel_comp. apply same_bind; [apply same_refl|]. intros k. cbv zeta. rewrite existsb_false by exact C.
  apply same_trans with (2 := same_sym _ _ (lift_bind _ _)). apply same_bind; [apply same_refl|].
  intros _. apply same_bind; [apply fill_same|intros l; apply same_refl]. intros x phi s'. apply phases_same; assumption.
Qed.
End Same.
