(** Without rounding and with exact functions, the binary64 model of the PSF is the model M_Psf. *)
From Coq Require Import Reals Lra Lia.
From Verif Require Import Py SpecIndex SpecRadial M_Radial M_Coeffs SpecCoeffs RadialMath L_Trig L_Value M_Sum SpecSum L_Sum L_Fit M_Polar M_Geo M_Psf SpecPsf L_Psf L_PsfKernel M_Float L_Float M_FloatPsf L_FPsf5.
Import ListNotations.
Local Open Scope R_scope.

Notation idf := (fun x : R => x).
Notation hyp := (fun x y : R => sqrt (x * x + y * y)).
Notation sq := (fun x : R => x * x).
Notation plain := (fold_right Rplus 0).

Lemma value_isok0 fuel p x phi : okp fuel p -> isok (fzp_polynomial_value idf powerRZ cos sin fuel (fst p) (snd p) false x phi) (Z_nm (fst p) (snd p) x phi).
Proof.
  intros (V & HF) s RS. split; [apply value_reach; assumption|]. etransitivity; [apply (f_equal snd), (fzp_value_exact fuel (fst p) (snd p) false x phi s)|]. apply zp_value_ok; try assumption. discriminate.
Qed.
Lemma tl_isok0 fuel x phi ps : Forall (okp fuel) ps -> forall amps W, length amps = length ps ->
  isok (fphase_pols_tl idf powerRZ cos sin fuel ps amps x phi W) (W + zsum amps ps x phi).
Proof.
  induction 1 as [|[m n] ps OK F IH]; intros [|a amps] W L; try discriminate; cbn [fphase_pols_tl zsum].
  - eapply isok_ext; [|apply isok_ret]. ring.
  - eapply isok_bind; [apply (value_isok0 fuel (m, n)), OK|]. cbn [fst snd]. injection L as L. eapply isok_ext; [|apply IH, L]. ring.
Qed.
Lemma pols_isok0 fuel ps amps x phi : ps <> [] -> length amps = length ps -> Forall (okp fuel) ps -> isok (fphase_pols idf powerRZ cos sin fuel ps amps x phi) (zsum amps ps x phi).
Proof.
  intros NE L F. destruct ps as [|[m n] ps]; [elim NE; reflexivity|]. destruct amps as [|a amps]; [discriminate|]. inversion F; subst. injection L as L. unfold fphase_pols.
  eapply isok_bind; [apply (value_isok0 fuel (m, n)); assumption|]. cbn [fst snd zsum]. apply tl_isok0; assumption.
Qed.

Section Exact.
Variable ph : fphase.
Variable Phi : R -> R -> R.
Hypothesis PH : forall x phi, isok (ph x phi) (Phi x phi).
Variable n : Z.
Hypothesis Hn : (n <> 0)%Z.
Let nodes := r_nodes idf (1 / IZR n).
Let psi r theta phi x : cplx := (re_psi Phi r theta phi x, im_psi Phi r theta phi x).
Let g nphi r theta (i : Z) : cplx := (tr idf n (re_psi Phi r theta (IZR i * (2 * PI / IZR nphi))), tr idf n (im_psi Phi r theta (IZR i * (2 * PI / IZR nphi)))).

Lemma diff_isok0 phi theta r x : isok (fdiffraction idf cos sin ph phi theta r x) (psi r theta phi x).
Proof.
  unfold fdiffraction. eapply isok_bind; [apply PH|]. eapply isok_ext; [|apply isok_ret]. unfold psi, ffield, re_psi, im_psi. f_equal; ring.
Qed.
Lemma plain_rsum {A} (f : A -> R) l : plain (map f l) = rsum l f.
Proof. reflexivity. Qed.
Lemma radial_isok0 r theta phi : isok (fradial_integral idf cos sin plain ph n r theta phi) (tr idf n (re_psi Phi r theta phi), tr idf n (im_psi Phi r theta phi)).
Proof.
  unfold fradial_integral. replace (n =? 0)%Z with false by (symmetry; apply Z.eqb_neq; exact Hn). cbv zeta.
  eapply isok_bind; [apply diff_isok0|]. eapply isok_bind; [apply diff_isok0|].
  eapply isok_bind; [apply (mapM_isok _ (psi r theta phi)); intros x _; apply diff_isok0|]. eapply isok_ext; [|apply isok_ret].
  unfold fcscale, fcadd, fcsum, tr, trapezoid. cbn [fst snd]. rewrite !map_map. unfold psi. cbn [fst snd]. rewrite !plain_rsum. change (fun x : R => re_psi Phi r theta phi x) with (re_psi Phi r theta phi). change (fun x : R => im_psi Phi r theta phi x) with (im_psi Phi r theta phi). apply injective_projections; cbn [fst snd]; field; apply not_0_IZR; exact Hn.
Qed.
Lemma facc_isok0 (f : Z -> M cplx) h l : (forall i, In i l -> isok (f i) (h i)) -> forall acc, isok (faccumulate idf f l acc) (cadd acc (csum (map h l))).
Proof.
  induction l as [|i l IH]; intros H acc; cbn [faccumulate map csum fold_right].
  - eapply isok_ext; [|apply isok_ret]. unfold cadd. destruct acc. cbn [fst snd]. f_equal; ring.
  - eapply isok_bind; [apply H; left; reflexivity|]. cbv beta. eapply isok_ext; [|apply IH; intros; apply H; right; assumption].
    fold (csum (map h l)). unfold cadd, fcadd. cbn [fst snd]. f_equal; ring.
Qed.
Lemma fcsum_csum l : fcsum plain l = csum l.
Proof. unfold fcsum. rewrite !plain_rsum, <- csum_fst, <- csum_snd. symmetry. apply surjective_pairing. Qed.
Lemma end_isok0 nphi r theta ev od : ev = csum (map (g nphi r theta) (range2 2 (nphi - 2))) -> od = csum (map (g nphi r theta) (range2 1 (nphi - 1))) ->
  isok (fsimpson_end idf cos sin plain hyp sq ph n r theta (2 * PI / IZR nphi) ev od) (psf_rnd idf n nphi Phi r theta).
Proof.
  intros -> ->. unfold fsimpson_end. eapply isok_bind; [apply radial_isok0|]. eapply isok_bind; [apply radial_isok0|]. eapply isok_ext; [|apply isok_ret].
  unfold fcscale, fcadd. cbn [fst snd]. rewrite !csum_fst, !csum_snd, !rsum_map. unfold g. cbn [fst snd].
  match goal with |- sqrt ?a * sqrt ?a * _ = _ => rewrite (sqrt_sqrt a) end.
  - rewrite range_evens, range_odds. unfold psf_rnd, psf_on, angular, two_pi, tr, re_psi, im_psi. set (h := 2 * PI / IZR nphi). field. apply PI_neq0.
  - apply Rplus_le_le_0_compat; apply Rle_0_sqr.
Qed.
Lemma by_isok0 mt nphi r theta : (nphi <> 0)%Z -> isok (fpoint_by idf cos sin plain hyp sq mt ph n nphi r theta) (psf_rnd idf n nphi Phi r theta).
Proof.
  intros N. unfold fpoint_by. replace (nphi =? 0)%Z with false by (symmetry; apply Z.eqb_neq; exact N). cbv zeta. change (two_pi idf) with (2 * PI).
  assert (V : isok (run evens <- mapM (fun i => fradial_integral idf cos sin plain ph n r theta (IZR i * (2 * PI / IZR nphi))) (range2 2 (nphi - 2));
     run odds <- mapM (fun i => fradial_integral idf cos sin plain ph n r theta (IZR i * (2 * PI / IZR nphi))) (range2 1 (nphi - 1));
     fsimpson_end idf cos sin plain hyp sq ph n r theta (2 * PI / IZR nphi) (fcsum plain evens) (fcsum plain odds)) (psf_rnd idf n nphi Phi r theta)).
  { eapply isok_bind; [apply (mapM_isok _ (g nphi r theta)); intros i _; apply radial_isok0|]. eapply isok_bind; [apply (mapM_isok _ (g nphi r theta)); intros i _; apply radial_isok0|].
    cbv beta. apply end_isok0; apply fcsum_csum. }
  destruct mt; try exact V.
  eapply isok_bind; [apply (facc_isok0 _ (g nphi r theta)); intros i _; apply radial_isok0|]. eapply isok_bind; [apply (facc_isok0 _ (g nphi r theta)); intros i _; apply radial_isok0|].
  cbv beta. apply end_isok0; unfold cadd; cbn [fst snd]; rewrite !Rplus_0_l; symmetry; apply surjective_pairing.
Qed.
End Exact.
