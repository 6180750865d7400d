(** How the diffraction integral and its quadrature follow a tilt, a rotation and a mirroring of the wavefront (C66, C67). *)
From Coq Require Import Reals Lra Lia List Psatz.
From Coquelicot Require Import Coquelicot.
From Verif Require Import Py SpecIndex SpecRadial RadialMath M_Radial M_Sum SpecSum SpecGeo L_Trig L_Bound L_Ortho SpecPsf L_Psf M_Psf L_PsfKernel SpecDiff L_Slope L_Conv L_Conv2 L_Airy SpecDisk L_Disk L_Strehl.
Import ListNotations.
Local Open Scope R_scope.

(** ** only the phase at the pupil points matters *)
Lemma psf_on_psi h nodes n Phi Phi' r theta r' theta' :
  (forall p phi, Phi' p phi - r' * p * cos (phi - theta') = Phi p phi - r * p * cos (phi - theta)) -> psf_on h nodes n Phi' r' theta' = psf_on h nodes n Phi r theta.
Proof.
  intros K. unfold psf_on. cbv zeta. f_equal. f_equal; f_equal; apply angular_ext; intros phi; apply trapezoid_ext; intros; rewrite K; reflexivity.
Qed.
Lemma diff_psi Phi Phi' r theta r' theta' :
  (forall p phi, 0 <= p <= 1 -> Phi' p phi - r' * p * cos (phi - theta') = Phi p phi - r * p * cos (phi - theta)) -> diffraction_integral Phi' r' theta' = diffraction_integral Phi r theta.
Proof.
  intros K. rewrite !diff_mean. f_equal; f_equal; apply mean_ext; intros p phi Hp; rewrite K by exact Hp; reflexivity.
Qed.

(** ** tilt *)
Lemma Z11 p phi : Z_nm 1 1 p phi = 2 * (p * cos phi).
Proof.
  unfold Z_nm, norm_nm, T_m. cbn [Z.leb Z.compare Z.eqb Z.abs].
  replace (R_nm 1 1 p) with p.
  2:{ unfold R_nm. change (Z.to_nat ((1 + Z.abs 1) / 2)) with 1%nat. change (Z.to_nat ((1 - Z.abs 1) / 2)) with 0%nat. change (Z.to_nat 1) with 1%nat. cbn [sum_f_R0 Nat.sub Nat.mul fact Nat.add pow INR]. field. }
  replace (2 * (1 + 1) / (1 + 0)) with (2 * 2) by field. rewrite sqrt_square by lra. rewrite Rmult_1_l. ring.
Qed.
Lemma Zm11 p phi : Z_nm (-1) 1 p phi = 2 * (p * sin phi).
Proof.
  unfold Z_nm, norm_nm, T_m. cbn [Z.leb Z.compare Z.eqb Z.abs].
  replace (R_nm (-1) 1 p) with p.
  2:{ unfold R_nm. change (Z.to_nat ((1 + Z.abs (-1)) / 2)) with 1%nat. change (Z.to_nat ((1 - Z.abs (-1)) / 2)) with 0%nat. change (Z.to_nat 1) with 1%nat. cbn [sum_f_R0 Nat.sub Nat.mul fact Nat.add pow INR]. field. }
  replace (2 * (1 + 1) / (1 + 0)) with (2 * 2) by field. rewrite sqrt_square by lra. rewrite Rmult_1_l. ring.
Qed.
Lemma zsum_insert l1 l2 q : forall a1 a2 c x phi, length a1 = length l1 ->
  zsum (a1 ++ c :: a2) (l1 ++ q :: l2) x phi = zsum (a1 ++ a2) (l1 ++ l2) x phi + c * Z_nm (fst q) (snd q) x phi.
Proof.
  induction l1 as [|[m n] l1 IH]; intros [|a a1] a2 c x phi L; try discriminate.
  - destruct q as [m n]. cbn [app zsum fst snd]. ring.
  - injection L as L. cbn [app zsum]. rewrite IH by exact L. ring.
Qed.

Section Tilt.
Variables (rnd : R -> R) (n_r n_phi : Z) (wavelength NA px : R).
Let kap := 2 * PI / wavelength * NA * px.
(** the aberration plus c p cos(phi) + c' p sin(phi), a whole number of pixels *)
Lemma value_tilt Phi Phi' dx dy size i j : (forall p phi, Phi' p phi = Phi p phi + kap * p * (IZR dx * cos phi + IZR dy * sin phi)) ->
  value_at rnd n_r n_phi wavelength NA px Phi' size i j = value_at rnd n_r n_phi wavelength NA px Phi size (i + dy) (j + dx).
Proof.
  intros H. unfold value_at, psf_rnd. apply psf_on_psi. intros p phi. fold kap. rewrite H.
  replace (kap * pix_d size i j * p * cos (phi - pix_t size i j)) with (kap * p * (pix_d size i j * cos (phi - pix_t size i j))) by ring.
  replace (kap * pix_d size (i + dy) (j + dx) * p * cos (phi - pix_t size (i + dy) (j + dx))) with (kap * p * (pix_d size (i + dy) (j + dx) * cos (phi - pix_t size (i + dy) (j + dx)))) by ring.
  rewrite !pix_dir. rewrite !minus_IZR, !plus_IZR. ring.
Qed.
End Tilt.
Lemma diff_tilt Phi Phi' dx dy x y rho t rho' t' :
  (forall p phi, Phi' p phi = Phi p phi + p * (dx * cos phi + dy * sin phi)) -> polar x y rho t -> polar (x - dx) (y - dy) rho' t' ->
  diffraction_integral Phi' rho t = diffraction_integral Phi rho' t'.
Proof.
  intros H P P'. apply diff_psi. intros p phi _. rewrite H.
  replace (rho * p * cos (phi - t)) with (p * (rho * cos (phi - t))) by ring. replace (rho' * p * cos (phi - t')) with (p * (rho' * cos (phi - t'))) by ring.
  rewrite (polar_dir _ _ _ _ phi P), (polar_dir _ _ _ _ phi P'). ring.
Qed.

(** ** rotation and mirroring *)
Lemma RInt_mirror f : cts f -> (forall x, f (x + 2 * PI) = f x) -> RInt (fun x => f (- x)) 0 (2 * PI) = RInt f 0 (2 * PI).
Proof.
  intros C P. pose proof (RInt_comp_lin f (-1) 0 0 (2 * PI) ltac:(apply cts_int, C)) as H.
  change (RInt (fun x => -1 * f (-1 * x + 0)) 0 (2 * PI) = RInt f (-1 * 0 + 0) (-1 * (2 * PI) + 0)) in H.
  assert (E : RInt (fun x => -1 * f (-1 * x + 0)) 0 (2 * PI) = - RInt (fun x => f (- x)) 0 (2 * PI)).
  { rewrite <- (Ropp_involutive (RInt _ 0 (2 * PI))). f_equal. change (- RInt (fun x => -1 * f (-1 * x + 0)) 0 (2 * PI)) with (opp (RInt (fun x => -1 * f (-1 * x + 0)) 0 (2 * PI))).
    rewrite <- RInt_opp.
    - apply RInt_ext. intros x _. change (- (-1 * f (-1 * x + 0)) = f (- x)). replace (-1 * x + 0) with (- x) by ring. ring.
    - apply cts_int. intros x. apply (cts_mult (fun _ => -1) (fun x => f (-1 * x + 0))); [apply cts_const|]. apply (cts_comp f (fun x => -1 * x + 0)); [exact C|].
      intros y. apply (cts_plus (fun x => -1 * x) (fun _ => 0)); [apply k_cts|apply cts_const]. }
  rewrite E in H. rewrite <- (RInt_period f (- (2 * PI)) C P). rewrite RInt_shift by exact C.
  replace (-1 * 0 + 0) with 0 in H by ring. replace (-1 * (2 * PI) + 0) with (0 + - (2 * PI)) in H by ring. replace (2 * PI + - (2 * PI)) with 0 by ring.
  pose proof (opp_RInt_swap f (0 + - (2 * PI)) 0 ltac:(apply cts_int, C)) as S. change (- RInt f (0 + - (2 * PI)) 0 = RInt f 0 (0 + - (2 * PI))) in S. lra.
Qed.
Definition periodic (f : R -> R -> R) : Prop := forall p phi, f p (phi + 2 * PI) = f p phi.
(** phi -> e phi + a with e = 1 or e = -1 *)
Lemma mean_turn f a e : nice f -> periodic f -> e = 1 \/ e = -1 -> disk_mean (fun p phi => f p (e * phi + a)) = disk_mean f.
Proof.
  intros N P E. rewrite !mean_inner. f_equal. pose proof (inner_cts f N) as C.
  assert (PI' : forall x, inner f (x + 2 * PI) = inner f x) by (intros x; unfold inner; apply RInt_ext; intros p _; rewrite P; reflexivity).
  change (inner (fun p phi => f p (e * phi + a))) with (fun phi => inner f (e * phi + a)).
  destruct E as [-> | ->].
  - transitivity (RInt (fun x => inner f (x + a)) 0 (2 * PI)); [apply RInt_ext; intros; f_equal; ring|apply RInt_period; assumption].
  - transitivity (RInt (fun x => inner f (- x + a)) 0 (2 * PI)); [apply RInt_ext; intros; f_equal; ring|].
    rewrite (RInt_mirror (fun x => inner f (x + a))); [apply RInt_period; assumption| |].
    + apply (cts_comp (inner f) (fun x => x + a)); [exact C|]. apply (cts_plus (fun x => x) (fun _ => a)); [apply cts_id|apply cts_const].
    + intros x. replace (x + 2 * PI + a) with (x + a + 2 * PI) by ring. apply PI'.
Qed.
Lemma psi_periodic Phi r theta : periodic Phi -> periodic (fun p phi => Phi p phi - r * p * cos (phi - theta)).
Proof. intros P p phi. rewrite P. replace (phi + 2 * PI - theta) with (phi - theta + 2 * IZR 1 * PI) by (cbn; ring). rewrite cos_Zperiod. reflexivity. Qed.
Lemma diff_turn Phi Phi' a e r theta : nice Phi -> periodic Phi -> e = 1 \/ e = -1 -> (forall p phi, Phi' p phi = Phi p (e * phi + a)) ->
  diffraction_integral Phi' r theta = diffraction_integral Phi r (e * theta + a).
Proof.
  intros N P E H. rewrite !diff_mean. pose proof (psi_nice Phi r (e * theta + a) N) as PN. pose proof (psi_periodic Phi r (e * theta + a) P) as PP.
  set (psi := fun p phi => Phi p phi - r * p * cos (phi - (e * theta + a))) in *.
  assert (K : forall p phi, Phi' p phi - r * p * cos (phi - theta) = psi p (e * phi + a)).
  { intros p phi. unfold psi. rewrite H. f_equal. f_equal. destruct E as [-> | ->]; [f_equal; ring|]. rewrite <- (cos_neg (phi - theta)). f_equal. ring. }
  f_equal; f_equal.
  - change (fun p phi => cos (Phi p phi - r * p * cos (phi - (e * theta + a)))) with (fun p phi => cos (psi p phi)).
    rewrite <- (mean_turn (fun p phi => cos (psi p phi)) a e (cos_nice psi PN)); [|intros p phi; rewrite PP; reflexivity|exact E]. apply mean_ext. intros p phi _. rewrite K. reflexivity.
  - change (fun p phi => sin (Phi p phi - r * p * cos (phi - (e * theta + a)))) with (fun p phi => sin (psi p phi)).
    rewrite <- (mean_turn (fun p phi => sin (psi p phi)) a e (sin_nice psi PN)); [|intros p phi; rewrite PP; reflexivity|exact E]. apply mean_ext. intros p phi _. rewrite K. reflexivity.
Qed.
Lemma zsum_periodic ps : forall cs, periodic (zsum cs ps).
Proof.
  induction ps as [|[m n] ps IH]; intros [|c cs] p phi; cbn [zsum]; try reflexivity. rewrite (IH cs p phi). f_equal. f_equal.
  unfold Z_nm. f_equal. replace (phi + 2 * PI) with (phi + 2 * IZR 1 * PI) by (cbn; ring). apply T_period.
Qed.
