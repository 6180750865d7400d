(** Convergence of the PSF to the diffraction integral, continued (C52). *)
From Coq Require Import Reals Lra Lia Psatz Arith List.
From Coquelicot Require Import Coquelicot.
From Verif Require Import Py SpecIndex SpecRadial RadialMath M_Sum SpecSum M_Polar L_Polar M_Psf SpecPsf L_Psf L_PsfKernel L_PsfNodes L_Bound L_Trig L_Ortho SpecDiff L_Slope L_Conv.
Import ListNotations.
Local Open Scope R_scope.

Lemma lip_cts g B : (forall x y, Rabs (g x - g y) <= B * Rabs (x - y)) -> cts g.
Proof.
  intros H x. apply continuity_pt_filterlim. intros e He. exists (e / (Rabs B + 1)). pose proof (Rabs_pos B) as PB.
  split; [apply Rdiv_lt_0_compat; lra|]. intros y [_ Hy]. cbn in *. unfold R_dist in *. eapply Rle_lt_trans; [apply H|].
  apply (Rmult_lt_compat_r (Rabs B + 1)) in Hy; [|lra]. unfold Rdiv in Hy. rewrite Rmult_assoc, Rinv_l, Rmult_1_r in Hy by lra.
  pose proof (Rle_abs B). pose proof (Rabs_pos (y - x)). nra.
Qed.
Lemma int_p : RInt (fun p => p) 0 1 = 1 / 2.
Proof.
  apply is_RInt_unique. replace (1 / 2) with (minus (1 * 1 / 2) (0 * 0 / 2)) by (cbn; unfold minus, plus, opp; cbn; lra).
  apply (is_RInt_derive (fun x => x * x / 2) (fun x => x)).
  - intros x _. auto_derive; [trivial|lra].
  - intros x _. apply cts_id.
Qed.

Lemma nodes_exact' n : (2 <= n)%Z -> r_nodes (fun x => x) (1 / IZR n) = inner_nodes n.
Proof. exact (nodes_exact n). Qed.

Section Family.
Variable f : R -> R -> R.
Variables L B : R.
Hypothesis FC : forall phi, cts (fun p => f p phi).
Hypothesis FL : forall phi, lip (fun p => f p phi) 0 1 L.
Hypothesis FB : forall p phi phi', 0 <= p <= 1 -> Rabs (f p phi - f p phi') <= B * Rabs (phi - phi').
Hypothesis FM : forall p phi, 0 <= p <= 1 -> - p <= f p phi <= p.
Let J (phi : R) : R := RInt (fun p => f p phi) 0 1.

Lemma B_nonneg : 0 <= B.
Proof. pose proof (FB 0 1 0 ltac:(lra)) as H. rewrite Rminus_0_r, Rabs_R1 in H. pose proof (Rabs_pos (f 0 1 - f 0 0)). lra. Qed.
Lemma J_lip x y : Rabs (J x - J y) <= B * Rabs (x - y).
Proof.
  assert (E : J x - J y = RInt (fun p => f p x - f p y) 0 1).
  { symmetry. apply (RInt_minus (fun p => f p x) (fun p => f p y)); apply cts_int, FC. }
  rewrite E. replace (B * Rabs (x - y)) with ((1 - 0) * (B * Rabs (x - y))) by ring. apply abs_RInt_le_const; [lra| |].
  - apply (ex_RInt_minus (V := R_NormedModule)); apply cts_int, FC.
  - intros t Ht. apply FB. lra.
Qed.
Lemma J_bound x : Rabs (J x) <= 1 / 2.
Proof.
  rewrite <- int_p. assert (U : J x <= RInt (fun p => p) 0 1).
  { apply RInt_le; [lra|apply cts_int, FC|apply cts_int, cts_id|]. intros p Hp. apply FM. lra. }
  assert (V : RInt (fun p => - p) 0 1 <= J x).
  { apply RInt_le; [lra| |apply cts_int, FC|].
    - apply cts_int. apply (cts_ext (fun p => -1 * p)); [intros; ring|]. apply (cts_mult (fun _ => -1) (fun p => p)); [apply cts_const|apply cts_id].
    - intros p Hp. apply FM. lra. }
  assert (W : RInt (fun p => - p) 0 1 = - RInt (fun p => p) 0 1).
  { apply (RInt_opp (fun p => p)). apply cts_int, cts_id. }
  rewrite W in V. apply Rabs_le. lra.
Qed.

Variables (n_r n_phi : Z) (rnd : R -> R).
Hypothesis PL : (rnd = (fun x => x) /\ (2 <= n_r)%Z) \/ (rnd = b64 /\ (2 <= n_r <= 2 ^ 50)%Z).
Hypothesis NP3 : (3 <= n_phi)%Z.
Let h := rnd (1 / IZR n_r).
Let nodes := r_nodes rnd h.
Let T (phi : R) : R := trapezoid h nodes (fun p => f p phi).

Lemma T_err phi : Rabs (T phi - J phi) <= 3 / 2 * (1 + L) / IZR n_r.
Proof.
  assert (L0 : 0 <= L) by (apply (lip_nonneg (fun p => f p 0) 0 1); [lra|apply FL]).
  unfold T, nodes, h. destruct PL as [[-> N]|[-> N]].
  - assert (P : 0 < IZR n_r) by (apply IZR_lt; lia). assert (I0 : 0 < / IZR n_r) by (apply Rinv_0_lt_compat, P).
    cbv beta. rewrite (nodes_exact' n_r N).
    eapply Rle_trans; [apply (trapezoid_err n_r (fun p => f p phi) L); [lia|apply FC|apply FL]|]. unfold Rdiv. apply Rmult_le_compat_r; lra.
  - assert (P : 0 < IZR n_r) by (apply IZR_lt; lia). assert (I0 : 0 < / IZR n_r) by (apply Rinv_0_lt_compat, P).
    pose proof (trapezoid_err n_r (fun p => f p phi) L ltac:(lia) (FC phi) (FL phi)) as A.
    pose proof (T64_near n_r (fun p => f p phi) L N (FL phi) ltac:(intros p Hp; apply Rabs_le; pose proof (FM p phi Hp); lra)) as C.
    unfold T64 in C. apply Rabs_le_inv in A. apply Rabs_le_inv in C. apply Rabs_le.
    replace (3 / 2 * (1 + L) / IZR n_r) with ((3 / 2 + L / 2) / IZR n_r + L / IZR n_r) by (field; lra).
    fold (J phi) in A. lra.
Qed.
Lemma nodes_in : 0 <= h /\ Forall (fun x => 0 <= x <= 1) nodes /\ trapezoid h nodes (fun p => p) <= 101 / 100.
Proof.
  unfold nodes, h. destruct PL as [[-> N]|[-> N]].
  - assert (P : 0 < IZR n_r) by (apply IZR_lt; lia). cbv beta. rewrite (nodes_exact' n_r N). split; [|split].
    + apply Rlt_le, Rdiv_lt_0_compat; lra.
    + destruct (inner_disk n_r N) as [D _]. exact D.
    + rewrite trapezoid_p by lia. lra.
  - pose proof (h_range n_r N) as H. pose proof (nodes64_good n_r N) as (_ & G & _). pose proof (radial_weight64 n_r N) as W. pose proof (nr_pos n_r N) as NP.
    split; [unfold eps in H; lra|]. split; [exact G|]. assert (/ IZR n_r <= / 2) by (apply Rinv_le_contravar; lra). unfold eps in W. lra.
Qed.
Lemma T_bound phi : Rabs (T phi) <= 101 / 100.
Proof.
  destruct nodes_in as (H & N & W). unfold T. rewrite Forall_forall in N.
  assert (U : trapezoid h nodes (fun p => f p phi) <= trapezoid h nodes (fun p => p)).
  { apply trapezoid_le; [exact H|apply FM; lra|apply FM; lra|]. intros x Hx. apply FM, N, Hx. }
  assert (V : trapezoid h nodes (fun p => -1 * p + 0 * p) <= trapezoid h nodes (fun p => f p phi)).
  { apply trapezoid_le; [exact H| | |].
    - pose proof (FM 0 phi ltac:(lra)). lra.
    - pose proof (FM 1 phi ltac:(lra)). lra.
    - intros x Hx. pose proof (FM x phi (N x Hx)). lra. }
  rewrite trapezoid_lin in V. apply Rabs_le. lra.
Qed.
Lemma angular_abs g M : (forall x, Rabs (g x) <= M) -> Rabs (angular n_phi g) <= 2 * PI * M.
Proof.
  intros H. assert (M0 : 0 <= M) by (eapply Rle_trans; [apply Rabs_pos|apply (H 0)]). assert (PP := PI_RGT_0).
  assert (P : 0 < IZR n_phi) by (apply IZR_lt; lia).
  assert (W : angular n_phi (fun _ => 1) <= 2 * PI).
  { rewrite angular_weight by exact NP3. rewrite <- (Rmult_1_r (2 * PI)) at 2. apply Rmult_le_compat_l; [lra|].
    apply (Rmult_le_reg_r (IZR n_phi)); [exact P|]. unfold Rdiv. rewrite Rmult_assoc, Rinv_l by lra. rewrite Rmult_1_r, Rmult_1_l. apply IZR_le. destruct (Z.even n_phi); lia. }
  assert (U : angular n_phi g <= angular n_phi (fun x => M * 1 + 0 * 1)).
  { apply angular_le; [lia|]. intros x. pose proof (Rabs_le_inv _ _ (H x)). lra. }
  assert (V : angular n_phi (fun x => - M * 1 + 0 * 1) <= angular n_phi g).
  { apply angular_le; [lia|]. intros x. pose proof (Rabs_le_inv _ _ (H x)). lra. }
  rewrite angular_lin in U, V. apply Rabs_le. nra.
Qed.
Definition half_err : R := 2 * PI * (3 / 2 * (1 + L) / IZR n_r + (9 * B + 4 / 3) / IZR n_phi).
Lemma double_err : Rabs (angular n_phi T - RInt J 0 (2 * PI)) <= half_err.
Proof.
  assert (PP := PI_RGT_0). assert (P : 0 < IZR n_phi) by (apply IZR_lt; lia).
  assert (A : Rabs (angular n_phi T - angular n_phi J) <= 2 * PI * (3 / 2 * (1 + L) / IZR n_r)).
  { replace (angular n_phi T - angular n_phi J) with (angular n_phi (fun x => 1 * T x + -1 * J x)) by (rewrite angular_lin; ring).
    apply angular_abs. intros x. replace (1 * T x + -1 * J x) with (T x - J x) by ring. apply T_err. }
  pose proof (angular_err n_phi J B (1 / 2) NP3 (lip_cts J B J_lip) ltac:(intros x y _ _; apply J_lip) ltac:(intros x _; apply J_bound)) as C.
  replace (2 * PI / IZR n_phi * (9 * B + 8 / 3 * (1 / 2))) with (2 * PI * ((9 * B + 4 / 3) / IZR n_phi)) in C by (field; lra).
  unfold half_err. apply Rabs_le_inv in A. apply Rabs_le_inv in C. apply Rabs_le. rewrite Rmult_plus_distr_l. lra.
Qed.
Lemma square_err : Rabs (angular n_phi T * angular n_phi T - RInt J 0 (2 * PI) * RInt J 0 (2 * PI)) <= 302 / 100 * PI * half_err.
Proof.
  assert (PP := PI_RGT_0). pose proof double_err as D. pose proof (angular_abs T (101 / 100) T_bound) as A.
  assert (C : Rabs (RInt J 0 (2 * PI)) <= (2 * PI - 0) * (1 / 2)).
  { apply abs_RInt_le_const; [lra|apply cts_int, (lip_cts J B J_lip)|intros; apply J_bound]. }
  set (a := angular n_phi T) in *. set (c := RInt J 0 (2 * PI)) in *. replace (a * a - c * c) with ((a - c) * (a + c)) by (change (R : Type) with R; ring).
  rewrite Rabs_mult, Rmult_comm. apply Rmult_le_compat; [apply Rabs_pos|apply Rabs_pos| |exact D].
  apply Rabs_le_inv in A. apply Rabs_le_inv in C. apply Rabs_le. lra.
Qed.
End Family.

(** ** the phase *)
Section Phase.
Variables (Phi : R -> R -> R) (Lr Lt r theta : R).
Hypothesis PC : forall phi, cts (fun p => Phi p phi).
Hypothesis PR : forall phi, lip (fun p => Phi p phi) 0 1 Lr.
Hypothesis PT : forall p phi phi', 0 <= p <= 1 -> Rabs (Phi p phi - Phi p phi') <= Lt * Rabs (phi - phi').
Let psi p phi := Phi p phi - r * p * cos (phi - theta).

Lemma psi_cts phi : cts (fun p => psi p phi).
Proof.
  unfold psi. apply (cts_ext (fun p => Phi p phi + (- r * cos (phi - theta)) * p)); [intros; ring|]. apply cts_plus; [apply PC|].
  apply (cts_mult (fun _ => - r * cos (phi - theta)) (fun p => p)); [apply cts_const|apply cts_id].
Qed.
Lemma psi_r phi x y : 0 <= x <= 1 -> 0 <= y <= 1 -> Rabs (psi x phi - psi y phi) <= (Lr + Rabs r) * Rabs (x - y).
Proof.
  intros Hx Hy. unfold psi.
  replace (Phi x phi - r * x * cos (phi - theta) - (Phi y phi - r * y * cos (phi - theta))) with ((Phi x phi - Phi y phi) + - (r * cos (phi - theta) * (x - y))) by ring.
  eapply Rle_trans; [apply Rabs_triang|]. pose proof (PR phi x y Hx Hy) as A. cbv beta in A. rewrite Rabs_Ropp, !Rabs_mult.
  assert (C : Rabs (cos (phi - theta)) <= 1) by (apply Rabs_le, COS_bound).
  pose proof (Rabs_pos r). pose proof (Rabs_pos (x - y)). pose proof (Rabs_pos (cos (phi - theta))).
  assert (Rabs r * Rabs (cos (phi - theta)) <= Rabs r) by nra. nra.
Qed.
Lemma psi_t p x y : 0 <= p <= 1 -> Rabs (psi p x - psi p y) <= (Lt + Rabs r) * Rabs (x - y).
Proof.
  intros Hp. unfold psi.
  replace (Phi p x - r * p * cos (x - theta) - (Phi p y - r * p * cos (y - theta))) with ((Phi p x - Phi p y) + - (r * p * (cos (x - theta) - cos (y - theta)))) by ring.
  eapply Rle_trans; [apply Rabs_triang|]. pose proof (PT p x y Hp) as A. rewrite Rabs_Ropp, !Rabs_mult, (Rabs_pos_eq p) by lra.
  pose proof (cos_lip (x - theta) (y - theta)) as C. replace (x - theta - (y - theta)) with (x - y) in C by ring.
  pose proof (Rabs_pos r). pose proof (Rabs_pos (x - y)). pose proof (Rabs_pos (cos (x - theta) - cos (y - theta))).
  assert (Rabs r * p <= Rabs r) by nra. assert (0 <= Rabs r * p) by nra. nra.
Qed.
Variable cs : R -> R.
Hypothesis CL : forall x y, Rabs (cs x - cs y) <= Rabs (x - y).
Hypothesis CB : forall x, -1 <= cs x <= 1.
Let f p phi := p * cs (psi p phi).
Lemma f_cts phi : cts (fun p => f p phi).
Proof.
  unfold f. apply (cts_mult (fun p => p) (fun p => cs (psi p phi))); [apply cts_id|]. intros x. apply continuous_comp; [apply psi_cts|].
  apply (lip_cts cs 1). intros. rewrite Rmult_1_l. apply CL.
Qed.
Lemma f_lip phi : lip (fun p => f p phi) 0 1 (1 + Lr + Rabs r).
Proof.
  intros x y Hx Hy. unfold f. replace (x * cs (psi x phi) - y * cs (psi y phi)) with ((x - y) * cs (psi x phi) + y * (cs (psi x phi) - cs (psi y phi))) by ring.
  eapply Rle_trans; [apply Rabs_triang|]. rewrite !Rabs_mult, (Rabs_pos_eq y) by lra.
  pose proof (psi_r phi x y Hx Hy) as A. pose proof (CL (psi x phi) (psi y phi)) as C. assert (D : Rabs (cs (psi x phi)) <= 1) by (apply Rabs_le; pose proof (CB (psi x phi)); lra).
  pose proof (Rabs_pos (x - y)). pose proof (Rabs_pos (cs (psi x phi) - cs (psi y phi))). nra.
Qed.
Lemma f_t p x y : 0 <= p <= 1 -> Rabs (f p x - f p y) <= (Lt + Rabs r) * Rabs (x - y).
Proof.
  intros Hp. unfold f. rewrite <- Rmult_minus_distr_l, Rabs_mult, (Rabs_pos_eq p) by lra. pose proof (psi_t p x y Hp) as A. pose proof (CL (psi p x) (psi p y)) as C.
  pose proof (Rabs_pos (cs (psi p x) - cs (psi p y))). nra.
Qed.
Lemma f_m p phi : 0 <= p <= 1 -> - p <= f p phi <= p.
Proof. intros Hp. unfold f. pose proof (CB (psi p phi)). nra. Qed.
End Phase.

Lemma psf_converges Phi Lr Lt r theta rnd n_r n_phi :
  (forall phi, cts (fun p => Phi p phi)) -> (forall phi, lip (fun p => Phi p phi) 0 1 Lr) ->
  (forall p phi phi', 0 <= p <= 1 -> Rabs (Phi p phi - Phi p phi') <= Lt * Rabs (phi - phi')) ->
  (rnd = (fun x => x) /\ (2 <= n_r)%Z) \/ (rnd = b64 /\ (2 <= n_r <= 2 ^ 50)%Z) -> (3 <= n_phi)%Z ->
  Rabs (psf_rnd rnd n_r n_phi Phi r theta - diffraction_integral Phi r theta) <= accuracy n_r n_phi Lr Lt r.
Proof.
  intros PC PR PT PL NP. assert (PP := PI_RGT_0). assert (P2 : 0 < IZR n_phi) by (apply IZR_lt; lia). assert (P1 : 0 < IZR n_r) by (apply IZR_lt; destruct PL as [[_ N]|[_ N]]; lia).
  pose proof (square_err (fun p phi => p * cos (Phi p phi - r * p * cos (phi - theta))) (1 + Lr + Rabs r) (Lt + Rabs r)
    (f_cts Phi r theta PC cos cos_lip) (f_lip Phi Lr r theta PR cos cos_lip COS_bound) (f_t Phi Lt r theta PT cos cos_lip)
    (f_m Phi r theta cos COS_bound) n_r n_phi rnd PL NP) as A.
  pose proof (square_err (fun p phi => p * sin (Phi p phi - r * p * cos (phi - theta))) (1 + Lr + Rabs r) (Lt + Rabs r)
    (f_cts Phi r theta PC sin sin_lip) (f_lip Phi Lr r theta PR sin sin_lip SIN_bound) (f_t Phi Lt r theta PT sin sin_lip)
    (f_m Phi r theta sin SIN_bound) n_r n_phi rnd PL NP) as C.
  unfold psf_rnd, psf_on, diffraction_integral.
  set (re := angular n_phi (fun phi => trapezoid _ _ (fun p => p * cos _))) in *. set (im := angular n_phi (fun phi => trapezoid _ _ (fun p => p * sin _))) in *.
  set (Re := RInt (fun phi => RInt (fun p => p * cos _) 0 1) 0 (2 * PI)) in *. set (Im := RInt (fun phi => RInt (fun p => p * sin _) 0 1) 0 (2 * PI)) in *.
  set (H := half_err _ _ _ _) in *.
  assert (LR0 : 0 <= Lr) by (apply (lip_nonneg (fun p => Phi p 0) 0 1); [lra|apply PR]).
  assert (LT0 : 0 <= Lt) by (pose proof (PT 0 1 0 ltac:(lra)) as X; rewrite Rminus_0_r, Rabs_R1 in X; pose proof (Rabs_pos (Phi 0 1 - Phi 0 0)); lra).
  pose proof (Rabs_pos r) as R0.
  assert (E : (re * re + im * im) / (PI * PI) - (Re * Re + Im * Im) / (PI * PI) = ((re * re - Re * Re) + (im * im - Im * Im)) / (PI * PI)) by (unfold Rdiv; ring).
  rewrite E. unfold Rdiv at 1. rewrite Rabs_mult, (Rabs_pos_eq (/ (PI * PI))) by (apply Rlt_le, Rinv_0_lt_compat; nra).
  apply (Rmult_le_reg_r (PI * PI)); [nra|]. rewrite Rmult_assoc, Rinv_l, Rmult_1_r by nra.
  eapply Rle_trans; [apply Rabs_triang|]. eapply Rle_trans; [apply Rplus_le_compat; [exact A|exact C]|].
  unfold H, half_err, accuracy. set (u := / IZR n_r). set (v := / IZR n_phi). assert (U : 0 < u) by (apply Rinv_0_lt_compat, P1). assert (V : 0 < v) by (apply Rinv_0_lt_compat, P2).
  unfold Rdiv. fold u v.
  assert (X : 604 / 100 * 2 * (3 / 2 * (1 + (1 + Lr + Rabs r)) * u + (9 * (Lt + Rabs r) + 4 / 3) * v) <= 20 * (2 + Lr + Rabs r) * u + 110 * (1 + Lt + Rabs r) * v) by nra.
  assert (PI2 : 0 < PI * PI) by nra.
  apply (Rmult_le_compat_r (PI * PI)) in X; [|lra]. unfold Rdiv in X. lra.
Qed.

(** ** sums of Zernike polynomials *)
Lemma Z_cts m n phi : valid m n -> cts (fun p => Z_nm m n p phi).
Proof.
  intros V. unfold Z_nm. apply (cts_ext (fun p => norm_nm m n * F (RadialMath.oa m n) (RadialMath.ob m n) p * T_m m phi)).
  - intros x. rewrite R_nm_F by exact V. reflexivity.
  - apply (cts_mult (fun p => norm_nm m n * F _ _ p) (fun _ => T_m m phi)); [|apply cts_const].
    apply (cts_mult (fun _ => norm_nm m n) (F _ _)); [apply cts_const|apply cts_F].
Qed.
Definition all_valid (ps : list (Z * Z)) : Prop := Forall (fun p => valid (fst p) (snd p)) ps.
Lemma zsum_cts ps phi : all_valid ps -> forall cs, cts (fun p => zsum cs ps p phi).
Proof.
  induction 1 as [|[m n] ps V F IH]; intros [|c cs]; cbn [zsum]; try apply cts_const.
  apply (cts_plus (fun p => c * Z_nm m n p phi) (fun p => zsum cs ps p phi)); [|apply IH].
  apply (cts_mult (fun _ => c) (fun p => Z_nm m n p phi)); [apply cts_const|apply Z_cts, V].
Qed.
Lemma zsum_r ps phi : all_valid ps -> forall cs, lip (fun p => zsum cs ps p phi) 0 1 (steep_r cs ps).
Proof.
  induction 1 as [|[m n] ps V F IH]; intros [|c cs] x y Hx Hy; cbn [zsum steep_r];
    try (rewrite Rminus_eq_0, Rabs_R0, Rmult_0_l; lra).
  replace (c * Z_nm m n x phi + zsum cs ps x phi - (c * Z_nm m n y phi + zsum cs ps y phi)) with (c * (Z_nm m n x phi - Z_nm m n y phi) + (zsum cs ps x phi - zsum cs ps y phi)) by ring.
  eapply Rle_trans; [apply Rabs_triang|]. rewrite Rabs_mult. pose proof (IH cs x y Hx Hy) as A. cbv beta in A.
  pose proof (Z_lip_r m n x y phi V Hx Hy) as C. apply (Rmult_le_compat_l (Rabs c)) in C; [|apply Rabs_pos]. lra.
Qed.
Lemma zsum_t ps : all_valid ps -> forall cs p x y, 0 <= p <= 1 -> Rabs (zsum cs ps p x - zsum cs ps p y) <= steep_t cs ps * Rabs (x - y).
Proof.
  induction 1 as [|[m n] ps V F IH]; intros [|c cs] p x y Hp; cbn [zsum steep_t];
    try (rewrite Rminus_eq_0, Rabs_R0, Rmult_0_l; lra).
  replace (c * Z_nm m n p x + zsum cs ps p x - (c * Z_nm m n p y + zsum cs ps p y)) with (c * (Z_nm m n p x - Z_nm m n p y) + (zsum cs ps p x - zsum cs ps p y)) by ring.
  eapply Rle_trans; [apply Rabs_triang|]. rewrite Rabs_mult. pose proof (IH cs p x y Hp) as A.
  pose proof (Z_lip_t m n p x y V Hp) as C. apply (Rmult_le_compat_l (Rabs c)) in C; [|apply Rabs_pos]. lra.
Qed.
