(** Property theorems C67: turned and mirrored wavefronts give turned and mirrored PSFs. *)
From Coq Require Import Reals Lra Lia List Psatz.
From Coquelicot Require Import Coquelicot.
From Verif Require Import Py SpecIndex SpecRadial M_Radial M_Coeffs SpecCoeffs M_Sum SpecSum L_Sum M_Polar L_Polar M_Geo SpecGeo L_Geo M_Psf SpecPsf L_Psf L_PsfKernel SpecDiff L_Conv2 P_Psf P_Conv
  SpecFloat M_Float SpecFloatPsf M_FloatPsf L_FPsf5 P_FPsf SpecDisk L_Disk L_Strehl L_Strehl2 P_Strehl SpecSym L_Sym L_Sym2 P_Tilt.
Import ListNotations.
Local Open Scope R_scope.

(** ** the diffraction integral *)
(** the wavefront turned by a (e = 1), or mirrored and turned (e = -1) *)
Theorem C67_integral : forall fuel cs ps cs' ps' e a x y rho t rho' t', Forall (okp fuel) ps -> e = 1 \/ e = -1 ->
  (forall p phi, zsum cs' ps' p phi = zsum cs ps p (e * phi + a)) -> polar x y rho t -> polar (moved_x e a x y) (moved_y e a x y) rho' t' ->
  diffraction_integral (zsum cs' ps') rho t = diffraction_integral (zsum cs ps) rho' t'.
Proof.
  intros fuel cs ps cs' ps' e a x y rho t rho' t' OK E H P P'. apply (diff_moved (zsum cs ps) _ e a x y); try assumption; [|apply zsum_periodic].
  apply zsum_nice. eapply valid_of. exact OK.
Qed.
Print Assumptions C67_integral.
(** azimuthal orders divisible by k: k-fold symmetry. Only spherical terms: the angle does not matter *)
Theorem C67_integral_symmetric : forall fuel cs ps r theta, Forall (okp fuel) ps ->
  (forall k, (0 < k)%Z -> (forall m n, In (m, n) ps -> (k | m)%Z) -> diffraction_integral (zsum cs ps) r (theta + 2 * PI / IZR k) = diffraction_integral (zsum cs ps) r theta) /\
  ((forall m n, In (m, n) ps -> m = 0%Z) -> forall theta', diffraction_integral (zsum cs ps) r theta' = diffraction_integral (zsum cs ps) r theta).
Proof.
  intros fuel cs ps r theta OK. assert (N : nice (zsum cs ps)) by (apply zsum_nice; eapply valid_of; exact OK). split.
  - intros k K D. replace (theta + 2 * PI / IZR k) with (1 * theta + 2 * PI / IZR k) by ring. symmetry. apply diff_turn; [exact N|apply zsum_periodic|left; reflexivity|].
    intros p phi. clear - K D. revert cs. induction ps as [|[m n] ps IH]; intros [|c cs]; cbn [zsum]; try reflexivity. rewrite IH by (intros m' n' I; apply (D m' n'); right; exact I).
    unfold Z_nm. rewrite Rmult_1_l, T_fold; [reflexivity|exact K|apply (D m n); left; reflexivity].
  - intros Z0 theta'. replace theta' with (1 * theta + (theta' - theta)) by ring. symmetry. apply diff_turn; [exact N|apply zsum_periodic|left; reflexivity|].
    intros p phi. clear - Z0. revert cs. induction ps as [|[m n] ps IH]; intros [|c cs]; cbn [zsum]; try reflexivity. rewrite IH by (intros m' n' I; apply (Z0 m' n'); right; exact I).
    unfold Z_nm. rewrite (Z0 m n (or_introl eq_refl)). rewrite (T_zero phi (1 * phi + (theta' - theta))). reflexivity.
Qed.
Print Assumptions C67_integral_symmetric.

(** ** kernels in binary64 *)
Lemma moved_norm e a x y rho t rho' t' : e = 1 \/ e = -1 -> polar x y rho t -> polar (moved_x e a x y) (moved_y e a x y) rho' t' -> rho' = rho.
Proof.
  intros E P P'. rewrite (polar_rho _ _ _ _ P), (polar_rho _ _ _ _ P'). unfold norm2. f_equal. unfold moved_x, moved_y. assert (EE : e * e = 1) by (destruct E as [-> | ->]; ring).
  pose proof (sin2_cos2 a) as T. unfold Rsqr in T.
  replace ((cos a * x - sin a * (e * y)) * (cos a * x - sin a * (e * y)) + (sin a * x + cos a * (e * y)) * (sin a * x + cos a * (e * y)))
    with ((sin a * sin a + cos a * cos a) * (x * x + e * e * (y * y))) by ring. rewrite T, EE. ring.
Qed.
Theorem C67_kernel : forall pw fcos fsin npsum fhyp fsq fatan2 fuel ps amps ps' amps' e a px wavelength NA n_r n_phi kernel_size s s', numpy64 pw fcos fsin npsum fhyp fsq fatan2 ->
  reachable s -> reachable s' -> ps <> [] -> ps' <> [] -> length amps = length ps -> length amps' = length ps' -> Forall (okp fuel) ps -> Forall (okp fuel) ps' ->
  (length ps <= 2 ^ 20)%nat -> (length ps' <= 2 ^ 20)%nat -> (20 <= n_r <= 2 ^ 24)%Z -> (36 <= n_phi <= 2 ^ 24)%Z -> ordinary wavelength -> ordinary NA -> ordinary px ->
  (1 <= kernel_size < 2 ^ 53)%Z -> e = 1 \/ e = -1 -> (forall p phi, zsum amps' ps' p phi = zsum amps ps p (e * phi + a)) ->
  exists K K', snd (fget_psf_kernel_zerns near64 pw fcos fsin npsum fhyp fsq fatan2 fuel ps amps px wavelength NA kernel_size n_r n_phi false s) = Ok K /\
    snd (fget_psf_kernel_zerns near64 pw fcos fsin npsum fhyp fsq fatan2 fuel ps' amps' px wavelength NA kernel_size n_r n_phi false s') = Ok K' /\
    let size := made_odd kernel_size in
    forall i j i' j', (0 <= i < size)%Z -> (0 <= j < size)%Z -> (0 <= i' < size)%Z -> (0 <= j' < size)%Z ->
      IZR (size / 2 - j') = moved_x e a (IZR (size / 2 - j)) (IZR (size / 2 - i)) -> IZR (size / 2 - i') = moved_y e a (IZR (size / 2 - j)) (IZR (size / 2 - i)) ->
      exists x x', entry K i' j' = Some (Fin x) /\ entry K' i j = Some (Fin x') /\
      forall rho t, polar (IZR (size / 2 - j)) (IZR (size / 2 - i)) rho t -> let r := pixel_units wavelength NA px * rho in
      Rabs (x' - x) <= total_error n_r n_phi amps ps r + total_error n_r n_phi amps' ps' r.
Proof.
  intros pw fcos fsin npsum fhyp fsq fatan2 fuel ps amps ps' amps' e a px wavelength NA n_r n_phi kernel_size s s' NP RS RS' NE NE' L L' OK OK' KM KM' NR NPH OW ON OP KS EE Q.
  destruct (C59_kernel_list pw fcos fsin npsum fhyp fsq fatan2 fuel ps amps px wavelength NA n_r n_phi false kernel_size s NP RS OK NE L KM NR NPH OW ON OP KS) as (K & v & E & (_ & H) & V).
  destruct (C59_kernel_list pw fcos fsin npsum fhyp fsq fatan2 fuel ps' amps' px wavelength NA n_r n_phi false kernel_size s' NP RS' OK' NE' L' KM' NR NPH OW ON OP KS) as (K' & v' & E' & (_ & H') & V').
  exists K, K'. split; [exact E|]. split; [exact E'|]. cbv zeta in *. set (size := made_odd kernel_size) in *. intros i j i' j' Hi Hj Hi' Hj' MX MY. exists (v i' j'), (v' i j).
  split; [apply H; assumption|]. split; [apply H'; assumption|]. intros rho t PO.
  pose proof (pixel_polar (IZR (size / 2 - i')) (IZR (size / 2 - j'))) as PO'. set (rho' := norm2 _ _) in PO'. set (t' := pixel_theta _ _) in PO'.
  specialize (V i' j' rho' t' Hi' Hj' PO'). specialize (V' i j rho t Hi Hj PO). rewrite MX, MY in PO'.
  assert (RR : rho' = rho) by (eapply moved_norm; eassumption). clearbody rho' t'. subst rho'.
  fold (pixel_units wavelength NA px) in V, V'. set (kap := pixel_units wavelength NA px) in *.
  change (fun x phi => zsum amps ps x phi) with (zsum amps ps) in V. change (fun x phi => zsum amps' ps' x phi) with (zsum amps' ps') in V'.
  assert (KP : 0 < kap).
  { unfold kap, pixel_units. pose proof PI_RGT_0. apply ordinary_pos in OW, ON, OP. apply Rmult_lt_0_compat; [|exact OP]. apply Rmult_lt_0_compat; [|exact ON]. apply Rdiv_lt_0_compat; [lra|exact OW]. }
  assert (T : diffraction_integral (zsum amps' ps') (kap * rho) t = diffraction_integral (zsum amps ps) (kap * rho) t').
  { apply (C67_integral fuel amps ps amps' ps' e a (kap * IZR (size / 2 - j)) (kap * IZR (size / 2 - i))); try assumption; [apply polar_scaled; assumption|].
    replace (moved_x e a (kap * IZR (size / 2 - j)) (kap * IZR (size / 2 - i))) with (kap * moved_x e a (IZR (size / 2 - j)) (IZR (size / 2 - i))) by (unfold moved_x; ring).
    replace (moved_y e a (kap * IZR (size / 2 - j)) (kap * IZR (size / 2 - i))) with (kap * moved_y e a (IZR (size / 2 - j)) (IZR (size / 2 - i))) by (unfold moved_y; ring).
    apply polar_scaled; assumption. }
  rewrite T in V'. unfold total_error. apply Rcomplements.Rabs_le_between in V. apply Rcomplements.Rabs_le_between in V'. apply Rabs_le. lra.
Qed.
Print Assumptions C67_kernel.

Lemma reflect kernel_size i : (1 <= kernel_size)%Z -> (0 <= i < made_odd kernel_size)%Z ->
  (0 <= made_odd kernel_size - 1 - i < made_odd kernel_size)%Z /\ IZR (made_odd kernel_size / 2 - (made_odd kernel_size - 1 - i)) = - IZR (made_odd kernel_size / 2 - i).
Proof.
  intros KS H. split; [lia|]. rewrite <- opp_IZR. f_equal.
  assert (O : Z.odd (made_odd kernel_size) = true) by (rewrite <- made_odd_eq; apply odd_size_odd). apply Z.odd_spec in O. destruct O as (q & ->).
  replace ((2 * q + 1) / 2)%Z with q by (apply (Z.div_unique _ _ _ 1); lia). lia.
Qed.

(** sine terms with the opposite sign: the kernel upside down *)
Theorem C67_up_down : forall pw fcos fsin npsum fhyp fsq fatan2 fuel ps amps px wavelength NA n_r n_phi kernel_size s s', numpy64 pw fcos fsin npsum fhyp fsq fatan2 ->
  reachable s -> reachable s' -> ps <> [] -> length amps = length ps -> Forall (okp fuel) ps -> (length ps <= 2 ^ 20)%nat -> (20 <= n_r <= 2 ^ 24)%Z -> (36 <= n_phi <= 2 ^ 24)%Z ->
  ordinary wavelength -> ordinary NA -> ordinary px -> (1 <= kernel_size < 2 ^ 53)%Z ->
  exists K K', snd (fget_psf_kernel_zerns near64 pw fcos fsin npsum fhyp fsq fatan2 fuel ps amps px wavelength NA kernel_size n_r n_phi false s) = Ok K /\
    snd (fget_psf_kernel_zerns near64 pw fcos fsin npsum fhyp fsq fatan2 fuel ps (signed flip_up_down amps ps) px wavelength NA kernel_size n_r n_phi false s') = Ok K' /\
    let size := made_odd kernel_size in
    forall i j, (0 <= i < size)%Z -> (0 <= j < size)%Z ->
      exists x x', entry K (size - 1 - i)%Z j = Some (Fin x) /\ entry K' i j = Some (Fin x') /\
      forall rho t, polar (IZR (size / 2 - j)) (IZR (size / 2 - i)) rho t -> Rabs (x' - x) <= 2 * total_error n_r n_phi amps ps (pixel_units wavelength NA px * rho).
Proof.
  intros pw fcos fsin npsum fhyp fsq fatan2 fuel ps amps px wavelength NA n_r n_phi kernel_size s s' NP RS RS' NE L OK KM NR NPH OW ON OP KS.
  assert (Q : forall p phi, zsum (signed flip_up_down amps ps) ps p phi = zsum amps ps p (-1 * phi + 0)).
  { intros p phi. apply zsum_signed. intros m n _. replace (-1 * phi + 0) with (- phi) by ring. apply T_mirror. }
  destruct (C67_kernel pw fcos fsin npsum fhyp fsq fatan2 fuel ps amps ps (signed flip_up_down amps ps) (-1) (0) px wavelength NA n_r n_phi kernel_size s s' NP RS RS' NE NE L (signed_len _ _ _ L)
    OK OK KM KM NR NPH OW ON OP KS (or_intror eq_refl) Q) as (K & K' & E & E' & H).
  exists K, K'. split; [exact E|]. split; [exact E'|]. cbv zeta in *. intros i j Hi Hj.
  destruct (reflect kernel_size i (proj1 KS) Hi) as (Ri & Ei). destruct (reflect kernel_size j (proj1 KS) Hj) as (Rj & Ej).
  destruct (H i j (made_odd kernel_size - 1 - i)%Z j) as (x & x' & X & X' & B); try assumption.
  - unfold moved_x. rewrite ?Ei, ?Ej, cos_0, sin_0. ring.
  - unfold moved_y. rewrite ?Ei, ?Ej, cos_0, sin_0. ring.
  - exists x, x'. split; [exact X|]. split; [exact X'|]. intros rho t PO. specialize (B rho t PO). rewrite total_signed in B; [lra|exact L|apply flip_up_down_sign].
Qed.
Print Assumptions C67_up_down.

(** mirrored at the vertical axis *)
Theorem C67_left_right : forall pw fcos fsin npsum fhyp fsq fatan2 fuel ps amps px wavelength NA n_r n_phi kernel_size s s', numpy64 pw fcos fsin npsum fhyp fsq fatan2 ->
  reachable s -> reachable s' -> ps <> [] -> length amps = length ps -> Forall (okp fuel) ps -> (length ps <= 2 ^ 20)%nat -> (20 <= n_r <= 2 ^ 24)%Z -> (36 <= n_phi <= 2 ^ 24)%Z ->
  ordinary wavelength -> ordinary NA -> ordinary px -> (1 <= kernel_size < 2 ^ 53)%Z ->
  exists K K', snd (fget_psf_kernel_zerns near64 pw fcos fsin npsum fhyp fsq fatan2 fuel ps amps px wavelength NA kernel_size n_r n_phi false s) = Ok K /\
    snd (fget_psf_kernel_zerns near64 pw fcos fsin npsum fhyp fsq fatan2 fuel ps (signed flip_left_right amps ps) px wavelength NA kernel_size n_r n_phi false s') = Ok K' /\
    let size := made_odd kernel_size in
    forall i j, (0 <= i < size)%Z -> (0 <= j < size)%Z ->
      exists x x', entry K i (size - 1 - j)%Z = Some (Fin x) /\ entry K' i j = Some (Fin x') /\
      forall rho t, polar (IZR (size / 2 - j)) (IZR (size / 2 - i)) rho t -> Rabs (x' - x) <= 2 * total_error n_r n_phi amps ps (pixel_units wavelength NA px * rho).
Proof.
  intros pw fcos fsin npsum fhyp fsq fatan2 fuel ps amps px wavelength NA n_r n_phi kernel_size s s' NP RS RS' NE L OK KM NR NPH OW ON OP KS.
  assert (Q : forall p phi, zsum (signed flip_left_right amps ps) ps p phi = zsum amps ps p (-1 * phi + PI)).
  { intros p phi. apply zsum_signed. intros m n _. replace (-1 * phi + PI) with (- phi + PI) by ring. apply T_left_right. }
  destruct (C67_kernel pw fcos fsin npsum fhyp fsq fatan2 fuel ps amps ps (signed flip_left_right amps ps) (-1) (PI) px wavelength NA n_r n_phi kernel_size s s' NP RS RS' NE NE L (signed_len _ _ _ L)
    OK OK KM KM NR NPH OW ON OP KS (or_intror eq_refl) Q) as (K & K' & E & E' & H).
  exists K, K'. split; [exact E|]. split; [exact E'|]. cbv zeta in *. intros i j Hi Hj.
  destruct (reflect kernel_size i (proj1 KS) Hi) as (Ri & Ei). destruct (reflect kernel_size j (proj1 KS) Hj) as (Rj & Ej).
  destruct (H i j i (made_odd kernel_size - 1 - j)%Z) as (x & x' & X & X' & B); try assumption.
  - unfold moved_x. rewrite ?Ei, ?Ej, cos_PI, sin_PI. ring.
  - unfold moved_y. rewrite ?Ei, ?Ej, cos_PI, sin_PI. ring.
  - exists x, x'. split; [exact X|]. split; [exact X'|]. intros rho t PO. specialize (B rho t PO). rewrite total_signed in B; [lra|exact L|apply flip_left_right_sign].
Qed.
Print Assumptions C67_left_right.

(** odd azimuthal orders with the opposite sign: the kernel turned by 180 degrees *)
Theorem C67_half_turn : forall pw fcos fsin npsum fhyp fsq fatan2 fuel ps amps px wavelength NA n_r n_phi kernel_size s s', numpy64 pw fcos fsin npsum fhyp fsq fatan2 ->
  reachable s -> reachable s' -> ps <> [] -> length amps = length ps -> Forall (okp fuel) ps -> (length ps <= 2 ^ 20)%nat -> (20 <= n_r <= 2 ^ 24)%Z -> (36 <= n_phi <= 2 ^ 24)%Z ->
  ordinary wavelength -> ordinary NA -> ordinary px -> (1 <= kernel_size < 2 ^ 53)%Z ->
  exists K K', snd (fget_psf_kernel_zerns near64 pw fcos fsin npsum fhyp fsq fatan2 fuel ps amps px wavelength NA kernel_size n_r n_phi false s) = Ok K /\
    snd (fget_psf_kernel_zerns near64 pw fcos fsin npsum fhyp fsq fatan2 fuel ps (signed half_turn amps ps) px wavelength NA kernel_size n_r n_phi false s') = Ok K' /\
    let size := made_odd kernel_size in
    forall i j, (0 <= i < size)%Z -> (0 <= j < size)%Z ->
      exists x x', entry K (size - 1 - i)%Z (size - 1 - j)%Z = Some (Fin x) /\ entry K' i j = Some (Fin x') /\
      forall rho t, polar (IZR (size / 2 - j)) (IZR (size / 2 - i)) rho t -> Rabs (x' - x) <= 2 * total_error n_r n_phi amps ps (pixel_units wavelength NA px * rho).
Proof.
  intros pw fcos fsin npsum fhyp fsq fatan2 fuel ps amps px wavelength NA n_r n_phi kernel_size s s' NP RS RS' NE L OK KM NR NPH OW ON OP KS.
  assert (Q : forall p phi, zsum (signed half_turn amps ps) ps p phi = zsum amps ps p (1 * phi + PI)).
  { intros p phi. apply zsum_signed. intros m n _. rewrite Rmult_1_l. apply T_half. }
  destruct (C67_kernel pw fcos fsin npsum fhyp fsq fatan2 fuel ps amps ps (signed half_turn amps ps) (1) (PI) px wavelength NA n_r n_phi kernel_size s s' NP RS RS' NE NE L (signed_len _ _ _ L)
    OK OK KM KM NR NPH OW ON OP KS (or_introl eq_refl) Q) as (K & K' & E & E' & H).
  exists K, K'. split; [exact E|]. split; [exact E'|]. cbv zeta in *. intros i j Hi Hj.
  destruct (reflect kernel_size i (proj1 KS) Hi) as (Ri & Ei). destruct (reflect kernel_size j (proj1 KS) Hj) as (Rj & Ej).
  destruct (H i j (made_odd kernel_size - 1 - i)%Z (made_odd kernel_size - 1 - j)%Z) as (x & x' & X & X' & B); try assumption.
  - unfold moved_x. rewrite ?Ei, ?Ej, cos_PI, sin_PI. ring.
  - unfold moved_y. rewrite ?Ei, ?Ej, cos_PI, sin_PI. ring.
  - exists x, x'. split; [exact X|]. split; [exact X'|]. intros rho t PO. specialize (B rho t PO). rewrite total_signed in B; [lra|exact L|apply half_turn_sign].
Qed.
Print Assumptions C67_half_turn.

(** a kernel and itself *)
Lemma same_kernel : forall pw fcos fsin npsum fhyp fsq fatan2 fuel ps amps px wavelength NA n_r n_phi kernel_size s, numpy64 pw fcos fsin npsum fhyp fsq fatan2 ->
  reachable s -> ps <> [] -> length amps = length ps -> Forall (okp fuel) ps -> (length ps <= 2 ^ 20)%nat -> (20 <= n_r <= 2 ^ 24)%Z -> (36 <= n_phi <= 2 ^ 24)%Z ->
  ordinary wavelength -> ordinary NA -> ordinary px -> (1 <= kernel_size < 2 ^ 53)%Z ->
  exists K, snd (fget_psf_kernel_zerns near64 pw fcos fsin npsum fhyp fsq fatan2 fuel ps amps px wavelength NA kernel_size n_r n_phi false s) = Ok K /\
    let size := made_odd kernel_size in
    forall e a i j i' j', e = 1 \/ e = -1 -> (forall p phi, zsum amps ps p phi = zsum amps ps p (e * phi + a)) ->
      (0 <= i < size)%Z -> (0 <= j < size)%Z -> (0 <= i' < size)%Z -> (0 <= j' < size)%Z ->
      IZR (size / 2 - j') = moved_x e a (IZR (size / 2 - j)) (IZR (size / 2 - i)) -> IZR (size / 2 - i') = moved_y e a (IZR (size / 2 - j)) (IZR (size / 2 - i)) ->
      exists x x', entry K i' j' = Some (Fin x) /\ entry K i j = Some (Fin x') /\
      forall rho t, polar (IZR (size / 2 - j)) (IZR (size / 2 - i)) rho t -> Rabs (x' - x) <= 2 * total_error n_r n_phi amps ps (pixel_units wavelength NA px * rho).
Proof.
  intros pw fcos fsin npsum fhyp fsq fatan2 fuel ps amps px wavelength NA n_r n_phi kernel_size s NP RS NE L OK KM NR NPH OW ON OP KS.
  assert (Q0 : forall p phi, zsum amps ps p phi = zsum amps ps p (1 * phi + 0)) by (intros; f_equal; ring).
  destruct (C67_kernel pw fcos fsin npsum fhyp fsq fatan2 fuel ps amps ps amps 1 0 px wavelength NA n_r n_phi kernel_size s s NP RS RS NE NE L L
    OK OK KM KM NR NPH OW ON OP KS (or_introl eq_refl) Q0) as (K & _ & E & _ & _).
  exists K. split; [exact E|]. cbv zeta. intros e a i j i' j' EE Q Hi Hj Hi' Hj' MX MY.
  destruct (C67_kernel pw fcos fsin npsum fhyp fsq fatan2 fuel ps amps ps amps e a px wavelength NA n_r n_phi kernel_size s s NP RS RS NE NE L L
    OK OK KM KM NR NPH OW ON OP KS EE Q) as (K1 & K2 & E1 & E2 & H).
  rewrite E in E1, E2. apply Ok_inj in E1, E2. subst K1 K2. destruct (H i j i' j' Hi Hj Hi' Hj' MX MY) as (x & x' & X & X' & B).
  exists x, x'. split; [exact X|]. split; [exact X'|]. intros rho t PO. specialize (B rho t PO). cbv zeta in B. lra.
Qed.
Lemma turn_to x y x' y' q u w : q * cos u = x -> q * sin u = y -> q * cos w = x' -> q * sin w = y' -> x' = moved_x 1 (w - u) x y /\ y' = moved_y 1 (w - u) x y.
Proof.
  intros <- <- <- <-. unfold moved_x, moved_y. rewrite cos_minus, sin_minus. pose proof (sin2_cos2 u) as T. unfold Rsqr in T. split.
  - replace (q * cos w) with (q * cos w * (sin u * sin u + cos u * cos u)) by (rewrite T; ring). ring.
  - replace (q * sin w) with (q * sin w * (sin u * sin u + cos u * cos u)) by (rewrite T; ring). ring.
Qed.
(** even azimuthal orders (defocus, astigmatism, spherical aberration ...): symmetric under half a turn, and the sign of the aberration does not matter;
    orders divisible by four: symmetric under a quarter turn; spherical terms only: radially symmetric *)
Theorem C67_symmetric : forall pw fcos fsin npsum fhyp fsq fatan2 fuel ps amps px wavelength NA n_r n_phi kernel_size s, numpy64 pw fcos fsin npsum fhyp fsq fatan2 ->
  reachable s -> ps <> [] -> length amps = length ps -> Forall (okp fuel) ps -> (length ps <= 2 ^ 20)%nat -> (20 <= n_r <= 2 ^ 24)%Z -> (36 <= n_phi <= 2 ^ 24)%Z ->
  ordinary wavelength -> ordinary NA -> ordinary px -> (1 <= kernel_size < 2 ^ 53)%Z ->
  exists K, snd (fget_psf_kernel_zerns near64 pw fcos fsin npsum fhyp fsq fatan2 fuel ps amps px wavelength NA kernel_size n_r n_phi false s) = Ok K /\
    let size := made_odd kernel_size in
    forall i j i' j', (0 <= i < size)%Z -> (0 <= j < size)%Z -> (0 <= i' < size)%Z -> (0 <= j' < size)%Z ->
      (forall m n, In (m, n) ps -> (2 | m)%Z) /\ (i' = size - 1 - i /\ j' = size - 1 - j)%Z \/
      (forall m n, In (m, n) ps -> (4 | m)%Z) /\ (i' = j /\ j' = size - 1 - i)%Z \/
      (forall m n, In (m, n) ps -> m = 0%Z) /\ ((size / 2 - i') ^ 2 + (size / 2 - j') ^ 2 = (size / 2 - i) ^ 2 + (size / 2 - j) ^ 2)%Z ->
      exists x x', entry K i' j' = Some (Fin x) /\ entry K i j = Some (Fin x') /\
      forall rho t, polar (IZR (size / 2 - j)) (IZR (size / 2 - i)) rho t -> Rabs (x' - x) <= 2 * total_error n_r n_phi amps ps (pixel_units wavelength NA px * rho).
Proof.
  intros pw fcos fsin npsum fhyp fsq fatan2 fuel ps amps px wavelength NA n_r n_phi kernel_size s NP RS NE L OK KM NR NPH OW ON OP KS.
  destruct (same_kernel pw fcos fsin npsum fhyp fsq fatan2 fuel ps amps px wavelength NA n_r n_phi kernel_size s NP RS NE L OK KM NR NPH OW ON OP KS) as (K & E & H).
  exists K. split; [exact E|]. cbv zeta in *. intros i j i' j' Hi Hj Hi' Hj' C.
  destruct (reflect kernel_size i (proj1 KS) Hi) as (Ri & Ei). destruct (reflect kernel_size j (proj1 KS) Hj) as (Rj & Ej). set (size := made_odd kernel_size) in *.
  assert (FOLD : forall k, (0 < k)%Z -> (forall m n, In (m, n) ps -> (k | m)%Z) -> forall p phi, zsum amps ps p phi = zsum amps ps p (1 * phi + 2 * PI / IZR k)).
  { intros k K0 D p phi. clear - K0 D. revert amps. induction ps as [|[m n] ps IH]; intros [|c cs]; cbn [zsum]; try reflexivity. rewrite (IH (fun m' n' I => D m' n' (or_intror I)) cs).
    unfold Z_nm. rewrite !Rmult_1_l, T_fold; [reflexivity|exact K0|apply (D m n); left; reflexivity]. }
  destruct C as [(D & -> & ->)|[(D & -> & ->)|(D & N)]].
  - apply (H 1 (2 * PI / IZR 2)); try assumption; [left; reflexivity|apply FOLD; [lia|exact D]| |].
    + unfold moved_x. replace (2 * PI / IZR 2) with PI by (cbn; field). rewrite Ej, cos_PI, sin_PI. ring.
    + unfold moved_y. replace (2 * PI / IZR 2) with PI by (cbn; field). rewrite Ei, cos_PI, sin_PI. ring.
  - apply (H 1 (2 * PI / IZR 4)); try assumption; [left; reflexivity|apply FOLD; [lia|exact D]| |].
    + unfold moved_x. replace (2 * PI / IZR 4) with (PI / 2) by (cbn; field). rewrite Ei, cos_PI2, sin_PI2. ring.
    + unfold moved_y. replace (2 * PI / IZR 4) with (PI / 2) by (cbn; field). rewrite cos_PI2, sin_PI2. ring.
  - set (x := IZR (size / 2 - j)). set (y := IZR (size / 2 - i)). set (x' := IZR (size / 2 - j')). set (y' := IZR (size / 2 - i')).
    destruct (pixel_polar y x) as (_ & _ & X & Y). destruct (pixel_polar y' x') as (_ & _ & X' & Y').
    assert (NN : norm2 x' y' = norm2 x y).
    { unfold norm2. f_equal. unfold x, y, x', y'. apply (f_equal IZR) in N. rewrite !Z.pow_2_r, !plus_IZR, !mult_IZR in N. lra. }
    apply (H 1 (pixel_theta y' x' - pixel_theta y x)); try assumption; [left; reflexivity| | |].
    + intros p phi. clear - D. revert amps. induction ps as [|[m n] ps IH]; intros [|c cs]; cbn [zsum]; try reflexivity. rewrite (IH (fun m' n' I => D m' n' (or_intror I)) cs).
      unfold Z_nm. rewrite (D m n (or_introl eq_refl)). rewrite (T_zero phi (1 * phi + (pixel_theta y' x' - pixel_theta y x))). reflexivity.
    + apply (turn_to x y x' y' (norm2 x y)); [exact X|exact Y|rewrite <- NN; exact X'|rewrite <- NN; exact Y'].
    + apply (turn_to x y x' y' (norm2 x y)); [exact X|exact Y|rewrite <- NN; exact X'|rewrite <- NN; exact Y'].
Qed.
Print Assumptions C67_symmetric.

(** the sign of the aberration: minus the coefficients is the PSF turned by 180 degrees (C35 says so for the calculated kernels); it makes no difference for even azimuthal orders *)
Theorem C67_sign : forall fuel cs ps r theta, Forall (okp fuel) ps ->
  diffraction_integral (zsum (map Ropp cs) ps) r theta = diffraction_integral (zsum cs ps) r (theta + PI) /\
  ((forall m n, In (m, n) ps -> (2 | m)%Z) -> diffraction_integral (zsum (map Ropp cs) ps) r theta = diffraction_integral (zsum cs ps) r theta).
Proof.
  intros fuel cs ps r theta OK. assert (N : nice (zsum cs ps)) by (apply zsum_nice; eapply valid_of; exact OK).
  assert (E : diffraction_integral (zsum (map Ropp cs) ps) r theta = diffraction_integral (zsum cs ps) r (theta + PI)) by (apply diff_neg; [exact N|intros p phi; apply zsum_opp]).
  split; [exact E|]. intros D. rewrite E. destruct (C67_integral_symmetric fuel cs ps r theta OK) as (Q & _). rewrite <- (Q 2%Z ltac:(lia) D). f_equal. cbn. field.
Qed.
Print Assumptions C67_sign.
Theorem C67_sign_kernel : forall pw fcos fsin npsum fhyp fsq fatan2 fuel ps amps px wavelength NA n_r n_phi kernel_size s s', numpy64 pw fcos fsin npsum fhyp fsq fatan2 ->
  reachable s -> reachable s' -> ps <> [] -> length amps = length ps -> Forall (okp fuel) ps -> (length ps <= 2 ^ 20)%nat -> (20 <= n_r <= 2 ^ 24)%Z -> (36 <= n_phi <= 2 ^ 24)%Z ->
  ordinary wavelength -> ordinary NA -> ordinary px -> (1 <= kernel_size < 2 ^ 53)%Z ->
  (forall m n, In (m, n) ps -> (2 | m)%Z) ->
  exists K K', snd (fget_psf_kernel_zerns near64 pw fcos fsin npsum fhyp fsq fatan2 fuel ps amps px wavelength NA kernel_size n_r n_phi false s) = Ok K /\
    snd (fget_psf_kernel_zerns near64 pw fcos fsin npsum fhyp fsq fatan2 fuel ps (map Ropp amps) px wavelength NA kernel_size n_r n_phi false s') = Ok K' /\
    let size := made_odd kernel_size in
    forall i j, (0 <= i < size)%Z -> (0 <= j < size)%Z ->
      exists x x', entry K i j = Some (Fin x) /\ entry K' i j = Some (Fin x') /\
      forall rho t, polar (IZR (size / 2 - j)) (IZR (size / 2 - i)) rho t -> Rabs (x' - x) <= 2 * total_error n_r n_phi amps ps (pixel_units wavelength NA px * rho).
Proof.
  intros pw fcos fsin npsum fhyp fsq fatan2 fuel ps amps px wavelength NA n_r n_phi kernel_size s s' NP RS RS' NE L OK KM NR NPH OW ON OP KS D.
  assert (L' : length (map Ropp amps) = length ps) by (rewrite map_length; exact L).
  destruct (C59_kernel_list pw fcos fsin npsum fhyp fsq fatan2 fuel ps amps px wavelength NA n_r n_phi false kernel_size s NP RS OK NE L KM NR NPH OW ON OP KS) as (K & v & E & (_ & H) & V).
  destruct (C59_kernel_list pw fcos fsin npsum fhyp fsq fatan2 fuel ps (map Ropp amps) px wavelength NA n_r n_phi false kernel_size s' NP RS' OK NE L' KM NR NPH OW ON OP KS) as (K' & v' & E' & (_ & H') & V').
  exists K, K'. split; [exact E|]. split; [exact E'|]. cbv zeta in *. set (size := made_odd kernel_size) in *. intros i j Hi Hj. exists (v i j), (v' i j).
  split; [apply H; assumption|]. split; [apply H'; assumption|]. intros rho t PO. specialize (V i j rho t Hi Hj PO). specialize (V' i j rho t Hi Hj PO).
  fold (pixel_units wavelength NA px) in V, V'. set (r := pixel_units wavelength NA px * rho) in *.
  change (fun x phi => zsum amps ps x phi) with (zsum amps ps) in V. change (fun x phi => zsum (map Ropp amps) ps x phi) with (zsum (map Ropp amps) ps) in V'.
  destruct (C67_sign fuel amps ps r t OK) as (_ & Q). rewrite (Q D) in V'.
  fold (total_error n_r n_phi amps ps r) in V. fold (total_error n_r n_phi (map Ropp amps) ps r) in V'.
  rewrite (opp_signed ps amps L) in V'. rewrite total_signed in V' by (try exact L; intros; right; reflexivity).
  apply Rcomplements.Rabs_le_between in V. apply Rcomplements.Rabs_le_between in V'. apply Rabs_le. lra.
Qed.
Print Assumptions C67_sign_kernel.

(** vertical coma with astigmatism: upside down with the sign of the coma changed; defocus with secondary astigmatism of order 4: quarter turns *)
Example C67_nonvacuous : signed flip_up_down [1; 2] [(-1, 3); (2, 2)]%Z = [-1; 2] /\ signed flip_left_right [1; 2] [(-1, 3); (2, 2)]%Z = [1; 2] /\
  (forall m n, In (m, n) [(0, 2); (4, 6)]%Z -> (4 | m)%Z) /\ Forall (okp 1000) [(-1, 3); (2, 2); (0, 2); (4, 6)]%Z /\
  moved_x (-1) 0 3 4 = 3 /\ moved_y (-1) 0 3 4 = -4.
Proof.
  unfold signed, flip_left_right, flip_up_down, half_turn. cbn.
  split; [repeat f_equal; ring|]. split; [repeat f_equal; ring|]. split; [|split].
  - intros m n [E|[E|[]]]; injection E as <- <-; [exists 0%Z|exists 1%Z]; reflexivity.
  - repeat constructor; cbn; try lia; [exists 1%Z|exists 0%Z|exists 1%Z|exists 1%Z]; reflexivity.
  - unfold moved_x, moved_y. rewrite cos_0, sin_0. split; ring.
Qed.
