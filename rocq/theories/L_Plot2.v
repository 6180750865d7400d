(** Lemmas for C58. *)
From Coq Require Import Reals Lra Lia.
From Flocq Require Import Core.
From Verif Require Import Py SpecIndex SpecRadial M_Radial M_Coeffs SpecCoeffs M_Init M_Sum SpecSum L_Sum SpecGeo M_Geo L_Geo L_Slope
  M_Polar L_Polar L_Float L_Plot M_Plot SpecPlot.
Local Open Scope R_scope.

(** the value depends on the point only *)
Lemma multiple_angle a b : cos a = cos b -> sin a = sin b -> forall k, cos (INR k * a) = cos (INR k * b) /\ sin (INR k * a) = sin (INR k * b).
Proof.
  intros C S'. induction k as [|k [IC IS]]; [simpl; rewrite !Rmult_0_l; tauto|].
  rewrite S_INR, !Rmult_plus_distr_r, !Rmult_1_l, !cos_plus, !sin_plus, C, S', IC, IS. tauto.
Qed.
Lemma T_point m a b : cos a = cos b -> sin a = sin b -> T_m m a = T_m m b.
Proof.
  intros C S'. destruct (multiple_angle a b C S' (Z.to_nat (Z.abs m))) as [P Q]. rewrite INR_IZR_INZ, Z2Nat.id in P, Q by lia.
  unfold T_m. destruct (Z.leb_spec 0 m); [rewrite Z.abs_eq in P by lia; exact P|exact Q].
Qed.
Lemma Z_point m n r1 p1 r2 p2 : valid m n -> 0 <= r1 -> 0 <= r2 -> r1 * cos p1 = r2 * cos p2 -> r1 * sin p1 = r2 * sin p2 ->
  Z_nm m n r1 p1 = Z_nm m n r2 p2.
Proof.
  intros V H1 H2 C S'.
  assert (E : r1 = r2).
  { apply Rsqr_inj; [exact H1|exact H2|]. unfold Rsqr. pose proof (sin2_cos2 p1) as A. pose proof (sin2_cos2 p2) as B. unfold Rsqr in A, B.
    replace (r1 * r1) with ((r1 * cos p1) * (r1 * cos p1) + (r1 * sin p1) * (r1 * sin p1)) by (transitivity (r1 * r1 * (sin p1 * sin p1 + cos p1 * cos p1)); [ring|rewrite A; ring]).
    rewrite C, S'. transitivity (r2 * r2 * (sin p2 * sin p2 + cos p2 * cos p2)); [ring|rewrite B; ring]. }
  subst r2. destruct (Req_dec r1 0) as [-> |N].
  - unfold Z_nm. destruct (Z.eq_dec m 0) as [-> |M].
    + unfold T_m. cbn [Z.leb Z.compare]. rewrite !Rmult_0_l. reflexivity.
    + rewrite R_nm_0 by assumption. ring.
  - unfold Z_nm. rewrite (T_point m p1 p2); [reflexivity| |]; apply Rmult_eq_reg_l with r1; assumption.
Qed.
Lemma zsum_point fuel ps r1 p1 r2 p2 : Forall (okp fuel) ps -> 0 <= r1 -> 0 <= r2 -> r1 * cos p1 = r2 * cos p2 -> r1 * sin p1 = r2 * sin p2 ->
  forall cs, zsum cs ps r1 p1 = zsum cs ps r2 p2.
Proof.
  intros F H1 H2 C S'. induction F as [|(m & n) ps (V & _) F IH]; intros [|c cs]; try reflexivity.
  cbn [zsum]. rewrite (Z_point m n r1 p1 r2 p2 V H1 H2 C S'), IH. reflexivity.
Qed.

(** distance in the plane *)
Lemma cos_quad t : 1 - cos t <= t * t / 2.
Proof.
  replace t with (2 * (t / 2)) at 1 by field. rewrite cos_2a_sin. pose proof (sin_lip (t / 2) 0) as H. rewrite sin_0, !Rminus_0_r in H.
  assert (Q : sin (t / 2) * sin (t / 2) <= t / 2 * (t / 2)). { pose proof (Rsqr_le_abs_1 _ _ H) as X. unfold Rsqr in X. exact X. }
  nra.
Qed.
Lemma point_distance rho phi r th a b : 0 <= rho <= 1 -> 0 <= r <= 1 -> Rabs (rho - r) <= a -> Rabs (phi - th) <= b ->
  (rho * cos phi - r * cos th) * (rho * cos phi - r * cos th) + (rho * sin phi - r * sin th) * (rho * sin phi - r * sin th) <= (a + b) * (a + b).
Proof.
  intros H1 H2 A B.
  replace (_ + _) with ((rho - r) * (rho - r) + 2 * (rho * r) * (1 - cos (phi - th))).
  - pose proof (cos_quad (phi - th)) as Q. assert (RR : 0 <= rho * r <= 1) by nra.
    assert (A2 : (rho - r) * (rho - r) <= a * a) by (apply Rabs_le_inv in A; nra).
    assert (B2 : (phi - th) * (phi - th) <= b * b) by (apply Rabs_le_inv in B; nra).
    pose proof (Rabs_pos (rho - r)). pose proof (Rabs_pos (phi - th)). pose proof (COS_bound (phi - th)). nra.
  - rewrite cos_minus. pose proof (sin2_cos2 phi) as P. pose proof (sin2_cos2 th) as Q. unfold Rsqr in P, Q.
    set (c1 := cos phi) in *. set (s1 := sin phi) in *. set (c2 := cos th) in *. set (s2 := sin th) in *.
    replace ((rho * c1 - r * c2) * (rho * c1 - r * c2) + (rho * s1 - r * s2) * (rho * s1 - r * s2))
      with (rho * rho * (s1 * s1 + c1 * c1) + r * r * (s2 * s2 + c2 * c2) - 2 * rho * r * (c1 * c2 + s1 * s2)) by ring.
    rewrite P, Q. ring.
Qed.

(** a mesh that shows what it should *)
Record mesh_ok (rs ts : list R) (a b : R) : Prop := {
  mk_disk : Forall in_disk rs;
  mk_r : dense rs 1 a;
  mk_t : exists lim, 2 * PI - 8 * u <= lim /\ 0 <= lim /\ dense ts lim b }.

Lemma mesh_pictures fuel cs ps rs ts f a b proj fig : Forall (okp fuel) ps -> mesh_ok rs ts a b ->
  (forall i j, (i < length rs)%nat -> (j < length ts)%nat -> f i j = Fin (zsum cs ps (nth i rs 0) (nth j ts 0))) ->
  exists d, (if is_3d proj then draw_3d (SMat (length rs) (length ts) f) rs ts else draw_2d (SMat (length rs) (length ts) f) rs ts) = Ok d /\
    subplot proj (SMat (length rs) (length ts) f) rs ts fig = ([d], Ok Datatypes.tt) /\ pictures d cs ps (a + b + 8 * u) /\ on_3d_axes d = is_3d proj.
Proof.
  intros OK [D DR (lim & L1 & L0 & DT)] F.
  assert (NTH : forall i, (i < length rs)%nat -> in_disk (nth i rs 0)) by (intros i Hi; rewrite Forall_forall in D; apply D, nth_In, Hi).
  set (d2 := Mesh2D ts rs f).
  set (d3 := Surf3D (length rs) (length ts) (fun i j => nth i rs 0 * cos (nth j ts 0)) (fun i j => nth i rs 0 * sin (nth j ts 0)) f).
  assert (SAME : forall x y v, shows d2 x y v <-> shows d3 x y v) by (intros; reflexivity).
  assert (PIC : pictures d2 cs ps (a + b + 8 * u)).
  { split.
    - intros x y v (i & j & Hi & Hj & -> & -> & ->). pose proof (NTH i Hi) as I. unfold in_disk in I. split.
      + pose proof (sin2_cos2 (nth j ts 0)) as P. unfold Rsqr in P. set (r := nth i rs 0) in *. set (c := cos _) in *. set (s := sin _) in *.
        replace (r * c * (r * c) + r * s * (r * s)) with (r * r * (s * s + c * c)) by ring. rewrite P. nra.
      + intros rho phi Hr C S'. rewrite F by assumption. f_equal. apply (zsum_point fuel); [exact OK|lra|exact Hr|symmetry; exact C|symmetry; exact S'].
    - intros x y Hxy. destruct (pixel_polar y x) as (R0 & P0 & Cx & Sy). set (rho := norm2 x y) in *. set (phi := pixel_theta y x) in *.
      assert (R1 : rho <= 1). { assert (rho * rho <= 1) by (unfold rho; rewrite norm2_sqr; exact Hxy). nra. }
      destruct (DR rho ltac:(lra)) as (r & Ir & Er). pose proof u_pos as U0.
      destruct (DT (Rmin phi lim)) as (t & It & Et). { split; [apply Rmin_glb; lra|apply Rmin_r]. }
      assert (EP : Rabs (phi - t) <= b + 8 * u).
      { apply Rabs_le_inv in Et. unfold Rmin in Et. destruct (Rle_dec phi lim); apply Rabs_le; lra. }
      destruct (In_nth rs r 0 Ir) as (i & Hi & Ni). destruct (In_nth ts t 0 It) as (j & Hj & Nj).
      exists (r * cos t), (r * sin t), (f i j). split.
      + exists i, j. rewrite Ni, Nj. repeat split; assumption.
      + rewrite <- Cx, <- Sy. pose proof (NTH i Hi) as DI. rewrite Ni in DI. unfold in_disk in DI.
        replace (a + b + 8 * u) with (a + (b + 8 * u)) by ring. apply point_distance; (lra || assumption). }
  unfold subplot, draw_3d, draw_2d, plot_surface, pcolormesh. rewrite !Nat.eqb_refl. cbn [andb].
  destruct (is_3d proj).
  - exists d3. split; [reflexivity|]. split; [reflexivity|]. split; [exact PIC|reflexivity].
  - exists d2. split; [reflexivity|]. split; [reflexivity|]. split; [exact PIC|reflexivity].
Qed.

Lemma draws_grid cs ps rs ts f proj fig :
  (forall i j, (i < length rs)%nat -> (j < length ts)%nat -> f i j = Fin (zsum cs ps (nth i rs 0) (nth j ts 0))) ->
  exists d, (if is_3d proj then draw_3d (SMat (length rs) (length ts) f) rs ts else draw_2d (SMat (length rs) (length ts) f) rs ts) = Ok d /\
    subplot proj (SMat (length rs) (length ts) f) rs ts fig = ([d], Ok Datatypes.tt) /\ shows_grid d cs ps rs ts /\ on_3d_axes d = is_3d proj.
Proof.
  intros F. set (d2 := Mesh2D ts rs f).
  set (d3 := Surf3D (length rs) (length ts) (fun i j => nth i rs 0 * cos (nth j ts 0)) (fun i j => nth i rs 0 * sin (nth j ts 0)) f).
  assert (G : shows_grid d2 cs ps rs ts).
  { intros x y v. split.
    - intros (i & j & Hi & Hj & -> & -> & ->). exists (nth i rs 0), (nth j ts 0).
      split; [apply nth_In, Hi|]. split; [apply nth_In, Hj|]. split; [reflexivity|]. split; [reflexivity|]. apply F; assumption.
    - intros (rho & phi & Hr & Hp & -> & -> & ->). destruct (In_nth rs rho 0 Hr) as (i & Hi & <-). destruct (In_nth ts phi 0 Hp) as (j & Hj & <-).
      exists i, j. split; [exact Hi|]. split; [exact Hj|]. split; [reflexivity|]. split; [reflexivity|]. symmetry. apply F; assumption. }
  unfold subplot, draw_3d, draw_2d, plot_surface, pcolormesh. rewrite !Nat.eqb_refl. cbn [andb].
  destruct (is_3d proj).
  - exists d3. split; [reflexivity|]. split; [reflexivity|]. split; [exact G|reflexivity].
  - exists d2. split; [reflexivity|]. split; [reflexivity|]. split; [exact G|reflexivity].
Qed.

(** the meshes of the package *)
Lemma pi_b64 : 2 * PI - 8 * u <= two_pi b64.
Proof.
  destruct two_pi_facts as (_ & _ & _ & E). rewrite E. pose proof PI_bounds as B. pose proof (b64_rel PI) as R. rewrite (Rabs_pos_eq PI) in R by lra.
  apply Rabs_le_inv in R. pose proof u_pos. nra.
Qed.
Lemma covers_disk l g : covers l 1 g -> Forall in_disk l.
Proof. intros (_ & _ & _ & H). apply Forall_forall. exact H. Qed.

Lemma polar_mesh_ok rnd r_step t_step :
  (rnd = idr /\ 0 < r_step /\ 0 < t_step) \/
  (rnd = b64 /\ F64 r_step /\ F64 t_step /\ bpow radix2 (-50) <= r_step <= 1 / 2 /\ bpow radix2 (-48) <= t_step <= b64 PI) ->
  exists rs ts, gen_polar_coordinates rnd r_step t_step = Ok (rs, ts) /\ mesh_ok rs ts (r_step + 1 / 10 ^ 14) (t_step + 1 / 10 ^ 14).
Proof.
  assert (P14 : 0 < 1 / 10 ^ 14) by (apply Rdiv_lt_0_compat; [lra|apply pow_lt; lra]).
  assert (WK : forall l lim g g', g <= g' -> dense l lim g -> dense l lim g').
  { intros l lim g g' Hg D x Hx. destruct (D x Hx) as (y & Y & Z). exists y. split; [exact Y|lra]. }
  pose proof u_pos as U0. pose proof PI_RGT_0 as PI0.
  intros [(-> & H1 & H2)|(-> & F1 & F2 & H1 & H2)].
  - destruct (polar_exact r_step t_step H1 H2) as (rs & ts & E & C1 & C2). exists rs, ts. split; [exact E|]. constructor.
    + apply (covers_disk _ _ C1).
    + apply (WK _ _ r_step); [lra|]. apply covers_dense; [lra|exact C1].
    + exists (2 * PI). split; [lra|]. split; [lra|]. apply (WK _ _ t_step); [lra|]. apply covers_dense; [lra|exact C2].
  - destruct (polar_b64_dense r_step t_step F1 F2 H1 H2) as (rs & ts & E & ((_ & _ & _ & W) & _) & D1 & D2). exists rs, ts. split; [exact E|]. constructor.
    + apply Forall_forall. exact W.
    + exact D1.
    + exists (two_pi b64). split; [apply pi_b64|]. split; [pose proof two_pi_facts as (_ & ? & _ & _); lra|exact D2].
Qed.
Lemma equal_mesh_ok rnd N : rnd = idr \/ rnd = b64 -> (N <= 2 ^ 26)%Z -> let h := IZR (Z.max 4 N - 1) in
  let '(rs, ts) := gen_equal_polar_mesh rnd N in
  length rs = Z.to_nat (Z.max 4 N) /\ length ts = Z.to_nat (Z.max 4 N) /\ mesh_ok rs ts ((1 + 1 / 1000000) * (1 / h)) ((1 + 1 / 1000000) * (7 / h)).
Proof.
  intros HR HN h. pose proof u_pos as U0. pose proof PI_bounds as PB.
  assert (EH : INR (Z.to_nat (Z.max 4 N) - 1) = h).
  { unfold h. replace (Z.to_nat (Z.max 4 N) - 1)%nat with (Z.to_nat (Z.max 4 N - 1)) by lia. rewrite INR_IZR_INZ, Z2Nat.id by lia. reflexivity. }
  assert (H0 : 0 < h) by (unfold h; apply IZR_lt; lia).
  assert (WK : forall l lim g g', g <= g' -> dense l lim g -> dense l lim g').
  { intros l lim g g' Hg D x Hx. destruct (D x Hx) as (y & Y & Z). exists y. split; [exact Y|lra]. }
  assert (I : 0 < / h) by (apply Rinv_0_lt_compat, H0).
  destruct HR as [-> | ->].
  - pose proof (equal_mesh N) as E. cbv zeta in E. destruct (gen_equal_polar_mesh idr N) as (rs & ts). destruct E as (L1 & L2 & C1 & C2). rewrite EH in C1, C2.
    split; [exact L1|]. split; [exact L2|]. constructor.
    + apply (covers_disk _ _ C1).
    + apply (WK _ _ (1 / h)); [unfold Rdiv; nra|]. apply covers_dense; [unfold Rdiv; nra|exact C1].
    + exists (2 * PI). split; [lra|]. split; [lra|]. apply (WK _ _ (2 * PI / h)); [unfold Rdiv; nra|]. apply covers_dense; [unfold Rdiv; nra|exact C2].
  - pose proof (equal_mesh_b64 N HN) as E. cbv zeta in E. destruct (gen_equal_polar_mesh b64 N) as (rs & ts). destruct E as (L1 & L2 & C1 & C2). rewrite EH in C1, C2.
    destruct two_pi_facts as (_ & T & _ & _).
    split; [exact L1|]. split; [exact L2|]. constructor.
    + apply (covers_disk _ _ C1).
    + apply covers_dense; [unfold Rdiv; nra|exact C1].
    + exists (two_pi b64). split; [apply pi_b64|]. split; [lra|]. apply (WK _ _ ((1 + 1 / 1000000) * (two_pi b64 / h))); [unfold Rdiv; nra|].
      apply covers_dense; [unfold Rdiv; nra|exact C2].
Qed.
