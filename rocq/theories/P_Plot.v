(** Property theorems C58: surfaces and plots show the polynomials. [rnd]: exact arithmetic or binary64 for the coordinates;
    the values are exact (their rounding error: C57). *)
From Coq Require Import Reals Lra Lia.
From Flocq Require Import Core.
From Verif Require Import Py SpecIndex SpecRadial M_Radial M_Coeffs SpecCoeffs M_Init M_Sum SpecSum L_Sum
  M_Polar L_Polar L_Float L_Plot M_Plot SpecPlot L_Plot2.
Local Open Scope R_scope.

(** steps for which gen_polar_coordinates makes a mesh of the disk (C23) *)
Definition good_steps (rnd : R -> R) (r_step theta_step : R) : Prop :=
  (rnd = idr /\ 0 < r_step /\ 0 < theta_step) \/
  (rnd = b64 /\ F64 r_step /\ F64 theta_step /\ bpow radix2 (-50) <= r_step <= 1 / 2 /\ bpow radix2 (-48) <= theta_step <= b64 PI).

(** the returned matrix has one row per radius and one column per angle, with the value of the sum at each pair; the radii
    fill [0,1] and the angles [0, 2pi] (up to 10^-14) at the requested steps *)
Theorem C58_surface : forall rnd fuel cs ps r_step theta_step n_points s, reachable s -> cs <> [] -> length cs = length ps -> Forall (okp fuel) ps ->
  good_steps rnd r_step theta_step ->
  exists rs ts f, snd (gen_zernikes_surface rnd fuel cs (map Some ps) r_step theta_step false n_points s) = Ok (ZSurf (SMat (length rs) (length ts) f) rs ts) /\
    (forall i j, (i < length rs)%nat -> (j < length ts)%nat -> 0 <= nth i rs 0 <= 1 /\ f i j = Fin (zsum cs ps (nth i rs 0) (nth j ts 0))) /\
    (forall x, 0 <= x <= 1 -> exists y, In y rs /\ Rabs (x - y) <= r_step + 1 / 10 ^ 14) /\
    (forall x, 0 <= x <= 2 * PI - 1 / 10 ^ 14 -> exists y, In y ts /\ Rabs (x - y) <= theta_step + 1 / 10 ^ 14).
Proof.
  intros rnd fuel cs ps a b N s RS NE L OK G. destruct (polar_mesh_ok rnd a b G) as (rs & ts & E & [D DR (lim & L1 & L0 & DT)]).
  destruct (sum_zernikes_surface fuel cs ps rs ts NE L OK D s RS) as (_ & v & Ev & f & -> & F). exists rs, ts, f.
  split; [|split; [|split; [exact DR|]]].
  - unfold gen_zernikes_surface. cbn [negb]. rewrite E. unfold mbind at 1. cbn [mlift fst snd]. unfold mbind.
    destruct (sum_zernikes _ _ _ _ _ _ s) as [s' r]. cbn [snd] in Ev. subst r. reflexivity.
  - intros i j Hi Hj. split; [|apply F; assumption]. rewrite Forall_forall in D. apply D, nth_In, Hi.
  - intros x Hx. apply DT. assert (8 * u <= 1 / 10 ^ 14); [|lra].
    assert (P53 : 2 ^ 53 = 9007199254740992) by (rewrite (pow_IZR 2 53); reflexivity).
    assert (UV : u * 9007199254740992 = 1) by (unfold u; rewrite P53; field).
    assert (P14 : 1 / 10 ^ 14 = 1 / 100000000000000) by (f_equal; ring). lra.
Qed.
Print Assumptions C58_surface.

Theorem C58_equal_surface : forall rnd fuel cs ps r_step theta_step n_points s, rnd = idr \/ rnd = b64 -> reachable s -> cs <> [] -> length cs = length ps ->
  Forall (okp fuel) ps -> (n_points <= 2 ^ 26)%Z ->
  exists rs ts f, snd (gen_zernikes_surface rnd fuel cs (map Some ps) r_step theta_step true n_points s) = Ok (ZSurf (SMat (length rs) (length ts) f) rs ts) /\
    length rs = Z.to_nat (Z.max 4 n_points) /\ length ts = Z.to_nat (Z.max 4 n_points) /\
    (forall i j, (i < length rs)%nat -> (j < length ts)%nat -> 0 <= nth i rs 0 <= 1 /\ f i j = Fin (zsum cs ps (nth i rs 0) (nth j ts 0))).
Proof.
  intros rnd fuel cs ps a b N s HR RS NE L OK HN. pose proof (equal_mesh_ok rnd N HR HN) as H. cbv zeta in H.
  destruct (gen_equal_polar_mesh rnd N) as (rs & ts) eqn:E. destruct H as (L1 & L2 & [D DR _]).
  destruct (sum_zernikes_surface fuel cs ps rs ts NE L OK D s RS) as (_ & v & Ev & f & -> & F). exists rs, ts, f.
  split; [|split; [exact L1|split; [exact L2|]]].
  - unfold gen_zernikes_surface. cbn [negb]. rewrite E. unfold mbind at 1. cbn [mret fst snd]. unfold mbind.
    destruct (sum_zernikes _ _ _ _ _ _ s) as [s' r]. cbn [snd] in Ev. subst r. reflexivity.
  - intros i j Hi Hj. split; [|apply F; assumption]. rewrite Forall_forall in D. apply D, nth_In, Hi.
Qed.
Print Assumptions C58_equal_surface.

(** wrong lists, and steps that gen_polar_coordinates does not accept, raise *)
Theorem C58_surface_rejects : forall rnd fuel cs ps r_step theta_step equal_n n_points s,
  (forall e, equal_n = false -> gen_polar_coordinates rnd r_step theta_step = Raise e ->
     gen_zernikes_surface rnd fuel cs ps r_step theta_step equal_n n_points s = (s, Raise e)) /\
  ((equal_n = true \/ exists p, gen_polar_coordinates rnd r_step theta_step = Ok p) -> length cs <> length ps \/ (cs = [] /\ ps = []) ->
     gen_zernikes_surface rnd fuel cs ps r_step theta_step equal_n n_points s = (s, Raise ValueError)).
Proof.
  intros rnd fuel cs ps a b q N s. split.
  - intros e -> E. unfold gen_zernikes_surface. cbn [negb]. rewrite E. reflexivity.
  - intros H HL. assert (SUM : forall r t, sum_zernikes fuel cs ps r t true s = (s, Raise ValueError)).
    { intros r t. destruct HL as [HL|(-> & ->)]; [apply sum_length_error, HL|reflexivity]. }
    unfold gen_zernikes_surface. destruct q; cbn [negb].
    + unfold mbind at 1. cbn [mret]. unfold mbind. rewrite SUM. reflexivity.
    + destruct H as [|(p & H)]; [discriminate|]. rewrite H. unfold mbind at 1. cbn [mlift]. unfold mbind. rewrite SUM. reflexivity.
Qed.
Print Assumptions C58_surface_rejects.

(** default meshes: steps 0.01 and 0.01309, or 250 x 250 points *)
Lemma default_ok rnd projection : rnd = idr \/ rnd = b64 ->
  exists rs ts a b, default_mesh rnd projection = Ok (rs, ts) /\ mesh_ok rs ts a b /\ 0 <= a + b + 8 * u <= 1 / 30.
Proof.
  intros HR. pose proof u_pos as U0. pose proof u_small as U1.
  assert (P14 : 1 / 10 ^ 14 = 1 / 100000000000000) by (f_equal; ring).
  unfold default_mesh. destruct (is_3d projection).
  - pose proof (equal_mesh_ok rnd 250 HR ltac:(lia)) as H. cbv zeta in H. destruct (gen_equal_polar_mesh rnd 250) as (rs & ts). destruct H as (_ & _ & OK).
    eexists _, _, _, _. split; [reflexivity|]. split; [exact OK|]. change (Z.max 4 250 - 1)%Z with 249%Z. lra.
  - assert (G : good_steps rnd (default_r_step rnd) (default_theta_step rnd) /\ 0 <= default_r_step rnd <= 101 / 10000 /\ 0 <= default_theta_step rnd <= 132 / 10000).
    { destruct HR as [-> | ->]; unfold good_steps, default_r_step, default_theta_step.
      - unfold idr. split; [left; split; [reflexivity|lra]|lra].
      - pose proof (b64_rel (1 / 100)) as A. rewrite (Rabs_pos_eq (1 / 100)) in A by lra. apply Rabs_le_inv in A.
        pose proof (b64_rel (1309 / 100000)) as B. rewrite (Rabs_pos_eq (1309 / 100000)) in B by lra. apply Rabs_le_inv in B.
        destruct two_pi_facts as (_ & _ & T & _).
        split; [right; split; [reflexivity|]; split; [apply b64_F|]; split; [apply b64_F|]|lra].
        assert (BP : forall z, (z <= -10)%Z -> bpow radix2 z <= 1 / 1000).
        { intros z Hz. apply Rle_trans with (bpow radix2 (-10)); [apply bpow_le, Hz|simpl; lra]. }
        pose proof (BP (-50)%Z ltac:(lia)). pose proof (BP (-48)%Z ltac:(lia)). lra. }
    destruct G as (G & A & B). destruct (polar_mesh_ok rnd _ _ G) as (rs & ts & E & OK).
    exists rs, ts, (default_r_step rnd + 1 / 10 ^ 14), (default_theta_step rnd + 1 / 10 ^ 14). split; [exact E|]. split; [exact OK|]. lra.
Qed.

Lemma pictures_weaken d cs ps g g' : 0 <= g <= g' -> pictures d cs ps g -> pictures d cs ps g'.
Proof.
  intros H (A & B). split; [exact A|]. intros x y Hxy. destruct (B x y Hxy) as (x' & y' & v & S' & D). exists x', y', v. split; [exact S'|]. nra.
Qed.

(** plot_sum_zernikes_on_fig with the default mesh: whatever the figure contained, afterwards it contains one drawing, of the
    sum of the polynomials: points only in the unit disk, every value right, no point of the disk farther than 1/30 from a shown one *)
Theorem C58_sum_on_fig : forall rnd fuel figure cs ps surface projection s, rnd = idr \/ rnd = b64 -> reachable s -> cs <> [] -> length cs = length ps ->
  Forall (okp fuel) ps ->
  exists d, snd (plot_sum_zernikes_on_fig rnd fuel figure cs (map Some ps) true surface projection s) = ([d], Ok tt) /\ pictures d cs ps (1 / 30) /\
    on_3d_axes d = is_3d projection.
Proof.
  intros rnd fuel figure cs ps surface proj s HR RS NE L OK. destruct (default_ok rnd proj HR) as (rs & ts & a & b & E & MK & G).
  destruct (sum_zernikes_surface fuel cs ps rs ts NE L OK (mk_disk _ _ _ _ MK) s RS) as (_ & v & Ev & f & -> & F).
  destruct (mesh_pictures fuel cs ps rs ts f a b proj figure OK MK F) as (d & _ & SP & P & AX). exists d.
  split; [|split; [apply (pictures_weaken d cs ps _ _ G P)|exact AX]]. unfold plot_sum_zernikes_on_fig.
  replace (Nat.eqb (length cs) 0) with false by (destruct cs; [elim NE; reflexivity|reflexivity]). cbn [andb negb].
  rewrite E. destruct (sum_zernikes _ _ _ _ _ _ s) as [s' r]. cbn [snd] in Ev. subst r. cbn [snd]. exact SP.
Qed.
Print Assumptions C58_sum_on_fig.

(** ... and with a surface made by gen_zernikes_surface *)
Theorem C58_surface_on_fig : forall rnd fuel figure cs ps r_step theta_step n_points projection s s', reachable s -> cs <> [] -> length cs = length ps ->
  Forall (okp fuel) ps -> good_steps rnd r_step theta_step ->
  exists z d, snd (gen_zernikes_surface rnd fuel cs (map Some ps) r_step theta_step false n_points s) = Ok z /\
    plot_sum_zernikes_on_fig rnd fuel figure [] [] false (SNamed z) projection s' = (s', ([d], Ok tt)) /\ pictures d cs ps (r_step + theta_step + 3 / 10 ^ 14) /\
    on_3d_axes d = is_3d projection.
Proof.
  intros rnd fuel figure cs ps a b N proj s s' RS NE L OK G. destruct (polar_mesh_ok rnd a b G) as (rs & ts & E & MK).
  destruct (sum_zernikes_surface fuel cs ps rs ts NE L OK (mk_disk _ _ _ _ MK) s RS) as (_ & v & Ev & f & -> & F).
  destruct (mesh_pictures fuel cs ps rs ts f _ _ proj figure OK MK F) as (d & _ & SP & P & AX). exists (ZSurf (SMat (length rs) (length ts) f) rs ts), d.
  split; [|split; [|split; [|exact AX]]].
  - unfold gen_zernikes_surface. cbn [negb]. rewrite E. unfold mbind at 1. cbn [mlift fst snd]. unfold mbind.
    destruct (sum_zernikes _ _ _ _ _ _ s) as [s1 r]. cbn [snd] in Ev. subst r. reflexivity.
  - unfold plot_sum_zernikes_on_fig. cbn [andb negb surf_len Nat.eqb zs_S zs_R zs_T]. rewrite SP. reflexivity.
  - assert (P53 : 2 ^ 53 = 9007199254740992) by (rewrite (pow_IZR 2 53); reflexivity).
    assert (UV : u * 9007199254740992 = 1) by (unfold u; rewrite P53; field). pose proof u_pos as U0.
    assert (Q14 : forall c, c / 10 ^ 14 = c / 100000000000000) by (intros c; f_equal; ring). rewrite !Q14 in *.
    apply (pictures_weaken d cs ps _ _) with (2 := P). assert (0 <= a /\ 0 <= b).
    { destruct G as [(_ & ? & ?)|(_ & _ & _ & ? & ?)]; [lra|]. pose proof (bpow_gt_0 radix2 (-50)). pose proof (bpow_gt_0 radix2 (-48)). lra. }
    lra.
Qed.
Print Assumptions C58_surface_on_fig.

(** plot_profile with the default mesh *)
Theorem C58_profile : forall rnd fuel p show_title projection coordinates s, rnd = idr \/ rnd = b64 -> reachable s -> okp fuel (zp_m p, zp_n p) ->
  exists d title, snd (plot_profile rnd fuel (Some p) show_title true projection coordinates s) = Ok (Some (d, title)) /\
    pictures d [1] [(zp_m p, zp_n p)] (1 / 30) /\ on_3d_axes d = is_3d projection /\
    (forall t, title = Some t -> t = get_polynomial_name p false /\ show_title = true) /\
    (is_3d projection = false -> show_title = true -> get_polynomial_name p false <> EmptyString -> title = Some (get_polynomial_name p false)).
Proof.
  intros rnd fuel p st proj co s HR RS OK. destruct (default_ok rnd proj HR) as (rs & ts & a & b & E & MK & G).
  assert (OKS : Forall (okp fuel) [(zp_m p, zp_n p)]) by (constructor; [exact OK|constructor]).
  destruct (sum_zernikes_surface fuel [1] [(zp_m p, zp_n p)] rs ts ltac:(discriminate) eq_refl OKS (mk_disk _ _ _ _ MK) s RS) as (_ & v & Ev & f & -> & F).
  destruct (mesh_pictures fuel [1] [(zp_m p, zp_n p)] rs ts f a b proj [] OKS MK F) as (d & DR & _ & P & AX).
  unfold plot_profile. cbn [negb andb]. rewrite E. unfold mbind at 1. cbn [mlift fst snd]. unfold mbind at 1. cbn [map] in Ev.
  destruct (sum_zernikes _ _ _ _ _ _ s) as [s' r]. cbn [snd] in Ev. subst r.
  apply (pictures_weaken _ _ _ _ _ G) in P. destruct (is_3d proj).
  - exists d, None. unfold mbind. rewrite DR. split; [reflexivity|]. split; [exact P|]. split; [exact AX|]. split; discriminate.
  - unfold mbind. rewrite DR. cbn [mlift mret snd].
    set (title := if st then get_polynomial_name p false else EmptyString). exists d, (if Nat.ltb 0 (String.length title) then Some title else None).
    split; [reflexivity|]. split; [exact P|]. split; [exact AX|]. split.
    + intros t. unfold title. destruct st; [|discriminate]. destruct (Nat.ltb 0 _); [intros [= <-]; split; reflexivity|discriminate].
    + intros _ -> NN. unfold title. destruct (get_polynomial_name p false); [elim NN; reflexivity|reflexivity].
Qed.
Print Assumptions C58_profile.

(** ... and with given coordinates: the drawing shows the polynomial at exactly the points (r, theta) of the given vectors *)
Theorem C58_profile_given : forall rnd fuel p show_title projection rs ts s, reachable s -> okp fuel (zp_m p, zp_n p) -> Forall in_disk rs ->
  exists d title, snd (plot_profile rnd fuel (Some p) show_title false projection (CNamed rs ts) s) = Ok (Some (d, title)) /\
    shows_grid d [1] [(zp_m p, zp_n p)] rs ts /\ on_3d_axes d = is_3d projection /\
    (forall t, title = Some t -> t = get_polynomial_name p false /\ show_title = true).
Proof.
  intros rnd fuel p st proj rs ts s RS OK D.
  assert (OKS : Forall (okp fuel) [(zp_m p, zp_n p)]) by (constructor; [exact OK|constructor]).
  destruct (sum_zernikes_surface fuel [1] [(zp_m p, zp_n p)] rs ts ltac:(discriminate) eq_refl OKS D s RS) as (_ & v & Ev & f & -> & F).
  destruct (draws_grid [1] [(zp_m p, zp_n p)] rs ts f proj [] F) as (d & DR & _ & P & AX).
  unfold plot_profile. cbn [negb andb coords_len Nat.eqb]. unfold mbind at 1. cbn [mlift fst snd]. unfold mbind at 1. cbn [map] in Ev.
  destruct (sum_zernikes _ _ _ _ _ _ s) as [s' r]. cbn [snd] in Ev. subst r. destruct (is_3d proj).
  - exists d, None. unfold mbind. rewrite DR. split; [reflexivity|]. split; [exact P|]. split; [exact AX|]. discriminate.
  - unfold mbind. rewrite DR. cbn [mlift mret snd].
    set (title := if st then get_polynomial_name p false else EmptyString). exists d, (if Nat.ltb 0 (String.length title) then Some title else None).
    split; [reflexivity|]. split; [exact P|]. split; [exact AX|].
    intros t. unfold title. destruct st; [|discriminate]. destruct (Nat.ltb 0 _); [intros [= <-]; split; reflexivity|discriminate].
Qed.
Print Assumptions C58_profile_given.
(** ... and plot_sum_zernikes_on_fig with any given surface whose values are those of the sum at its coordinates *)
Theorem C58_given_surface_on_fig : forall rnd fuel figure cs ps cs' ps' rs ts f projection s,
  (forall i j, (i < length rs)%nat -> (j < length ts)%nat -> f i j = Fin (zsum cs ps (nth i rs 0) (nth j ts 0))) ->
  exists d, plot_sum_zernikes_on_fig rnd fuel figure cs' ps' false (SNamed (ZSurf (SMat (length rs) (length ts) f) rs ts)) projection s = (s, ([d], Ok tt)) /\
    shows_grid d cs ps rs ts /\ on_3d_axes d = is_3d projection.
Proof.
  intros rnd fuel figure cs ps cs' ps' rs ts f proj s F. destruct (draws_grid cs ps rs ts f proj figure F) as (d & _ & SP & P & AX). exists d.
  split; [|split; [exact P|exact AX]]. unfold plot_sum_zernikes_on_fig. cbn [andb negb surf_len Nat.eqb zs_S zs_R zs_T]. rewrite SP. reflexivity.
Qed.
Print Assumptions C58_given_surface_on_fig.

Lemma sum_shape fuel cs ps lr lt s s' v : sum_zernikes fuel cs ps (RArr lr) (RArr lt) true s = (s', Ok v) -> exists f, v = SMat (length lr) (length lt) f.
Proof.
  unfold sum_zernikes. destruct (negb _); [discriminate|]. destruct cs as [|c cs]; [discriminate|]. destruct ps as [|p ps]; [discriminate|].
  unfold mbind. destruct (sum_surface _ _ _ _ _ _ s) as [s1 [f|e]]; [|discriminate]. intros [= <- <-]. exists f. reflexivity.
Qed.
(** calls that fail leave the figure as it was, ... *)
Theorem C58_failure_keeps_figure : forall rnd fuel figure cs ps use_defaults surface projection s s' figure' e,
  plot_sum_zernikes_on_fig rnd fuel figure cs ps use_defaults surface projection s = (s', (figure', Raise e)) ->
  use_defaults = true \/ (forall z, surface <> SNamed z) -> figure' = figure.
Proof.
  intros rnd fuel figure cs ps ud surf proj s s' fig' e H HU. unfold plot_sum_zernikes_on_fig in H.
  destruct (ud && (length cs =? 0)%nat && (length ps =? 0)%nat) eqn:E1; [congruence|].
  destruct (negb ud && negb (surf_len surf =? 3)%nat) eqn:E2; [congruence|].
  destruct ud.
  - destruct (default_mesh rnd proj) as [(rs & ts)|] eqn:ED; [|congruence].
    destruct (sum_zernikes fuel cs ps _ _ true s) as [s1 [v|e1]] eqn:ES; [|congruence].
    destruct (sum_shape _ _ _ _ _ _ _ _ ES) as (f & ->). rewrite !map_length in H.
    unfold subplot, draw_3d, draw_2d, plot_surface, pcolormesh in H. rewrite !Nat.eqb_refl in H. cbn [andb] in H.
    destruct (is_3d proj); discriminate.
  - destruct surf as [z|k]; [destruct HU as [|HU]; [discriminate|elim (HU z); reflexivity]|congruence].
Qed.
Print Assumptions C58_failure_keeps_figure.
(** ... except with a given surface whose shape does not fit its coordinates: the figure is cleared before the error *)
Theorem C58_failure_refuted : forall rnd fuel figure cs ps rows cols f rs ts projection s, rows <> length rs \/ cols <> length ts ->
  plot_sum_zernikes_on_fig rnd fuel figure cs ps false (SNamed (ZSurf (SMat rows cols f) rs ts)) projection s
    = (s, ([], Raise (if is_3d projection then ValueError else TypeError))).
Proof.
  intros rnd fuel figure cs ps rows cols f rs ts proj s H. unfold plot_sum_zernikes_on_fig. cbn [andb negb surf_len Nat.eqb zs_S zs_R zs_T].
  assert (E : (Nat.eqb rows (length rs) && Nat.eqb cols (length ts) = false)%bool) by (destruct (Nat.eqb_spec rows (length rs)), (Nat.eqb_spec cols (length ts)); cbn; tauto).
  unfold subplot, draw_3d, draw_2d, plot_surface, pcolormesh. rewrite E. destruct (is_3d proj); reflexivity.
Qed.
Print Assumptions C58_failure_refuted.
(** refuted: plot_profile of something that is no ZernPol raises. Nothing is drawn and nothing is raised; and documented coordinates
    given as an ordinary tuple of two vectors raise AttributeError *)
Theorem C58_profile_refuted : forall rnd fuel p show_title use_defaults projection coordinates s,
  plot_profile rnd fuel None show_title use_defaults projection coordinates s = (s, Ok None) /\
  plot_profile rnd fuel (Some p) show_title false projection (CTuple 2) s = (s, Raise AttributeError) /\
  (forall k, k <> 2%nat -> plot_profile rnd fuel (Some p) show_title false projection (CTuple k) s = (s, Raise ValueError)).
Proof.
  intros rnd fuel p st ud proj co s. split; [reflexivity|]. split; [reflexivity|]. intros k Hk. unfold plot_profile. cbn [coords_len negb andb].
  destruct (Nat.eqb_spec k 2); [contradiction|reflexivity].
Qed.
Print Assumptions C58_profile_refuted.

Example C58_nonvacuous : good_steps idr (1 / 100) (1 / 50) /\ good_steps b64 (1 / 8) (1 / 4) /\ okp 1000 ((-3), 5)%Z /\ reachable import_state /\
  is_3d "3D" = true /\ is_3d "2d" = false /\ (forall v, shows (Mesh2D [0] [1] (fun _ _ => v)) 1 0 v).
Proof.
  split; [left; split; [reflexivity|lra]|]. split.
  { right. destruct two_pi_facts as (_ & _ & T & _). split; [reflexivity|].
    split; [replace (1 / 8) with (bpow radix2 (-3)) by (simpl; lra); apply generic_format_bpow; unfold FLT_exp; lia|].
    split; [replace (1 / 4) with (bpow radix2 (-2)) by (simpl; lra); apply generic_format_bpow; unfold FLT_exp; lia|]. simpl. lra. }
  split; [split; [split; [cbn; lia|split; [cbn; lia|exists 1%Z; reflexivity]]|cbn; lia]|]. split; [constructor|]. split; [reflexivity|]. split; [reflexivity|].
  intros v. exists 0%nat, 0%nat. cbn. rewrite cos_0, sin_0. repeat split; try lia; lra.
Qed.
