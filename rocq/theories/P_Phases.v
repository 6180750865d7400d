(** Property theorems C26, C49 (exact arithmetic). *)
From Coq Require Import Reals Lra.
From Verif Require Import Py SpecIndex SpecRadial M_Init M_Coeffs SpecCoeffs M_Sum SpecSum M_Geo SpecGeo M_Phases SpecPhases L_Geo L_Phases.
Local Open Scope R_scope.

(** ** C26 *)
Theorem C26_image_shows_phases : forall fuel amplitudes pols w h s, reachable s -> amplitudes <> [] -> length amplitudes = length pols ->
  Forall (okp fuel) pols -> (0 < w)%Z -> (0 <= h)%Z ->
  exists img, snd (generate_phases_image fuel (map Some pols) amplitudes w h s) = Ok img /\ shows img amplitudes pols w h.
Proof. exact phases_image_ok. Qed.
Print Assumptions C26_image_shows_phases.

(** polar coordinates used in [shows] exist for every pixel, and are unique away from the centre *)
Theorem C26_polar_coordinates : forall x y, (exists rho phi, polar x y rho phi) /\
  forall r1 p1 r2 p2, polar x y r1 p1 -> polar x y r2 p2 -> r1 = r2 /\ (r1 <> 0 -> p1 = p2).
Proof. intros x y. split; [exists (norm2 x y), (pixel_theta y x); apply pixel_polar|apply polar_unique]. Qed.
Print Assumptions C26_polar_coordinates.

Theorem C26_deterministic : forall fuel amplitudes pols w h s s', reachable s -> reachable s' -> amplitudes <> [] ->
  length amplitudes = length pols -> Forall (okp fuel) pols -> (0 < w)%Z -> (0 <= h)%Z ->
  snd (generate_phases_image fuel (map Some pols) amplitudes w h s) = snd (generate_phases_image fuel (map Some pols) amplitudes w h s').
Proof. exact phases_image_same. Qed.
Print Assumptions C26_deterministic.

Theorem C26_rejects : forall fuel amplitudes pols w h s,
  (w < 0)%Z \/ (h < 0)%Z \/ ((0 < h)%Z /\ (length amplitudes <> length pols \/ (amplitudes = [] /\ pols = []))) ->
  snd (generate_phases_image fuel pols amplitudes w h s) = Raise ValueError.
Proof. exact phases_image_reject. Qed.
Print Assumptions C26_rejects.
Example C26_nonvacuous : okp 1000 ((-3), 7)%Z /\ okp 1000 (0, 54)%Z.
Proof. unfold okp, valid. cbn [fst snd]. split; (split; [split; [lia|split; [lia|]]|lia]); [exists 2%Z|exists 27%Z]; lia. Qed.

(** ** C49: whatever the random numbers are *)
Theorem C49_random_phases : forall fuel max_order w h s, reachable s -> (0 <= max_order <= 54)%Z -> (0 < w)%Z -> (0 <= h)%Z -> (56 <= Z.of_nat fuel)%Z ->
  exists pols, generate_polynomials max_order = Ok pols /\ (2 * Z.of_nat (length pols) = (max_order + 1) * (max_order + 2))%Z /\
    forall d, legal_draws (length pols) d ->
    exists img amplitudes, snd (generate_random_phases fuel max_order w h d s) = Ok (img, amplitudes, pols) /\ length amplitudes = length pols /\
      shows img amplitudes (map (fun p => (zp_m p, zp_n p)) pols) w h /\
      snd (generate_phases_image fuel (map Some (map (fun p => (zp_m p, zp_n p)) pols)) amplitudes w h s) = Ok img /\
      exists x, In x amplitudes /\ 0.08 <= Rabs x.
Proof. exact random_phases_full. Qed.
Print Assumptions C49_random_phases.

Theorem C49_amplitudes : forall n d, legal_draws n d -> length (random_amplitudes n d) = n /\
  (exists a, In a (random_amplitudes n d) /\ 0.08 <= Rabs a) /\
  forall a, In a (random_amplitudes n d) -> a = rnd d 0 \/ (exists i, a = rnd d (ampl d i)) \/ 0.08 <= Rabs a <= 1.5.
Proof. exact amplitudes_ok. Qed.
Print Assumptions C49_amplitudes.
(** nothing picked and a small second draw: the third draw is used *)
Example C49_nonvacuous : let d := {| pick := fun _ => false; ampl := fun _ => 1; index := 2%nat; again := 0.05; shifted := 0.3; rnd := fun x => x |} in
  legal_draws 3 d /\ random_amplitudes 3 d = [0; 0; 0.3].
Proof.
  cbn zeta. split; [split; [cbn; intros; lra|cbn; split; [lia|lra]]|]. unfold random_amplitudes. cbn [pick ampl index again shifted rnd seq map fold_right].
  rewrite Rabs_R0. destruct (Rlt_dec _ _) as [H|H].
  - destruct (Rlt_dec (Rabs 0.05) 0.08) as [H'|H']; [reflexivity|]. rewrite Rabs_pos_eq in H' by lra. lra.
  - exfalso. apply H. rewrite !(Rmax_left 0 0) by lra. lra.
Qed.
