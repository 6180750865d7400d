(** Property theorems C22, C23. [idr] is exact arithmetic, [b64] is IEEE binary64 rounding to nearest even. *)
From Coq Require Import Reals Lra.
From Flocq Require Import Core.
From Verif Require Import Py M_Polar L_Polar L_Plot.
Local Open Scope R_scope.

(** ** C22: refuted. No pair of steps is ever rejected with ValueError (chained comparisons 1017, 1019). *)
Theorem C22_never_rejects : forall rnd r_step theta_step, rnd = idr \/ rnd = b64 ->
  gen_polar_coordinates rnd r_step theta_step <> Raise ValueError.
Proof.
  intros rnd a b [-> | ->]; apply never_value_error; intros x H; [exact H|].
  rewrite <- b64_0. apply b64_mono, H.
Qed.
Print Assumptions C22_never_rejects.

(** what happens instead: too large steps are accepted, zero steps raise ZeroDivisionError, negative
    radial steps raise IndexError (-1 <= step < 0) or give the single radius 0 (step < -1) *)
Theorem C22_large_steps_accepted : forall r_step theta_step, 1/2 < r_step -> PI < theta_step ->
  exists rs ts, gen_polar_coordinates idr r_step theta_step = Ok (rs, ts) /\ (length rs <= 3)%nat /\ (length ts <= 3)%nat.
Proof. exact large_accepted. Qed.
Print Assumptions C22_large_steps_accepted.
Theorem C22_zero_steps : forall rnd r_step theta_step, rnd = idr \/ rnd = b64 -> r_step = 0 \/ (r_step <> 0 /\ theta_step = 0) ->
  gen_polar_coordinates rnd r_step theta_step = Raise ZeroDivisionError.
Proof.
  intros rnd a b [-> | ->] H; apply polar_zero; try exact H; intros x Hx; [exact Hx|]. rewrite <- b64_0. apply b64_mono, Hx.
Qed.
Print Assumptions C22_zero_steps.
Theorem C22_negative_steps : forall r_step theta_step, -1 <= r_step < 0 -> 0 < theta_step ->
  gen_polar_coordinates idr r_step theta_step = Raise IndexError.
Proof. exact polar_negative. Qed.
Print Assumptions C22_negative_steps.
Theorem C22_very_negative_steps : forall r_step theta_step, r_step < -1 -> 0 < theta_step ->
  exists ts, gen_polar_coordinates idr r_step theta_step = Ok ([0], ts).
Proof. exact polar_below. Qed.
Print Assumptions C22_very_negative_steps.
Example C22_nonvacuous : 1/2 < 7/10 /\ PI < 4 /\ -1 <= - (1/2) < 0.
Proof. pose proof PI_bounds. lra. Qed.

(** ** C23 in exact arithmetic: 0 = first < ... < last = limit, gaps at most the step *)
Theorem C23_covers_exact : forall r_step theta_step, 0 < r_step -> 0 < theta_step ->
  exists rs ts, gen_polar_coordinates idr r_step theta_step = Ok (rs, ts) /\ covers rs 1 r_step /\ covers ts (2 * PI) theta_step.
Proof. exact polar_exact. Qed.
Print Assumptions C23_covers_exact.

(** in binary64: starts at 0, non-decreasing, inside [0,1] and [0, 2pi] (the double 2.0*np.pi) *)
Theorem C23_binary64_partial : forall r_step theta_step,
  generic_format radix2 (FLT_exp (-1074) 53) r_step -> generic_format radix2 (FLT_exp (-1074) 53) theta_step ->
  bpow radix2 (-50) <= r_step <= 1 / 2 -> bpow radix2 (-48) <= theta_step <= b64 PI ->
  exists rs ts, gen_polar_coordinates b64 r_step theta_step = Ok (rs, ts) /\ within rs 1 /\ within ts (two_pi b64).
Proof. exact polar_b64. Qed.
Print Assumptions C23_binary64_partial.

(** ... and every radius in [0,1] and every angle in [0, 2pi] is within the step (and 10^-14) of a generated one *)
Theorem C23_binary64_dense : forall r_step theta_step,
  generic_format radix2 (FLT_exp (-1074) 53) r_step -> generic_format radix2 (FLT_exp (-1074) 53) theta_step ->
  bpow radix2 (-50) <= r_step <= 1 / 2 -> bpow radix2 (-48) <= theta_step <= b64 PI ->
  exists rs ts, gen_polar_coordinates b64 r_step theta_step = Ok (rs, ts) /\
    (forall x, 0 <= x <= 1 -> exists y, In y rs /\ Rabs (x - y) <= r_step + 1 / 10 ^ 14) /\
    (forall x, 0 <= x <= two_pi b64 -> exists y, In y ts /\ Rabs (x - y) <= theta_step + 1 / 10 ^ 14).
Proof.
  intros a b Fa Fb Ha Hb. destruct (polar_b64_dense a b Fa Fb Ha Hb) as (rs & ts & E & _ & D1 & D2). exists rs, ts. split; [exact E|]. split; assumption.
Qed.
Print Assumptions C23_binary64_dense.

(** ... but not strictly increasing: with the double nearest to 1/30 the radius 1.0 appears twice *)
Theorem C23_strict_refuted : forall theta_step, bpow radix2 (-48) <= theta_step <= b64 PI ->
  exists rs ts, gen_polar_coordinates b64 step30 theta_step = Ok (rs, ts) /\ length rs = 32%nat /\ nth 30 rs 0 = 1 /\ nth 31 rs 0 = 1.
Proof. exact polar_duplicate. Qed.
Print Assumptions C23_strict_refuted.
(** ... and 1.0 can be missing: with the double below 0.2 every radius is smaller than 1.0 *)
Theorem C23_end_refuted : forall theta_step, bpow radix2 (-48) <= theta_step <= b64 PI ->
  exists rs ts, gen_polar_coordinates b64 step5 theta_step = Ok (rs, ts) /\ length rs = 6%nat /\ forall x, In x rs -> x < 1.
Proof. exact polar_short. Qed.
Print Assumptions C23_end_refuted.

(** gen_equal_polar_mesh: max(4, n) equidistant points on both axes *)
Theorem C23_equal_mesh : forall n_points, let n := Z.to_nat (Z.max 4 n_points) in let h := INR (n - 1) in
  let '(rs, ts) := gen_equal_polar_mesh idr n_points in
  length rs = n /\ length ts = n /\ covers rs 1 (1 / h) /\ covers ts (2 * PI) (2 * PI / h).
Proof. exact equal_mesh. Qed.
Print Assumptions C23_equal_mesh.
(** ... in binary64 as well, with gaps larger by a factor of at most 1.000001 (up to 2^26 points) *)
Theorem C23_equal_mesh_binary64 : forall n_points, (n_points <= 2 ^ 26)%Z -> let n := Z.to_nat (Z.max 4 n_points) in let h := INR (n - 1) in
  let '(rs, ts) := gen_equal_polar_mesh b64 n_points in
  length rs = n /\ length ts = n /\ covers rs 1 ((1 + 1 / 1000000) * (1 / h)) /\ covers ts (two_pi b64) ((1 + 1 / 1000000) * (two_pi b64 / h)).
Proof. exact equal_mesh_b64. Qed.
Print Assumptions C23_equal_mesh_binary64.
Example C23_nonvacuous : generic_format radix2 (FLT_exp (-1074) 53) step30 /\ bpow radix2 (-50) <= step30 <= 1 / 2 /\
  generic_format radix2 (FLT_exp (-1074) 53) 1 /\ bpow radix2 (-48) <= 1 <= b64 PI.
Proof.
  split; [exact F64_step30|]. split; [unfold step30; simpl; lra|]. split; [apply (F64_IZR 1); lia|].
  destruct two_pi_facts as (_ & _ & H & _). simpl. lra.
Qed.
