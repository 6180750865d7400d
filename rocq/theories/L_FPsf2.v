(** One integrand value in binary64. *)
From Coq Require Import Reals Lra Lia.
From Flocq Require Import Core.
From Verif Require Import Py M_Polar L_Polar M_Psf L_Float SpecFloat SpecFloatPsf M_FloatPsf L_Slope.
Local Open Scope R_scope.

Lemma u_mul d : 0 <= d -> u * d <= d / 1000.
Proof. intros H. pose proof u_small. pose proof u_pos. nra. Qed.
Lemma cos_near a b E : Rabs (a - b) <= E -> Rabs (cos a - cos b) <= Rmin E 2.
Proof.
  intros H. apply Rmin_glb; [eapply Rle_trans; [apply cos_lip|exact H]|]. pose proof (COS_bound a). pose proof (COS_bound b). apply Rabs_le. lra.
Qed.
Lemma sin_near a b E : Rabs (a - b) <= E -> Rabs (sin a - sin b) <= Rmin E 2.
Proof.
  intros H. apply Rmin_glb; [eapply Rle_trans; [apply sin_lip|exact H]|]. pose proof (SIN_bound a). pose proof (SIN_bound b). apply Rabs_le. lra.
Qed.
Lemma abs_sum a b c d e : Rabs (a - b) <= d -> Rabs (b - c) <= e -> Rabs (a - c) <= d + e.
Proof. intros H K. replace (a - c) with ((a - b) + (b - c)) by ring. eapply Rle_trans; [apply Rabs_triang|]. lra. Qed.
Lemma abs_prod a a' b b' A B da db : Rabs (a' - a) <= da -> Rabs (b' - b) <= db -> Rabs a <= A -> Rabs b' <= B ->
  Rabs (a' * b' - a * b) <= da * B + A * db.
Proof.
  intros Ha Hb HA HB. replace (a' * b' - a * b) with ((a' - a) * b' + a * (b' - b)) by ring. eapply Rle_trans; [apply Rabs_triang|]. rewrite !Rabs_mult.
  apply Rplus_le_compat; apply Rmult_le_compat; try apply Rabs_pos; assumption.
Qed.

(** the error of the phase *)
Definition phase_err (D B Lt r dr dt : R) : R := 2 * D + (1 + B + Lt + Rabs r) * (64 * u) + 2 * dr + 2 * (Rabs r * dt).

Section Field.
Variables fcos fsin : R -> R.
Hypothesis TR : trig_within_ulp fcos fsin.

Lemma fcos_err x : F64 x -> Rabs (fcos x - cos x) <= 2 * u.
Proof. intros F. destruct (TR x F) as (H & _). eapply Rle_trans; [exact H|]. apply ulp1. pose proof (COS_bound x). apply Rabs_le. lra. Qed.
Lemma fsin_err x : F64 x -> Rabs (fsin x - sin x) <= 2 * u.
Proof. intros F. destruct (TR x F) as (_ & H). eapply Rle_trans; [exact H|]. apply ulp1. pose proof (SIN_bound x). apply Rabs_le. lra. Qed.

Lemma times_x (c v x d : R) : 0 <= x <= 1 -> -1 <= v <= 1 -> 0 <= d <= 2 -> Rabs (c - v) <= d + 2 * u -> Rabs (b64 (c * x) - x * v) <= d + 6 * u.
Proof.
  intros Hx Hv Hd H. pose proof u_pos as U. pose proof u_small as US.
  assert (E : Rabs (c * x - x * v) <= d + 2 * u).
  { replace (c * x - x * v) with ((c - v) * x) by ring. rewrite Rabs_mult, (Rabs_pos_eq x) by lra. pose proof (Rabs_pos (c - v)). nra. }
  assert (M : Rabs (x * v) <= 1) by (apply Rabs_le; nra).
  eapply Rle_trans; [apply (b64_step _ _ _ _ M E)|]. nra.
Qed.

Lemma field_err Phi D B Lt r theta dr dt r' theta' phi phi' x z : 0 <= x <= 1 -> Rabs phi' <= 7 -> Rabs theta' <= 7 -> Rabs (phi' - phi) <= 32 * u ->
  Rabs (r' - r) <= dr -> Rabs (theta' - theta) <= dt -> Rabs (z - Phi x phi') <= D -> Rabs (Phi x phi) <= B ->
  (forall p q, Rabs (Phi x p - Phi x q) <= Lt * Rabs (p - q)) ->
  let E := Rmin (phase_err D B Lt r dr dt) 2 in
  let a := Phi x phi - r * x * cos (phi - theta) in
  let t := ffield b64 fcos fsin phi' theta' r' x z in
  0 <= E <= 2 /\ Rabs (fst t - x * cos a) <= E + 6 * u /\ Rabs (snd t - x * sin a) <= E + 6 * u.
Proof.
  intros Hx H7 T7 HP HR HT HZ HB HL E a t. pose proof u_pos as U. pose proof u_small as US.
  assert (D0 : 0 <= D) by (eapply Rle_trans; [apply Rabs_pos|exact HZ]). assert (B0 : 0 <= B) by (eapply Rle_trans; [apply Rabs_pos|exact HB]).
  assert (dr0 : 0 <= dr) by (eapply Rle_trans; [apply Rabs_pos|exact HR]). assert (dt0 : 0 <= dt) by (eapply Rle_trans; [apply Rabs_pos|exact HT]).
  assert (L0 : 0 <= Lt). { pose proof (HL 1 0) as H. rewrite Rminus_0_r, Rabs_R1, Rmult_1_r in H. eapply Rle_trans; [apply Rabs_pos|exact H]. }
  pose proof (Rabs_pos r) as R0. set (q := Rabs r) in *.
  assert (P0 : 0 <= q * dt) by (apply Rmult_le_pos; assumption).
  (* r' * x *)
  assert (M1 : Rabs (r * x) <= q). { unfold q. rewrite Rabs_mult, (Rabs_pos_eq x) by lra. pose proof (Rabs_pos r). nra. }
  assert (E1 : Rabs (b64 (r' * x) - r * x) <= dr * (1 + u) + u * q + u / 2).
  { apply b64_step; [exact M1|]. replace (r' * x - r * x) with ((r' - r) * x) by ring. rewrite Rabs_mult, (Rabs_pos_eq x) by lra. pose proof (Rabs_pos (r' - r)). nra. }
  (* phi' - theta' *)
  set (s2 := b64 (phi' - theta')).
  assert (E2 : Rabs (s2 - (phi - theta)) <= 47 * u + dt).
  { pose proof (b64_rel (phi' - theta')) as R2. fold s2 in R2.
    assert (Rabs (phi' - theta') <= 14). { eapply Rle_trans; [apply Rabs_triang|]. rewrite Rabs_Ropp. lra. }
    assert (R3 : Rabs (s2 - (phi' - theta')) <= 15 * u) by nra. apply Rabs_le_inv in R3. apply Rabs_le_inv in HP. apply Rabs_le_inv in HT. apply Rabs_le. lra. }
  pose proof (fcos_err s2 (b64_F _)) as E3. pose proof (COS_bound s2) as CB.
  assert (C2 : Rabs (fcos s2) <= 1 + 2 * u) by (apply Rabs_le_inv in E3; apply Rabs_le; lra).
  assert (E4 : Rabs (fcos s2 - cos (phi - theta)) <= 49 * u + dt).
  { assert (Rabs (cos s2 - cos (phi - theta)) <= 47 * u + dt) by (eapply Rle_trans; [apply cos_lip|exact E2]).
    pose proof (abs_sum _ _ _ _ _ E3 H). lra. }
  assert (E5 := abs_prod _ _ _ _ _ _ _ _ E1 E4 M1 C2).
  assert (M5 : Rabs (r * x * cos (phi - theta)) <= q).
  { rewrite Rabs_mult. pose proof (COS_bound (phi - theta)) as CB2. assert (Rabs (cos (phi - theta)) <= 1) by (apply Rabs_le; lra).
    pose proof (Rabs_pos (r * x)). pose proof (Rabs_pos (cos (phi - theta))). nra. }
  set (p5 := b64 (r' * x) * fcos s2) in *.
  pose proof (b64_step _ _ _ _ M5 E5) as E6.
  assert (uq : 0 <= u * q) by (apply Rmult_le_pos; lra).
  assert (S1 := u_mul dr dr0). assert (S2 := u_mul (u * q) uq). assert (S3 := u_mul (q * dt) P0). assert (S4 := u_mul u ltac:(lra)).
  assert (S5 : u * (u * dr) <= dr / 1000) by (pose proof (u_mul (u * dr) ltac:(nra)); lra).
  assert (E6' : Rabs (b64 p5 - r * x * cos (phi - theta)) <= 11 / 10 * dr + 11 / 10 * (q * dt) + 53 * (u * q) + 2 * u).
  { eapply Rle_trans; [exact E6|].
    assert (Q1 : (dr * (1 + u) + u * q + u / 2) * (1 + 2 * u) <= 101 / 100 * dr + 102 / 100 * (u * q) + 6 / 10 * u) by nra.
    assert (Q0 : 0 <= (dr * (1 + u) + u * q + u / 2) * (1 + 2 * u)) by (apply Rmult_le_pos; nra).
    set (w := (dr * (1 + u) + u * q + u / 2) * (1 + 2 * u)) in *.
    assert (Q2 : (w + q * (49 * u + dt)) * (1 + u) <= 102 / 100 * w + 50 * (u * q) + 102 / 100 * (q * dt)) by (pose proof (u_mul w Q0); nra).
    lra. }
  (* the phase *)
  assert (EZ : Rabs (z - Phi x phi) <= D + 32 * (u * Lt)).
  { assert (Rabs (Phi x phi' - Phi x phi) <= 32 * (u * Lt)) by (eapply Rle_trans; [apply HL|]; nra). exact (abs_sum _ _ _ _ _ HZ H). }
  assert (M7 : Rabs a <= B + q).
  { unfold a. eapply Rle_trans; [apply Rabs_triang|]. rewrite Rabs_Ropp. lra. }
  set (d3 := 11 / 10 * dr + 11 / 10 * (q * dt) + 53 * (u * q) + 2 * u) in *.
  assert (E7 : Rabs (z - b64 p5 - a) <= D + 32 * (u * Lt) + d3).
  { unfold a. replace (z - b64 p5 - (Phi x phi - r * x * cos (phi - theta))) with ((z - Phi x phi) - (b64 p5 - r * x * cos (phi - theta))) by ring.
    eapply Rle_trans; [apply Rabs_triang|]. rewrite Rabs_Ropp. lra. }
  pose proof (b64_step _ _ _ _ M7 E7) as E8.
  assert (d30 : 0 <= d3) by (unfold d3; nra). assert (uL : 0 <= u * Lt) by (apply Rmult_le_pos; lra). assert (uB : 0 <= u * B) by (apply Rmult_le_pos; lra).
  assert (E9 : Rabs (b64 (z - b64 p5) - a) <= phase_err D B Lt r dr dt).
  { eapply Rle_trans; [exact E8|]. unfold phase_err. fold q. pose proof (u_mul D D0). pose proof (u_mul d3 d30). pose proof (u_mul (u * Lt) uL).
    assert (d3 <= 11 / 10 * dr + 11 / 10 * (q * dt) + 53 * (u * q) + 2 * u) by (unfold d3; lra). lra. }
  assert (PE : 0 <= phase_err D B Lt r dr dt) by (eapply Rle_trans; [apply Rabs_pos|exact E9]).
  assert (EE : 0 <= E <= 2) by (unfold E; split; [apply Rmin_glb; lra|apply Rmin_r]).
  split; [exact EE|]. set (a' := b64 (z - b64 p5)) in *.
  assert (FA : F64 a') by apply b64_F.
  unfold t, ffield. fold s2. fold p5. fold a'. cbn [fst snd].
  pose proof (COS_bound a). pose proof (SIN_bound a). split; apply times_x; try assumption.
  - pose proof (abs_sum _ _ _ _ _ (fcos_err a' FA) (cos_near _ _ _ E9)). fold E in H1. lra.
  - pose proof (abs_sum _ _ _ _ _ (fsin_err a' FA) (sin_near _ _ _ E9)). fold E in H1. lra.
Qed.
End Field.
