(** Binary64 values of the phase (one polynomial, and sums of several), with the states of the caches. *)
From Coq Require Import Reals Lra Lia Psatz.
From Flocq Require Import Core.
From Verif Require Import Py SpecIndex SpecRadial RadialMath M_Radial M_Coeffs SpecCoeffs L_Cache L_Trig L_Bound M_Sum SpecSum L_Sum M_Polar L_Polar M_Psf SpecPsf
  SpecFloat M_Float L_Float L_Float4 SpecFloatPsf M_FloatPsf L_FPsf2 L_FPsf3 L_Conv2 P_Float.
Import ListNotations.
Local Open Scope R_scope.

(** the states do not depend on the rounding *)
Definition sim {A B} (x : M A) (y : M B) : Prop := forall s, fst (x s) = fst (y s) /\
  ((exists a b, snd (x s) = Ok a /\ snd (y s) = Ok b) \/ (exists e, snd (x s) = Raise e /\ snd (y s) = Raise e)).
Lemma sim_lift {A B} (a : A) (b : B) : sim (mret a) (mret b).
Proof. intros s. split; [reflexivity|]. left. exists a, b. split; reflexivity. Qed.
Lemma sim_raise {A B} e : @sim A B (mlift (Raise e)) (mlift (Raise e)).
Proof. intros s. split; [reflexivity|]. right. exists e. split; reflexivity. Qed.
Lemma sim_bind {A B A' B'} (x : M A) (y : M B) (f : A -> M A') (g : B -> M B') : sim x y -> (forall a b, sim (f a) (g b)) -> sim (mbind x f) (mbind y g).
Proof.
  intros H K s. destruct (H s) as (S & [(a & b & Ea & Eb)|(e & Ea & Eb)]); unfold mbind; destruct (x s) as [s1 r1]; destruct (y s) as [s2 r2]; cbn [fst snd] in *; subst.
  - apply K.
  - split; [reflexivity|]. right. exists e. split; reflexivity.
Qed.
Lemma coeffs_sim rnd pw fuel : forall m n r, sim (fradial_polynomial_coeffs rnd pw fuel m n r) (radial_polynomial_coeffs fuel m n r).
Proof.
  induction fuel as [|f IH]; intros m n r; cbn [fradial_polynomial_coeffs radial_polynomial_coeffs]; [apply sim_raise|].
  destruct (n <=? MAX_RADIAL_ORDER_COEFFS)%Z.
  { apply sim_bind; [|intros; apply sim_lift]. intros s. split; [reflexivity|]. destruct (snd (find_coeffs_orders f NoFlag m n s)) as [d|e]; [left; exists d, d|right; exists e]; split; reflexivity. }
  destruct (Z.abs m =? n)%Z; [apply sim_lift|]. destruct (m =? 0)%Z.
  { apply sim_bind; [apply IH|]. intros. apply sim_bind; [apply IH|]. intros. apply sim_lift. }
  destruct (Z.abs m =? n - 2)%Z; [apply sim_lift|].
  apply sim_bind; [apply IH|]. intros. apply sim_bind; [apply IH|]. intros. apply sim_bind; [apply IH|]. intros. apply sim_lift.
Qed.
Lemma bind_ret_state {A B} (x : M A) (f : A -> B) s : fst (mbind x (fun a => mret (f a)) s) = fst (x s).
Proof. unfold mbind. destruct (x s) as [s' [a|e]]; reflexivity. Qed.
Lemma radial_state rnd pw fuel m n r s : fst (fzp_radial rnd pw fuel m n false r s) = fst (zp_radial fuel m n false r s).
Proof. unfold fzp_radial, zp_radial. destruct (n <=? 12)%Z; [reflexivity|]. apply coeffs_sim. Qed.
Lemma value_reach rnd pw fcos fsin fuel m n r th s : reachable s -> valid m n -> reachable (fst (fzp_polynomial_value rnd pw fcos fsin fuel m n false r th s)).
Proof.
  intros RS V. unfold fzp_polynomial_value. cbn [andb]. rewrite bind_ret_state, radial_state. apply reach_radial; assumption.
Qed.

Section Phase.
Variable pw : R -> Z -> R.
Variables fcos fsin : R -> R.
Hypothesis PW : power_within_ulp pw.
Hypothesis TR : trig_within_ulp fcos fsin.

Lemma re_nonneg n : 0 <= radial_error n.
Proof. unfold radial_error. apply Rmult_le_pos; [apply pow_le; lra|]. apply Rlt_le, Rinv_0_lt_compat, pow_lt. lra. Qed.
Lemma norm_nonneg m n : 0 <= norm_nm m n. Proof. unfold norm_nm. apply sqrt_pos. Qed.
Lemma T_bound m t : Rabs (T_m m t) <= 1.
Proof. unfold T_m. apply Rabs_le. destruct (0 <=? m)%Z; [apply COS_bound|apply SIN_bound]. Qed.
Lemma Z_bound m n x t : valid m n -> 0 <= x <= 1 -> Rabs (Z_nm m n x t) <= norm_nm m n.
Proof.
  intros V Hx. unfold Z_nm. rewrite Rmult_assoc, Rabs_mult, (Rabs_pos_eq (norm_nm m n)) by apply norm_nonneg.
  pose proof (R_bound m n x V ltac:(lra)) as A. pose proof (T_bound m t) as C. pose proof (norm_nonneg m n) as N0.
  rewrite <- (Rmult_1_r (norm_nm m n)) at 2. apply Rmult_le_compat_l; [exact N0|]. rewrite Rabs_mult. rewrite <- (Rmult_1_l 1).
  apply Rmult_le_compat; try apply Rabs_pos; assumption.
Qed.
Lemma zsum_bound ps : all_valid ps -> forall cs x t, 0 <= x <= 1 -> Rabs (zsum cs ps x t) <= size_of cs ps.
Proof.
  induction 1 as [|[m n] ps V F IH]; intros [|c cs] x t Hx; cbn [zsum size_of]; try (rewrite Rabs_R0; lra).
  eapply Rle_trans; [apply Rabs_triang|]. apply Rplus_le_compat; [|apply IH, Hx]. rewrite Rabs_mult. apply Rmult_le_compat_l; [apply Rabs_pos|]. apply Z_bound; assumption.
Qed.
Lemma size_nonneg cs : forall ps, 0 <= size_of cs ps.
Proof.
  induction cs as [|c cs IH]; intros [|[m n] ps]; cbn [size_of]; try lra. pose proof (IH ps).
  assert (0 <= Rabs c * norm_nm m n) by (apply Rmult_le_pos; [apply Rabs_pos|apply norm_nonneg]). lra.
Qed.
Lemma verr_nonneg cs : forall ps, 0 <= values_error cs ps.
Proof.
  induction cs as [|c cs IH]; intros [|[m n] ps]; cbn [values_error]; try lra. pose proof (IH ps).
  assert (0 <= Rabs c * norm_nm m n * (4 * radial_error n + IZR (Z.abs m) / 2 ^ 49)).
  { apply Rmult_le_pos; [apply Rmult_le_pos; [apply Rabs_pos|apply norm_nonneg]|]. pose proof (re_nonneg n).
    assert (0 <= IZR (Z.abs m) / 2 ^ 49) by (apply Rmult_le_pos; [apply (IZR_le 0); lia|apply Rlt_le, Rinv_0_lt_compat, pow_lt; lra]). lra. }
  lra.
Qed.

Lemma value_okq fuel p x phi : okp fuel p -> F64 x -> 0 <= x <= 1 -> Rabs phi <= 7 ->
  okq (fzp_polynomial_value b64 pw fcos fsin fuel (fst p) (snd p) false x phi)
    (fun v => Rabs (v - Z_nm (fst p) (snd p) x phi) <= norm_nm (fst p) (snd p) * (4 * radial_error (snd p) + IZR (Z.abs (fst p)) / 2 ^ 49)).
Proof.
  intros (V & HF) Fx Hx H7 s RS. split; [apply value_reach; assumption|].
  destruct (C57_value_error s pw fcos fsin fuel (fst p) (snd p) false x phi RS PW TR Fx Hx V HF ltac:(discriminate)) as (v & Ev & E). exists v. split; [exact Ev|].
  eapply Rle_trans; [exact E|]. apply Rmult_le_compat_l; [apply norm_nonneg|]. apply Rplus_le_compat_l.
  rewrite Rabs_mult, <- abs_IZR. replace (2 ^ 52) with (8 * 2 ^ 49) by (replace (2 ^ 52) with (2 ^ (3 + 49)) by reflexivity; rewrite pow_add; lra).
  assert (P49 : 0 < 2 ^ 49) by (apply pow_lt; lra). rewrite Rinv_mult. assert (I49 : 0 < / 2 ^ 49) by (apply Rinv_0_lt_compat, P49).
  unfold Rdiv. rewrite <- Rmult_assoc. apply Rmult_le_compat_r; [lra|]. assert (A0 : 0 <= IZR (Z.abs (fst p))) by (apply (IZR_le 0); lia).
  rewrite Rmult_assoc. rewrite <- (Rmult_1_r (IZR (Z.abs (fst p)))) at 2. apply Rmult_le_compat_l; [exact A0|lra].
Qed.

(** one term of the sum, rounded *)
Lemma term_err a v z n0 dv : 0 <= dv -> Rabs z <= n0 -> Rabs (v - z) <= dv -> Rabs (b64 (a * v) - a * z) <= Rabs a * dv * (1 + u) + u * (Rabs a * n0) + u / 2.
Proof.
  intros D0 Hz Hv. apply b64_step.
  - rewrite Rabs_mult. apply Rmult_le_compat_l; [apply Rabs_pos|exact Hz].
  - replace (a * v - a * z) with (a * (v - z)) by ring. rewrite Rabs_mult. apply Rmult_le_compat_l; [apply Rabs_pos|exact Hv].
Qed.
(** one step of the accumulation *)
Definition acc_err (k V B : R) : R := (1 + 4 * k * u) * (V + k * (u * (2 * B + 2))).
Lemma acc_step k V B W S t z dv n0 : 0 <= k <= 1048576 -> 0 <= V -> 0 <= dv -> 0 <= n0 -> Rabs S + n0 <= B -> Rabs z <= n0 -> Rabs (W - S) <= acc_err k V B ->
  Rabs (t - z) <= dv * (1 + u) + u * n0 + u / 2 -> Rabs (b64 (W + t) - (S + z)) <= acc_err (k + 1) (V + dv) B.
Proof.
  intros Hk HV Hd Hn HB Hz HW Ht. pose proof u_pos as U. pose proof u_small as US. pose proof (Rabs_pos S) as S0.
  assert (SM : Rabs (S + z) <= B) by (eapply Rle_trans; [apply Rabs_triang|]; lra).
  assert (D : Rabs ((W + t) - (S + z)) <= acc_err k V B + (dv * (1 + u) + u * n0 + u / 2)).
  { replace (W + t - (S + z)) with ((W - S) + (t - z)) by ring. eapply Rle_trans; [apply Rabs_triang|]. lra. }
  pose proof (b64_step _ _ _ _ SM D) as E. eapply Rle_trans; [exact E|]. unfold acc_err.
  assert (UN : u * n0 <= u * B) by (apply Rmult_le_compat_l; lra). set (c := u * (2 * B + 2)).
  assert (B0 : 0 <= B) by lra. assert (C0 : c = 2 * (u * B) + 2 * u) by (unfold c; ring). assert (UB0 : 0 <= u * B) by (apply Rmult_le_pos; lra).
  assert (KU0 : 0 <= k * u) by (apply Rmult_le_pos; lra).
  assert (KU : k * u <= / 10). { apply Rle_trans with (1048576 * u); [apply Rmult_le_compat_r; lra|lra]. }
  set (K := k * u) in *. replace (4 * k * u) with (4 * K) by (unfold K; ring). replace (4 * (k + 1) * u) with (4 * K + 4 * u) by (unfold K; ring).
  assert (KC0 : 0 <= k * c) by (apply Rmult_le_pos; lra). set (Y := k * c) in *. replace ((k + 1) * c) with (Y + c) by (unfold Y; ring).
  assert (X1 : (1 + 4 * K) * (V + Y) * (1 + u) <= (1 + (4 * K + 4 * u)) * (V + Y)).
  { replace ((1 + 4 * K) * (V + Y) * (1 + u)) with ((V + Y) * ((1 + 4 * K) * (1 + u))) by ring. rewrite (Rmult_comm (1 + (4 * K + 4 * u))). apply Rmult_le_compat_l; [lra|].
    assert (K * u <= / 10 * u) by (apply Rmult_le_compat_r; lra). lra. }
  assert (X2 : dv * (1 + u) * (1 + u) <= (1 + (4 * K + 4 * u)) * dv).
  { rewrite (Rmult_comm (1 + _)), Rmult_assoc. apply Rmult_le_compat_l; [lra|]. assert (u * u <= u * 1) by (apply Rmult_le_compat_l; lra). lra. }
  assert (X3 : (u * n0 + u / 2) * (1 + u) + u * B + u / 2 <= c + 4 * u * c).
  { assert ((u * n0 + u / 2) * u <= (u * B + u / 2) * u) by (apply Rmult_le_compat_r; lra).
    assert (0 <= u * B * u) by (apply Rmult_le_pos; lra). assert (0 <= u * u) by (apply Rmult_le_pos; lra). assert (u * u <= u * 1) by (apply Rmult_le_compat_l; lra).
    rewrite C0. lra. }
  assert (X4 : 0 <= 4 * K * c) by (apply Rmult_le_pos; lra). lra.
Qed.

Section Point.
Variables (x phi : R).
Hypothesis Fx : F64 x.
Hypothesis Hx : 0 <= x <= 1.
Hypothesis H7 : Rabs phi <= 7.
Variable fuel : nat.

Lemma dv_nonneg m n : 0 <= norm_nm m n * (4 * radial_error n + IZR (Z.abs m) / 2 ^ 49).
Proof.
  apply Rmult_le_pos; [apply norm_nonneg|]. pose proof (re_nonneg n).
  assert (0 <= IZR (Z.abs m) / 2 ^ 49) by (apply Rmult_le_pos; [apply (IZR_le 0); lia|apply Rlt_le, Rinv_0_lt_compat, pow_lt; lra]). lra.
Qed.
Lemma tl_okq ps : Forall (okp fuel) ps -> forall amps k V B W S, length amps = length ps -> 0 <= k -> k + INR (length ps) <= 1048576 -> 0 <= V ->
  Rabs S + size_of amps ps <= B -> Rabs (W - S) <= acc_err k V B ->
  okq (fphase_pols_tl b64 pw fcos fsin fuel ps amps x phi W) (fun v => Rabs (v - (S + zsum amps ps x phi)) <= acc_err (k + INR (length ps)) (V + values_error amps ps) B).
Proof.
  induction 1 as [|[m n] ps OK F IH]; intros amps k V B W S L K0 KM V0 HB HW; destruct amps as [|a amps]; try discriminate.
  - cbn [fphase_pols_tl zsum values_error length INR]. apply okq_ret. rewrite !Rplus_0_r. exact HW.
  - cbn [fphase_pols_tl]. cbn [size_of] in HB. injection L as L. cbn [length] in KM |- *. rewrite S_INR in KM |- *. pose proof (pos_INR (length ps)) as L0.
    pose proof (size_nonneg amps ps) as SN. pose proof (norm_nonneg m n) as NN. pose proof (Rabs_pos a) as A0. pose proof (dv_nonneg m n) as DN.
    eapply okq_bind; [apply (value_okq fuel (m, n) x phi OK Fx Hx H7)|]. cbn [fst snd]. intros v Hv.
    pose proof (term_err a v _ _ _ DN (Z_bound m n x phi (proj1 OK) Hx) Hv) as TE.
    assert (AN : 0 <= Rabs a * norm_nm m n) by (apply Rmult_le_pos; assumption).
    assert (ZB : Rabs (a * Z_nm m n x phi) <= Rabs a * norm_nm m n) by (rewrite Rabs_mult; apply Rmult_le_compat_l; [exact A0|apply Z_bound; [apply OK|exact Hx]]).
    assert (ST := acc_step k V B W S (b64 (a * v)) (a * Z_nm m n x phi) (Rabs a * (norm_nm m n * (4 * radial_error n + IZR (Z.abs m) / 2 ^ 49))) (Rabs a * norm_nm m n)
      ltac:(lra) V0 ltac:(apply Rmult_le_pos; assumption) AN ltac:(lra) ZB HW TE).
    cbn [zsum values_error].
    replace (S + (a * Z_nm m n x phi + zsum amps ps x phi)) with (S + a * Z_nm m n x phi + zsum amps ps x phi) by ring.
    replace (k + (INR (length ps) + 1)) with (k + 1 + INR (length ps)) by ring.
    replace (V + (Rabs a * norm_nm m n * (4 * radial_error n + IZR (Z.abs m) / 2 ^ 49) + values_error amps ps))
      with (V + Rabs a * (norm_nm m n * (4 * radial_error n + IZR (Z.abs m) / 2 ^ 49)) + values_error amps ps) by ring.
    apply IH; try lra; try assumption.
    + apply Rplus_le_le_0_compat; [exact V0|]. apply Rmult_le_pos; assumption.
    + pose proof (Rabs_triang S (a * Z_nm m n x phi)). lra.
Qed.
Definition phase_D (amps : list R) (ps : list (Z * Z)) : R := 2 * values_error amps ps + 4 * INR (length ps) * u * (size_of amps ps + 1).
Lemma acc_final k V B : 0 <= k <= 1048576 -> 0 <= V -> 0 <= B -> acc_err k V B <= 2 * V + 4 * k * u * (B + 1).
Proof.
  intros Hk HV HB. pose proof u_pos as U. pose proof u_small as US. unfold acc_err. assert (4 * k * u <= 1) by (apply Rle_trans with (4 * 1048576 * u); [apply Rmult_le_compat_r; lra|lra]).
  assert (0 <= k * (u * (2 * B + 2))) by (apply Rmult_le_pos; [lra|apply Rmult_le_pos; lra]).
  apply Rle_trans with (2 * (V + k * (u * (2 * B + 2)))); [apply Rmult_le_compat_r; lra|]. right. ring.
Qed.
Lemma pols_okq ps amps : Forall (okp fuel) ps -> ps <> [] -> length amps = length ps -> INR (length ps) <= 1048576 ->
  okq (fphase_pols b64 pw fcos fsin fuel ps amps x phi) (fun v => Rabs (v - zsum amps ps x phi) <= phase_D amps ps).
Proof.
  intros F NE L KM. destruct ps as [|[m n] ps]; [elim NE; reflexivity|]. destruct amps as [|a amps]; [discriminate|]. unfold fphase_pols. injection L as L.
  inversion F as [|? ? OK F']; subst. cbn [length] in KM |- *. rewrite S_INR in KM. pose proof (pos_INR (length ps)) as L0. pose proof u_pos as U. pose proof u_small as US.
  pose proof (size_nonneg amps ps) as SN. pose proof (norm_nonneg m n) as NN. pose proof (Rabs_pos a) as A0. pose proof (dv_nonneg m n) as DN.
  eapply okq_bind; [apply (value_okq fuel (m, n) x phi OK Fx Hx H7)|]. cbn [fst snd]. intros v Hv.
  pose proof (term_err a v _ _ _ DN (Z_bound m n x phi (proj1 OK) Hx) Hv) as TE.
  assert (AN : 0 <= Rabs a * norm_nm m n) by (apply Rmult_le_pos; assumption).
  assert (ZB : Rabs (a * Z_nm m n x phi) <= Rabs a * norm_nm m n) by (rewrite Rabs_mult; apply Rmult_le_compat_l; [exact A0|apply Z_bound; [apply OK|exact Hx]]).
  set (dv := Rabs a * (norm_nm m n * (4 * radial_error n + IZR (Z.abs m) / 2 ^ 49))) in *. assert (DV : 0 <= dv) by (apply Rmult_le_pos; assumption).
  set (B := size_of (a :: amps) ((m, n) :: ps)). assert (EB : B = Rabs a * norm_nm m n + size_of amps ps) by reflexivity.
  eapply okq_weak; [|apply (tl_okq ps F' amps 1 dv B (b64 (a * v)) (a * Z_nm m n x phi) L)]; try lra.
  - intros w Hw. cbn [zsum]. eapply Rle_trans; [exact Hw|]. pose proof (verr_nonneg amps ps) as VN. eapply Rle_trans; [apply acc_final; lra|].
    unfold phase_D. fold B. cbn [length values_error]. rewrite S_INR. unfold dv. right. ring.
  - eapply Rle_trans; [exact TE|]. unfold acc_err. assert (UB : u * (Rabs a * norm_nm m n) <= u * B) by (apply Rmult_le_compat_l; lra).
    assert (UB0 : 0 <= u * B) by (apply Rmult_le_pos; lra). assert (dv * u <= dv * (4 * u)) by (apply Rmult_le_compat_l; lra).
    assert (0 <= 4 * u * (u * (2 * B + 2))) by (apply Rmult_le_pos; [lra|apply Rmult_le_pos; lra]). lra.
Qed.
Lemma pol_is_pols p alpha : fphase_pol b64 pw fcos fsin fuel p alpha x phi = fphase_pols b64 pw fcos fsin fuel [p] [alpha] x phi.
Proof. reflexivity. Qed.
End Point.
End Phase.
