(** Averages over the unit disk (C65-C67). *)
From Coq Require Import Reals Lra Lia List Psatz.
From Coquelicot Require Import Coquelicot.
From Verif Require Import Py SpecIndex SpecRadial RadialMath M_Radial M_Sum SpecSum L_Trig L_Bound L_Ortho SpecDiff L_Slope L_Conv L_Conv2 L_Airy SpecDisk.
Import ListNotations.
Local Open Scope R_scope.

(** functions for which the double integral makes sense *)
Definition nice (f : R -> R -> R) : Prop :=
  (forall phi, cts (fun p => f p phi)) /\
  (exists B, forall p x y, 0 <= p <= 1 -> Rabs (f p x - f p y) <= B * Rabs (x - y)) /\
  exists M, forall p phi, 0 <= p <= 1 -> Rabs (f p phi) <= M.
Lemma nice_const c : nice (fun _ _ => c).
Proof.
  split; [intros; apply cts_const|]. split; [exists 0; intros; rewrite Rminus_eq_0, Rabs_R0; lra|]. exists (Rabs c). intros; lra.
Qed.
Lemma nice_lin a b f g : nice f -> nice g -> nice (fun p phi => a * f p phi + b * g p phi).
Proof.
  intros (C1 & (B1 & L1) & M1 & U1) (C2 & (B2 & L2) & M2 & U2). split; [|split].
  - intros phi. apply (cts_plus (fun p => a * f p phi) (fun p => b * g p phi)).
    + apply (cts_mult (fun _ => a) (fun p => f p phi)); [apply cts_const|apply C1].
    + apply (cts_mult (fun _ => b) (fun p => g p phi)); [apply cts_const|apply C2].
  - exists (Rabs a * B1 + Rabs b * B2). intros p x y Hp. specialize (L1 p x y Hp). specialize (L2 p x y Hp).
    replace (a * f p x + b * g p x - (a * f p y + b * g p y)) with (a * (f p x - f p y) + b * (g p x - g p y)) by ring.
    eapply Rle_trans; [apply Rabs_triang|]. rewrite !Rabs_mult.
    apply (Rmult_le_compat_l (Rabs a)) in L1; [|apply Rabs_pos]. apply (Rmult_le_compat_l (Rabs b)) in L2; [|apply Rabs_pos]. lra.
  - exists (Rabs a * M1 + Rabs b * M2). intros p phi Hp. specialize (U1 p phi Hp). specialize (U2 p phi Hp).
    eapply Rle_trans; [apply Rabs_triang|]. rewrite !Rabs_mult.
    apply (Rmult_le_compat_l (Rabs a)) in U1; [|apply Rabs_pos]. apply (Rmult_le_compat_l (Rabs b)) in U2; [|apply Rabs_pos]. lra.
Qed.
Lemma nice_ext f g : (forall p phi, f p phi = g p phi) -> nice f -> nice g.
Proof.
  intros E (C & (B & L) & M & U). split; [|split].
  - intros phi. apply (cts_ext (fun p => f p phi)); [intros; apply E|apply C].
  - exists B. intros. rewrite <- !E. apply L. assumption.
  - exists M. intros. rewrite <- E. apply U. assumption.
Qed.
Lemma nice_mult f g : nice f -> nice g -> nice (fun p phi => f p phi * g p phi).
Proof.
  intros (C1 & (B1 & L1) & M1 & U1) (C2 & (B2 & L2) & M2 & U2). split; [|split].
  - intros phi. apply (cts_mult (fun p => f p phi) (fun p => g p phi)); [apply C1|apply C2].
  - exists (M2 * B1 + M1 * B2). intros p x y Hp. specialize (L1 p x y Hp). specialize (L2 p x y Hp). pose proof (U1 p y Hp) as V1. pose proof (U2 p x Hp) as V2.
    replace (f p x * g p x - f p y * g p y) with (g p x * (f p x - f p y) + f p y * (g p x - g p y)) by ring.
    eapply Rle_trans; [apply Rabs_triang|]. rewrite !Rabs_mult.
    assert (A : Rabs (g p x) * Rabs (f p x - f p y) <= M2 * (B1 * Rabs (x - y))) by (apply Rmult_le_compat; try apply Rabs_pos; assumption).
    assert (D : Rabs (f p y) * Rabs (g p x - g p y) <= M1 * (B2 * Rabs (x - y))) by (apply Rmult_le_compat; try apply Rabs_pos; assumption). lra.
  - exists (M1 * M2). intros p phi Hp. rewrite Rabs_mult. apply Rmult_le_compat; try apply Rabs_pos; [apply U1|apply U2]; exact Hp.
Qed.
Lemma nice_comp c f : (forall x y, Rabs (c x - c y) <= Rabs (x - y)) -> nice f -> nice (fun p phi => c (f p phi)).
Proof.
  intros CL (C & (B & L) & M & U). split; [|split].
  - intros phi. apply (cts_comp c (fun p => f p phi)); [|apply C]. apply (lip_cts c 1). intros. rewrite Rmult_1_l. apply CL.
  - exists B. intros p x y Hp. eapply Rle_trans; [apply CL|apply L, Hp].
  - exists (M + Rabs (c 0)). intros p phi Hp. specialize (U p phi Hp). pose proof (CL (f p phi) 0) as H. rewrite Rminus_0_r in H.
    replace (c (f p phi)) with ((c (f p phi) - c 0) + c 0) by ring. eapply Rle_trans; [apply Rabs_triang|]. lra.
Qed.

Definition inner (f : R -> R -> R) (phi : R) : R := RInt (fun p => p * f p phi) 0 1.
Lemma pf_cts f phi : nice f -> cts (fun p => p * f p phi).
Proof. intros N. apply (cts_mult (fun p => p) (fun p => f p phi)); [apply cts_id|apply N]. Qed.
Lemma inner_lin a b f g phi : nice f -> nice g -> inner (fun p phi => a * f p phi + b * g p phi) phi = a * inner f phi + b * inner g phi.
Proof.
  intros F G. unfold inner. rewrite <- (RInt_lin 0 1 a b (fun p => p * f p phi) (fun p => p * g p phi)) by (apply pf_cts; assumption).
  apply RInt_ext. intros. rring.
Qed.
Lemma inner_le f g phi : nice f -> nice g -> (forall p, 0 <= p <= 1 -> f p phi <= g p phi) -> inner f phi <= inner g phi.
Proof.
  intros F G H. unfold inner. apply RInt_le; [lra|apply cts_int, pf_cts, F|apply cts_int, pf_cts, G|]. intros p Hp. apply Rmult_le_compat_l; [lra|]. apply H. lra.
Qed.
Lemma inner_const c phi : inner (fun _ _ => c) phi = c / 2.
Proof.
  unfold inner. pose proof (RInt_lin 0 1 c 0 (fun p => p) (fun p => p) cts_id cts_id) as H. rewrite int_p in H.
  replace (c / 2) with (c * (1 / 2) + 0 * (1 / 2)) by field. rewrite <- H. apply RInt_ext. intros. rring.
Qed.
Lemma inner_cts f : nice f -> cts (inner f).
Proof.
  intros N. pose proof N as (C & (B & L) & _). apply (lip_cts (inner f) (Rabs B)). intros x y.
  assert (H : forall a b, inner f a - inner f b <= Rabs B * Rabs (a - b)).
  { intros a b. assert (E : inner f a - inner f b = inner (fun p _ => 1 * f p a + -1 * f p b) 0).
    { unfold inner. transitivity (RInt (fun p => 1 * (p * f p a) + -1 * (p * f p b)) 0 1).
      - rewrite (RInt_lin 0 1 1 (-1) (fun p => p * f p a) (fun p => p * f p b)) by (apply pf_cts, N). ring.
      - apply RInt_ext. intros. rring. }
    rewrite E. apply Rle_trans with (inner (fun _ _ => Rabs B * Rabs (a - b)) 0).
    - apply inner_le; [|apply nice_const|].
      + split; [|split].
        * intros _. apply (cts_plus (fun p => 1 * f p a) (fun p => -1 * f p b)).
          -- apply (cts_mult (fun _ => 1) (fun p => f p a)); [apply cts_const|apply C].
          -- apply (cts_mult (fun _ => -1) (fun p => f p b)); [apply cts_const|apply C].
        * exists 0. intros. rewrite Rminus_eq_0, Rabs_R0. lra.
        * exists (Rabs B * Rabs (a - b)). intros p _ Hp. replace (1 * f p a + -1 * f p b) with (f p a - f p b) by ring. eapply Rle_trans; [apply L, Hp|].
          apply Rmult_le_compat_r; [apply Rabs_pos|apply Rle_abs].
      + intros p Hp. replace (1 * f p a + -1 * f p b) with (f p a - f p b) by ring. eapply Rle_trans; [apply Rle_abs|]. eapply Rle_trans; [apply L, Hp|].
        apply Rmult_le_compat_r; [apply Rabs_pos|apply Rle_abs].
    - rewrite inner_const. assert (0 <= Rabs B * Rabs (a - b)) by (apply Rmult_le_pos; apply Rabs_pos). lra. }
  apply Rabs_le. split; [|apply H]. pose proof (H y x) as H'. rewrite (Rabs_minus_sym y x) in H'. lra.
Qed.

Lemma mean_inner f : disk_mean f = / PI * RInt (inner f) 0 (2 * PI). Proof. reflexivity. Qed.
Lemma mean_lin a b f g : nice f -> nice g -> disk_mean (fun p phi => a * f p phi + b * g p phi) = a * disk_mean f + b * disk_mean g.
Proof.
  intros F G. rewrite !mean_inner. replace (RInt (inner (fun p phi => a * f p phi + b * g p phi)) 0 (2 * PI)) with (a * RInt (inner f) 0 (2 * PI) + b * RInt (inner g) 0 (2 * PI)); [ring|].
  rewrite <- (RInt_lin 0 (2 * PI) a b (inner f) (inner g)) by (apply inner_cts; assumption). apply RInt_ext. intros phi _. symmetry. apply inner_lin; assumption.
Qed.
Lemma mean_le f g : nice f -> nice g -> (forall p phi, 0 <= p <= 1 -> f p phi <= g p phi) -> disk_mean f <= disk_mean g.
Proof.
  intros F G H. rewrite !mean_inner. pose proof PI_RGT_0 as P. apply Rmult_le_compat_l; [apply Rlt_le, Rinv_0_lt_compat, P|].
  apply RInt_le; [lra|apply cts_int, inner_cts, F|apply cts_int, inner_cts, G|]. intros phi _. apply inner_le; auto.
Qed.
Lemma mean_const c : disk_mean (fun _ _ => c) = c.
Proof.
  rewrite mean_inner. pose proof PI_RGT_0 as P. transitivity (/ PI * RInt (fun _ => c / 2) 0 (2 * PI)).
  - f_equal. apply RInt_ext. intros phi _. apply inner_const.
  - rewrite RInt_const. change (scal (2 * PI - 0) (c / 2)) with ((2 * PI - 0) * (c / 2)). field. lra.
Qed.
Lemma mean_ext f g : (forall p phi, 0 <= p <= 1 -> f p phi = g p phi) -> disk_mean f = disk_mean g.
Proof.
  intros H. rewrite !mean_inner. f_equal. apply RInt_ext. intros phi _. unfold inner. apply RInt_ext. intros p Hp. rewrite H; [reflexivity|].
  rewrite Rmin_left, Rmax_right in Hp by lra. lra.
Qed.
Lemma mean_abs f M : nice f -> (forall p phi, 0 <= p <= 1 -> Rabs (f p phi) <= M) -> Rabs (disk_mean f) <= M.
Proof.
  intros N H. apply Rabs_le. split.
  - rewrite <- (mean_const (- M)). apply mean_le; [apply nice_const|exact N|]. intros p phi Hp. specialize (H p phi Hp). apply Rabs_le_inv in H. lra.
  - rewrite <- (mean_const M). apply mean_le; [exact N|apply nice_const|]. intros p phi Hp. specialize (H p phi Hp). apply Rabs_le_inv in H. lra.
Qed.
(** products *)
Lemma mean_sep u v : cts u -> cts v -> disk_mean (fun p phi => u p * v phi) = / PI * (RInt (fun p => p * u p) 0 1 * RInt v 0 (2 * PI)).
Proof.
  intros U V. unfold disk_mean. f_equal. pose proof (RInt_lin 0 (2 * PI) (RInt (fun p => p * u p) 0 1) 0 v v V V) as H. rewrite Rmult_0_l, Rplus_0_r in H. rewrite <- H.
  apply RInt_ext. intros phi _. assert (PU : cts (fun p => p * u p)) by (apply (cts_mult (fun p => p) u); [apply cts_id|exact U]).
  pose proof (RInt_lin 0 1 (v phi) 0 (fun p => p * u p) (fun p => p * u p) PU PU) as H'. rewrite Rmult_0_l, Rplus_0_r in H'.
  transitivity (v phi * RInt (fun p => p * u p) 0 1); [|rring]. rewrite <- H'. apply RInt_ext. intros. rring.
Qed.

(** ** polynomials *)
Lemma T_cts m : cts (T_m m).
Proof.
  unfold T_m. destruct (0 <=? m)%Z.
  - apply (cts_comp cos (fun t => IZR m * t)); [apply cts_cos|apply k_cts].
  - apply (cts_comp sin (fun t => IZR (Z.abs m) * t)); [apply cts_sin|apply k_cts].
Qed.
Lemma R_cts m n : valid m n -> cts (R_nm m n).
Proof. intros V. apply (cts_ext (F (oa m n) (ob m n))); [intros; symmetry; apply R_nm_F, V|apply cts_F]. Qed.
Lemma Z_nice m n : valid m n -> nice (Z_nm m n).
Proof.
  intros V. split; [intros; apply Z_cts, V|]. split.
  - exists (norm_nm m n * IZR (Z.abs m)). intros p x y Hp. apply Z_lip_t; assumption.
  - exists (norm_nm m n). intros p phi Hp. apply Z_bound; assumption.
Qed.
Lemma zsum_nice ps : all_valid ps -> forall cs, nice (zsum cs ps).
Proof.
  induction 1 as [|[m n] ps V F IH]; intros [|c cs]; try apply (nice_const 0).
  apply (nice_ext (fun p phi => c * Z_nm m n p phi + 1 * zsum cs ps p phi)); [intros; cbn [zsum]; ring|]. apply nice_lin; [apply Z_nice, V|apply IH].
Qed.
Definition delta (a b : Z * Z) : R := if Z.eq_dec (fst a) (fst b) then if Z.eq_dec (snd a) (snd b) then 1 else 0 else 0.
Lemma mean_ortho m n m' n' : valid m n -> valid m' n' -> disk_mean (fun p phi => Z_nm m n p phi * Z_nm m' n' p phi) = delta (m, n) (m', n').
Proof.
  intros V V'. destruct (disk_ortho m n m' n' V V') as (_ & O). apply is_RInt_unique in O. pose proof PI_RGT_0 as P.
  set (u := fun p => norm_nm m n * norm_nm m' n' * (R_nm m n p * R_nm m' n' p)). set (v := fun t => T_m m t * T_m m' t).
  assert (CU : cts u).
  { unfold u. apply (cts_mult (fun _ => norm_nm m n * norm_nm m' n') (fun p => R_nm m n p * R_nm m' n' p)); [apply cts_const|].
    apply (cts_mult (R_nm m n) (R_nm m' n')); apply R_cts; assumption. }
  assert (CV : cts v) by (apply (cts_mult (T_m m) (T_m m')); apply T_cts).
  transitivity (disk_mean (fun p phi => u p * v phi)); [apply mean_ext; intros; unfold u, v, Z_nm; ring|]. rewrite mean_sep by assumption.
  assert (E : RInt (fun r => RInt (fun t => Z_nm m n r t * Z_nm m' n' r t * r) 0 (2 * PI)) 0 1 = RInt (fun p => p * u p) 0 1 * RInt v 0 (2 * PI)).
  { set (K := RInt v 0 (2 * PI)). assert (PU : cts (fun p => p * u p)) by (apply (cts_mult (fun p => p) u); [apply cts_id|exact CU]).
    pose proof (RInt_lin 0 1 K 0 (fun p => p * u p) (fun p => p * u p) PU PU) as H. rewrite Rmult_0_l, Rplus_0_r in H. transitivity (K * RInt (fun p => p * u p) 0 1); [|rring]. rewrite <- H.
    apply RInt_ext. intros r _. pose proof (RInt_lin 0 (2 * PI) (r * u r) 0 v v CV CV) as H'. rewrite Rmult_0_l, Rplus_0_r in H'. fold K in H'.
    transitivity (r * u r * K); [|rring]. rewrite <- H'. apply RInt_ext. intros t _. unfold u, v, Z_nm. rring. }
  rewrite <- E, O. unfold delta. cbn [fst snd]. destruct (Z.eq_dec m m'); [destruct (Z.eq_dec n n')|]; field; lra.
Qed.
(** products with one polynomial, and of two sums *)
Lemma delta_0 a l : ~ In a l -> forall cs, fold_right (fun cb s => fst cb * delta a (snd cb) + s) 0 (combine cs l) = 0.
Proof.
  intros NI. induction l as [|b l IH]; intros [|c cs]; try reflexivity. cbn [combine fold_right fst snd]. rewrite IH by (intros H; apply NI; right; exact H).
  unfold delta. destruct (Z.eq_dec (fst a) (fst b)) as [E1|]; [|ring]. destruct (Z.eq_dec (snd a) (snd b)) as [E2|]; [|ring].
  exfalso. apply NI. left. destruct a, b. cbn in E1, E2. congruence.
Qed.
Lemma mean_Z_zsum a ps : valid (fst a) (snd a) -> all_valid ps -> forall cs,
  disk_mean (fun p phi => Z_nm (fst a) (snd a) p phi * zsum cs ps p phi) = fold_right (fun cb s => fst cb * delta a (snd cb) + s) 0 (combine cs ps).
Proof.
  intros V. induction 1 as [|[m n] ps V' F IH]; intros [|c cs]; cbn [zsum combine fold_right];
    try (transitivity (disk_mean (fun _ _ => 0)); [apply mean_ext; intros; ring|apply mean_const]).
  transitivity (disk_mean (fun p phi => c * (Z_nm (fst a) (snd a) p phi * Z_nm m n p phi) + 1 * (Z_nm (fst a) (snd a) p phi * zsum cs ps p phi))).
  - apply mean_ext. intros. ring.
  - rewrite (mean_lin c 1 (fun p phi => Z_nm (fst a) (snd a) p phi * Z_nm m n p phi) (fun p phi => Z_nm (fst a) (snd a) p phi * zsum cs ps p phi)).
    + rewrite (mean_ortho (fst a) (snd a) m n V V'), IH. cbn [fst snd]. destruct a. cbn [fst snd]. ring.
    + apply (nice_mult (Z_nm _ _) (Z_nm m n)); apply Z_nice; assumption.
    + apply (nice_mult (Z_nm _ _) (zsum cs ps)); [apply Z_nice, V|apply zsum_nice, F].
Qed.
Lemma mean_square ps : all_valid ps -> NoDup ps -> forall cs, length cs = length ps -> disk_mean (fun p phi => zsum cs ps p phi * zsum cs ps p phi) = squares cs.
Proof.
  intros A. induction A as [|[m n] ps V F IH]; intros ND [|c cs] L; try discriminate.
  - cbn [zsum squares fold_right]. transitivity (disk_mean (fun _ _ => 0)); [apply mean_ext; intros; ring|apply mean_const].
  - inversion ND as [|? ? NI ND']; subst. injection L as L. specialize (IH ND' cs L).
    assert (N1 := Z_nice m n V). assert (N2 := zsum_nice ps F cs).
    transitivity (disk_mean (fun p phi => 1 * (c * c * (Z_nm m n p phi * Z_nm m n p phi) + 2 * c * (Z_nm m n p phi * zsum cs ps p phi)) + 1 * (zsum cs ps p phi * zsum cs ps p phi))).
    { apply mean_ext. intros. cbn [zsum]. ring. }
    rewrite (mean_lin 1 1 (fun p phi => c * c * (Z_nm m n p phi * Z_nm m n p phi) + 2 * c * (Z_nm m n p phi * zsum cs ps p phi)) (fun p phi => zsum cs ps p phi * zsum cs ps p phi)).
    + rewrite (mean_lin (c * c) (2 * c) (fun p phi => Z_nm m n p phi * Z_nm m n p phi) (fun p phi => Z_nm m n p phi * zsum cs ps p phi)).
      * rewrite (mean_ortho m n m n V V), IH. pose proof (mean_Z_zsum (m, n) ps V F cs) as E. cbn [fst snd] in E. rewrite E, delta_0 by exact NI.
        unfold delta. cbn [fst snd]. destruct (Z.eq_dec m m) as [_|X]; [|contradiction]. destruct (Z.eq_dec n n) as [_|X]; [|contradiction]. cbn [squares fold_right]. fold (squares cs). ring.
      * apply (nice_mult (Z_nm m n) (Z_nm m n)); exact N1.
      * apply (nice_mult (Z_nm m n) (zsum cs ps)); assumption.
    + apply (nice_lin (c * c) (2 * c) (fun p phi => Z_nm m n p phi * Z_nm m n p phi) (fun p phi => Z_nm m n p phi * zsum cs ps p phi)); apply nice_mult; assumption.
    + apply (nice_mult (zsum cs ps) (zsum cs ps)); assumption.
Qed.
