(** Without aberration the diffraction integral is the Airy pattern (C53). *)
From Coq Require Import Reals Lra Lia Psatz.
From Coquelicot Require Import Coquelicot.
From Verif Require Import Py SpecIndex SpecRadial L_Ortho SpecDiff L_Slope L_Conv L_Conv2.
Local Open Scope R_scope.

(** ** integrals of continuous functions *)
Ltac rring := match goal with |- @eq _ ?a ?b => change (@eq R a b) end; ring.
Lemma cts_comp f g : cts f -> cts g -> cts (fun x => f (g x)).
Proof. intros F G x. apply continuous_comp; [apply G|apply F]. Qed.
Lemma cts_sin : cts sin. Proof. intros x. apply continuous_sin. Qed.
Lemma cts_cos : cts cos. Proof. intros x. apply continuous_cos. Qed.
Lemma RInt_shift f v a b : cts f -> RInt (fun x => f (x + v)) a b = RInt f (a + v) (b + v).
Proof.
  intros C. pose proof (RInt_comp_lin f 1 v a b ltac:(apply cts_int, C)) as H. rewrite !Rmult_1_l in H. rewrite <- H.
  apply RInt_ext. intros x _. change (scal 1 (f (1 * x + v))) with (1 * f (1 * x + v)). rewrite !Rmult_1_l. reflexivity.
Qed.
(** a period, from anywhere *)
Lemma RInt_period f v : cts f -> (forall x, f (x + 2 * PI) = f x) -> RInt (fun x => f (x + v)) 0 (2 * PI) = RInt f 0 (2 * PI).
Proof.
  intros C P. rewrite RInt_shift by exact C.
  assert (E : RInt f (2 * PI) (2 * PI + v) = RInt f 0 (0 + v)).
  { transitivity (RInt (fun x => f (x + 2 * PI)) 0 v).
    - rewrite RInt_shift by exact C. f_equal; ring.
    - rewrite Rplus_0_l. apply RInt_ext. intros x _. apply P. }
  pose proof (RInt_Chasles f 0 (0 + v) (2 * PI + v) ltac:(apply cts_int, C) ltac:(apply cts_int, C)) as A.
  pose proof (RInt_Chasles f 0 (2 * PI) (2 * PI + v) ltac:(apply cts_int, C) ltac:(apply cts_int, C)) as B.
  change plus with Rplus in A, B. rewrite E in B. lra.
Qed.
Lemma RInt_halves f : cts f -> RInt f 0 (2 * PI) = RInt f 0 PI + RInt (fun x => f (x + PI)) 0 PI.
Proof.
  intros C. rewrite RInt_shift by exact C. rewrite Rplus_0_l. replace (PI + PI) with (2 * PI) by ring.
  symmetry. apply (RInt_Chasles f 0 PI (2 * PI)); apply cts_int, C.
Qed.

(** ** the radial integrals *)
Definition gc (k : R) : R := RInt (fun p => p * cos (k * p)) 0 1.
Definition gs (k : R) : R := RInt (fun p => p * sin (k * p)) 0 1.
Lemma k_cts (k : R) : cts (fun p => k * p).
Proof. apply (cts_mult (fun _ => k) (fun p => p)); [apply cts_const|apply cts_id]. Qed.
Lemma pc_cts k : cts (fun p => p * cos (k * p)).
Proof. apply (cts_mult (fun p => p) (fun p => cos (k * p))); [apply cts_id|apply (cts_comp cos (fun p => k * p)); [apply cts_cos|apply k_cts]]. Qed.
Lemma ps_cts k : cts (fun p => p * sin (k * p)).
Proof. apply (cts_mult (fun p => p) (fun p => sin (k * p))); [apply cts_id|apply (cts_comp sin (fun p => k * p)); [apply cts_sin|apply k_cts]]. Qed.
Lemma lip_int (f : R -> R -> R) : (forall k, cts (f k)) -> (forall k k' p, 0 <= p <= 1 -> Rabs (f k p - f k' p) <= Rabs (k - k')) ->
  forall k k', Rabs (RInt (f k) 0 1 - RInt (f k') 0 1) <= 1 * Rabs (k - k').
Proof.
  intros C H k k'. assert (E : RInt (f k) 0 1 - RInt (f k') 0 1 = RInt (fun p => f k p - f k' p) 0 1).
  { symmetry. apply (RInt_minus (f k) (f k')); apply cts_int, C. }
  rewrite E. replace (1 * Rabs (k - k')) with ((1 - 0) * Rabs (k - k')) by ring. apply abs_RInt_le_const; [lra| |].
  - apply (ex_RInt_minus (V := R_NormedModule)); apply cts_int, C.
  - intros p Hp. apply H, Hp.
Qed.
Lemma p_lip (c : R -> R) : (forall x y, Rabs (c x - c y) <= Rabs (x - y)) -> forall k k' p, 0 <= p <= 1 -> Rabs (p * c (k * p) - p * c (k' * p)) <= Rabs (k - k').
Proof.
  intros CL k k' p Hp. rewrite <- Rmult_minus_distr_l, Rabs_mult, (Rabs_pos_eq p) by lra. pose proof (CL (k * p) (k' * p)) as A.
  rewrite <- Rmult_minus_distr_r, Rabs_mult, (Rabs_pos_eq p) in A by lra. pose proof (Rabs_pos (k - k')). pose proof (Rabs_pos (c (k * p) - c (k' * p))). nra.
Qed.
Lemma gc_lip k k' : Rabs (gc k - gc k') <= 1 * Rabs (k - k').
Proof. apply (lip_int (fun k p => p * cos (k * p))); [apply pc_cts|apply p_lip, cos_lip]. Qed.
Lemma gs_lip k k' : Rabs (gs k - gs k') <= 1 * Rabs (k - k').
Proof. apply (lip_int (fun k p => p * sin (k * p))); [apply ps_cts|apply p_lip, sin_lip]. Qed.
Lemma gc_cts : cts gc. Proof. apply (lip_cts gc 1), gc_lip. Qed.
Lemma gs_cts : cts gs. Proof. apply (lip_cts gs 1), gs_lip. Qed.
Lemma gc_even k : gc (- k) = gc k.
Proof. unfold gc. apply RInt_ext. intros p _. replace (- k * p) with (- (k * p)) by ring. rewrite cos_neg. reflexivity. Qed.
Lemma gs_odd k : gs (- k) = - gs k.
Proof.
  unfold gs. transitivity (RInt (fun p => opp (p * sin (k * p))) 0 1).
  - apply RInt_ext. intros p _. replace (- k * p) with (- (k * p)) by ring. rewrite sin_neg. apply Ropp_mult_distr_r_reverse.
  - apply (RInt_opp (fun p => p * sin (k * p))). apply cts_int, ps_cts.
Qed.

(** ** the angular integrals *)
Lemma rsin_cts r : cts (fun x => r * sin x).
Proof. apply (cts_mult (fun _ => r) sin); [apply cts_const|apply cts_sin]. Qed.
Definition A_r (r : R) : R := RInt (fun x => gc (r * sin x)) 0 PI.
Lemma int_gc r theta : RInt (fun phi => gc (r * cos (phi - theta))) 0 (2 * PI) = 2 * A_r r.
Proof.
  assert (C : cts (fun x => gc (r * sin x))) by (apply (cts_comp gc (fun x => r * sin x)); [apply gc_cts|apply rsin_cts]).
  transitivity (RInt (fun x => gc (r * sin (x + (PI / 2 - theta)))) 0 (2 * PI)).
  { apply RInt_ext. intros x _. rewrite <- (cos_shift (x + (PI / 2 - theta))). f_equal. f_equal. rewrite <- cos_neg. f_equal. lra. }
  rewrite (RInt_period (fun x => gc (r * sin x))); [|exact C|intros x; rewrite (sin_period x 1) || (replace (x + 2 * PI) with (x + 2 * INR 1 * PI) by (cbn; ring); rewrite sin_period); reflexivity].
  rewrite RInt_halves by exact C. unfold A_r.
  assert (E : RInt (fun x => gc (r * sin (x + PI))) 0 PI = RInt (fun x => gc (r * sin x)) 0 PI).
  { apply RInt_ext. intros x _. rewrite neg_sin, Rmult_comm, Ropp_mult_distr_l_reverse, (Rmult_comm (sin x)), gc_even. reflexivity. }
  rewrite E. lra.
Qed.
Lemma int_gs r theta : RInt (fun phi => gs (r * cos (phi - theta))) 0 (2 * PI) = 0.
Proof.
  assert (C : cts (fun x => gs (r * sin x))) by (apply (cts_comp gs (fun x => r * sin x)); [apply gs_cts|apply rsin_cts]).
  transitivity (RInt (fun x => gs (r * sin (x + (PI / 2 - theta)))) 0 (2 * PI)).
  { apply RInt_ext. intros x _. rewrite <- (cos_shift (x + (PI / 2 - theta))). f_equal. f_equal. rewrite <- cos_neg. f_equal. lra. }
  rewrite (RInt_period (fun x => gs (r * sin x))); [|exact C|intros x; replace (x + 2 * PI) with (x + 2 * INR 1 * PI) by (cbn; ring); rewrite sin_period; reflexivity].
  rewrite RInt_halves by exact C.
  assert (E : RInt (fun x => gs (r * sin (x + PI))) 0 PI = - RInt (fun x => gs (r * sin x)) 0 PI).
  { transitivity (RInt (fun x => opp (gs (r * sin x))) 0 PI).
    - apply RInt_ext. intros x _. rewrite neg_sin, Rmult_comm, Ropp_mult_distr_l_reverse, (Rmult_comm (sin x)), gs_odd. reflexivity.
    - apply (RInt_opp (fun x => gs (r * sin x))). apply cts_int, C. }
  rewrite E. lra.
Qed.
Lemma RInt_lin a b c d f g : cts f -> cts g -> RInt (fun x => c * f x + d * g x) a b = c * RInt f a b + d * RInt g a b.
Proof.
  intros F G. transitivity (plus (RInt (fun x => scal c (f x)) a b) (RInt (fun x => scal d (g x)) a b)).
  - apply (RInt_plus (fun x => scal c (f x)) (fun x => scal d (g x))).
    + apply (ex_RInt_scal f). apply cts_int, F.
    + apply (ex_RInt_scal g). apply cts_int, G.
  - rewrite (RInt_scal f), (RInt_scal g) by (apply cts_int; assumption). reflexivity.
Qed.
(** the integral of a constant aberration *)
Lemma diffraction_const c r theta : diffraction_integral (fun _ _ => c) r theta = (2 * A_r r / PI) ^ 2.
Proof.
  unfold diffraction_integral.
  assert (KC : cts (fun phi => r * cos (phi - theta))).
  { apply (cts_mult (fun _ => r) (fun phi => cos (phi - theta))); [apply cts_const|]. apply (cts_comp cos (fun phi => phi - theta)); [apply cts_cos|].
    apply (cts_plus (fun x => x) (fun _ => - theta)); [apply cts_id|apply cts_const]. }
  assert (GC : cts (fun phi => gc (r * cos (phi - theta)))) by (apply (cts_comp gc (fun phi => r * cos (phi - theta))); [apply gc_cts|exact KC]).
  assert (GS : cts (fun phi => gs (r * cos (phi - theta)))) by (apply (cts_comp gs (fun phi => r * cos (phi - theta))); [apply gs_cts|exact KC]).
  assert (E1 : RInt (fun phi => RInt (fun p => p * cos (c - r * p * cos (phi - theta))) 0 1) 0 (2 * PI) = cos c * (2 * A_r r) + sin c * 0).
  { transitivity (cos c * RInt (fun phi => gc (r * cos (phi - theta))) 0 (2 * PI) + sin c * RInt (fun phi => gs (r * cos (phi - theta))) 0 (2 * PI)); [|rewrite int_gc, int_gs; reflexivity].
    rewrite <- RInt_lin by assumption. apply RInt_ext. intros phi _. unfold gc, gs. rewrite <- RInt_lin by (apply pc_cts || apply ps_cts).
    apply RInt_ext. intros p _. replace (r * p * cos (phi - theta)) with (r * cos (phi - theta) * p) by ring. rewrite cos_minus. rring. }
  assert (E2 : RInt (fun phi => RInt (fun p => p * sin (c - r * p * cos (phi - theta))) 0 1) 0 (2 * PI) = sin c * (2 * A_r r) + - cos c * 0).
  { transitivity (sin c * RInt (fun phi => gc (r * cos (phi - theta))) 0 (2 * PI) + - cos c * RInt (fun phi => gs (r * cos (phi - theta))) 0 (2 * PI)); [|rewrite int_gc, int_gs; reflexivity].
    rewrite <- RInt_lin by assumption. apply RInt_ext. intros phi _. unfold gc, gs. rewrite <- RInt_lin by (apply pc_cts || apply ps_cts).
    apply RInt_ext. intros p _. replace (r * p * cos (phi - theta)) with (r * cos (phi - theta) * p) by ring. rewrite sin_minus. rring. }
  rewrite E1, E2. pose proof (sin2_cos2 c) as SC. unfold Rsqr in SC. pose proof PI_neq0.
  transitivity ((sin c * sin c + cos c * cos c) * (2 * A_r r / PI) ^ 2); [field; assumption|]. rewrite SC. ring.
Qed.

(** ** Bessel's integrals *)
Definition J0 (x : R) : R := / PI * RInt (fun t => cos (x * sin t)) 0 PI.
Notation J1 := bessel_J1.

Lemma c2_mul_sin x t : continuity_2d_pt (fun u v => u * sin v) x t.
Proof.
  apply continuity_2d_pt_mult; [apply continuity_2d_pt_id1|]. apply (continuity_1d_2d_pt_comp sin (fun _ v => v)); [apply continuity_sin|apply continuity_2d_pt_id2].
Qed.
(** r^2 gc(r s) = int_0^r q cos(q s) dq *)
Definition Q (s r : R) : R := RInt (fun q => q * cos (s * q)) 0 r.
Lemma Q_gc s r : Q s r = r * r * gc (r * s).
Proof.
  unfold Q, gc. pose proof (RInt_comp_lin (fun q => q * cos (s * q)) r 0 0 1 ltac:(apply cts_int, pc_cts)) as H.
  replace (r * 0 + 0) with 0 in H by ring. replace (r * 1 + 0) with r in H by ring. rewrite <- H.
  transitivity (RInt (fun p => scal (r * r) (p * cos (r * s * p))) 0 1).
  - apply RInt_ext. intros p _. change (scal r ((r * p + 0) * cos (s * (r * p + 0)))) with (r * ((r * p + 0) * cos (s * (r * p + 0)))).
    change (scal (r * r) (p * cos (r * s * p))) with (r * r * (p * cos (r * s * p))). rewrite Rplus_0_r. replace (s * (r * p)) with (r * s * p) by ring. rring.
  - apply (RInt_scal (fun p => p * cos (r * s * p)) 0 1 (r * r)). apply cts_int, pc_cts.
Qed.
Lemma Q_derive s r : is_derive (Q s) r (r * cos (s * r)).
Proof.
  apply (is_derive_RInt (fun q => q * cos (s * q)) (Q s) 0 r); [|apply pc_cts].
  exists (mkposreal 1 Rlt_0_1). intros y _. apply (RInt_correct (fun q => q * cos (s * q)) 0 y). apply cts_int, pc_cts.
Qed.
Definition W (r : R) : R := RInt (fun t => Q (sin t) r) 0 PI.
Lemma W_A r : W r = r * r * A_r r.
Proof.
  unfold W, A_r. assert (C : cts (fun x => gc (r * sin x))) by (apply (cts_comp gc (fun x => r * sin x)); [apply gc_cts|apply rsin_cts]).
  transitivity (RInt (fun t => scal (r * r) (gc (r * sin t))) 0 PI).
  - apply RInt_ext. intros t _. apply Q_gc.
  - apply (RInt_scal (fun t => gc (r * sin t)) 0 PI (r * r)). apply cts_int, C.
Qed.
Lemma W_derive r : is_derive W r (PI * (r * J0 r)).
Proof.
  assert (D : forall u v, Derive (fun z => Q (sin v) z) u = u * cos (sin v * u)) by (intros; apply is_derive_unique, Q_derive).
  assert (G : is_derive W r (RInt (fun t => Derive (fun u => Q (sin t) u) r) 0 PI)).
  { apply (is_derive_RInt_param (fun u t => Q (sin t) u) 0 PI r).
    - exists (mkposreal 1 Rlt_0_1). intros y _ t _. eexists. apply Q_derive.
    - intros t _. apply (continuity_2d_pt_ext (fun u v => u * cos (u * sin v))); [intros; rewrite D, (Rmult_comm (sin _)); reflexivity|].
      apply continuity_2d_pt_mult; [apply continuity_2d_pt_id1|]. apply (continuity_1d_2d_pt_comp cos (fun u v => u * sin v)); [apply continuity_cos|apply c2_mul_sin].
    - exists (mkposreal 1 Rlt_0_1). intros y _. apply cts_int. apply (cts_ext (fun t => y * y * gc (y * sin t))); [intros; symmetry; apply Q_gc|].
      apply (cts_mult (fun _ => y * y) (fun t => gc (y * sin t))); [apply cts_const|apply (cts_comp gc (fun x => y * sin x)); [apply gc_cts|apply rsin_cts]]. }
  replace (PI * (r * J0 r)) with (RInt (fun t => Derive (fun u => Q (sin t) u) r) 0 PI); [exact G|].
  unfold J0. transitivity (RInt (fun t => scal r (cos (r * sin t))) 0 PI).
  - apply RInt_ext. intros t _. rewrite D, (Rmult_comm (sin t)). reflexivity.
  - transitivity (r * RInt (fun t => cos (r * sin t)) 0 PI); [|match goal with |- @eq _ ?a ?b => change (@eq R a b) end; field; apply PI_neq0].
    apply (RInt_scal (fun t => cos (r * sin t)) 0 PI r).
    apply cts_int. apply (cts_comp cos (fun t => r * sin t)); [apply cts_cos|apply rsin_cts].
Qed.

Definition V (x : R) : R := RInt (fun t => cos (t - x * sin t)) 0 PI.
Lemma u_cts x : cts (fun t => t - x * sin t).
Proof. apply (cts_ext (fun t => t + (- x) * sin t)); [intros; ring|]. apply (cts_plus (fun t => t) (fun t => - x * sin t)); [apply cts_id|apply rsin_cts]. Qed.
Lemma V_derive x : is_derive V x (RInt (fun t => sin t * sin (t - x * sin t)) 0 PI).
Proof.
  assert (D1 : forall u v, is_derive (fun z => cos (v - z * sin v)) u (sin v * sin (v - u * sin v))) by (intros; auto_derive; [trivial|unfold Rminus; ring]).
  assert (D : forall u v, Derive (fun z => cos (v - z * sin v)) u = sin v * sin (v - u * sin v)) by (intros; apply is_derive_unique, D1).
  replace (RInt (fun t => sin t * sin (t - x * sin t)) 0 PI) with (RInt (fun t => Derive (fun u => cos (t - u * sin t)) x) 0 PI) by (apply RInt_ext; intros; apply D).
  apply (is_derive_RInt_param (fun u t => cos (t - u * sin t)) 0 PI x).
  - exists (mkposreal 1 Rlt_0_1). intros y _ t _. eexists. apply D1.
  - intros t _. apply (continuity_2d_pt_ext (fun u v => sin v * sin (v - u * sin v))); [intros; rewrite D; reflexivity|].
    apply continuity_2d_pt_mult; [apply (continuity_1d_2d_pt_comp sin (fun _ v => v)); [apply continuity_sin|apply continuity_2d_pt_id2]|].
    apply (continuity_1d_2d_pt_comp sin (fun u v => v - u * sin v)); [apply continuity_sin|]. apply continuity_2d_pt_minus; [apply continuity_2d_pt_id2|apply c2_mul_sin].
  - exists (mkposreal 1 Rlt_0_1). intros y _. apply cts_int. apply (cts_comp cos (fun t => t - y * sin t)); [apply cts_cos|apply u_cts].
Qed.
(** (x J1)' = x J0 *)
Lemma xV_derive x : is_derive (fun y => y * V y) x (PI * (x * J0 x)).
Proof.
  pose proof (V_derive x) as D. set (d := RInt _ 0 PI) in D.
  assert (E : is_derive (fun y => y * V y) x (1 * V x + x * d)).
  { apply (is_derive_mult (fun y => y) V x 1 d); [apply (is_derive_id (K := R_AbsRing))|exact D|intros; apply Rmult_comm]. }
  replace (PI * (x * J0 x)) with (1 * V x + x * d); [exact E|]. rewrite Rmult_1_l. unfold V, d, J0.
  replace (PI * (x * (/ PI * RInt (fun t => cos (x * sin t)) 0 PI))) with (x * RInt (fun t => cos (x * sin t)) 0 PI) by (field; apply PI_neq0).
  assert (CU : cts (fun t => cos (t - x * sin t))) by (apply (cts_comp cos (fun t => t - x * sin t)); [apply cts_cos|apply u_cts]).
  assert (CS : cts (fun t => sin t * sin (t - x * sin t))).
  { apply (cts_mult sin (fun t => sin (t - x * sin t))); [apply cts_sin|apply (cts_comp sin (fun t => t - x * sin t)); [apply cts_sin|apply u_cts]]. }
  assert (CC : cts (fun t => cos (x * sin t))) by (apply (cts_comp cos (fun t => x * sin t)); [apply cts_cos|apply rsin_cts]).
  assert (Z0 : RInt (fun t => 1 * (1 * cos (t - x * sin t) + x * (sin t * sin (t - x * sin t))) + - x * cos (x * sin t)) 0 PI = 0).
  { apply is_RInt_unique. replace 0 with (minus (sin (PI - x * sin PI)) (sin (0 - x * sin 0))) at 2.
    2:{ unfold minus, plus, opp; cbn. rewrite sin_PI, sin_0. replace (PI - x * 0) with PI by ring. replace (0 - x * 0) with 0 by ring. rewrite sin_PI, sin_0. ring. }
    apply (is_RInt_ext (fun t => (1 - x * cos t) * cos (t - x * sin t))).
    - intros t _. pose proof (cos_minus t (t - x * sin t)) as CM. replace (t - (t - x * sin t)) with (x * sin t) in CM by ring. rewrite CM. rring.
    - apply (is_RInt_derive (fun t => sin (t - x * sin t)) (fun t => (1 - x * cos t) * cos (t - x * sin t))).
      + intros t _. auto_derive; [trivial|unfold Rminus; ring].
      + intros t _. apply (cts_mult (fun t => 1 - x * cos t) (fun t => cos (t - x * sin t))); [|exact CU].
        apply (cts_ext (fun t => 1 + (- x) * cos t)); [intros; ring|]. apply (cts_plus (fun _ => 1) (fun t => - x * cos t)); [apply cts_const|].
        apply (cts_mult (fun _ => - x) cos); [apply cts_const|apply cts_cos]. }
  rewrite (RInt_lin 0 PI 1 (- x) (fun t => 1 * cos (t - x * sin t) + x * (sin t * sin (t - x * sin t))) (fun t => cos (x * sin t))) in Z0.
  - rewrite (RInt_lin 0 PI 1 x (fun t => cos (t - x * sin t)) (fun t => sin t * sin (t - x * sin t)) CU CS) in Z0. lra.
  - apply (cts_plus (fun t => 1 * cos (t - x * sin t)) (fun t => x * (sin t * sin (t - x * sin t)))).
    + apply (cts_mult (fun _ => 1) (fun t => cos (t - x * sin t))); [apply cts_const|exact CU].
    + apply (cts_mult (fun _ => x) (fun t => sin t * sin (t - x * sin t))); [apply cts_const|exact CS].
  - exact CC.
Qed.
Lemma W_V r : W r = r * V r.
Proof.
  assert (D : forall t, is_derive (fun y => W y - y * V y) t 0).
  { intros t. replace 0 with (minus (PI * (t * J0 t)) (PI * (t * J0 t))) by (unfold minus, plus, opp; cbn; ring).
    apply (is_derive_minus W (fun y => y * V y)); [apply W_derive|apply xV_derive]. }
  assert (E : forall a b, a < b -> W a - a * V a = W b - b * V b).
  { intros a b L. apply (eq_is_derive (fun y => W y - y * V y) a b); [intros; apply D|exact L]. }
  assert (Z0 : W 0 - 0 * V 0 = 0) by (rewrite W_A; ring).
  destruct (Rtotal_order r 0) as [L|[->|L]].
  - specialize (E r 0 L). lra.
  - lra.
  - specialize (E 0 r L). lra.
Qed.
Lemma A_J1 r : r <> 0 -> A_r r = PI * (J1 r / r).
Proof.
  intros H. pose proof (W_V r) as E. rewrite W_A in E. unfold bessel_J1. fold (V r). pose proof PI_neq0.
  apply (Rmult_eq_reg_l (r * r)); [|nra]. rewrite E. field. auto.
Qed.
Lemma A_0 : A_r 0 = PI / 2.
Proof.
  unfold A_r. transitivity (RInt (fun _ => 1 / 2) 0 PI).
  - apply RInt_ext. intros x _. rewrite Rmult_0_l. unfold gc. rewrite <- int_p. apply RInt_ext. intros p _. rewrite Rmult_0_l, cos_0. rring.
  - rewrite RInt_const. change (scal (PI - 0) (1 / 2)) with ((PI - 0) * (1 / 2)). match goal with |- @eq _ ?a ?b => change (@eq R a b) end. field.
Qed.
(** ** size and sensitivity *)
Lemma gc_bound k : Rabs (gc k) <= / 2.
Proof.
  unfold gc. replace (/ 2) with (RInt (fun p => p) 0 1) by (rewrite int_p; lra).
  apply Rle_trans with (RInt (fun p => Rabs (p * cos (k * p))) 0 1).
  - apply abs_RInt_le; [lra|apply cts_int, pc_cts].
  - apply RInt_le; [lra| |apply cts_int, cts_id|].
    + apply (ex_RInt_norm (fun p => p * cos (k * p))). apply cts_int, pc_cts.
    + intros p Hp. rewrite Rabs_mult, (Rabs_pos_eq p) by lra. assert (Rabs (cos (k * p)) <= 1) by (apply Rabs_le; pose proof (COS_bound (k * p)); lra). nra.
Qed.
Lemma A_cts r : cts (fun x => gc (r * sin x)).
Proof. apply (cts_comp gc (fun x => r * sin x)); [apply gc_cts|apply rsin_cts]. Qed.
Lemma A_bound r : Rabs (A_r r) <= PI / 2.
Proof.
  pose proof PI_RGT_0. unfold A_r. replace (PI / 2) with ((PI - 0) * / 2) by field. apply abs_RInt_le_const; [lra|apply cts_int, A_cts|]. intros; apply gc_bound.
Qed.
Lemma A_lip r r' : Rabs (A_r r - A_r r') <= PI * Rabs (r - r').
Proof.
  pose proof PI_RGT_0. unfold A_r. assert (E : RInt (fun x => gc (r * sin x)) 0 PI - RInt (fun x => gc (r' * sin x)) 0 PI = RInt (fun x => gc (r * sin x) - gc (r' * sin x)) 0 PI).
  { symmetry. apply (RInt_minus (fun x => gc (r * sin x)) (fun x => gc (r' * sin x))); apply cts_int, A_cts. }
  rewrite E. replace (PI * Rabs (r - r')) with ((PI - 0) * Rabs (r - r')) by ring. apply abs_RInt_le_const; [lra| |].
  - apply (ex_RInt_minus (V := R_NormedModule)); apply cts_int, A_cts.
  - intros x _. eapply Rle_trans; [apply gc_lip|]. rewrite <- Rmult_minus_distr_r, Rabs_mult. assert (Rabs (sin x) <= 1) by (apply Rabs_le; pose proof (SIN_bound x); lra).
    pose proof (Rabs_pos (r - r')). nra.
Qed.
Lemma unit_A r : Rabs (2 * A_r r / PI) <= 1.
Proof.
  pose proof PI_RGT_0. replace (2 * A_r r / PI) with (A_r r * (2 / PI)) by (field; lra). rewrite Rabs_mult, (Rabs_pos_eq (2 / PI)) by (apply Rlt_le, Rdiv_lt_0_compat; lra).
  apply Rle_trans with (PI / 2 * (2 / PI)); [apply Rmult_le_compat_r; [apply Rlt_le, Rdiv_lt_0_compat; lra|apply A_bound]|]. apply Req_le. field. lra.
Qed.
Lemma diffraction_const_bound c r theta : 0 <= diffraction_integral (fun _ _ => c) r theta <= 1.
Proof. rewrite diffraction_const. split; [apply pow2_ge_0|]. pose proof (unit_A r) as B. apply Rabs_le_inv in B. nra. Qed.
Lemma diffraction_const_lip c r r' theta : Rabs (diffraction_integral (fun _ _ => c) r theta - diffraction_integral (fun _ _ => c) r' theta) <= 4 * Rabs (r - r').
Proof.
  rewrite !diffraction_const. pose proof PI_RGT_0. set (a := 2 * A_r r / PI). set (b := 2 * A_r r' / PI).
  replace (a ^ 2 - b ^ 2) with ((a - b) * (a + b)) by ring. rewrite Rabs_mult.
  assert (D : Rabs (a - b) <= 2 * Rabs (r - r')).
  { unfold a, b. replace (2 * A_r r / PI - 2 * A_r r' / PI) with ((A_r r - A_r r') * (2 / PI)) by (field; lra).
    rewrite Rabs_mult, (Rabs_pos_eq (2 / PI)) by (apply Rlt_le, Rdiv_lt_0_compat; lra).
    apply Rle_trans with (PI * Rabs (r - r') * (2 / PI)); [apply Rmult_le_compat_r; [apply Rlt_le, Rdiv_lt_0_compat; lra|apply A_lip]|]. apply Req_le. field. lra. }
  assert (S2 : Rabs (a + b) <= 2) by (eapply Rle_trans; [apply Rabs_triang|]; pose proof (unit_A r); pose proof (unit_A r'); unfold a, b; lra).
  pose proof (Rabs_pos (r - r')). pose proof (Rabs_pos (a + b)). pose proof (Rabs_pos (a - b)). nra.
Qed.
Lemma diffraction_const_J1 c r theta : diffraction_integral (fun _ _ => c) r theta = if Req_EM_T r 0 then 1 else (2 * J1 r / r) ^ 2.
Proof.
  rewrite diffraction_const. pose proof PI_neq0. destruct (Req_EM_T r 0) as [->|N].
  - rewrite A_0. field. assumption.
  - rewrite (A_J1 r N). field. auto.
Qed.
