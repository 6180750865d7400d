(** Orthonormality over the unit disk (C15). *)
From Coq Require Import Reals Lra Arith.
From Coquelicot Require Import Coquelicot.
From Verif Require Import Py SpecIndex SpecRadial RadialMath L_Index L_Radial L_RadialD L_DrErr L_Bound L_Trig.
Local Open Scope R_scope.

(** ** the differential identity r (F(a+1,b+1) - F(a,b))' = (a+b+2) (F(a+1,b+1) + F(a,b)) *)
Lemma cz_step a b k : (Z.of_nat (S k) * cz (S a) (S b) (S k) = - (Z.of_nat (a + b + 2) - Z.of_nat (S k)) * cz a b k)%Z.
Proof.
  destruct (le_lt_dec k a) as [Ha|Ha]; [|rewrite !cz_zero by lia; ring].
  destruct (le_lt_dec k b) as [Hb|Hb]; [|rewrite !cz_zero by lia; ring].
  apply eq_IZR. rewrite !mult_IZR, opp_IZR. rewrite !cz_fact by lia.
  replace (S a + S b - S k)%nat with (S (a + b - k)) by lia.
  replace (S a - S k)%nat with (a - k)%nat by lia. replace (S b - S k)%nat with (b - k)%nat by lia.
  rewrite (fact_simpl k), (fact_simpl (a + b - k)), !mult_INR.
  replace (Z.of_nat (a + b + 2) - Z.of_nat (S k))%Z with (Z.of_nat (S (a + b - k))) by lia.
  rewrite <- !INR_IZR_INZ. simpl pow. field.
  repeat split; try apply INR_fact_neq_0. apply not_0_INR. lia.
Qed.

Lemma dterm_r a b r k : (k <= a)%nat -> (k <= b)%nat -> r * dterm a b r k = IZR (Z.of_nat (a + b - 2 * k)) * term a b r k.
Proof.
  intros Ha Hb. unfold dterm, term. destruct (a + b - 2 * k)%nat as [|j] eqn:E.
  - change (Z.of_nat 0) with 0%Z. ring.
  - cbn [pred]. simpl pow. ring.
Qed.

Lemma F_euler a b r : r * (dF (S a) (S b) r - dF a b r) = IZR (Z.of_nat (a + b + 2)) * (F (S a) (S b) r + F a b r).
Proof.
  unfold dF, F. cbn [Nat.min]. set (M := Nat.min a b).
  rewrite !(decomp_sum _ (S M)) by lia. cbn [pred].
  set (N := IZR (Z.of_nat (a + b + 2))).
  assert (E0 : r * dterm (S a) (S b) r 0 = N * term (S a) (S b) r 0).
  { rewrite dterm_r by lia. f_equal. unfold N. do 2 f_equal. lia. }
  rewrite Rmult_minus_distr_l, Rmult_plus_distr_l, E0, Rmult_plus_distr_l, Rmult_plus_distr_l.
  enough (X : r * sum_f_R0 (fun i => dterm (S a) (S b) r (S i)) M - r * sum_f_R0 (dterm a b r) M
    = N * sum_f_R0 (fun i => term (S a) (S b) r (S i)) M + N * sum_f_R0 (term a b r) M) by lra.
  rewrite !scal_sum, <- minus_sum, <- plus_sum. apply sum_eq. intros k Hk.
  assert (Ha : (k <= a)%nat) by (unfold M in Hk; lia). assert (Hb : (k <= b)%nat) by (unfold M in Hk; lia).
  rewrite (Rmult_comm _ r), dterm_r by lia. rewrite (Rmult_comm (dterm a b r k) r), dterm_r by lia.
  replace (S a + S b - 2 * S k)%nat with (a + b - 2 * k)%nat by lia.
  unfold term. replace (S a + S b - 2 * S k)%nat with (a + b - 2 * k)%nat by lia.
  set (p := r ^ (a + b - 2 * k)).
  set (c' := IZR (cz (S a) (S b) (S k))). set (c := IZR (cz a b k)).
  assert (K : INR (S k) * c' = - (N - INR (S k)) * c).
  { unfold c, c', N. rewrite (INR_IZR_INZ (S k)). rewrite <- minus_IZR, <- opp_IZR, <- !mult_IZR. f_equal. apply cz_step. }
  assert (P : IZR (Z.of_nat (a + b - 2 * k)) = N - 2 * INR (S k)).
  { unfold N. rewrite INR_IZR_INZ, <- mult_IZR, <- minus_IZR. f_equal. lia. }
  rewrite P.
  transitivity (p * (N * (c' - c) - 2 * (INR (S k) * c') + 2 * INR (S k) * c)); [ring|]. rewrite K. ring.
Qed.

(** ** integrals over [0,1] with weight r *)
Lemma F_derive a b r : is_derive (F a b) r (dF a b r).
Proof. apply is_derive_Reals, dF_ok. Qed.
Lemma F_cont a b r : continuous (F a b) r.
Proof. apply (ex_derive_continuous (F a b)). eexists. apply F_derive. Qed.

Lemma dF_cont a b r : continuous (dF a b) r.
Proof.
  unfold dF. apply (ex_derive_continuous (fun x => sum_f_R0 (dterm a b x) (Nat.min a b))).
  generalize (Nat.min a b). induction n as [|n IH]; cbn [sum_f_R0].
  - unfold dterm. auto_derive. exact I.
  - apply (ex_derive_plus (fun x => sum_f_R0 (dterm a b x) n)); [exact IH|]. unfold dterm. auto_derive. exact I.
Qed.

Ltac req := match goal with |- @eq _ ?a ?b => change (@eq R a b) end.
Definition cts (f : R -> R) : Prop := forall x, continuous f x.
Lemma cts_plus f g : cts f -> cts g -> cts (fun x => f x + g x).
Proof. intros A B x. apply (continuous_plus f g); auto. Qed.
Lemma cts_mult f g : cts f -> cts g -> cts (fun x => f x * g x).
Proof. intros A B x. apply (continuous_mult f g); auto. Qed.
Lemma cts_id : cts (fun x => x).
Proof. intros x. apply continuous_id. Qed.
Lemma cts_F a b : cts (F a b).
Proof. intros x. apply F_cont. Qed.
Lemma cts_dF a b : cts (dF a b).
Proof. intros x. apply dF_cont. Qed.
Lemma cts_ext f g : (forall x, f x = g x) -> cts f -> cts g.
Proof. intros E H x. apply (continuous_ext f); auto. Qed.
Lemma cts_const c : cts (fun _ => c).
Proof. intros x. apply continuous_const. Qed.
Lemma cts_int f a b : cts f -> ex_RInt f a b.
Proof. intros H. apply (ex_RInt_continuous f). intros; apply H. Qed.

Definition ipr (f g : R -> R) : R := RInt (fun x => f x * g x * x) 0 1.
Lemma ipr_cts f g : cts f -> cts g -> cts (fun x => f x * g x * x).
Proof. intros A B. apply cts_mult; [apply cts_mult; assumption|apply cts_id]. Qed.
Lemma ipr_sym f g : ipr f g = ipr g f.
Proof. unfold ipr. apply RInt_ext. intros x _. rewrite (Rmult_comm (f x)). reflexivity. Qed.
Lemma ipr_ext f f' g : (forall x, f x = f' x) -> ipr f g = ipr f' g.
Proof. intros E. unfold ipr. apply RInt_ext. intros. rewrite E. reflexivity. Qed.
Lemma ipr_lin c d f1 f2 g : cts f1 -> cts f2 -> cts g -> ipr (fun x => c * f1 x + d * f2 x) g = c * ipr f1 g + d * ipr f2 g.
Proof.
  intros A B C. unfold ipr.
  pose proof (RInt_correct _ _ _ (cts_int _ 0 1 (ipr_cts _ _ A C))) as I1.
  pose proof (RInt_correct _ _ _ (cts_int _ 0 1 (ipr_cts _ _ B C))) as I2.
  apply is_RInt_unique.
  apply (is_RInt_ext (fun x => plus (scal c (f1 x * g x * x)) (scal d (f2 x * g x * x)))).
  { intros x _. unfold plus, scal; simpl. unfold mult; simpl. ring. }
  exact (is_RInt_plus _ _ _ _ _ _ (is_RInt_scal _ _ _ c _ I1) (is_RInt_scal _ _ _ d _ I2)).
Qed.

Definition th (a b : nat) (x : R) : R := x * dF a b x.
Lemma cts_th a b : cts (th a b).
Proof. apply cts_mult; [apply cts_id|apply cts_dF]. Qed.

(** integration by parts: (r^2 f g)' *)
Lemma parts a b a' b' : ipr (th a b) (F a' b') + ipr (F a b) (th a' b') + 2 * ipr (F a b) (F a' b') = 1.
Proof.
  assert (D : is_RInt (fun x => (th a b x * F a' b' x * x + F a b x * th a' b' x * x) + 2 * (F a b x * F a' b' x * x)) 0 1
     (minus (1 * 1 * F a b 1 * F a' b' 1) (0 * 0 * F a b 0 * F a' b' 0))).
  { apply (is_RInt_derive (fun x => x * x * F a b x * F a' b' x)).
    - intros x _. apply is_derive_Reals.
      replace (th a b x * F a' b' x * x + F a b x * th a' b' x * x + 2 * (F a b x * F a' b' x * x))
        with (((1 * x + x * 1) * F a b x + x * x * dF a b x) * F a' b' x + x * x * F a b x * dF a' b' x) by (unfold th; ring).
      apply (derivable_pt_lim_mult (fun x => x * x * F a b x) (F a' b')); [|apply dF_ok].
      apply (derivable_pt_lim_mult (fun x => x * x) (F a b)); [|apply dF_ok].
      apply (derivable_pt_lim_mult id id); apply derivable_pt_lim_id.
    - intros x _. apply (cts_plus (fun x => th a b x * F a' b' x * x + F a b x * th a' b' x * x) (fun x => 2 * (F a b x * F a' b' x * x))).
      + apply (cts_plus (fun x => th a b x * F a' b' x * x) (fun x => F a b x * th a' b' x * x)); apply ipr_cts; (apply cts_F || apply cts_th).
      + apply (cts_mult (fun _ => 2)); [apply cts_const|]. apply ipr_cts; apply cts_F. }
  rewrite !F_at_1 in D. unfold ipr.
  pose proof (RInt_correct _ _ _ (cts_int _ 0 1 (ipr_cts _ _ (cts_th a b) (cts_F a' b')))) as I1.
  pose proof (RInt_correct _ _ _ (cts_int _ 0 1 (ipr_cts _ _ (cts_F a b) (cts_th a' b')))) as I2.
  pose proof (RInt_correct _ _ _ (cts_int _ 0 1 (ipr_cts _ _ (cts_F a b) (cts_F a' b')))) as I3.
  pose proof (is_RInt_plus _ _ _ _ _ _ (is_RInt_plus _ _ _ _ _ _ I1 I2) (is_RInt_scal _ _ _ 2 _ I3)) as I.
  pose proof (is_RInt_unique _ _ _ _ I) as U1. pose proof (is_RInt_unique _ _ _ _ D) as U2.
  assert (E : forall u v : R, plus u v = u + v) by reflexivity.
  transitivity (minus (1 * 1 * 1 * 1) (0 * 0 * F a b 0 * F a' b' 0) : R).
  - rewrite <- U2. symmetry. exact U1.
  - unfold minus, plus, opp; simpl. ring.
Qed.

(** for fixed m: j-th polynomial has a = m + j, b = j, order n = m + 2 j *)
Section Fixed_m.
Variable m : nat.
Definition g (i j : nat) : R := ipr (F (m + i) i) (F (m + j) j).
Definition h (i j : nat) : R := ipr (th (m + i) i) (F (m + j) j).
Lemma g_sym i j : g i j = g j i.
Proof. apply ipr_sym. Qed.
Lemma gh_parts i j : h i j + h j i + 2 * g i j = 1.
Proof. unfold h, g. rewrite <- (parts (m + i) i (m + j) j). rewrite (ipr_sym (F (m + i) i) (th (m + j) j)). ring. Qed.
Lemma h_rec i j : h (S i) j - h i j = INR (m + 2 * S i) * (g (S i) j + g i j).
Proof.
  unfold h, g.
  assert (E : ipr (fun x => 1 * th (m + S i) (S i) x + (-1) * th (m + i) i x) (F (m + j) j)
            = ipr (fun x => INR (m + 2 * S i) * F (m + S i) (S i) x + INR (m + 2 * S i) * F (m + i) i x) (F (m + j) j)).
  { apply ipr_ext. intros x. unfold th. replace (m + S i)%nat with (S (m + i)) by lia.
    pose proof (F_euler (m + i) i x) as E. rewrite <- INR_IZR_INZ in E.
    replace (m + i + i + 2)%nat with (m + 2 * S i)%nat in E by lia. lra. }
  rewrite !ipr_lin in E; try apply cts_th; try apply cts_F. lra.
Qed.
Lemma h_0 j : h 0 j = INR m * g 0 j.
Proof.
  unfold h, g. rewrite <- (Rplus_0_r (INR m * _)). rewrite <- (Rmult_0_l (ipr (F (m + 0) 0) (F (m + j) j))).
  rewrite <- ipr_lin; try apply cts_F. apply ipr_ext. intros x. unfold th. rewrite Nat.add_0_r. rewrite F_0_r.
  unfold dF. rewrite Nat.min_0_r. cbn [sum_f_R0].
  rewrite dterm_r by lia. unfold term. rewrite <- INR_IZR_INZ. rewrite Nat.add_0_r, Nat.mul_0_r, Nat.sub_0_r.
  replace (cz m 0 0) with 1%Z; [ring|]. unfold cz, Tri. cbn [Nat.leb andb Z.of_nat]. rewrite !Nat.sub_0_r, !Nat.add_0_r.
  rewrite binom_0_r, binom_diag. reflexivity.
Qed.

Definition good (j : nat) : Prop :=
  (forall i, (i < j)%nat -> g j i = 0 /\ h i j = 0) /\ g j j = / (2 * (INR (m + 2 * j) + 1)).

Lemma all_good : forall j, good j.
Proof.
  assert (POS : forall x : nat, 0 <= INR x) by apply pos_INR.
  induction j as [j IH] using lt_wf_ind.
  assert (DIAG : (j = 0%nat \/ (0 < j)%nat /\ g j (j - 1) = 0 /\ h (j - 1) j = 0) -> g j j = / (2 * (INR (m + 2 * j) + 1))).
  { intros C. assert (E : h j j = INR (m + 2 * j) * g j j).
    { destruct C as [->|(P & G0 & H0)].
      - rewrite h_0. rewrite Nat.mul_0_r, Nat.add_0_r. reflexivity.
      - pose proof (h_rec (j - 1) j) as R. replace (S (j - 1)) with j in R by lia. rewrite H0, (g_sym (j - 1)), G0 in R. lra. }
    pose proof (gh_parts j j) as Q. rewrite E in Q. pose proof (POS (m + 2 * j)%nat).
    apply Rmult_eq_reg_l with (2 * (INR (m + 2 * j) + 1)); [|lra]. rewrite Rinv_r by lra. lra. }
  assert (OFF : forall i, (i < j)%nat -> g j i = 0 /\ h i j = 0).
  { induction i as [i IHi] using lt_wf_ind. intros Hi.
    assert (HI : h i j = INR (m + 2 * i) * g j i).
    { destruct i as [|i].
      - rewrite h_0, (g_sym 0 j). rewrite Nat.mul_0_r, Nat.add_0_r. reflexivity.
      - destruct (IHi i ltac:(lia) ltac:(lia)) as [G0 H0]. pose proof (h_rec i j) as R.
        rewrite H0, (g_sym i j), G0, (g_sym (S i) j) in R. lra. }
    pose proof (gh_parts j i) as Q. pose proof (h_rec (j - 1) i) as R. replace (S (j - 1)) with j in R by lia.
    assert (G0 : g j i = 0).
    { destruct (Nat.eq_dec i (j - 1)) as [E|NE].
      - destruct (IH i ltac:(lia)) as [OFFi DI]. subst i.
        pose proof (gh_parts (j - 1) (j - 1)) as Qd. rewrite DI in *.
        assert (NN : INR (m + 2 * j) = INR (m + 2 * (j - 1)) + 2).
        { replace (m + 2 * j)%nat with (m + 2 * (j - 1) + 2)%nat by lia. rewrite plus_INR. simpl. ring. }
        pose proof (POS (m + 2 * (j - 1))%nat) as P. set (x := INR (m + 2 * (j - 1))) in *. rewrite NN in *. rewrite HI in Q.
        set (y := g j (j - 1)) in *. set (u := / (2 * (x + 1))) in *.
        assert (U : u * (2 * (x + 1)) = 1) by (apply Rinv_l; lra).
        assert (Z0 : (2 * x + 4) * y = 0) by nra.
        apply Rmult_integral in Z0. destruct Z0; [lra|assumption].
      - destruct (IH (j - 1)%nat ltac:(lia)) as [OFFj _]. destruct (OFFj i ltac:(lia)) as [G1 H1].
        pose proof (gh_parts (j - 1) i) as Qd. rewrite G1, H1 in Qd. rewrite G1 in R. rewrite HI in Q.
        pose proof (POS (m + 2 * j)%nat). pose proof (POS (m + 2 * i)%nat).
        assert (Z0 : (INR (m + 2 * j) + INR (m + 2 * i) + 2) * g j i = 0) by lra.
        apply Rmult_integral in Z0. destruct Z0; [lra|assumption]. }
    split; [exact G0|]. rewrite HI, G0. ring. }
  split; [exact OFF|]. apply DIAG. destruct j as [|j]; [left; reflexivity|right].
  split; [lia|]. apply OFF. lia.
Qed.
End Fixed_m.

Lemma radial_ortho m n n' : valid m n -> valid m n' ->
  RInt (fun r => R_nm m n r * R_nm m n' r * r) 0 1 = if Z.eq_dec n n' then / (2 * (IZR n + 1)) else 0.
Proof.
  intros V V'. destruct (oab m n V) as (A1 & A2 & A3). destruct (oab m n' V') as (B1 & B2 & B3).
  set (mm := Z.abs_nat m).
  assert (E : RInt (fun r => R_nm m n r * R_nm m n' r * r) 0 1 = g mm (ob m n) (ob m n')).
  { unfold g, ipr. apply RInt_ext. intros x _. rewrite !R_nm_F by assumption.
    replace (mm + ob m n)%nat with (oa m n) by lia. replace (mm + ob m n')%nat with (oa m n') by lia. reflexivity. }
  rewrite E. destruct (Z.eq_dec n n') as [->|NE].
  - destruct (all_good mm (ob m n')) as [_ D]. rewrite D. rewrite INR_IZR_INZ. do 4 f_equal. lia.
  - destruct (Nat.lt_total (ob m n) (ob m n')) as [L|[L|L]]; [|lia|].
    + destruct (all_good mm (ob m n')) as [O _]. rewrite g_sym. apply (O _ L).
    + destruct (all_good mm (ob m n)) as [O _]. apply (O _ L).
Qed.

(** ** angular part *)
Lemma int_cos k : (k <> 0)%Z -> is_RInt (fun x => cos (IZR k * x)) 0 (2 * PI) 0.
Proof.
  intros H. assert (K : IZR k <> 0) by (apply not_0_IZR; exact H).
  evar_last.
  - apply (is_RInt_derive (fun x => sin (IZR k * x) / IZR k)).
    + intros x _. auto_derive; [exact I|]. field. exact K.
    + intros x _. apply (ex_derive_continuous (fun x => cos (IZR k * x))). auto_derive. exact I.
  - unfold minus, plus, opp. simpl. rewrite Rmult_0_r, sin_0.
    replace (IZR k * (2 * PI)) with (0 + 2 * IZR k * PI) by ring. rewrite sin_Zperiod, sin_0. field. exact K.
Qed.
Lemma int_sin k : is_RInt (fun x => sin (IZR k * x)) 0 (2 * PI) 0.
Proof.
  destruct (Z.eq_dec k 0) as [->|H].
  - apply (is_RInt_ext (fun _ => 0)); [intros; rewrite Rmult_0_l, sin_0; reflexivity|].
    evar_last; [apply is_RInt_const|]. unfold scal; simpl. unfold mult; simpl. ring.
  - assert (K : IZR k <> 0) by (apply not_0_IZR; exact H).
    evar_last.
    + apply (is_RInt_derive (fun x => - cos (IZR k * x) / IZR k)).
      * intros x _. auto_derive; [exact I|]. field. exact K.
      * intros x _. apply (ex_derive_continuous (fun x => sin (IZR k * x))). auto_derive. exact I.
    + unfold minus, plus, opp. simpl. rewrite Rmult_0_r.
      replace (IZR k * (2 * PI)) with (0 + 2 * IZR k * PI) by ring. rewrite cos_Zperiod. field. exact K.
Qed.
Lemma int_cos_all k : is_RInt (fun x => cos (IZR k * x)) 0 (2 * PI) (if Z.eq_dec k 0 then 2 * PI else 0).
Proof.
  destruct (Z.eq_dec k 0) as [->|H]; [|apply int_cos, H].
  apply (is_RInt_ext (fun _ => 1)); [intros; rewrite Rmult_0_l, cos_0; reflexivity|].
  evar_last; [apply is_RInt_const|]. unfold scal; simpl. unfold mult; simpl. ring.
Qed.

Lemma half_sum f g' u v : is_RInt f 0 (2 * PI) u -> is_RInt g' 0 (2 * PI) v ->
  is_RInt (fun x => (f x + g' x) / 2) 0 (2 * PI) ((u + v) / 2).
Proof.
  intros A B. apply (is_RInt_ext (fun x => scal (/ 2) (plus (f x) (g' x)))).
  - intros x _. unfold scal, plus; simpl. unfold mult; simpl. field.
  - evar_last; [apply is_RInt_scal, is_RInt_plus; [exact A|exact B]|]. unfold scal, plus; simpl. unfold mult; simpl. field.
Qed.

Lemma angular_ortho m m' :
  is_RInt (fun t => T_m m t * T_m m' t) 0 (2 * PI)
    (if Z.eq_dec m m' then (if Z.eq_dec m 0 then 2 * PI else PI) else 0).
Proof.
  unfold T_m. destruct (Z.leb_spec 0 m) as [Hm|Hm]; destruct (Z.leb_spec 0 m') as [Hm'|Hm'].
  - apply (is_RInt_ext (fun t => (cos (IZR (m - m') * t) + cos (IZR (m + m') * t)) / 2)).
    { intros x _. rewrite minus_IZR, plus_IZR.
      replace ((IZR m - IZR m') * x) with (IZR m * x - IZR m' * x) by ring.
      replace ((IZR m + IZR m') * x) with (IZR m * x + IZR m' * x) by ring. req; rewrite cos_minus, cos_plus; field. }
    evar_last; [apply half_sum; apply int_cos_all|].
    destruct (Z.eq_dec (m - m') 0), (Z.eq_dec (m + m') 0), (Z.eq_dec m m'), (Z.eq_dec m 0); try lia; req; field.
  - apply (is_RInt_ext (fun t => (sin (IZR (m + Z.abs m') * t) + sin (IZR (Z.abs m' - m) * t)) / 2)).
    { intros x _. rewrite minus_IZR, plus_IZR.
      replace ((IZR m + IZR (Z.abs m')) * x) with (IZR m * x + IZR (Z.abs m') * x) by ring.
      replace ((IZR (Z.abs m') - IZR m) * x) with (IZR (Z.abs m') * x - IZR m * x) by ring. req; rewrite sin_minus, sin_plus; field. }
    evar_last; [apply half_sum; apply int_sin|]. destruct (Z.eq_dec m m'); [lia|req; field].
  - apply (is_RInt_ext (fun t => (sin (IZR (Z.abs m + m') * t) + sin (IZR (Z.abs m - m') * t)) / 2)).
    { intros x _. rewrite minus_IZR, plus_IZR.
      replace ((IZR (Z.abs m) + IZR m') * x) with (IZR (Z.abs m) * x + IZR m' * x) by ring.
      replace ((IZR (Z.abs m) - IZR m') * x) with (IZR (Z.abs m) * x - IZR m' * x) by ring. req; rewrite sin_minus, sin_plus; field. }
    evar_last; [apply half_sum; apply int_sin|]. destruct (Z.eq_dec m m'); [lia|req; field].
  - apply (is_RInt_ext (fun t => (cos (IZR (Z.abs m - Z.abs m') * t) + - cos (IZR (Z.abs m + Z.abs m') * t)) / 2)).
    { intros x _. rewrite minus_IZR, plus_IZR.
      replace ((IZR (Z.abs m) - IZR (Z.abs m')) * x) with (IZR (Z.abs m) * x - IZR (Z.abs m') * x) by ring.
      replace ((IZR (Z.abs m) + IZR (Z.abs m')) * x) with (IZR (Z.abs m) * x + IZR (Z.abs m') * x) by ring. req; rewrite cos_minus, cos_plus; field. }
    evar_last; [apply half_sum; [apply int_cos_all|apply (is_RInt_opp (fun t => cos (IZR (Z.abs m + Z.abs m') * t))), int_cos_all]|].
    unfold opp; simpl.
    destruct (Z.eq_dec (Z.abs m - Z.abs m') 0), (Z.eq_dec (Z.abs m + Z.abs m') 0), (Z.eq_dec m m'), (Z.eq_dec m 0); try lia; req; field.
Qed.

(** ** the disk *)
Lemma disk_ortho m n m' n' : valid m n -> valid m' n' ->
  (forall r, ex_RInt (fun t => Z_nm m n r t * Z_nm m' n' r t * r) 0 (2 * PI)) /\
  is_RInt (fun r => RInt (fun t => Z_nm m n r t * Z_nm m' n' r t * r) 0 (2 * PI)) 0 1
    (if Z.eq_dec m m' then (if Z.eq_dec n n' then PI else 0) else 0).
Proof.
  intros V V'. pose proof V as (Hn & _). pose proof V' as (Hn' & _).
  set (A := if Z.eq_dec m m' then (if Z.eq_dec m 0 then 2 * PI else PI) else 0).
  set (c := norm_nm m n * norm_nm m' n' * A).
  assert (IN0 : forall r, is_RInt (fun t => Z_nm m n r t * Z_nm m' n' r t * r) 0 (2 * PI) (scal c (R_nm m n r * R_nm m' n' r * r))).
  { intros r.
    apply (is_RInt_ext (fun t => scal (norm_nm m n * norm_nm m' n' * (R_nm m n r * R_nm m' n' r * r)) (T_m m t * T_m m' t))).
    - intros t _. unfold scal; simpl. unfold mult; simpl. unfold Z_nm. ring.
    - pose proof (is_RInt_scal (fun t => T_m m t * T_m m' t) 0 (2 * PI) (norm_nm m n * norm_nm m' n' * (R_nm m n r * R_nm m' n' r * r)) _ (angular_ortho m m')) as X.
      fold A in X. replace (scal c (R_nm m n r * R_nm m' n' r * r)) with (scal (norm_nm m n * norm_nm m' n' * (R_nm m n r * R_nm m' n' r * r)) A); [exact X|].
      unfold scal; simpl. unfold mult; simpl. unfold c. ring. }
  split; [intros r; eexists; apply IN0|].
  assert (IN : forall r, RInt (fun t => Z_nm m n r t * Z_nm m' n' r t * r) 0 (2 * PI) = scal c (R_nm m n r * R_nm m' n' r * r)).
  { intros r. apply is_RInt_unique, IN0. }
  apply (is_RInt_ext (fun r => scal c (R_nm m n r * R_nm m' n' r * r))); [intros r _; symmetry; apply IN|].
  assert (EX : ex_RInt (fun r => R_nm m n r * R_nm m' n' r * r) 0 1).
  { apply cts_int. apply ipr_cts.
    - apply (cts_ext (F (oa m n) (ob m n))); [intros; symmetry; apply R_nm_F, V|apply cts_F].
    - apply (cts_ext (F (oa m' n') (ob m' n'))); [intros; symmetry; apply R_nm_F, V'|apply cts_F]. }
  pose proof (is_RInt_scal _ 0 1 c _ (RInt_correct _ _ _ EX)) as X. clear IN.
  refine (eq_ind _ (fun v : R => is_RInt (fun r => scal c (R_nm m n r * R_nm m' n' r * r)) 0 1 v) X _ _).
  clear X EX. destruct (Z.eq_dec m m') as [->|NE].
  - rewrite (radial_ortho m' n n' V V').
    destruct (Z.eq_dec n n') as [->|NE]; [|unfold scal; simpl; unfold mult; simpl; ring].
    unfold scal; simpl; unfold mult; simpl. unfold c, A, norm_nm.
    apply IZR_le in Hn'.
    assert (P : 0 <= 2 * (IZR n' + 1) / (1 + (if (m' =? 0)%Z then 1 else 0))).
    { destruct (m' =? 0)%Z; apply Rmult_le_pos; try lra; left; apply Rinv_0_lt_compat; lra. }
    rewrite sqrt_sqrt by exact P. destruct (Z.eq_dec m' 0) as [->|N0].
    + cbn [Z.eqb]. field. lra.
    + replace (m' =? 0)%Z with false by lia. field. lra.
  - unfold c, A. unfold scal; simpl. unfold mult; simpl. ring.
Qed.
