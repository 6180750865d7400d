(** The pixels of an image determine the coefficients of the fit (C62). *)
From Coq Require Import Reals Lra Lia List Psatz.
From Flocq Require Import Core.
From Verif Require Import Py SpecIndex SpecRadial M_Sum SpecSum SpecFit SpecGeo M_Geo M_Crop SpecCrop L_Polar L_Crop L_LinAlg L_Indep L_Poly.
Local Open Scope R_scope.

(** points close to a multiple of spaced integers are distinct *)
Lemma choose_points (P : R -> Prop) al be gap ts : 0 <= al -> 2 * be < al * IZR gap ->
  (forall t t', In t ts -> In t' ts -> t <> t' -> (gap <= Z.abs (t - t'))%Z) -> NoDup ts ->
  (forall t, In t ts -> exists s, P s /\ Rabs (s - al * IZR t) <= be) ->
  exists ss, NoDup ss /\ length ss = length ts /\ forall s, In s ss -> P s.
Proof.
  intros A G SP ND H.
  assert (X : exists ss, Forall2 (fun t s => P s /\ Rabs (s - al * IZR t) <= be) ts ss).
  { clear ND SP. induction ts as [|t ts IH]; [exists []; constructor|]. destruct IH as (ss & S); [intros; apply H; right; assumption|].
    destruct (H t) as (s & Hs); [left; reflexivity|]. exists (s :: ss). constructor; assumption. }
  destruct X as (ss & S). exists ss. clear H. split; [|split; [clear - S; induction S; cbn; congruence|]].
  - induction S as [|t s ts ss [Ps Es] S IH]; [constructor|]. inversion ND as [|? ? NI ND']; subst. constructor.
    + intros Hs. assert (Q : exists t', In t' ts /\ Rabs (s - al * IZR t') <= be).
      { clear - Hs S. induction S as [|t' s' ts ss [_ E] S IH]; [destruct Hs|]. destruct Hs as [->|Hs]; [exists t'; split; [left; reflexivity|exact E]|].
        destruct (IH Hs) as (u & U & V). exists u. split; [right; exact U|exact V]. }
      destruct Q as (t' & I' & E'). assert (N : t <> t') by (intros ->; contradiction).
      assert (D := SP t t' (or_introl eq_refl) (or_intror I') N). apply IZR_le in D. rewrite abs_IZR, minus_IZR in D.
      assert (T : Rabs (al * (IZR t - IZR t')) <= 2 * be).
      { replace (al * (IZR t - IZR t')) with ((s - al * IZR t') - (s - al * IZR t)) by ring. eapply Rle_trans; [apply Rabs_triang|]. rewrite Rabs_Ropp. lra. }
      rewrite Rabs_mult, (Rabs_pos_eq al A) in T. assert (al * IZR gap <= al * Rabs (IZR t - IZR t')) by (apply Rmult_le_compat_l; assumption). lra.
    + apply IH; [|exact ND']. intros; apply SP; try right; assumption.
  - induction S as [|t s ts ss [Ps _] S IH]; [intros s []|]. inversion ND as [|? ? NI ND']; subst. intros u [<-|Hu]; [exact Ps|].
    apply IH; [|exact ND'|exact Hu]. intros; apply SP; try right; assumption.
Qed.

Lemma steps_In g b k t : In t (map (fun i => g * (2 * i + b))%Z (zrange 0 k)) <-> exists i, (0 <= i < Z.of_nat k)%Z /\ t = (g * (2 * i + b))%Z.
Proof.
  rewrite in_map_iff. split; intros (i & A & B).
  - apply zrange_In in B. exists i. split; [lia|congruence].
  - exists i. split; [congruence|]. apply zrange_In. lia.
Qed.
Lemma zrange_length k : forall a, length (zrange a k) = k.
Proof. induction k as [|k IH]; intros a; cbn; [reflexivity|]. rewrite IH. reflexivity. Qed.

Section Pixels.
Variables (rnd : R -> R) (rows cols : Z) (x : R) (strict : bool).
Hypothesis SN : sane rnd.
Hypothesis HM : (3 <= Z.min rows cols)%Z.
Let c := round4 rnd x.
Hypothesis HC : 1 / 2 <= c <= 1.
Variables (N g : Z).
Hypothesis HN : (0 <= N)%Z.
Hypothesis HG : (0 < g)%Z /\ Z.odd g = true.
Hypothesis HS : IZR (g * ((N + 1) * (N + 3))) <= c * (IZR (Z.min rows cols) - 1).
Hypothesis HR : 424 / 1000000 * circle_radius rows cols < IZR g.

Let p : Z := (1 + cols mod 2)%Z.
Let qb : Z := (- N + (N + rows - 1) mod 2)%Z.
Let tb : Z := (- N + (N + 1) mod 2)%Z.

Lemma circle_min : (IZR (Z.min rows cols) - 1) / 2 <= circle_radius rows cols.
Proof. unfold circle_radius. assert (H : (Z.min rows cols <= if (Z.abs (rows - cols) <? 2)%Z then Z.max rows cols else Z.min rows cols)%Z) by (destruct (_ <? _)%Z; lia). apply IZR_le in H. lra. Qed.

(** the pixel at t (p, q) / 2 from the centre *)
Lemma pixel_at i k : (0 <= i <= N)%Z -> (0 <= k <= N)%Z -> let q := (2 * i + qb)%Z in let t := (g * (2 * k + tb))%Z in
  exists a b, (0 <= a < rows)%Z /\ (0 <= b < cols)%Z /\ off_x cols (a, b) = IZR (t * p) / 2 /\ off_y rows (a, b) = IZR (t * q) / 2 /\
    rel_dist rows cols (a, b) <= c /\ t <> 0%Z.
Proof.
  intros Hi Hk q t.
  assert (KEY : (g * ((N + 1) * (N + 3)) <= Z.min rows cols - 1)%Z).
  { apply le_IZR. rewrite minus_IZR. eapply Rle_trans; [exact HS|]. assert (3 <= IZR (Z.min rows cols)) by (apply IZR_le; exact HM). 
    assert (0 <= IZR (Z.min rows cols) - 1) by lra. nra. }
  assert (P : (1 <= p <= 2)%Z) by (unfold p; pose proof (Z.mod_pos_bound cols 2 ltac:(lia)); lia).
  assert (Q : (- (N + 1) <= q <= N + 1)%Z) by (unfold q, qb; pose proof (Z.mod_pos_bound (N + rows - 1) 2 ltac:(lia)); lia).
  set (u := (2 * k + tb)%Z) in *. assert (U : (- (N + 1) <= u <= N + 1)%Z) by (unfold u, tb; pose proof (Z.mod_pos_bound (N + 1) 2 ltac:(lia)); lia).
  assert (OU : Z.odd u = true).
  { unfold u, tb. rewrite !Zmod_odd. rewrite Z.odd_add. replace (Z.odd (2 * k)) with false by (rewrite Z.odd_mul; reflexivity).
    rewrite Z.odd_add. rewrite Z.odd_opp. rewrite Z.odd_add. cbn. destruct (Z.odd N); reflexivity. }
  assert (OT : Z.odd t = true) by (unfold t; fold u; rewrite Z.odd_mul, OU; destruct HG as [_ ->]; reflexivity).
  assert (PX : Z.odd (t * p) = Z.odd (cols - 1)).
  { rewrite Z.odd_mul, OT. unfold p. rewrite Zmod_odd, Z.odd_add, Z.odd_sub. destruct (Z.odd cols); reflexivity. }
  assert (PY : Z.odd (t * q) = Z.odd (rows - 1)).
  { rewrite Z.odd_mul, OT. unfold q, qb. rewrite Zmod_odd. rewrite !Z.odd_add, Z.odd_sub, Z.odd_add, Z.odd_opp. replace (Z.odd (2 * i)) with false by (rewrite Z.odd_mul; reflexivity).
    rewrite Z.odd_sub. cbn. destruct (Z.odd N), (Z.odd rows); reflexivity. }
  assert (AT : (Z.abs t <= g * (N + 1))%Z) by (unfold t; fold u; rewrite Z.abs_mul, (Z.abs_eq g) by lia; apply Z.mul_le_mono_nonneg_l; lia).
  assert (AP : (Z.abs (t * p) <= Z.min rows cols - 1)%Z).
  { rewrite Z.abs_mul, (Z.abs_eq p) by lia. apply Z.le_trans with (g * (N + 1) * (N + 3))%Z; [apply Z.mul_le_mono_nonneg; lia|lia]. }
  assert (AQ : (Z.abs (t * q) <= Z.min rows cols - 1)%Z).
  { rewrite Z.abs_mul. apply Z.le_trans with (g * (N + 1) * (N + 3))%Z; [apply Z.mul_le_mono_nonneg; lia|lia]. }
  exists ((rows - 1 - t * q) / 2)%Z, ((cols - 1 + t * p) / 2)%Z.
  assert (EX : (2 * ((cols - 1 + t * p) / 2) = cols - 1 + t * p)%Z).
  { symmetry. apply Z_div_exact_full_2; [lia|]. rewrite Zmod_odd, Z.odd_add, PX. destruct (Z.odd (cols - 1)); reflexivity. }
  assert (EY : (2 * ((rows - 1 - t * q) / 2) = rows - 1 - t * q)%Z).
  { symmetry. apply Z_div_exact_full_2; [lia|]. rewrite Zmod_odd, Z.odd_sub, PY. destruct (Z.odd (rows - 1)); reflexivity. }
  split; [lia|]. split; [lia|].
  assert (FX : off_x cols ((rows - 1 - t * q) / 2, (cols - 1 + t * p) / 2)%Z = IZR (t * p) / 2).
  { unfold off_x. cbn [snd]. apply (f_equal IZR) in EX. rewrite plus_IZR, minus_IZR in EX. rewrite (mult_IZR 2) in EX. lra. }
  assert (FY : off_y rows ((rows - 1 - t * q) / 2, (cols - 1 + t * p) / 2)%Z = IZR (t * q) / 2).
  { unfold off_y. cbn [fst]. apply (f_equal IZR) in EY. rewrite !minus_IZR in EY. rewrite (mult_IZR 2) in EY. lra. }
  split; [exact FX|]. split; [exact FY|]. split; [|intros Z; rewrite Z in OT; discriminate].
  unfold rel_dist. rewrite FX, FY. pose proof (circle_ge1 rows cols HM) as C1. pose proof circle_min as C2.
  apply Rmult_le_reg_r with (circle_radius rows cols); [lra|]. unfold Rdiv at 1. rewrite Rmult_assoc, Rinv_l, Rmult_1_r by lra.
  apply Rle_trans with (IZR (g * ((N + 1) * (N + 3))) / 2); [|apply Rle_trans with (c * ((IZR (Z.min rows cols) - 1) / 2)); [lra|apply Rmult_le_compat_l; lra]].
  assert (NN : (0 <= g * ((N + 1) * (N + 3)))%Z) by nia. apply IZR_le in NN.
  apply Rsqr_incr_0_var; [|lra]. unfold Rsqr. rewrite sqrt_sqrt by nra.
  assert (ZZ : (t * p * (t * p) + t * q * (t * q) <= g * ((N + 1) * (N + 3)) * (g * ((N + 1) * (N + 3))))%Z).
  { assert (E1 : (Z.abs t * Z.abs t <= g * (N + 1) * (g * (N + 1)))%Z) by (apply Z.mul_le_mono_nonneg; lia).
    assert (E2 : (p * p + q * q <= (N + 3) * (N + 3))%Z).
    { assert (A1 : (p * p <= 4)%Z) by nia. assert (A2 : (Z.abs q * Z.abs q <= (N + 1) * (N + 1))%Z) by (apply Z.mul_le_mono_nonneg; lia). rewrite <- Z.abs_mul in A2. rewrite Z.abs_eq in A2 by apply Z.square_nonneg.
      assert (A3 : ((N + 3) * (N + 3) = (N + 1) * (N + 1) + 4 * N + 8)%Z) by ring. lia. }
    assert (E3 : (Z.abs t * Z.abs t = t * t)%Z) by (rewrite <- Z.abs_mul; apply Z.abs_eq, Z.square_nonneg). rewrite E3 in E1.
    apply Z.le_trans with ((g * (N + 1) * (g * (N + 1))) * ((N + 3) * (N + 3)))%Z; [|apply Z.eq_le_incl; ring].
    replace (t * p * (t * p) + t * q * (t * q))%Z with (t * t * (p * p + q * q))%Z by ring. apply Z.mul_le_mono_nonneg; [apply Z.square_nonneg|exact E1| |exact E2]. apply Z.add_nonneg_nonneg; apply Z.square_nonneg. }
  apply IZR_le in ZZ. rewrite plus_IZR, (mult_IZR (t * p)), (mult_IZR (t * q) (t * q)), (mult_IZR (g * _) (g * _)) in ZZ. lra.
Qed.

Lemma crop_vanish {A} (f : Z -> Z -> A) mask phases radii thetas ps cs : Forall validp ps -> NoDup ps -> Forall (fun p => snd p <= N)%Z ps -> length cs = length ps ->
  crop_phases_img rnd (Img rows cols f) (RadNum x) strict = Ok (mask, (phases, radii, thetas)) ->
  vanishes cs ps (combine radii thetas) -> cs = repeat 0 (length ps).
Proof.
  intros V ND B L EC VA. destruct (crop_ok rnd rows cols f x strict SN HM HC) as (sel & mask' & phases' & radii' & thetas' & H). cbn zeta in H.
  destruct H as (EC' & _ & _ & LR & LT & RR & PO & _ & SELIN & _ & Q & HQ & RAD). rewrite EC in EC'. injection EC' as <- <- <- <-. assert (BM : 1 / 1000 <= border_margin rows cols strict <= 55 / 1000) by (unfold border_margin; destruct (_ && _)%bool; lra). assert (HQ' : 1 <= Q <= 106 / 100) by lra. clear HQ. rename HQ' into HQ.
  set (S := filter sel (row_major rows cols)) in *. set (C := circle_radius rows cols) in *.
  pose proof (circle_ge1 rows cols HM) as C1. fold C in C1.
  assert (P : (1 <= p <= 2)%Z) by (unfold p; pose proof (Z.mod_pos_bound cols 2 ltac:(lia)); lia).
  assert (P1 : 1 <= IZR p) by (apply IZR_le; lia).
  assert (LEN : length (zrange 0 (Z.to_nat (N + 1))) = Datatypes.S (Z.to_nat N)) by (rewrite zrange_length; lia).
  apply (lines_determine N ps cs (map (fun i => IZR (2 * i + qb) / IZR p) (zrange 0 (Z.to_nat (N + 1))))); try assumption.
  - apply FinFun.Injective_map_NoDup; [|apply zrange_NoDup]. intros a b E. apply (f_equal (Rmult (IZR p))) in E.
    assert (F : forall z, IZR p * (IZR z / IZR p) = IZR z) by (intros; field; lra). rewrite !F in E. apply eq_IZR in E. lia.
  - rewrite map_length. exact LEN.
  - intros kk Hk. apply in_map_iff in Hk. destruct Hk as (i & <- & Hi). apply zrange_In in Hi. assert (Hi' : (0 <= i <= N)%Z) by lia. clear Hi.
    set (q := (2 * i + qb)%Z). set (D := sqrt (IZR (p * p + q * q))).
    assert (D1 : 1 <= D). { unfold D. rewrite <- sqrt_1. apply sqrt_le_1_alt. apply IZR_le. pose proof (Z.square_nonneg q). assert (p * p >= 1)%Z by nia. lia. }
    rewrite <- LEN. rewrite <- (map_length (fun i => g * (2 * i + tb))%Z).
    apply (choose_points _ (IZR p / (2 * C * Q)) (2 / 10000 * (IZR p / D)) (2 * g)).
    + apply div_ge0; [|lra]. apply Rmult_lt_0_compat; lra.
    + rewrite mult_IZR. replace (IZR p / (2 * C * Q) * (2 * IZR g)) with (IZR p * (IZR g / (C * Q))) by (field; lra).
      replace (2 * (2 / 10000 * (IZR p / D))) with (IZR p * (4 / 10000 / D)) by (field; lra). apply Rmult_lt_compat_l; [lra|].
      apply Rle_lt_trans with (4 / 10000).
      { unfold Rdiv at 1. rewrite <- (Rmult_1_r (4 / 10000)) at 2. apply Rmult_le_compat_l; [lra|]. rewrite <- Rinv_1. apply Rinv_le_contravar; lra. }
      apply Rmult_lt_reg_r with (C * Q); [apply Rmult_lt_0_compat; lra|]. unfold Rdiv at 2. rewrite Rmult_assoc, Rinv_l, Rmult_1_r by (apply Rgt_not_eq, Rmult_lt_0_compat; lra).
      apply Rle_lt_trans with (424 / 1000000 * C); [|exact HR]. assert (C * Q <= C * (106 / 100)) by (apply Rmult_le_compat_l; lra). lra.
    + intros t t' Ht Ht' NE. apply steps_In in Ht, Ht'. destruct Ht as (a & Ha & ->). destruct Ht' as (b & Hb & ->).
      replace (g * (2 * a + tb) - g * (2 * b + tb))%Z with (2 * g * (a - b))%Z by ring. rewrite Z.abs_mul, (Z.abs_eq (2 * g)) by lia.
      assert (a <> b) by (intros ->; apply NE; reflexivity). assert (1 <= Z.abs (a - b))%Z by lia. nia.
    + apply FinFun.Injective_map_NoDup; [|apply zrange_NoDup]. intros a b E. apply Z.mul_reg_l in E; lia.
    + intros t Ht. apply steps_In in Ht. destruct Ht as (k & Hk & ET). assert (Hk' : (0 <= k <= N)%Z) by lia. clear Hk.
      destruct (pixel_at i k Hi' Hk') as (a & b & Ha & Hb & FX & FY & RD & T0). fold q in FY. rewrite <- ET in FX, FY, T0.
      assert (IN : In (a, b) S) by (apply filter_In; split; [apply row_major_In; tauto|apply SELIN; fold c; lra]).
      destruct (In_nth S (a, b) (0, 0)%Z IN) as (idx & LI & EI). specialize (PO idx LI). specialize (RAD idx LI). rewrite EI in PO, RAD.
      set (rho := nth idx radii 0) in *. set (th := nth idx thetas 0) in *. destruct PO as (d & D0 & _ & PX & PY). rewrite FX in PX. rewrite FY in PY.
      assert (VV : zsum cs ps rho th = 0).
      { apply (VA (rho, th)). unfold rho, th. rewrite <- combine_nth by congruence. apply nth_In. rewrite combine_length. lia. }
      rewrite <- csum_polar in VV by exact V.
      assert (TP : IZR (t * p) = IZR t * IZR p) by apply mult_IZR. assert (TQ : IZR (t * q) = IZR t * IZR q) by apply mult_IZR.
      assert (T0' : IZR t <> 0) by (apply not_0_IZR; exact T0).
      assert (DN : d <> 0). { intros ->. rewrite Rmult_0_l in PX. assert (IZR t * IZR p <> 0) by (apply Rmult_integral_contrapositive; split; lra). lra. }
      assert (CT : cos th = IZR t * IZR p / (2 * d)) by (apply (Rmult_eq_reg_l d); [|exact DN]; rewrite PX, TP; field; exact DN).
      assert (ST : sin th = IZR t * IZR q / (2 * d)) by (apply (Rmult_eq_reg_l d); [|exact DN]; rewrite PY, TQ; field; exact DN).
      exists (rho * cos th). split.
      * rewrite <- VV. f_equal. rewrite CT, ST. field. split; [exact DN|lra].
      * (* distance *)
        assert (DE : d = Rabs (IZR t) * D / 2).
        { assert (SQ : d * d = (IZR t * D / 2) * (IZR t * D / 2)).
          { assert (DD : D * D = IZR (p * p + q * q)) by (apply sqrt_sqrt, IZR_le; pose proof (Z.square_nonneg q); pose proof (Z.square_nonneg p); lia).
            transitivity ((d * cos th) * (d * cos th) + (d * sin th) * (d * sin th)).
            - pose proof (sin2_cos2 th) as SC. unfold Rsqr in SC. transitivity (d * d * (sin th * sin th + cos th * cos th)); [rewrite SC; ring|ring].
            - rewrite PX, PY, TP, TQ. transitivity (IZR t * IZR t * (D * D) / 4); [|field]. rewrite DD, plus_IZR, !mult_IZR. field. }
          rewrite <- (Rabs_pos_eq d D0). rewrite <- (Rabs_pos_eq D) by lra. rewrite <- Rabs_mult.
          replace (Rabs (IZR t * D) / 2) with (Rabs (IZR t * D / 2)) by (unfold Rdiv; rewrite Rabs_mult, (Rabs_pos_eq (/ 2)) by lra; reflexivity).
          apply Rsqr_eq_abs_0. exact SQ. }
        assert (RDE : rel_dist rows cols (a, b) = d / C).
        { unfold rel_dist. fold C. f_equal. rewrite FX, FY. rewrite <- (sqrt_Rsqr d D0). f_equal. rewrite <- PX, <- PY. unfold Rsqr.
          pose proof (sin2_cos2 th) as SC. unfold Rsqr in SC. transitivity (d * d * (sin th * sin th + cos th * cos th)); [ring|rewrite SC; ring]. }
        rewrite RDE in RAD.
        replace (rho * cos th - IZR p / (2 * C * Q) * IZR t) with ((rho - d / C / Q) * cos th) by (rewrite CT; field; repeat split; lra).
        rewrite Rabs_mult. apply Rmult_le_compat; try apply Rabs_pos; [exact RAD|].
        rewrite CT, DE. unfold Rdiv. rewrite !Rabs_mult, (Rabs_pos_eq (IZR p)) by lra.
        rewrite Rabs_inv. rewrite !Rabs_mult, Rabs_Rabsolu, (Rabs_pos_eq 2), (Rabs_pos_eq D), (Rabs_pos_eq (/ 2)) by lra.
        right. field. split; [lra|]. apply Rabs_no_R0. exact T0'.
Qed.
End Pixels.
