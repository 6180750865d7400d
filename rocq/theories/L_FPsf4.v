(** The PSF program in binary64: every result is close to the exact quadrature formula. *)
From Coq Require Import Reals Lra Lia Psatz Permutation.
From Flocq Require Import Core.
From Flocq.Prop Require Import Relative.
From Verif Require Import Py SpecIndex SpecRadial M_Radial M_Coeffs SpecCoeffs M_Sum SpecSum L_Sum M_Polar L_Polar M_Psf SpecPsf L_Psf L_PsfKernel L_PsfNodes
  L_Float SpecFloat SpecFloatPsf M_FloatPsf L_FPsf1 L_FPsf2 L_FPsf3.
Import ListNotations.
Local Open Scope R_scope.

Lemma mapM_okq {A B} (f : A -> M B) (P : A -> B -> Prop) l : (forall x, In x l -> okq (f x) (P x)) -> okq (mapM f l) (fun v => Forall2 P l v).
Proof.
  induction l as [|x l IH]; intros H; cbn [mapM].
  - apply okq_ret. constructor.
  - eapply okq_bind; [apply H; left; reflexivity|]. intros a Ha. eapply okq_bind; [apply IH; intros; apply H; right; assumption|].
    intros v Hv. apply okq_ret. constructor; assumption.
Qed.
Lemma F2_map {A B C} (P : A -> C -> Prop) (g : B -> C) (l : list A) (l' : list B) : Forall2 (fun x y => P x (g y)) l l' -> Forall2 P l (map g l').
Proof. induction 1; cbn [map]; constructor; assumption. Qed.
Lemma F2_impl {A B} (P Q : A -> B -> Prop) l l' : (forall x y, P x y -> Q x y) -> Forall2 P l l' -> Forall2 Q l l'.
Proof. intros H. induction 1; constructor; auto. Qed.

Definition cnear (d : R) (t : cplx) (x y : R) : Prop := Rabs (fst t - x) <= d /\ Rabs (snd t - y) <= d.

Lemma facc_okq (f : Z -> M cplx) (P : Z -> cplx -> Prop) l : (forall i, In i l -> okq (f i) (P i)) ->
  forall L L' acc, bracketing L (fst acc) -> bracketing L' (snd acc) ->
  okq (faccumulate b64 f l acc) (fun v => exists ws, Forall2 P l ws /\ bracketing (L ++ map fst ws) (fst v) /\ bracketing (L' ++ map snd ws) (snd v)).
Proof.
  induction l as [|i l IH]; intros H L L' acc B B'; cbn [faccumulate].
  - apply okq_ret. exists []. cbn [map]. rewrite !app_nil_r. split; [constructor|]. split; assumption.
  - eapply okq_bind; [apply H; left; reflexivity|]. intros w Hw.
    eapply okq_weak; [|apply (IH ltac:(intros; apply H; right; assumption) (L ++ [fst w]) (L' ++ [snd w]))].
    + intros v (ws & F & E & E'). exists (w :: ws). cbn [map]. rewrite <- !app_assoc in E, E'. cbn [app] in E, E'. split; [constructor; assumption|]. split; assumption.
    + unfold fcadd. cbn [fst]. apply (br_add L _ [fst w]); [exact B|constructor].
    + unfold fcadd. cbn [snd]. apply (br_add L' _ [snd w]); [exact B'|constructor].
Qed.

Lemma loop_sum (l : list Z) g ws s e M : 0 <= e -> 0 <= M -> (forall i, In i l -> Rabs (g i) <= M) -> Forall2 (fun i w => Rabs (w - g i) <= e) l ws ->
  bracketing ([0] ++ ws) s -> (INR (length l) + 1) * u <= 1 / 2 ->
  Rabs (s - rsum l g) <= INR (length l) * e + 2 * (INR (length l) + 1) * u * ((INR (length l) + 1) * (M + e + 1)).
Proof.
  intros E0 M0 HM F B HN. pose proof (F2_len _ _ _ F) as L.
  assert (LE : INR (length ([0] ++ ws)) = INR (length l) + 1) by (cbn [app length]; rewrite S_INR, L; reflexivity).
  assert (TB : forall t, In t ([0] ++ ws) -> Rabs t <= M + e).
  { intros t [<- |Ht]; [rewrite Rabs_R0; lra|]. destruct (F2_in _ _ _ F t Ht) as (i & I & E). replace t with (g i + (t - g i)) by ring.
    eapply Rle_trans; [apply Rabs_triang|]. pose proof (HM i I). lra. }
  pose proof (br_bound _ _ (M + e) B ltac:(lra) TB ltac:(rewrite LE; exact HN)) as BB. rewrite LE in BB.
  assert (S0 : suml ([0] ++ ws) = suml ws) by (unfold suml; cbn [app fold_right]; lra). rewrite S0 in BB.
  pose proof (approx_sum l g ws e F) as C. change (suml (map g l)) with (rsum l g) in C.
  replace (s - rsum l g) with ((s - suml ws) + (suml ws - rsum l g)) by ring. eapply Rle_trans; [apply Rabs_triang|]. lra.
Qed.
Lemma np_sum npsum (l : list Z) g ws e M : sums_somehow npsum -> 0 <= e -> 0 <= M -> (forall i, In i l -> Rabs (g i) <= M) -> Forall2 (fun i w => Rabs (w - g i) <= e) l ws ->
  (INR (length l) + 1) * u <= 1 / 2 ->
  Rabs (npsum ws - rsum l g) <= INR (length l) * e + 2 * (INR (length l) + 1) * u * ((INR (length l) + 1) * (M + e + 1)).
Proof.
  intros NS E0 M0 HM F HN. pose proof u_pos as U. pose proof (pos_INR (length l)) as K0.
  eapply Rle_trans; [apply (approx_npsum npsum l g ws e M NS E0 M0 HM F); lra|]. apply Rplus_le_compat_l.
  set (K := INR (length l)) in *. apply Rmult_le_compat; [apply Rmult_le_pos; lra|apply Rmult_le_pos; lra| |].
  - apply Rmult_le_compat_r; lra.
  - apply Rmult_le_compat_r; lra.
Qed.

Lemma F64_0 : F64 0. Proof. apply generic_format_0. Qed.
Lemma F64_1 : F64 1. Proof. rewrite <- (b64_IZR 1) by lia. apply b64_F. Qed.

Section Program.
Variables fcos fsin : R -> R.
Variable npsum : list R -> R.
Variable fhyp : R -> R -> R.
Variable fsq : R -> R.
Hypothesis TR : trig_within_ulp fcos fsin.
Hypothesis NS : sums_somehow npsum.
Hypothesis HY : hypot_within_ulp fhyp.
Hypothesis SQ : square_within_ulp fsq.
Variable ph : fphase.
Variable Phi : R -> R -> R.
Variables D B Lt : R.
Hypothesis PH : forall x phi, F64 x -> 0 <= x <= 1 -> Rabs phi <= 7 -> okq (ph x phi) (fun z => Rabs (z - Phi x phi) <= D).
Hypothesis PB : forall x phi, 0 <= x <= 1 -> Rabs (Phi x phi) <= B.
Hypothesis PL : forall x p q, 0 <= x <= 1 -> Rabs (Phi x p - Phi x q) <= Lt * Rabs (p - q).
Variables r theta r' theta' dr dt : R.
Hypothesis HR : Rabs (r' - r) <= dr.
Hypothesis HT : Rabs (theta' - theta) <= dt.
Hypothesis HT7 : Rabs theta' <= 7.
Let E : R := Rmin (phase_err D B Lt r dr dt) 2.
Let e1 : R := E + 6 * u.

Lemma E_range : 0 <= E <= 2.
Proof.
  split; [|apply Rmin_r]. assert (D0 : 0 <= D).
  { destruct (PH 0 0 F64_0 ltac:(lra) ltac:(rewrite Rabs_R0; lra) import_state ltac:(constructor)) as (_ & z & _ & H). eapply Rle_trans; [apply Rabs_pos|exact H]. }
  assert (B0 : 0 <= B) by (eapply Rle_trans; [apply Rabs_pos|apply (PB 0 0); lra]).
  assert (L0 : 0 <= Lt). { pose proof (PL 0 1 0 ltac:(lra)) as H. rewrite Rminus_0_r, Rabs_R1, Rmult_1_r in H. eapply Rle_trans; [apply Rabs_pos|exact H]. }
  assert (0 <= dr) by (eapply Rle_trans; [apply Rabs_pos|exact HR]). assert (0 <= dt) by (eapply Rle_trans; [apply Rabs_pos|exact HT]).
  pose proof (Rabs_pos r). pose proof u_pos. apply Rmin_glb; [|lra]. unfold phase_err.
  assert (0 <= Rabs r * dt) by (apply Rmult_le_pos; assumption). assert (0 <= (1 + B + Lt + Rabs r) * (64 * u)) by (apply Rmult_le_pos; lra). lra.
Qed.
Lemma diff_okq phi phi' x : F64 x -> 0 <= x <= 1 -> Rabs phi' <= 7 -> Rabs (phi' - phi) <= 32 * u ->
  okq (fdiffraction b64 fcos fsin ph phi' theta' r' x) (fun t => cnear e1 t (re_psi Phi r theta phi x) (im_psi Phi r theta phi x)).
Proof.
  intros Fx Hx H7 HP. unfold fdiffraction. eapply okq_bind; [apply PH; assumption|]. intros z Hz. apply okq_ret.
  destruct (field_err fcos fsin TR Phi D B Lt r theta dr dt r' theta' phi phi' x z Hx H7 HT7 HP HR HT Hz (PB x phi Hx) (fun p q => PL x p q Hx)) as (_ & A & C).
  split; assumption.
Qed.

Variables n_r n_phi : Z.
Hypothesis NR : (20 <= n_r <= 2 ^ 24)%Z.
Hypothesis NP : (36 <= n_phi <= 2 ^ 24)%Z.
Let N : R := IZR n_r.
Let P : R := IZR n_phi.
Let h := b64 (1 / IZR n_r).
Let nodes := r_nodes b64 h.

Lemma N_range : 20 <= N <= 16777216. Proof. unfold N. split; apply IZR_le; [lia|]. change (2 ^ 24)%Z with 16777216%Z in NR. lia. Qed.
Lemma P_range : 36 <= P <= 16777216. Proof. unfold P. split; apply IZR_le; [lia|]. change (2 ^ 24)%Z with 16777216%Z in NP. lia. Qed.
Lemma N50 : (2 <= n_r <= 2 ^ 50)%Z.
Proof. split; [lia|]. apply Z.le_trans with (2 ^ 24)%Z; [lia|]. apply Z.pow_le_mono_r; lia. Qed.
Lemma eps_u : 2 * eps = u. Proof. unfold eps, u. replace (2 ^ 53) with 9007199254740992 by (rewrite (pow_IZR 2 53); reflexivity). lra. Qed.
Lemma h_facts : 0 <= h /\ h * N <= 1 + 4 * u.
Proof.
  pose proof (h_rel n_r N50) as A. pose proof (h_range n_r N50) as C. fold h in A, C. pose proof eps_u as EU. pose proof u_pos. fold N in A.
  replace (h * N) with (N * h) by ring. lra.
Qed.
Lemma nodes_facts : (forall x, In x nodes -> F64 x /\ 0 <= x <= 1) /\ INR (length nodes) <= N.
Proof.
  unfold nodes, h. rewrite (nodes64_eq n_r). split.
  - intros x Hx. apply in_map_iff in Hx. destruct Hx as (i & <- & Hi). apply in_seq in Hi. split; [apply b64_F|]. apply (node_range n_r N50 i). lia.
  - rewrite map_length, seq_length. unfold N. rewrite INR_IZR_INZ. apply IZR_le. destruct (count_cases n_r N50) as [C|[C _]]; lia.
Qed.
Lemma weight : trapezoid h nodes (fun p => p) <= 551 / 1000.
Proof.
  pose proof (radial_weight64 n_r N50) as W. fold h in W. fold nodes in W. fold N in W. pose proof N_range as HN. pose proof eps_u. pose proof u_small.
  assert (/ N <= / 20) by (apply Rinv_le_contravar; lra). lra.
Qed.
Lemma tr_bound g : (forall p, 0 <= p -> - p <= g p <= p) -> Rabs (tr b64 n_r g) <= 551 / 1000.
Proof.
  intros G. destruct h_facts as (H0 & _). destruct nodes_facts as (ND & _). pose proof weight as W. unfold tr. fold h. fold nodes.
  assert (U : trapezoid h nodes g <= trapezoid h nodes (fun p => p)).
  { apply trapezoid_le; [exact H0|apply G; lra|apply G; lra|]. intros x Hx. apply G. apply ND, Hx. }
  assert (V : trapezoid h nodes (fun p => -1 * p + 0 * p) <= trapezoid h nodes g).
  { apply trapezoid_le; [exact H0| | |].
    - pose proof (G 0 ltac:(lra)). lra.
    - pose proof (G 1 ltac:(lra)). lra.
    - intros x Hx. pose proof (G x ltac:(apply ND, Hx)). lra. }
  rewrite trapezoid_lin in V. apply Rabs_le. lra.
Qed.
Lemma re_bound phi p : 0 <= p -> - p <= re_psi Phi r theta phi p <= p.
Proof. intros Hp. unfold re_psi. match goal with |- _ <= _ * cos ?a <= _ => pose proof (COS_bound a) end. nra. Qed.
Lemma im_bound phi p : 0 <= p -> - p <= im_psi Phi r theta phi p <= p.
Proof. intros Hp. unfold im_psi. match goal with |- _ <= _ * sin ?a <= _ => pose proof (SIN_bound a) end. nra. Qed.
Let e2 : R := 106 / 100 * e1 + 10 * (N * u).

Lemma one_part g ts a' b' : (forall p, 0 <= p -> - p <= g p <= p) -> Forall2 (fun x t => Rabs (t - g x) <= e1) nodes ts -> Rabs (a' - g 0) <= e1 -> Rabs (b' - g 1) <= e1 ->
  Rabs (b64 (h * b64 (npsum ts + b64 (1 / 2 * b64 (a' + b')))) - tr b64 n_r g) <= e2.
Proof.
  intros G F Ea Eb. destruct h_facts as (H0 & HN). destruct nodes_facts as (ND & LN). pose proof N_range as RN. pose proof E_range as RE. pose proof u_pos as U.
  pose proof u_small as US. pose proof (Nu_small N ltac:(lra)) as NU. pose proof (pos_INR (length nodes)) as K0.
  assert (GB : forall x, In x nodes -> Rabs (g x) <= 1). { intros x Hx. destruct (ND x Hx) as (_ & Hx'). pose proof (G x ltac:(lra)). apply Rabs_le. lra. }
  assert (ES := approx_npsum npsum nodes g ts e1 1 NS ltac:(unfold e1; lra) ltac:(lra) GB F ltac:(nra)). change (suml (map g nodes)) with (rsum nodes g) in ES.
  assert (SB : Rabs (rsum nodes g) <= INR (length nodes)).
  { pose proof (suml_le_abs (map g nodes)) as S1. pose proof (suml_bound (map g nodes) 1 ltac:(lra)) as S2. rewrite map_length in S2.
    change (suml (map g nodes)) with (rsum nodes g) in S1. eapply Rle_trans; [exact S1|]. rewrite Rmult_1_r in S2. apply S2.
    intros x Hx. apply in_map_iff in Hx. destruct Hx as (y & <- & Hy). apply GB, Hy. }
  assert (TB := tr_bound g G). unfold tr in *. fold h in TB. fold h. fold nodes in TB. fold nodes. unfold trapezoid in *.
  pose proof (G 0 ltac:(lra)) as G0. pose proof (G 1 ltac:(lra)) as G1.
  apply (radial_num N (INR (length nodes)) h (npsum ts) (rsum nodes g) a' (g 0) b' (g 1) e1); try assumption.
  - lra.
  - unfold e1. lra.
  - apply Rabs_le. lra.
  - apply Rabs_le. lra.
  - lra.
Qed.
Lemma radial_okq phi phi' : Rabs phi' <= 7 -> Rabs (phi' - phi) <= 32 * u ->
  okq (fradial_integral b64 fcos fsin npsum ph n_r r' theta' phi') (fun t => cnear e2 t (tr b64 n_r (re_psi Phi r theta phi)) (tr b64 n_r (im_psi Phi r theta phi))).
Proof.
  intros H7 HP. unfold fradial_integral. replace (n_r =? 0)%Z with false by (symmetry; apply Z.eqb_neq; lia). fold h. fold nodes.
  eapply okq_bind; [apply (diff_okq phi phi' 0 F64_0); try assumption; lra|]. intros fa (Fa1 & Fa2).
  eapply okq_bind; [apply (diff_okq phi phi' 1 F64_1); try assumption; lra|]. intros fb (Fb1 & Fb2).
  eapply okq_bind; [apply mapM_okq; intros x Hx; destruct (proj1 nodes_facts x Hx) as (Fx & Ix); apply (diff_okq phi phi' x Fx Ix H7 HP)|].
  intros fs F. apply okq_ret. unfold fcscale, fcadd, fcsum. cbn [fst snd]. split; cbn [fst snd].
  - apply one_part; [apply re_bound| |exact Fa1|exact Fb1]. apply F2_map. eapply F2_impl; [|exact F]. intros x y (A & _). exact A.
  - apply one_part; [apply im_bound| |exact Fa2|exact Fb2]. apply F2_map. eapply F2_impl; [|exact F]. intros x y (_ & A). exact A.
Qed.
Lemma e2_range : 0 <= e2 <= 213 / 100.
Proof. pose proof E_range. pose proof N_range. pose proof (Nu_small N ltac:(lra)). pose proof u_pos. pose proof u_small. unfold e2, e1. nra. Qed.

(** the angles *)
Let hp := b64 (two_pi b64 / IZR n_phi).
Lemma angle_near i : (0 <= i <= n_phi)%Z -> Rabs (b64 (IZR i * hp)) <= 7 /\ Rabs (b64 (IZR i * hp) - IZR i * (2 * PI / IZR n_phi)) <= 32 * u.
Proof.
  intros Hi. pose proof P_range as RP. pose proof u_pos as U. pose proof u_small as US. pose proof PI_tight as PT. destruct two_pi_facts as (FT & T6 & _ & ET).
  unfold hp. fold P.
  assert (IP : 0 < / P <= / 36) by (split; [apply Rinv_0_lt_compat; lra|apply Rinv_le_contravar; lra]).
  assert (REL : forall x, bpow radix2 (-1022) <= x -> Rabs (b64 x - x) <= u * x).
  { intros x Hx. assert (X0 : 0 < x) by (pose proof (bpow_gt_0 radix2 (-1022)); lra).
    pose proof (relative_error_N_FLT radix2 (-1074) 53 eq_refl (fun z => negb (Z.even z)) x) as RE. rewrite (Rabs_pos_eq x) in RE by lra.
    specialize (RE Hx). fold ZnearestE in RE. change (round radix2 (FLT_exp (-1074) 53) ZnearestE x) with (b64 x) in RE.
    rewrite u_val. replace (bpow radix2 (-53)) with (/ 2 * bpow radix2 (- (53) + 1)); [exact RE|]. change (/ 2) with (bpow radix2 (-1)). rewrite <- bpow_plus. reflexivity. }
  assert (TINY : forall x, / 10000000 <= x -> bpow radix2 (-1022) <= x).
  { intros x Hx. apply Rle_trans with (bpow radix2 (-30)); [apply bpow_le; lia|]. apply Rle_trans with (/ 10000000); [simpl; lra|exact Hx]. }
  pose proof (REL PI (TINY PI ltac:(lra))) as E1.
  assert (T1 : Rabs (two_pi b64 - 2 * PI) <= u * (2 * PI)).
  { rewrite ET. replace (2 * b64 PI - 2 * PI) with (2 * (b64 PI - PI)) by ring. rewrite Rabs_mult, (Rabs_pos_eq 2) by lra. lra. }
  assert (INVP : / 16777216 <= / P) by (apply Rinv_le_contravar; lra).
  assert (Q0 : / 10000000 <= two_pi b64 / P) by (unfold Rdiv; nra).
  pose proof (REL _ (TINY _ Q0)) as E2. set (q := b64 (two_pi b64 / P)) in *.
  (* q * P near 2 pi *)
  assert (E3 : Rabs (q * P - 2 * PI) <= 21 / 10 * u * (2 * PI)).
  { assert (A : Rabs (q * P - two_pi b64) <= u * two_pi b64).
    { replace (q * P - two_pi b64) with ((q - two_pi b64 / P) * P) by (field; lra). rewrite Rabs_mult, (Rabs_pos_eq P) by lra.
      apply Rle_trans with (u * (two_pi b64 / P) * P); [apply Rmult_le_compat_r; lra|]. right. field. lra. }
    pose proof (abs_sum _ _ _ _ _ A T1) as S1. apply Rabs_le_inv in T1. pose proof (u_mul (u * (2 * PI)) ltac:(nra)). nra. }
  assert (I0 : 0 <= IZR i <= P) by (unfold P; split; [apply (IZR_le 0); lia|apply IZR_le; lia]).
  set (x := IZR i) in *. set (phi := x * (2 * PI / P)).
  assert (PH0 : 0 <= phi <= 2 * PI).
  { unfold phi. replace (x * (2 * PI / P)) with (x * / P * (2 * PI)) by (unfold Rdiv; ring).
    assert (0 <= x * / P <= 1). { split; [apply Rmult_le_pos; lra|]. apply (Rmult_le_reg_r P); [lra|]. rewrite Rmult_assoc, Rinv_l by lra. lra. } nra. }
  assert (E4 : Rabs (x * q - phi) <= 21 / 10 * u * (2 * PI)).
  { replace (x * q - phi) with (x * / P * (q * P - 2 * PI)) by (unfold phi; field; lra). rewrite Rabs_mult.
    assert (0 <= x * / P <= 1). { split; [apply Rmult_le_pos; lra|]. apply (Rmult_le_reg_r P); [lra|]. rewrite Rmult_assoc, Rinv_l by lra. lra. }
    rewrite (Rabs_pos_eq (x * / P)) by lra. pose proof (Rabs_pos (q * P - 2 * PI)). nra. }
  assert (M : Rabs phi <= 2 * PI) by (rewrite Rabs_pos_eq; lra).
  pose proof (b64_step _ _ _ _ M E4) as E5. assert (E6 : Rabs (b64 (x * q) - phi) <= 32 * u) by (pose proof (u_mul u ltac:(lra)); nra).
  split; [|exact E6]. apply Rabs_le_inv in E6. apply Rabs_le. lra.
Qed.

(** the result *)
Let fin : R := psf_on h nodes n_phi Phi r theta.
Lemma evens_range i : In i (range2 2 (n_phi - 2)) -> (0 <= i <= n_phi)%Z.
Proof. rewrite range_evens. unfold evens. intros H. apply filter_In in H. destruct H as (H & C). apply andb_prop in C. destruct C as (_ & C). apply Z.ltb_lt in C. apply zrange_In in H. lia. Qed.
Lemma odds_range i : In i (range2 1 (n_phi - 1)) -> (0 <= i <= n_phi)%Z.
Proof. rewrite range_odds. unfold odds. intros H. apply filter_In in H. destruct H as (H & C). apply andb_prop in C. destruct C as (_ & C). apply Z.ltb_lt in C. apply zrange_In in H. lia. Qed.
Lemma len_half a b : (1 <= a)%Z -> (b <= n_phi - 1)%Z -> (0 <= b - a + 1)%Z -> 0 <= INR (length (range2 a b)) <= P / 2.
Proof.
  intros Ha Hb H0. split; [apply pos_INR|]. rewrite range2_len, INR_IZR_INZ, Z2Nat.id by (apply Z.div_pos; lia).
  pose proof (Z_div_mod_eq_full (b - a + 1) 2) as Q. pose proof (Z.mod_pos_bound (b - a + 1) 2 ltac:(lia)) as R.
  assert (H : (2 * ((b - a + 1) / 2) <= n_phi)%Z) by lia. apply IZR_le in H. rewrite mult_IZR in H. unfold P. lra.
Qed.
Lemma total_mod re im : re = angular n_phi (fun phi => trapezoid h nodes (re_psi Phi r theta phi)) -> im = angular n_phi (fun phi => trapezoid h nodes (im_psi Phi r theta phi)) ->
  sqrt (re * re + im * im) <= 3475 / 1000 /\ fin = (re * re + im * im) / (PI * PI).
Proof.
  intros -> ->. split; [|reflexivity]. pose proof PI_tight as PT.
  assert (NW : nonneg_w h nodes n_phi).
  { split; [apply h_facts|]. split; [|lia]. apply Forall_forall. intros x Hx. apply (proj1 nodes_facts x Hx). }
  assert (PO : 0 <= fin <= (total h nodes n_phi / PI) * (total h nodes n_phi / PI)).
  { exact (psf_on_bound _ _ _ NW Phi r theta). }
  assert (T : 0 <= total h nodes n_phi <= 2 * PI * (551 / 1000)).
  { unfold total. rewrite (angular_ext n_phi (fun _ : R => trapezoid h nodes (fun p => p)) (fun x => trapezoid h nodes (fun p => p) * 1 + 0 * 1)) by (intros; ring).
    rewrite angular_lin. rewrite angular_weight by lia.
    pose proof weight as W. assert (W0 : 0 <= trapezoid h nodes (fun p => p)).
    { unfold trapezoid. destruct NW as (W1 & W2 & _). apply Rmult_le_pos; [exact W1|]. rewrite Forall_forall in W2. pose proof (rsum_nonneg nodes (fun p => p) W2). lra. }
    assert (Q : 0 <= IZR (if Z.even n_phi then n_phi - 2 else n_phi - 1) / IZR n_phi <= 1).
    { pose proof P_range as RP. unfold P in RP. assert (0 < / IZR n_phi) by (apply Rinv_0_lt_compat; lra).
      split; [apply Rmult_le_pos; [apply (IZR_le 0); destruct (Z.even n_phi); lia|lra]|]. apply (Rmult_le_reg_r (IZR n_phi)); [lra|].
      unfold Rdiv. rewrite Rmult_assoc, Rinv_l, Rmult_1_l, Rmult_1_r by lra. apply IZR_le. destruct (Z.even n_phi); lia. }
    set (w := trapezoid h nodes (fun p => p)) in *. set (q := IZR (if Z.even n_phi then n_phi - 2 else n_phi - 1) / IZR n_phi) in *.
    assert (0 <= w * (2 * PI * q)) by (apply Rmult_le_pos; [lra|apply Rmult_le_pos; lra]).
    assert (w * (2 * PI * q) <= 551 / 1000 * (2 * PI)) by (apply Rmult_le_compat; try lra; [apply Rmult_le_pos; lra|apply Rle_trans with (2 * PI * 1); [apply Rmult_le_compat_l; lra|lra]]). lra. }
  unfold fin, psf_on in PO. set (re := angular n_phi _) in *. set (im := angular n_phi _) in PO |- *. change (angular n_phi (fun phi : R => trapezoid h nodes (im_psi Phi r theta phi))) with im.
  assert (PI2 : 0 < PI * PI) by nra.
  assert (X : re * re + im * im <= total h nodes n_phi * total h nodes n_phi).
  { destruct PO as (_ & PO). apply (Rmult_le_compat_r (PI * PI)) in PO; [|lra].
    replace ((re * re + im * im) / (PI * PI) * (PI * PI)) with (re * re + im * im) in PO by (field; lra).
    replace (total h nodes n_phi / PI * (total h nodes n_phi / PI) * (PI * PI)) with (total h nodes n_phi * total h nodes n_phi) in PO by (field; lra). exact PO. }
  apply Rle_trans with (total h nodes n_phi); [|lra]. rewrite <- (sqrt_square (total h nodes n_phi)) by lra. apply sqrt_le_1_alt, X.
Qed.
Let gre (i : Z) : R := tr b64 n_r (re_psi Phi r theta (IZR i * (2 * PI / IZR n_phi))).
Let gim (i : Z) : R := tr b64 n_r (im_psi Phi r theta (IZR i * (2 * PI / IZR n_phi))).
Definition sum_near (l : list Z) (g : Z -> R) (v : R) : Prop :=
  Rabs (v - rsum l g) <= INR (length l) * e2 + 2 * (INR (length l) + 1) * u * ((INR (length l) + 1) * (56 / 100 + e2 + 1)).
Lemma f_okq i : (0 <= i <= n_phi)%Z -> okq (fradial_integral b64 fcos fsin npsum ph n_r r' theta' (b64 (IZR i * hp))) (fun t => cnear e2 t (gre i) (gim i)).
Proof. intros Hi. destruct (angle_near i Hi) as (A & C). apply radial_okq; assumption. Qed.
Lemma g_bound i : Rabs (gre i) <= 56 / 100 /\ Rabs (gim i) <= 56 / 100.
Proof.
  split; (eapply Rle_trans; [apply tr_bound|lra]); [apply re_bound|apply im_bound].
Qed.
Lemma rsum_g l g : (forall i : Z, Rabs (g i) <= 56 / 100) -> Rabs (rsum l g) <= INR (length l) * (56 / 100).
Proof.
  intros H. pose proof (suml_le_abs (map g l)) as S1. pose proof (suml_bound (map g l) (56 / 100) ltac:(lra)) as S2. rewrite map_length in S2.
  change (suml (map g l)) with (rsum l g) in S1. eapply Rle_trans; [exact S1|]. apply S2. intros x Hx. apply in_map_iff in Hx. destruct Hx as (y & <- & _). apply H.
Qed.
Definition bound : R := 26 * E + 300 * ((N + P) * u).
Lemma end_okq ev od : sum_near (range2 2 (n_phi - 2)) gre (fst ev) -> sum_near (range2 2 (n_phi - 2)) gim (snd ev) ->
  sum_near (range2 1 (n_phi - 1)) gre (fst od) -> sum_near (range2 1 (n_phi - 1)) gim (snd od) ->
  okq (fsimpson_end b64 fcos fsin npsum fhyp fsq ph n_r r' theta' hp ev od) (fun v => Rabs (v - fin) <= bound).
Proof.
  intros V1 V2 O1 O2. pose proof E_range as RE. pose proof N_range as RN. pose proof P_range as RP. pose proof e2_range as R2. pose proof u_pos as U. pose proof u_small as US.
  pose proof PI_tight as PT. destruct two_pi_facts as (_ & T6 & _ & ET).
  assert (Z7 : Rabs 0 <= 7) by (rewrite Rabs_R0; lra). assert (Z0 : Rabs (0 - 0) <= 32 * u) by (rewrite Rminus_0_r, Rabs_R0; lra).
  assert (W7 : Rabs (two_pi b64) <= 7) by (rewrite Rabs_pos_eq; lra).
  assert (W0 : Rabs (two_pi b64 - 2 * PI) <= 32 * u).
  { rewrite ET. replace (2 * b64 PI - 2 * PI) with (2 * (b64 PI - PI)) by ring. rewrite Rabs_mult, (Rabs_pos_eq 2) by lra. pose proof (b64_rel PI) as RR.
    rewrite (Rabs_pos_eq PI) in RR by lra. nra. }
  unfold fsimpson_end. eapply okq_bind; [apply (radial_okq 0 0 Z7 Z0)|]. intros yA (A1 & A2).
  eapply okq_bind; [apply (radial_okq (2 * PI) (two_pi b64) W7 W0)|]. intros yB (B1 & B2). apply okq_ret.
  set (re := angular n_phi (fun phi => trapezoid h nodes (re_psi Phi r theta phi))). set (im := angular n_phi (fun phi => trapezoid h nodes (im_psi Phi r theta phi))).
  destruct (total_mod re im eq_refl eq_refl) as (TM & TE). rewrite TE.
  assert (K1 := len_half 2 (n_phi - 2) ltac:(lia) ltac:(lia) ltac:(lia)). assert (K2 := len_half 1 (n_phi - 1) ltac:(lia) ltac:(lia) ltac:(lia)).
  assert (PART : forall (psi : R -> R -> R) a b ev' od', (forall phi p, 0 <= p -> - p <= psi phi p <= p) ->
    Rabs (a - tr b64 n_r (psi 0)) <= e2 -> Rabs (b - tr b64 n_r (psi (2 * PI))) <= e2 ->
    sum_near (range2 2 (n_phi - 2)) (fun i => tr b64 n_r (psi (IZR i * (2 * PI / IZR n_phi)))) ev' ->
    sum_near (range2 1 (n_phi - 1)) (fun i => tr b64 n_r (psi (IZR i * (2 * PI / IZR n_phi)))) od' ->
    Rabs (b64 (b64 (hp / 3) * b64 (b64 (b64 (a + b) + b64 (2 * ev')) + b64 (4 * od'))) - angular n_phi (fun phi => trapezoid h nodes (psi phi))) <= 642 / 100 * e2 + 50 * (P * u)).
  { intros psi a b ev' od' PS Ea Eb Ev Eo. unfold sum_near in Ev, Eo.
    assert (TRB : forall phi, Rabs (tr b64 n_r (psi phi)) <= 56 / 100) by (intros phi; eapply Rle_trans; [apply tr_bound, PS|lra]).
    pose proof (rsum_g (range2 2 (n_phi - 2)) (fun i => tr b64 n_r (psi (IZR i * (2 * PI / IZR n_phi)))) (fun i => TRB _)) as BE.
    pose proof (rsum_g (range2 1 (n_phi - 1)) (fun i => tr b64 n_r (psi (IZR i * (2 * PI / IZR n_phi)))) (fun i => TRB _)) as BO.
    pose proof (angular_num P _ _ a (tr b64 n_r (psi 0)) b (tr b64 n_r (psi (2 * PI))) ev' _ od' _ e2 RP K1 K2 ltac:(lra) (TRB _) (TRB _) Ea Eb BE BO Ev Eo) as AN.
    rewrite range_evens, range_odds in AN. exact AN. }
  pose proof (PART (re_psi Phi r theta) (fst yA) (fst yB) (fst ev) (fst od) re_bound A1 B1 V1 O1) as X1.
  pose proof (PART (im_psi Phi r theta) (snd yA) (snd yB) (snd ev) (snd od) im_bound A2 B2 V2 O2) as X2.
  unfold fcscale, fcadd. cbn [fst snd]. fold re in X1. fold im in X2.
  set (x' := b64 (b64 (hp / 3) * _)) in X1 |- *. set (y' := b64 (b64 (hp / 3) * _)) in X2 |- *.
  pose proof (Nu_small P ltac:(lra)) as PU. pose proof (Nu_small N ltac:(lra)) as NU.
  eapply Rle_trans; [apply (modulus_num (fhyp x' y') (fsq (fhyp x' y')) re im x' y' (642 / 100 * e2 + 50 * (P * u))); try assumption|].
  - nra.
  - apply HY; apply b64_F.
  - apply SQ.
  - unfold bound, e2, e1. assert (20 * u <= N * u) by (apply Rmult_le_compat_r; lra). assert (0 <= P * u) by (apply Rmult_le_pos; lra). destruct RE as (RE0 & _). replace ((N + P) * u) with (N * u + P * u) by ring. generalize E (N * u) (P * u) u RE0 H H0 U. clear. intros. lra.
Qed.
Lemma point_okq mt : okq (fpoint_by b64 fcos fsin npsum fhyp fsq mt ph n_r n_phi r' theta') (fun v => Rabs (v - fin) <= bound).
Proof.
  pose proof e2_range as R2. pose proof u_pos as U. pose proof P_range as RP. pose proof (Nu_small P ltac:(lra)) as PU.
  assert (K1 := len_half 2 (n_phi - 2) ltac:(lia) ltac:(lia) ltac:(lia)). assert (K2 := len_half 1 (n_phi - 1) ltac:(lia) ltac:(lia) ltac:(lia)).
  assert (LN : forall k, 0 <= k <= P / 2 -> (k + 1) * u <= 1 / 2) by (intros k Hk; pose proof u_small; apply Rle_trans with ((P / 2 + 1) * u); [apply Rmult_le_compat_r; lra|lra]).
  assert (FE : forall i, In i (range2 2 (n_phi - 2)) -> okq (fradial_integral b64 fcos fsin npsum ph n_r r' theta' (b64 (IZR i * hp))) (fun t => cnear e2 t (gre i) (gim i)))
    by (intros i Hi; apply f_okq, evens_range, Hi).
  assert (FO : forall i, In i (range2 1 (n_phi - 1)) -> okq (fradial_integral b64 fcos fsin npsum ph n_r r' theta' (b64 (IZR i * hp))) (fun t => cnear e2 t (gre i) (gim i)))
    by (intros i Hi; apply f_okq, odds_range, Hi).
  assert (SL : forall l ws v, INR (length l) <= P / 2 -> Forall2 (fun i t => cnear e2 t (gre i) (gim i)) l ws ->
     bracketing ([0] ++ map fst ws) (fst v) -> bracketing ([0] ++ map snd ws) (snd v) -> sum_near l gre (fst v) /\ sum_near l gim (snd v)).
  { intros l ws v HL F B1 B2. split.
    - apply (loop_sum l gre (map fst ws) (fst v) e2 (56 / 100)); try lra; [intros i _; apply g_bound| |exact B1|apply LN; split; [apply pos_INR|exact HL]].
      apply F2_map. eapply F2_impl; [|exact F]. intros i t (X & _). exact X.
    - apply (loop_sum l gim (map snd ws) (snd v) e2 (56 / 100)); try lra; [intros i _; apply g_bound| |exact B2|apply LN; split; [apply pos_INR|exact HL]].
      apply F2_map. eapply F2_impl; [|exact F]. intros i t (_ & X). exact X. }
  assert (SN : forall l ws, INR (length l) <= P / 2 -> Forall2 (fun i t => cnear e2 t (gre i) (gim i)) l ws -> sum_near l gre (npsum (map fst ws)) /\ sum_near l gim (npsum (map snd ws))).
  { intros l ws HL F. split.
    - apply (np_sum npsum l gre (map fst ws) e2 (56 / 100) NS); try lra; [intros i _; apply g_bound| |apply LN; split; [apply pos_INR|exact HL]].
      apply F2_map. eapply F2_impl; [|exact F]. intros i t (X & _). exact X.
    - apply (np_sum npsum l gim (map snd ws) e2 (56 / 100) NS); try lra; [intros i _; apply g_bound| |apply LN; split; [apply pos_INR|exact HL]].
      apply F2_map. eapply F2_impl; [|exact F]. intros i t (_ & X). exact X. }
  unfold fpoint_by. replace (n_phi =? 0)%Z with false by (symmetry; apply Z.eqb_neq; lia). fold hp.
  assert (VEC : okq (run evens <- mapM (fun i => fradial_integral b64 fcos fsin npsum ph n_r r' theta' (b64 (IZR i * hp))) (range2 2 (n_phi - 2));
     run odds <- mapM (fun i => fradial_integral b64 fcos fsin npsum ph n_r r' theta' (b64 (IZR i * hp))) (range2 1 (n_phi - 1));
     fsimpson_end b64 fcos fsin npsum fhyp fsq ph n_r r' theta' hp (fcsum npsum evens) (fcsum npsum odds)) (fun v => Rabs (v - fin) <= bound)).
  { eapply okq_bind; [apply mapM_okq, FE|]. intros evs F1. eapply okq_bind; [apply mapM_okq, FO|]. intros ods F2.
    destruct (SN _ _ (proj2 K1) F1) as (A1 & A2). destruct (SN _ _ (proj2 K2) F2) as (A3 & A4). apply end_okq; assumption. }
  destruct mt; try exact VEC.
  eapply okq_bind; [apply (facc_okq _ _ _ FE [0] [0]); constructor|]. intros ev (w1 & F1 & B1 & B2).
  eapply okq_bind; [apply (facc_okq _ _ _ FO [0] [0]); constructor|]. intros od (w2 & F2 & B3 & B4).
  destruct (SL _ _ _ (proj2 K1) F1 B1 B2) as (A1 & A2). destruct (SL _ _ _ (proj2 K2) F2 B3 B4) as (A3 & A4). apply end_okq; assumption.
Qed.
End Program.
