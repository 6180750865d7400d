(** radial() and polynomial_value() in binary64: final error bounds (helper lemmas for C57). *)
From Coq Require Import Reals Lra Lia Arith Psatz.
From Flocq Require Import Core.
From Verif Require Import Py SpecIndex SpecRadial RadialMath M_Radial M_Coeffs SpecCoeffs L_Dict L_Coeffs L_Cache L_Radial L_Bound L_Value L_CoeffVal
  L_Polar L_Slope SpecFloat M_Float L_Float L_Float2 L_Float3.
Local Open Scope R_scope.

Lemma fzp_radial_near s pw fuel m n (e : bool) r : reachable s -> power_within_ulp pw -> F64 r -> 0 <= r <= 1 -> valid m n ->
  (n + 1 < Z.of_nat fuel)%Z -> (e = true -> n <= 40)%Z ->
  exists v, snd (fzp_radial b64 pw fuel m n e r s) = Ok v /\ near r m n v.
Proof.
  intros RS P Fr Hr V HF HE. pose proof V as (Hn & _). unfold fzp_radial. destruct e.
  - unfold MAX_RADIAL_ORDER_COEFFS. replace (40 <? n)%Z with false by (specialize (HE eq_refl); lia).
    cbn. apply (eq_near pw P r Fr Hr m n V). auto.
  - destruct (n <=? 12)%Z.
    + cbn. apply (fradial_ok pw P r Fr Hr); [exact V|lia].
    + pose proof (keeps_at _ _ s RS (frpc_ok pw P r Fr Hr fuel m n V)) as [H|[_ H]]; [exact H|lia].
Qed.

Lemma sqrt_diff x x' : 0 < x -> 0 <= x' -> Rabs (sqrt x' - sqrt x) <= Rabs (x' - x) / sqrt x.
Proof.
  intros H H'. pose proof (sqrt_lt_R0 x H) as S. pose proof (sqrt_pos x') as S'.
  assert (E : x' - x = (sqrt x' - sqrt x) * (sqrt x' + sqrt x)).
  { pose proof (sqrt_sqrt x ltac:(lra)). pose proof (sqrt_sqrt x' H'). nra. }
  rewrite E, Rabs_mult, (Rabs_pos_eq (sqrt x' + sqrt x)) by lra.
  pose proof (Rabs_pos (sqrt x' - sqrt x)) as A.
  apply Rmult_le_reg_r with (sqrt x); [exact S|]. field_simplify; [|lra]. nra.
Qed.
Lemma norm_pos_int m n : (0 <= n)%Z -> exists k, (1 <= k)%Z /\ normalization_factor m n = sqrt (IZR k) /\ fnormalization_factor b64 m n = b64 (sqrt (b64 (IZR k))).
Proof. intros H. unfold normalization_factor, fnormalization_factor. destruct (m =? 0)%Z; eexists; (split; [|split; reflexivity]); lia. Qed.
Lemma fnorm_err m n : (0 <= n)%Z -> 1 <= normalization_factor m n /\ Rabs (fnormalization_factor b64 m n - normalization_factor m n) <= 4 * u * normalization_factor m n.
Proof.
  intros H. destruct (norm_pos_int m n H) as (k & K & -> & ->). pose proof u_pos as U. pose proof u_small as US.
  assert (K1 : 1 <= IZR k) by (apply IZR_le; exact K).
  assert (N1 : 1 <= sqrt (IZR k)) by (rewrite <- sqrt_1 at 1; apply sqrt_le_1; lra).
  split; [exact N1|]. pose proof (b64_rel (IZR k)) as B. rewrite (Rabs_pos_eq (IZR k)) in B by lra.
  assert (P : 0 <= b64 (IZR k)). { rewrite <- b64_0. apply b64_mono. lra. }
  pose proof (sqrt_diff (IZR k) (b64 (IZR k)) ltac:(lra) P) as D.
  set (N := sqrt (IZR k)) in *. assert (NN : N * N = IZR k) by (apply sqrt_sqrt; lra).
  assert (D2 : Rabs (sqrt (b64 (IZR k)) - N) <= 3 / 2 * u * N).
  { eapply Rle_trans; [exact D|]. apply Rmult_le_reg_r with N; [lra|]. unfold Rdiv at 1. rewrite Rmult_assoc, Rinv_l, Rmult_1_r by lra. rewrite <- NN in *. nra. }
  pose proof (b64_step N _ N _ (Req_le _ _ (Rabs_pos_eq N ltac:(lra))) D2) as S.
  assert (UN : 0 <= u * (N - 1)) by (apply Rmult_le_pos; lra).
  assert (UUN : u * N * u <= u * N * (1 / 1000000000000)) by (apply Rmult_le_compat_l; [nra|lra]). lra.
Qed.

Lemma ftri_err fcos fsin m th : trig_within_ulp fcos fsin ->
  Rabs (triangular_function m th) <= 1 /\ Rabs (ftriangular_function b64 fcos fsin m th - triangular_function m th) <= u * Rabs (IZR m * th) + 3 * u
  /\ Rabs (ftriangular_function b64 fcos fsin m th) <= 1 + 2 * u.
Proof.
  intros T. pose proof u_pos as U. set (x := IZR m * th). pose proof (b64_rel x) as B.
  destruct (T (b64 x) (b64_F x)) as [C S].
  assert (C1 : Rabs (cos (b64 x)) <= 1) by (apply Rabs_le, COS_bound). assert (S1 : Rabs (sin (b64 x)) <= 1) by (apply Rabs_le, SIN_bound).
  pose proof (ulp1 _ C1) as UC. pose proof (ulp1 _ S1) as US.
  unfold triangular_function, ftriangular_function. fold x. destruct (0 <=? m)%Z.
  - split; [apply Rabs_le, COS_bound|]. pose proof (cos_lip (b64 x) x) as L. split.
    + replace (fcos (b64 x) - cos x) with ((fcos (b64 x) - cos (b64 x)) + (cos (b64 x) - cos x)) by ring.
      eapply Rle_trans; [apply Rabs_triang|]. lra.
    + replace (fcos (b64 x)) with (cos (b64 x) + (fcos (b64 x) - cos (b64 x))) by ring. eapply Rle_trans; [apply Rabs_triang|]. lra.
  - split; [rewrite Rabs_Ropp; apply Rabs_le, SIN_bound|]. pose proof (sin_lip (b64 x) x) as L. split.
    + replace (- fsin (b64 x) - - sin x) with (- (fsin (b64 x) - sin (b64 x)) + - (sin (b64 x) - sin x)) by ring.
      eapply Rle_trans; [apply Rabs_triang|]. rewrite !Rabs_Ropp. lra.
    + replace (- fsin (b64 x)) with (- sin (b64 x) + - (fsin (b64 x) - sin (b64 x))) by ring. eapply Rle_trans; [apply Rabs_triang|]. rewrite !Rabs_Ropp. lra.
Qed.

(** the product of the three parts *)
Lemma value_err N N' T T' Q Q' e d : 1 <= N -> Rabs (N' - N) <= 4 * u * N -> Rabs T <= 1 -> Rabs (T' - T) <= d -> Rabs T' <= 1 + 2 * u ->
  Rabs Q <= 1 -> Rabs (Q' - Q) <= e -> 8 * u <= e ->
  Rabs (b64 (b64 (N' * T') * Q') - N * T * Q) <= N * (3 * e + 2 * d).
Proof.
  intros HN EN HT ET HT' HQ EQ He. pose proof u_pos as U. pose proof u_small as US.
  pose proof (Rabs_pos (T' - T)) as D0. assert (Hd : 0 <= d) by lra.
  assert (A1 : Rabs (N' * T' - N * T) <= N * (d + 41 / 10 * u)).
  { replace (N' * T' - N * T) with ((N' - N) * T' + N * (T' - T)) by ring. eapply Rle_trans; [apply Rabs_triang|].
    rewrite !Rabs_mult, (Rabs_pos_eq N) by lra.
    assert (X1 : Rabs (N' - N) * Rabs T' <= 4 * u * N * (1 + 2 * u)) by (apply Rmult_le_compat; try apply Rabs_pos; assumption).
    assert (X2 : N * Rabs (T' - T) <= N * d) by (apply Rmult_le_compat_l; lra).
    assert (X3 : N * u * u <= N * u * (1 / 1000000000000)) by (apply Rmult_le_compat_l; [nra|lra]).
    assert (0 <= N * u) by nra. lra. }
  assert (M1 : Rabs (N * T) <= N) by (rewrite Rabs_mult, (Rabs_pos_eq N) by lra; nra).
  pose proof (b64_step _ _ _ _ M1 A1) as A2.
  assert (NU : 0 <= u * (N - 1)) by (apply Rmult_le_pos; lra).
  assert (ND : 0 <= N * d) by nra.
  assert (NUU : N * u * u <= N * u * (1 / 1000000000000)) by (apply Rmult_le_compat_l; [nra|lra]).
  assert (NDU : N * d * u <= N * d * (1 / 1000000000000)) by (apply Rmult_le_compat_l; lra).
  assert (A3 : Rabs (b64 (N' * T') - N * T) <= N * (101 / 100 * d + 6 * u)) by lra.
  (* bound of the rounded product, independent of d *)
  assert (B1 : Rabs (b64 (N' * T')) <= 101 / 100 * N).
  { pose proof (b64_rel (N' * T')) as B.
    assert (NN : Rabs N' <= N * (1 + 4 * u)). { replace N' with (N + (N' - N)) by ring. eapply Rle_trans; [apply Rabs_triang|]. rewrite (Rabs_pos_eq N) by lra. lra. }
    assert (P : Rabs (N' * T') <= N * (1 + 4 * u) * (1 + 2 * u)) by (rewrite Rabs_mult; apply Rmult_le_compat; try apply Rabs_pos; assumption).
    replace (b64 (N' * T')) with (N' * T' + (b64 (N' * T') - N' * T')) by ring. eapply Rle_trans; [apply Rabs_triang|].
    assert (P2 : Rabs (N' * T') <= 1001 / 1000 * N).
    { eapply Rle_trans; [exact P|]. assert (0 <= N * u) by nra. assert (N * u <= N * (1 / 1000000000000)) by (apply Rmult_le_compat_l; lra). nra. }
    assert (u * Rabs (N' * T') <= 1 / 1000000000000 * (1001 / 1000 * N)) by (apply Rmult_le_compat; try lra; apply Rabs_pos). lra. }
  set (W := b64 (N' * T')) in *.
  assert (NE : 0 <= N * e) by nra. assert (NEU : N * (8 * u) <= N * e) by (apply Rmult_le_compat_l; lra).
  assert (C1 : Rabs (W * Q' - N * T * Q) <= N * (101 / 100 * d + 6 * u + 101 / 100 * e)).
  { replace (W * Q' - N * T * Q) with ((W - N * T) * Q + W * (Q' - Q)) by ring. eapply Rle_trans; [apply Rabs_triang|]. rewrite (Rabs_mult (W - N * T)), (Rabs_mult W).
    assert (X1 : Rabs (W - N * T) * Rabs Q <= N * (101 / 100 * d + 6 * u) * 1) by (apply Rmult_le_compat; try apply Rabs_pos; assumption).
    assert (X2 : Rabs W * Rabs (Q' - Q) <= 101 / 100 * N * e) by (apply Rmult_le_compat; try apply Rabs_pos; assumption). lra. }
  assert (M2 : Rabs (N * T * Q) <= N). { rewrite Rabs_mult. pose proof (Rabs_pos (N * T)). pose proof (Rabs_pos Q). nra. }
  pose proof (b64_step _ _ _ _ M2 C1) as C2.
  assert (NEE : N * e * u <= N * e * (1 / 1000000000000)) by (apply Rmult_le_compat_l; lra).
  eapply Rle_trans; [exact C2|]. lra.
Qed.

Lemma fzp_value_near s pw fcos fsin fuel m n (e : bool) r th : reachable s -> power_within_ulp pw -> trig_within_ulp fcos fsin -> F64 r -> 0 <= r <= 1 -> valid m n ->
  (n + 1 < Z.of_nat fuel)%Z -> (e = true -> n <= 40)%Z ->
  exists v, snd (fzp_polynomial_value b64 pw fcos fsin fuel m n e r th s) = Ok v /\
    Rabs (v - normalization_factor m n * triangular_function m th * Fmn m n r) <= normalization_factor m n * (4 * E_ n + Rabs (IZR m * th) * / 2 ^ 52).
Proof.
  intros RS P T Fr Hr V HF HE. pose proof u_pos as U.
  destruct (fzp_radial_near s pw fuel m n e r RS P Fr Hr V HF HE) as (v & Ev & NV).
  unfold fzp_polynomial_value.
  replace (e && (MAX_RADIAL_ORDER_COEFFS <? n)%Z)%bool with false.
  2:{ destruct e; [|reflexivity]. specialize (HE eq_refl). unfold MAX_RADIAL_ORDER_COEFFS. cbn [andb]. symmetry. apply Z.ltb_ge. exact HE. }
  unfold mbind. destruct (fzp_radial b64 pw fuel m n e r s) as [s' x]. cbn [snd] in Ev. subst x. cbn [snd mret].
  eexists. split; [reflexivity|].
  destruct (fnorm_err m n ltac:(destruct V; lia)) as [N1 EN]. destruct (ftri_err fcos fsin m th T) as (T1 & ET & T2).
  eapply Rle_trans; [apply (value_err _ _ _ _ _ _ _ _ N1 EN T1 ET T2 (Fmn_le1 r Hr m n V) NV (E_pos n))|].
  pose proof (E_pos n) as EP. replace (/ 2 ^ 52) with (2 * u) by (unfold u; replace (2 ^ 53) with (2 * 2 ^ 52) by ring; rewrite Rinv_mult; field).
  apply Rmult_le_compat_l; [lra|]. lra.
Qed.

Lemma E_mono a b : (0 <= a <= b)%Z -> E_ a <= E_ b.
Proof. intros H. rewrite !E_u. pose proof u_pos. apply Rmult_le_compat_l; [lra|]. apply Rle_pow; [lra|lia]. Qed.
Lemma E_num n : (0 <= n)%Z -> ((n <= 10)%Z -> E_ n <= 1 / 10 ^ 11) /\ ((n <= 20)%Z -> E_ n <= 1 / 10 ^ 7) /\ ((n <= 30)%Z -> E_ n <= 3 / 10 ^ 4).
Proof.
  intros H. repeat split; intros L.
  - eapply Rle_trans; [apply (E_mono n 10); lia|]. unfold radial_error. change (Z.to_nat 10) with 10%nat. cbn [pow]. lra.
  - eapply Rle_trans; [apply (E_mono n 20); lia|]. unfold radial_error. change (Z.to_nat 20) with 20%nat. cbn [pow]. lra.
  - eapply Rle_trans; [apply (E_mono n 30); lia|]. unfold radial_error. change (Z.to_nat 30) with 30%nat. cbn [pow]. lra.
Qed.
