(** Error propagation through the two quadratures and the squared modulus: real arithmetic only. *)
From Coq Require Import Reals Lra Lia Psatz.
From Flocq Require Import Core.
From Verif Require Import Py M_Polar L_Polar L_Float SpecFloat L_FPsf2.
Local Open Scope R_scope.

Lemma u53 : u * 9007199254740992 = 1.
Proof. unfold u. replace (2 ^ 53) with 9007199254740992 by (rewrite (pow_IZR 2 53); reflexivity). field. Qed.
Lemma Nu_small N : 0 <= N <= 16777216 -> N * u <= 1 / 100000000.
Proof. intros H. pose proof u53. pose proof u_pos. nra. Qed.

(** h (S + (a + b)/2) with N points *)
Lemma radial_num N c h S' S a' a b' b e : 20 <= N <= 16777216 -> 0 <= c <= N -> 0 <= h -> h * N <= 1 + 4 * u -> 0 <= e <= 2 + 6 * u ->
  Rabs S <= c -> Rabs (S' - S) <= c * e + 2 * c * u * (c * (1 + e + 1)) -> Rabs a <= 1 -> Rabs b <= 1 -> Rabs (a' - a) <= e -> Rabs (b' - b) <= e ->
  Rabs (h * (S + (a + b) / 2)) <= 56 / 100 ->
  Rabs (b64 (h * b64 (S' + b64 (1 / 2 * b64 (a' + b')))) - h * (S + (a + b) / 2)) <= 106 / 100 * e + 10 * (N * u).
Proof.
  intros HN Hc Hh HhN He HS ES Ha Hb Ea Eb HI. pose proof u_pos as U. pose proof u_small as US.
  assert (NU := Nu_small N ltac:(lra)). assert (NU0 : 0 <= N * u) by nra.
  assert (A1 : Rabs (b64 (a' + b') - (a + b)) <= 2 * e + 7 * u).
  { assert (M : Rabs (a + b) <= 2) by (eapply Rle_trans; [apply Rabs_triang|]; lra).
    assert (D : Rabs (a' + b' - (a + b)) <= 2 * e). { replace (a' + b' - (a + b)) with ((a' - a) + (b' - b)) by ring. eapply Rle_trans; [apply Rabs_triang|]. lra. }
    eapply Rle_trans; [apply (b64_step _ _ _ _ M D)|]. nra. }
  assert (A2 : Rabs (b64 (1 / 2 * b64 (a' + b')) - (a + b) / 2) <= e + 8 * u).
  { assert (M : Rabs ((a + b) / 2) <= 1). { unfold Rdiv. rewrite Rabs_mult, (Rabs_pos_eq (/ 2)) by lra. pose proof (Rabs_triang a b). lra. }
    assert (D : Rabs (1 / 2 * b64 (a' + b') - (a + b) / 2) <= e + 7 / 2 * u).
    { replace (1 / 2 * b64 (a' + b') - (a + b) / 2) with (1 / 2 * (b64 (a' + b') - (a + b))) by field. rewrite Rabs_mult, (Rabs_pos_eq (1 / 2)) by lra. lra. }
    eapply Rle_trans; [apply (b64_step _ _ _ _ M D)|]. nra. }
  set (m := b64 (1 / 2 * b64 (a' + b'))) in *.
  assert (A3 : Rabs (b64 (S' + m) - (S + (a + b) / 2)) <= (N + 1) * e + 9 * (N * (N * u))).
  { assert (M : Rabs (S + (a + b) / 2) <= N + 1).
    { eapply Rle_trans; [apply Rabs_triang|]. apply Rplus_le_compat; [lra|]. unfold Rdiv. rewrite Rabs_mult, (Rabs_pos_eq (/ 2)) by lra. pose proof (Rabs_triang a b). lra. }
    assert (ES' : Rabs (S' - S) <= N * e + 83 / 10 * (N * (N * u))).
    { eapply Rle_trans; [exact ES|]. assert (c * e <= N * e) by nra.
      assert (c * (c * u) <= N * (N * u)) by (assert (c * u <= N * u) by nra; assert (0 <= c * u) by nra; nra).
      replace (2 * c * u * (c * (1 + e + 1))) with (2 * (2 + e) * (c * (c * u))) by ring. assert (0 <= c * (c * u)) by (apply Rmult_le_pos; nra). nra. }
    assert (D : Rabs (S' + m - (S + (a + b) / 2)) <= (N + 1) * e + 83 / 10 * (N * (N * u)) + 8 * u).
    { replace (S' + m - (S + (a + b) / 2)) with ((S' - S) + (m - (a + b) / 2)) by ring. eapply Rle_trans; [apply Rabs_triang|]. lra. }
    eapply Rle_trans; [apply (b64_step _ _ _ _ M D)|].
    assert (Q1 : u * ((N + 1) * e) <= 21 / 10 * (N * u) + 21 / 10 * u) by (assert (e <= 21 / 10) by lra; nra).
    assert (Q2 : u * (N * (N * u)) <= N * u). { replace (u * (N * (N * u))) with ((N * u) * (N * u)) by ring. nra. }
    assert (Q3 : 20 * (N * u) <= N * (N * u)) by (apply Rmult_le_compat_r; lra).
    assert (Q4 : 20 * u <= N * u) by (apply Rmult_le_compat_r; lra). assert (Q5 := u_mul u ltac:(lra)). lra. }
  set (w := b64 (S' + m)) in *. set (I := h * (S + (a + b) / 2)) in *.
  assert (D : Rabs (h * w - I) <= 1051 / 1000 * e + 904 / 100 * (N * u)).
  { unfold I. rewrite <- Rmult_minus_distr_l, Rabs_mult, (Rabs_pos_eq h) by lra.
    eapply Rle_trans; [apply Rmult_le_compat_l; [lra|exact A3]|].
    assert (h <= 501 / 10000) by nra.
    replace (h * ((N + 1) * e + 9 * (N * (N * u)))) with ((h * N + h) * e + 9 * ((h * N) * (N * u))) by ring.
    assert ((h * N + h) * e <= 1051 / 1000 * e) by (apply Rmult_le_compat_r; lra).
    assert ((h * N) * (N * u) <= (1 + 4 * u) * (N * u)) by (apply Rmult_le_compat_r; lra). pose proof (u_mul (N * u) NU0). lra. }
  eapply Rle_trans; [apply (b64_step _ _ _ _ HI D)|]. pose proof (u_mul e ltac:(lra)). pose proof (u_mul (N * u) NU0). assert (20 * u <= N * u) by nra. lra.
Qed.

Lemma PI_tight : 31415 / 10000 < PI < 31416 / 10000.
Proof.
  destruct (PI_2_3_7_ineq 2) as [A B]. change (S (2 * 2))%nat with 5%nat in A. change (2 * 2)%nat with 4%nat in B.
  unfold tg_alt, PI_2_3_7_tg, Ratan_seq in *. cbn [sum_f_R0 pow INR Nat.mul Nat.add] in A, B.
  split; field_simplify in A; field_simplify in B; lra.
Qed.
(** the steps of the angular rule *)
Lemma gamma_num P : 36 <= P <= 16777216 -> let g := b64 (b64 (two_pi b64 / P) / 3) in
  Rabs (g - 2 * PI / P / 3) <= u /\ 0 < 2 * PI / P / 3 /\ 2 * PI / P / 3 * P <= 2095 / 1000.
Proof.
  intros HP g. pose proof u_pos as U. pose proof u_small as US. pose proof PI_tight as PB. destruct two_pi_facts as (_ & _ & _ & ET).
  assert (IP : 0 < / P <= / 36) by (split; [apply Rinv_0_lt_compat; lra|apply Rinv_le_contravar; lra]).
  pose proof (b64_rel PI) as RP. rewrite (Rabs_pos_eq PI) in RP by lra.
  assert (T1 : Rabs (two_pi b64 - 2 * PI) <= 8 * u).
  { rewrite ET. replace (2 * b64 PI - 2 * PI) with (2 * (b64 PI - PI)) by ring. rewrite Rabs_mult, (Rabs_pos_eq 2) by lra. nra. }
  assert (M1 : Rabs (2 * PI / P) <= 18 / 100) by (unfold Rdiv; rewrite Rabs_pos_eq; nra).
  assert (T2 : Rabs (two_pi b64 / P - 2 * PI / P) <= 23 / 100 * u).
  { replace (two_pi b64 / P - 2 * PI / P) with ((two_pi b64 - 2 * PI) * / P) by (unfold Rdiv; ring). rewrite Rabs_mult, (Rabs_pos_eq (/ P)) by lra.
    pose proof (Rabs_pos (two_pi b64 - 2 * PI)). nra. }
  pose proof (b64_step _ _ _ _ M1 T2) as T3. set (q := b64 (two_pi b64 / P)) in *.
  assert (M4 : Rabs (2 * PI / P / 3) <= 6 / 100). { unfold Rdiv in *. rewrite Rabs_mult, (Rabs_pos_eq (/ 3)) by lra. lra. }
  assert (T4 : Rabs (q / 3 - 2 * PI / P / 3) <= 31 / 100 * u).
  { replace (q / 3 - 2 * PI / P / 3) with ((q - 2 * PI / P) / 3) by (field; lra). unfold Rdiv. rewrite Rabs_mult, (Rabs_pos_eq (/ 3)) by lra. pose proof (u_mul u ltac:(lra)). unfold Rdiv in T3. nra. }
  pose proof (b64_step _ _ _ _ M4 T4) as T5. split; [|split].
  - unfold g. eapply Rle_trans; [exact T5|]. pose proof (u_mul u ltac:(lra)). nra.
  - unfold Rdiv. nra.
  - replace (2 * PI / P / 3 * P) with (2 * PI / 3) by (field; lra). lra.
Qed.

Lemma angular_num P K K' A' A B' B Ev' Ev Od' Od e : 36 <= P <= 16777216 -> 0 <= K <= P / 2 -> 0 <= K' <= P / 2 -> 0 <= e <= 22 / 10 ->
  Rabs A <= 56 / 100 -> Rabs B <= 56 / 100 -> Rabs (A' - A) <= e -> Rabs (B' - B) <= e ->
  Rabs Ev <= K * (56 / 100) -> Rabs Od <= K' * (56 / 100) ->
  Rabs (Ev' - Ev) <= K * e + 2 * (K + 1) * u * ((K + 1) * (56 / 100 + e + 1)) ->
  Rabs (Od' - Od) <= K' * e + 2 * (K' + 1) * u * ((K' + 1) * (56 / 100 + e + 1)) ->
  Rabs (b64 (b64 (b64 (two_pi b64 / P) / 3) * b64 (b64 (b64 (A' + B') + b64 (2 * Ev')) + b64 (4 * Od'))) - 2 * PI / P / 3 * (A + B + 2 * Ev + 4 * Od))
    <= 642 / 100 * e + 50 * (P * u).
Proof.
  intros HP HK HK' He HA HB EA EB HEv HOd EEv EOd. pose proof u_pos as U. pose proof u_small as US. pose proof (Nu_small P ltac:(lra)) as PU.
  assert (PU0 : 0 <= P * u) by nra. assert (PP0 : 0 <= P * (P * u)) by (apply Rmult_le_pos; lra).
  assert (P36 : 36 * (P * u) <= P * (P * u)) by (apply Rmult_le_compat_r; lra). assert (P36' : 36 * u <= P * u) by (apply Rmult_le_compat_r; lra).
  assert (UPP : u * (P * (P * u)) <= 1 / 1000 * (P * u)). { replace (u * (P * (P * u))) with ((P * u) * (P * u)) by ring. apply Rmult_le_compat_r; lra. }
  assert (UU := u_mul u ltac:(lra)).
  assert (SUM : forall k E' E, 0 <= k <= P / 2 -> Rabs (E' - E) <= k * e + 2 * (k + 1) * u * ((k + 1) * (56 / 100 + e + 1)) -> Rabs (E' - E) <= k * e + 24 / 10 * (P * (P * u))).
  { intros k E' E Hk H. eapply Rle_trans; [exact H|]. apply Rplus_le_compat_l.
    assert (Q : (k + 1) * ((k + 1) * u) <= 3087 / 10000 * (P * (P * u))).
    { assert (k + 1 <= 5556 / 10000 * P) by lra. assert ((k + 1) * u <= 5556 / 10000 * P * u) by (apply Rmult_le_compat_r; lra).
      apply Rle_trans with ((5556 / 10000 * P) * (5556 / 10000 * P * u)); [apply Rmult_le_compat; try lra; apply Rmult_le_pos; lra|]. nra. }
    replace (2 * (k + 1) * u * ((k + 1) * (56 / 100 + e + 1))) with (2 * (156 / 100 + e) * ((k + 1) * ((k + 1) * u))) by field.
    assert (0 <= (k + 1) * ((k + 1) * u)) by (apply Rmult_le_pos; [lra|apply Rmult_le_pos; lra]). nra. }
  assert (EV := SUM K Ev' Ev HK EEv). assert (OD := SUM K' Od' Od HK' EOd). clear SUM EEv EOd.
  assert (Ke : 0 <= K * e <= 11 / 10 * P) by (split; [apply Rmult_le_pos; lra|nra]). assert (K'e : 0 <= K' * e <= 11 / 10 * P) by (split; [apply Rmult_le_pos; lra|nra]).
  assert (UKe : u * (K * e) <= 11 / 10 * (P * u)) by nra. assert (UK'e : u * (K' * e) <= 11 / 10 * (P * u)) by nra.
  assert (UK : u * K <= 1 / 2 * (P * u)) by nra. assert (UK' : u * K' <= 1 / 2 * (P * u)) by nra. assert (Ue : u * e <= 22 / 10 * u) by nra.
  (* yA + yB *)
  assert (X1 : Rabs (b64 (A' + B') - (A + B)) <= 2 * e + 7 * u).
  { assert (M : Rabs (A + B) <= 112 / 100) by (eapply Rle_trans; [apply Rabs_triang|]; lra).
    assert (D : Rabs (A' + B' - (A + B)) <= 2 * e). { replace (A' + B' - (A + B)) with ((A' - A) + (B' - B)) by ring. eapply Rle_trans; [apply Rabs_triang|]. lra. }
    eapply Rle_trans; [apply (b64_step _ _ _ _ M D)|]. lra. }
  assert (X2 : Rabs (b64 (2 * Ev') - 2 * Ev) <= 2 * (K * e) + 5 * (P * (P * u))).
  { assert (M : Rabs (2 * Ev) <= 112 / 100 * K) by (rewrite Rabs_mult, (Rabs_pos_eq 2) by lra; lra).
    assert (D : Rabs (2 * Ev' - 2 * Ev) <= 2 * (K * e) + 48 / 10 * (P * (P * u))).
    { rewrite <- Rmult_minus_distr_l, Rabs_mult, (Rabs_pos_eq 2) by lra. lra. }
    eapply Rle_trans; [apply (b64_step _ _ _ _ M D)|]. lra. }
  assert (X3 : Rabs (b64 (4 * Od') - 4 * Od) <= 4 * (K' * e) + 10 * (P * (P * u))).
  { assert (M : Rabs (4 * Od) <= 224 / 100 * K') by (rewrite Rabs_mult, (Rabs_pos_eq 4) by lra; lra).
    assert (D : Rabs (4 * Od' - 4 * Od) <= 4 * (K' * e) + 96 / 10 * (P * (P * u))).
    { rewrite <- Rmult_minus_distr_l, Rabs_mult, (Rabs_pos_eq 4) by lra. lra. }
    eapply Rle_trans; [apply (b64_step _ _ _ _ M D)|]. lra. }
  set (x1 := b64 (A' + B')) in *. set (x2 := b64 (2 * Ev')) in *. set (x3 := b64 (4 * Od')) in *.
  assert (X4 : Rabs (b64 (x1 + x2) - (A + B + 2 * Ev)) <= 2 * e + 2 * (K * e) + 53 / 10 * (P * (P * u))).
  { assert (M : Rabs (A + B + 2 * Ev) <= 112 / 100 + 112 / 100 * K).
    { eapply Rle_trans; [apply Rabs_triang|]. rewrite (Rabs_mult 2), (Rabs_pos_eq 2) by lra. pose proof (Rabs_triang A B). lra. }
    assert (D : Rabs (x1 + x2 - (A + B + 2 * Ev)) <= 2 * e + 7 * u + 2 * (K * e) + 5 * (P * (P * u))).
    { replace (x1 + x2 - (A + B + 2 * Ev)) with ((x1 - (A + B)) + (x2 - 2 * Ev)) by ring. eapply Rle_trans; [apply Rabs_triang|]. lra. }
    eapply Rle_trans; [apply (b64_step _ _ _ _ M D)|]. lra. }
  set (x4 := b64 (x1 + x2)) in *.
  assert (M5 : Rabs (A + B + 2 * Ev + 4 * Od) <= 56 / 100 * (2 + 3 * P)).
  { eapply Rle_trans; [apply Rabs_triang|]. pose proof (Rabs_triang (A + B) (2 * Ev)) as T1. pose proof (Rabs_triang A B) as T2.
    rewrite (Rabs_mult 2), (Rabs_pos_eq 2) in T1 by lra. rewrite (Rabs_mult 4), (Rabs_pos_eq 4) by lra. lra. }
  assert (KK : 2 * e + 2 * (K * e) + 4 * (K' * e) <= (2 + 3 * P) * e).
  { replace (2 * e + 2 * (K * e) + 4 * (K' * e)) with ((2 + 2 * K + 4 * K') * e) by ring. apply Rmult_le_compat_r; lra. }
  assert (X5 : Rabs (b64 (x4 + x3) - (A + B + 2 * Ev + 4 * Od)) <= (2 + 3 * P) * e + 16 * (P * (P * u))).
  { assert (D : Rabs (x4 + x3 - (A + B + 2 * Ev + 4 * Od)) <= 2 * e + 2 * (K * e) + 4 * (K' * e) + 153 / 10 * (P * (P * u))).
    { replace (x4 + x3 - (A + B + 2 * Ev + 4 * Od)) with ((x4 - (A + B + 2 * Ev)) + (x3 - 4 * Od)) by ring. eapply Rle_trans; [apply Rabs_triang|]. lra. }
    eapply Rle_trans; [apply (b64_step _ _ _ _ M5 D)|]. lra. }
  set (x5 := b64 (x4 + x3)) in *. set (W := A + B + 2 * Ev + 4 * Od) in *.
  destruct (gamma_num P HP) as (G1 & G2 & G3). set (g := b64 (b64 (two_pi b64 / P) / 3)) in *. set (ga := 2 * PI / P / 3) in *.
  assert (GA : ga <= 6 / 100).
  { assert (ga * 36 <= ga * P) by (apply Rmult_le_compat_l; lra). lra. }
  assert (GB : Rabs g <= ga + u) by (apply Rabs_le_inv in G1; apply Rabs_le; lra).
  assert (D : Rabs (g * x5 - ga * W) <= 641 / 100 * e + 44 * (P * u)).
  { replace (g * x5 - ga * W) with (g * (x5 - W) + (g - ga) * W) by ring. eapply Rle_trans; [apply Rabs_triang|]. rewrite !Rabs_mult.
    assert (Z1 : Rabs g * Rabs (x5 - W) <= (ga + u) * ((2 + 3 * P) * e + 16 * (P * (P * u)))) by (apply Rmult_le_compat; try apply Rabs_pos; assumption).
    assert (Z2 : Rabs (g - ga) * Rabs W <= u * (56 / 100 * (2 + 3 * P))) by (apply Rmult_le_compat; try apply Rabs_pos; assumption).
    assert (Z3 : ga * (2 + 3 * P) <= 6405 / 1000) by lra.
    assert (Z4 : ga * (2 + 3 * P) * e <= 6405 / 1000 * e) by (apply Rmult_le_compat_r; lra).
    assert (Z5 : ga * P * (P * u) <= 2095 / 1000 * (P * u)) by (apply Rmult_le_compat_r; lra).
    assert (Z6 : u * (P * e) <= 22 / 10 * (P * u)).
    { replace (u * (P * e)) with (e * (P * u)) by ring. apply Rmult_le_compat_r; lra. }
    replace ((ga + u) * ((2 + 3 * P) * e + 16 * (P * (P * u)))) with (ga * (2 + 3 * P) * e + 16 * (ga * P * (P * u)) + 2 * (u * e) + 3 * (u * (P * e)) + 16 * (u * (P * (P * u)))) in Z1 by ring.
    lra. }
  assert (M6 : Rabs (ga * W) <= 4).
  { rewrite Rabs_mult, (Rabs_pos_eq ga) by lra. apply Rle_trans with (ga * (56 / 100 * (2 + 3 * P))); [apply Rmult_le_compat_l; lra|]. lra. }
  eapply Rle_trans; [apply (b64_step _ _ _ _ M6 D)|]. pose proof (u_mul e ltac:(lra)). pose proof (u_mul (P * u) PU0). lra.
Qed.

(** the modulus, its square, and the division by pi^2 *)
Lemma hypot_lip x y x' y' d : Rabs (x' - x) <= d -> Rabs (y' - y) <= d ->
  Rabs (sqrt (x' * x' + y' * y') - sqrt (x * x + y * y)) <= 1415 / 1000 * d.
Proof.
  intros HX HY. assert (D0 : 0 <= d) by (eapply Rle_trans; [apply Rabs_pos|exact HX]).
  assert (TRI : forall a b c e, Rabs c <= d -> Rabs e <= d -> sqrt ((a + c) * (a + c) + (b + e) * (b + e)) <= sqrt (a * a + b * b) + 1415 / 1000 * d).
  { intros a b c e Hc He. set (s := sqrt (a * a + b * b)).
    assert (S0 : 0 <= s) by apply sqrt_pos. assert (SS : s * s = a * a + b * b) by (apply sqrt_sqrt; nra).
    rewrite <- (sqrt_square (s + 1415 / 1000 * d)) by lra. apply sqrt_le_1_alt.
    assert (C2 : c * c <= d * d). { rewrite <- (Rabs_pos_eq d D0) in Hc. apply Rsqr_le_abs_1 in Hc. exact Hc. }
    assert (E2 : e * e <= d * d). { rewrite <- (Rabs_pos_eq d D0) in He. apply Rsqr_le_abs_1 in He. exact He. }
    assert (CS : a * c + b * e <= s * (1415 / 1000 * d)).
    { apply Rsqr_incr_0_var; [|apply Rmult_le_pos; lra]. unfold Rsqr.
      apply Rle_trans with ((a * a + b * b) * (c * c + e * e)); [pose proof (Rle_0_sqr (a * e - b * c)) as Q; unfold Rsqr in Q; nra|].
      replace (s * (1415 / 1000 * d) * (s * (1415 / 1000 * d))) with ((s * s) * (1415 / 1000 * (1415 / 1000) * (d * d))) by ring. rewrite SS.
      apply Rmult_le_compat_l; [nra|]. assert (0 <= d * d) by nra. lra. }
    assert (0 <= d * d) by nra. nra. }
  apply Rabs_le. split.
  - pose proof (TRI x' y' (x - x') (y - y') ltac:(rewrite Rabs_minus_sym; exact HX) ltac:(rewrite Rabs_minus_sym; exact HY)) as T.
    replace (x' + (x - x')) with x in T by ring. replace (y' + (y - y')) with y in T by ring. lra.
  - pose proof (TRI x y (x' - x) (y' - y) HX HY) as T.
    replace (x + (x' - x)) with x' in T by ring. replace (y + (y' - y)) with y' in T by ring. lra.
Qed.
Lemma ulp_rel x : ulp64 x <= 2 * u * Rabs x + u.
Proof.
  pose proof u_pos as U. unfold ulp64, exp64. destruct (Rle_dec (bpow radix2 (-1074 + 53 - 1)) (Rabs x)) as [H|H].
  - pose proof (ulp_FLT_le radix2 (-1074) 53 x H) as L. change (1 - 53)%Z with (1 + -53)%Z in L. rewrite bpow_plus in L. change (bpow radix2 1) with 2 in L. rewrite <- u_val in L. lra.
  - rewrite ulp_FLT_small; [|reflexivity|]. 2:{ apply Rlt_le_trans with (bpow radix2 (-1074 + 53 - 1)); [lra|apply bpow_le; lia]. }
    assert (bpow radix2 (-1074) <= u) by (rewrite u_val; apply bpow_le; lia). assert (0 <= 2 * u * Rabs x) by (apply Rmult_le_pos; [lra|apply Rabs_pos]). lra.
Qed.
Lemma norm_num : Rabs (b64 (1 / b64 (b64 PI * b64 PI)) - 1 / (PI * PI)) <= 2 * u /\ 1013 / 10000 <= 1 / (PI * PI) <= 1014 / 10000.
Proof.
  pose proof u_pos as U. pose proof u_small as US. pose proof PI_tight as PT. pose proof (u_mul u ltac:(lra)) as UU.
  assert (P2 : 9869 / 1000 <= PI * PI <= 987 / 100) by nra.
  assert (I2 : 1013 / 10000 <= 1 / (PI * PI) <= 1014 / 10000).
  { unfold Rdiv. rewrite !Rmult_1_l. split.
    - apply Rle_trans with (/ (987 / 100)); [lra|]. apply Rinv_le_contravar; lra.
    - apply Rle_trans with (/ (9869 / 1000)); [apply Rinv_le_contravar; lra|lra]. }
  split; [|exact I2].
  pose proof (b64_rel PI) as RP. rewrite (Rabs_pos_eq PI) in RP by lra. set (p := b64 PI) in *.
  assert (EP : Rabs (p - PI) <= 37 / 10 * u) by nra. clear RP.
  assert (Pp : Rabs p <= 315 / 100) by (apply Rabs_le_inv in EP; apply Rabs_le; lra).
  assert (E2 : Rabs (p * p - PI * PI) <= 24 * u).
  { eapply Rle_trans; [apply (abs_prod PI p PI p (315 / 100) (315 / 100) _ _ EP EP); [rewrite Rabs_pos_eq; lra|exact Pp]|]. lra. }
  assert (M2 : Rabs (PI * PI) <= 987 / 100) by (rewrite Rabs_pos_eq; lra).
  pose proof (b64_step _ _ _ _ M2 E2) as E3. set (q := b64 (p * p)) in *.
  assert (E3' : Rabs (q - PI * PI) <= 35 * u) by lra. apply Rabs_le_inv in E3'.
  assert (Q : 9868 / 1000 <= q) by lra.
  assert (E4 : Rabs (1 / q - 1 / (PI * PI)) <= 36 / 100 * u).
  { replace (1 / q - 1 / (PI * PI)) with ((PI * PI - q) * (/ q * / (PI * PI))) by (field; split; lra).
    rewrite Rabs_mult. assert (IQ : 0 < / q <= 1014 / 10000).
    { split; [apply Rinv_0_lt_compat; lra|]. apply Rle_trans with (/ (9868 / 1000)); [apply Rinv_le_contravar; lra|lra]. }
    assert (IP : 0 < / (PI * PI) <= 1014 / 10000) by (unfold Rdiv in I2; rewrite Rmult_1_l in I2; lra).
    assert (PR : 0 <= / q * / (PI * PI) <= 1014 / 10000 * (1014 / 10000)) by (split; [apply Rmult_le_pos; lra|apply Rmult_le_compat; lra]).
    rewrite (Rabs_pos_eq (/ q * _)) by lra. assert (Rabs (PI * PI - q) <= 35 * u) by (apply Rabs_le; lra).
    apply Rle_trans with (35 * u * (1014 / 10000 * (1014 / 10000))); [apply Rmult_le_compat; try apply Rabs_pos; lra|lra]. }
  assert (M4 : Rabs (1 / (PI * PI)) <= 1014 / 10000) by (rewrite Rabs_pos_eq; lra).
  eapply Rle_trans; [apply (b64_step _ _ _ _ M4 E4)|]. lra.
Qed.
Lemma modulus_num fh fs x y x' y' d : 0 <= d <= 138 / 10 -> Rabs (x' - x) <= d -> Rabs (y' - y) <= d -> sqrt (x * x + y * y) <= 3475 / 1000 ->
  Rabs (fh - sqrt (x' * x' + y' * y')) <= ulp64 (sqrt (x' * x' + y' * y')) -> Rabs (fs - fh * fh) <= ulp64 (fh * fh) ->
  Rabs (b64 (fs * b64 (1 / b64 (b64 PI * b64 PI))) - (x * x + y * y) / (PI * PI)) <= 382 / 100 * d + 400 * u.
Proof.
  intros Hd HX HY HA HH HS. pose proof u_pos as U. pose proof u_small as US. pose proof (u_mul u ltac:(lra)) as UU.
  assert (XY : x * x + y * y = sqrt (x * x + y * y) * sqrt (x * x + y * y)) by (symmetry; apply sqrt_sqrt; nra).
  pose proof (hypot_lip _ _ _ _ _ HX HY) as HL. rewrite XY. set (A := sqrt (x * x + y * y)) in *. set (A' := sqrt (x' * x' + y' * y')) in *.
  assert (A0 : 0 <= A) by apply sqrt_pos. assert (A'0 : 0 <= A') by apply sqrt_pos. clear XY HX HY.
  assert (A'b : A' <= 2302 / 100) by (apply Rabs_le_inv in HL; lra).
  assert (H1 : Rabs (fh - A) <= 1415 / 1000 * d + 48 * u).
  { pose proof (ulp_rel A') as UL. rewrite (Rabs_pos_eq A' A'0) in UL. assert (u * A' <= 2302 / 100 * u) by nra. pose proof (abs_sum _ _ _ _ _ HH HL). lra. }
  set (e := 1415 / 1000 * d + 48 * u) in *. assert (EB : 0 <= e <= 1953 / 100) by (unfold e; lra).
  assert (FB : Rabs fh <= 2301 / 100). { apply Rabs_le_inv in H1. apply Rabs_le. lra. }
  assert (H2 : Rabs (fh * fh - A * A) <= 2649 / 100 * e).
  { replace (fh * fh - A * A) with ((fh - A) * (fh + A)) by ring. rewrite Rabs_mult.
    assert (Rabs (fh + A) <= 2649 / 100). { eapply Rle_trans; [apply Rabs_triang|]. rewrite (Rabs_pos_eq A A0). lra. }
    rewrite (Rmult_comm (2649 / 100)). apply Rmult_le_compat; try apply Rabs_pos; assumption. }
  assert (FF : Rabs (fh * fh) <= 530). { rewrite Rabs_mult. pose proof (Rabs_pos fh). nra. }
  assert (H3 : Rabs (fs - A * A) <= 2649 / 100 * e + 1062 * u).
  { pose proof (ulp_rel (fh * fh)) as UL. assert (u * Rabs (fh * fh) <= 530 * u) by nra. pose proof (abs_sum _ _ _ _ _ HS H2). lra. }
  destruct norm_num as (N1 & N2). set (c := b64 (1 / b64 (b64 PI * b64 PI))) in *. set (k := 1 / (PI * PI)) in *.
  assert (AA : Rabs (A * A) <= 1208 / 100) by (rewrite Rabs_pos_eq; nra).
  assert (CB : Rabs c <= 1015 / 10000) by (apply Rabs_le_inv in N1; apply Rabs_le; lra).
  assert (H4 := abs_prod (A * A) fs k c _ _ _ _ H3 N1 AA CB).
  replace (A * A / (PI * PI)) with (A * A * k) by (unfold k, Rdiv; ring).
  assert (MK : Rabs (A * A * k) <= 123 / 100). { rewrite Rabs_mult, (Rabs_pos_eq k) by lra. pose proof (Rabs_pos (A * A)). nra. }
  eapply Rle_trans; [apply (b64_step _ _ _ _ MK H4)|]. pose proof (u_mul e ltac:(lra)). unfold e in *. lra.
Qed.
