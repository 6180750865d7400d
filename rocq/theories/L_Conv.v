(** The quadrature of the PSF converges to the diffraction integral (C52). *)
From Coq Require Import Reals Lra Lia Psatz Arith List.
From Coquelicot Require Import Coquelicot.
From Verif Require Import Py SpecIndex SpecRadial RadialMath M_Sum SpecSum M_Polar L_Polar M_Psf SpecPsf L_Psf L_PsfKernel L_PsfNodes L_Bound L_Trig L_Ortho SpecDiff L_Slope.
Import ListNotations.
Local Open Scope R_scope.

Lemma Rabs_le_inv x y : Rabs x <= y -> - y <= x <= y.
Proof. apply Rcomplements.Rabs_le_between. Qed.

Definition lip (g : R -> R) (a b L : R) : Prop := forall x y, a <= x <= b -> a <= y <= b -> Rabs (g x - g y) <= L * Rabs (x - y).
Lemma lip_nonneg g a b L : a < b -> lip g a b L -> 0 <= L.
Proof.
  intros AB H. specialize (H b a ltac:(lra) ltac:(lra)). rewrite (Rabs_pos_eq (b - a)) in H by lra. pose proof (Rabs_pos (g b - g a)).
  destruct (Rle_dec 0 L) as [X|X]; [exact X|]. exfalso. nra.
Qed.

(** ** one cell *)
Lemma cell_err g a b c L D : a <= b -> ex_RInt g a b -> 0 <= L -> (forall x, a <= x <= b -> Rabs (g x - g c) <= L * Rabs (x - c)) ->
  (forall x, a <= x <= b -> Rabs (x - c) <= D) -> Rabs (RInt g a b - (b - a) * g c) <= (b - a) * (L * D).
Proof.
  intros AB EX L0 LI DI. assert (E : RInt g a b - (b - a) * g c = RInt (fun x => g x - g c) a b).
  { symmetry. transitivity (minus (RInt g a b) (RInt (fun _ => g c) a b)).
    - apply (RInt_minus g (fun _ => g c)); [exact EX|apply ex_RInt_const].
    - rewrite RInt_const. reflexivity. }
  rewrite E. apply abs_RInt_le_const; [exact AB| |].
  - apply (ex_RInt_minus (V := R_NormedModule)); [exact EX|apply ex_RInt_const].
  - intros x Hx. eapply Rle_trans; [apply LI, Hx|]. apply Rmult_le_compat_l; [exact L0|apply DI, Hx].
Qed.
Lemma cell_lip g a b c L D : a <= b -> ex_RInt g a b -> 0 <= L -> lip g a b L -> a <= c <= b -> (forall x, a <= x <= b -> Rabs (x - c) <= D) ->
  Rabs (RInt g a b - (b - a) * g c) <= (b - a) * (L * D).
Proof. intros AB EX L0 LI HC DI. apply cell_err; auto. Qed.
Lemma trap_cell g x h L : 0 <= h -> ex_RInt g x (x + h) -> 0 <= L -> lip g x (x + h) L ->
  Rabs (RInt g x (x + h) - h * ((g x + g (x + h)) / 2)) <= L * h * h.
Proof.
  intros H EX L0 LI.
  pose proof (cell_lip g x (x + h) x L h ltac:(lra) EX L0 LI ltac:(lra) ltac:(intros; rewrite Rabs_pos_eq; lra)) as A.
  pose proof (cell_lip g x (x + h) (x + h) L h ltac:(lra) EX L0 LI ltac:(lra) ltac:(intros; apply Rabs_le; lra)) as B.
  replace (x + h - x) with h in * by ring. apply Rabs_le_inv in A. apply Rabs_le_inv in B. apply Rabs_le. lra.
Qed.
Lemma simpson_cell g x h L : 0 <= h -> ex_RInt g x (x + 2 * h) -> 0 <= L -> lip g x (x + 2 * h) L ->
  Rabs (RInt g x (x + 2 * h) - h / 3 * (g x + 4 * g (x + h) + g (x + 2 * h))) <= 8 / 3 * (L * h * h).
Proof.
  intros H EX L0 LI.
  pose proof (cell_lip g x (x + 2 * h) x L (2 * h) ltac:(lra) EX L0 LI ltac:(lra) ltac:(intros; rewrite Rabs_pos_eq; lra)) as A.
  pose proof (cell_lip g x (x + 2 * h) (x + h) L h ltac:(lra) EX L0 LI ltac:(lra) ltac:(intros; apply Rabs_le; lra)) as C.
  pose proof (cell_lip g x (x + 2 * h) (x + 2 * h) L (2 * h) ltac:(lra) EX L0 LI ltac:(lra) ltac:(intros; apply Rabs_le; lra)) as B.
  replace (x + 2 * h - x) with (2 * h) in * by ring. apply Rabs_le_inv in A. apply Rabs_le_inv in B. apply Rabs_le_inv in C. apply Rabs_le. lra.
Qed.

(** ** many cells *)
Lemma zrange_end a k : zrange a (S k) = zrange a k ++ [(a + Z.of_nat k)%Z].
Proof.
  revert a. induction k as [|k IH]; intros a; [cbn; f_equal; lia|]. cbn [zrange]. cbn [zrange] in IH. rewrite IH. cbn [app]. do 2 f_equal. f_equal. lia.
Qed.
Lemma rsum_zrange_end a k f : rsum (zrange a (S k)) f = rsum (zrange a k) f + f (a + Z.of_nat k)%Z.
Proof. rewrite zrange_end, rsum_app, rsum_cons. cbn. ring. Qed.

Lemma lip_sub g a b a' b' L : a <= a' -> b' <= b -> lip g a b L -> lip g a' b' L.
Proof. intros A B H x y Hx Hy. apply H; lra. Qed.

Lemma trap_cells g h L B : cts g -> 0 <= h -> 0 <= L -> lip g 0 B L -> forall k, INR (S k) * h <= B ->
  Rabs (RInt g 0 (INR (S k) * h) - h * (rsum (zrange 1 k) (fun i => g (IZR i * h)) + (g 0 + g (INR (S k) * h)) / 2)) <= INR (S k) * (L * h * h).
Proof.
  intros C H L0 LI. induction k as [|k IH]; intros K.
  - change (INR 1) with 1 in *. rewrite !Rmult_1_l in *. cbn [zrange]. unfold rsum at 1; cbn [map fold_right].
    replace h with (0 + h) at 1 3 by ring. replace (h * (0 + (g 0 + g (0 + h)) / 2)) with (h * ((g 0 + g (0 + h)) / 2)) by ring.
    apply trap_cell; [exact H|apply cts_int, C|exact L0|]. apply (lip_sub g 0 B); [lra|lra|exact LI].
  - rewrite (S_INR (S k)) in *. pose proof (pos_INR (S k)) as P. assert (K' : INR (S k) * h <= B) by nra. specialize (IH K').
    set (a := INR (S k) * h) in *. replace ((INR (S k) + 1) * h) with (a + h) in * by (unfold a; ring).
    rewrite <- (RInt_Chasles g 0 a (a + h)) by (apply cts_int, C). change plus with Rplus.
    rewrite rsum_zrange_end. replace (IZR (1 + Z.of_nat k) * h) with a by (unfold a; rewrite S_INR, plus_IZR, <- INR_IZR_INZ; ring).
    assert (A0 : 0 <= a) by (unfold a; nra).
    pose proof (trap_cell g a h L H ltac:(apply cts_int, C) L0 ltac:(apply (lip_sub g 0 B); [lra|lra|exact LI])) as T.
    apply Rabs_le_inv in T. apply Rabs_le_inv in IH. apply Rabs_le. lra.
Qed.
Lemma simpson_cells g h L B : cts g -> 0 <= h -> 0 <= L -> lip g 0 B L -> forall k, 2 * INR (S k) * h <= B ->
  Rabs (RInt g 0 (2 * INR (S k) * h) - h / 3 * (g 0 + g (2 * INR (S k) * h) + 2 * rsum (zrange 0 k) (fun i => g (IZR (2 + 2 * i) * h)) + 4 * rsum (zrange 0 (S k)) (fun i => g (IZR (1 + 2 * i) * h))))
    <= INR (S k) * (8 / 3 * (L * h * h)).
Proof.
  intros C H L0 LI. induction k as [|k IH]; intros K.
  - change (INR 1) with 1 in *. rewrite !Rmult_1_r, ?Rmult_1_l in *. cbn [zrange]. unfold rsum; cbn [map fold_right]. change (IZR (1 + 2 * 0)) with 1. rewrite Rmult_1_l.
    pose proof (simpson_cell g 0 h L H ltac:(apply cts_int, C) L0 ltac:(apply (lip_sub g 0 B); [lra|lra|exact LI])) as T.
    rewrite !Rplus_0_l in T. apply Rabs_le_inv in T. apply Rabs_le. lra.
  - rewrite (S_INR (S k)) in *. pose proof (pos_INR (S k)) as P. assert (K' : 2 * INR (S k) * h <= B) by nra. specialize (IH K').
    set (a := 2 * INR (S k) * h) in *. replace (2 * (INR (S k) + 1) * h) with (a + 2 * h) in * by (unfold a; ring).
    rewrite <- (RInt_Chasles g 0 a (a + 2 * h)) by (apply cts_int, C). change plus with Rplus.
    rewrite (rsum_zrange_end 0 (S k)), (rsum_zrange_end 0 k (fun i => g (IZR (2 + 2 * i) * h))). rewrite !Z.add_0_l.
    replace (IZR (2 + 2 * Z.of_nat k) * h) with a by (unfold a; rewrite S_INR, plus_IZR, mult_IZR, <- INR_IZR_INZ; ring).
    replace (IZR (1 + 2 * Z.of_nat (S k)) * h) with (a + h) by (unfold a; rewrite plus_IZR, mult_IZR, <- INR_IZR_INZ; ring).
    assert (A0 : 0 <= a) by (unfold a; nra).
    pose proof (simpson_cell g a h L H ltac:(apply cts_int, C) L0 ltac:(apply (lip_sub g 0 B); [lra|lra|exact LI])) as T.
    apply Rabs_le_inv in T. apply Rabs_le_inv in IH. apply Rabs_le. lra.
Qed.

(** ** the two rules *)
Lemma trapezoid_err n g L : (1 <= n)%Z -> cts g -> lip g 0 1 L -> Rabs (trapezoid (1 / IZR n) (inner_nodes n) g - RInt g 0 1) <= L / IZR n.
Proof.
  intros N C LI. assert (P : 0 < IZR n) by (apply IZR_lt; lia). pose proof (lip_nonneg g 0 1 L ltac:(lra) LI) as L0.
  set (h := 1 / IZR n). assert (H : 0 < h) by (apply Rdiv_lt_0_compat; lra).
  assert (NK : INR (S (Z.to_nat (n - 1))) = IZR n) by (rewrite INR_IZR_INZ; f_equal; lia).
  assert (NH : IZR n * h = 1) by (unfold h; field; lra).
  pose proof (trap_cells g h L 1 C ltac:(lra) L0 LI (Z.to_nat (n - 1)) ltac:(rewrite NK; lra)) as T. rewrite NK, NH in T.
  unfold trapezoid, inner_nodes. rewrite rsum_map.
  rewrite (rsum_ext _ (fun i => g (IZR i / IZR n)) (fun i => g (IZR i * h))) by (intros; f_equal; unfold h; field; lra).
  replace (L / IZR n) with (IZR n * (L * h * h)) by (replace (IZR n * (L * h * h)) with (L * h * (IZR n * h)) by ring; rewrite NH; unfold h; field; lra).
  apply Rabs_le_inv in T. apply Rabs_le. lra.
Qed.
Lemma angular_err n g L M : (3 <= n)%Z -> cts g -> lip g 0 (2 * PI) L -> (forall x, 0 <= x <= 2 * PI -> Rabs (g x) <= M) ->
  Rabs (angular n g - RInt g 0 (2 * PI)) <= 2 * PI / IZR n * (9 * L + 8 / 3 * M).
Proof.
  intros N C LI BM. assert (P : 0 < IZR n) by (apply IZR_lt; lia). assert (PP := PI_RGT_0). assert (P4 := PI_4).
  pose proof (lip_nonneg g 0 (2 * PI) L ltac:(lra) LI) as L0. assert (M0 : 0 <= M) by (eapply Rle_trans; [apply Rabs_pos|apply (BM 0); lra]).
  set (h := 2 * PI / IZR n). assert (H : 0 < h) by (apply Rdiv_lt_0_compat; lra). assert (NH : IZR n * h = 2 * PI) by (unfold h; field; lra).
  set (K := ((n - 1) / 2)%Z). assert (K1 : (1 <= K /\ n - 2 <= 2 * K <= n - 1)%Z).
  { pose proof (Z.div_mod (n - 1) 2 ltac:(lia)). pose proof (Z.mod_pos_bound (n - 1) 2 ltac:(lia)). fold K in H0. lia. }
  destruct K1 as (K1 & K2 & K3). set (k := Z.to_nat (K - 1)). assert (NK : INR (S k) = IZR K) by (rewrite INR_IZR_INZ; f_equal; unfold k; lia).
  assert (KB : IZR n - 2 <= 2 * IZR K <= IZR n - 1) by (rewrite <- mult_IZR, <- !minus_IZR; split; apply IZR_le; lia).
  assert (EB : 2 * INR (S k) * h <= 2 * PI) by (rewrite NK; nra).
  pose proof (simpson_cells g h L (2 * PI) C ltac:(lra) L0 LI k EB) as T.
  unfold angular. fold h. rewrite <- range_evens, <- range_odds. unfold range2.
  replace (Z.to_nat ((n - 2 - 2 + 1) / 2)) with k.
  2:{ unfold k, K. replace (n - 2 - 2 + 1)%Z with (n - 1 + (-1) * 2)%Z by lia. rewrite Z.div_add by lia. f_equal. }
  replace (Z.to_nat ((n - 1 - 1 + 1) / 2)) with (S k).
  2:{ replace (n - 1 - 1 + 1)%Z with (n - 1)%Z by lia. fold K. unfold k. lia. }
  rewrite !rsum_map. set (e := 2 * INR (S k) * h) in *.
  assert (E0 : 0 <= e) by (unfold e; rewrite NK; assert (0 < IZR K) by (apply IZR_lt; lia); nra).
  assert (EH : 2 * PI - 2 * h <= e) by (unfold e; rewrite NK, <- NH; nra).
  rewrite <- (RInt_Chasles g 0 e (2 * PI)) by (apply cts_int, C). change plus with Rplus.
  assert (TAIL : Rabs (RInt g e (2 * PI)) <= (2 * PI - e) * M) by (apply abs_RInt_le_const; [lra|apply cts_int, C|intros; apply BM; lra]).
  pose proof (BM e ltac:(lra)) as Be. pose proof (BM (2 * PI) ltac:(lra)) as Bp.
  assert (T2 : Rabs (RInt g e (2 * PI)) <= 2 * h * M) by nra.
  assert (SUM : INR (S k) * (8 / 3 * (L * h * h)) <= 9 * L * h).
  { rewrite NK. assert (IZR K * h <= PI) by nra. assert (0 <= L * h) by nra.
    replace (IZR K * (8 / 3 * (L * h * h))) with (8 / 3 * (IZR K * h) * (L * h)) by ring.
    pose proof PI_bounds.
    nra. }
  apply Rabs_le_inv in T. apply Rabs_le_inv in T2. apply Rabs_le_inv in Be. apply Rabs_le_inv in Bp.
  set (se := rsum (zrange 0 k) _) in *. set (so := rsum (zrange 0 (S k)) _) in *.
  assert (GE : h / 3 * g e <= h / 3 * M /\ - (h / 3 * M) <= h / 3 * g e) by nra.
  assert (GP : h / 3 * g (2 * PI) <= h / 3 * M /\ - (h / 3 * M) <= h / 3 * g (2 * PI)) by nra.
  apply Rabs_le. lra.
Qed.

Lemma rsum_abs {A} (l : list A) f : Rabs (rsum l f) <= rsum l (fun x => Rabs (f x)).
Proof. induction l as [|x l IH]; [cbn; rewrite Rabs_R0; lra|]. rewrite !rsum_cons. eapply Rle_trans; [apply Rabs_triang|]. lra. Qed.
Lemma rsum_abs_le {A} (l : list A) f M : (forall x, In x l -> Rabs (f x) <= M) -> Rabs (rsum l f) <= INR (length l) * M.
Proof. intros H. eapply Rle_trans; [apply rsum_abs|]. rewrite <- rsum_const. apply rsum_le, H. Qed.
Lemma rsum_diff {A} (l : list A) f g M : (forall x, In x l -> Rabs (f x - g x) <= M) -> Rabs (rsum l f - rsum l g) <= INR (length l) * M.
Proof.
  intros H. replace (rsum l f - rsum l g) with (rsum l (fun x => f x + -1 * g x)) by (rewrite rsum_plus, rsum_scal; ring).
  apply rsum_abs_le. intros x Hx. replace (f x + -1 * g x) with (f x - g x) by ring. apply H, Hx.
Qed.
Lemma rsum_zrange_seq a k f : rsum (zrange a k) f = rsum (List.seq 0 k) (fun i => f (a + Z.of_nat i)%Z).
Proof.
  induction k as [|k IH]; [reflexivity|]. rewrite rsum_zrange_end, IH, seq_S, rsum_app, rsum_cons. cbn. ring.
Qed.
Definition T64 (n : Z) (g : R -> R) : R := trapezoid (b64 (1 / IZR n)) (r_nodes b64 (b64 (1 / IZR n))) g.
Lemma T64_near n g L : (2 <= n <= 2 ^ 50)%Z -> lip g 0 1 L -> (forall x, 0 <= x <= 1 -> Rabs (g x) <= 1) ->
  Rabs (T64 n g - trapezoid (1 / IZR n) (inner_nodes n) g) <= (3 / 2 + L / 2) / IZR n.
Proof.
  intros N2 LI B1. pose proof (lip_nonneg g 0 1 L ltac:(lra) LI) as L0. pose proof (nr_pos n N2) as NP. pose proof (h_rel n N2) as HR. pose proof (h_range n N2) as HH. pose proof (nodes64_eq n) as NE.
  set (h := b64 (1 / IZR n)) in *. set (nr := IZR n) in *. set (k := Z.to_nat (n - 1)).
  assert (KI : INR k = nr - 1) by (unfold k, nr; rewrite INR_IZR_INZ, Z2Nat.id, minus_IZR by lia; reflexivity).
  assert (E0 : 0 < eps) by (unfold eps; lra).
  assert (EN : eps * nr <= / 16) by (unfold eps; lra).
  unfold T64. fold nr h. unfold trapezoid at 1. rewrite NE. rewrite rsum_map.
  set (A := rsum (List.seq 0 k) (fun i => g (node64 n i))).
  assert (CC : exists X, rsum (List.seq 0 (Z.to_nat (count64 n))) (fun x => g (node64 n x)) = A + X /\ Rabs X <= 1).
  { destruct (count_cases n N2) as [C|[C _]].
    - exists 0. rewrite C. fold k. rewrite Rabs_R0. split; [unfold A; ring|lra].
    - exists (g (node64 n k)). assert (CK : Z.to_nat (count64 n) = S k) by (rewrite C; unfold k; lia). rewrite CK, seq_S, rsum_app, rsum_cons.
      split; [cbn; unfold A; ring|]. apply B1. apply (node_range n N2 k). rewrite CK. lia. }
  destruct CC as (X & -> & BX).
  unfold trapezoid, inner_nodes. rewrite rsum_map, rsum_zrange_seq. fold k. fold nr.
  set (A' := rsum (List.seq 0 k) _).
  assert (CK : (k <= Z.to_nat (count64 n))%nat) by (destruct (count_cases n N2) as [C|[C _]]; rewrite C; unfold k; lia).
  assert (DA : Rabs (A - A') <= INR k * (L * (6 * eps))).
  { unfold A, A'. rewrite <- (seq_length k 0) at 3. apply rsum_diff. intros i Hi. apply in_seq in Hi.
    destruct (node_range n N2 i ltac:(lia)) as (R1 & R2). fold nr h in R2.
    assert (IB : 0 <= INR i + 1 <= nr). { split; [pose proof (pos_INR i); lra|]. assert (INR i + 1 <= INR k); [|lra]. rewrite <- S_INR. apply le_INR. lia. }
    replace (IZR (1 + Z.of_nat i) / nr) with ((INR i + 1) / nr) by (rewrite plus_IZR, <- INR_IZR_INZ; f_equal; ring).
    assert (Q : 0 <= (INR i + 1) / nr <= 1).
    { split; [apply Rmult_le_pos; [lra|apply Rlt_le, Rinv_0_lt_compat; lra]|]. apply (Rmult_le_reg_r nr); [lra|]. unfold Rdiv. rewrite Rmult_assoc, Rinv_l by lra. lra. }
    eapply Rle_trans; [apply LI; [exact R1|exact Q]|]. apply Rmult_le_compat_l; [exact L0|].
    set (q := (INR i + 1) / nr) in *. assert (QE : INR i + 1 = q * nr) by (unfold q; field; lra).
    rewrite QE in R2. apply Rabs_le. assert (QH : q * nr * h - q <= 2 * eps /\ - (2 * eps) <= q * nr * h - q) by nra. lra. }
  assert (BA : Rabs A <= INR k * 1).
  { unfold A. rewrite <- (seq_length k 0) at 2. apply rsum_abs_le. intros i Hi. apply in_seq in Hi. apply B1. apply (node_range n N2 i). lia. }
  rewrite KI in DA, BA. pose proof (B1 0 ltac:(lra)) as G0. pose proof (B1 1 ltac:(lra)) as G1.
  apply (Rmult_le_reg_r nr); [lra|]. replace ((3 / 2 + L / 2) / nr * nr) with (3 / 2 + L / 2) by (field; lra).
  match goal with |- Rabs ?Y * nr <= _ => replace (Rabs Y * nr) with (Rabs (Y * nr)) by (rewrite Rabs_mult, (Rabs_pos_eq nr); [reflexivity|lra]) end.
  set (G := (g 0 + g 1) / 2) in *. assert (BG : Rabs G <= 1) by (unfold G; apply Rabs_le_inv in G0; apply Rabs_le_inv in G1; apply Rabs_le; lra).
  replace ((h * (A + X + G) - 1 / nr * (A' + G)) * nr) with ((nr * h - 1) * (A + X + G) + (X + (A - A'))) by (field; lra).
  assert (B3 : Rabs (A + X + G) <= nr + 1). { apply Rabs_le_inv in BA. apply Rabs_le_inv in BX. apply Rabs_le_inv in BG. apply Rabs_le. lra. }
  assert (B4 : Rabs (nr * h - 1) <= 2 * eps) by (apply Rabs_le; lra).
  assert (B5 : Rabs ((nr * h - 1) * (A + X + G)) <= 2 * eps * (nr + 1)).
  { rewrite Rabs_mult. apply Rmult_le_compat; [apply Rabs_pos|apply Rabs_pos|exact B4|exact B3]. }
  assert (B6 : 2 * eps * (nr + 1) <= / 2) by nra.
  assert (B7 : (nr - 1) * (L * (6 * eps)) <= L / 2). { replace ((nr - 1) * (L * (6 * eps))) with (L * (6 * (eps * nr) - 6 * eps)) by ring. nra. }
  apply Rabs_le_inv in B5. apply Rabs_le_inv in BX. apply Rabs_le_inv in DA. apply Rabs_le. lra.
Qed.
