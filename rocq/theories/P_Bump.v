(** Property theorems C47. *)
From Coq Require Import Reals Lra Psatz.
From Flocq Require Import Core.
From Verif Require Import Py M_Radial M_Coeffs M_Sum M_Psf SpecPsf L_Psf L_PsfKernel M_Numba M_Img SpecImg L_Img L_Bump.
Local Open Scope R_scope.

(** Radius r (at least 1; smaller ones count as 1), max_intensity m up to 65535: the image is a square of odd size 4 round(r) + 1 >= 5; pixels are integers between 0 and m;
    the middle is m; the image is symmetric under both mirrorings and transposition; values do not increase with the distance from the middle; full intensity up to the
    distance r / 4, zero from 5 / 4 r on (up to the rounding of distances to 6 digits), and zero along the border. *)
Theorem C47_image : forall radius m, (m <= 65535)%Z -> exists r n c p img, r = Rmax 1 radius /\ (n = 4 * ZnearestE r + 1)%Z /\ (5 <= n)%Z /\ (n = 2 * c + 1)%Z /\
  get_bumped_circle radius m = Ok img /\ is_array img n n p /\ (forall i j, (0 <= p i j <= Z.max 0 m)%Z) /\ p c c = Z.max 0 m /\
  (forall i j, p (n - 1 - i)%Z j = p i j /\ p i (n - 1 - j)%Z = p i j /\ p j i = p i j) /\
  (forall i j i' j', ((i - c) ^ 2 + (j - c) ^ 2 <= (i' - c) ^ 2 + (j' - c) ^ 2)%Z -> (p i' j' <= p i j)%Z) /\
  (forall i j, sqrt (IZR ((i - c) ^ 2 + (j - c) ^ 2)) + / 1000000 < r / 4 -> p i j = Z.max 0 m) /\
  (forall i j, 5 / 4 * r + / 1000000 <= sqrt (IZR ((i - c) ^ 2 + (j - c) ^ 2)) -> p i j = 0%Z) /\
  (forall i, p i 0%Z = 0%Z /\ p 0%Z i = 0%Z /\ p i (n - 1)%Z = 0%Z /\ p (n - 1)%Z i = 0%Z).
Proof.
  intros radius m M. assert (OK := circle_ok radius m M). cbv zeta in OK. assert (ER : (if Rltb radius 1 then 1 else radius) = Rmax 1 radius).
  { unfold Rltb. destruct (Rlt_dec radius 1); [rewrite Rmax_left; lra|rewrite Rmax_right; lra]. }
  rewrite ER in OK. set (r := Rmax 1 radius) in *. assert (R1 : 1 <= r) by apply Rmax_l. destruct (size_bounds r R1) as [S1 S2]. set (n := bump_size r) in *.
  assert (NN : (n = 4 * ZnearestE r + 1)%Z) by reflexivity. assert (NC : (n / 2 = 2 * ZnearestE r)%Z) by apply size_half. set (c := (n / 2)%Z) in *.
  assert (D : forall i j, ((i - c) ^ 2 + (j - c) ^ 2 = dist2 c i j)%Z) by (intros i j; unfold dist2; ring).
  exists r, n, c, (bump_pixel r m n). eexists. split; [reflexivity|]. split; [exact NN|]. split; [lia|]. split; [lia|]. split; [exact OK|]. split; [apply table2_array; lia|].
  assert (Q := round6_err (25 / 100 * r)). apply Rabs_le_inv in Q.
  assert (FULL : forall i j, dist6 c i j < round6 (25 / 100 * r) -> bump_pixel r m n i j = Z.max 0 m).
  { intros i j L. destruct (Z_le_gt_dec m 0); [rewrite pixel_neg by assumption; lia|]. rewrite pixel_full; [lia|exact R1|lia|exact L]. }
  assert (ZERO : forall i j, (IZR (2 * ZnearestE r) <= sqrt (IZR (dist2 c i j))) -> bump_pixel r m n i j = 0%Z).
  { intros i j L. apply pixel_zero; [exact R1|]. fold c. unfold dist6. apply Rle_trans with (round6 (IZR (2 * ZnearestE r))); [rewrite round6_IZR, mult_IZR; lra|apply round6_mono, L]. }
  assert (FAR : forall i j, ((2 * ZnearestE r) * (2 * ZnearestE r) <= dist2 c i j)%Z -> bump_pixel r m n i j = 0%Z).
  { intros i j L. apply ZERO. rewrite <- (sqrt_square (IZR (2 * ZnearestE r))) by (apply IZR_le; lia). apply sqrt_le_1_alt. rewrite <- mult_IZR. apply IZR_le, L. }
  split; [intros i j; apply pixel_range, R1|].
  split; [apply FULL; unfold dist6, dist2; replace ((c - c) * (c - c) + (c - c) * (c - c))%Z with 0%Z by ring; rewrite sqrt_0, (round6_IZR 0); lra|].
  split; [intros i j; repeat split; apply pixel_sym; try exact R1; fold c; unfold dist2; [replace (n - 1 - i)%Z with (2 * c - i)%Z by lia|replace (n - 1 - j)%Z with (2 * c - j)%Z by lia|]; ring|].
  split; [intros i j i' j' L; rewrite !D in L; apply pixel_mono; [exact R1|exact L]|].
  split; [intros i j L; rewrite D in L; apply FULL; unfold dist6; assert (E := round6_err (sqrt (IZR (dist2 c i j)))); apply Rabs_le_inv in E; lra|].
  split; [intros i j L; rewrite D in L; apply pixel_zero; [exact R1|]; fold c; unfold dist6; assert (E := round6_err (sqrt (IZR (dist2 c i j)))); apply Rabs_le_inv in E; lra|].
  assert (SQ := fun x => Z.square_nonneg x).
  intros i. repeat split; apply FAR; unfold dist2; specialize (SQ (i - c)%Z); [replace (0 - c)%Z with (- (2 * ZnearestE r))%Z by lia|replace (0 - c)%Z with (- (2 * ZnearestE r))%Z by lia|
    replace (n - 1 - c)%Z with (2 * ZnearestE r)%Z by lia|replace (n - 1 - c)%Z with (2 * ZnearestE r)%Z by lia]; lia.
Qed.
Print Assumptions C47_image.
(** Larger intensities do not fit the 16-bit image. *)
Theorem C47_overflow : forall radius m, (65535 < m)%Z -> get_bumped_circle radius m = Raise OverflowError.
Proof. exact circle_overflow. Qed.
Print Assumptions C47_overflow.
(** An image: radius 1, intensity 255: 5 x 5, border 0, middle 255. *)
Example C47_example : exists img, get_bumped_circle 1 255 = Ok img /\ shape img 5 5 /\ entry img 2 2 = Some 255%Z /\ entry img 0 3 = Some 0%Z.
Proof.
  destruct (C47_image 1 255 ltac:(lia)) as (r & n & c & p & img & ER & EN & _ & NC & EQ & (_ & _ & SH & EI) & _ & PC & _ & _ & _ & _ & BD).
  rewrite Rmax_left in ER by lra. subst r. rewrite (near_IZR 1) in EN. change (4 * 1 + 1)%Z with 5%Z in EN. subst n. assert (c = 2)%Z by lia. subst c.
  exists img. split; [exact EQ|]. split; [exact SH|]. rewrite !EI by lia. rewrite PC. split; [reflexivity|]. destruct (BD 3%Z) as (_ & E & _). rewrite E. reflexivity.
Qed.
