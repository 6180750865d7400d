(** Noise in the data of a least-squares problem (C62). *)
From Coq Require Import Reals Lra Lia List.
From Flocq Require Import Core.
From Verif Require Import Py SpecFit L_LinAlg.
Local Open Scope R_scope.

Lemma independent_tail n c cols : independent n (c :: cols) -> length c = n -> wf n cols -> independent n cols.
Proof.
  intros I Lc W x L H. assert (E : 0 :: x = repeat 0 (length (c :: cols))).
  { apply I; [cbn; congruence|]. cbn [mulmv]. rewrite H, vscale_0. fold (zeros n). rewrite Lc. apply vadd_zeros_r. apply zeros_len. }
  cbn in E. injection E. auto.
Qed.
(** independent columns: the image of a vector is not much shorter than the vector *)
Lemma bound_below n cols : wf n cols -> independent n cols ->
  exists k, 0 < k /\ forall z, length z = length cols -> k * normsq z <= normsq (mulmv n cols z).
Proof.
  induction cols as [|c cols IH]; intros W I.
  { exists 1. split; [lra|]. intros z L. destruct z; [|discriminate]. cbn [mulmv]. fold (zeros n). unfold normsq. rewrite dot_zeros. cbn. lra. }
  inversion W as [|? ? Lc W']; subst. set (n := length c) in *.
  destruct (IH W' (independent_tail n c cols I eq_refl W')) as (k & K & HK). clear IH.
  set (w := project n cols c). assert (Lw : length w = length cols) by apply project_len.
  assert (LM : forall v, length (mulmv n cols v) = n) by (intros; apply mulmv_len, W').
  set (c' := vsub c (mulmv n cols w)). assert (Lc' : length c' = n) by (unfold c'; rewrite vsub_len; rewrite ?LM; reflexivity).
  assert (OR : forall h, dot c' (mulmv n cols h) = 0) by (intros; apply project_orth; [exact W'|reflexivity]).
  assert (EC : vadd (mulmv n cols w) c' = c) by (unfold c'; apply vadd_sub; rewrite LM; reflexivity).
  assert (D0 : 0 < normsq c').
  { destruct (Req_dec (normsq c') 0) as [Z|NZ]; [exfalso|pose proof (normsq_nonneg c'); lra].
    apply normsq_zero in Z. rewrite Lc' in Z. rewrite Z, vadd_zeros_r in EC by apply LM.
    assert (E : 1 :: vscale (-1) w = repeat 0 (length (c :: cols))).
    { apply I; [cbn; rewrite vscale_len; congruence|]. cbn [mulmv]. rewrite mulmv_scale, EC, vscale_1. fold (vsub c c). apply vsub_diag. }
    cbn in E. injection E as E _. lra. }
  set (d := normsq c') in *. set (nw := normsq w). assert (NW : 0 <= nw) by apply normsq_nonneg.
  exists (Rmin (d / (1 + 2 * nw)) (k / 2)).
  assert (K1 : 0 < d / (1 + 2 * nw)) by (apply Rmult_lt_0_compat; [exact D0|apply Rinv_0_lt_compat; lra]).
  split; [apply Rmin_pos; lra|]. intros [|z0 z] L; [discriminate|]. injection L as L.
  set (y := vadd z (vscale z0 w)). assert (Ly : length y = length cols) by (unfold y; rewrite vadd_len; rewrite ?vscale_len; congruence).
  assert (EA : mulmv n (c :: cols) (z0 :: z) = vadd (vscale z0 c') (mulmv n cols y)).
  { cbn [mulmv]. unfold y. rewrite mulmv_add by (try assumption; rewrite vscale_len; congruence). rewrite mulmv_scale. rewrite <- EC at 1.
    rewrite vscale_add. rewrite (vadd_comm (vscale z0 (mulmv n cols w))). rewrite <- vadd_assoc. f_equal. apply vadd_comm. }
  rewrite EA, normsq_add by (rewrite vscale_len, LM; exact Lc'). rewrite normsq_scale, dot_scale_l, OR.
  assert (HY := HK y Ly). change (normsq (z0 :: z)) with (z0 * z0 + normsq z). fold d.
  assert (TZ : normsq z <= 2 * normsq y + 2 * (z0 * z0) * nw).
  { unfold y. rewrite normsq_add by (rewrite vscale_len; congruence). rewrite dot_scale_r, normsq_scale. fold nw.
    pose proof (normsq_nonneg (vadd z (vscale (2 * z0) w))) as P. rewrite normsq_add in P by (rewrite vscale_len; congruence).
    rewrite dot_scale_r, normsq_scale in P. fold nw in P. lra. }
  set (kk := Rmin _ _). assert (KA : kk * (1 + 2 * nw) <= d).
  { apply Rle_trans with (d / (1 + 2 * nw) * (1 + 2 * nw)); [apply Rmult_le_compat_r; [lra|apply Rmin_l]|]. right. field. lra. }
  assert (KB : 2 * kk <= k) by (assert (kk <= k / 2) by apply Rmin_r; lra).
  assert (KP : 0 < kk) by (apply Rmin_pos; lra).
  assert (Z2 : 0 <= z0 * z0) by (pose proof (Rle_0_sqr z0); unfold Rsqr in *; assumption).
  pose proof (normsq_nonneg y) as NY.
  apply Rle_trans with (kk * (z0 * z0 + (2 * normsq y + 2 * (z0 * z0) * nw))); [apply Rmult_le_compat_l; lra|].
  assert (E1 : kk * (1 + 2 * nw) * (z0 * z0) <= d * (z0 * z0)) by (apply Rmult_le_compat_r; assumption).
  assert (E2 : 2 * kk * normsq y <= k * normsq y) by (apply Rmult_le_compat_r; assumption).
  replace (kk * (z0 * z0 + (2 * normsq y + 2 * (z0 * z0) * nw))) with (kk * (1 + 2 * nw) * (z0 * z0) + 2 * kk * normsq y) by ring. lra.
Qed.

(** the fitted values are closer to A a than the data *)
Lemma lstsq_closer cols b x a : wf (length b) cols -> lstsq_solution cols b x -> length a = length cols ->
  normsq (mulmv (length b) cols (vsub x a)) <= normsq (vsub b (mulmv (length b) cols a)).
Proof.
  intros W H La. apply lstsq_normal in H; [|exact W]. destruct H as (Lx & M & _).
  assert (Lh : length (vsub a x) = length cols) by (rewrite vsub_len; congruence).
  assert (E : a = vadd x (vsub a x)) by (symmetry; apply vadd_sub; congruence). rewrite E at 2.
  rewrite err_shift, M by assumption. pose proof (normsq_nonneg (vsub b (mulmv (length b) cols x))).
  rewrite !mulmv_sub by (try assumption; congruence). set (u := mulmv _ _ x). set (v := mulmv _ _ a).
  assert (LU : length u = length v) by (unfold u, v; rewrite !mulmv_len by exact W; reflexivity).
  assert (S : normsq (vsub u v) = normsq (vsub v u)).
  { unfold vsub. rewrite !normsq_add by (rewrite vscale_len; congruence). rewrite !dot_scale_r, !normsq_scale, (dot_comm u v). ring. }
  fold u in H. rewrite S. lra.
Qed.
Lemma normsq_bound e eps : Forall (fun v => Rabs v <= eps) e -> normsq e <= INR (length e) * (eps * eps).
Proof.
  induction 1 as [|v e H F IH]; [cbn; lra|]. change (normsq (v :: e)) with (v * v + normsq e). cbn [length]. rewrite S_INR.
  assert (v * v <= eps * eps). { rewrite <- (Rabs_pos_eq (v * v)) by apply Rle_0_sqr. rewrite Rabs_mult. apply Rmult_le_compat; try apply Rabs_pos; exact H. }
  lra.
Qed.
Lemma coord_le z i : nth i z 0 * nth i z 0 <= normsq z.
Proof.
  revert i. induction z as [|v z IH]; intros i.
  - destruct i; cbn; lra.
  - change (normsq (v :: z)) with (v * v + normsq z). pose proof (normsq_nonneg z). pose proof (Rle_0_sqr v) as P. unfold Rsqr in P. destruct i as [|i]; cbn [nth]; [lra|]. specialize (IH i). lra.
Qed.
Lemma lstsq_stable cols k b x a eps : wf (length b) cols -> lstsq_solution cols b x -> length a = length cols -> 0 < k ->
  (forall z, length z = length cols -> k * normsq z <= normsq (mulmv (length b) cols z)) -> 0 <= eps ->
  Forall (fun v => Rabs v <= eps) (vsub b (mulmv (length b) cols a)) ->
  forall i, Rabs (nth i x 0 - nth i a 0) <= sqrt (INR (length b) / k) * eps.
Proof.
  intros W H La K HK E0 F i. assert (Lx : length x = length cols) by apply H.
  assert (C := lstsq_closer cols b x a W H La). assert (B := normsq_bound _ _ F).
  rewrite vsub_len in B by (rewrite mulmv_len by exact W; reflexivity).
  assert (L : length (vsub x a) = length cols) by (rewrite vsub_len; congruence). specialize (HK _ L).
  assert (N := coord_le (vsub x a) i). unfold vsub in N at 1 2. rewrite !nth_vadd, !nth_vscale in N by (rewrite vscale_len; congruence).
  set (d := nth i x 0 - nth i a 0). replace (nth i x 0 + -1 * nth i a 0) with d in N by (unfold d; ring).
  assert (Q : d * d <= INR (length b) / k * (eps * eps)).
  { apply Rmult_le_reg_l with k; [exact K|]. replace (k * (INR (length b) / k * (eps * eps))) with (INR (length b) * (eps * eps)) by (field; lra).
    assert (k * (d * d) <= k * normsq (vsub x a)) by (apply Rmult_le_compat_l; lra). lra. }
  assert (S0 : 0 <= INR (length b) / k) by (apply Rmult_le_pos; [apply pos_INR|left; apply Rinv_0_lt_compat, K]).
  apply Rsqr_incr_0_var; [|apply Rmult_le_pos; [apply sqrt_pos|exact E0]]. rewrite <- Rsqr_abs. unfold Rsqr.
  replace (sqrt (INR (length b) / k) * eps * (sqrt (INR (length b) / k) * eps)) with ((sqrt (INR (length b) / k) * sqrt (INR (length b) / k)) * (eps * eps)) by ring.
  rewrite sqrt_sqrt by exact S0. exact Q.
Qed.
