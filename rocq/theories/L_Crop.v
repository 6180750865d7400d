From Coq Require Import Reals Lra FinFun.
From Flocq Require Import Core Relative.
From Verif Require Import Py M_Geo SpecGeo M_Crop SpecCrop L_Geo L_Polar.
Local Open Scope R_scope.

Lemma sane_idr : sane idr.
Proof.
  unfold sane, idr. repeat split; auto. intros x. replace (x - x) with 0 by ring. rewrite Rabs_R0.
  apply Rmult_le_pos; [left; apply Rinv_0_lt_compat; lra|]. pose proof (Rabs_pos x). lra.
Qed.
Lemma F64_half : generic_format radix2 (FLT_exp (-1074) 53) (1 / 2).
Proof. apply (F64_ratio 1 1); lia. Qed.
Lemma sane_b64 : sane b64.
Proof.
  split; [exact b64_mono|]. split; [intros z H; apply b64_IZR; lia|]. split; [apply b64_id, F64_half|].
  intros x. destruct (error_N_FLT radix2 (-1074) 53 ltac:(reflexivity) (fun z => negb (Z.even z)) x) as (eps & eta & A & B & _ & E).
  unfold b64. rewrite E. replace (x * (1 + eps) + eta - x) with (x * eps + eta) by ring.
  eapply Rle_trans; [apply Rabs_triang|]. rewrite Rabs_mult. pose proof (Rabs_pos x).
  assert (A' : / 2 * bpow radix2 (- (53) + 1) <= / 10 ^ 12) by (simpl; lra).
  assert (B' : / 2 * bpow radix2 (-1074) <= / 10 ^ 12).
  { apply Rle_trans with (bpow radix2 (-52)); [|simpl; lra]. pose proof (bpow_gt_0 radix2 (-1074)).
    assert (bpow radix2 (-1074) <= bpow radix2 (-52)) by (apply bpow_le; lia). lra. }
  nra.
Qed.

Section Sane.
Variable rnd : R -> R.
Hypothesis SN : sane rnd.
Let mono := proj1 SN.
Let ints := proj1 (proj2 SN).
Let half := proj1 (proj2 (proj2 SN)).
Let err := proj2 (proj2 (proj2 SN)).

Lemma rnd_0 : rnd 0 = 0. Proof. apply (ints 0). lia. Qed.
Lemma rnd_1 : rnd 1 = 1. Proof. apply (ints 1). lia. Qed.
Lemma rnd_pos x : 0 <= x -> 0 <= rnd x.
Proof. intros H. rewrite <- rnd_0. apply mono, H. Qed.
Lemma err2 x : 0 <= x -> x - / 10 ^ 12 * (1 + x) <= rnd x <= x + / 10 ^ 12 * (1 + x).
Proof. intros H. specialize (err x). rewrite (Rabs_pos_eq x) in err by exact H. apply Rabs_le_inv in err. lra. Qed.

Lemma round4_mono x y : x <= y -> round4 rnd x <= round4 rnd y.
Proof.
  intros H. unfold round4. apply mono. apply Rmult_le_compat_r; [lra|]. apply IZR_le. apply Zrnd_le; [apply valid_rnd_N|]. apply mono. lra.
Qed.
Lemma round4_IZR z : (Z.abs z <= 10000)%Z -> round4 rnd (IZR z / 10000) = rnd (IZR z / 10000).
Proof.
  intros H. unfold round4. replace (IZR z / 10000 * 10000) with (IZR z) by field. rewrite ints by exact H. rewrite Zrnd_IZR by apply valid_rnd_N. reflexivity.
Qed.
Lemma round4_1 : round4 rnd 1 = 1.
Proof. replace 1 with (10000 / 10000) at 1 by field. rewrite (round4_IZR 10000) by lia. replace (10000 / 10000) with 1 by field. apply rnd_1. Qed.
Lemma round4_0 : round4 rnd 0 = 0.
Proof. replace 0 with (0 / 10000) at 1 by field. rewrite (round4_IZR 0) by lia. replace (0 / 10000) with 0 by field. apply rnd_0. Qed.
Lemma round4_half : round4 rnd (1 / 2) = 1 / 2.
Proof. replace (1 / 2) with (5000 / 10000) at 1 by field. rewrite (round4_IZR 5000) by lia. replace (5000 / 10000) with (1 / 2) by field. exact half. Qed.
Lemma round4_pos x : 0 <= x -> 0 <= round4 rnd x.
Proof. intros H. rewrite <- round4_0. apply round4_mono, H. Qed.
Lemma round4_le1 x : x <= 1 -> round4 rnd x <= 1.
Proof. intros H. rewrite <- round4_1. apply round4_mono, H. Qed.
Lemma round4_err x : 0 <= x -> Rabs (round4 rnd x - x) <= / 20000 + / 10 ^ 11 * (1 + x).
Proof.
  intros H. unfold round4. set (y := rnd (x * 10000)). pose proof (err2 (x * 10000) ltac:(lra)) as E1. fold y in E1.
  set (z := ZnearestE y). pose proof (Znearest_half (fun z => negb (Z.even z)) y) as E2. fold z in E2. apply Rabs_le_inv in E2.
  assert (Y : 0 <= y) by (apply rnd_pos; lra). assert (Z0 : 0 <= IZR z).
  { apply IZR_le. unfold z. change 0%Z with (0)%Z. rewrite <- (Zrnd_IZR (Znearest (fun z => negb (Z.even z))) 0). apply Zrnd_le; [apply valid_rnd_N|exact Y]. }
  pose proof (err2 (IZR z / 10000) ltac:(lra)) as E3. apply Rabs_le. simpl pow in *. lra.
Qed.

(** geometry *)
Lemma center_eq size : center size = (IZR size - 1) / 2.
Proof.
  unfold center. pose proof (Z.div_mod size 2 ltac:(lia)) as D. destruct (Z.eqb_spec (size mod 2) 0) as [E|E].
  - rewrite E in D. assert (IZR size = 2 * IZR (size / 2)) by (rewrite <- mult_IZR; f_equal; lia). lra.
  - assert (M : (size mod 2 = 1)%Z) by (pose proof (Z.mod_pos_bound size 2); lia). rewrite M in D.
    replace (size - 1)%Z with (size / 2 * 2)%Z by lia. rewrite Z.div_mul by lia.
    assert (IZR size = 2 * IZR (size / 2) + 1) by (rewrite <- (mult_IZR 2), <- plus_IZR; f_equal; lia). lra.
Qed.
Lemma half_size_eq size : half_size size = (IZR size - 1) / 2.
Proof. apply center_eq. Qed.
Lemma crop_r_eq rows cols : crop_r rows cols = circle_radius rows cols.
Proof.
  unfold crop_r, circle_radius. destruct (Z.eqb_spec rows cols) as [->|NE].
  - replace (cols - cols <? 2)%Z with true by lia. replace (Z.abs (cols - cols) <? 2)%Z with true by lia. rewrite Z.max_id. apply half_size_eq.
  - replace (Z.abs (rows - cols) <? 2)%Z with (Z.max rows cols - Z.min rows cols <? 2)%Z by lia. destruct (_ <? 2)%Z; apply half_size_eq.
Qed.
Lemma circle_ge1 rows cols : (3 <= Z.min rows cols)%Z -> 1 <= circle_radius rows cols.
Proof.
  intros H. unfold circle_radius. set (s := if (Z.abs (rows - cols) <? 2)%Z then Z.max rows cols else Z.min rows cols). assert (S : (3 <= s)%Z) by (unfold s; destruct (_ <? 2)%Z; lia).
  apply IZR_le in S. lra.
Qed.

Definition rdist rows cols ij := sqrt (off_x cols ij * off_x cols ij + off_y rows ij * off_y rows ij).
Lemma pixel_radius_eq rows cols i j : pixel_radius rnd rows cols i j = round4 rnd (rnd (rnd (rdist rows cols (i, j)) / circle_radius rows cols)).
Proof.
  unfold pixel_radius, rdist, off_x, off_y. cbn [fst snd]. rewrite crop_r_eq, !center_eq. do 4 f_equal. f_equal. ring.
Qed.
Lemma pixel_radius_pos rows cols i j : (3 <= Z.min rows cols)%Z -> 0 <= pixel_radius rnd rows cols i j.
Proof.
  intros H. rewrite pixel_radius_eq. pose proof (circle_ge1 rows cols H). apply round4_pos, rnd_pos. apply Rmult_le_pos; [apply rnd_pos, sqrt_pos|].
  left. apply Rinv_0_lt_compat. lra.
Qed.
Lemma pixel_radius_err rows cols i j : (3 <= Z.min rows cols)%Z ->
  Rabs (pixel_radius rnd rows cols i j - rel_dist rows cols (i, j)) <= / 20000 + / 10 ^ 10 * (1 + rel_dist rows cols (i, j)).
Proof.
  intros H. rewrite pixel_radius_eq. pose proof (circle_ge1 rows cols H) as C. unfold rel_dist. change (sqrt _) with (rdist rows cols (i, j)).
  set (d := rdist rows cols (i, j)). set (r := circle_radius rows cols) in *. assert (D : 0 <= d) by apply sqrt_pos.
  set (q := d / r). assert (Q : d = q * r) by (unfold q; field; lra).
  assert (Q0 : 0 <= q). { unfold q. apply Rmult_le_pos; [exact D|left; apply Rinv_0_lt_compat; lra]. }
  pose proof (err2 d D) as E1. pose proof (rnd_pos d D) as P1. set (a := rnd d) in *.
  set (b := a / r). assert (B : a = b * r) by (unfold b; field; lra).
  assert (B0 : 0 <= b). { unfold b. apply Rmult_le_pos; [exact P1|left; apply Rinv_0_lt_compat; lra]. }
  assert (E2 : q - / 10 ^ 12 * (1 + q) <= b <= q + / 10 ^ 12 * (1 + q)).
  { rewrite Q, B in E1. simpl pow in *. assert (IR : / r <= 1) by (rewrite <- Rinv_1; apply Rinv_le_contravar; lra).
    assert (IR0 : 0 < / r) by (apply Rinv_0_lt_compat; lra). split.
    - apply Rmult_le_reg_r with r; [lra|]. nra.
    - apply Rmult_le_reg_r with r; [lra|]. nra. }
  pose proof (err2 b B0) as E3. pose proof (rnd_pos b B0) as P3. set (e := rnd b) in *.
  pose proof (round4_err e P3) as E4. apply Rabs_le_inv in E4. apply Rabs_le. simpl pow in *. lra.
Qed.

(** some pixel lies within half of the radius *)
Lemma near_center rows cols : (3 <= Z.min rows cols)%Z -> exists i j, (0 <= i < rows)%Z /\ (0 <= j < cols)%Z /\ rel_dist rows cols (i, j) <= 1 / 2.
Proof.
  intros H. exists ((rows - 1) / 2)%Z, ((cols - 1) / 2)%Z.
  assert (G : forall s, (3 <= s)%Z -> (0 <= (s - 1) / 2 < s)%Z /\ (0 <= (IZR s - 1) / 2 - IZR ((s - 1) / 2) <= 1 / 2) /\
     ((IZR s - 1) / 2 - IZR ((s - 1) / 2) = 0 \/ (4 <= s)%Z)).
  { intros s Hs. pose proof (Z.div_mod (s - 1) 2 ltac:(lia)) as D. pose proof (Z.mod_pos_bound (s - 1) 2 ltac:(lia)) as M.
    assert (E : IZR s - 1 = 2 * IZR ((s - 1) / 2) + IZR ((s - 1) mod 2)).
    { rewrite <- (mult_IZR 2), <- plus_IZR, <- D, minus_IZR. ring. }
    split; [lia|]. assert (C : ((s - 1) mod 2 = 0 \/ (s - 1) mod 2 = 1)%Z) by lia. destruct C as [C|C]; rewrite C in E.
    - split; [lra|]. left. lra.
    - split; [lra|]. right. lia. }
  destruct (G rows) as (A1 & A2 & A3); [lia|]. destruct (G cols) as (B1 & B2 & B3); [lia|]. split; [exact A1|]. split; [exact B1|].
  pose proof (circle_ge1 rows cols H) as C. unfold rel_dist, off_x, off_y. cbn [fst snd].
  set (y := (IZR rows - 1) / 2 - IZR ((rows - 1) / 2)) in *. 
  replace (IZR ((cols - 1) / 2) - (IZR cols - 1) / 2) with (- ((IZR cols - 1) / 2 - IZR ((cols - 1) / 2))) by ring.
  set (x := (IZR cols - 1) / 2 - IZR ((cols - 1) / 2)) in *.
  apply Rmult_le_reg_r with (circle_radius rows cols); [lra|]. unfold Rdiv at 1. rewrite Rmult_assoc, Rinv_l by lra. rewrite Rmult_1_r.
  apply Rsqr_incr_0_var; [|lra]. unfold Rsqr. rewrite sqrt_sqrt by nra.
  destruct A3 as [A3|A3]; [rewrite A3; nra|]. destruct B3 as [B3|B3]; [rewrite B3; nra|].
  assert (C2 : 3 / 2 <= circle_radius rows cols).
  { unfold circle_radius. set (s := if (Z.abs (rows - cols) <? 2)%Z then Z.max rows cols else Z.min rows cols). assert (S : (4 <= s)%Z) by (unfold s; destruct (_ <? 2)%Z; lia). apply IZR_le in S. lra. }
  nra.
Qed.
Lemma near_radius rows cols i j : (3 <= Z.min rows cols)%Z -> rel_dist rows cols (i, j) <= 1 / 2 -> pixel_radius rnd rows cols i j <= 1 / 2 + / 10000.
Proof.
  intros H L. pose proof (pixel_radius_err rows cols i j H) as E. apply Rabs_le_inv in E. 
  assert (0 <= rel_dist rows cols (i, j)).
  { pose proof (circle_ge1 rows cols H). apply Rmult_le_pos; [apply sqrt_pos|left; apply Rinv_0_lt_compat; lra]. }
  simpl pow in *. lra.
Qed.
End Sane.

Lemma Rltb'_true x y : Rltb' x y = true <-> x < y.
Proof. unfold Rltb'. destruct (Rlt_dec x y); split; auto; discriminate. Qed.
Lemma Rltb'_false x y : Rltb' x y = false <-> y <= x.
Proof. unfold Rltb'. destruct (Rlt_dec x y); split; intros; try lra; try discriminate; auto. Qed.

Definition pix_eqb (a b : Z * Z) : bool := ((fst a =? fst b) && (snd a =? snd b))%Z.
Fixpoint count (p : Z * Z) (l : list (Z * Z)) : Z :=
  match l with [] => 0 | q :: tl => (if pix_eqb p q then 1 else 0) + count p tl end%Z.

Section Loop.
Context {A : Type}.
Variables (rnd : R -> R) (rows cols : Z) (f : Z -> Z -> A) (strict : bool) (c eps : R).
Let rad (p : Z * Z) := pixel_radius rnd rows cols (fst p) (snd p).
Let sel (p : Z * Z) := Rltb' (rnd (rad p - c)) eps.
Let again (p : Z * Z) := negb strict && Rltb' (1 / 1000) (rnd (rad p - c)).

Lemma loop_inv l : forall st, let st' := fold_left (crop_step rnd rows cols f strict c eps) l st in let S := filter sel l in
  vphases st' = vphases st ++ map (fun p => f (fst p) (snd p)) S /\
  vradii st' = vradii st ++ map rad S /\
  vthetas st' = vthetas st ++ map (fun p => crop_theta rows cols (fst p) (snd p)) S /\
  (forall a b, mask st' a b = mask st a b + count (a, b) S)%Z /\
  recal st' = existsb again S || recal st /\
  rcoeff st <= rcoeff st' /\ (forall p, In p S -> again p = true -> rad p <= rcoeff st') /\
  (rcoeff st' = rcoeff st \/ exists p, In p S /\ again p = true /\ rcoeff st' = rad p).
Proof.
  induction l as [|[i j] l IH]; intros st; cbn [fold_left filter].
  - cbn. rewrite !app_nil_r. repeat split; auto; try lra. intros; ring. intros p [].
  - assert (EQ : crop_step rnd rows cols f strict c eps st (i, j) = if sel (i, j) then
      {| mask := fun a b => if ((a =? i) && (b =? j))%Z then (mask st a b + 1)%Z else mask st a b;
       vphases := vphases st ++ [f i j]; vradii := vradii st ++ [rad (i, j)]; vthetas := vthetas st ++ [crop_theta rows cols i j];
       recal := again (i, j) || recal st; rcoeff := if again (i, j) && Rltb' (rcoeff st) (rad (i, j)) then rad (i, j) else rcoeff st |} else st) by reflexivity.
    rewrite EQ. clear EQ. destruct (sel (i, j)) eqn:E; [|apply IH].
    match goal with |- context [fold_left _ l ?s] => specialize (IH s); set (st1 := s) in * end.
    cbn zeta in IH |- *. destruct IH as (H1 & H2 & H3 & H4 & H5 & H6 & H7 & H8). rewrite H1, H2, H3, H5. cbn [map existsb].
    unfold st1 in *. cbn [vphases vradii vthetas mask recal rcoeff] in *. clear st1. rewrite <- !app_assoc. cbn [app].
    split; [reflexivity|]. split; [reflexivity|]. split; [reflexivity|]. split; [|split; [|split; [|split]]].
    + intros a b. rewrite H4. cbn [count]. unfold pix_eqb. cbn [fst snd]. destruct ((a =? i) && (b =? j))%Z; lia.
    + destruct (again (i, j)), (existsb again (filter sel l)), (recal st); reflexivity.
    + eapply Rle_trans; [|exact H6]. destruct (again (i, j) && Rltb' (rcoeff st) (rad (i, j))) eqn:G; [|lra].
      apply andb_true_iff in G. destruct G as [_ G]. apply Rltb'_true in G. lra.
    + intros p [<-|Hp] AP; [|apply H7; assumption]. eapply Rle_trans; [|exact H6]. rewrite AP. cbn [andb].
      destruct (Rltb' (rcoeff st) (rad (i, j))) eqn:G; [lra|]. apply Rltb'_false in G. exact G.
    + destruct H8 as [H8|(p & Hp & AP & H8)]; [|right; exists p; split; [right; exact Hp|tauto]].
      rewrite H8. destruct (again (i, j) && Rltb' (rcoeff st) (rad (i, j))) eqn:G; [|left; reflexivity].
      right. exists (i, j). apply andb_true_iff in G. split; [left; reflexivity|tauto].
Qed.
End Loop.

Lemma max_list_ge l x : In x l -> x <= max_list l.
Proof.
  destruct l as [|y l]; [intros []|]. cbn. intros H. assert (G : forall l a, a <= fold_left Rmax l a /\ forall z, In z l -> z <= fold_left Rmax l a).
  { clear. induction l as [|b l IH]; intros a; cbn; [split; [lra|intros z []]|]. destruct (IH (Rmax a b)) as [A B].
    split; [eapply Rle_trans; [apply Rmax_l|exact A]|]. intros z [<-|Hz]; [eapply Rle_trans; [apply Rmax_r|exact A]|apply B, Hz]. }
  destruct (G l y) as [B C]. destruct H as [<-|H]; [exact B|apply C, H].
Qed.
Lemma max_list_in l : l <> [] -> In (max_list l) l.
Proof.
  destruct l as [|y l]; [congruence|]. intros _. cbn. revert y. induction l as [|b l IH]; intros a; cbn; [left; reflexivity|].
  destruct (IH (Rmax a b)) as [H|H]; [|tauto]. rewrite <- H. unfold Rmax. destruct (Rle_dec a b); tauto.
Qed.

Lemma pix_eqb_iff p q : pix_eqb p q = true <-> p = q.
Proof. destruct p as [a b], q as [c d]. unfold pix_eqb. cbn. rewrite andb_true_iff, !Z.eqb_eq. split; [intros [-> ->]; reflexivity|intros E; injection E; auto]. Qed.
Lemma count_0 p l : ~ In p l -> count p l = 0%Z.
Proof.
  induction l as [|q l IH]; intros H; cbn; [reflexivity|]. destruct (pix_eqb p q) eqn:E.
  - apply pix_eqb_iff in E. elim H. left. congruence.
  - rewrite IH; [reflexivity|]. intros I. apply H. right. exact I.
Qed.
Lemma count_1 p l : NoDup l -> In p l -> count p l = 1%Z.
Proof.
  induction 1 as [|q l NI ND IH]; intros H; [destruct H|]. cbn. destruct (pix_eqb p q) eqn:E.
  - apply pix_eqb_iff in E. subst q. rewrite count_0 by exact NI. reflexivity.
  - destruct H as [->|H]; [|rewrite IH by exact H; reflexivity]. assert (pix_eqb p p = true) by (apply pix_eqb_iff; reflexivity). congruence.
Qed.
Lemma zrange_In k : forall a z, In z (zrange a k) <-> (a <= z < a + Z.of_nat k)%Z.
Proof. induction k as [|k IH]; intros a z; cbn [zrange In]; [lia|]. rewrite IH. lia. Qed.
Lemma zrange_NoDup k : forall a, NoDup (zrange a k).
Proof. induction k as [|k IH]; intros a; cbn [zrange]; constructor; [rewrite zrange_In; lia|apply IH]. Qed.
Lemma row_major_In rows cols i j : In (i, j) (row_major rows cols) <-> (0 <= i < rows)%Z /\ (0 <= j < cols)%Z.
Proof.
  unfold row_major. rewrite in_flat_map. split.
  - intros (i' & H1 & H2). apply in_map_iff in H2. destruct H2 as (j' & E & H2). injection E as <- <-. apply zrange_In in H1, H2. lia.
  - intros [H1 H2]. exists i. split; [apply zrange_In; lia|]. apply in_map_iff. exists j. split; [reflexivity|apply zrange_In; lia].
Qed.
Lemma NoDup_app {A} (l l' : list A) : NoDup l -> NoDup l' -> (forall x, In x l -> ~ In x l') -> NoDup (l ++ l').
Proof.
  induction 1 as [|x l NI ND IH]; intros H' D; [exact H'|]. cbn. constructor.
  - rewrite in_app_iff. intros [H|H]; [contradiction|]. apply (D x); [left; reflexivity|exact H].
  - apply IH; [exact H'|]. intros y Hy. apply D. right. exact Hy.
Qed.
Lemma row_major_NoDup rows cols : NoDup (row_major rows cols).
Proof.
  unfold row_major. set (js := zrange 0 (Z.to_nat cols)). assert (NJ : NoDup js) by apply zrange_NoDup. clearbody js.
  pose proof (zrange_NoDup (Z.to_nat rows) 0) as NI. revert NI. generalize (zrange 0 (Z.to_nat rows)) as is. induction is as [|i is IH]; intros NI; [constructor|].
  inversion NI as [|? ? H1 H2]; subst. cbn [flat_map]. apply NoDup_app; [|apply IH, H2|].
  - apply Injective_map_NoDup; [|exact NJ]. intros a b E. congruence.
  - intros [a b] H H'. apply in_map_iff in H. destruct H as (j & E & _). injection E as <- <-. apply in_flat_map in H'.
    destruct H' as (i' & I & H'). apply in_map_iff in H'. destruct H' as (j' & E & _). injection E as -> ->. contradiction.
Qed.

Lemma rnd_lt rnd x t : sane rnd -> 0 <= t <= 1 -> rnd x <= t -> x < t + / 10 ^ 11.
Proof.
  intros (mono & _ & _ & err) Ht H. apply Rnot_le_lt. intros C.
  assert (t < rnd x); [|lra]. apply Rlt_le_trans with (rnd (t + / 10 ^ 11)); [|apply mono, C].
  specialize (err (t + / 10 ^ 11)). rewrite (Rabs_pos_eq (t + / 10 ^ 11)) in err by (simpl pow; lra). apply Rabs_le_inv in err. simpl pow in *. lra.
Qed.
Lemma rnd_gt rnd x t : sane rnd -> 0 <= t <= 1 -> x <= t - / 10 ^ 11 -> rnd x < t.
Proof.
  intros (mono & _ & _ & err) Ht H. apply Rle_lt_trans with (rnd (t - / 10 ^ 11)); [apply mono, H|].
  specialize (err (t - / 10 ^ 11)). assert (Rabs (t - / 10 ^ 11) <= 1) by (apply Rabs_le; simpl pow; lra). apply Rabs_le_inv in err. simpl pow in *. lra.
Qed.

Lemma div_le1 x k : 0 < k -> x <= k -> x / k <= 1.
Proof. intros K H. apply Rmult_le_reg_r with k; [exact K|]. unfold Rdiv. rewrite Rmult_assoc, Rinv_l by lra. lra. Qed.
Lemma div_ge0 x k : 0 < k -> 0 <= x -> 0 <= x / k.
Proof. intros K H. apply Rmult_le_pos; [exact H|left; apply Rinv_0_lt_compat, K]. Qed.

(** renormalised value: inside [0,1], close to x / k *)
Lemma scaled rnd x k : sane rnd -> 1 <= k -> 0 <= x <= k ->
  0 <= round4 rnd (rnd (x / k)) <= 1 /\ Rabs (round4 rnd (rnd (x / k)) - x / k) <= / 20000 + / 10 ^ 9.
Proof.
  intros SN K H. assert (A : 0 <= x / k) by (apply div_ge0; lra). assert (B : x / k <= 1) by (apply div_le1; lra).
  pose proof (rnd_pos rnd SN _ A) as P. assert (U : rnd (x / k) <= 1) by (rewrite <- (rnd_1 rnd SN); apply SN, B).
  split; [split; [apply round4_pos; assumption|apply round4_le1; assumption]|].
  pose proof (round4_err rnd SN _ P) as E. pose proof (err2 rnd SN _ A) as E2. apply Rabs_le_inv in E. apply Rabs_le. simpl pow in *. lra.
Qed.

Lemma border_margin_eq rows cols strict : border_margin rows cols strict = radius_epsilon rows cols strict.
Proof.
  unfold border_margin, radius_epsilon. rewrite !Zmod_even. destruct (Z.even rows), (Z.even cols); reflexivity.
Qed.
Lemma crop_ok {A} rnd rows cols (f : Z -> Z -> A) x (strict : bool) : sane rnd -> (3 <= Z.min rows cols)%Z -> 1 / 2 <= round4 rnd x <= 1 ->
  exists selected mask phases radii thetas, let S := filter selected (row_major rows cols) in let c := round4 rnd x in
    crop_phases_img rnd (Img rows cols f) (RadNum x) strict = Ok (mask, (phases, radii, thetas)) /\
    S <> [] /\ phases = map (fun p => f (fst p) (snd p)) S /\ length radii = length S /\ length thetas = length S /\
    (forall r, In r radii -> 0 <= r <= 1) /\
    (forall k, (k < length S)%nat -> exists rho, polar (off_x cols (nth k S (0, 0)%Z)) (off_y rows (nth k S (0, 0)%Z)) rho (nth k thetas 0)) /\
    (forall i j, (In (i, j) S -> mask i j = 1%Z) /\ (~ In (i, j) S -> mask i j = 0%Z)) /\
    (forall p, rel_dist rows cols p <= c + border_margin rows cols strict - / 10000 -> selected p = true) /\
    (forall p, selected p = true -> rel_dist rows cols p < c + border_margin rows cols strict + / 10000) /\
    (exists q, 1 <= q <= 1 + border_margin rows cols strict + / 10000 /\ forall k, (k < length S)%nat ->
        Rabs (nth k radii 0 - rel_dist rows cols (nth k S (0, 0)%Z) / q) <= 2 / 10000).
Proof.
  intros SN HM HC. set (c := round4 rnd x) in *. set (eps := radius_epsilon rows cols strict).
  set (rad := fun p : Z * Z => pixel_radius rnd rows cols (fst p) (snd p)).
  set (sel := fun p : Z * Z => Rltb' (rnd (rad p - c)) eps).
  set (again := fun p : Z * Z => negb strict && Rltb' (1 / 1000) (rnd (rad p - c))).
  assert (EBM : border_margin rows cols strict = eps) by apply border_margin_eq. rewrite EBM.
  assert (EPS : 1 / 1000 <= eps <= 55 / 1000 /\ (strict = true -> eps = 1 / 1000)).
  { unfold eps, radius_epsilon. destruct strict; cbn [negb andb]; [split; [lra|auto]|]. destruct (_ || _); (split; [lra|discriminate]). }
  destruct EPS as [EPS EPS'].
  assert (RP : forall p, 0 <= rad p) by (intros p; apply pixel_radius_pos; assumption).
  assert (RE : forall p, Rabs (rad p - rel_dist rows cols p) <= / 20000 + / 10 ^ 10 * (1 + rel_dist rows cols p)).
  { intros [i j]. apply pixel_radius_err; assumption. }
  assert (RD : forall p, 0 <= rel_dist rows cols p).
  { intros p. pose proof (circle_ge1 rows cols HM). apply div_ge0; [lra|apply sqrt_pos]. }
  assert (SELIN : forall p, rel_dist rows cols p <= c + eps - / 10000 -> sel p = true).
  { intros p H. unfold sel. apply Rltb'_true. apply rnd_gt; [exact SN|lra|].
    specialize (RE p). specialize (RD p). apply Rabs_le_inv in RE. simpl pow in *. lra. }
  assert (SELR : forall p, sel p = true -> rad p < c + eps + / 10 ^ 11).
  { intros p H. unfold sel in H. apply Rltb'_true in H. pose proof (rnd_lt rnd (rad p - c) eps SN ltac:(lra) ltac:(lra)). lra. }
  assert (SELOUT : forall p, sel p = true -> rel_dist rows cols p < c + eps + / 10000).
  { intros p H. specialize (SELR p H). specialize (RE p). specialize (RD p). apply Rabs_le_inv in RE. simpl pow in *. lra. }
  pose proof (loop_inv rnd rows cols f strict c eps (row_major rows cols)
    {| mask := fun _ _ => 0%Z; vphases := []; vradii := []; vthetas := []; recal := false; rcoeff := 1 |}) as INV.
  cbn zeta in INV. fold rad in INV. fold sel in INV. fold again in INV.
  set (st := fold_left _ _ _) in INV. set (S := filter sel (row_major rows cols)) in *.
  cbn [vphases vradii vthetas mask recal rcoeff app] in INV. destruct INV as (I1 & I2 & I3 & I4 & I5 & I6 & I7 & I8).
  rewrite orb_false_r in I5.
  assert (SN0 : S <> []).
  { destruct (near_center rows cols HM) as (i & j & Hi & Hj & L). assert (In (i, j) S).
    { apply filter_In. split; [apply row_major_In; tauto|apply SELIN; lra]. } destruct S; [contradiction|discriminate]. }
  set (radii := recalibrate rnd (recal st) (rcoeff st) (vradii st)).
  (* the radii *)
  assert (RAD : exists q, 1 <= q <= 1 + eps + / 10000 /\ exists g, radii = map g S /\ forall p, In p S -> 0 <= g p <= 1 /\ Rabs (g p - rad p / q) <= / 20000 + / 10 ^ 9).
  { unfold radii, recalibrate. rewrite I2. destruct (recal st) eqn:RC.
    - (* recalibrated *)
      symmetry in I5. apply existsb_exists in I5. destruct I5 as (p0 & P0 & A0).
            set (k := rcoeff st) in *. assert (K1 : 1 <= k) by exact I6.
      assert (AL : forall p, In p S -> rad p <= k).
      { intros p Hp. destruct (again p) eqn:AP; [apply I7; assumption|]. apply Rle_trans with (rad p0); [|apply I7; assumption].
        unfold again in AP, A0. apply andb_true_iff in A0. destruct A0 as [NS A0]. rewrite NS in AP. cbn [andb] in AP. apply Rltb'_true in A0. apply Rltb'_false in AP.
        apply Rnot_lt_le. intros C. assert (rnd (rad p0 - c) <= rnd (rad p - c)) by (apply SN; lra). lra. }
      assert (K2 : k <= 1 + eps + / 10000).
      { destruct I8 as [->|(p & Hp & _ & ->)]; [lra|]. apply filter_In in Hp. pose proof (SELR p (proj2 Hp)). simpl pow in *. lra. }
      exists k. split; [lra|]. exists (fun p => round4 rnd (rnd (rad p / k))). rewrite map_map. split.
      + set (l1 := map _ S). assert (MX : max_list l1 <= 1).
        { assert (L1 : l1 <> []) by (unfold l1; destruct S; [congruence|discriminate]). pose proof (max_list_in l1 L1) as H. unfold l1 at 2 in H.
          apply in_map_iff in H. destruct H as (p & <- & Hp). apply scaled; [exact SN|exact K1|]. split; [apply RP|apply AL, Hp]. }
        replace (Rltb' 1 (max_list l1)) with false by (symmetry; apply Rltb'_false; exact MX). reflexivity.
      + intros p Hp. apply scaled; [exact SN|exact K1|]. split; [apply RP|apply AL, Hp].
    - symmetry in I5. assert (NA : forall p, In p S -> rad p < 1 + 1 / 1000 + / 10 ^ 11).
      { intros p Hp. assert (AP : again p = false).
        { destruct (again p) eqn:AP; [|reflexivity]. rewrite <- I5. symmetry. apply existsb_exists. exists p. tauto. }
        unfold again in AP. destruct strict; cbn [negb andb] in AP.
        - apply filter_In in Hp. pose proof (SELR p (proj2 Hp)). rewrite (EPS' eq_refl) in H. lra.
        - apply Rltb'_false in AP. pose proof (rnd_lt rnd (rad p - c) (1 / 1000) SN ltac:(lra) AP). lra. }
      set (mx := max_list (map rad S)). assert (MI : In mx (map rad S)) by (apply max_list_in; destruct S; [congruence|discriminate]).
      assert (MU' : mx < 10011 / 10000). { apply in_map_iff in MI. destruct MI as (p & E & Hp). rewrite <- E. specialize (NA p Hp). simpl pow in *. lra. }
      assert (MU : mx < 1002 / 1000) by lra.
      assert (MG : forall p, In p S -> rad p <= mx) by (intros p Hp; apply max_list_ge, in_map, Hp).
      replace (Rltb' mx (1002 / 1000)) with true by (symmetry; apply Rltb'_true; exact MU). rewrite andb_true_r.
      destruct (Rltb' 1 mx) eqn:MB.
      + apply Rltb'_true in MB. exists mx. split; [lra|]. exists (fun p => round4 rnd (rnd (rad p / mx))). rewrite map_map. split; [reflexivity|].
        intros p Hp. apply scaled; [exact SN|lra|]. split; [apply RP|apply MG, Hp].
      + apply Rltb'_false in MB. exists 1. split; [lra|]. exists rad. split; [reflexivity|]. intros p Hp. split; [split; [apply RP|specialize (MG p Hp); lra]|].
        replace (rad p - rad p / 1) with 0 by field. rewrite Rabs_R0. simpl pow. lra. }
  destruct RAD as (q & Q & g & EG & GB).
  exists sel, (mask st), (vphases st), radii, (vthetas st). cbn zeta. fold c S.
  split.
  { unfold crop_phases_img. fold c. destruct (Rle_dec (1 / 2) c) as [?|N]; [|elim N; apply HC]. destruct (Rle_dec c 1) as [?|N]; [|elim N; apply HC]. cbn [negb].
    replace (Z.min rows cols <? 3)%Z with false by lia. change (pixels rows cols) with (row_major rows cols). fold eps. fold st. fold radii.
    destruct (vradii st) eqn:EV; [|reflexivity]. rewrite I2 in EV. destruct S; [congruence|discriminate]. }
  split; [exact SN0|]. split; [exact I1|]. split; [rewrite EG; apply map_length|]. split; [rewrite I3; apply map_length|]. split; [|split; [|split; [|split; [|split]]]].
  - intros r Hr. rewrite EG in Hr. apply in_map_iff in Hr. destruct Hr as (p & <- & Hp). apply GB, Hp.
  - intros k Hk. rewrite I3. set (th := fun p : Z * Z => _). rewrite (nth_indep _ 0 (th (0, 0)%Z)) by (rewrite map_length; exact Hk). rewrite map_nth.
    eexists. unfold th, crop_theta, off_x, off_y. rewrite !center_eq. apply pixel_polar.
  - intros i j. rewrite I4. split; intros Hp; [rewrite count_1; [reflexivity| |exact Hp]; apply NoDup_filter, row_major_NoDup|rewrite count_0 by exact Hp; reflexivity].
  - exact SELIN.
  - exact SELOUT.
  - exists q. split; [exact Q|]. intros k Hk. rewrite EG. rewrite (nth_indep _ 0 (g (0, 0)%Z)) by (rewrite map_length; exact Hk). rewrite map_nth.
    set (p := nth k S (0, 0)%Z). assert (Hp : In p S) by (apply nth_In, Hk). destruct (GB p Hp) as [_ G2]. specialize (RE p). specialize (RD p).
    pose proof (SELOUT p (proj2 (proj1 (filter_In _ _ _) Hp))) as U.
    replace (g p - rel_dist rows cols p / q) with ((g p - rad p / q) + (rad p - rel_dist rows cols p) / q) by (field; lra).
    eapply Rle_trans; [apply Rabs_triang|]. unfold Rdiv at 2. rewrite Rabs_mult, (Rabs_pos_eq (/ q)) by (left; apply Rinv_0_lt_compat; lra).
    assert (IQ : 0 < / q <= 1) by (split; [apply Rinv_0_lt_compat; lra|rewrite <- Rinv_1; apply Rinv_le_contravar; lra]).
    assert (Rabs (rad p - rel_dist rows cols p) * / q <= Rabs (rad p - rel_dist rows cols p)) by (pose proof (Rabs_pos (rad p - rel_dist rows cols p)); nra).
    simpl pow in *. lra.
Qed.

Lemma crop_reject {A} rnd (img : img_arg A) cr strict :
  (cr = RadNaN \/ (exists x, cr = RadNum x /\ (round4 rnd x < 1 / 2 \/ 1 < round4 rnd x)) \/
   ((exists x, cr = RadNum x) /\ (img = NotArray \/ img = WrongDim \/ exists rows cols f, img = Img rows cols f /\ (Z.min rows cols < 3)%Z))) ->
  crop_phases_img rnd img cr strict = Raise ValueError.
Proof.
  intros [->|[(x & -> & H)|((x & ->) & H)]]; [reflexivity| |]; unfold crop_phases_img.
  - destruct (Rle_dec _ _); [|reflexivity]. destruct (Rle_dec _ _); [|reflexivity]. lra.
  - destruct (negb _); [reflexivity|]. destruct H as [->|[->|(rows & cols & f & -> & H)]]; [reflexivity|reflexivity|].
    replace (Z.min rows cols <? 3)%Z with true by lia. reflexivity.
Qed.
