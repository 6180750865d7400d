(** Values computed from the coefficient dictionaries (C11-C13, C18, C19). *)
From Coq Require Import Reals Lra Arith.
From Verif Require Import Py SpecIndex SpecRadial RadialMath L_Index M_Radial M_Coeffs SpecCoeffs L_Dict L_Coeffs L_Cache L_Radial L_RadialD.
Open Scope Z_scope.

(** ** initial state *)
Definition validb (m n : Z) : bool := (0 <=? n) && (Z.abs m <=? n) && ((n - Z.abs m) mod 2 =? 0).
Lemma validb_ok m n : validb m n = true <-> valid m n.
Proof.
  unfold validb, valid. rewrite !andb_true_iff, !Z.leb_le, Z.eqb_eq. split.
  - intros [[A B] C]. split; [exact A|]. split; [exact B|]. exists ((n - Z.abs m) / 2).
    pose proof (Z.div_mod (n - Z.abs m) 2 ltac:(lia)). lia.
  - intros (A & B & k & C). split; [auto|]. rewrite C, Z.mul_comm, Z.mod_mul; lia.
Qed.
Fixpoint dict_eqb (a b : dict) : bool :=
  match a, b with
  | [], [] => true
  | (x, u) :: a', (y, v) :: b' => (x =? y) && (u =? v) && dict_eqb a' b'
  | _, _ => false
  end.
Lemma dict_eqb_ok a : forall b, dict_eqb a b = true -> a = b.
Proof.
  induction a as [|[x u] a IH]; intros [|[y v] b] H; try discriminate; [reflexivity|].
  simpl in H. apply andb_true_iff in H. destruct H as [H H2]. apply andb_true_iff in H. destruct H as [H0 H1].
  apply Z.eqb_eq in H0, H1. subst. f_equal. auto.
Qed.
Definition okt_b (t : table) : bool := forallb (fun e => let '((m, n), d) := e in validb m n && dict_eqb d (cdict m n)) t.
Definition drdom_b (b : bool) (m n : Z) : bool := (0 <? Z.abs m) && special_dr m n || (lim b <=? n).
Definition okt_dr_b (b : bool) (t : table) : bool :=
  forallb (fun e => let '((m, n), d) := e in validb m n && drdom_b b m n && dict_eqb d (ddict m n)) t.
Lemma okt_b_ok t : okt_b t = true -> okt t.
Proof.
  intros H m n d Hin. unfold okt_b in H. rewrite forallb_forall in H. specialize (H _ Hin). simpl in H.
  apply andb_true_iff in H. destruct H as [A B]. split; [apply validb_ok, A|apply dict_eqb_ok, B].
Qed.
Lemma okt_dr_b_ok b t : okt_dr_b b t = true -> okt_dr b t.
Proof.
  intros H m n d Hin. unfold okt_dr_b in H. rewrite forallb_forall in H. specialize (H _ Hin). simpl in H.
  apply andb_true_iff in H. destruct H as [A B]. apply andb_true_iff in A. destruct A as [A A'].
  split; [apply validb_ok, A|]. split; [|apply dict_eqb_ok, B]. unfold drdom_b in A'. unfold drdom.
  apply orb_true_iff in A'. destruct A' as [A'|A']; [left|right; lia].
  apply andb_true_iff in A'. destruct A'. split; [lia|assumption].
Qed.
Lemma import_Inv : Inv import_state.
Proof.
  split; [|split; [|split]].
  - intros t. apply okt_b_ok. destruct t; vm_compute; reflexivity.
  - intros t. apply okt_dr_b_ok. destruct t; vm_compute; reflexivity.
  - intros f m n d [].
  - intros f m n d [].
Qed.
Lemma in_zrange k : forall a x, a <= x < a + Z.of_nat k -> In x (zrange a k).
Proof.
  induction k as [|k IH]; intros a x H; [lia|]. destruct (Z.eq_dec a x) as [->|N]; [left; reflexivity|].
  right. apply IH. lia.
Qed.
Lemma import_rows : has_rows import_state.
Proof.
  assert (B : forall t, forallb (fun n => forallb (fun m =>
    negb (validb m n) || special_dr m n || match tget (m, n) (pre_dr import_state t) with Some _ => true | None => false end)
    (zrange (-10) 21)) [lim t; lim t + 1] = true) by (intros []; vm_compute; reflexivity).
  intros t m n V Hn SP. specialize (B t). rewrite forallb_forall in B.
  assert (X : In n [lim t; lim t + 1]) by (destruct Hn as [->| ->]; [left|right; left]; reflexivity). specialize (B _ X). rewrite forallb_forall in B.
  assert (Y : In m (zrange (-10) 21)). { apply in_zrange. destruct V as (_ & V & _). unfold lim in Hn. destruct t; lia. }
  specialize (B _ Y). rewrite SP in B. apply validb_ok in V. rewrite V in B. simpl in B.
  destruct (tget _ _); discriminate.
Qed.

Local Open Scope R_scope.
(** ** value of the dictionary *)
Definition G (a b : nat) (r : R) (N : nat) : R := sum_f_R0 (fun p => IZR (coef a b (Z.of_nat p)) * r ^ p) N.

Lemma G_extend a b r N : (a + b <= N)%nat -> G a b r N = G a b r (a + b).
Proof.
  intros H. unfold G. apply sum_extend; [exact H|]. intros k Hk. rewrite coef_out by lia. ring.
Qed.
Lemma G_shift a b r N : sum_f_R0 (fun p => IZR (coef a b (Z.of_nat p - 1)) * r ^ p) (S N) = r * G a b r N.
Proof.
  rewrite decomp_sum by lia. cbn [pred]. rewrite coef_out by lia. unfold G. rewrite scal_sum.
  replace (IZR 0 * r ^ 0) with 0 by ring. rewrite Rplus_0_l. apply sum_eq. intros i Hi.
  replace (Z.of_nat (S i) - 1)%Z with (Z.of_nat i) by lia. simpl. ring.
Qed.
Lemma sum_single f N k : (k <= N)%nat -> (forall i, i <> k -> f i = 0) -> sum_f_R0 f N = f k.
Proof.
  intros H Hf. induction N as [|N IH].
  - assert (k = 0)%nat by lia. subst. reflexivity.
  - cbn [sum_f_R0]. destruct (Nat.eq_dec k (S N)) as [->|Nk].
    + rewrite (sum_eq f (fun _ => 0)) by (intros i Hi; apply Hf; lia). rewrite sum_cte. ring.
    + rewrite IH by lia. rewrite (Hf (S N)) by lia. ring.
Qed.
Lemma G_0_r a r : G a 0 r a = r ^ a.
Proof.
  unfold G. rewrite (sum_single _ a a) by
   (try lia; intros i Hi; rewrite <- (cmn_nat (Z.of_nat a) (Z.of_nat a)) by lia;
    rewrite cmn_diag by (try (split; [lia|split; [lia|exists 0%Z; lia]]); lia);
    replace (Z.of_nat i =? Z.of_nat a)%Z with false by lia; ring).
  rewrite <- (cmn_nat (Z.of_nat a) (Z.of_nat a)) by lia.
  rewrite cmn_diag by (try (split; [lia|split; [lia|exists 0%Z; lia]]); lia).
  rewrite Z.eqb_refl. ring.
Qed.
Lemma G_F r : forall N a b, (a + b <= N)%nat -> G a b r (a + b) = F a b r.
Proof.
  induction N as [N IH] using lt_wf_ind. intros a b H. destruct a as [|a].
  - rewrite F_sym, F_0_r. cbn [plus]. unfold G. rewrite (sum_eq _ (fun p => IZR (coef b 0 (Z.of_nat p)) * r ^ p)).
    + apply G_0_r.
    + intros i _. rewrite coef_sym. reflexivity.
  - destruct b as [|b].
    + rewrite F_0_r. rewrite Nat.add_0_r. apply G_0_r.
    + rewrite F_rec. rewrite <- (IH (N - 1)%nat) by lia. rewrite <- (IH (N - 1)%nat ltac:(lia) (S a) b) by lia.
      rewrite <- (IH (N - 1)%nat ltac:(lia) a b) by lia.
      replace (S a + S b)%nat with (S (S (a + b))) by lia.
      replace (a + S b)%nat with (S (a + b)) by lia. replace (S a + b)%nat with (S (a + b)) by lia.
      rewrite Rmult_plus_distr_l, <- !G_shift, <- (G_extend a b r (S (S (a + b)))) by lia.
      unfold G. rewrite <- plus_sum, <- minus_sum. apply sum_eq. intros i Hi.
      rewrite coef_rec, minus_IZR, plus_IZR. ring.
Qed.

Lemma eval_dict_acc d r : forall acc, eval_dict d r acc = acc + dict_value d r.
Proof.
  induction d as [|[k v] d IH]; intros acc; cbn [eval_dict dict_value fold_right fst snd]; [ring|].
  fold (dict_value d r). rewrite IH. destruct (Z.ltb_spec 0 (Z.abs v)); [ring|].
  assert (v = 0)%Z by lia. subst v. ring.
Qed.
Lemma dict_value_can f r k : forall s, (0 <= s)%Z ->
  dict_value (can s f (S k)) r = sum_f_R0 (fun i => IZR (f (s + Z.of_nat i)%Z) * r ^ (Z.to_nat s + i)) k.
Proof.
  induction k as [|k IH]; intros s Hs.
  - cbn. rewrite Z.add_0_r, Nat.add_0_r, Rplus_0_r. rewrite (powerRZ_nat r (Z.to_nat s)) by lia. reflexivity.
  - rewrite can_S. cbn [dict_value fold_right fst snd]. fold (dict_value (can (s + 1) f (S k)) r).
    rewrite IH by lia. rewrite (decomp_sum _ (S k)) by lia. cbn [pred].
    change (Z.of_nat 0) with 0%Z. rewrite (Z.add_0_r s), (Nat.add_0_r (Z.to_nat s)). rewrite (powerRZ_nat r (Z.to_nat s)) by lia. f_equal.
    apply sum_eq. intros i Hi. replace (s + 1 + Z.of_nat i)%Z with (s + Z.of_nat (S i))%Z by lia.
    replace (Z.to_nat (s + 1) + i)%nat with (Z.to_nat s + S i)%nat by lia. reflexivity.
Qed.
Lemma cdict_value m n r : valid m n -> dict_value (cdict m n) r = Fmn m n r.
Proof.
  intros V. destruct (oab m n V) as (H1 & H2 & H3). pose proof V as (Hn & _). unfold cdict.
  replace (Z.to_nat (n + 1)) with (S (Z.to_nat n)) by lia. rewrite dict_value_can by lia.
  unfold Fmn. rewrite <- (G_F r (oa m n + ob m n)) by lia. unfold G.
  replace (oa m n + ob m n)%nat with (Z.to_nat n) by lia.
  apply sum_eq. intros i Hi. reflexivity.
Qed.
Lemma ddict_value m n r : valid m n -> (1 <= n)%Z -> derivable_pt_lim (Fmn m n) r (dict_value (ddict m n) r).
Proof.
  intros V Hn. unfold ddict. replace (Z.to_nat n) with (S (Z.to_nat (n - 1))) by lia. rewrite dict_value_can by lia.
  destruct (oab m n V) as (H1 & H2 & H3).
  apply dlim_ext with (f := fun x => sum_f_R0 (fun p => IZR (cmn m n (Z.of_nat p)) * x ^ p) (Z.to_nat n)).
  { intros y. unfold Fmn. rewrite <- (G_F y (oa m n + ob m n)) by lia. unfold G.
    replace (oa m n + ob m n)%nat with (Z.to_nat n) by lia. reflexivity. }
  replace (Z.to_nat n) with (S (Z.to_nat (n - 1))) by lia.
  eapply dlim_eq; [|apply (dlim_sum (fun p x => IZR (cmn m n (Z.of_nat p)) * x ^ p)
     (fun p => IZR (cmn m n (Z.of_nat p)) * (INR p * r ^ pred p)))].
  - rewrite decomp_sum by lia. cbn [pred]. change (INR 0) with 0. rewrite Rmult_0_l, Rmult_0_r, Rplus_0_l.
    apply sum_eq. intros i Hi. rewrite Z.add_0_l. cbn [Z.to_nat plus pred]. unfold dmn.
    rewrite mult_IZR. rewrite INR_IZR_INZ. replace (Z.of_nat i + 1)%Z with (Z.of_nat (S i)) by lia. ring.
  - intros k. apply dlim_scal. apply derivable_pt_lim_pow.
Qed.
