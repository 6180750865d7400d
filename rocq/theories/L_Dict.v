(** Dictionaries with keys s, s+1, ... and the dictionary operations of find_pols_coeffs.py. *)
From Coq Require Import Arith.
From Verif Require Import Py M_Coeffs.
Open Scope Z_scope.

Definition can (s : Z) (f : Z -> Z) (k : nat) : dict := map (fun i => (i, f i)) (zrange s k).

Lemma can_S s f k : can s f (S k) = (s, f s) :: can (s + 1) f k.
Proof. reflexivity. Qed.
Lemma can_ext s f g k : (forall i, s <= i < s + Z.of_nat k -> f i = g i) -> can s f k = can s g k.
Proof.
  revert s. induction k as [|k IH]; intros s H; [reflexivity|].
  rewrite !can_S. rewrite H by lia. f_equal. apply IH. intros. apply H. lia.
Qed.
Lemma can_snoc s f k : can s f (S k) = can s f k ++ [(s + Z.of_nat k, f (s + Z.of_nat k))].
Proof.
  revert s. induction k as [|k IH]; intros s.
  - unfold can. simpl. rewrite Z.add_0_r. reflexivity.
  - rewrite (can_S s f (S k)), IH, can_S. cbn [app].
    replace (s + 1 + Z.of_nat k) with (s + Z.of_nat (S k)) by lia. reflexivity.
Qed.
Lemma dzeros_can k : dzeros k = can 0 (fun _ => 0) (Z.to_nat k).
Proof. reflexivity. Qed.

Definition upd (f : Z -> Z) (p v : Z) : Z -> Z := fun i => if i =? p then v else f i.

Lemma dget_can s f k p : dget p (can s f k) = if (s <=? p) && (p <? s + Z.of_nat k) then Some (f p) else None.
Proof.
  revert s. induction k as [|k IH]; intros s.
  - simpl. destruct (Z.leb_spec s p); destruct (Z.ltb_spec p (s + 0)); reflexivity || lia.
  - rewrite can_S. cbn [dget]. destruct (Z.eqb_spec p s) as [->|N].
    + replace ((s <=? s) && (s <? s + Z.of_nat (S k))) with true by lia. reflexivity.
    + rewrite IH. replace ((s <=? p) && (p <? s + Z.of_nat (S k))) with ((s + 1 <=? p) && (p <? s + 1 + Z.of_nat k)) by lia.
      reflexivity.
Qed.
Lemma dset_can s f k p v : s <= p < s + Z.of_nat k -> dset p v (can s f k) = can s (upd f p v) k.
Proof.
  revert s. induction k as [|k IH]; intros s H; [lia|].
  rewrite !can_S. cbn [dset]. unfold upd at 1. rewrite (Z.eqb_sym s p). destruct (Z.eqb_spec p s) as [->|N].
  - f_equal. apply can_ext. intros i Hi. unfold upd. destruct (Z.eqb_spec i s); [lia|reflexivity].
  - f_equal. apply IH. lia.
Qed.
Lemma dset_can_end s f k p v : p = s + Z.of_nat k -> dset p v (can s f k) = can s (upd f p v) (S k).
Proof.
  revert s. induction k as [|k IH]; intros s ->.
  - unfold can, upd. simpl. rewrite Z.add_0_r, Z.eqb_refl. reflexivity.
  - rewrite can_S. cbn [dset]. destruct (Z.eqb_spec (s + Z.of_nat (S k)) s); [lia|].
    rewrite (IH (s + 1)) by lia. rewrite (can_S s _ (S k)). unfold upd at 2.
    destruct (Z.eqb_spec s (s + Z.of_nat (S k))); [lia|].
    replace (s + 1 + Z.of_nat k) with (s + Z.of_nat (S k)) by lia. reflexivity.
Qed.
Lemma dpop_can_end s f k p : p = s + Z.of_nat k -> dpop p (can s f (S k)) = can s f k.
Proof.
  revert s. induction k as [|k IH]; intros s ->.
  - unfold can. simpl. rewrite Z.add_0_r, Z.eqb_refl. reflexivity.
  - rewrite can_S. cbn [dpop]. destruct (Z.eqb_spec (s + Z.of_nat (S k)) s); [lia|].
    rewrite (can_S s f k). f_equal. apply IH. lia.
Qed.
Lemma fold_max_can k : forall s f a, a = s - 1 ->
  fold_left (fun acc e => Z.max acc (fst e)) (can s f k) a = s + Z.of_nat k - 1.
Proof.
  induction k as [|k IH]; intros s f a ->; [simpl; lia|].
  rewrite can_S. cbn [fold_left fst]. rewrite IH; lia.
Qed.
Lemma dmaxkey_can f k : dmaxkey (can 0 f (S k)) = Ok (Z.of_nat k).
Proof. rewrite can_S. cbn [dmaxkey]. rewrite fold_max_can by lia. f_equal. lia. Qed.

Lemma make_loop_can minus g j : forall s f k, 0 <= s -> s + Z.of_nat j <= Z.of_nat k ->
  make_loop (can s g j) minus (can 0 f k) =
  Ok (can 0 (fun i => if (s <=? i) && (i <? s + Z.of_nat j) then (if minus then - g i else g i) else f i) k).
Proof.
  induction j as [|j IH]; intros s f k H0 H.
  - simpl. f_equal. apply can_ext. intros i Hi. replace ((s <=? i) && (i <? s + 0)) with false by lia. reflexivity.
  - rewrite can_S. cbn [make_loop]. rewrite dget_can.
    replace ((0 <=? s) && (s <? 0 + Z.of_nat k)) with true by lia.
    rewrite dset_can by lia. rewrite IH by lia. f_equal. apply can_ext. intros i Hi. unfold upd.
    destruct (Z.eqb_spec i s) as [->|N].
    + replace ((s + 1 <=? s) && (s <? s + 1 + Z.of_nat j)) with false by lia.
      replace ((s <=? s) && (s <? s + Z.of_nat (S j))) with true by lia. reflexivity.
    + replace ((s <=? i) && (i <? s + Z.of_nat (S j))) with ((s + 1 <=? i) && (i <? s + 1 + Z.of_nat j)) by lia.
      reflexivity.
Qed.

Lemma sum_loop_can g j : forall s f k, 0 <= s -> s + Z.of_nat j <= Z.of_nat k ->
  sum_loop (can s g j) (can 0 f k) =
  Ok (can 0 (fun i => f i + if (s <=? i) && (i <? s + Z.of_nat j) then g i else 0) k).
Proof.
  induction j as [|j IH]; intros s f k H0 H.
  - simpl. f_equal. apply can_ext. intros i Hi. replace ((s <=? i) && (i <? s + 0)) with false by lia. lia.
  - rewrite can_S. cbn [sum_loop]. rewrite dget_can.
    replace ((0 <=? s) && (s <? 0 + Z.of_nat k)) with true by lia.
    rewrite dset_can by lia. rewrite IH by lia. f_equal. apply can_ext. intros i Hi. unfold upd.
    destruct (Z.eqb_spec i s) as [->|N].
    + replace ((s + 1 <=? s) && (s <? s + 1 + Z.of_nat j)) with false by lia.
      replace ((s <=? s) && (s <? s + Z.of_nat (S j))) with true by lia. lia.
    + replace ((s <=? i) && (i <? s + Z.of_nat (S j))) with ((s + 1 <=? i) && (i <? s + 1 + Z.of_nat j)) by lia.
      reflexivity.
Qed.

Lemma inc_loop_can g j : forall s f k, 0 <= s + 1 -> s + 1 + Z.of_nat j <= Z.of_nat k ->
  inc_loop (can s g j) (can 0 f k) =
  can 0 (fun i => if (s + 1 <=? i) && (i <? s + 1 + Z.of_nat j) && negb (g (i - 1) =? 0) then g (i - 1) else f i) k.
Proof.
  induction j as [|j IH]; intros s f k H0 H.
  - simpl. apply can_ext. intros i Hi. replace ((s + 1 <=? i) && (i <? s + 1 + 0)) with false by lia. reflexivity.
  - rewrite can_S. cbn [inc_loop].
    assert (E : (if 0 <? Z.abs (g s) then dset (s + 1) (g s) (can 0 f k) else can 0 f k)
                = can 0 (fun i => if (i =? s + 1) && negb (g s =? 0) then g s else f i) k).
    { destruct (Z.ltb_spec 0 (Z.abs (g s))).
      - rewrite dset_can by lia. apply can_ext. intros i Hi. unfold upd.
        replace (negb (g s =? 0)) with true by lia. rewrite andb_true_r. reflexivity.
      - apply can_ext. intros i Hi. replace (negb (g s =? 0)) with false by lia. rewrite andb_false_r. reflexivity. }
    rewrite E. rewrite IH by lia. apply can_ext. intros i Hi.
    destruct (Z.eqb_spec i (s + 1)) as [->|N].
    + replace (s + 1 - 1) with s by lia.
      replace ((s + 1 + 1 <=? s + 1) && (s + 1 <? s + 1 + 1 + Z.of_nat j)) with false by lia.
      replace ((s + 1 <=? s + 1) && (s + 1 <? s + 1 + Z.of_nat (S j))) with true by lia. reflexivity.
    + replace ((s + 1 <=? i) && (i <? s + 1 + Z.of_nat (S j))) with ((s + 1 + 1 <=? i) && (i <? s + 1 + 1 + Z.of_nat j)) by lia.
      reflexivity.
Qed.

Lemma inc_loop_app a b acc : inc_loop (a ++ b) acc = inc_loop b (inc_loop a acc).
Proof. revert acc. induction a as [|[k v] a IH]; intros acc; [reflexivity|]. simpl. apply IH. Qed.

(** increase_order_coeffs multiplies by r when the top coefficient is not 0 *)
Lemma increase_can g k : g (Z.of_nat k) <> 0 -> g (-1) = 0 ->
  increase_order_coeffs (can 0 g (S k)) = Ok (can 0 (fun i => g (i - 1)) (S (S k))).
Proof.
  intros Hg H1. unfold increase_order_coeffs. rewrite dmaxkey_can. cbn [bind]. f_equal.
  rewrite dzeros_can. replace (Z.to_nat (Z.of_nat k + 1)) with (S k) by lia.
  rewrite (can_snoc 0 g k), inc_loop_app.
  rewrite inc_loop_can by lia. cbn [inc_loop].
  replace (0 <? Z.abs (g (0 + Z.of_nat k))) with true by (rewrite Z.add_0_l; lia).
  rewrite dset_can_end by lia. apply can_ext. intros i Hi. unfold upd.
  destruct (Z.eqb_spec i (0 + Z.of_nat k + 1)) as [->|N].
  - f_equal. lia.
  - destruct (Z.eqb_spec (g (i - 1)) 0) as [E|E].
    + rewrite andb_false_r. symmetry. exact E.
    + rewrite andb_true_r. destruct ((0 + 1 <=? i) && (i <? 0 + 1 + Z.of_nat k)) eqn:B; [reflexivity|].
      exfalso. apply E. replace (i - 1) with (-1) by lia. exact H1.
Qed.

Lemma make_can minus g j mx : Z.of_nat j <= mx + 1 -> (forall i, Z.of_nat j <= i -> g i = 0) ->
  make_orders_coeffs (can 0 g j) mx minus =
  Ok (can 0 (fun i => if minus then - g i else g i) (Z.to_nat (mx + 1))).
Proof.
  intros H Hz. unfold make_orders_coeffs. rewrite dzeros_can, make_loop_can by lia. f_equal.
  apply can_ext. intros i Hi. destruct ((0 <=? i) && (i <? 0 + Z.of_nat j)) eqn:B; [reflexivity|].
  rewrite Hz by lia. destruct minus; reflexivity.
Qed.

Lemma sum_can g j f k : Z.of_nat j <= Z.of_nat k -> (forall i, Z.of_nat j <= i -> g i = 0) ->
  sum_loop (can 0 g j) (can 0 f k) = Ok (can 0 (fun i => f i + g i) k).
Proof.
  intros H Hz. rewrite sum_loop_can by lia. f_equal. apply can_ext. intros i Hi.
  destruct ((0 <=? i) && (i <? 0 + Z.of_nat j)) eqn:B; [reflexivity|]. rewrite Hz by lia. reflexivity.
Qed.

Lemma sum_args_can (gs : list (nat * (Z -> Z))) k :
  (forall j g, In (j, g) gs -> Z.of_nat j <= Z.of_nat k /\ forall i, Z.of_nat j <= i -> g i = 0) ->
  forall f, sum_args (map (fun e => can 0 (snd e) (fst e)) gs) (can 0 f k) =
  Ok (can 0 (fun i => fold_left (fun acc e => acc + snd e i) gs (f i)) k).
Proof.
  induction gs as [|[j g] gs IH]; intros H f; [reflexivity|].
  cbn [map sum_args fst snd]. destruct (H j g (or_introl eq_refl)) as [H1 H2].
  rewrite sum_can by assumption. cbn [bind]. rewrite IH; [reflexivity|].
  intros j' g' Hin. apply H. right. exact Hin.
Qed.

(** key lookups *)
Lemma orders_eqb_eq a b : orders_eqb a b = true <-> a = b.
Proof.
  unfold orders_eqb. destruct a, b. simpl. rewrite andb_true_iff, !Z.eqb_eq. split; [intros [-> ->]; reflexivity|].
  intros [= -> ->]. auto.
Qed.
Lemma lrukey_eqb_eq a b : lrukey_eqb a b = true <-> a = b.
Proof.
  unfold lrukey_eqb. destruct a as [fa oa], b as [fb ob]. simpl. rewrite andb_true_iff, orders_eqb_eq.
  split.
  - intros [H ->]. f_equal. destruct fa, fb; simpl in H; try discriminate; try reflexivity;
      apply eqb_prop in H; subst; reflexivity.
  - intros [= -> ->]. split; [|reflexivity]. destruct fb; simpl; try reflexivity; apply eqb_reflx.
Qed.
Lemma assoc_in {K V} (eqb : K -> K -> bool) (H : forall a b, eqb a b = true <-> a = b) (k : K) (l : list (K * V)) v :
  assoc eqb k l = Some v -> In (k, v) l.
Proof.
  induction l as [|[k' v'] l IH]; simpl; [discriminate|]. destruct (eqb k k') eqn:E.
  - intros [= ->]. apply H in E. subst. left. reflexivity.
  - intros X. right. auto.
Qed.
