(** Proofs about the coefficient dictionaries and their caches (C18, C19). *)
From Coq Require Import Arith.
From Verif Require Import Py SpecIndex RadialMath L_Index M_Coeffs L_Dict.
Open Scope Z_scope.

(** coefficient of r^p *)
Definition coef (a b : nat) (p : Z) : Z :=
  let d := Z.of_nat (a + b) - p in
  if (0 <=? d) && (d mod 2 =? 0) then cz a b (Z.to_nat (d / 2)) else 0.
Definition cmn (m n p : Z) : Z := coef (oa m n) (ob m n) p.

Lemma coef_at a b k p : p = Z.of_nat (a + b) - 2 * Z.of_nat k -> coef a b p = cz a b k.
Proof.
  intros ->. unfold coef. replace (Z.of_nat (a + b) - (Z.of_nat (a + b) - 2 * Z.of_nat k)) with (Z.of_nat k * 2) by lia.
  rewrite Z.mod_mul, Z.div_mul by lia. replace ((0 <=? Z.of_nat k * 2) && (0 =? 0)) with true by lia.
  rewrite Nat2Z.id. reflexivity.
Qed.
Lemma coef_out a b p : p < 0 \/ Z.of_nat (a + b) < p -> coef a b p = 0.
Proof.
  intros H. unfold coef. destruct ((0 <=? _) && _) eqn:B; [|reflexivity].
  apply cz_zero. assert (E : (Z.of_nat (a + b) - p) mod 2 = 0) by lia.
  pose proof (Z.div_mod (Z.of_nat (a + b) - p) 2 ltac:(lia)). lia.
Qed.
Lemma coef_odd a b p : (Z.of_nat (a + b) - p) mod 2 <> 0 -> coef a b p = 0.
Proof. intros H. unfold coef. replace ((Z.of_nat (a + b) - p) mod 2 =? 0) with false by lia. rewrite andb_false_r. reflexivity. Qed.
Lemma coef_sym a b p : coef a b p = coef b a p.
Proof. unfold coef. rewrite (Nat.add_comm b a), cz_sym. reflexivity. Qed.

Lemma coef_rec a b p : coef (S a) (S b) p = coef a (S b) (p - 1) + coef (S a) b (p - 1) - coef a b p.
Proof.
  set (d := Z.of_nat (S a + S b) - p). destruct (Z.eq_dec (d mod 2) 0) as [E|E].
  - pose proof (Z.div_mod d 2 ltac:(lia)) as D. set (q := d / 2) in *. 
    destruct (Z_lt_le_dec q 0).
    + rewrite !coef_out by lia. reflexivity.
    + rewrite (coef_at (S a) (S b) (Z.to_nat q)) by lia.
      rewrite (coef_at a (S b) (Z.to_nat q)) by lia. rewrite (coef_at (S a) b (Z.to_nat q)) by lia.
      destruct (Z.to_nat q) as [|k] eqn:K.
      * rewrite cz_rec0. rewrite (coef_out a b p) by lia. ring.
      * rewrite cz_recS. rewrite (coef_at a b k p) by lia. ring.
  - rewrite (coef_odd (S a) (S b)) by (unfold d in E; exact E).
    rewrite (coef_odd a (S b)), (coef_odd (S a) b), (coef_odd a b); [reflexivity| | |].
    + intros X. apply E. unfold d. replace (Z.of_nat (S a + S b) - p) with (Z.of_nat (a + b) - p + 1 * 2) by lia. rewrite Z.mod_add; lia.
    + intros X. apply E. unfold d. replace (Z.of_nat (S a + S b) - p) with (Z.of_nat (S a + b) - (p - 1)) by lia. exact X.
    + intros X. apply E. unfold d. replace (Z.of_nat (S a + S b) - p) with (Z.of_nat (a + S b) - (p - 1)) by lia. exact X.
Qed.

Lemma binom_pos n : forall k, (k <= n)%nat -> 0 < binom n k.
Proof.
  induction n as [|n IH]; intros [|k] H; try (rewrite ?binom_0_r; lia). 
  rewrite binom_S. pose proof (IH k ltac:(lia)). destruct (le_lt_dec (S k) n).
  - pose proof (IH (S k) ltac:(lia)). lia.
  - rewrite (binom_big n (S k)) by lia. lia.
Qed.
Lemma coef_top a b : 0 < coef a b (Z.of_nat (a + b)).
Proof.
  rewrite (coef_at a b 0) by lia. unfold cz. cbn [Nat.leb andb]. rewrite !Nat.sub_0_r. unfold Tri.
  rewrite binom_0_r. change (Z.of_nat 0) with 0. change ((-1) ^ 0) with 1.
  pose proof (binom_pos (a + b) a ltac:(lia)). lia.
Qed.

Lemma cmn_nat m n p a b : Z.of_nat a + Z.of_nat b = n -> Z.of_nat a - Z.of_nat b = Z.abs m -> cmn m n p = coef a b p.
Proof. intros H1 H2. unfold cmn. destruct (oab_eq m n a b H1 H2) as [-> ->]. reflexivity. Qed.
Lemma cmn_out m n p : valid m n -> p < 0 \/ n < p -> cmn m n p = 0.
Proof. intros V H. destruct (oab m n V) as (_ & H2 & _). apply coef_out. lia. Qed.
Lemma cmn_top m n : valid m n -> 0 < cmn m n n.
Proof.
  intros V. destruct (oab m n V) as (_ & H2 & _). unfold cmn.
  replace n with (Z.of_nat (oa m n + ob m n)) at 3 by lia. apply coef_top.
Qed.
Lemma cmn_rec m n p : valid m n -> Z.abs m < n ->
  cmn m n p = cmn (Z.abs (m - 1)) (n - 1) (p - 1) + cmn (m + 1) (n - 1) (p - 1) - cmn m (n - 2) p.
Proof.
  intros V H. destruct (oab m n V) as (H1 & H2 & H3).
  destruct (oa m n) as [|a] eqn:Ea; [lia|]. destruct (ob m n) as [|b] eqn:Eb; [lia|].
  rewrite (cmn_nat m n p (S a) (S b)) by lia.
  rewrite (cmn_nat m (n - 2) p a b) by lia.
  rewrite coef_rec. f_equal.
  destruct (Z_le_gt_dec 1 m).
  - rewrite (cmn_nat (Z.abs (m - 1)) (n - 1) (p - 1) a (S b)) by lia.
    rewrite (cmn_nat (m + 1) (n - 1) (p - 1) (S a) b) by lia. reflexivity.
  - destruct (Z.eq_dec m 0) as [->|D].
    + assert (a = b) by lia. subst b.
      rewrite (coef_sym a (S a)).
      rewrite (cmn_nat (Z.abs (0 - 1)) (n - 1) (p - 1) (S a) a) by lia.
      rewrite (cmn_nat (0 + 1) (n - 1) (p - 1) (S a) a) by lia. ring.
    + rewrite (cmn_nat (Z.abs (m - 1)) (n - 1) (p - 1) (S a) b) by lia.
      rewrite (cmn_nat (m + 1) (n - 1) (p - 1) a (S b)) by lia. ring.
Qed.

(** derivative coefficients *)
Definition dmn (m n p : Z) : Z := (p + 1) * cmn m n (p + 1).
Lemma dmn_out m n p : valid m n -> p < 0 \/ n <= p -> dmn m n p = 0.
Proof.
  intros V H. unfold dmn. destruct (Z.eq_dec p (-1)) as [->|]; [reflexivity|].
  rewrite cmn_out by (assumption || lia). lia.
Qed.
Lemma dmn_top m n : valid m n -> 1 <= n -> 0 < dmn m n (n - 1).
Proof.
  intros V H. unfold dmn. replace (n - 1 + 1) with n by lia.
  apply Z.mul_pos_pos; [lia|apply cmn_top, V].
Qed.
Lemma dmn_rec m n p : valid m n -> Z.abs m < n ->
  dmn m n p = cmn (Z.abs (m - 1)) (n - 1) p + cmn (m + 1) (n - 1) p
            + dmn (Z.abs (m - 1)) (n - 1) (p - 1) + dmn (m + 1) (n - 1) (p - 1) - dmn m (n - 2) p.
Proof.
  intros V H. unfold dmn. rewrite (cmn_rec m n) by assumption.
  replace (p + 1 - 1) with p by lia. replace (p - 1 + 1) with p by lia. ring.
Qed.

(** the dictionaries the functions must return *)
Definition cdict (m n : Z) : dict := can 0 (cmn m n) (Z.to_nat (n + 1)).
Definition ddict (m n : Z) : dict := can 0 (dmn m n) (Z.to_nat n).

(** ** special orders *)
Lemma cmn_diag m n p : valid m n -> Z.abs m = n -> cmn m n p = if p =? n then 1 else 0.
Proof.
  intros V H. destruct V as (Hn & _). rewrite (cmn_nat m n p (Z.to_nat n) 0) by lia.
  destruct (Z.eqb_spec p n) as [->|N].
  - rewrite (coef_at _ _ 0) by lia. unfold cz. cbn [Nat.leb andb]. rewrite !Nat.sub_0_r.
    unfold Tri. rewrite !Nat.add_0_r, binom_0_r, binom_diag. reflexivity.
  - unfold coef. destruct ((0 <=? _) && _) eqn:B; [|reflexivity]. apply cz_zero. right.
    pose proof (Z.div_mod (Z.of_nat (Z.to_nat n + 0) - p) 2 ltac:(lia)). lia.
Qed.
Lemma binom_1_r n : binom n 1 = Z.of_nat n.
Proof. induction n as [|n IH]; [reflexivity|]. rewrite binom_S, binom_0_r, IH. lia. Qed.
Lemma binom_S_diag n : binom (S n) n = Z.of_nat (S n).
Proof.
  induction n as [|n IH]; [reflexivity|]. rewrite binom_S, IH, binom_diag. lia.
Qed.
Lemma cmn_sub m n p : valid m n -> Z.abs m = n - 2 ->
  cmn m n p = if p =? n then n else if p =? n - 2 then - (n - 1) else 0.
Proof.
  intros V H. set (a := Z.to_nat (n - 2)). assert (Hn : n = Z.of_nat (S (S a))) by lia. clearbody a. subst n.
  rewrite (cmn_nat m _ p (S a) 1) by lia.
  destruct (Z.eqb_spec p (Z.of_nat (S (S a)))) as [->|N].
  - rewrite (coef_at _ _ 0) by lia. unfold cz. cbn [Nat.leb andb]. rewrite !Nat.sub_0_r.
    unfold Tri. rewrite binom_0_r. replace (S a + 1)%nat with (S (S a)) by lia. rewrite binom_S_diag.
    change ((-1) ^ Z.of_nat 0) with 1. lia.
  - destruct (Z.eqb_spec p (Z.of_nat (S (S a)) - 2)) as [->|N2].
    + rewrite (coef_at _ _ 1) by lia. unfold cz. cbn [Nat.leb andb]. simpl (S a - 1)%nat. simpl (1 - 1)%nat.
      rewrite Nat.sub_0_r. unfold Tri. rewrite !Nat.add_0_r, binom_1_r, binom_diag.
      change ((-1) ^ Z.of_nat 1) with (-1). lia.
    + unfold coef. destruct ((0 <=? _) && _) eqn:B; [|reflexivity]. apply cz_zero. right.
      pose proof (Z.div_mod (Z.of_nat (S a + 1) - p) 2 ltac:(lia)). lia.
Qed.

Lemma special_ok m n : valid m n ->
  check_special_orders m n =
  Ok (if (Z.abs m =? n) || (Z.abs m =? n - 2) then Some (cdict m n) else None).
Proof.
  intros V. pose proof V as (Hn & _). unfold check_special_orders.
  destruct (Z.eqb_spec (Z.abs m) n) as [E|NE].
  - cbn [orb]. unfold make_orders_coeffs. cbn [make_loop]. rewrite dzeros_can, dget_can.
    replace ((0 <=? n) && (n <? 0 + Z.of_nat (Z.to_nat (n + 1)))) with true by lia.
    rewrite dset_can by lia. cbn [bind]. do 2 f_equal. unfold cdict. apply can_ext. intros i Hi.
    rewrite (cmn_diag m n i V E). unfold upd. reflexivity.
  - destruct (Z.eqb_spec (Z.abs m) (n - 2)) as [E|NE2]; [|reflexivity].
    cbn [orb]. unfold make_orders_coeffs. cbn [make_loop]. rewrite dzeros_can, dget_can.
    replace ((0 <=? n) && (n <? 0 + Z.of_nat (Z.to_nat (n + 1)))) with true by lia.
    rewrite dset_can by lia. rewrite dget_can.
    replace ((0 <=? n - 2) && (n - 2 <? 0 + Z.of_nat (Z.to_nat (n + 1)))) with true by lia.
    rewrite dset_can by lia. cbn [bind]. do 2 f_equal. unfold cdict. apply can_ext. intros i Hi.
    rewrite (cmn_sub m n i V E). unfold upd.
    destruct (Z.eqb_spec i (n - 2)), (Z.eqb_spec i n); try reflexivity; lia.
Qed.

Definition special_dr (m n : Z) : bool := (Z.abs m =? n) || (Z.abs m =? n - 2).
Lemma special_dr_ok m n : valid m n ->
  check_special_orders_dr m n =
  (if special_dr m n then
     if (0 <? Z.abs m) then Ok (Some (ddict m n)) else Raise ValueError
   else Ok None).
Proof.
  intros V. pose proof V as (Hn & _). unfold check_special_orders_dr, special_dr.
  destruct (Z.eqb_spec (Z.abs m) n) as [E|NE].
  - cbn [orb]. unfold make_orders_coeffs. cbn [make_loop]. rewrite dzeros_can, dget_can.
    destruct (Z.ltb_spec 0 (Z.abs m)).
    + replace ((0 <=? n - 1) && (n - 1 <? 0 + Z.of_nat (Z.to_nat (n - 1 + 1)))) with true by lia.
      rewrite dset_can by lia. cbn [bind]. do 2 f_equal. unfold ddict. rewrite Z.sub_add. apply can_ext. intros i Hi.
      unfold dmn. rewrite (cmn_diag m n _ V E). unfold upd.
      destruct (Z.eqb_spec i (n - 1)), (Z.eqb_spec (i + 1) n); lia.
    + replace ((0 <=? n - 1) && (n - 1 <? 0 + Z.of_nat (Z.to_nat (n - 1 + 1)))) with false by lia. reflexivity.
  - destruct (Z.eqb_spec (Z.abs m) (n - 2)) as [E|NE2]; [|reflexivity].
    cbn [orb]. unfold make_orders_coeffs. cbn [make_loop]. rewrite dzeros_can, dget_can.
    replace ((0 <=? n - 1) && (n - 1 <? 0 + Z.of_nat (Z.to_nat (n - 1 + 1)))) with true by lia.
    rewrite dset_can by lia. rewrite dget_can.
    destruct (Z.ltb_spec 0 (Z.abs m)).
    + replace ((0 <=? n - 3) && (n - 3 <? 0 + Z.of_nat (Z.to_nat (n - 1 + 1)))) with true by lia.
      rewrite dset_can by lia. cbn [bind]. do 2 f_equal. unfold ddict. rewrite Z.sub_add. apply can_ext. intros i Hi.
      unfold dmn. rewrite (cmn_sub m n _ V E). unfold upd.
      destruct (Z.eqb_spec i (n - 3)), (Z.eqb_spec i (n - 1)), (Z.eqb_spec (i + 1) n), (Z.eqb_spec (i + 1) (n - 2)); nia.
    + replace ((0 <=? n - 3) && (n - 3 <? 0 + Z.of_nat (Z.to_nat (n - 1 + 1)))) with false by lia. reflexivity.
Qed.

(** ** the recurrence step on dictionaries *)
Lemma inc_cdict m n : valid m n -> increase_order_coeffs (cdict m n) = Ok (can 0 (fun p => cmn m n (p - 1)) (Z.to_nat (n + 2))).
Proof.
  intros V. pose proof V as (Hn & _). unfold cdict. replace (Z.to_nat (n + 1)) with (S (Z.to_nat n)) by lia.
  rewrite increase_can.
  - replace (Z.to_nat (n + 2)) with (S (S (Z.to_nat n))) by lia. reflexivity.
  - rewrite Z2Nat.id by lia. pose proof (cmn_top m n V). lia.
  - apply cmn_out; [assumption|lia].
Qed.
Lemma inc_ddict m n : valid m n -> 1 <= n -> increase_order_coeffs (ddict m n) = Ok (can 0 (fun p => dmn m n (p - 1)) (Z.to_nat (n + 1))).
Proof.
  intros V Hn. unfold ddict. replace (Z.to_nat n) with (S (Z.to_nat (n - 1))) by lia.
  rewrite increase_can.
  - replace (Z.to_nat (n + 1)) with (S (S (Z.to_nat (n - 1)))) by lia. reflexivity.
  - rewrite Z2Nat.id by lia. pose proof (dmn_top m n V Hn). lia.
  - apply dmn_out; [assumption|lia].
Qed.

Lemma step_c m n : valid m n -> Z.abs m < n ->
  valid (Z.abs (m - 1)) (n - 1) -> valid (m + 1) (n - 1) -> valid m (n - 2) ->
  exists a b c,
    increase_order_coeffs (cdict (Z.abs (m - 1)) (n - 1)) = Ok a /\
    increase_order_coeffs (cdict (m + 1) (n - 1)) = Ok b /\
    make_orders_coeffs (cdict m (n - 2)) (n - 2) true = Ok c /\
    sum_orders_coeffs n [a; b; c] = Ok (cdict m n).
Proof.
  intros V H V1 V2 V3. pose proof V3 as (Hn & _). do 3 eexists.
  split; [apply inc_cdict, V1|]. split; [apply inc_cdict, V2|].
  split. { unfold cdict at 1. apply make_can; [lia|]. intros i Hi. apply cmn_out; [assumption|lia]. }
  unfold sum_orders_coeffs. rewrite dzeros_can.
  match goal with |- bind (sum_args [can 0 ?f ?i; can 0 ?g ?j; can 0 ?h ?l] _) _ = _ =>
    pose proof (sum_args_can [(i, f); (j, g); (l, h)] (Z.to_nat (n + 1))) as S end.
  cbn [map fst snd] in S. rewrite S. 2:{
    intros j g [E|[E|[E|[]]]]; injection E as <- <-; (split; [lia|]); intros i Hi; cbv beta;
      rewrite cmn_out by (assumption || lia); reflexivity. }
  clear S. cbn [bind fold_left snd].
  rewrite (can_ext 0 _ (cmn m n) (Z.to_nat (n + 1))).
  2:{ intros i Hi. rewrite (cmn_rec m n i V H). lia. }
  rewrite dget_can. replace ((0 <=? n) && (n <? 0 + Z.of_nat (Z.to_nat (n + 1)))) with true by lia.
  pose proof (cmn_top m n V). replace (cmn m n n =? 0) with false by lia. reflexivity.
Qed.

Lemma step_d m n : valid m n -> Z.abs m <= n - 4 ->
  valid (Z.abs (m - 1)) (n - 1) -> valid (m + 1) (n - 1) -> valid m (n - 2) ->
  exists da db dc,
    increase_order_coeffs (ddict (Z.abs (m - 1)) (n - 1)) = Ok da /\
    increase_order_coeffs (ddict (m + 1) (n - 1)) = Ok db /\
    make_orders_coeffs (ddict m (n - 2)) (n - 2) true = Ok dc /\
    sum_orders_coeffs n [cdict (Z.abs (m - 1)) (n - 1); cdict (m + 1) (n - 1); da; db; dc] = Ok (ddict m n).
Proof.
  intros V H V1 V2 V3. pose proof V3 as (Hn & _). do 3 eexists.
  split; [apply inc_ddict; [exact V1|lia]|]. split; [apply inc_ddict; [exact V2|lia]|].
  split. { unfold ddict at 1. apply make_can; [lia|]. intros i Hi. apply dmn_out; [assumption|lia]. }
  unfold sum_orders_coeffs. rewrite dzeros_can. unfold cdict.
  match goal with |- bind (sum_args [can 0 ?u ?x; can 0 ?v ?y; can 0 ?f ?i; can 0 ?g ?j; can 0 ?h ?l] _) _ = _ =>
    pose proof (sum_args_can [(x, u); (y, v); (i, f); (j, g); (l, h)] (Z.to_nat (n + 1))) as S end.
  cbn [map fst snd] in S. rewrite S. 2:{
    intros j g [E|[E|[E|[E|[E|[]]]]]]; injection E as <- <-; (split; [lia|]); intros i Hi; cbv beta;
      rewrite ?cmn_out, ?dmn_out by (assumption || lia); reflexivity. }
  clear S. cbn [bind fold_left snd].
  rewrite (can_ext 0 _ (dmn m n) (Z.to_nat (n + 1))).
  2:{ intros i Hi. rewrite (dmn_rec m n i V) by lia. lia. }
  rewrite dget_can. replace ((0 <=? n) && (n <? 0 + Z.of_nat (Z.to_nat (n + 1)))) with true by lia.
  rewrite (dmn_out m n n V) by lia. cbn [Z.eqb]. f_equal. unfold ddict.
  replace (Z.to_nat (n + 1)) with (S (Z.to_nat n)) by lia. apply dpop_can_end. lia.
Qed.
