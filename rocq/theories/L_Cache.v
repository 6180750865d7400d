(** The caches of find_pols_coeffs.py are transparent: an invariant over all call histories (C18). *)
From Coq Require Import Arith.
From Verif Require Import Py SpecIndex RadialMath L_Index M_Coeffs L_Dict L_Coeffs.
Open Scope Z_scope.

(** orders for which find_coeffs_orders_dr works; other valid orders raise ValueError *)
Definition lim (t : bool) : Z := if t then 7 else 9.
Definition drdom (t : bool) (m n : Z) : Prop := 0 < Z.abs m /\ special_dr m n = true \/ lim t <= n.

Definition okt (t : table) := forall m n d, In ((m, n), d) t -> valid m n /\ d = cdict m n.
Definition okt_dr (b : bool) (t : table) := forall m n d, In ((m, n), d) t -> valid m n /\ drdom b m n /\ d = ddict m n.
Definition okl (l : list (lrukey * dict)) := forall f m n d, In ((f, (m, n)), d) l -> valid m n /\ d = cdict m n.
Definition okl_dr (l : list (lrukey * dict)) := forall f m n d, In ((f, (m, n)), d) l ->
  valid m n /\ drdom (flag_value f) m n /\ d = ddict m n.
Definition Inv (s : cstate) : Prop :=
  (forall t, okt (pre s t)) /\ (forall t, okt_dr t (pre_dr s t)) /\ okl (lru s) /\ okl_dr (lru_dr s).

(** tables that contain every valid order of two consecutive radial orders that is not special *)
Definition has_rows (s : cstate) : Prop :=
  forall t m n, valid m n -> (n = lim t \/ n = lim t + 1) -> special_dr m n = false ->
  tget (m, n) (pre_dr s t) <> None.

Lemma valid_pred_l m n : valid m n -> Z.abs m < n -> valid (Z.abs (m - 1)) (n - 1).
Proof.
  intros (Hn & Hm & k & Hk) H. split; [lia|]. split; [lia|].
  destruct (Z_le_gt_dec 1 m); [exists k|exists (k - 1)%Z]; lia.
Qed.
Lemma valid_pred_r m n : valid m n -> Z.abs m < n -> valid (m + 1) (n - 1).
Proof.
  intros (Hn & Hm & k & Hk) H. split; [lia|]. split; [lia|].
  destruct (Z_le_gt_dec 0 m); [exists (k - 1)%Z|exists k]; lia.
Qed.
Lemma valid_pred2 m n : valid m n -> Z.abs m < n -> valid m (n - 2).
Proof. intros (Hn & Hm & k & Hk) H. split; [lia|]. split; [lia|]. exists (k - 1)%Z. lia. Qed.
Lemma not_special m n : valid m n -> special_dr m n = false -> Z.abs m <= n - 4.
Proof. unfold special_dr. intros (Hn & Hm & k & Hk) H. lia. Qed.

Lemma tput_in k d t k' d' : In (k', d') (tput k d t) -> In (k', d') t \/ (k' = k /\ d' = d).
Proof.
  unfold tput. destruct (tget k t); [auto|]. intros H. apply in_app_or in H. destruct H as [H|[H|[]]]; [auto|].
  injection H as <- <-. auto.
Qed.
Lemma tput_get k d t k' : tget k' t <> None -> tget k' (tput k d t) <> None.
Proof.
  unfold tput. destruct (tget k t); [auto|]. intros H. unfold tget in *.
  induction t as [|[a b] t IH]; [elim H; reflexivity|]. simpl in *. destruct (orders_eqb k' a); [discriminate|auto].
Qed.
Lemma tget_in k t d : tget k t = Some d -> In (k, d) t.
Proof. apply assoc_in, orders_eqb_eq. Qed.
Lemma filter_in {A} (f : A -> bool) x l : In x (filter f l) -> In x l.
Proof. intros H. apply filter_In in H. tauto. Qed.
Lemma firstn_in {A} n (x : A) l : In x (firstn n l) -> In x l.
Proof.
  revert l. induction n as [|n IH]; intros l H; [destruct H|]. destruct l as [|y l]; [destruct H|].
  destruct H as [->|H]; [left; reflexivity|right; auto].
Qed.

Lemma Inv_set_pre s t m n : Inv s -> valid m n -> Inv (set_pre s t (m, n) (cdict m n)).
Proof.
  intros (A & B & C & D) V. split; [|split; [exact B|split; [exact C|exact D]]].
  intros t'. unfold set_pre. cbn [pre]. destruct (Bool.eqb t' t); [|apply A].
  intros m' n' d' H. apply tput_in in H. destruct H as [H|[[= -> ->] ->]]; [apply (A t _ _ _ H)|auto].
Qed.
Lemma Inv_set_pre_dr s t m n : Inv s -> valid m n -> drdom t m n -> Inv (set_pre_dr s t (m, n) (ddict m n)).
Proof.
  intros (A & B & C & D) V W. split; [exact A|split; [|split; [exact C|exact D]]].
  intros t'. unfold set_pre_dr. cbn [pre_dr]. destruct (Bool.eqb t' t) eqn:E; [|apply B].
  apply eqb_prop in E. subst t'.
  intros m' n' d' H. apply tput_in in H. destruct H as [H|[[= -> ->] ->]]; [apply (B t _ _ _ H)|auto].
Qed.
Lemma rows_set_pre s t k d : has_rows s -> has_rows (set_pre s t k d).
Proof. intros H. exact H. Qed.
Lemma rows_set_pre_dr s t k d : has_rows s -> has_rows (set_pre_dr s t k d).
Proof.
  intros H t' m n V B S. unfold set_pre_dr. cbn [pre_dr]. destruct (Bool.eqb t' t) eqn:E; [|apply H; assumption].
  apply eqb_prop in E. subst t'. apply tput_get, H; assumption.
Qed.

(** weakest-precondition style reasoning: [x] keeps the invariant and its result satisfies [Q] *)
Definition keeps {A} (x : M A) (Q : res A -> Prop) : Prop :=
  forall s, Inv s -> has_rows s -> Inv (fst (x s)) /\ has_rows (fst (x s)) /\ Q (snd (x s)).

Lemma keeps_ret {A} (a : res A) (Q : res A -> Prop) : Q a -> keeps (mlift a) Q.
Proof. intros H s I W. simpl. auto. Qed.
Lemma keeps_mod f (Q : res unit -> Prop) : (forall s, Inv s -> Inv (f s)) -> (forall s, has_rows s -> has_rows (f s)) ->
  Q (Ok tt) -> keeps (mmod f) Q.
Proof. intros H1 H2 HQ s I W. simpl. auto. Qed.
Lemma keeps_bind {A B} (x : M A) (f : A -> M B) (P : res A -> Prop) (Q : res B -> Prop) :
  keeps x P -> (forall a, P (Ok a) -> keeps (f a) Q) -> (forall e, P (Raise e) -> Q (Raise e)) -> keeps (mbind x f) Q.
Proof.
  intros Hx Hf He s I W. specialize (Hx s I W). unfold mbind. destruct (x s) as [s' r]. simpl in Hx.
  destruct Hx as (I' & W' & P'). destruct r as [a|e]; [|simpl; auto].
  apply Hf; assumption.
Qed.
Lemma keeps_weaken {A} (x : M A) (P Q : res A -> Prop) : keeps x P -> (forall r, P r -> Q r) -> keeps x Q.
Proof. intros H HQ s I W. destruct (H s I W) as (a & b & c). auto. Qed.

(** admissible results *)
Definition res_c (fuel : nat) (m n : Z) (r : res dict) : Prop :=
  r = Ok (cdict m n) \/ (r = Raise RecursionError /\ Z.of_nat fuel <= n).
Definition res_d (fuel : nat) (t : bool) (m n : Z) (r : res dict) : Prop :=
  (drdom t m n /\ r = Ok (ddict m n)) \/ (~ drdom t m n /\ r = Raise ValueError)
  \/ (r = Raise RecursionError /\ Z.of_nat fuel <= n).

Lemma keeps_cached_c fuel f m n (body : M dict) : valid m n ->
  keeps body (res_c fuel m n) -> keeps (cached lru with_lru (f, (m, n)) body) (res_c fuel m n).
Proof.
  intros V H s I W. unfold cached. destruct (assoc lrukey_eqb (f, (m, n)) (lru s)) as [d|] eqn:E.
  - apply (assoc_in _ lrukey_eqb_eq) in E. destruct I as (A & B & C & D). destruct (C _ _ _ _ E) as (_ & ->).
    simpl. split; [|split; [exact W|left; reflexivity]].
    split; [exact A|split; [exact B|split; [|exact D]]].
    intros f' m' n' d' [X|X]; [injection X as <- <- <- <-; auto|]. apply filter_in in X. apply (C _ _ _ _ X).
  - clear E. specialize (H s I W). destruct (body s) as [s' r]. simpl in H. destruct H as (I' & W' & Q).
    destruct r as [d|e]; [|simpl; auto]. simpl. split; [|split; [exact W'|exact Q]].
    destruct I' as (A & B & C & D). split; [exact A|split; [exact B|split; [|exact D]]].
    destruct Q as [[= ->]|[[=] _]].
    intros f' m' n' d' X. cbn [with_lru lru] in X. unfold lru_add in X. destruct (assoc lrukey_eqb (f, (m, n)) _); [apply (C _ _ _ _ X)|].
    apply firstn_in in X. destruct X as [X|X]; [injection X as <- <- <- <-; auto|apply (C _ _ _ _ X)].
Qed.
Lemma keeps_cached_d fuel f m n (body : M dict) : valid m n ->
  keeps body (res_d fuel (flag_value f) m n) -> keeps (cached lru_dr with_lru_dr (f, (m, n)) body) (res_d fuel (flag_value f) m n).
Proof.
  intros V H s I W. unfold cached. destruct (assoc lrukey_eqb (f, (m, n)) (lru_dr s)) as [d|] eqn:E.
  - apply (assoc_in _ lrukey_eqb_eq) in E. destruct I as (A & B & C & D). destruct (D _ _ _ _ E) as (_ & X0 & ->).
    simpl. split; [|split; [exact W|left; auto]].
    split; [exact A|split; [exact B|split; [exact C|]]].
    intros f' m' n' d' [X|X]; [injection X as <- <- <- <-; auto|]. apply filter_in in X. apply (D _ _ _ _ X).
  - clear E. specialize (H s I W). destruct (body s) as [s' r]. simpl in H. destruct H as (I' & W' & Q).
    destruct r as [d|e]; [|simpl; auto]. simpl. split; [|split; [exact W'|exact Q]].
    destruct I' as (A & B & C & D). split; [exact A|split; [exact B|split; [exact C|]]].
    destruct Q as [[X0 [= ->]]|[[_ [=]]|[[=] _]]].
    intros f' m' n' d' X. cbn [with_lru_dr lru_dr] in X. unfold lru_add in X. destruct (assoc lrukey_eqb (f, (m, n)) _); [apply (D _ _ _ _ X)|].
    apply firstn_in in X. destruct X as [X|X]; [injection X as <- <- <- <-; auto|apply (D _ _ _ _ X)].
Qed.

Lemma find_ok fuel : forall fl m n, valid m n -> keeps (find_coeffs_orders fuel fl m n) (res_c fuel m n).
Proof.
  induction fuel as [|f IH]; intros fl m n V; pose proof V as (Hn & _).
  { apply keeps_ret. right. split; [reflexivity|lia]. }
  cbn [find_coeffs_orders]. apply keeps_cached_c; [exact V|]. intros s I W.
  cbv zeta. set (t := flag_value fl).
  destruct (tget (m, n) (pre s t)) as [d|] eqn:E.
  { apply tget_in in E. destruct (proj1 I t _ _ _ E) as (_ & ->). simpl. split; [exact I|split; [exact W|left; reflexivity]]. }
  rewrite special_ok by exact V. fold (special_dr m n). destruct (special_dr m n) eqn:SP.
  { simpl. split; [apply Inv_set_pre; assumption|]. split; [exact W|left; reflexivity]. }
  pose proof (not_special m n V SP) as LT.
  pose proof (valid_pred_l m n V ltac:(lia)) as V1. pose proof (valid_pred_r m n V ltac:(lia)) as V2.
  pose proof (valid_pred2 m n V ltac:(lia)) as V3.
  destruct (step_c m n V ltac:(lia) V1 V2 V3) as (a & b & c & Ea & Eb & Ec & Es).
  revert s I W E. 
  assert (K : keeps (run a <- find_coeffs_orders f (Pos t) (Z.abs (m - 1)) (n - 1);
           run b <- find_coeffs_orders f (Pos t) (m + 1) (n - 1);
           run a' <- mlift (increase_order_coeffs a);
           run b' <- mlift (increase_order_coeffs b);
           run c <- find_coeffs_orders f (Pos t) m (n - 2);
           run c' <- mlift (make_orders_coeffs c (n - 2) true);
           run d <- mlift (sum_orders_coeffs n [a'; b'; c']);
           run _ <- mmod (fun s => set_pre s t (Z.abs (m - 1), n - 1) a);
           run _ <- mmod (fun s => set_pre s t (m + 1, n - 1) b);
           mret d) (res_c (S f) m n)).
  { eapply keeps_bind; [apply (IH (Pos t) _ _ V1)| |].
    2:{ intros e [[=]|[[= ->] ?]]. right. split; [reflexivity|lia]. }
    intros a0 [[= ->]|[[=] _]].
    eapply keeps_bind; [apply (IH (Pos t) _ _ V2)| |].
    2:{ intros e [[=]|[[= ->] ?]]. right. split; [reflexivity|lia]. }
    intros b0 [[= ->]|[[=] _]]. rewrite Ea, Eb.
    eapply keeps_bind; [apply (keeps_ret _ (fun r => r = Ok a)); reflexivity| |discriminate].
    intros ? [= ->].
    eapply keeps_bind; [apply (keeps_ret _ (fun r => r = Ok b)); reflexivity| |discriminate].
    intros ? [= ->].
    eapply keeps_bind; [apply (IH (Pos t) _ _ V3)| |].
    2:{ intros e [[=]|[[= ->] ?]]. right. split; [reflexivity|lia]. }
    intros c0 [[= ->]|[[=] _]]. rewrite Ec.
    eapply keeps_bind; [apply (keeps_ret _ (fun r => r = Ok c)); reflexivity| |discriminate].
    intros ? [= ->]. rewrite Es.
    eapply keeps_bind; [apply (keeps_ret _ (fun r => r = Ok (cdict m n))); reflexivity| |discriminate].
    intros ? [= ->].
    eapply keeps_bind; [apply (keeps_mod _ (fun r => r = Ok tt)); [|intros; assumption|reflexivity]| |discriminate].
    { intros s I. apply Inv_set_pre; assumption. }
    intros _ _.
    eapply keeps_bind; [apply (keeps_mod _ (fun r => r = Ok tt)); [|intros; assumption|reflexivity]| |discriminate].
    { intros s I. apply Inv_set_pre; assumption. }
    intros _ _. apply (keeps_ret (Ok (cdict m n))). left. reflexivity. }
  intros s I W _. apply K; assumption.
Qed.

Lemma find_dr_ok fuel : forall fl m n, valid m n ->
  keeps (find_coeffs_orders_dr fuel fl m n) (res_d fuel (flag_value fl) m n).
Proof.
  induction fuel as [|f IH]; intros fl m n V; pose proof V as (Hn & _).
  { apply keeps_ret. right. right. split; [reflexivity|lia]. }
  cbn [find_coeffs_orders_dr]. apply keeps_cached_d; [exact V|]. intros s I W.
  cbv zeta. set (t := flag_value fl).
  destruct (tget (m, n) (pre_dr s t)) as [d|] eqn:E.
  { apply tget_in in E. destruct (proj1 (proj2 I) t _ _ _ E) as (_ & X & ->). simpl.
    split; [exact I|split; [exact W|left; auto]]. }
  rewrite special_dr_ok by exact V. destruct (special_dr m n) eqn:SP.
  { destruct (Z.ltb_spec 0 (Z.abs m)).
    - simpl. split; [apply Inv_set_pre_dr; try assumption; left; auto|].
      split; [apply rows_set_pre_dr; exact W|left; split; [left; auto|reflexivity]].
    - simpl. split; [exact I|split; [exact W|right; left; split; [|reflexivity]]].
      unfold drdom, lim, special_dr in *. destruct t; lia. }
  pose proof (not_special m n V SP) as LT.
  pose proof (valid_pred_l m n V ltac:(lia)) as V1. pose proof (valid_pred_r m n V ltac:(lia)) as V2.
  pose proof (valid_pred2 m n V ltac:(lia)) as V3.
  assert (NR : n <> lim t /\ n <> lim t + 1).
  { split; intros X; apply (W t m n V ltac:(auto) SP E). }
  destruct (step_d m n V LT V1 V2 V3) as (a & b & c & Ea & Eb & Ec & Es).
  assert (K : keeps
          (run a <- find_coeffs_orders f (Pos t) (Z.abs (m - 1)) (n - 1);
           run b <- find_coeffs_orders f (Pos t) (m + 1) (n - 1);
           run da <- find_coeffs_orders_dr f (Pos t) (Z.abs (m - 1)) (n - 1);
           run db <- find_coeffs_orders_dr f (Pos t) (m + 1) (n - 1);
           run da' <- mlift (increase_order_coeffs da);
           run db' <- mlift (increase_order_coeffs db);
           run dc <- find_coeffs_orders_dr f (Pos t) m (n - 2);
           run dc' <- mlift (make_orders_coeffs dc (n - 2) true);
           run d <- mlift (sum_orders_coeffs n [a; b; da'; db'; dc']);
           run _ <- mmod (fun s => set_pre s t (Z.abs (m - 1), n - 1) a);
           run _ <- mmod (fun s => set_pre s t (m + 1, n - 1) b);
           run _ <- mmod (fun s => set_pre_dr s t (Z.abs (m - 1), n - 1) da);
           run _ <- mmod (fun s => set_pre_dr s t (m + 1, n - 1) db);
           mret d) (res_d (S f) t m n)).
  { clear s I W E.
    eapply keeps_bind; [apply (find_ok f (Pos t) _ _ V1)| |].
    2:{ intros e [[=]|[[= ->] ?]]. right. right. split; [reflexivity|lia]. }
    intros a0 [[= ->]|[[=] _]].
    eapply keeps_bind; [apply (find_ok f (Pos t) _ _ V2)| |].
    2:{ intros e [[=]|[[= ->] ?]]. right. right. split; [reflexivity|lia]. }
    intros b0 [[= ->]|[[=] _]].
    assert (DOM : drdom t (Z.abs (m - 1)) (n - 1) -> drdom t (m + 1) (n - 1) -> drdom t m (n - 2) -> drdom t m n).
    { destruct V as (_ & _ & k & Hk). unfold drdom, special_dr, lim in *. destruct t; lia. }
    assert (ND : ~ drdom t (Z.abs (m - 1)) (n - 1) -> ~ drdom t m n).
    { destruct V as (_ & _ & k & Hk). unfold drdom, special_dr, lim in *. destruct t; lia. }
    assert (ND2 : ~ drdom t (m + 1) (n - 1) -> ~ drdom t m n).
    { destruct V as (_ & _ & k & Hk). unfold drdom, special_dr, lim in *. destruct t; lia. }
    assert (ND3 : ~ drdom t m (n - 2) -> ~ drdom t m n).
    { destruct V as (_ & _ & k & Hk). unfold drdom, special_dr, lim in *. destruct t; lia. }
    eapply keeps_bind; [apply (IH (Pos t) _ _ V1)| |].
    2:{ intros e [[_ [=]]|[[X [= ->]]|[[= ->] ?]]]; right; [left; auto|right]. split; [reflexivity|lia]. }
    cbn [flag_value]. intros da0 [[X1 [= ->]]|[[_ [=]]|[[=] _]]].
    eapply keeps_bind; [apply (IH (Pos t) _ _ V2)| |].
    2:{ intros e [[_ [=]]|[[X [= ->]]|[[= ->] ?]]]; right; [left; auto|right]. split; [reflexivity|lia]. }
    cbn [flag_value]. intros db0 [[X2 [= ->]]|[[_ [=]]|[[=] _]]]. rewrite Ea, Eb.
    eapply keeps_bind; [apply (keeps_ret _ (fun r => r = Ok a)); reflexivity| |discriminate].
    intros ? [= ->].
    eapply keeps_bind; [apply (keeps_ret _ (fun r => r = Ok b)); reflexivity| |discriminate].
    intros ? [= ->].
    eapply keeps_bind; [apply (IH (Pos t) _ _ V3)| |].
    2:{ intros e [[_ [=]]|[[X [= ->]]|[[= ->] ?]]]; right; [left; auto|right]. split; [reflexivity|lia]. }
    cbn [flag_value]. intros dc0 [[X3 [= ->]]|[[_ [=]]|[[=] _]]]. rewrite Ec.
    eapply keeps_bind; [apply (keeps_ret _ (fun r => r = Ok c)); reflexivity| |discriminate].
    intros ? [= ->]. rewrite Es.
    eapply keeps_bind; [apply (keeps_ret _ (fun r => r = Ok (ddict m n))); reflexivity| |discriminate].
    intros ? [= ->].
    eapply keeps_bind; [apply (keeps_mod _ (fun r => r = Ok tt)); [|intros; assumption|reflexivity]| |discriminate].
    { intros s I. apply Inv_set_pre; assumption. }
    intros _ _.
    eapply keeps_bind; [apply (keeps_mod _ (fun r => r = Ok tt)); [|intros; assumption|reflexivity]| |discriminate].
    { intros s I. apply Inv_set_pre; assumption. }
    intros _ _.
    eapply keeps_bind; [apply (keeps_mod _ (fun r => r = Ok tt)); [|intros; apply rows_set_pre_dr; assumption|reflexivity]| |discriminate].
    { intros s I. apply Inv_set_pre_dr; assumption. }
    intros _ _.
    eapply keeps_bind; [apply (keeps_mod _ (fun r => r = Ok tt)); [|intros; apply rows_set_pre_dr; assumption|reflexivity]| |discriminate].
    { intros s I. apply Inv_set_pre_dr; assumption. }
    intros _ _. apply (keeps_ret (Ok (ddict m n))). left. auto. }
  apply K; assumption.
Qed.
