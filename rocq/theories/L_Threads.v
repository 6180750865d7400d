(** Thread safety of the coefficient caches (C50): rely-guarantee reasoning on the atomic actions. *)
From Coq Require Import Reals Lra Arith FunctionalExtensionality.
From Verif Require Import Py SpecIndex SpecRadial RadialMath L_Index M_Radial M_Coeffs SpecCoeffs L_Dict L_Coeffs L_Cache L_Radial L_RadialD L_CoeffVal L_Value L_RadialProps
  M_Threads SpecThreads.
Open Scope Z_scope.

(** what every action of every thread guarantees, and so every thread may rely on *)
Definition ext (s s' : cstate) : Prop := Inv s' /\ has_rows s' /\
  (forall t k, tget k (pre s t) <> None -> tget k (pre s' t) <> None) /\ (forall t k, tget k (pre_dr s t) <> None -> tget k (pre_dr s' t) <> None).
Lemma ext_refl s : Inv s -> has_rows s -> ext s s.
Proof. intros A B. split; [exact A|split; [exact B|split; auto]]. Qed.
Lemma ext_trans a b c : ext a b -> ext b c -> ext a c.
Proof. intros (_ & _ & A & B) (X & Y & A' & B'). split; [exact X|split; [exact Y|split; auto]]. Qed.

Fixpoint safe_at {A} (Q : res A -> Prop) (p : prog A) (s0 : cstate) : Prop :=
  match p with
  | Done r => Q r
  | Act op k => forall s, ext s0 s -> ext s (fst (op s)) /\ safe_at Q (k (snd (op s))) (fst (op s))
  end.
Definition safe {A} (p : prog A) (Q : res A -> Prop) : Prop := forall s, Inv s -> has_rows s -> safe_at Q p s.
Lemma safe_at_ext {A} Q (p : prog A) s s' : safe_at Q p s -> ext s s' -> safe_at Q p s'.
Proof. destruct p; [auto|]. intros H E s1 E1. apply H. eapply ext_trans; eassumption. Qed.
Lemma safe_at_mono {A} (P Q : res A -> Prop) (H : forall r, P r -> Q r) p : forall s, safe_at P p s -> safe_at Q p s.
Proof. induction p as [r|B op k IH]; intros s X; [apply H, X|]. intros s1 E. destruct (X s1 E). split; [assumption|apply IH; assumption]. Qed.
Lemma safe_at_bind {A B} (f : A -> prog B) (P : res A -> Prop) (Q : res B -> Prop) :
  (forall a s, Inv s -> has_rows s -> P (Ok a) -> safe_at Q (f a) s) -> (forall e, P (Raise e) -> Q (Raise e)) ->
  forall p s, Inv s -> has_rows s -> safe_at P p s -> safe_at Q (pbind p f) s.
Proof.
  intros Hf He. induction p as [[a|e]|C op k IH]; intros s IS HS X; cbn in *; [apply Hf; assumption|apply He, X|].
  intros s1 E. destruct (X s1 E) as (E2 & Y). split; [exact E2|]. destruct E2 as (I2 & H2 & _). apply IH; assumption.
Qed.
Lemma safe_ret {A} (a : res A) (Q : res A -> Prop) : Q a -> safe (plift a) Q.
Proof. intros H s _ _. exact H. Qed.
Lemma safe_bind {A B} (x : prog A) (f : A -> prog B) (P : res A -> Prop) (Q : res B -> Prop) :
  safe x P -> (forall a, P (Ok a) -> safe (f a) Q) -> (forall e, P (Raise e) -> Q (Raise e)) -> safe (pbind x f) Q.
Proof. intros Hx Hf He s IS HS. apply (safe_at_bind f P Q); auto. intros a s' I' H' Pa. apply Hf; assumption. Qed.
Lemma safe_weaken {A} (x : prog A) (P Q : res A -> Prop) : safe x P -> (forall r, P r -> Q r) -> safe x Q.
Proof. intros H HQ s IS HS. apply (safe_at_mono P Q HQ), H; assumption. Qed.
Lemma safe_set f (Q : res unit -> Prop) : (forall s, Inv s -> has_rows s -> ext s (f s)) -> Q (Ok tt) -> safe (p_set f) Q.
Proof. intros H HQ s0 I0 H0 s (I1 & H1 & _). cbn. split; [apply H; assumption|exact HQ]. Qed.

Lemma orders_eqb_refl k : orders_eqb k k = true.
Proof. unfold orders_eqb. rewrite !Z.eqb_refl. reflexivity. Qed.
Lemma tset_in k d t k' d' : In (k', d') (tset k d t) -> In (k', d') t \/ (k' = k /\ d' = d).
Proof.
  induction t as [|[a b] t IH]; cbn; [intros [[= <- <-]|[]]; auto|].
  destruct (orders_eqb k a) eqn:E.
  - apply orders_eqb_eq in E. subst a. intros [[= <- <-]|H]; auto.
  - intros [H|H]; [auto|]. destruct (IH H); auto.
Qed.
Lemma tset_get k d t k' : tget k' t <> None -> tget k' (tset k d t) <> None.
Proof.
  induction t as [|[a b] t IH]; cbn; [intros H; elim H; reflexivity|]. unfold tget in *. cbn.
  destruct (orders_eqb k a) eqn:E; cbn; destruct (orders_eqb k' a); auto; discriminate.
Qed.
Lemma tset_new k d t : tget k t = None -> tset k d t = tput k d t.
Proof.
  intros H. unfold tput. rewrite H. revert H. unfold tget. induction t as [|[a b] t IH]; cbn; [reflexivity|].
  destruct (orders_eqb k a); [discriminate|]. intros H. rewrite IH by exact H. reflexivity.
Qed.

Lemma ext_assign s t m n : Inv s -> has_rows s -> valid m n -> ext s (assign_pre s t (m, n) (cdict m n)).
Proof.
  intros (A & B & C & D) HR V. split; [|split; [exact HR|split; [|auto]]].
  - split; [|split; [exact B|split; [exact C|exact D]]].
    intros t'. cbn [assign_pre pre]. destruct (Bool.eqb t' t); [|apply A].
    intros m' n' d' H. apply tset_in in H. destruct H as [H|[[= -> ->] ->]]; [apply (A t _ _ _ H)|auto].
  - intros t' k H. cbn [assign_pre pre]. destruct (Bool.eqb t' t) eqn:E; [|exact H]. apply eqb_prop in E. subst t'. apply tset_get, H.
Qed.
Lemma ext_assign_dr s t m n : Inv s -> has_rows s -> valid m n -> drdom t m n -> ext s (assign_pre_dr s t (m, n) (ddict m n)).
Proof.
  intros (A & B & C & D) HR V W.
  assert (G : forall t' k, tget k (pre_dr s t') <> None -> tget k (pre_dr (assign_pre_dr s t (m, n) (ddict m n)) t') <> None).
  { intros t' k H. cbn [assign_pre_dr pre_dr]. destruct (Bool.eqb t' t) eqn:E; [|exact H]. apply eqb_prop in E. subst t'. apply tset_get, H. }
  split; [|split; [|split; [auto|exact G]]].
  - split; [exact A|split; [|split; [exact C|exact D]]].
    intros t'. cbn [assign_pre_dr pre_dr]. destruct (Bool.eqb t' t) eqn:E; [|apply B]. apply eqb_prop in E. subst t'.
    intros m' n' d' H. apply tset_in in H. destruct H as [H|[[= -> ->] ->]]; [apply (B t _ _ _ H)|auto].
  - intros t' m' n' V' L S. apply G, HR; assumption.
Qed.

Lemma safe_store t m n : valid m n -> safe (p_store t (m, n) (cdict m n)) (fun r => r = Ok tt).
Proof.
  intros V s0 I0 H0. unfold p_store, p_in. cbn. intros s (IS & HS & _). split; [apply ext_refl; assumption|].
  destruct (present _); cbn; [reflexivity|]. intros s1 (I1 & H1 & _). split; [apply ext_assign; assumption|reflexivity].
Qed.
Lemma safe_store_dr t m n : valid m n -> drdom t m n -> safe (p_store_dr t (m, n) (ddict m n)) (fun r => r = Ok tt).
Proof.
  intros V D s0 I0 H0. unfold p_store_dr, p_in. cbn. intros s (IS & HS & _). split; [apply ext_refl; assumption|].
  destruct (present _); cbn; [reflexivity|]. intros s1 (I1 & H1 & _). split; [apply ext_assign_dr; assumption|reflexivity].
Qed.

Lemma safe_cached_c fuel f m n (body : prog dict) : valid m n ->
  safe body (res_c fuel m n) -> safe (p_cached lru with_lru (f, (m, n)) body) (res_c fuel m n).
Proof.
  intros V H s0 I0 H0. unfold p_cached. cbn [safe_at]. intros s (IS & HS & _).
  destruct (assoc lrukey_eqb (f, (m, n)) (lru s)) as [d|] eqn:E; cbn [fst snd].
  - apply (assoc_in _ lrukey_eqb_eq) in E. pose proof IS as (A & B & C & D). destruct (C _ _ _ _ E) as (_ & ->).
    split; [|left; reflexivity]. split; [|split; [exact HS|split; auto]].
    split; [exact A|split; [exact B|split; [|exact D]]].
    intros f' m' n' d' [X|X]; [injection X as <- <- <- <-; auto|]. apply filter_in in X. apply (C _ _ _ _ X).
  - clear E. split; [apply ext_refl; assumption|].
    apply (safe_at_bind _ (res_c fuel m n)); [|auto|assumption|assumption|apply H; assumption].
    intros d s1 I1 H1 Q. destruct Q as [[= ->]|[[=] _]]. cbn. intros s2 (I2 & H2 & _). split; [|left; reflexivity].
    destruct I2 as (A & B & C & D). split; [|split; [exact H2|split; auto]]. split; [exact A|split; [exact B|split; [|exact D]]].
    intros f' m' n' d' X. cbn [with_lru lru] in X. unfold lru_add in X. destruct (assoc lrukey_eqb (f, (m, n)) _); [apply (C _ _ _ _ X)|].
    apply firstn_in in X. destruct X as [X|X]; [injection X as <- <- <- <-; auto|apply (C _ _ _ _ X)].
Qed.
Lemma safe_cached_d fuel f m n (body : prog dict) : valid m n ->
  safe body (res_d fuel (flag_value f) m n) -> safe (p_cached lru_dr with_lru_dr (f, (m, n)) body) (res_d fuel (flag_value f) m n).
Proof.
  intros V H s0 I0 H0. unfold p_cached. cbn [safe_at]. intros s (IS & HS & _).
  destruct (assoc lrukey_eqb (f, (m, n)) (lru_dr s)) as [d|] eqn:E; cbn [fst snd].
  - apply (assoc_in _ lrukey_eqb_eq) in E. pose proof IS as (A & B & C & D). destruct (D _ _ _ _ E) as (_ & X0 & ->).
    split; [|left; auto]. split; [|split; [exact HS|split; auto]].
    split; [exact A|split; [exact B|split; [exact C|]]].
    intros f' m' n' d' [X|X]; [injection X as <- <- <- <-; auto|]. apply filter_in in X. apply (D _ _ _ _ X).
  - clear E. split; [apply ext_refl; assumption|].
    apply (safe_at_bind _ (res_d fuel (flag_value f) m n)); [|auto|assumption|assumption|apply H; assumption].
    intros d s1 I1 H1 Q. destruct Q as [[X0 [= ->]]|[[_ [=]]|[[=] _]]]. cbn. intros s2 (I2 & H2 & _). split; [|left; auto].
    destruct I2 as (A & B & C & D). split; [|split; [exact H2|split; auto]]. split; [exact A|split; [exact B|split; [exact C|]]].
    intros f' m' n' d' X. cbn [with_lru_dr lru_dr] in X. unfold lru_add in X. destruct (assoc lrukey_eqb (f, (m, n)) _); [apply (D _ _ _ _ X)|].
    apply firstn_in in X. destruct X as [X|X]; [injection X as <- <- <- <-; auto|apply (D _ _ _ _ X)].
Qed.

Lemma present_some o : present o = true -> o <> None.
Proof. destruct o; [discriminate|intros [=]]. Qed.

Lemma pbind_ok {A B} (a : A) (f : A -> prog B) : pbind (plift (Ok a)) f = f a.
Proof. reflexivity. Qed.
Lemma safe_in {A} get k (f : bool -> prog A) Q : (forall s, Inv s -> has_rows s -> safe_at Q (f (present (tget k (get s)))) s) -> safe (pbind (p_in get k) f) Q.
Proof. intros H s0 I0 H0 s (IS & HS & _). split; [apply ext_refl; assumption|]. apply H; assumption. Qed.
Lemma get_c fuel t m n s : tget (m, n) (pre s t) <> None -> safe_at (res_c fuel m n) (p_get (fun s => pre s t) (m, n)) s.
Proof.
  intros E s1 (I1 & H1 & K1 & _). split; [apply ext_refl; assumption|]. specialize (K1 t (m, n) E). cbn [fst snd].
  destruct (tget (m, n) (pre s1 t)) as [d|] eqn:E1; [|elim K1; reflexivity].
  apply tget_in in E1. destruct (proj1 I1 t _ _ _ E1) as (_ & ->). left. reflexivity.
Qed.
Lemma get_d fuel t m n s : tget (m, n) (pre_dr s t) <> None -> safe_at (res_d fuel t m n) (p_get (fun s => pre_dr s t) (m, n)) s.
Proof.
  intros E s1 (I1 & H1 & _ & K1). split; [apply ext_refl; assumption|]. specialize (K1 t (m, n) E). cbn [fst snd].
  destruct (tget (m, n) (pre_dr s1 t)) as [d|] eqn:E1; [|elim K1; reflexivity].
  apply tget_in in E1. destruct (proj1 (proj2 I1) t _ _ _ E1) as (_ & X & ->). left. auto.
Qed.

Lemma p_find_ok fuel : forall fl m n, valid m n -> safe (p_find fuel fl m n) (res_c fuel m n).
Proof.
  induction fuel as [|f IH]; intros fl m n V; pose proof V as (Hn & _).
  { apply safe_ret. right. split; [reflexivity|lia]. }
  cbn [p_find]. apply safe_cached_c; [exact V|]. cbv zeta. set (t := flag_value fl).
  apply safe_in. intros s IS HS. destruct (present (tget (m, n) (pre s t))) eqn:E; [apply get_c, present_some, E|].
  clear E. revert s IS HS. 
  match goal with |- forall s, Inv s -> has_rows s -> safe_at ?Q ?p s => change (safe p Q) end.
  rewrite special_ok by exact V. fold (special_dr m n). destruct (special_dr m n) eqn:SP; rewrite pbind_ok.
  { eapply safe_bind; [apply (safe_store t m n V)| |discriminate]. intros _ _. apply (safe_ret (Ok _)). left. reflexivity. }
  pose proof (not_special m n V SP) as LT.
  pose proof (valid_pred_l m n V ltac:(lia)) as V1. pose proof (valid_pred_r m n V ltac:(lia)) as V2.
  pose proof (valid_pred2 m n V ltac:(lia)) as V3.
  destruct (step_c m n V ltac:(lia) V1 V2 V3) as (a & b & c & Ea & Eb & Ec & Es).
  eapply safe_bind; [apply (IH (Pos t) _ _ V1)| |].
  2:{ intros e [[=]|[[= ->] ?]]. right. split; [reflexivity|lia]. }
  intros a0 [[= ->]|[[=] _]].
  eapply safe_bind; [apply (IH (Pos t) _ _ V2)| |].
  2:{ intros e [[=]|[[= ->] ?]]. right. split; [reflexivity|lia]. }
  intros b0 [[= ->]|[[=] _]]. rewrite Ea, Eb.
  eapply safe_bind; [apply (safe_ret _ (fun r => r = Ok a)); reflexivity| |discriminate].
  intros ? [= ->].
  eapply safe_bind; [apply (safe_ret _ (fun r => r = Ok b)); reflexivity| |discriminate].
  intros ? [= ->].
  eapply safe_bind; [apply (IH (Pos t) _ _ V3)| |].
  2:{ intros e [[=]|[[= ->] ?]]. right. split; [reflexivity|lia]. }
  intros c0 [[= ->]|[[=] _]]. rewrite Ec.
  eapply safe_bind; [apply (safe_ret _ (fun r => r = Ok c)); reflexivity| |discriminate].
  intros ? [= ->]. rewrite Es.
  eapply safe_bind; [apply (safe_ret _ (fun r => r = Ok (cdict m n))); reflexivity| |discriminate].
  intros ? [= ->].
  eapply safe_bind; [apply (safe_store t _ _ V1)| |discriminate]. intros _ _.
  eapply safe_bind; [apply (safe_store t _ _ V2)| |discriminate]. intros _ _.
  apply (safe_ret (Ok (cdict m n))). left. reflexivity.
Qed.

Lemma p_find_dr_ok fuel : forall fl m n, valid m n -> safe (p_find_dr fuel fl m n) (res_d fuel (flag_value fl) m n).
Proof.
  induction fuel as [|f IH]; intros fl m n V; pose proof V as (Hn & _).
  { apply safe_ret. right. right. split; [reflexivity|lia]. }
  cbn [p_find_dr]. apply safe_cached_d; [exact V|]. cbv zeta. set (t := flag_value fl).
  apply safe_in. intros s IS HS. destruct (present (tget (m, n) (pre_dr s t))) eqn:E; [apply get_d, present_some, E|].
  assert (NR : special_dr m n = false -> n <> lim t /\ n <> lim t + 1).
  { intros SP. destruct (tget (m, n) (pre_dr s t)) eqn:E1; [discriminate|]. split; intros X; apply (HS t m n V ltac:(auto) SP E1). }
  clear E. revert s IS HS NR.
  match goal with |- forall s, Inv s -> has_rows s -> ?N -> safe_at ?Q ?p s => enough (N -> safe p Q) as K by (intros s IS HS NR; apply K; assumption) end.
  intros NR.
  rewrite special_dr_ok by exact V. destruct (special_dr m n) eqn:SP.
  { destruct (Z.ltb_spec 0 (Z.abs m)).
    - eapply safe_bind; [apply (safe_ret _ (fun r => r = Ok (Some (ddict m n)))); reflexivity| |discriminate]. intros ? [= ->].
      eapply safe_bind; [apply (safe_store_dr t m n V); left; auto| |discriminate]. intros _ _. apply (safe_ret (Ok _)). left. split; [left; auto|reflexivity].
    - apply (safe_ret (Raise ValueError)). right; left; split; [|reflexivity].
      unfold drdom, lim, special_dr in *. destruct t; lia. }
  specialize (NR eq_refl). rewrite pbind_ok.
  pose proof (not_special m n V SP) as LT.
  pose proof (valid_pred_l m n V ltac:(lia)) as V1. pose proof (valid_pred_r m n V ltac:(lia)) as V2.
  pose proof (valid_pred2 m n V ltac:(lia)) as V3.
  destruct (step_d m n V LT V1 V2 V3) as (a & b & c & Ea & Eb & Ec & Es).
  eapply safe_bind; [apply (p_find_ok f (Pos t) _ _ V1)| |].
  2:{ intros e [[=]|[[= ->] ?]]. right. right. split; [reflexivity|lia]. }
  intros a0 [[= ->]|[[=] _]].
  eapply safe_bind; [apply (p_find_ok f (Pos t) _ _ V2)| |].
  2:{ intros e [[=]|[[= ->] ?]]. right. right. split; [reflexivity|lia]. }
  intros b0 [[= ->]|[[=] _]].
  assert (DOM : drdom t (Z.abs (m - 1)) (n - 1) -> drdom t (m + 1) (n - 1) -> drdom t m (n - 2) -> drdom t m n).
  { destruct V as (_ & _ & k & Hk). unfold drdom, special_dr, lim in *. destruct t; lia. }
  assert (ND : ~ drdom t (Z.abs (m - 1)) (n - 1) -> ~ drdom t m n).
  { destruct V as (_ & _ & k & Hk). unfold drdom, special_dr, lim in *. destruct t; lia. }
  assert (ND2 : ~ drdom t (m + 1) (n - 1) -> ~ drdom t m n).
  { destruct V as (_ & _ & k & Hk). unfold drdom, special_dr, lim in *. destruct t; lia. }
  assert (ND3 : ~ drdom t m (n - 2) -> ~ drdom t m n).
  { destruct V as (_ & _ & k & Hk). unfold drdom, special_dr, lim in *. destruct t; lia. }
  eapply safe_bind; [apply (IH (Pos t) _ _ V1)| |].
  2:{ intros e [[_ [=]]|[[X [= ->]]|[[= ->] ?]]]; right; [left; auto|right]. split; [reflexivity|lia]. }
  cbn [flag_value]. intros da0 [[X1 [= ->]]|[[_ [=]]|[[=] _]]].
  eapply safe_bind; [apply (IH (Pos t) _ _ V2)| |].
  2:{ intros e [[_ [=]]|[[X [= ->]]|[[= ->] ?]]]; right; [left; auto|right]. split; [reflexivity|lia]. }
  cbn [flag_value]. intros db0 [[X2 [= ->]]|[[_ [=]]|[[=] _]]]. rewrite Ea, Eb.
  eapply safe_bind; [apply (safe_ret _ (fun r => r = Ok a)); reflexivity| |discriminate].
  intros ? [= ->].
  eapply safe_bind; [apply (safe_ret _ (fun r => r = Ok b)); reflexivity| |discriminate].
  intros ? [= ->].
  eapply safe_bind; [apply (IH (Pos t) _ _ V3)| |].
  2:{ intros e [[_ [=]]|[[X [= ->]]|[[= ->] ?]]]; right; [left; auto|right]. split; [reflexivity|lia]. }
  cbn [flag_value]. intros dc0 [[X3 [= ->]]|[[_ [=]]|[[=] _]]]. rewrite Ec.
  eapply safe_bind; [apply (safe_ret _ (fun r => r = Ok c)); reflexivity| |discriminate].
  intros ? [= ->]. rewrite Es.
  eapply safe_bind; [apply (safe_ret _ (fun r => r = Ok (ddict m n))); reflexivity| |discriminate].
  intros ? [= ->].
  eapply safe_bind; [apply (safe_store t _ _ V1)| |discriminate]. intros _ _.
  eapply safe_bind; [apply (safe_store t _ _ V2)| |discriminate]. intros _ _.
  eapply safe_bind; [apply (safe_store_dr t _ _ V1 X1)| |discriminate]. intros _ _.
  eapply safe_bind; [apply (safe_store_dr t _ _ V2 X2)| |discriminate]. intros _ _.
  apply (safe_ret (Ok (ddict m n))). left. auto.
Qed.

Local Open Scope R_scope.
Tactic Notation "sbind" uconstr(H) := eapply safe_bind; [apply H| |
  try (intros ?e [[=]|[[= ->] ?]]; right; (split; [reflexivity|lia]))].

Lemma p_coeffs_ok fuel : forall m n r, valid m n ->
  safe (p_coeffs fuel m n r) (res_v fuel n (Ok (Fmn m n r))).
Proof.
  induction fuel as [|f IH]; intros m n r V; pose proof V as (Hn & Hm & _).
  { apply safe_ret. right. split; [reflexivity|lia]. }
  cbn [p_coeffs]. destruct (n <=? MAX_RADIAL_ORDER_COEFFS)%Z eqn:L.
  { sbind (p_find_ok f NoFlag m n V).
    intros d [[= ->]|[[=] _]]. apply (safe_ret (Ok _)). left. f_equal.
    rewrite eval_dict_acc, cdict_value by exact V. ring. }
  unfold MAX_RADIAL_ORDER_COEFFS in L.
  destruct (Z.eqb_spec (Z.abs m) n) as [E|NE].
  { apply (safe_ret (Ok _)). left. rewrite (Fmn_diag m n r V E). reflexivity. }
  assert (LT : (Z.abs m < n)%Z) by lia.
  pose proof (valid_pred_l m n V LT) as V1. pose proof (valid_pred_r m n V LT) as V2. pose proof (valid_pred2 m n V LT) as V3.
  destruct (Z.eqb_spec m 0) as [->|NZ].
  { change (Z.abs (0 - 1)) with 1%Z in V1.
    sbind (IH 1%Z (n - 1)%Z r V1). intros x [[= ->]|[[=] _]].
    sbind (IH 0%Z (n - 2)%Z r V3). intros y [[= ->]|[[=] _]].
    apply (safe_ret (Ok _)). left. rewrite (Fmn_rec0 n r) by (assumption || lia). reflexivity. }
  destruct (Z.eqb_spec (Z.abs m) (n - 2)) as [E|NE2].
  { apply (safe_ret (Ok _)). left. rewrite (Fmn_sub m n r) by (assumption || lia). reflexivity. }
  sbind (IH _ _ r V1). intros x [[= ->]|[[=] _]].
  sbind (IH _ _ r V2). intros y [[= ->]|[[=] _]].
  sbind (IH _ _ r V3). intros z [[= ->]|[[=] _]].
  apply (safe_ret (Ok _)). left. rewrite (Fmn_rec m n r) by assumption. reflexivity.
Qed.

(** whatever the state: the outcome is determined by the arguments *)
Lemma p_coeffs_dr_det r : forall N m n, valid m n -> (Z.to_nat n <= N)%nat ->
  exists v, forall fuel, safe (p_coeffs_dr fuel m n r) (res_v fuel n v).
Proof.
  induction N as [N IH] using lt_wf_ind. intros m n V HN. pose proof V as (Hn & Hm & k & Hk).
  destruct (n <=? MAX_RADIAL_ORDER_COEFFS_dR)%Z eqn:L.
  { destruct (drdom_b false m n) eqn:DB.
    - assert (D : drdom false m n). { unfold drdom_b, drdom in *. destruct (special_dr m n); cbn in *; lia. }
      exists (Ok (eval_dict (ddict m n) r 0)). intros [|f]; [apply safe_ret; right; split; [reflexivity|lia]|].
      cbn [p_coeffs_dr]. rewrite L. sbind (p_find_dr_ok f NoFlag m n V).
      2:{ intros e [[_ [=]]|[[X _]|[[= ->] ?]]]; [elim X; exact D|]. right. split; [reflexivity|lia]. }
      intros d [[_ [= ->]]|[[_ [=]]|[[=] _]]]. apply (safe_ret (Ok _)). left. reflexivity.
    - assert (D : ~ drdom false m n). { unfold drdom_b, drdom in *. destruct (special_dr m n); cbn in *; lia. }
      exists (Raise ValueError). intros [|f]; [apply safe_ret; right; split; [reflexivity|lia]|].
      cbn [p_coeffs_dr]. rewrite L. sbind (p_find_dr_ok f NoFlag m n V).
      2:{ intros e [[_ [=]]|[[X [= ->]]|[[= ->] ?]]]; [left; reflexivity|]. right. split; [reflexivity|lia]. }
      intros d [[X _]|[[_ [=]]|[[=] _]]]. elim D. exact X. }
  pose proof L as L'. unfold MAX_RADIAL_ORDER_COEFFS_dR in L'.
  destruct (Z.eqb_spec (Z.abs m) n) as [E|NE].
  { eexists. intros [|f]; [apply safe_ret; right; split; [reflexivity|lia]|].
    cbn [p_coeffs_dr]. rewrite L. destruct (Z.eqb_spec (Z.abs m) n) as [_|X]; [|contradiction].
    apply (safe_ret (Ok _)). left. reflexivity. }
  assert (LT : (Z.abs m < n)%Z) by lia.
  pose proof (valid_pred_l m n V LT) as V1. pose proof (valid_pred_r m n V LT) as V2. pose proof (valid_pred2 m n V LT) as V3.
  destruct (IH (Z.to_nat (n - 1)) ltac:(lia) _ _ V1 ltac:(lia)) as (v1 & H1).
  destruct (IH (Z.to_nat (n - 1)) ltac:(lia) _ _ V2 ltac:(lia)) as (v2 & H2).
  destruct (IH (Z.to_nat (n - 2)) ltac:(lia) _ _ V3 ltac:(lia)) as (v3 & H3).
  assert (UNI : forall f, safe (p_coeffs_dr f (Z.abs (m - 1)) (n - 1) r) (res_v f (n - 1) v1)) by exact H1.
  destruct (Z.eqb_spec m 0) as [->|NZ].
  { change (Z.abs (0 - 1)) with 1%Z in *.
    exists (do p <- v1; do x <- v1; do y <- v3; Ok (2 * (p + r * x) - y)).
    intros [|f]; [apply safe_ret; right; split; [reflexivity|lia]|].
    cbn [p_coeffs_dr]. rewrite L. destruct (Z.eqb_spec (Z.abs 0) n) as [X|_]; [contradiction|].
    change (0 =? 0)%Z with true. cbv iota.
    eapply safe_bind; [apply (H1 f)| |].
    2:{ intros e [<-|[[= ->] ?]]; [left; reflexivity|right; split; [reflexivity|lia]]. }
    intros p [<-|[[=] _]]. cbn [bind].
    eapply safe_bind; [apply (H1 f)| |].
    2:{ intros e [[=]|[[= ->] ?]]. right; split; [reflexivity|lia]. }
    intros x [[= <-]|[[=] _]].
    eapply safe_bind; [apply (H3 f)| |].
    2:{ intros e [<-|[[= ->] ?]]; [left; reflexivity|right; split; [reflexivity|lia]]. }
    intros y [<-|[[=] _]]. cbn [bind]. apply (safe_ret (Ok _)). left. reflexivity. }
  destruct (Z.eqb_spec (Z.abs m) (n - 2)) as [E|NE2].
  { eexists. intros [|f]; [apply safe_ret; right; split; [reflexivity|lia]|].
    cbn [p_coeffs_dr]. rewrite L. destruct (Z.eqb_spec (Z.abs m) n) as [X|_]; [contradiction|].
    destruct (Z.eqb_spec m 0) as [X|_]; [contradiction|].
    destruct (Z.eqb_spec (Z.abs m) (n - 2)) as [_|X]; [|contradiction].
    apply (safe_ret (Ok _)). left. reflexivity. }
  exists (do x <- v1; do y <- v2; do z <- v3;
     Ok ((Fmn (Z.abs (m - 1)) (n - 1) r + Fmn (m + 1) (n - 1) r) + r * (x + y) - z)).
  intros [|f]; [apply safe_ret; right; split; [reflexivity|lia]|].
  cbn [p_coeffs_dr]. rewrite L. destruct (Z.eqb_spec (Z.abs m) n) as [X|_]; [contradiction|].
  destruct (Z.eqb_spec m 0) as [X|_]; [contradiction|].
  destruct (Z.eqb_spec (Z.abs m) (n - 2)) as [X|_]; [contradiction|].
  sbind (p_coeffs_ok f _ _ r V1). intros p [[= ->]|[[=] _]].
  sbind (p_coeffs_ok f _ _ r V2). intros q [[= ->]|[[=] _]].
  eapply safe_bind; [apply (H1 f)| |].
  2:{ intros e [<-|[[= ->] ?]]; [left; reflexivity|right; split; [reflexivity|lia]]. }
  intros x [<-|[[=] _]]. cbn [bind].
  eapply safe_bind; [apply (H2 f)| |].
  2:{ intros e [<-|[[= ->] ?]]; [left; reflexivity|right; split; [reflexivity|lia]]. }
  intros y [<-|[[=] _]]. cbn [bind].
  eapply safe_bind; [apply (H3 f)| |].
  2:{ intros e [<-|[[= ->] ?]]; [left; reflexivity|right; split; [reflexivity|lia]]. }
  intros z [<-|[[=] _]]. cbn [bind]. apply (safe_ret (Ok _)). left. reflexivity.
Qed.

