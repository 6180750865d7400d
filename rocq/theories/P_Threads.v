(** C50: the evaluation methods of ZernPol may be called from any number of threads at once. *)
From Coq Require Import Reals Lra Lia List Arith.
From Verif Require Import Py SpecIndex SpecRadial M_Coeffs SpecCoeffs L_Value L_Trig M_Threads SpecThreads L_Threads2.
Import ListNotations.
Open Scope Z_scope.

(** A call whose actions are not interleaved with those of other threads is the call of C11-C18: same outcome and same caches afterwards. *)
Theorem C50_single_thread c s : alone (code c) s = call_alone c s.
Proof. rewrite alone_code. reflexivity. Qed.

(** Whatever the calls of the threads, the order in which the interpreter lets them act, the caches at the start and the moment one looks:
    every call that returned had the outcome that it has alone in a fresh process. *)
Theorem C50_threads s (l : list (list call)) (sch : nat -> nat) t i th : reachable s -> Forall (Forall valid_call) l ->
  nth_error (snd (interleave sch (spawn s l) t)) i = Some th -> right_outcomes (nth i l []) (outcomes th).
Proof. apply threads_right. Qed.

Lemma Forall2_nth {A B} (P : A -> B -> Prop) l l' : Forall2 P l l' -> forall i a b, nth_error l i = Some a -> nth_error l' i = Some b -> P a b.
Proof.
  induction 1 as [|x y l l' H F IH]; intros [|i] a b; cbn; try discriminate.
  - intros [= <-] [= <-]. exact H.
  - apply IH.
Qed.
Lemma Forall2_len {A B} (P : A -> B -> Prop) l l' : Forall2 P l l' -> length l = length l'.
Proof. induction 1; cbn; congruence. Qed.
Lemma right_nth cs rs j c o : right_outcomes cs rs -> nth_error cs j = Some c -> nth_error rs j = Some o -> enough_depth c -> o = snd (call_alone c import_state).
Proof.
  intros (first & rest & -> & F) C O1 D. pose proof (Forall2_len _ _ _ F) as LN. pose proof (nth_error_Some rs j) as NS. rewrite O1 in NS.
  assert (j < length rs)%nat by (apply NS; discriminate). rewrite nth_error_app1 in C by lia. exact (Forall2_nth _ _ _ F j c o C O1 D).
Qed.

(** In particular the values are those of the Zernike polynomials ... *)
Theorem C50_value s (l : list (list call)) (sch : nat -> nat) t i j th o f m n e r theta : reachable s -> Forall (Forall valid_call) l ->
  nth_error (snd (interleave sch (spawn s l) t)) i = Some th ->
  nth_error (nth i l []) j = Some (Value f m n e r theta) -> nth_error (outcomes th) j = Some o ->
  n + 1 < Z.of_nat f -> (e = true -> n <= 40) -> o = Ok (Z_nm m n r theta).
Proof.
  intros RS V H C O1 D E40. rewrite (right_nth _ _ _ _ _ (C50_threads s l sch t i th RS V H) C O1 D). cbn [call_alone].
  apply zp_value_ok; [constructor| |exact D|exact E40].
  assert (Forall valid_call (nth i l [])) as FV.
  { destruct (nth_in_or_default i l []) as [X|X]; [rewrite Forall_forall in V; apply V, X|rewrite X; constructor]. }
  rewrite Forall_forall in FV. exact (FV _ (nth_error_In _ _ C)).
Qed.
(** ... and of the derivatives of their radial parts. *)
Theorem C50_derivative s (l : list (list call)) (sch : nat -> nat) t i j th o f m n (e : bool) r : reachable s -> Forall (Forall valid_call) l ->
  nth_error (snd (interleave sch (spawn s l) t)) i = Some th ->
  nth_error (nth i l []) j = Some (RadialDr f m n e r) -> nth_error (outcomes th) j = Some o ->
  n + 1 < Z.of_nat f -> (if e then n <= 38 else n - Z.abs m <= 38) -> exists d, o = Ok d /\ derivable_pt_lim (R_nm m n) r d.
Proof.
  intros RS V H C O1 D E38. rewrite (right_nth _ _ _ _ _ (C50_threads s l sch t i th RS V H) C O1 D). cbn [call_alone].
  apply zp_radial_dr_ok; [constructor| |exact D|exact E38].
  assert (Forall valid_call (nth i l [])) as FV.
  { destruct (nth_in_or_default i l []) as [X|X]; [rewrite Forall_forall in V; apply V, X|rewrite X; constructor]. }
  rewrite Forall_forall in FV. exact (FV _ (nth_error_In _ _ C)).
Qed.

(** And if no thread is starved every call of every thread returns. *)
Theorem C50_all_return s (l : list (list call)) (sch : nat -> nat) : reachable s -> Forall (Forall valid_call) l -> fair sch (length l) ->
  exists T, forall t, (T <= t)%nat -> forall i cs, nth_error l i = Some cs ->
    exists th, nth_error (snd (interleave sch (spawn s l) t)) i = Some th /\ length (outcomes th) = length cs /\ right_outcomes cs (outcomes th).
Proof. apply threads_end. Qed.

(** ** Concrete cases *)
(** two threads at the same order 46 (tabulated up to 40, then the recurrence), one of them then at (1,13), with another caller's caches *)
Definition calls_ex : list (list call) :=
  [ [Value 60 2 46 false (1/2) 1; RadialDr 60 0 14 false (1/3)]; [Value 60 2 46 false (1/2) 1; Radial 60 1 13 false (1/2)] ]%R.
Example calls_ex_valid : Forall (Forall valid_call) calls_ex.
Proof.
  assert (valid 2 46) by (split; [lia|split; [lia|exists 22; lia]]). assert (valid 0 14) by (split; [lia|split; [lia|exists 7; lia]]).
  assert (valid 1 13) by (split; [lia|split; [lia|exists 6; lia]]).
  unfold calls_ex. constructor; [constructor; [assumption|constructor; [assumption|constructor]]|].
  constructor; [constructor; [assumption|constructor; [assumption|constructor]]|constructor].
Qed.
Definition round_robin (t : nat) : nat := Nat.modulo t 2.
Example round_robin_fair : fair round_robin (length calls_ex).
Proof.
  intros i t Hi. cbn in Hi. destruct (Nat.eq_dec (Nat.modulo t 2) i) as [E|E]; [exists t; auto|].
  exists (S t). split; [lia|]. unfold round_robin. pose proof (Nat.mod_upper_bound t 2). pose proof (Nat.div_mod t 2).
  destruct (Nat.eq_dec (Nat.modulo t 2) 0) as [Z1|Z1].
  - assert (i = 1)%nat by lia. subst. symmetry. apply (Nat.mod_unique (S t) 2 (Nat.div t 2) 1); lia.
  - assert (i = 0)%nat by lia. subst. symmetry. apply (Nat.mod_unique (S t) 2 (S (Nat.div t 2)) 0); lia.
Qed.
(** all four calls return and the two equal calls agree with the polynomial, whatever the alternation does to the shared dictionaries *)
Example round_robin_returns : exists T, forall t, (T <= t)%nat -> forall i, (i < 2)%nat ->
  exists th o, nth_error (snd (interleave round_robin (spawn import_state calls_ex) t)) i = Some th /\
    nth_error (outcomes th) 0 = Some o /\ o = Ok (Z_nm 2 46 (1/2) 1).
Proof.
  destruct (C50_all_return import_state calls_ex round_robin reach_import calls_ex_valid round_robin_fair) as (T & H).
  exists T. intros t Ht i Hi.
  assert (exists cs, nth_error calls_ex i = Some cs /\ nth_error cs 0 = Some (Value 60 2 46 false (1/2)%R 1%R) /\ length cs = 2%nat) as (cs & A & B & L2).
  { destruct i as [|[|i]]; [eexists; repeat split|eexists; repeat split|lia]. }
  destruct (H t Ht i cs A) as (th & X & LO & _). destruct (outcomes th) as [|o os] eqn:EO; [cbn in LO; lia|].
  exists th, o. split; [exact X|]. split; [rewrite EO; reflexivity|].
  refine (C50_value import_state calls_ex round_robin t i 0 th o 60 2 46 false (1/2)%R 1%R reach_import calls_ex_valid X _ _ _ _).
  - rewrite (nth_error_nth _ _ _ A). exact B.
  - rewrite EO. reflexivity.
  - lia.
  - discriminate.
Qed.
