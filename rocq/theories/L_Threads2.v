(** C50: the single-thread programs are the model of M_Coeffs; interleavings. *)
From Coq Require Import Reals Lra Arith FunctionalExtensionality.
From Verif Require Import Py SpecIndex M_Radial M_Coeffs SpecCoeffs L_Cache L_Coeffs L_CoeffVal L_Value M_Threads SpecThreads L_Threads.
Open Scope Z_scope.

(** ** refinement *)
Lemma alone_bind {A B} (f : A -> prog B) x : alone (pbind x f) = mbind (alone x) (fun a => alone (f a)).
Proof.
  apply functional_extensionality. induction x as [[a|e]|C op k IH]; intros s; cbn; [reflexivity|reflexivity|].
  unfold mbind in *. cbn. destruct (op s) as [s' b]. rewrite IH. reflexivity.
Qed.
Lemma alone_lift {A} (r : res A) : alone (plift r) = mlift r.
Proof. reflexivity. Qed.
Lemma alone_ret {A} (a : A) : alone (pret a) = mret a.
Proof. reflexivity. Qed.
Lemma set_pre_old s t k d : tget k (pre s t) <> None -> set_pre s t k d = s.
Proof.
  intros H. destruct s as [p q u v]. unfold set_pre. cbn [pre pre_dr lru lru_dr] in *. f_equal. apply functional_extensionality. intros t'.
  destruct (Bool.eqb t' t) eqn:E; [|reflexivity]. apply Bool.eqb_prop in E. subst t'. unfold tput. destruct (tget k (p t)); [reflexivity|elim H; reflexivity].
Qed.
Lemma set_pre_dr_old s t k d : tget k (pre_dr s t) <> None -> set_pre_dr s t k d = s.
Proof.
  intros H. destruct s as [p q u v]. unfold set_pre_dr. cbn [pre pre_dr lru lru_dr] in *. f_equal. apply functional_extensionality. intros t'.
  destruct (Bool.eqb t' t) eqn:E; [|reflexivity]. apply Bool.eqb_prop in E. subst t'. unfold tput. destruct (tget k (q t)); [reflexivity|elim H; reflexivity].
Qed.
Lemma alone_store t k d : alone (p_store t k d) = mmod (fun s => set_pre s t k d).
Proof.
  apply functional_extensionality. intros s. unfold p_store, p_in, p_set. cbn [pbind alone]. unfold mmod.
  destruct (tget k (pre s t)) as [x|] eqn:E; cbn [present pbind alone pret].
  - rewrite set_pre_old; [reflexivity|congruence].
  - unfold set_pre, assign_pre. rewrite (tset_new k d _ E). reflexivity.
Qed.
Lemma alone_store_dr t k d : alone (p_store_dr t k d) = mmod (fun s => set_pre_dr s t k d).
Proof.
  apply functional_extensionality. intros s. unfold p_store_dr, p_in, p_set. cbn [pbind alone]. unfold mmod.
  destruct (tget k (pre_dr s t)) as [x|] eqn:E; cbn [present pbind alone pret].
  - rewrite set_pre_dr_old; [reflexivity|congruence].
  - unfold set_pre_dr, assign_pre_dr. rewrite (tset_new k d _ E). reflexivity.
Qed.
Lemma alone_cached get put k body : alone (p_cached get put k body) = cached get put k (alone body).
Proof.
  apply functional_extensionality. intros s. unfold p_cached, cached. cbn [alone].
  destruct (assoc lrukey_eqb k (get s)) as [d|]; [reflexivity|]. cbn [alone]. rewrite alone_bind. unfold mbind.
  destruct (alone body s) as [s' [d|e]]; reflexivity.
Qed.
Lemma alone_lookup {A} get k (f : bool -> prog A) s : alone (pbind (p_in get k) f) s = alone (f (present (tget k (get s)))) s.
Proof. reflexivity. Qed.
Lemma alone_get get k s : alone (p_get get k) s = (s, match tget k (get s) with Some d => Ok d | None => Raise KeyError end).
Proof. reflexivity. Qed.

Lemma bind_ext {A B} (x y : M A) (f g : A -> M B) : x = y -> (forall a, f a = g a) -> mbind x f = mbind y g.
Proof. intros -> H. f_equal. apply functional_extensionality. exact H. Qed.

Lemma alone_find fuel : forall fl m n, alone (p_find fuel fl m n) = find_coeffs_orders fuel fl m n.
Proof.
  induction fuel as [|f IH]; intros fl m n; [reflexivity|]. cbn [p_find find_coeffs_orders]. rewrite alone_cached. f_equal.
  apply functional_extensionality. intros s. cbv zeta. set (t := flag_value fl). rewrite alone_lookup.
  destruct (tget (m, n) (pre s t)) as [d|] eqn:E; cbn [present]. { rewrite alone_get, E. reflexivity. }
  destruct (check_special_orders m n) as [[d|]|e]; [| |reflexivity].
  - rewrite pbind_ok, alone_bind, alone_store. reflexivity.
  - rewrite pbind_ok. apply (f_equal (fun g => g s)).
    repeat (rewrite alone_bind; apply bind_ext; [first [apply IH|apply alone_lift|apply alone_store]|intros ?]). reflexivity.
Qed.
Lemma alone_find_dr fuel : forall fl m n, alone (p_find_dr fuel fl m n) = find_coeffs_orders_dr fuel fl m n.
Proof.
  induction fuel as [|f IH]; intros fl m n; [reflexivity|]. cbn [p_find_dr find_coeffs_orders_dr]. rewrite alone_cached. f_equal.
  apply functional_extensionality. intros s. cbv zeta. set (t := flag_value fl). rewrite alone_lookup.
  destruct (tget (m, n) (pre_dr s t)) as [d|] eqn:E; cbn [present]. { rewrite alone_get, E. reflexivity. }
  destruct (check_special_orders_dr m n) as [[d|]|e]; [| |reflexivity].
  - rewrite pbind_ok, alone_bind, alone_store_dr. reflexivity.
  - rewrite pbind_ok. apply (f_equal (fun g => g s)).
    repeat (rewrite alone_bind; apply bind_ext; [first [apply alone_find|apply IH|apply alone_lift|apply alone_store|apply alone_store_dr]|intros ?]). reflexivity.
Qed.
Lemma alone_coeffs fuel : forall m n r, alone (p_coeffs fuel m n r) = radial_polynomial_coeffs fuel m n r.
Proof.
  induction fuel as [|f IH]; intros m n r; [reflexivity|]. cbn [p_coeffs radial_polynomial_coeffs].
  destruct (n <=? _); [rewrite alone_bind; apply bind_ext; [apply alone_find|reflexivity]|]. destruct (Z.abs m =? n); [reflexivity|].
  destruct (m =? 0); [repeat (rewrite alone_bind; apply bind_ext; [apply IH|intros ?]); reflexivity|]. destruct (Z.abs m =? n - 2); [reflexivity|].
  repeat (rewrite alone_bind; apply bind_ext; [apply IH|intros ?]); reflexivity.
Qed.
Lemma alone_coeffs_dr fuel : forall m n r, alone (p_coeffs_dr fuel m n r) = radial_polynomial_coeffs_dr fuel m n r.
Proof.
  induction fuel as [|f IH]; intros m n r; [reflexivity|]. cbn [p_coeffs_dr radial_polynomial_coeffs_dr].
  destruct (n <=? _); [rewrite alone_bind; apply bind_ext; [apply alone_find_dr|reflexivity]|]. destruct (Z.abs m =? n); [reflexivity|].
  destruct (m =? 0); [repeat (rewrite alone_bind; apply bind_ext; [apply IH|intros ?]); reflexivity|]. destruct (Z.abs m =? n - 2); [reflexivity|].
  repeat (rewrite alone_bind; apply bind_ext; [first [apply IH|apply alone_coeffs]|intros ?]); reflexivity.
Qed.
Lemma alone_radial fuel m n e r : alone (p_radial fuel m n e r) = zp_radial fuel m n e r.
Proof. unfold p_radial, zp_radial. destruct e; [destruct (_ <? _); reflexivity|]. destruct (_ <=? _); [reflexivity|apply alone_coeffs]. Qed.
Lemma alone_radial_dr fuel m n e r : alone (p_radial_dr fuel m n e r) = zp_radial_dr fuel m n e r.
Proof. unfold p_radial_dr, zp_radial_dr. destruct e; [destruct (_ <? _); reflexivity|]. destruct (_ <=? _); [reflexivity|apply alone_coeffs_dr]. Qed.
Lemma alone_code c : alone (code c) = call_alone c.
Proof.
  destruct c; cbn [code call_alone]; [|apply alone_radial|apply alone_radial_dr].
  unfold p_value, zp_polynomial_value. destruct (_ && _); [reflexivity|]. rewrite alone_bind, alone_radial. reflexivity.
Qed.

(** ** a call under interference *)
Lemma safe_alone_at {A} Q (p : prog A) : forall s, Inv s -> has_rows s -> safe_at Q p s -> Q (snd (alone p s)).
Proof.
  induction p as [r|B op k IH]; intros s IS HS X; [exact X|]. cbn. destruct (X s (ext_refl s IS HS)) as ((I1 & H1 & _) & Y).
  destruct (op s) as [s' b]. apply IH; assumption.
Qed.
Lemma safe_import {A} Q (p : prog A) : safe p Q -> Q (snd (alone p import_state)).
Proof. intros H. destruct (reachable_Inv _ reach_import). apply safe_alone_at; auto. Qed.
(** a program with one possible outcome returns it always *)
Lemma safe_det fuel n v (p : prog R) (x : M R) : alone p = x -> safe p (res_v fuel n v) ->
  safe p (fun r => n + 1 < Z.of_nat fuel -> r = snd (x import_state)).
Proof.
  intros E H. pose proof (safe_import _ _ H) as K. rewrite E in K. eapply safe_weaken; [exact H|]. intros r [->|[_ L]] D; [|lia].
  destruct K as [K|[_ L]]; [symmetry; exact K|lia].
Qed.
Lemma safe_pure {A} (P : Prop) (r : res A) : safe (plift r) (fun x => P -> x = r).
Proof. intros s _ _ _. reflexivity. Qed.
Lemma p_radial_safe fuel m n e r : valid m n ->
  safe (p_radial fuel m n e r) (fun x => n + 1 < Z.of_nat fuel -> x = snd (zp_radial fuel m n e r import_state)).
Proof.
  intros V. unfold p_radial, zp_radial. destruct e; [destruct (_ <? _); apply (safe_pure _ _)|]. destruct (_ <=? _); [apply safe_pure|].
  eapply safe_det; [apply alone_coeffs|apply (p_coeffs_ok fuel m n r V)].
Qed.
Lemma p_radial_dr_safe fuel m n e r : valid m n ->
  safe (p_radial_dr fuel m n e r) (fun x => n + 1 < Z.of_nat fuel -> x = snd (zp_radial_dr fuel m n e r import_state)).
Proof.
  intros V. unfold p_radial_dr, zp_radial_dr. destruct e; [destruct (_ <? _); apply (safe_pure _ _)|]. destruct (_ <=? _); [apply safe_pure|].
  destruct (p_coeffs_dr_det r (Z.to_nat n) m n V (le_n _)) as (v & H). eapply safe_det; [apply alone_coeffs_dr|apply H].
Qed.
Definition right_outcome (c : call) (r : res R) : Prop := enough_depth c -> r = snd (call_alone c import_state).
Lemma code_safe c : valid_call c -> safe (code c) (right_outcome c).
Proof.
  destruct c as [f m n e r th|f m n e r|f m n e r]; unfold valid_call, right_outcome, enough_depth; cbn [call_orders call_depth fst snd code call_alone]; intros V;
    [|apply p_radial_safe, V|apply p_radial_dr_safe, V].
  unfold p_value, zp_polynomial_value. destruct (_ && _); [apply (safe_pure _ (Ok _))|].
  eapply safe_bind; [apply p_radial_safe, V| |].
  - intros a H. apply (safe_ret (Ok _)). intros D. specialize (H D). unfold mbind. destruct (zp_radial f m n e r import_state) as [s' x]. cbn in *. subst x. reflexivity.
  - intros x H D. specialize (H D). unfold mbind. destruct (zp_radial f m n e r import_state) as [s' y]. cbn in *. subst y. reflexivity.
Qed.

(** ** interleavings *)
(** thread [th] in state [s]: the outcomes so far are right, and its calls are safe from here on *)
Definition th_ok (s : cstate) (cs : list call) (th : thread) : Prop :=
  exists first rest, cs = first ++ rest /\ Forall2 right_outcome first (outcomes th) /\
    match calls th, rest with
    | [], [] => True
    | p :: ps, c :: rest' => safe_at (right_outcome c) p s /\ ps = map code rest' /\ Forall valid_call rest'
    | _, _ => False
    end.
Lemma th_ok_ext s s' cs th : th_ok s cs th -> ext s s' -> th_ok s' cs th.
Proof.
  intros (first & rest & A & B & C) E. exists first, rest. split; [exact A|split; [exact B|]].
  destruct (calls th), rest; try exact C. destruct C as (C & D). split; [eapply safe_at_ext; eassumption|exact D].
Qed.
Lemma th_ok_step s cs th : Inv s -> has_rows s -> th_ok s cs th -> ext s (fst (thread_step th s)) /\ th_ok (fst (thread_step th s)) cs (snd (thread_step th s)).
Proof.
  intros IS HS H. pose proof (ext_refl s IS HS) as ER. pose proof H as (first & rest & A & B & C). unfold thread_step.
  destruct (calls th) as [|p ps] eqn:EC; [cbn; auto|]. destruct rest as [|c rest]; [destruct C|]. destruct C as (C & -> & VR).
  destruct p as [r|X op k].
  - cbn [fst snd]. split; [exact ER|]. exists (first ++ [c]), rest. cbn [outcomes calls]. split; [rewrite <- app_assoc; exact A|]. split.
    + apply Forall2_app; [exact B|]. constructor; [exact C|constructor].
    + destruct rest as [|c' rest]; cbn [map]; [trivial|]. apply Forall_cons_iff in VR. destruct VR as (V' & VR).
      split; [apply code_safe; assumption|auto].
  - destruct (C s ER) as (E & D). destruct (op s) as [s' b]. cbn [fst snd] in *. split; [exact E|]. exists first, (c :: rest). cbn [outcomes calls]. auto.
Qed.
Lemma replace_nth i x l : forall j, (i < length l)%nat -> nth_error (replace i x l) j = if (j =? i)%nat then Some x else nth_error l j.
Proof.
  revert i. induction l as [|y l IH]; intros i j H; [cbn in H; lia|]. destruct i, j; cbn; try reflexivity. apply IH. cbn in H. lia.
Qed.
Lemma replace_length i x l : length (replace i x l) = length l.
Proof. revert i. induction l as [|y l IH]; intros [|i]; cbn; auto. Qed.

Definition w_ok (l : list (list call)) (w : world) : Prop :=
  Inv (fst w) /\ has_rows (fst w) /\ length (snd w) = length l /\ forall i th, nth_error (snd w) i = Some th -> th_ok (fst w) (nth i l []) th.
Lemma w_ok_start s l : reachable s -> Forall (Forall valid_call) l -> w_ok l (spawn s l).
Proof.
  intros RS V. destruct (reachable_Inv _ RS) as [A B]. split; [exact A|]. split; [exact B|]. cbn [spawn fst snd]. split; [apply map_length|].
  intros i th H. rewrite nth_error_map in H. destruct (nth_error l i) as [cs|] eqn:E; [|discriminate]. injection H as <-.
  rewrite (nth_error_nth _ _ _ E). apply nth_error_In in E. rewrite Forall_forall in V. specialize (V _ E).
  exists [], cs. split; [reflexivity|split; [constructor|]]. cbn [calls outcomes]. destruct cs as [|c cs]; cbn [map]; [trivial|].
  apply Forall_cons_iff in V. destruct V. split; [apply code_safe; assumption|auto].
Qed.
Lemma w_ok_switch l i w : w_ok l w -> w_ok l (switch i w).
Proof.
  intros (A & B & L & C). unfold switch. destruct (nth_error (snd w) i) as [th|] eqn:E; [|split; [exact A|split; [exact B|split; [exact L|exact C]]]].
  pose proof (th_ok_step (fst w) _ th A B (C _ _ E)) as (X & Y). destruct (thread_step th (fst w)) as [s' th']. cbn [fst snd] in *.
  pose proof X as (A' & B' & _). split; [exact A'|]. split; [exact B'|]. cbn [fst snd]. split; [rewrite replace_length; exact L|].
  intros j tj H. rewrite replace_nth in H by (apply nth_error_Some; congruence). destruct (Nat.eqb_spec j i) as [->|N].
  - injection H as <-. exact Y.
  - eapply th_ok_ext; [apply C, H|exact X].
Qed.
Lemma w_ok_run s l sch t : reachable s -> Forall (Forall valid_call) l -> w_ok l (interleave sch (spawn s l) t).
Proof. intros RS V. induction t as [|t IH]; [apply w_ok_start; assumption|]. cbn. apply w_ok_switch, IH. Qed.

Lemma threads_right s l sch t i th : reachable s -> Forall (Forall valid_call) l ->
  nth_error (snd (interleave sch (spawn s l) t)) i = Some th -> right_outcomes (nth i l []) (outcomes th).
Proof.
  intros RS V H. destruct (w_ok_run s l sch t RS V) as (_ & _ & _ & K). destruct (K _ _ H) as (first & rest & A & B & _). exists first, rest. auto.
Qed.

(** ** termination under fair schedules *)
Definition finished (w : world) (i : nat) : Prop := exists th, nth_error (snd w) i = Some th /\ calls th = [].
Lemma switch_other i j w : i <> j -> nth_error (snd (switch i w)) j = nth_error (snd w) j.
Proof.
  intros N. unfold switch. destruct (nth_error (snd w) i) as [th|] eqn:E; [|reflexivity]. destruct (thread_step th (fst w)) as [s' th']. cbn [snd].
  rewrite replace_nth by (apply nth_error_Some; congruence). destruct (Nat.eqb_spec j i); [congruence|reflexivity].
Qed.
Lemma switch_self i w th : nth_error (snd w) i = Some th -> nth_error (snd (switch i w)) i = Some (snd (thread_step th (fst w))).
Proof.
  intros E. unfold switch. rewrite E. destruct (thread_step th (fst w)) as [s' th']. cbn [snd].
  rewrite replace_nth by (apply nth_error_Some; congruence). rewrite Nat.eqb_refl. reflexivity.
Qed.
Lemma finished_stays sch w i t : forall d, finished (interleave sch w t) i -> finished (interleave sch w (d + t)) i.
Proof.
  induction d as [|d IH]; [auto|]. intros H. specialize (IH H). destruct IH as (th & A & B). cbn [interleave Nat.add].
  destruct (Nat.eq_dec (sch (d + t)%nat) i) as [->|N].
  - exists th. rewrite (switch_self _ _ _ A). unfold thread_step. rewrite B. auto.
  - exists th. rewrite switch_other by congruence. auto.
Qed.
Lemma still sch w i t : forall d, (forall t', (t <= t' < d + t)%nat -> sch t' <> i) -> nth_error (snd (interleave sch w (d + t))) i = nth_error (snd (interleave sch w t)) i.
Proof.
  induction d as [|d IH]; intros H; [reflexivity|]. cbn [Nat.add interleave]. rewrite switch_other; [apply IH; intros; apply H; lia|apply H; lia].
Qed.
(** the next turn of thread i *)
Lemma next_turn (sch : nat -> nat) (i t : nat) : (exists t', (t <= t')%nat /\ sch t' = i) -> exists d, sch (d + t)%nat = i /\ forall t', (t <= t' < d + t)%nat -> sch t' <> i.
Proof.
  intros (t' & L & E). remember (t' - t)%nat as n. revert t' L E Heqn. induction n as [n IH] using lt_wf_ind. intros t' L E Hn.
  destruct (forallb (fun k => negb (sch (t + k)%nat =? i)%nat) (List.seq 0 n)) eqn:F.
  - exists n. split; [replace (n + t)%nat with t' by lia; exact E|]. intros u Hu X. rewrite forallb_forall in F.
    specialize (F (u - t)%nat). rewrite in_seq in F. specialize (F ltac:(lia)). replace (t + (u - t))%nat with u in F by lia.
    rewrite X, Nat.eqb_refl in F. discriminate.
  - destruct (existsb (fun k => (sch (t + k)%nat =? i)%nat) (List.seq 0 n)) eqn:G.
    + apply existsb_exists in G. destruct G as (k & K & G). apply in_seq in K. apply Nat.eqb_eq in G. apply (IH k ltac:(lia) (t + k)%nat); lia.
    + exfalso. assert (forallb (fun k => negb (sch (t + k)%nat =? i)%nat) (List.seq 0 n) = true); [|congruence].
      apply forallb_forall. intros k K. destruct (sch (t + k)%nat =? i)%nat eqn:X; [|reflexivity].
      assert (existsb (fun k => (sch (t + k)%nat =? i)%nat) (List.seq 0 n) = true); [|congruence]. apply existsb_exists. eauto.
Qed.
Lemma advance sch w n i t th : fair sch n -> (i < n)%nat -> nth_error (snd (interleave sch w t)) i = Some th ->
  exists d, nth_error (snd (interleave sch w (d + t))) i = Some (snd (thread_step th (fst (interleave sch w (pred d + t))))) /\ (0 < d)%nat.
Proof.
  intros F L H. destruct (next_turn sch i t (F i t L)) as (d & E & N). exists (S d). split; [|lia]. cbn [Nat.add interleave Nat.pred].
  rewrite E. apply switch_self. rewrite still by exact N. exact H.
Qed.
Lemma call_ends sch w n i : fair sch n -> (i < n)%nat -> forall (p : prog R) t th ps, nth_error (snd (interleave sch w t)) i = Some th -> calls th = p :: ps ->
  exists d th', nth_error (snd (interleave sch w (d + t))) i = Some th' /\ calls th' = ps.
Proof.
  intros F L. induction p as [r|B op k IH]; intros t th ps H E.
  - destruct (advance sch w n i t th F L H) as (d & D & _). exists d. eexists. split; [exact D|]. unfold thread_step. rewrite E. reflexivity.
  - destruct (advance sch w n i t th F L H) as (d & D & _). unfold thread_step in D. rewrite E in D. destruct (op _) as [s' b]. cbn [snd] in D.
    destruct (IH b (d + t)%nat _ ps D eq_refl) as (d' & th' & X & Y). exists (d' + d)%nat, th'. rewrite <- Nat.add_assoc. auto.
Qed.
Lemma thread_ends sch w n i : fair sch n -> (i < n)%nat -> forall ps t th, nth_error (snd (interleave sch w t)) i = Some th -> calls th = ps ->
  exists d, finished (interleave sch w (d + t)) i.
Proof.
  intros F L. induction ps as [|p ps IH]; intros t th H E; [exists 0%nat, th; auto|].
  destruct (call_ends sch w n i F L p t th ps H E) as (d & th' & X & Y). destruct (IH _ _ X Y) as (d' & Z1). exists (d' + d)%nat. rewrite <- Nat.add_assoc. exact Z1.
Qed.
Lemma all_end sch w n : fair sch n -> length (snd w) = n -> forall k, (k <= n)%nat -> exists t, forall i, (i < k)%nat -> finished (interleave sch w t) i.
Proof.
  intros F LW. assert (LEN : forall t, length (snd (interleave sch w t)) = n).
  { induction t as [|t IH]; [exact LW|]. cbn. unfold switch. destruct (nth_error _ _); [|exact IH]. destruct (thread_step _ _). cbn. rewrite replace_length. exact IH. }
  induction k as [|k IH]; intros L; [exists 0%nat; intros; lia|]. destruct IH as (t & H); [lia|].
  destruct (nth_error (snd (interleave sch w t)) k) as [th|] eqn:E; [|apply nth_error_None in E; rewrite LEN in E; lia].
  destruct (thread_ends sch w n k F ltac:(lia) _ t th E eq_refl) as (d & Z1). exists (d + t)%nat. intros i Hi.
  destruct (Nat.eq_dec i k) as [->|NE]; [exact Z1|]. apply finished_stays, H. lia.
Qed.
Lemma threads_end s l sch : reachable s -> Forall (Forall valid_call) l -> fair sch (length l) ->
  exists T, forall t, (T <= t)%nat -> forall i cs, nth_error l i = Some cs ->
    exists th, nth_error (snd (interleave sch (spawn s l) t)) i = Some th /\ length (outcomes th) = length cs /\ right_outcomes cs (outcomes th).
Proof.
  intros RS V F. destruct (all_end sch (spawn s l) (length l) F ltac:(apply map_length) (length l) ltac:(lia)) as (T & H).
  exists T. intros t Ht i cs E. assert (L : (i < length l)%nat) by (apply nth_error_Some; congruence).
  specialize (H i L). replace t with ((t - T) + T)%nat by lia. apply (finished_stays _ _ _ _ (t - T)%nat) in H.
  destruct H as (th & A & B). exists th. split; [exact A|]. pose proof (threads_right _ _ _ _ _ _ RS V A) as RO.
  rewrite (nth_error_nth _ _ _ E) in RO. split; [|exact RO].
  destruct (w_ok_run s l sch (t - T + T) RS V) as (_ & _ & _ & K). destruct (K _ _ A) as (first & rest & X & Y & Z1). rewrite B in Z1.
  destruct rest; [|destruct Z1]. rewrite (nth_error_nth _ _ _ E), app_nil_r in X. subst first. symmetry. clear - Y; induction Y; cbn; congruence.
Qed.
