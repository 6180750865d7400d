(** Progress under fair schedules: the rule, and the end of compute(). *)
From Coq Require Import Permutation.
From Verif Require Import Py M_Disp SpecDisp L_Disp L_DispC L_DispL.
Open Scope nat_scope.

Lemma agent_eq (a b : agent) : {a = b} + {a <> b}.
Proof. decide equality; apply Nat.eq_dec. Qed.

Section Leads.
Context {val : Type}.
Variable started : val.
Variable cpu : nat.
Variable sch : nat -> agent.
Hypothesis FAIR : fair sch.
Variable st : nat -> world val.
Hypothesis STEP : forall t, st (S t) = act started cpu (sch t) (st t).
Implicit Types s : world val.

Definition helped (Q E : world val -> Prop) (m : world val -> nat) (s0 : world val) : Prop :=
  exists (R : world val -> Prop) a (d : world val -> nat), R s0 /\ forall s, R s -> forall b,
    E (act started cpu b s) \/ (Q (act started cpu b s) /\ m (act started cpu b s) < m s0) \/
    (R (act started cpu b s) /\ d (act started cpu b s) <= d s /\ (b = a -> d (act started cpu b s) < d s)).

Lemma leads_one (R G : world val -> Prop) a d : (forall s, R s -> forall b, G (act started cpu b s) \/
    (R (act started cpu b s) /\ d (act started cpu b s) <= d s /\ (b = a -> d (act started cpu b s) < d s))) ->
  forall n t, R (st t) -> d (st t) <= n -> exists t', t <= t' /\ G (st t').
Proof.
  intros SR. induction n as [n IH] using lt_wf_ind. intros t RT DT. destruct (FAIR a t) as (t1 & LE & EA).
  assert (X : forall k t0, t0 + k = t1 -> R (st t0) -> d (st t0) <= n -> exists t', t0 <= t' /\ G (st t')).
  { induction k as [|k IK]; intros t0 E0 R0 D0.
    - replace t0 with t1 in * by lia. specialize (SR _ R0 (sch t1)). rewrite <- STEP in SR. destruct SR as [GG|(RR & _ & DD)]; [exists (S t1); auto|].
      specialize (DD EA). destruct (IH (d (st (S t1)))) with (t := S t1) as (t' & L' & G'); [lia|exact RR|lia|]. exists t'. split; [lia|exact G'].
    - specialize (SR _ R0 (sch t0)). rewrite <- STEP in SR. destruct SR as [GG|(RR & DD & _)]; [exists (S t0); auto|].
      destruct (IK (S t0)) as (t' & L' & G'); [lia|exact RR|lia|]. exists t'. split; [lia|exact G']. }
  apply (X (t1 - t)); [lia|exact RT|exact DT].
Qed.
Lemma leads (Q E : world val -> Prop) m : (forall s, Q s -> E s \/ helped Q E m s) -> forall t, Q (st t) -> exists t', t <= t' /\ E (st t').
Proof.
  intros HP. assert (X : forall n t, m (st t) <= n -> Q (st t) -> exists t', t <= t' /\ E (st t')).
  { induction n as [n IH] using lt_wf_ind. intros t DT QT. destruct (HP _ QT) as [EE|(R & a & d & R0 & SR)]; [exists t; auto|].
    destruct (leads_one R (fun s => E s \/ (Q s /\ m s < m (st t))) a d) with (n := d (st t)) (t := t) as (t1 & L1 & [E1|[Q1 M1]]); [|exact R0|lia| |].
    - intros s RS b. specialize (SR s RS b). tauto.
    - exists t1. auto.
    - destruct (IH (m (st t1))) with (t := t1) as (t2 & L2 & E2); [lia|lia|exact Q1|]. exists t2. split; [lia|exact E2]. }
  intros t. apply (X (m (st t))). lia.
Qed.
(** the simplest case: an agent whose turn comes makes the measure fall, and nothing else happens before *)
Lemma helped_by (Q E : world val -> Prop) m s a : E (act started cpu a s) \/ (Q (act started cpu a s) /\ m (act started cpu a s) < m s) ->
  (forall b, act started cpu b s = s \/ E (act started cpu b s) \/ (Q (act started cpu b s) /\ m (act started cpu b s) < m s)) -> helped Q E m s.
Proof.
  intros HA HB. exists (fun s' => s' = s), a, (fun _ => 0). split; [reflexivity|]. intros s' -> b.
  destruct (agent_eq b a) as [->|NE]; [tauto|]. destruct (HB b) as [X|[X|X]]; [|tauto|tauto]. right; right. rewrite X. split; [reflexivity|]. split; [lia|]. intros; contradiction.
Qed.
End Leads.

Local Opaque total inflight phi.
Section ComputeEnds.
Context {val : Type}.
Variable started : val.
Variable cpu : nat.
Variable k : nat.
Variable ps : list val.
Variable H : list ((val -> option val) * bool).
Hypothesis LIVE : forall f b, In (f, b) H -> b = true /\ forall p, In p ps -> f p <> None.
Hypothesis POS : 1 <= length H.
Implicit Types s : world val.
Notation N := (length H).
Notation L := (length ps).
Notation Inv := (Inv k ps H).
Notation M := (M (val := val)).

(** no worker rests while jobs are left *)
Definition full s : Prop :=
  match main s with
  | Poll _ _ | Get _ _ | NSet _ _ => rest (loc s) = [] \/ forall i, i < N -> nth_error (slots (loc s)) i <> Some None
  | NPut _ i' => forall i, i < N -> i <> i' -> nth_error (slots (loc s)) i <> Some None
  | _ => True
  end.
Lemma full_main s : Inv s -> full s -> main (main_step cpu s) = Ready \/ full (main_step cpu s).
Proof.
  intros I F. destruct (I) as [A1 A2 A3 A4 A5 A6 A7 A8]. assert (HL := heap_len H s A2). unfold at_main in A8. unfold main_step, full in *.
  destruct (main s) as [|? ?|? ? ?|k' i|k' i|k' i|k' i|k' i|k' i|?|? ?] eqn:EM in A8, F |- *; try contradiction.
  - destruct A8 as (-> & B2 & B3 & P0 & P1 & P2). rewrite A1. destruct (Nat.eq_dec i N) as [->|NE].
    + rewrite (proj2 (nth_error_None _ _)) by (rewrite seq_length; lia). right. cbn. right. intros i LI. rewrite P2, Nat.sub_diag. cbn. rewrite app_nil_r, nth_error_map, nth_error_seq by exact LI. discriminate.
    + rewrite nth_error_seq by lia. destruct (nth_error (params (man s k)) i); [right; exact Logic.I|left; reflexivity].
  - right. destruct (nth_error _ _); exact Logic.I.
  - destruct A8 as (-> & B2 & B3 & P). rewrite A1. destruct (nth_error (seq 0 N) i) as [wi|].
    + right. destruct (nth_error (heap s) wi) as [w|]; [|cbn; exact F]. destruct (nth_error (slots (loc s)) i) as [[j|]|]; try (cbn; exact F). destruct (trig w); cbn; exact F.
    + destruct (_ <? _); [right; cbn; exact F|left; reflexivity].
  - destruct A8 as (-> & B2 & B3 & P & (j & ES) & TR). rewrite A1, nth_error_seq by exact B2. cbn [Nat.add]. rewrite ES. right. destruct (nth_error (heap s) i) as [w|] eqn:EW; [|rewrite EM; exact F].
    destruct (pipe w) as [|v q] eqn:EQ; [rewrite EM; exact F|]. cbv zeta. cbn. destruct (rest (loc s)) as [|x xs] eqn:ER; [left; reflexivity|].
    destruct F as [F|F]; [discriminate|]. intros i' LI NI. rewrite upd_other by congruence. apply F, LI.
  - destruct A8 as (-> & B2 & B3 & P & ES & RN). rewrite A1, nth_error_seq by exact B2. cbn [Nat.add]. destruct (rest (loc s)) as [|j r'] eqn:ER; [congruence|].
    destruct (nth_error (params (man s k)) j) as [p|]; [|left; reflexivity]. right. cbn. right. intros i' LI. destruct (Nat.eq_dec i i') as [->|NI].
    + rewrite upd_same, ES. discriminate.
    + rewrite upd_other by exact NI. apply F; congruence.
  - right. destruct (nth_error (workers_of s k') i); cbn; exact F.
Qed.
Definition busy s : Prop := Inv s /\ full s.
Definition ended s : Prop := main s = Ready.
Lemma full_other s i g : full s -> full (on_worker i g s).
Proof. exact (fun F => F). Qed.
Lemma busy_other s a : a <> Main -> busy s -> busy (act started cpu a s).
Proof. intros NM [I F]. split; [apply inv_other; assumption|]. destruct a; [congruence| | |]; exact F. Qed.
Lemma busy_main s : busy s -> ended (main_step cpu s) \/ busy (main_step cpu s).
Proof.
  intros [I F]. destruct (full_main s I F) as [E|F']; [left; exact E|]. destruct (inv_main_step cpu k ps H s I) as [[I' _]|E]; [right; split; assumption|].
  left. exact (proj1 E).
Qed.
Lemma busy_step s b : busy s -> act started cpu b s = s \/ ended (act started cpu b s) \/ (busy (act started cpu b s) /\ M (act started cpu b s) < M s) \/
  (b = Main /\ polls k ps H s (act started cpu b s) /\ busy (act started cpu b s)).
Proof.
  intros B. destruct (agent_eq b Main) as [->|NE].
  - cbn [act]. destruct (busy_main s B) as [E|B']; [tauto|]. destruct (main_moves cpu k ps H LIVE s (proj1 B)) as [X|[X|[X|[X _]]]]; [tauto|tauto|tauto|tauto].
  - assert (B' := busy_other s b NE B). destruct B as [I _]. destruct b as [|i|i|i]; [congruence| | |]; cbn [act] in *.
    + destruct (other_step k ps H LIVE s i (worker_step started) (phi_worker started) I) as [X|[X _]]; tauto.
    + destruct (other_step k ps H LIVE s i feed_m (fun _ w _ _ => phi_feed_m w) I) as [X|[X _]]; tauto.
    + destruct (other_step k ps H LIVE s i feed_w (fun _ w _ _ => phi_feed_w w) I) as [X|[X _]]; tauto.
Qed.
(** a worker with a job: its own agents can go on, or its result can be fetched *)
Lemma job_moves s i j w : busy s -> nth_error (slots (loc s)) i = Some (Some j) -> nth_error (heap s) i = Some w -> fresh (main s) i = false ->
  (forall x, In x (inflight (slots (loc s))) -> x < L) ->
  (exists a, a <> Main /\ forall s', heap s' = heap s -> M (act started cpu a s') < M s') \/ (trig w = false /\ pipe w <> []).
Proof.
  intros [I F] ES EW FR JL. destruct I as [A1 A2 A3 A4 A5 A6 A7 A8]. assert (C := A7 i w EW). unfold slot_c in C. rewrite ES, FR in C.
  destruct (live_worker ps H LIVE s i w A2 EW) as [K NF]. destruct (nth_error ps j) as [p|] eqn:EP.
  2:{ exfalso. apply nth_error_None in EP. assert (X := JL j). rewrite inflight_In in X. specialize (X (ex_intro _ i ES)). lia. }
  assert (G : forall g, moves g w -> forall s', heap s' = heap s -> M (on_worker i g s') < M s').
  { intros g MV s' E. unfold M. cbn. rewrite E. assert (T := total_upd (heap s) i g w EW). unfold moves in MV. lia. }
  destruct (busy_moves started p w K (NF p (nth_error_In _ _ EP)) C) as [X|[X|[X|X]]]; [left|left|left|right; exact X].
  - exists (Work i). split; [discriminate|]. intros s' E. apply G; assumption.
  - exists (FeedM i). split; [discriminate|]. intros s' E. apply G; assumption.
  - exists (FeedW i). split; [discriminate|]. intros s' E. apply G; assumption.
Qed.
Lemma inflight_lt s : phase2 k ps H s -> forall x, In x (inflight (slots (loc s))) -> x < L.
Proof. intros (D & PD & _) x IN. assert (Y : In x (seq 0 L)) by (apply (Permutation_in x PD), in_or_app; right; apply in_or_app; left; exact IN). apply in_seq in Y. lia. Qed.
Definition polling s s' : Prop := busy s' /\ heap s' = heap s /\ loc s' = loc s /\ M s' = M s /\ exists i, main s' = Poll k i /\ i <= N.
Lemma polling_step s s' b : polling s s' -> ended (act started cpu b s') \/ (busy (act started cpu b s') /\ M (act started cpu b s') < M s) \/
  (act started cpu b s' = s' /\ b <> Main) \/ (b = Main /\ polls k ps H s' (act started cpu b s') /\ polling s (act started cpu b s')).
Proof.
  intros (B & EH & EL & EMM & i & EM & LI). destruct (busy_step s' b B) as [X|[X|[[B' X]|(-> & X & B')]]]; [|tauto|right; left; split; [exact B'|lia]|].
  - destruct (agent_eq b Main) as [->|NE]; [|tauto]. cbn [act] in *. exfalso.
    destruct (main_moves cpu k ps H LIVE s' (proj1 B)) as [Y|[Y|[Y|[Y (x & w & Y1 & _)]]]]; [rewrite X in Y; congruence|rewrite X in Y; lia| |congruence].
    destruct Y as (a & b & Y1 & Y2 & Y3). rewrite X in Y2. rewrite Y2 in EM at 1. cbn in EM. rewrite Y2 in Y1. cbn in Y1. assert (a = b) by congruence. lia.
  - right; right; right. split; [reflexivity|]. split; [exact X|]. destruct X as (a & b & Y1 & Y2 & Y3). split; [exact B'|]. rewrite Y2. cbn. split; [exact EH|]. split; [exact EL|].
    split; [|exists b; split; [reflexivity|lia]]. rewrite <- EMM. unfold M. rewrite Y1. reflexivity.
Qed.
Definition at_poll s : nat := match main s with Poll _ i => i | _ => 0 end.
Lemma poll_to s i0 : busy s -> (exists i, main s = Poll k i) -> i0 <= N ->
  (i0 < N -> exists j, nth_error (slots (loc s)) i0 = Some (Some j) /\ exists w, nth_error (heap s) i0 = Some w /\ trig w = false) -> (i0 = N -> L <= computed (loc s)) ->
  helped started cpu busy ended M s.
Proof.
  intros B [i EM] LI0 READY FIN. exists (polling s), Main, (fun s' => if at_poll s' <=? i0 then i0 - at_poll s' else N - at_poll s' + 1 + i0).
  split.
  { split; [exact B|]. repeat split. exists i. split; [exact EM|]. destruct B as [[_ _ _ _ _ _ _ A8] _]. unfold at_main in A8. rewrite EM in A8. lia. }
  intros s' PS b. destruct (polling_step s s' b PS) as [X|[X|[[X NE]|(-> & X & PS')]]]; [tauto|tauto| |].
  - right; right. rewrite X. split; [exact PS|]. split; [lia|]. intros; contradiction.
  - right; right. split; [exact PS'|]. destruct X as (a & a' & Y1 & Y2 & Y3). destruct PS as (_ & EH & EL & _).
    assert (P1 : at_poll s' = a) by (unfold at_poll; rewrite Y1; reflexivity). assert (P2 : at_poll (act started cpu Main s') = a') by (rewrite Y2; reflexivity). rewrite P1, P2.
    assert (Z : (a < N /\ a' = S a /\ a <> i0) \/ (a = N /\ a' = 0 /\ i0 < N)).
    { destruct Y3 as [(Z1 & Z2 & Z3)|(Z1 & Z2 & Z3)].
      - left. split; [exact Z1|]. split; [exact Z2|]. intros ->. destruct (READY Z1) as (j & SJ & w & W & T). rewrite EH in Z3. rewrite EL in Z3. rewrite (Z3 w j W SJ) in T. discriminate.
      - right. split; [exact Z1|]. split; [exact Z2|]. destruct (Nat.eq_dec i0 N) as [E|]; [|lia]. specialize (FIN E). rewrite EL in Z3. lia. }
    destruct (Nat.leb_spec a i0), (Nat.leb_spec a' i0); lia.
Qed.
Lemma busy_helped s : busy s -> helped started cpu busy ended M s.
Proof.
  intros B. destruct (B) as [I F]. assert (HL := heap_len H s (iv_stat _ _ _ _ I)).
  assert (NOPOLL : (forall i, main s <> Poll k i) -> forall a, (ended (act started cpu a s) \/ busy (act started cpu a s) /\ M (act started cpu a s) < M s) -> helped started cpu busy ended M s).
  { intros NP a HA. apply (helped_by started cpu busy ended M s a HA). intros b. destruct (busy_step s b B) as [X|[X|[X|(_ & (x & y & X & _) & _)]]]; [tauto|tauto|tauto|]. elim (NP x X). }
  assert (A8 := iv_main _ _ _ _ I). assert (MV := main_moves cpu k ps H LIVE s I). assert (BM := busy_main s B). unfold at_main in A8. assert (SL := iv_slots _ _ _ _ I).
  assert (MAIN : (forall i, main s <> Poll k i) -> (forall i, main s <> Get k i) -> helped started cpu busy ended M s).
  { intros NP NG. apply (NOPOLL NP Main). cbn [act]. destruct MV as [X|[X|[(x & y & X & _)|(_ & x & w & X & _)]]]; [left; exact X| |elim (NP _ X)|elim (NG _ X)]. tauto. }
  destruct (main s) as [|? ?|? ? ?|k' i|k' i|k' i|k' i|k' i|k' i|?|? ?] eqn:EM in A8; try contradiction; try (apply MAIN; intros x X; rewrite EM in X; discriminate).
  - (* Poll *)
    destruct A8 as (-> & B2 & B3 & P). assert (PO : exists i, main s = Poll k i) by (exists i; exact EM). destruct (inflight (slots (loc s))) as [|j l] eqn:EI.
    + apply (poll_to s N B PO); [lia|lia|]. intros _. destruct P as (D & PD & PC & PR & PS & PG). rewrite EI in PD. cbn [app] in PD.
      unfold full in F. rewrite EM in F. assert (R0 : rest (loc s) = []).
      { destruct F as [F|F]; [exact F|]. exfalso. specialize (F 0 POS). destruct (nth_error (slots (loc s)) 0) as [[j|]|] eqn:E0; [|congruence|apply nth_error_None in E0; lia].
        assert (X : In j (inflight (slots (loc s)))) by (apply inflight_In; exists 0; exact E0). rewrite EI in X. destruct X. }
      rewrite R0 in PD. apply Permutation_length in PD. cbn [app] in PD. rewrite seq_length in PD. lia.
    + assert (JN : In j (inflight (slots (loc s)))) by (rewrite EI; left; reflexivity). apply inflight_In in JN. destruct JN as [i0 ES].
      assert (LI0 : i0 < N) by (rewrite <- SL; apply nth_error_Some; congruence).
      destruct (nth_error (heap s) i0) as [w|] eqn:EW; [|apply nth_error_None in EW; lia].
      destruct (job_moves s i0 j w B ES EW) as [(a & NA & HA)|[T _]].
      * rewrite EM. reflexivity.
      * apply inflight_lt, P.
      * exists (polling s), a, (fun _ => 0). split; [split; [exact B|]; repeat split; exists i; split; [exact EM|lia]|].
        intros s' PS b. destruct (polling_step s s' b PS) as [X|[X|[[X NE]|(-> & X & PS')]]]; [tauto|tauto| |].
        -- destruct (agent_eq b a) as [->|NB].
           ++ exfalso. destruct PS as (_ & EH & _). specialize (HA s' EH). rewrite X in HA. lia.
           ++ right; right. rewrite X. split; [exact PS|]. split; [lia|]. intros; contradiction.
        -- right; right. split; [exact PS'|]. split; [lia|]. intros E. congruence.
      * apply (poll_to s i0 B PO); [lia| |lia]. intros _. exists j. split; [exact ES|]. exists w. split; assumption.
  - (* Get *)
    destruct A8 as (-> & B2 & B3 & P & (j & ES) & TR). destruct (nth_error (heap s) i) as [w|] eqn:EW; [|apply nth_error_None in EW; lia].
    assert (NP : forall x, main s <> Poll k x) by (intros x X; rewrite EM in X; discriminate).
    destruct (job_moves s i j w B ES EW) as [(a & NA & HA)|[T Q]].
    + rewrite EM. reflexivity.
    + apply inflight_lt, P.
    + apply (NOPOLL NP a). right. split; [apply busy_other; assumption|apply HA; reflexivity].
    + apply (NOPOLL NP Main). cbn [act]. destruct MV as [X|[X|[(x & y & X & _)|(_ & x & w' & X & Y & Z)]]]; [left; exact X|tauto|elim (NP _ X)|].
      rewrite EM in X. injection X as <-. rewrite EW in Y. injection Y as <-. contradiction.
Qed.
End ComputeEnds.
