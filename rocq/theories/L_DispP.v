(** Every call of a live manager ends under a fair schedule. *)
From Coq Require Import Permutation.
From Verif Require Import Py M_Disp SpecDisp L_Disp L_DispC L_DispL L_DispF L_DispH.
Open Scope nat_scope.

Section Progress.
Context {val : Type}.
Variable started : val.
Variable cpu : nat.
Variable sch : nat -> agent.
Hypothesis FAIR : fair sch.
Variable st : nat -> world val.
Hypothesis STEP : forall t, st (S t) = act started cpu (sch t) (st t).
Implicit Types s : world val.
Notation moved := (moved started cpu).
Notation next := (next started cpu).

(** a phase in which a measure never grows, and falls at the turn of a fixed agent *)
Lemma helped_in (X : abs -> list (op val) -> world val -> Prop) (m : world val -> nat) a ops outs s0 ag :
  (forall s b, b <> Main -> X a ops s -> X a ops (act started cpu b s)) ->
  (forall s, out s = outs -> X a ops s -> moved X a ops outs (main_step cpu s)) ->
  (forall s b, out s = outs -> X a ops s -> m (act started cpu b s) < m s \/ (m (act started cpu b s) = m s /\ main (act started cpu b s) = main s) \/ next a ops outs (act started cpu b s)) ->
  (forall s, out s = outs -> X a ops s -> main s = main s0 -> m s = m s0 -> m (act started cpu ag s) < m s \/ next a ops outs (act started cpu ag s)) ->
  out s0 = outs -> X a ops s0 ->
  helped started cpu (fun s => out s = outs /\ X a ops s) (next a ops outs) m s0.
Proof.
  intros XO XM MO MA E0 X0. exists (fun s => (out s = outs /\ X a ops s) /\ main s = main s0 /\ m s = m s0), ag, (fun _ => 0). split; [auto|].
  intros s ((EO & XS) & EM & EQ) b. assert (ST : (out (act started cpu b s) = outs /\ X a ops (act started cpu b s)) \/ next a ops outs (act started cpu b s)).
  { destruct (agent_eq b Main) as [->|NE]; [apply XM; assumption|]. left. split; [rewrite out_other by exact NE; exact EO|apply XO; assumption]. }
  destruct ST as [ST|ST]; [|left; exact ST]. destruct (agent_eq b ag) as [->|NA].
  - destruct (MA s EO XS EM EQ) as [D|D]; [|left; exact D]. right; left. split; [exact ST|lia].
  - destruct (MO s b EO XS) as [D|[[D1 D2]|D]]; [right; left; split; [exact ST|lia]| |left; exact D]. right; right. split; [split; [exact ST|split; congruence]|]. split; [lia|]. intros; contradiction.
Qed.

(** closing *)
Definition m_close n s : nat := match main s with CKeep _ => n + 2 | CTrig _ i => n + 1 - i | _ => 0 end.
Lemma closing_live a ops s : closing a ops s -> m_close (length (aw a)) (main_step cpu s) < m_close (length (aw a)) s \/ (forall outs, out s = outs -> next a ops outs (main_step cpu s)).
Proof.
  intros C. assert (C' := C). destruct C' as (k & P1 & P2 & P3 & P4 & P5 & P6 & P7 & P8). assert (EA := man_mst a s k P5). assert (EI : inited (man s k) = true) by (unfold a_on in P2; rewrite <- EA in P2; exact P2).
  assert (WO : workers_of s k = seq 0 (length (aw a))) by (unfold workers_of; rewrite (proj1 (mok_man s k P6 EI)); exact P4).
  unfold m_close. destruct P8 as [[Q1 Q2]|(i & Q1 & Q2)]; rewrite Q1.
  - left. unfold main_step. rewrite Q1. cbn. lia.
  - destruct (Nat.lt_ge_cases i (length (aw a))) as [LT|GE].
    + left. unfold main_step. rewrite Q1, WO, nth_error_seq by exact LT. cbn [main goto]. lia.
    + right. intros outs EO. destruct (closing_main started cpu a ops outs s EO C) as [[_ X]|X]; [|exact X]. exfalso.
      destruct X as (k' & _ & _ & _ & _ & _ & _ & _ & X). revert X. unfold main_step. rewrite Q1, WO. rewrite (proj2 (nth_error_None _ _)) by (rewrite seq_length; exact GE). cbn.
      intros [[X _]|(i' & X & _)]; discriminate.
Qed.
Lemma closing_ends a ops outs t : out (st t) = outs -> closing a ops (st t) -> exists t', t <= t' /\ next a ops outs (st t').
Proof.
  intros EO C. apply (leads started cpu sch FAIR st STEP (fun s => out s = outs /\ closing a ops s) (next a ops outs) (m_close (length (aw a)))); [|split; assumption].
  intros s [EO' C']. right. apply (helped_in closing (m_close (length (aw a))) a ops outs s Main); try assumption.
  - intros s1 b NE. apply closing_other, NE.
  - intros s1. apply closing_main.
  - intros s1 b E1 X1. destruct (agent_eq b Main) as [->|NE].
    + destruct (closing_live a ops s1 X1) as [D|D]; [left; exact D|right; right; apply D, E1].
    + right; left. destruct b; [congruence|split; reflexivity..].
  - intros s1 E1 X1 _ _. destruct (closing_live a ops s1 X1) as [D|D]; [left; exact D|right; apply D, E1].
Qed.

(** starting *)
Definition nb (w : worker val) : nat := match pipe w with _ :: _ => 0 | [] => match wbuf w with _ :: _ => 1 | [] => 2 end end.
Definition m_start s : nat :=
  match main s with Spawn _ l => 5 * l | Confirm _ l i => 5 * l + 1 + match nth_error (heap s) i with Some w => nb w | None => 0 end | _ => 0 end.
Lemma nb_worker w : nb (worker_step started w) <= nb w \/ ~ newborn started w.
Proof.
  destruct w as [f m k t mb pi wb q]. unfold nb, newborn, worker_step. cbn. destruct q; cbn; try (left; lia).
  - destruct k; cbn; [|left; lia]. left. destruct pi; [|lia]. destruct wb; cbn; lia.
  - destruct t; cbn; left; lia.
  - destruct (t && k)%bool; [left; cbn; lia|]. destruct k; left; cbn; lia.
  - right. unfold waiting. cbn. intros (_ & _ & _ & [(X & _)|([X|X] & _)]); discriminate.
  - right. unfold waiting. cbn. intros (_ & _ & _ & [(X & _)|([X|X] & _)]); discriminate.
  - right. unfold waiting. cbn. intros (_ & _ & _ & [(X & _)|([X|X] & _)]); discriminate.
Qed.
Lemma nb_feed_m w : newborn started w -> nb (feed_m w) = nb w.
Proof. intros (_ & _ & E & _). unfold feed_m. rewrite E. reflexivity. Qed.
Lemma nb_feed_w w : nb (feed_w w) <= nb w.
Proof. unfold feed_w, nb. destruct (wbuf w) eqn:E; [rewrite E; lia|]. cbn. destruct (pipe w); cbn; lia. Qed.
Lemma start_other a ops s b : b <> Main -> starting started cpu a ops s -> m_start (act started cpu b s) <= m_start s /\ main (act started cpu b s) = main s.
Proof.
  intros NE S. assert (EM : main (act started cpu b s) = main s) by (destruct b; [congruence|reflexivity..]). split; [|exact EM]. unfold m_start. rewrite EM.
  destruct (main s) as [|k l|k l i|k' i|k' i|k' i|k' i|k' i|k' i|?|? ?] eqn:EMS; try lia. apply Nat.add_le_mono_l.
  destruct S as (f & nw & ps & ops' & ms & d & _ & _ & _ & _ & _ & _ & _ & [(lft & Q1 & _)|(lft & i' & w & Q1 & Q2 & Q3 & Q4 & Q5 & Q6 & Q7)]); [congruence|]. rewrite EMS in Q1. injection Q1 as -> -> ->. rewrite Q5.
  destruct b as [|j|j|j]; [congruence| | |]; cbn [act on_worker with_heap heap]; (destruct (Nat.eq_dec j i') as [->|NJ]; [rewrite upd_same, Q5; cbn [option_map]|rewrite upd_other, Q5 by exact NJ; lia]).
  - destruct (nb_worker w) as [X|X]; [exact X|contradiction].
  - rewrite nb_feed_m by exact Q6. lia.
  - apply nb_feed_w.
Qed.
Lemma start_main a ops outs s : out s = outs -> starting started cpu a ops s ->
  m_start (main_step cpu s) < m_start s \/ main_step cpu s = s \/ next a ops outs (main_step cpu s).
Proof.
  intros EO S. assert (SM := starting_main started cpu a ops outs s EO S). destruct SM as [[_ SM]|SM]; [|tauto]. destruct S as (f & nw & ps & ops' & ms & d & P1 & P2 & P3 & P4 & P5 & P6 & P7 & P8).
  destruct P8 as [(lft & Q1 & Q2 & Q3 & Q4)|(lft & i' & w & Q1 & Q2 & Q3 & Q4 & Q5 & Q6 & Q7)].
  - left. assert (MS : m_start s = 5 * lft) by (unfold m_start; rewrite Q1; reflexivity). rewrite MS. clear MS. revert SM. unfold main_step. rewrite Q1, P3, P1. destruct lft as [|lft].
    + intros (f1 & nw1 & ps1 & o1 & ms1 & d1 & _ & _ & _ & _ & _ & _ & _ & [(l & X & _)|(l & i & w & X & _)]); discriminate.
    + intros _. unfold m_start. cbn [main goto heap with_heap]. rewrite nth_error_app2, Nat.sub_diag by lia. cbn. lia.
  - assert (MS : m_start s = 5 * lft + 1 + nb w) by (unfold m_start; rewrite Q1, Q5; reflexivity). rewrite MS. unfold main_step. rewrite Q1, Q5. destruct (pipe w); [right; left; reflexivity|]. left. unfold m_start. cbn [main goto]. lia.
Qed.
Lemma starting_ends a ops outs t : out (st t) = outs -> starting started cpu a ops (st t) -> exists t', t <= t' /\ next a ops outs (st t').
Proof.
  intros EO C. apply (leads started cpu sch FAIR st STEP (fun s => out s = outs /\ starting started cpu a ops s) (next a ops outs) m_start); [|split; assumption].
  intros s [EO' C']. right.
  assert (G : forall ag, (forall s1, out s1 = outs -> starting started cpu a ops s1 -> main s1 = main s -> m_start s1 = m_start s -> m_start (act started cpu ag s1) < m_start s1 \/ next a ops outs (act started cpu ag s1)) ->
     helped started cpu (fun s => out s = outs /\ starting started cpu a ops s) (next a ops outs) m_start s).
  { intros ag HA. apply (helped_in (starting started cpu) m_start a ops outs s ag); try assumption.
    - intros s1 b NE. apply starting_other, NE.
    - intros s1. apply starting_main.
    - intros s1 b E1 X1. destruct (agent_eq b Main) as [->|NE].
      + destruct (start_main a ops outs s1 E1 X1) as [D|[D|D]]; [tauto| |tauto]. cbn [act]. rewrite D. tauto.
      + destruct (start_other a ops s1 b NE X1) as [D1 D2]. apply Nat.lt_eq_cases in D1. tauto. }
  assert (C1 := C'). destruct C1 as (f & nw & ps & ops' & ms & d & P1 & P2 & P3 & P4 & P5 & P6 & P7 & P8).
  destruct P8 as [(lft & Q1 & Q2 & Q3 & Q4)|(lft & i' & w & Q1 & Q2 & Q3 & Q4 & Q5 & Q6 & Q7)].
  - apply (G Main). intros s1 E1 X1 M1 _. destruct (start_main a ops outs s1 E1 X1) as [D|[D|D]]; [tauto| |tauto]. exfalso. rewrite Q1 in M1.
    destruct X1 as (f1 & nw1 & ps1 & o1 & ms1 & d1 & R1 & R2 & R3 & _). assert (X := f_equal (@main val) D). revert X. unfold main_step. rewrite M1, R3, R1. destruct lft; cbn; congruence.
  - assert (CLS : forall s1, starting started cpu a ops s1 -> main s1 = main s -> m_start s1 = m_start s -> exists w1, nth_error (heap s1) i' = Some w1 /\ newborn started w1 /\ nb w1 = nb w).
    { intros s1 (f1 & nw1 & ps1 & o1 & ms1 & d1 & _ & _ & _ & _ & _ & _ & _ & [(l & X & _)|(l & i & w1 & X & _ & _ & _ & X5 & X6 & _)]) M1 MM; [congruence|]. rewrite M1, Q1 in X. injection X as <- <-. exists w1. split; [exact X5|]. split; [exact X6|].
      unfold m_start in MM. rewrite M1, Q1, X5, Q5 in MM. lia. }
    assert (DEC : forall s1 ag g w1, main s1 = main s -> nth_error (heap s1) i' = Some w1 -> act started cpu ag s1 = on_worker i' g s1 -> nb (g w1) < nb w1 -> m_start (act started cpu ag s1) < m_start s1).
    { intros s1 ag g w1 M1 W1 EA LT. rewrite EA. unfold m_start. cbn [main on_worker with_heap heap]. rewrite M1, Q1, W1, upd_same, W1. cbn [option_map]. lia. }
    destruct (nb w) as [|[|z]] eqn:EN.
    + apply (G Main). intros s1 E1 X1 M1 MM. destruct (CLS s1 X1 M1 MM) as (w1 & W1 & N1 & B1). destruct (start_main a ops outs s1 E1 X1) as [D|[D|D]]; [tauto| |tauto]. exfalso.
      assert (X := f_equal (@main val) D). revert X. unfold main_step. rewrite M1, Q1, W1. unfold nb in B1. destruct (pipe w1); [destruct (wbuf w1); discriminate|]. cbn. discriminate.
    + apply (G (FeedW i')). intros s1 E1 X1 M1 MM. destruct (CLS s1 X1 M1 MM) as (w1 & W1 & N1 & B1). left. apply (DEC s1 _ feed_w w1); try assumption; [reflexivity|].
      rewrite B1. unfold nb, feed_w in *. destruct (pipe w1) eqn:EP; [|discriminate]. destruct (wbuf w1) eqn:EB; [discriminate|]. cbn. lia.
    + apply (G (Work i')). intros s1 E1 X1 M1 MM. destruct (CLS s1 X1 M1 MM) as (w1 & W1 & N1 & B1). left. apply (DEC s1 _ (worker_step started) w1); try assumption; [reflexivity|].
      destruct N1 as (K & T & B & [(Z1 & Z2 & Z3)|(Z1 & Z2)]).
      * unfold worker_step. rewrite Z1, K. unfold nb. cbn. rewrite Z2, Z3. cbn. lia.
      * exfalso. unfold nb in B1. destruct (pipe w1), (wbuf w1); discriminate.
Qed.

(** computing *)
Definition all_live (a : abs) (ps : list val) : Prop := forall f k b, In (f, k, b) (aw a) -> b = true /\ forall p, In p ps -> f p <> None.
Lemma computing_ends a k ops outs t : (forall ps n, a_man a k = (ps, true, n) -> all_live a ps) -> 1 <= length (aw a) -> out (st t) = outs -> computing a (Compute k :: ops) (st t) ->
  full (map fb (aw a)) (st t) -> exists t', t <= t' /\ next a (Compute k :: ops) outs (st t').
Proof.
  intros AL POS EO C FU. set (H := map fb (aw a)) in *. assert (LH : 1 <= length H) by (unfold H; rewrite map_length; exact POS).
  apply (leads started cpu sch FAIR st STEP (fun s => (out s = outs /\ computing a (Compute k :: ops) s) /\ full H s) (next a (Compute k :: ops) outs) (L_DispL.M (val := val))); [|split; [split|]; assumption].
  intros s [[EO' C'] FU']. right. destruct (C') as (k1 & ps & n & P1 & P2 & P3 & P4 & P5 & P6 & P7). injection P1 as <- EOPS.
  assert (LIVE : forall f b, In (f, b) H -> b = true /\ forall p, In p ps -> f p <> None).
  { intros f b IN. unfold H in IN. apply in_map_iff in IN. destruct IN as ([[f' k'] b'] & E & IN). cbn in E. injection E as -> ->. apply (AL ps n P6 f k' b IN). }
  assert (B : busy k ps H s) by (split; assumption). destruct (busy_helped started cpu k ps H LIVE LH s B) as (R & ag & d & R0 & RS).
  exists (fun s => R s /\ out s = outs /\ computing a (Compute k :: ops) s), ag, d. split; [split; [exact R0|split; assumption]|].
  intros s1 (R1 & E1 & C1) b. assert (ST : (out (act started cpu b s1) = outs /\ computing a (Compute k :: ops) (act started cpu b s1)) \/ next a (Compute k :: ops) outs (act started cpu b s1)).
  { destruct (agent_eq b Main) as [->|NE]; [apply computing_main; assumption|]. left. split; [rewrite out_other by exact NE; exact E1|apply computing_other; assumption]. }
  destruct ST as [ST|ST]; [|left; exact ST]. destruct (RS s1 R1 b) as [X|[[[X1 X2] X3]|(X1 & X2 & X3)]].
  - exfalso. destruct ST as (_ & k2 & ps2 & n2 & _ & _ & _ & _ & _ & _ & I2). assert (Y := iv_main _ _ _ _ I2). unfold at_main in Y. unfold ended in X. rewrite X in Y. exact Y.
  - right; left. split; [split; assumption|exact X3].
  - right; right. split; [split; [exact X1|exact ST]|]. split; assumption.
Qed.

(** resting *)
Lemma begins s o ops H : main s = Ready -> todo s = o :: ops -> todo (main_step cpu s) = ops /\ main (main_step cpu s) = Ready \/ (main (main_step cpu s) <> Ready /\ full H (main_step cpu s)).
Proof.
  intros EM ET. unfold main_step. rewrite EM, ET. destruct o as [f nw ps|k|k qs|k]; unfold begin.
  - destruct (bad_list _ ps); [left; cbn; rewrite ET; auto|right; cbn; split; [discriminate|exact Logic.I]].
  - rewrite ET. cbn [tl]. destruct (inited _); [right; cbn; split; [discriminate|exact Logic.I]|left; auto].
  - rewrite ET. cbn [tl]. destruct (inited _); [destruct (bad_list _ qs)|]; left; auto.
  - rewrite ET. cbn [tl]. destruct (inited _); [right; cbn; split; [discriminate|exact Logic.I]|left; auto].
Qed.
Lemma resting_ends a o ops outs t : (forall k ps n, o = Compute k -> a_man a k = (ps, true, n) -> all_live a ps /\ 1 <= length (aw a)) -> (forall os, ~ astep cpu a o os None) ->
  out (st t) = outs -> resting a (o :: ops) (st t) -> exists t' os a', t <= t' /\ astep cpu a o os (Some a') /\ out (st t') = outs ++ os /\ resting a' ops (st t').
Proof.
  intros AL NB EO R.
  assert (N : exists t', t <= t' /\ next a (o :: ops) outs (st t')).
  { assert (FIRST : exists t', t <= t' /\ (next a (o :: ops) outs (st t') \/ (out (st t') = outs /\ somewhere started cpu a (o :: ops) (st t') /\ main (st t') <> Ready /\ full (map fb (aw a)) (st t')))).
    { set (E := fun s => next a (o :: ops) outs s \/ (out s = outs /\ somewhere started cpu a (o :: ops) s /\ main s <> Ready /\ full (map fb (aw a)) s)).
      apply (leads started cpu sch FAIR st STEP (fun s => out s = outs /\ resting a (o :: ops) s) E (fun _ => 0)); [|split; assumption].
      intros s [E1 R1]. right. exists (fun s => out s = outs /\ resting a (o :: ops) s), Main, (fun _ => 0). split; [split; assumption|].
      intros s2 [E2 R2] b. destruct (agent_eq b Main) as [->|NE].
      - left. cbn [act]. unfold E. destruct (rest_main started cpu a (o :: ops) outs s2 E2 R2) as [[X1 X2]|X]; [|left; exact X]. right. split; [exact X1|]. split; [exact X2|].
        destruct R2 as (Q1 & Q2 & _). destruct (begins s2 o ops (map fb (aw a)) Q1 Q2) as [[Y1 Y2]|Y]; [exfalso|exact Y]. destruct X2 as [X2|[X2|[X2|X2]]].
        + destruct X2 as (_ & X2 & _). rewrite Y1 in X2. apply (f_equal (@length _)) in X2. cbn in X2. lia.
        + destruct X2 as (k2 & ps2 & n2 & _ & _ & _ & _ & _ & _ & I2). assert (Y := iv_main _ _ _ _ I2). unfold at_main in Y. rewrite Y2 in Y. exact Y.
        + destruct X2 as (f1 & nw1 & ps1 & o1 & ms1 & d1 & _ & _ & _ & _ & _ & _ & _ & [(l & X & _)|(l & i & w1 & X & _)]); congruence.
        + destruct X2 as (k2 & _ & _ & _ & _ & _ & _ & _ & [[X _]|(i & X & _)]); congruence.
      - right; right. split; [split; [rewrite out_other by exact NE; exact E2|apply resting_other; assumption]|]. split; [lia|]. intros; contradiction. }
    destruct FIRST as (t1 & L1 & [X|(E1 & SW & NR & FU)]); [exists t1; auto|]. destruct SW as [X|[X|[X|X]]].
    - destruct X as [X _]. contradiction.
    - assert (OK : exists k, o = Compute k) by (destruct X as (k & ps & n & EQ & _); injection EQ as -> _; exists k; reflexivity). destruct OK as [k ->].
      assert (POS : 1 <= length (aw a)) by (destruct X as (k1 & ps & n & EQ & _ & _ & _ & _ & A1 & _); injection EQ as <- _; apply (AL k ps n eq_refl A1)).
      destruct (computing_ends a k ops outs t1) as (t2 & L2 & Y); try assumption; [intros ps n A1; apply (AL k ps n eq_refl A1)|]. exists t2. split; [lia|exact Y].
    - destruct (starting_ends a _ outs t1 E1 X) as (t2 & L2 & Y). exists t2. split; [lia|exact Y].
    - destruct (closing_ends a _ outs t1 E1 X) as (t2 & L2 & Y). exists t2. split; [lia|exact Y]. }
  destruct N as (t1 & L1 & (o1 & ops1 & os & A' & EQ & AS & P & RR)). injection EQ as <- <-. destruct A' as [a'|]; [|elim (NB os AS)].
  exists t1, os, a'. split; [exact L1|]. split; [exact AS|]. split; [apply P|apply RR; reflexivity].
Qed.
End Progress.
