(** compute() ends under every fair schedule. *)
From Coq Require Import Permutation.
From Verif Require Import Py M_Disp SpecDisp L_Disp L_DispC.
Open Scope nat_scope.


Section Phi.
Context {val : Type}.
Variable started : val.
Implicit Types w : worker val.
Definition rank w : nat :=
  if trig w then match pc w with WBegin => 12 | WLoop => 9 | WWait => 8 | WCheck => 7 | WGet => 6 | WRun _ => 5 | WPut _ => 4 | WClear => 2 | WDead => 0 end
  else match pc w with WBegin => 4 | WLoop => 1 | _ => 0 end.
Definition phi w : nat := length (mbuf w) + length (wbuf w) + rank w.
Lemma phi_feed_m w : feed_m w = w \/ phi (feed_m w) < phi w.
Proof. unfold feed_m. destruct (mbuf w) eqn:E; [left; reflexivity|right]. unfold phi, rank. cbn. rewrite E. cbn. lia. Qed.
Lemma phi_feed_w w : feed_w w = w \/ phi (feed_w w) < phi w.
Proof. unfold feed_w. destruct (wbuf w) eqn:E; [left; reflexivity|right]. unfold phi, rank. cbn. rewrite E. cbn. lia. Qed.
(** a live channel: a worker's step changes nothing or decreases phi *)
Lemma phi_worker c w : keep w = true -> chan c w -> worker_step started w = w \/ phi (worker_step started w) < phi w.
Proof.
  intros K C. unfold chan in C. rewrite K in C. destruct w as [f m k t mb pi wb q]. cbn in K. subst k. destruct c as [|p|p]; unfold empty3, waiting in C; cbn in C.
  - destruct C as (-> & _ & [W|W]); subst q; cbn; [right; unfold phi, rank; cbn; lia|left; reflexivity].
  - destruct C as (-> & _ & _ & [W|W]); subst q; cbn; [right; unfold phi, rank; cbn; lia|left; reflexivity].
  - destruct C as [(-> & E & -> & W)|[(-> & (-> & -> & ->) & [W|(v & F & W)])|[(v & F & -> & E2 & [[-> W]|[-> W]])|(F & W & -> & _)]]].
    + destruct W as [[W|W]|[W|W]]; subst q; cbn; try (right; unfold phi, rank; cbn; lia). destruct pi; [left; reflexivity|right; unfold phi, rank; cbn; lia].
    + subst q. cbn. destruct (f p); right; unfold phi, rank; cbn; lia.
    + subst q. cbn. right; unfold phi, rank; cbn; lia.
    + subst q. cbn. right; unfold phi, rank; cbn; lia.
    + destruct W as [W|W]; subst q; cbn; [right; unfold phi, rank; cbn; lia|left; reflexivity].
    + subst q. cbn. left. reflexivity.
Qed.
(** a job under way: somebody can go on, or the result can be fetched *)
Definition moves (g : worker val -> worker val) w : Prop := phi (g w) < phi w.
Lemma busy_moves p w : keep w = true -> wfun w p <> None -> chan (CB p) w -> moves (worker_step started) w \/ moves feed_m w \/ moves feed_w w \/ (trig w = false /\ pipe w <> []).
Proof.
  intros K NF C. unfold chan in C. rewrite K in C. destruct w as [f m k t mb pi wb q]. cbn in K, NF. subst k. unfold empty3, waiting, moves in *; cbn in C.
  destruct C as [(-> & E & -> & W)|[(-> & (-> & -> & ->) & [W|(v & F & W)])|[(v & F & -> & E2 & [[-> W]|[-> W]])|(F & W & -> & _)]]]; [..|contradiction].
  - destruct W as [[W|W]|[W|W]]; subst q; try (left; unfold phi, rank; cbn; lia). destruct (single _ _ _ E) as [[-> ->]|[-> ->]]; [right; left; unfold phi, rank; cbn; lia|left; unfold phi, rank; cbn; lia].
  - subst q. left. cbn. destruct (f p); unfold phi, rank; cbn; lia.
  - subst q. left. unfold phi, rank; cbn; lia.
  - subst q. left. unfold phi, rank; cbn; lia.
  - destruct (single _ _ _ E2) as [[-> ->]|[-> ->]]; [right; right; right; cbn; split; [reflexivity|discriminate]|right; right; left; unfold phi, rank; cbn; lia].
Qed.
Lemma set_trig_phi w : waiting w -> trig w = false -> phi (set_trig true w) = phi w + 8.
Proof. unfold waiting, phi, rank. destruct w as [f m k t mb pi wb q]. cbn. intros [-> | ->] ->; lia. Qed.
Lemma put_phi w p : phi (set_mbuf (mbuf w ++ [p]) w) = phi w + 1.
Proof. unfold phi, rank. cbn. rewrite app_length. cbn. lia. Qed.
End Phi.

Definition total {val} (h : list (worker val)) : nat := list_sum (map phi h).
Lemma total_app {val} (a b : list (worker val)) : total (a ++ b) = total a + total b.
Proof. unfold total. rewrite map_app, list_sum_app. reflexivity. Qed.
Lemma total_upd {val} (h : list (worker val)) i g w : nth_error h i = Some w -> total (upd h i g) + phi w = total h + phi (g w).
Proof. intros E. destruct (upd_split h i g w E) as (a & b & -> & _ & ->). rewrite !total_app. unfold total. cbn [map list_sum]. cbn. fold (total b). lia. Qed.

Opaque total inflight phi.
Section Live.
Context {val : Type}.
Variable started : val.
Variable cpu : nat.
Variable k : nat.
Variable ps : list val.
Variable H : list ((val -> option val) * bool).
Hypothesis LIVE : forall f b, In (f, b) H -> b = true /\ forall p, In p ps -> f p <> None.
Implicit Types s : world val.
Notation N := (length H).
Notation L := (length ps).
Notation Inv := (Inv k ps H).

Definition bonus (m : mpc) : nat := match m with IPut _ _ => 2 | ISet _ _ => 15 | Poll _ _ => 1 | Get _ _ => 0 | NPut _ _ => 1 | NSet _ _ => 12 | _ => 0 end.
Definition M s : nat := total (heap s) + 20 * length (rest (loc s)) + 2 * length (inflight (slots (loc s))) + bonus (main s).
Lemma live_worker s i w : map stat (heap s) = H -> nth_error (heap s) i = Some w -> keep w = true /\ forall p, In p ps -> wfun w p <> None.
Proof.
  intros E W. apply (LIVE (wfun w) (keep w)). rewrite <- E. change (wfun w, keep w) with (stat w). apply in_map, nth_error_In with i. exact W.
Qed.
(** steps of the others *)
Lemma other_step s i g : (forall c w, keep w = true -> chan c w -> g w = w \/ phi (g w) < phi w) -> Inv s -> on_worker i g s = s \/ (M (on_worker i g s) < M s /\ main (on_worker i g s) = main s).
Proof.
  intros G I. destruct (I) as [A1 A2 A3 A4 A5 A6 A7 A8]. destruct (nth_error (heap s) i) as [w|] eqn:E.
  - destruct (live_worker s i w A2 E) as [K _]. destruct (G _ w K (A7 i w E)) as [X|X].
    + left. unfold on_worker. rewrite upd_id; [destruct s; reflexivity|]. intros x EX. rewrite E in EX. injection EX as <-. exact X.
    + right. split; [|reflexivity]. unfold M. cbn. assert (T := total_upd (heap s) i g w E). lia.
  - left. unfold on_worker. rewrite upd_id; [destruct s; reflexivity|]. intros x EX. congruence.
Qed.
(** the main process *)
Definition polls s s' : Prop := exists i i', main s = Poll k i /\ s' = goto (Poll k i') s /\
  ((i < N /\ i' = S i /\ (forall w j, nth_error (heap s) i = Some w -> nth_error (slots (loc s)) i = Some (Some j) -> trig w = true)) \/ (i = N /\ i' = 0 /\ computed (loc s) < L)).
Lemma main_moves s : Inv s -> main (main_step cpu s) = Ready \/ M (main_step cpu s) < M s \/ polls s (main_step cpu s) \/
  (main_step cpu s = s /\ exists i w, main s = Get k i /\ nth_error (heap s) i = Some w /\ pipe w = []).
Proof.
  intros I. destruct (I) as [A1 A2 A3 A4 A5 A6 A7 A8]. assert (HL := heap_len H s A2). unfold at_main in A8. unfold main_step. destruct (main s) as [|? ?|? ? ?|k' i|k' i|k' i|k' i|k' i|k' i|?|? ?] eqn:EM in A8 |- *; try contradiction.
  - destruct A8 as (-> & B2 & B3 & P0 & P1 & P2). rewrite A1. destruct (Nat.eq_dec i N) as [->|NE].
    + rewrite (proj2 (nth_error_None _ _)) by (rewrite seq_length; lia). right. left. unfold M. cbn. rewrite EM. cbn. lia.
    + assert (LT : i < N) by lia. rewrite nth_error_seq by exact LT. cbn [Nat.add]. rewrite A4. destruct (nth_error ps i) as [p|] eqn:EP; [|left; reflexivity].
      destruct (slots1 ps H i _ P2 LT) as [SN SU]. right. left. destruct (nth_error (heap s) i) as [w|] eqn:EW; [|apply nth_error_None in EW; lia].
      unfold M. cbn. rewrite EM. cbn [bonus]. assert (T := total_upd (heap s) i (fun w => set_mbuf (mbuf w ++ [p]) w) w EW). cbv beta in T. assert (PW : phi (set_mbuf (mbuf w ++ [p]) w) = phi w + 1) by apply put_phi.
      assert (IL := Permutation_length (inflight_set _ i i SN)). cbn in IL. rewrite P1. assert (L - i <> 0) by (assert (i < L) by (apply nth_error_Some; congruence); lia). destruct (L - i) as [|m] eqn:EQ; [lia|].
      rewrite remove_seq, !seq_length. lia.
  - destruct A8 as (-> & B2 & B3 & P0 & P1 & P2). rewrite A1, nth_error_seq by exact B2. cbn [Nat.add]. right. left. destruct (nth_error (heap s) i) as [w|] eqn:EW; [|apply nth_error_None in EW; lia].
    destruct (live_worker s i w A2 EW) as [K _]. assert (C := A7 i w EW). unfold slot_c in C. rewrite EM in C. cbn [fresh] in C. rewrite Nat.eqb_refl in C.
    rewrite P2 in C. rewrite nth_error_app1 in C by (rewrite map_length, seq_length; lia). rewrite nth_error_map, nth_error_seq in C by lia. cbn in C. destruct (nth_error ps i) as [p|] eqn:EP; [|apply nth_error_None in EP; lia].
    unfold chan in C. rewrite K in C. destruct C as (T & _ & _ & W). unfold M. cbn. rewrite EM. cbn [bonus]. assert (TU := total_upd (heap s) i (set_trig true) w EW). rewrite set_trig_phi in TU by assumption.
    cbn in TU. lia.
  - (* Poll *)
    destruct A8 as (-> & B2 & B3 & P). rewrite A1. destruct (Nat.eq_dec i N) as [->|NE].
    + rewrite (proj2 (nth_error_None _ _)) by (rewrite seq_length; lia). rewrite A5. destruct (Nat.ltb_spec (computed (loc s)) L) as [LT|GE].
      * right. right. left. exists N, 0. split; [exact EM|]. split; [reflexivity|]. right. auto.
      * left. reflexivity.
    + rewrite nth_error_seq by lia. cbn [Nat.add]. destruct (nth_error (heap s) i) as [w|] eqn:EW; [|apply nth_error_None in EW; lia]. destruct (nth_error (slots (loc s)) i) as [o|] eqn:ES; [|apply nth_error_None in ES; lia].
      destruct o as [j|].
      * destruct (trig w) eqn:ET.
        -- right. right. left. exists i, (S i). split; [exact EM|]. split; [reflexivity|]. left. split; [lia|]. split; [reflexivity|]. intros w' j' E _. rewrite EW in E. injection E as <-. exact ET.
        -- right. left. unfold M. cbn. rewrite EM. cbn. lia.
      * right. right. left. exists i, (S i). split; [exact EM|]. split; [reflexivity|]. left. split; [lia|]. split; [reflexivity|]. intros w' j' _ E. rewrite ES in E. discriminate.
  - (* Get *)
    destruct A8 as (-> & B2 & B3 & P & (j & ES) & TR). rewrite A1, nth_error_seq by exact B2. cbn [Nat.add]. rewrite ES. destruct (nth_error (heap s) i) as [w|] eqn:EW; [|apply nth_error_None in EW; lia].
    destruct (pipe w) as [|v q] eqn:EQ; [right; right; right; split; [reflexivity|]; exists i, w; auto|]. right. left. cbv zeta. set (s' := goto _ _).
    assert (HS : heap s' = upd (heap s) i (set_pipe q)) by reflexivity. assert (RS : rest (loc s') = rest (loc s)) by reflexivity. assert (SS : slots (loc s') = upd (slots (loc s)) i (fun _ => None)) by reflexivity.
    assert (BS : bonus (main s') <= 1) by (unfold s'; cbn; destruct (rest (loc s)); cbn; lia). clearbody s'.
    unfold M. rewrite HS, RS, SS, EM. cbn [bonus]. assert (T := total_upd (heap s) i (set_pipe q) w EW). assert (PW : phi (set_pipe q w) = phi w) by reflexivity.
    assert (IL := Permutation_length (inflight_clear _ i j ES)). cbn [length] in IL. lia.
  - (* NPut *)
    destruct A8 as (-> & B2 & B3 & P & ES & RN). rewrite A1, nth_error_seq by exact B2. cbn [Nat.add]. destruct (rest (loc s)) as [|j r'] eqn:ER; [congruence|]. rewrite A4.
    destruct (nth_error ps j) as [p|] eqn:EP; [|left; reflexivity]. right. left. destruct (nth_error (heap s) i) as [w|] eqn:EW; [|apply nth_error_None in EW; lia].
    unfold M. cbn. rewrite EM, ER. cbn [bonus length]. assert (T := total_upd (heap s) i (fun w => set_mbuf (mbuf w ++ [p]) w) w EW). cbv beta in T. assert (PW : phi (set_mbuf (mbuf w ++ [p]) w) = phi w + 1) by apply put_phi.
    assert (IL := Permutation_length (inflight_set _ i j ES)). cbn [length] in IL. lia.
  - (* NSet *)
    destruct A8 as (-> & B2 & B3 & P & (j & ES)). rewrite A1, nth_error_seq by exact B2. cbn [Nat.add]. right. left. destruct (nth_error (heap s) i) as [w|] eqn:EW; [|apply nth_error_None in EW; lia].
    destruct (live_worker s i w A2 EW) as [K _]. assert (C := A7 i w EW). unfold slot_c in C. rewrite EM, ES in C. cbn [fresh] in C. rewrite Nat.eqb_refl in C. destruct P as (D & PD & _).
    assert (JIN : In j (seq 0 L)) by (apply (Permutation_in j PD); apply in_or_app; right; apply in_or_app; left; apply inflight_In; exists i; exact ES).
    apply in_seq in JIN. destruct (nth_error ps j) as [p|] eqn:EP; [|apply nth_error_None in EP; lia].
    unfold chan in C. rewrite K in C. destruct C as (T & _ & _ & W). unfold M. cbn. rewrite EM. cbn [bonus]. assert (TU := total_upd (heap s) i (set_trig true) w EW). rewrite set_trig_phi in TU by assumption. lia.
Qed.
End Live.
