(** The compute() phase of the dispenser: invariant under every interleaving. *)
From Coq Require Import Permutation.
From Verif Require Import Py M_Disp L_Disp.
Open Scope nat_scope.

Lemma trig_worker {val} (st : val) w : trig w = false -> trig (worker_step st w) = false.
Proof. destruct w as [f m k t mb pi wb q]. unfold worker_step. cbn. intros ->. destruct q; cbn; try destruct k; try destruct pi; try destruct (f p); reflexivity. Qed.
Lemma trig_feed_m {val} (w : worker val) : trig (feed_m w) = trig w.
Proof. unfold feed_m. destruct (mbuf w); reflexivity. Qed.
Lemma trig_feed_w {val} (w : worker val) : trig (feed_w w) = trig w.
Proof. unfold feed_w. destruct (wbuf w); reflexivity. Qed.

Definition inflight (sl : list (option nat)) : list nat := flat_map (fun o => match o with Some j => [j] | None => [] end) sl.
Lemma inflight_app a b : inflight (a ++ b) = inflight a ++ inflight b.
Proof. unfold inflight. apply flat_map_app. Qed.
Lemma upd_split {A} (l : list A) i g x : nth_error l i = Some x -> exists a b, l = a ++ x :: b /\ length a = i /\ upd l i g = a ++ g x :: b.
Proof.
  intros E. destruct (nth_error_split _ _ E) as (a & b & -> & L). exists a, b. split; [reflexivity|]. split; [exact L|]. unfold upd. subst i.
  rewrite firstn_app, Nat.sub_diag, firstn_all, skipn_app, Nat.sub_diag, skipn_all. cbn [firstn skipn app]. rewrite app_nil_r. reflexivity.
Qed.
Lemma inflight_set sl i j : nth_error sl i = Some None -> Permutation (inflight (upd sl i (fun _ => Some j))) (j :: inflight sl).
Proof.
  intros E. destruct (upd_split sl i (fun _ => Some j) None E) as (a & b & -> & _ & ->). rewrite !inflight_app. cbn. symmetry. apply Permutation_middle.
Qed.
Lemma inflight_clear sl i j : nth_error sl i = Some (Some j) -> Permutation (inflight sl) (j :: inflight (upd sl i (fun _ => None))).
Proof.
  intros E. destruct (upd_split sl i (fun _ => None) (Some j) E) as (a & b & -> & _ & ->). rewrite !inflight_app. cbn. symmetry. apply Permutation_middle.
Qed.
Lemma inflight_In sl j : In j (inflight sl) <-> exists i, nth_error sl i = Some (Some j).
Proof.
  unfold inflight. rewrite in_flat_map. split.
  - intros ([x|] & I & J); [|destruct J]. destruct J as [->|[]]. apply In_nth_error in I. exact I.
  - intros [i E]. exists (Some j). split; [apply nth_error_In in E; exact E|left; reflexivity].
Qed.
Lemma nth_error_seq a n i : i < n -> nth_error (seq a n) i = Some (a + i).
Proof. revert a i. induction n as [|n IH]; intros a [|i] H; try lia; cbn; [f_equal; lia|]. rewrite IH by lia. f_equal. lia. Qed.
Lemma nth_error_rep {A} (x : A) n i : i < n -> nth_error (repeat x n) i = Some x.
Proof. revert i. induction n as [|n IH]; intros [|i] H; try lia; cbn; [reflexivity|apply IH; lia]. Qed.
Lemma remove_seq i n : remove Nat.eq_dec i (seq i (S n)) = seq (S i) n.
Proof.
  cbn [seq remove]. destruct (Nat.eq_dec i i); [|congruence]. apply notin_remove. rewrite in_seq. lia.
Qed.

Lemma NoDup_app_r {A} (a b : list A) : NoDup (a ++ b) -> NoDup b.
Proof. induction a as [|x a IH]; [auto|]. cbn. intros H. inversion H. auto. Qed.

Section Compute.
Context {val : Type}.
Variable started : val.
Variable cpu : nat.
Variable k : nat.
Variable ps : list val.
Variable H : list ((val -> option val) * bool).
Let L := length ps.
Let N := length H.
Implicit Types s : world val.

Definition stat (w : worker val) := (wfun w, keep w).
Definition goodH (i : nat) (p v : val) : Prop := match nth_error H i with Some (f, true) => f p = Some v | Some (_, false) => v = p | None => False end.
Lemma goodH_intro s i w p v : map stat (heap s) = H -> nth_error (heap s) i = Some w -> good w p v -> goodH i p v.
Proof. intros E W G. unfold goodH. rewrite <- E, nth_error_map, W. cbn. unfold stat, good in *. destruct (keep w); exact G. Qed.

Definition fresh (m : mpc) i : bool := match m with ISet _ i' | NSet _ i' => i' =? i | _ => false end.
Definition slot_c (m : mpc) (sl : list (option nat)) i : cst :=
  match nth_error sl i with
  | Some (Some j) => match nth_error ps j with Some p => if fresh m i then CP p else CB p | None => CI end
  | _ => CI
  end.
Definition phase1 s i : Prop := computed (loc s) = 0 /\ rest (loc s) = seq i (L - i) /\ slots (loc s) = map Some (seq 0 i) ++ repeat None (N - i).
Definition done_ok s j : Prop := exists p v i, nth_error ps j = Some p /\ nth_error (results (man s k)) j = Some (Some v) /\ goodH i p v /\ (j < N -> i = j).
Definition phase2 s : Prop := exists D, Permutation (rest (loc s) ++ inflight (slots (loc s)) ++ D) (seq 0 L) /\ computed (loc s) = length D /\
  (forall j, In j (rest (loc s)) -> N <= j) /\ (forall i j, nth_error (slots (loc s)) i = Some (Some j) -> j < N -> i = j) /\ (forall j, In j D -> done_ok s j).
Definition at_main s : Prop :=
  match main s with
  | IPut k' i => k' = k /\ i <= N /\ i <= L /\ phase1 s i
  | ISet k' i => k' = k /\ i < N /\ i < L /\ phase1 s (S i)
  | Poll k' i => k' = k /\ i <= N /\ N <= L /\ phase2 s
  | Get k' i => k' = k /\ i < N /\ N <= L /\ phase2 s /\ (exists j, nth_error (slots (loc s)) i = Some (Some j)) /\ (forall w, nth_error (heap s) i = Some w -> trig w = false)
  | NPut k' i => k' = k /\ i < N /\ N <= L /\ phase2 s /\ nth_error (slots (loc s)) i = Some None /\ rest (loc s) <> []
  | NSet k' i => k' = k /\ i < N /\ N <= L /\ phase2 s /\ (exists j, nth_error (slots (loc s)) i = Some (Some j))
  | _ => False
  end.
Record Inv s : Prop := {
  iv_pool : workers_of s k = seq 0 N;
  iv_stat : map stat (heap s) = H;
  iv_k : k < length (mans s);
  iv_par : params (man s k) = ps;
  iv_res : length (results (man s k)) = L;
  iv_slots : length (slots (loc s)) = N;
  iv_chan : forall i w, nth_error (heap s) i = Some w -> chan (slot_c (main s) (slots (loc s)) i) w;
  iv_main : at_main s }.
Lemma heap_len s : map stat (heap s) = H -> length (heap s) = N.
Proof. intros E. unfold N. rewrite <- E, map_length. reflexivity. Qed.

(** a step of a worker or a feeder *)
Lemma inv_worker s i g : (forall c w, chan c w -> chan c (g w)) -> (forall w, stat (g w) = stat w) -> (forall w, trig w = false -> trig (g w) = false) -> Inv s -> Inv (on_worker i g s).
Proof.
  intros GC GS GT [A1 A2 A3 A4 A5 A6 A7 A8]. split; try assumption.
  - cbn. rewrite upd_map; [exact A2|]. intros x _. apply GS.
  - intros j w E. cbn in *. destruct (Nat.eq_dec i j) as [->|NE].
    + rewrite upd_same in E. destruct (nth_error (heap s) j) as [w0|] eqn:E0; [|discriminate]. injection E as <-. apply GC, A7, E0.
    + rewrite upd_other in E by exact NE. apply A7, E.
  - unfold at_main in *. cbn. destruct (main s); try exact A8. destruct A8 as (B1 & B2 & B3 & B4 & B5 & B6). repeat split; try assumption.
    intros w E. destruct (Nat.eq_dec i i0) as [->|NE].
    + rewrite upd_same in E. destruct (nth_error (heap s) i0) as [w0|] eqn:E0; [|discriminate]. injection E as <-. apply GT, B6; reflexivity.
    + rewrite upd_other in E by exact NE. apply B6, E.
Qed.
Lemma inv_other s a : a <> Main -> Inv s -> Inv (act started cpu a s).
Proof.
  intros NM I. destruct a as [|i|i|i]; [congruence| | |]; apply inv_worker; try exact I.
  - intros c w. apply chan_worker. 
  - intros w. unfold stat. destruct (stat_worker started w) as (-> & -> & _). reflexivity.
  - intros w. apply trig_worker.
  - intros c w. apply chan_feed_m.
  - intros w. unfold stat. destruct (stat_feed_m w) as (-> & -> & _). reflexivity.
  - intros w. rewrite trig_feed_m. auto.
  - intros c w. apply chan_feed_w.
  - intros w. unfold stat. destruct (stat_feed_w w) as (-> & -> & _). reflexivity.
  - intros w. rewrite trig_feed_w. auto.
Qed.

Definition abs_m (m : manager val) := (own m, params m, inited m, n_work m, length (results m)).
Definition frame s s' : Prop := out s' = out s /\ todo s' = todo s /\ pool s' = pool s /\ map abs_m (mans s') = map abs_m (mans s).
Lemma frame_refl s : frame s s.
Proof. repeat split. Qed.
(** the list that compute() returns *)
Definition completed (r : list (option val)) : Prop := length r = L /\ forall j p, nth_error ps j = Some p -> exists v i, nth_error r j = Some (Some v) /\ goodH i p v /\ (j < N -> i = j).
(** all workers wait for a job *)
Definition quiet s : Prop := map stat (heap s) = H /\ forall i w, nth_error (heap s) i = Some w -> chan CI w.
Definition finished s s' : Prop := main s' = Ready /\ todo s' = todo s /\ pool s' = pool s /\ map abs_m (mans s') = map abs_m (mans s) /\
  ((N <= L /\ quiet s' /\ exists r, out s' = out s ++ [OResult r] /\ completed r) \/ (L < N /\ out s' = out s ++ [OError IndexError])).

Lemma chan_upd s i g m' sl' : (forall j w, nth_error (heap s) j = Some w -> chan (slot_c (main s) (slots (loc s)) j) w) ->
  (forall j, j <> i -> slot_c m' sl' j = slot_c (main s) (slots (loc s)) j) ->
  (forall w, nth_error (heap s) i = Some w -> chan (slot_c (main s) (slots (loc s)) i) w -> chan (slot_c m' sl' i) (g w)) ->
  forall j w, nth_error (upd (heap s) i g) j = Some w -> chan (slot_c m' sl' j) w.
Proof.
  intros C O G j w E. destruct (Nat.eq_dec i j) as [->|NE].
  - rewrite upd_same in E. destruct (nth_error (heap s) j) as [w0|] eqn:E0; [|discriminate]. injection E as <-. apply G; [reflexivity|apply C, E0].
  - rewrite upd_other in E by exact NE. rewrite O by congruence. apply C, E.
Qed.
Lemma slots1 i sl : sl = map Some (seq 0 i) ++ repeat None (N - i) -> i < N -> nth_error sl i = Some None /\ upd sl i (fun _ => Some i) = map Some (seq 0 (S i)) ++ repeat None (N - S i).
Proof.
  intros E LT. assert (LI : length (map Some (seq 0 i)) = i) by (rewrite map_length, seq_length; reflexivity). assert (NE : nth_error sl i = Some None).
  { subst sl. rewrite nth_error_app2 by lia. rewrite LI, Nat.sub_diag. apply nth_error_rep. lia. }
  split; [exact NE|]. destruct (upd_split sl i (fun _ => Some i) None NE) as (a & b & E1 & LA & ->). rewrite E in E1.
  replace (N - i) with (S (N - S i)) in E1 by lia. cbn [repeat] in E1. assert (X : a = map Some (seq 0 i) /\ b = repeat None (N - S i)).
  { assert (F := f_equal (firstn i) E1). rewrite !firstn_app in F. replace (i - length (map Some (seq 0 i))) with 0 in F by lia. rewrite LA, Nat.sub_diag in F. cbn [firstn] in F. rewrite !app_nil_r in F.
    rewrite !firstn_all2 in F by lia. split; [symmetry; exact F|]. rewrite F in E1. apply app_inv_head in E1. injection E1 as <-. reflexivity. }
  destruct X as [-> ->]. rewrite seq_S, map_app. cbn. rewrite <- app_assoc. reflexivity.
Qed.
Lemma frame_mans s : map abs_m (mans (on_man k (fun m => set_results (results m) m) s)) = map abs_m (mans s).
Proof. cbn. apply upd_map. intros m _. reflexivity. Qed.

Lemma inv_main_step s : Inv s -> (Inv (main_step cpu s) /\ frame s (main_step cpu s)) \/ finished s (main_step cpu s).
Proof.
  intros I. destruct (I) as [A1 A2 A3 A4 A5 A6 A7 A8]. assert (HL := heap_len s A2). unfold at_main in A8. unfold main_step. destruct (main s) as [|? ?|? ? ?|k' i|k' i|k' i|k' i|k' i|k' i|?|? ?] eqn:EM in A8 |- *; try contradiction.
  - (* IPut *)
    destruct A8 as (-> & B2 & B3 & P0 & P1 & P2). rewrite A1. destruct (Nat.eq_dec i N) as [->|NE].
    + (* all started *)
      rewrite (proj2 (nth_error_None _ _)) by (rewrite seq_length; lia). left. split; [|repeat split]. split; try assumption.
      * cbn. intros j w E. specialize (A7 j w E). unfold slot_c in *. rewrite EM in A7. exact A7.
      * unfold at_main. cbn. split; [reflexivity|]. split; [lia|]. split; [exact B3|]. exists []. cbn. rewrite P0, P1, P2.
        rewrite Nat.sub_diag. cbn. rewrite app_nil_r. assert (FI : inflight (map Some (seq 0 N)) = seq 0 N) by (clear; induction (seq 0 N) as [|a l IH]; [reflexivity|cbn in *; f_equal; exact IH]).
        rewrite app_nil_r, FI. split; [|split; [reflexivity|split; [intros j J; apply in_seq in J; lia|split; [|intros j []]]]].
        -- rewrite Permutation_app_comm, <- seq_app. replace (N + (L - N)) with L by lia. reflexivity.
        -- intros a j E _. rewrite nth_error_map in E. destruct (nth_error (seq 0 N) a) as [x|] eqn:EX; [|discriminate]. injection E as ->.
           assert (a < N) by (rewrite <- (seq_length N 0); apply nth_error_Some; congruence). rewrite nth_error_seq in EX by assumption. injection EX as <-. reflexivity.
    + assert (LT : i < N) by lia. rewrite nth_error_seq by exact LT. cbn [Nat.add]. rewrite A4. destruct (Nat.eq_dec i L) as [->|NL].
      * (* more workers than parameters *)
        rewrite (proj2 (nth_error_None ps L)) by (fold L; lia). right. split; [reflexivity|]. repeat split. right. split; [exact LT|reflexivity].
      * destruct (nth_error ps i) as [p|] eqn:EP; [|apply nth_error_None in EP; fold L in EP; lia].
        destruct (slots1 i _ P2 LT) as [SN SU]. left. split; [|repeat split]. split; try assumption.
        -- cbn. rewrite upd_map; [exact A2|]. intros x _. reflexivity.
        -- cbn. rewrite upd_length. exact A6.
        -- cbn. apply chan_upd; [exact A7| |].
           ++ intros j NJ. unfold slot_c. rewrite EM. cbn [fresh]. rewrite upd_other by congruence. destruct (nth_error (slots (loc s)) j) as [[x|]|]; try reflexivity.
              destruct (nth_error ps x); [|reflexivity]. destruct (Nat.eqb_spec i j); [congruence|reflexivity].
           ++ intros w E C. unfold slot_c in *. rewrite upd_same, SN. cbn [option_map]. rewrite EP. cbn [fresh]. rewrite Nat.eqb_refl. rewrite SN in C. apply chan_put, C.
        -- unfold at_main. cbn. split; [reflexivity|]. split; [exact LT|]. split; [lia|]. split; [exact P0|]. cbn. split; [rewrite P1; replace (L - i) with (S (L - S i)) by lia; apply remove_seq|exact SU].
  - (* ISet *)
    destruct A8 as (-> & B2 & B3 & P0 & P1 & P2). rewrite A1, nth_error_seq by exact B2. cbn [Nat.add]. left. split; [|repeat split]. split; try assumption.
    + cbn. rewrite upd_map; [exact A2|]. intros x _. reflexivity.
    + cbn. apply chan_upd; [exact A7| |].
      * intros j NJ. unfold slot_c. rewrite EM. cbn [fresh]. destruct (Nat.eqb_spec i j); [congruence|reflexivity].
      * intros w E C. unfold slot_c in *. rewrite EM in C. cbn [fresh] in *. rewrite Nat.eqb_refl in C. destruct (nth_error (slots (loc s)) i) as [[x|]|] eqn:ES.
        -- assert (x < L).
           { rewrite P2 in ES. rewrite nth_error_app1 in ES by (rewrite map_length, seq_length; lia). rewrite nth_error_map, nth_error_seq in ES by lia. injection ES as <-. lia. }
           destruct (nth_error ps x) eqn:EP; [apply chan_set, C|apply nth_error_None in EP; fold L in EP; lia].
        -- exfalso. rewrite P2 in ES. rewrite nth_error_app1 in ES by (rewrite map_length, seq_length; lia). rewrite nth_error_map, nth_error_seq in ES by lia. discriminate.
        -- exfalso. apply nth_error_None in ES. lia.
    + unfold at_main. cbn. split; [reflexivity|]. split; [lia|]. split; [lia|]. split; [exact P0|]. split; [exact P1|exact P2].
  - (* Poll *)
    destruct A8 as (-> & B2 & B3 & P). rewrite A1. destruct (Nat.eq_dec i N) as [->|NE].
    + rewrite (proj2 (nth_error_None _ _)) by (rewrite seq_length; lia). rewrite A5. destruct (Nat.ltb_spec (computed (loc s)) L) as [LT|GE].
      * left. split; [|repeat split]. split; try assumption.
        -- cbn. intros j w E. specialize (A7 j w E). unfold slot_c in *. rewrite EM in A7. exact A7.
        -- unfold at_main. cbn. split; [reflexivity|]. split; [lia|]. split; [exact B3|exact P].
      * right. destruct P as (D & PD & PC & PR & PS & PG). assert (LD := Permutation_length PD). rewrite !app_length, seq_length in LD.
        assert (R0 : rest (loc s) = []) by (apply length_zero_iff_nil; lia). assert (S0 : inflight (slots (loc s)) = []) by (apply length_zero_iff_nil; lia).
        rewrite R0, S0 in PD. cbn [app] in PD.
        split; [reflexivity|]. split; [reflexivity|]. split; [reflexivity|]. split; [reflexivity|]. left. split; [exact B3|]. split.
        -- split; [exact A2|]. cbn. intros j w E. specialize (A7 j w E). assert (X : slot_c (main s) (slots (loc s)) j = CI).
           { unfold slot_c. destruct (nth_error (slots (loc s)) j) as [[x|]|] eqn:EX; try reflexivity. exfalso. assert (IN : In x (inflight (slots (loc s)))) by (apply inflight_In; exists j; exact EX). rewrite S0 in IN. destruct IN. }
           rewrite X in A7. exact A7.
        -- eexists. split; [reflexivity|]. split; [exact A5|]. intros j p EP. assert (JL : j < L) by (apply nth_error_Some; congruence).
           assert (IJ : In j D) by (apply (Permutation_in j (Permutation_sym PD)), in_seq; lia). destruct (PG j IJ) as (p' & v & i & EP' & ER & G & X). rewrite EP in EP'. injection EP' as <-. exists v, i. auto.
    + rewrite nth_error_seq by lia. cbn [Nat.add]. destruct (nth_error (heap s) i) as [w|] eqn:EW; [|apply nth_error_None in EW; lia]. destruct (nth_error (slots (loc s)) i) as [o|] eqn:ES; [|apply nth_error_None in ES; lia].
      assert (NXT : Inv (goto (Poll k (S i)) s) /\ frame s (goto (Poll k (S i)) s)).
      { split; [|repeat split]. split; try assumption.
        - cbn. intros j w' E. specialize (A7 j w' E). unfold slot_c in *. rewrite EM in A7. exact A7.
        - unfold at_main. cbn. split; [reflexivity|]. split; [lia|]. split; [exact B3|exact P]. }
      left. destruct o as [j|]; [|exact NXT]. destruct (trig w) eqn:ET; [exact NXT|]. split; [|repeat split]. split; try assumption.
      * cbn. intros j' w' E. specialize (A7 j' w' E). unfold slot_c in *. rewrite EM in A7. exact A7.
      * unfold at_main. cbn. split; [reflexivity|]. split; [lia|]. split; [exact B3|]. split; [exact P|]. split; [exists j; exact ES|]. intros w' E. rewrite EW in E. injection E as <-. exact ET.
  - (* Get *)
    destruct A8 as (-> & B2 & B3 & P & (j & ES) & TR). rewrite A1, nth_error_seq by exact B2. cbn [Nat.add]. rewrite ES. destruct (nth_error (heap s) i) as [w|] eqn:EW; [|apply nth_error_None in EW; lia].
    destruct (pipe w) as [|v q] eqn:EQ; [left; split; [exact I|apply frame_refl]|]. cbv zeta. left.
    assert (C := A7 i w EW). unfold slot_c in C. rewrite ES, EM in C. cbn [fresh] in C.
    destruct P as (D & PD & PC & PR & PS & PG). assert (JIN : In j (seq 0 L)).
    { apply (Permutation_in j PD). apply in_or_app. right. apply in_or_app. left. apply inflight_In. exists i. exact ES. }
    apply in_seq in JIN. destruct (nth_error ps j) as [p|] eqn:EP; [|apply nth_error_None in EP; fold L in EP; lia].
    destruct (chan_get p w v q C (TR w eq_refl) EQ) as [C' G].
    set (s' := goto _ _). assert (MK : man s' k = set_results (upd (results (man s k)) j (fun _ => Some v)) (man s k)).
    { unfold s', man. cbn. rewrite upd_nth by exact A3. reflexivity. }
    assert (P2' : phase2 s').
    { assert (RS : rest (loc s') = rest (loc s)) by reflexivity. assert (SS : slots (loc s') = upd (slots (loc s)) i (fun _ => None)) by reflexivity. assert (CS : computed (loc s') = S (computed (loc s))) by reflexivity.
      exists (j :: D). rewrite RS, SS, CS. split; [|split; [cbn; lia|split; [exact PR|split]]].
      - rewrite <- PD. apply Permutation_app_head. rewrite (inflight_clear _ _ _ ES). cbn. symmetry. apply Permutation_middle.
      - intros a b E BN. destruct (Nat.eq_dec i a) as [->|NA]; [rewrite upd_same, ES in E; discriminate|]. rewrite upd_other in E by exact NA. apply PS; assumption.
      - intros b [<-|IB].
        + exists p, v, i. split; [exact EP|]. split; [rewrite MK; cbn; rewrite upd_same; destruct (nth_error (results (man s k)) j) eqn:ER; [reflexivity|apply nth_error_None in ER; lia]|].
          split; [apply (goodH_intro s i w); assumption|]. intros JN. apply PS; assumption.
        + destruct (PG b IB) as (p' & v' & i' & X1 & X2 & X3 & X4). exists p', v', i'. split; [exact X1|]. split; [|split; assumption]. rewrite MK. cbn. destruct (Nat.eq_dec j b) as [->|NB].
          * exfalso. assert (ND : NoDup (rest (loc s) ++ inflight (slots (loc s)) ++ D)) by (apply (Permutation_NoDup (Permutation_sym PD)), seq_NoDup).
            apply NoDup_app_r in ND. rewrite (inflight_clear _ _ _ ES) in ND. cbn in ND. inversion ND as [|? ? X _]. apply X. apply in_or_app. right. exact IB.
          * rewrite upd_other by exact NB. exact X2. }
    split; [|split; [reflexivity|split; [reflexivity|split; [reflexivity|unfold s'; cbn; apply upd_map; intros m _; unfold abs_m; cbn; rewrite upd_length; reflexivity]]]].
    assert (W' : workers_of s' k = seq 0 N) by (unfold workers_of in *; rewrite MK; exact A1).
    assert (FR : forall x, fresh (main s') x = false) by (intros x; unfold s'; cbn; destruct (rest (loc s)); reflexivity).
    split; try assumption.
    + unfold s'. cbn. rewrite upd_map; [exact A2|]. intros x _. reflexivity.
    + unfold s'. cbn. rewrite upd_length. exact A3.
    + rewrite MK. exact A4.
    + rewrite MK. cbn. rewrite upd_length. exact A5.
    + unfold s'. cbn. rewrite upd_length. exact A6.
    + change (heap s') with (upd (heap s) i (set_pipe q)). change (slots (loc s')) with (upd (slots (loc s)) i (fun _ => None)). apply chan_upd; [exact A7| |].
      * intros a NA. unfold slot_c. rewrite FR, EM. cbn [fresh]. rewrite upd_other by congruence. reflexivity.
      * intros w' E _. unfold slot_c. rewrite upd_same, ES. cbn [option_map]. rewrite EW in E. injection E as <-. exact C'.
    + assert (MS : main s' = match rest (loc s) with [] => Poll k (S i) | _ :: _ => NPut k i end) by reflexivity. unfold at_main. rewrite MS. destruct (rest (loc s)) as [|x xs] eqn:ER.
      * split; [reflexivity|]. split; [lia|]. split; [exact B3|exact P2'].
      * split; [reflexivity|]. split; [exact B2|]. split; [exact B3|]. split; [exact P2'|]. split; [unfold s'; cbn; rewrite upd_same, ES; reflexivity|]. unfold s'. cbn. rewrite ER. discriminate.
  - (* NPut *)
    destruct A8 as (-> & B2 & B3 & P & ES & RN). rewrite A1, nth_error_seq by exact B2. cbn [Nat.add]. destruct (rest (loc s)) as [|j r'] eqn:ER; [congruence|]. rewrite A4.
    destruct P as (D & PD & PC & PR & PS & PG). rewrite ER in PD, PR. assert (JIN : In j (seq 0 L)) by (apply (Permutation_in j PD); left; reflexivity). apply in_seq in JIN.
    destruct (nth_error ps j) as [p|] eqn:EP; [|apply nth_error_None in EP; fold L in EP; lia]. left. split; [|repeat split]. split; try assumption.
    + cbn. rewrite upd_map; [exact A2|]. intros x _. reflexivity.
    + cbn. rewrite upd_length. exact A6.
    + cbn. apply chan_upd; [exact A7| |].
      * intros a NA. unfold slot_c. rewrite EM. cbn [fresh]. rewrite upd_other by congruence. destruct (nth_error (slots (loc s)) a) as [[x|]|]; try reflexivity. destruct (nth_error ps x); [|reflexivity].
        destruct (Nat.eqb_spec i a); [congruence|reflexivity].
      * intros w E C. unfold slot_c in *. rewrite upd_same, ES. cbn [option_map]. rewrite EP. cbn [fresh]. rewrite Nat.eqb_refl. rewrite ES in C. apply chan_put, C.
    + unfold at_main. cbn. split; [reflexivity|]. split; [exact B2|]. split; [exact B3|]. split; [|exists j; rewrite upd_same, ES; reflexivity].
      exists D. cbn. split; [|split; [exact PC|split; [intros b IB; apply PR; right; exact IB|split; [|exact PG]]]].
      * rewrite <- PD. rewrite (inflight_set _ i j ES). cbn. symmetry. apply Permutation_middle.
      * intros a b E BN. destruct (Nat.eq_dec i a) as [->|NA].
        -- rewrite upd_same, ES in E. injection E as <-. assert (X := PR j (or_introl eq_refl)). lia.
        -- rewrite upd_other in E by exact NA. apply PS; assumption.
  - (* NSet *)
    destruct A8 as (-> & B2 & B3 & P & (j & ES)). rewrite A1, nth_error_seq by exact B2. cbn [Nat.add]. left. split; [|repeat split]. split; try assumption.
    + cbn. rewrite upd_map; [exact A2|]. intros x _. reflexivity.
    + cbn. apply chan_upd; [exact A7| |].
      * intros a NA. unfold slot_c. rewrite EM. cbn [fresh]. destruct (Nat.eqb_spec i a); [congruence|reflexivity].
      * intros w E C. unfold slot_c in *. rewrite EM in C. cbn [fresh] in *. rewrite Nat.eqb_refl, ES in C. rewrite ES. destruct P as (D & PD & _).
        assert (JIN : In j (seq 0 L)) by (apply (Permutation_in j PD); apply in_or_app; right; apply in_or_app; left; apply inflight_In; exists i; exact ES).
        apply in_seq in JIN. destruct (nth_error ps j) as [p|] eqn:EP; [apply chan_set, C|apply nth_error_None in EP; fold L in EP; lia].
    + unfold at_main. cbn. split; [reflexivity|]. split; [lia|]. split; [exact B3|exact P].
Qed.
End Compute.
