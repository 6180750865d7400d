(** Programs with a second manager. *)
From Coq Require Import Permutation.
From Verif Require Import Py M_Disp SpecDisp L_Disp L_DispC L_DispF L_DispH L_DispS.
Open Scope nat_scope.

Section Stuck.
Context {val : Type}.
Variable started : val.
Variable cpu : nat.
Variable k : nat.
Variable ps : list val.
Variable H : list ((val -> option val) * bool).
Implicit Types s : world val.
Notation N := (length H).
Notation L := (length ps).
Hypothesis POS : 1 <= N.
Hypothesis LE : N <= L.

(** the first worker of the pool is dead *)
Definition stuck s : Prop := Inv k ps H s /\ exists w, nth_error (heap s) 0 = Some w /\ pc w = WDead /\
  match main s with IPut _ 0 | ISet _ 0 => True | _ => trig w = true /\ nth_error (slots (loc s)) 0 = Some (Some 0) end.
Lemma stuck_other s b : b <> Main -> stuck s -> stuck (act started cpu b s).
Proof.
  intros NM (I & w & W & D & X). split; [apply inv_other; assumption|].
  assert (G : exists i g, act started cpu b s = on_worker i g s /\ (pc w = WDead -> pc (g w) = WDead /\ trig (g w) = trig w)).
  { destruct b as [|i|i|i]; [congruence| | |]; cbn; exists i; eexists; (split; [reflexivity|]).
    - intros Z. unfold worker_step. rewrite Z. auto.
    - intros Z. unfold feed_m. destruct (mbuf w); auto.
    - intros Z. unfold feed_w. destruct (wbuf w); auto. }
  destruct G as (i & g & -> & G). destruct (G D) as [G1 G2]. cbn [on_worker with_heap heap main loc]. destruct (Nat.eq_dec i 0) as [->|NE].
  - exists (g w). rewrite upd_same, W. split; [reflexivity|]. split; [exact G1|]. rewrite G2. exact X.
  - exists w. rewrite upd_other by exact NE. auto.
Qed.
Lemma stuck_main s : stuck s -> stuck (main_step cpu s) /\ out (main_step cpu s) = out s.
Proof.
  intros (I & w & W & D & X). destruct (I) as [A1 A2 A3 A4 A5 A6 A7 A8]. assert (HL := heap_len H s A2).
  assert (NF : main (main_step cpu s) <> Ready).
  { unfold at_main in A8. unfold main_step. destruct (main s) as [|? ?|? ? ?|k' i|k' i|k' i|k' i|k' i|k' i|?|? ?] eqn:EM in A8, X |- *; try contradiction.
    - destruct A8 as (-> & B2 & B3 & P0 & P1 & P2). rewrite A1. destruct (nth_error (seq 0 N) i) as [x|] eqn:EX; [|discriminate]. rewrite A4. destruct (nth_error ps i) eqn:EP; [discriminate|].
      assert (i < N) by (rewrite <- (seq_length N 0); apply nth_error_Some; congruence). apply nth_error_None in EP. lia.
    - discriminate.
    - destruct A8 as (-> & B2 & B3 & P). rewrite A1. destruct (nth_error (seq 0 N) i) as [wi|].
      + destruct (nth_error (heap s) wi) as [w'|]; [|discriminate]. destruct (nth_error (slots (loc s)) i) as [[|]|]; try discriminate. destruct (trig w'); discriminate.
      + rewrite A5. destruct (Nat.ltb_spec (computed (loc s)) L) as [LT|GE]; [discriminate|]. exfalso. destruct P as (D' & PD & PC & _). apply Permutation_length in PD. rewrite !app_length, seq_length in PD.
        assert (IN : In 0 (inflight (slots (loc s)))) by (apply inflight_In; exists 0; apply X). destruct (inflight (slots (loc s))) as [|z l]; [destruct IN|]. cbn [length] in PD. lia.
    - destruct A8 as (-> & B2 & B3 & P & (j & ES) & TR). rewrite A1, nth_error_seq by exact B2. cbn [Nat.add]. rewrite ES. destruct (nth_error (heap s) i) as [w'|]; [|rewrite EM; discriminate]. destruct (pipe w'); [rewrite EM; discriminate|]. cbn. destruct (rest (loc s)); discriminate.
    - destruct A8 as (-> & B2 & B3 & P & ES & RN). rewrite A1, nth_error_seq by exact B2. cbn [Nat.add]. destruct (rest (loc s)) as [|j r'] eqn:ER; [congruence|]. rewrite A4. destruct (nth_error ps j) eqn:EP; [discriminate|].
      exfalso. destruct P as (D' & PD & _). rewrite ER in PD. assert (IN : In j (seq 0 L)) by (apply (Permutation_in j PD); left; reflexivity). apply in_seq in IN. apply nth_error_None in EP. lia.
    - discriminate. }
  destruct (inv_main_step cpu k ps H s I) as [[I' (F & _)]|(E & _)]; [|contradiction]. split; [|exact F]. split; [exact I'|]. clear NF F.
  assert (I8 := iv_main _ _ _ _ I'). revert I8. clear I'.
  unfold at_main in A8. unfold at_main, main_step. destruct (main s) as [|? ?|? ? ?|k' i|k' i|k' i|k' i|k' i|k' i|?|? ?] eqn:EM in A8, X |- *; try contradiction.
  - destruct A8 as (-> & B2 & B3 & P0 & P1 & P2). rewrite A1. destruct (nth_error (seq 0 N) i) as [x|] eqn:EX.
    + assert (LI : i < N) by (rewrite <- (seq_length N 0); apply nth_error_Some; congruence). rewrite nth_error_seq in EX by exact LI. injection EX as <-. cbn [Nat.add]. rewrite A4. destruct (nth_error ps i) as [p|] eqn:EP; [|apply nth_error_None in EP; lia].
      intros _. cbn [main goto heap on_worker with_heap loc with_loc slots]. destruct i as [|i].
      * exists (set_mbuf (mbuf w ++ [p]) w). rewrite upd_same, W. auto.
      * exists w. rewrite !upd_other by lia. auto.
    + intros _. exists w. cbn [main goto heap loc]. split; [exact W|]. split; [exact D|]. destruct i; [|exact X]. apply nth_error_None in EX. rewrite seq_length in EX. lia.
  - destruct A8 as (-> & B2 & B3 & P0 & P1 & P2). rewrite A1, nth_error_seq by exact B2. cbn [Nat.add]. intros _. cbn [main goto heap on_worker with_heap loc]. destruct i as [|i].
    + exists (set_trig true w). rewrite upd_same, W. split; [reflexivity|]. split; [exact D|]. split; [reflexivity|]. rewrite P2. reflexivity.
    + exists w. rewrite upd_other by lia. auto.
  - destruct A8 as (-> & B2 & B3 & P). rewrite A1. destruct (nth_error (seq 0 N) i) as [wi|].
    + destruct (nth_error (heap s) wi) as [w'|]; [|intros _; exists w; auto]. destruct (nth_error (slots (loc s)) i) as [[|]|]; try solve [intros _; exists w; cbn; auto]. destruct (trig w'); intros _; exists w; cbn; auto.
    + destruct (_ <? _); intros Y; [exists w; cbn; auto|contradiction].
  - destruct A8 as (-> & B2 & B3 & P & (j & ES) & TR). rewrite A1, nth_error_seq by exact B2. cbn [Nat.add]. rewrite ES. assert (I0 : i <> 0) by (intros ->; destruct X as [X _]; rewrite (TR w W) in X; discriminate).
    destruct (nth_error (heap s) i) as [w'|]; [|intros _; exists w; rewrite EM; auto]. destruct (pipe w') as [|v q]; [intros _; exists w; rewrite EM; auto|]. cbv zeta. intros _. exists w.
    cbn [main goto heap on_worker with_heap loc with_loc slots on_man with_mans]. rewrite !upd_other by exact I0. split; [exact W|]. split; [exact D|]. destruct (rest (loc s)); exact X.
  - destruct A8 as (-> & B2 & B3 & P & ES & RN). rewrite A1, nth_error_seq by exact B2. cbn [Nat.add]. destruct (rest (loc s)) as [|j r'] eqn:ER; [congruence|]. rewrite A4.
    assert (I0 : i <> 0) by (intros ->; destruct X as [_ X]; congruence). destruct (nth_error ps j) as [p|] eqn:EP; [|intros []]. intros _. exists w.
    cbn [main goto heap on_worker with_heap loc with_loc slots]. rewrite !upd_other by exact I0. auto.
  - destruct A8 as (-> & B2 & B3 & P & (j & ES)). rewrite A1, nth_error_seq by exact B2. cbn [Nat.add]. intros _. cbn [main goto heap on_worker with_heap loc]. destruct (Nat.eq_dec i 0) as [->|NE].
    + exists (set_trig true w). rewrite upd_same, W. split; [reflexivity|]. split; [exact D|]. split; [reflexivity|apply X].
    + exists w. rewrite upd_other by exact NE. auto.
Qed.
End Stuck.

Section Two.
Context {val : Type}.
Variable started : val.
Variable cpu : nat.
Variables f g : val -> option val.
Variables nw nw' : option nat.
Variables ps qs : list val.
Variable cs : list (call val).
Notation n := (workers_number cpu nw).
Notation n' := (workers_number cpu nw').
Hypothesis NE : ps <> [].
Hypothesis LE : n <= length ps.
Hypothesis NE' : qs <> [].
Hypothesis LE' : n' <= length qs.
Hypothesis NC : ~ In CClose cs.
Definition tail2 : list (op val) := [Close 0; New g nw' qs; Compute 1].
Definition pool2 := repeat (f, 0, false) n ++ repeat (g, 1, true) n'.
Definition stages (A : option abs) (ops : list (op val)) (outs : list (outcome val)) : Prop :=
  let a0 := answers f n (Some ps) cs in
  (A = Some (mkA [] []) /\ ops = program f nw ps cs ++ tail2 /\ outs = []) \/
  (exists cs' rs, A = Some (mkA (repeat (f, 0, true) n) [(rs, true, n)]) /\ ops = map call_op cs' ++ tail2 /\ ~ In CClose cs' /\ rs <> [] /\ n <= length rs /\ a0 = outs ++ answers f n (Some rs) cs') \/
  (A = Some (mkA (repeat (f, 0, false) n) [([], false, n)]) /\ ops = [New g nw' qs; Compute 1] /\ outs = a0) \/
  (A = Some (mkA pool2 [([], false, n); (qs, true, n')]) /\ ops = [Compute 1] /\ outs = a0) \/
  (exists a r, A = Some a /\ ops = [] /\ outs = a0 ++ [OResult r] /\ n + n' <= length qs /\ length r = length qs /\ forall j, j < n -> nth_error r j = Some (nth_error qs j)) \/
  (A = None /\ ops = [] /\ outs = a0 ++ [OError IndexError] /\ length qs < n + n').
Lemma fb_pool2 : map fb pool2 = repeat (f, false) n ++ repeat (g, true) n'.
Proof.
  unfold pool2. rewrite map_app. f_equal; [|apply fb_repeat]. clear LE. induction n as [|m IH]; [reflexivity|]. cbn. f_equal. exact IH.
Qed.
Lemma len_pool2 : length pool2 = n + n'.
Proof. unfold pool2. rewrite app_length, !repeat_length. reflexivity. Qed.
Lemma stages_reach A ops outs : reach cpu (program f nw ps cs ++ tail2) A ops outs -> stages A ops outs.
Proof.
  intros R. induction R as [|a o ops outs os A R IH S]; [left; auto|]. unfold stages in IH. cbv zeta in IH.
  destruct IH as [(EA & EO & ->)|[(cs' & rs & EA & EO & NI & NR & LR & EQ)|[(EA & EO & ->)|[(EA & EO & ->)|[(a1 & r & _ & EO & _)|(EA & _)]]]]]; try discriminate; injection EA as ->.
  - unfold program in EO. cbn in EO. injection EO as -> ->. inversion S; subst; [rewrite bad_ok in * by assumption; discriminate|]. right; left. exists cs, ps. cbn. repeat split; try assumption.
  - destruct cs' as [|c cs'].
    + cbn in EO. injection EO as -> ->. change (Close 0) with (call_op (val := val) CClose) in S. destruct (call_open cpu f nw rs CClose os A NR LR S) as [(X & _)|(_ & -> & ->)]; [congruence|].
      right; right; left. split; [reflexivity|]. split; [reflexivity|]. rewrite EQ, !app_nil_r. reflexivity.
    + cbn in EO. injection EO as -> ->. destruct (call_open cpu f nw rs c os A NR LR S) as [(NCl & rs' & -> & NR' & LR' & X)|(-> & _)]; [|elim NI; left; reflexivity].
      right; left. exists cs', rs'. split; [reflexivity|]. split; [reflexivity|]. split; [intros Y; apply NI; right; exact Y|]. split; [exact NR'|]. split; [exact LR'|]. rewrite EQ, <- app_assoc. f_equal. apply X.
  - injection EO as -> ->. inversion S; subst; [rewrite bad_ok in * by assumption; discriminate|]. right; right; right; left. cbn [aw am length app]. split; [reflexivity|]. split; [reflexivity|]. apply app_nil_r.
  - injection EO as -> ->. assert (AM : a_man (mkA pool2 [([], false, n); (qs, true, n')]) 1 = (qs, true, n')) by reflexivity.
    inversion S; subst; clear S; repeat match goal with X : a_man _ _ = _ |- _ => rewrite AM in X; injection X as <- <- end; try discriminate.
    + right; right; right; right; left. exists (mkA pool2 [([], false, n); (qs, true, n')]), r. cbn [aw] in *. rewrite len_pool2 in *. rewrite fb_pool2 in *.
      match goal with C : completed _ _ _ |- _ => destruct C as [CL CC] end. repeat (split; [solve [reflexivity|assumption]|]). intros j LJ. destruct (nth_error qs j) as [q|] eqn:EQ; [|apply nth_error_None in EQ; lia].
      destruct (CC j q EQ) as (v & i & R1 & G & X). rewrite R1. rewrite app_length, !repeat_length in X. rewrite X in G by lia. unfold goodH in G. rewrite nth_error_app1 in G by (rewrite repeat_length; lia).
      rewrite nth_error_rep in G by lia. subst v. reflexivity.
    + right; right; right; right; right. cbn [aw] in *. rewrite len_pool2 in *. auto.
Qed.
Theorem second_result sch t : let a0 := answers f n (Some ps) cs in let o := out (run started cpu sch (program f nw ps cs ++ tail2) t) in
  prefix o a0 \/ (exists r, o = a0 ++ [OResult r] /\ length r = length qs /\ forall j, j < n -> nth_error r j = Some (nth_error qs j)) \/ (length qs < n + n' /\ prefix (a0 ++ [OError IndexError]) o).
Proof.
  intros a0 o. destruct (run_phase started cpu sch (program f nw ps cs ++ tail2) t) as (A & ops & outs & R & P). apply stages_reach in R. unfold stages in R. cbv zeta in R. fold a0 in R. fold o in P.
  destruct R as [(-> & _ & ->)|[(cs' & rs & -> & _ & _ & _ & _ & EQ)|[(-> & _ & ->)|[(-> & _ & ->)|[(a1 & r & -> & _ & -> & X)|(-> & _ & -> & X)]]]]].
  - left. destruct P as [P _]. fold o in P. rewrite P. exists a0. reflexivity.
  - left. destruct P as [P _]. fold o in P. rewrite P. eexists. exact EQ.
  - left. destruct P as [P _]. fold o in P. rewrite P. exists []. rewrite app_nil_r. reflexivity.
  - left. destruct P as [P _]. fold o in P. rewrite P. exists []. rewrite app_nil_r. reflexivity.
  - right; left. destruct P as [P _]. fold o in P. exists r. split; [exact P|apply X].
  - right; right. split; [exact X|]. destruct P as [m P]. fold o in P. exists m. exact P.
Qed.
Hypothesis POS : 1 <= n.
Hypothesis ENOUGH : n + n' <= length qs.
Theorem second_stuck sch t0 w : let r t := run started cpu sch (program f nw ps cs ++ tail2) t in
  main (r t0) = IPut 1 0 -> nth_error (heap (r t0)) 0 = Some w -> pc w = WDead -> forall t, t0 <= t -> out (r t) = out (r t0) /\ main (r t) <> Ready.
Proof.
  intros r EM EW ED. destruct (run_phase started cpu sch (program f nw ps cs ++ tail2) t0) as (A & ops & outs & R & P). apply stages_reach in R. fold (r t0) in P.
  assert (IV : Inv 1 qs (map fb pool2) (r t0)).
  { unfold stages in R. cbv zeta in R.
    assert (CP : forall a, A = Some a -> computing a ops (r t0)).
    { intros a ->. destruct P as [_ [P|[P|[P|P]]]]; [|exact P| |].
      - destruct P as [P _]. congruence.
      - destruct P as (f1 & nw1 & ps1 & o1 & ms1 & d1 & _ & _ & _ & _ & _ & _ & _ & [(l & X & _)|(l & i & w1 & X & _)]); rewrite X in EM; discriminate.
      - destruct P as (k2 & _ & _ & _ & _ & _ & _ & _ & [[X _]|(i & X & _)]); rewrite X in EM; discriminate. }
    assert (CI : forall a k qq m, A = Some a -> ops = Compute k :: todo (r t0) -> a_man a k = (qq, true, m) -> Inv k qq (map fb (aw a)) (r t0)).
    { intros a k qq m EA EO AM. destruct (CP a EA) as (k1 & ps1 & m1 & EO1 & _ & _ & _ & _ & AM1 & I). rewrite EO in EO1. injection EO1 as <-. rewrite AM in AM1. injection AM1 as <- <-. exact I. }
    destruct R as [(-> & EO & _)|[(cs' & rs & -> & EO & NI & _)|[(-> & EO & _)|[(-> & EO & _)|[(a1 & x & -> & EO & _)|(-> & _ & _ & X)]]]]].
    - destruct (CP _ eq_refl) as (k1 & ps1 & m1 & EO1 & _). rewrite EO in EO1. unfold program in EO1. cbn in EO1. discriminate.
    - exfalso. destruct (CP _ eq_refl) as (k1 & ps1 & m1 & EO1 & _ & _ & _ & _ & _ & I). rewrite EO in EO1. assert (X := iv_main _ _ _ _ I). unfold at_main in X. rewrite EM in X. destruct X as [<- _].
      destruct cs' as [|[] cs']; discriminate.
    - destruct (CP _ eq_refl) as (k1 & ps1 & m1 & EO1 & _). rewrite EO in EO1. discriminate.
    - destruct (CP _ eq_refl) as (k1 & ps1 & m1 & EO1 & _). rewrite EO in EO1. injection EO1 as <- E2. apply (CI _ 1 qs n' eq_refl); [rewrite EO, <- E2; reflexivity|reflexivity].
    - destruct (CP _ eq_refl) as (k1 & ps1 & m1 & EO1 & _). rewrite EO in EO1. discriminate.
    - lia. }
  assert (LP : length (map fb pool2) = n + n') by (rewrite map_length; apply len_pool2).
  assert (ST : forall t, t0 <= t -> stuck 1 qs (map fb pool2) (r t) /\ out (r t) = out (r t0)).
  { intros t LT. induction LT as [|t LT [IS IO]].
    - split; [|reflexivity]. split; [exact IV|]. exists w. split; [exact EW|]. split; [exact ED|]. rewrite EM. exact Logic.I.
    - unfold r. cbn [run]. fold (r t). destruct (agent_eq (sch t) Main) as [E|NM].
      + rewrite E. cbn [act]. destruct (stuck_main cpu 1 qs (map fb pool2)) with (s := r t) as [S1 S2]; [rewrite LP; lia|rewrite LP; exact ENOUGH|exact IS|]. split; [exact S1|rewrite S2; exact IO].
      + split; [apply stuck_other; assumption|rewrite out_other by exact NM; exact IO]. }
  intros t LT. destruct (ST t LT) as [(I & _) EO]. split; [exact EO|]. intros X. assert (Y := iv_main _ _ _ _ I). unfold at_main in Y. rewrite X in Y. exact Y.
Qed.
End Two.

Section Both.
Context {val : Type}.
Variable started : val.
Variable cpu : nat.
Variables f g : val -> option val.
Variables nw nw' : option nat.
Variables ps qs : list val.
Notation n := (workers_number cpu nw).
Notation n' := (workers_number cpu nw').
Hypothesis NE : ps <> [].
Hypothesis LE : n <= length ps.
Hypothesis NE' : qs <> [].
Hypothesis LE' : n' <= length qs.
Definition both : list (op val) := [New f nw ps; New g nw' qs; Compute 1].
Definition poolB := repeat (f, 0, true) n ++ repeat (g, 1, true) n'.
Definition stagesB (A : option abs) (ops : list (op val)) (outs : list (outcome val)) : Prop :=
  (A = Some (mkA [] []) /\ ops = both /\ outs = []) \/
  (A = Some (mkA (repeat (f, 0, true) n) [(ps, true, n)]) /\ ops = [New g nw' qs; Compute 1] /\ outs = []) \/
  (A = Some (mkA poolB [(ps, true, n); (qs, true, n')]) /\ ops = [Compute 1] /\ outs = []) \/
  (exists a r, A = Some a /\ ops = [] /\ outs = [OResult r] /\ length r = length qs /\ forall j q, j < n -> nth_error qs j = Some q -> nth_error r j = Some (f q)) \/
  (A = None /\ ops = [] /\ outs = [OError IndexError] /\ length qs < n + n').
Lemma stages_both A ops outs : reach cpu both A ops outs -> stagesB A ops outs.
Proof.
  intros R. induction R as [|a o ops outs os A R IH S]; [left; auto|]. unfold stagesB in IH.
  destruct IH as [(EA & EO & ->)|[(EA & EO & ->)|[(EA & EO & ->)|[(a1 & r & _ & EO & _)|(EA & _)]]]]; try discriminate; injection EA as ->.
  - unfold both in EO. injection EO as -> ->. inversion S; subst; [rewrite bad_ok in * by assumption; discriminate|]. right; left. auto.
  - injection EO as -> ->. inversion S; subst; [rewrite bad_ok in * by assumption; discriminate|]. right; right; left. auto.
  - injection EO as -> ->. assert (AM : a_man (mkA poolB [(ps, true, n); (qs, true, n')]) 1 = (qs, true, n')) by reflexivity. assert (LP : length poolB = n + n') by (unfold poolB; rewrite app_length, !repeat_length; reflexivity).
    inversion S; subst; clear S; repeat match goal with X : a_man _ _ = _ |- _ => rewrite AM in X; injection X as <- <- end; try discriminate.
    + right; right; right; left. eexists _, r. cbn [aw] in *. rewrite LP in *. match goal with C : completed _ _ _ |- _ => destruct C as [CL CC] end. repeat (split; [solve [reflexivity|assumption]|]). intros j q LJ EQ.
      destruct (CC j q EQ) as (v & i & R1 & G & X). rewrite R1. unfold poolB in *. rewrite map_app, !fb_repeat in *. rewrite app_length, !repeat_length in X. rewrite X in G by lia. unfold goodH in G. rewrite nth_error_app1 in G by (rewrite repeat_length; lia).
      rewrite nth_error_rep in G by lia. congruence.
    + right; right; right; right. cbn [aw] in *. rewrite LP in *. auto.
Qed.
Theorem both_result sch t : let o := out (run started cpu sch both t) in
  o = [] \/ (exists r, o = [OResult r] /\ length r = length qs /\ forall j q, j < n -> nth_error qs j = Some q -> nth_error r j = Some (f q)) \/ (length qs < n + n' /\ prefix [OError IndexError] o).
Proof.
  intros o. destruct (run_phase started cpu sch both t) as (A & ops & outs & R & P). apply stages_both in R. unfold stagesB in R. fold o in P.
  destruct R as [(-> & _ & ->)|[(-> & _ & ->)|[(-> & _ & ->)|[(a1 & r & -> & _ & -> & X)|(-> & _ & -> & X)]]]].
  - left. apply P.
  - left. apply P.
  - left. apply P.
  - right; left. exists r. split; [apply P|exact X].
  - right; right. split; [exact X|]. destruct P as [m P]. exists m. exact P.
Qed.
End Both.
