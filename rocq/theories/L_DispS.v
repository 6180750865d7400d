(** Programs that use one manager. *)
From Coq Require Import Permutation.
From Verif Require Import Py M_Disp SpecDisp L_Disp L_DispC L_DispL L_DispF L_DispH L_DispP.
Open Scope nat_scope.

Section One.
Context {val : Type}.
Variable started : val.
Variable cpu : nat.
Variable f : val -> option val.
Variable nw : option nat.
Variable ps : list val.
Variable cs : list (call val).
Let n := workers_number cpu nw.

Lemma nth_error_repeat_in {A} (x y : A) m i : nth_error (repeat x m) i = Some y -> y = x.
Proof. intros E. apply nth_error_In in E. apply repeat_spec in E. exact E. Qed.
Lemma fb_repeat m k : map fb (repeat (f, k, true) m) = repeat (f, true) m.
Proof. induction m as [|m IH]; [reflexivity|]. cbn. rewrite IH. reflexivity. Qed.
Lemma completed_repeat qs m r : completed qs (repeat (f, true) m) r -> r = map f qs /\ total_on f qs = true.
Proof.
  intros [EL C]. assert (G : forall j p, nth_error qs j = Some p -> exists v, nth_error r j = Some (Some v) /\ f p = Some v).
  { intros j p E. destruct (C j p E) as (v & i & R & G & _). exists v. split; [exact R|]. unfold goodH in G. destruct (nth_error (repeat (f, true) m) i) as [y|] eqn:EY; [|contradiction].
    apply nth_error_repeat_in in EY. subst y. exact G. }
  split.
  - apply nth_ext with (d := None) (d' := None); [rewrite map_length; exact EL|]. intros j LJ. destruct (nth_error qs j) as [p|] eqn:EP; [|apply nth_error_None in EP; lia].
    destruct (G j p EP) as (v & R & F). rewrite (nth_error_nth _ _ _ R). rewrite (nth_error_nth (map f qs) j None (x := f p)); [congruence|]. rewrite nth_error_map, EP. reflexivity.
  - unfold total_on. apply forallb_forall. intros p IN. apply In_nth_error in IN. destruct IN as [j E]. destruct (G j p E) as (v & _ & F). rewrite F. reflexivity.
Qed.
Lemma bad_ok (qs : list val) : qs <> [] -> n <= length qs -> bad_list n qs = None.
Proof. intros A B. unfold bad_list. destruct qs; [congruence|]. cbn [length Nat.eqb]. destruct (Nat.ltb_spec (S (length qs)) n); [cbn in B; lia|reflexivity]. Qed.

(** one call on an open manager *)
Lemma call_open qs c os A : qs <> [] -> n <= length qs -> astep cpu (mkA (repeat (f, 0, true) n) [(qs, true, n)]) (call_op c) os A ->
  (c <> CClose /\ exists qs', A = Some (mkA (repeat (f, 0, true) n) [(qs', true, n)]) /\ qs' <> [] /\ n <= length qs' /\
     (forall cs', answers f n (Some qs) (c :: cs') = os ++ answers f n (Some qs') cs' /\ incl (mentioned qs' cs') (mentioned qs (c :: cs')))) \/
  (c = CClose /\ os = [] /\ A = Some (mkA (repeat (f, 0, false) n) [([], false, n)])).
Proof.
  intros NQ LQ S. assert (AM : a_man (mkA (repeat (f, 0, true) n) [(qs, true, n)]) 0 = (qs, true, n)) by reflexivity.
  destruct c as [|rs|]; cbn [call_op] in S; inversion S; subst; clear S; repeat match goal with X : a_man _ _ = _ |- _ => rewrite AM in X; injection X as <- <- end; try discriminate.
  - (* compute *) left. split; [discriminate|]. exists qs. match goal with C : completed _ _ _ |- _ => cbn [aw] in C; rewrite fb_repeat in C; apply completed_repeat in C; destruct C as [-> T] end.
    repeat (split; [solve [reflexivity|assumption]|]). intros cs'. split; [cbn [answers]; rewrite T; reflexivity|]. intros x X; exact X.
  - (* too few *) match goal with C : _ < length (aw _) |- _ => cbn [aw] in C; rewrite repeat_length in C; lia end.
  - (* bad update *) left. split; [discriminate|]. match goal with C : bad_list _ _ = _ |- _ => rename C into HB end. exists qs. repeat (split; [solve [reflexivity|assumption]|]). intros cs'. split.
    + cbn [answers]. unfold bad_list in HB. destruct (length rs =? 0); [injection HB as <-; reflexivity|]. destruct (length rs <? n); [injection HB as <-; reflexivity|discriminate].
    + intros x X. unfold mentioned in *. cbn [flat_map]. rewrite !in_app_iff in *. tauto.
  - left. split; [discriminate|]. match goal with C : bad_list _ _ = _ |- _ => rename C into HB end. exists rs. split; [reflexivity|]. unfold bad_list in HB.
    destruct (length rs =? 0) eqn:E0; [discriminate|]. destruct (length rs <? n) eqn:E1; [discriminate|]. assert (E0' := E0). assert (E1' := E1). apply Nat.eqb_neq in E0. apply Nat.ltb_ge in E1.
    split; [intros ->; cbn in E0; congruence|]. split; [exact E1|]. intros cs'. split; [cbn [answers]; rewrite E0', E1'; reflexivity|].
    intros x X. unfold mentioned in *. cbn [flat_map]. rewrite !in_app_iff in *. tauto.
  - right. split; [reflexivity|]. split; [reflexivity|]. cbn [aw am]. f_equal. f_equal. clear. induction n as [|m IH]; [reflexivity|]. cbn. f_equal. exact IH.
  - exfalso. cbn [aw] in *. match goal with X : In _ (repeat _ _) |- _ => apply repeat_spec in X; injection X; intros; subst; congruence end.
Qed.

Hypothesis NE : ps <> [].
Hypothesis LE : n <= length ps.
Definition opened (a : abs) ops outs : Prop :=
  exists cs' qs, ops = map call_op cs' /\ a = mkA (repeat (f, 0, true) n) [(qs, true, n)] /\ qs <> [] /\ n <= length qs /\
    answers f n (Some ps) cs = outs ++ answers f n (Some qs) cs' /\ incl (mentioned qs cs') (mentioned ps cs).
Definition shut (a : abs (val := val)) ops outs : Prop :=
  exists cs' ws x, ops = map call_op cs' /\ a = mkA ws [x] /\ snd (fst x) = false /\ answers f n (Some ps) cs = outs ++ answers f n None cs'.
Definition one (a : abs) ops outs : Prop := (a = mkA [] [] /\ ops = program f nw ps cs /\ outs = []) \/ opened a ops outs \/ shut a ops outs.
Lemma one_step a o ops outs os A : one a (o :: ops) outs -> astep cpu a o os A -> exists a', A = Some a' /\ one a' ops (outs ++ os).
Proof.
  intros O S. destruct O as [(-> & E & ->)|[O|O]].
  - unfold program in E. injection E as -> ->. inversion S; subst.
    + rewrite bad_ok in * by assumption. discriminate.
    + eexists. split; [reflexivity|]. right; left. exists cs, ps. cbn. repeat split; try assumption. intros x X; exact X.
  - destruct O as (cs' & qs & EO & -> & NQ & LQ & EA & IN). destruct cs' as [|c cs']; [discriminate|]. cbn in EO. injection EO as -> ->.
    destruct (call_open qs c os A NQ LQ S) as [(NC & qs' & -> & NQ' & LQ' & X)|(-> & -> & ->)].
    + eexists. split; [reflexivity|]. right; left. exists cs', qs'. destruct (X cs') as [X1 X2]. repeat (split; [solve [reflexivity|assumption]|]). split; [rewrite EA, X1, <- app_assoc; reflexivity|].
      intros x Y. apply IN, X2, Y.
    + eexists. split; [reflexivity|]. right; right. eexists cs', _, _. split; [reflexivity|]. split; [reflexivity|]. split; [reflexivity|]. cbn [answers] in EA. rewrite app_nil_r. exact EA.
  - destruct O as (cs' & ws & x & EO & -> & OFF & EA). destruct cs' as [|c cs']; [discriminate|]. cbn in EO. injection EO as -> ->.
    assert (AO : a_on (mkA ws [x]) 0 = false) by exact OFF. unfold a_on in AO.
    destruct c as [|rs|]; cbn [call_op] in S; inversion S; subst; clear S; repeat match goal with X : a_man _ _ = _ |- _ => rewrite X in AO; discriminate end; try (unfold a_on in *; congruence).
    + eexists. split; [reflexivity|]. right; right. exists cs', ws, x. repeat (split; [solve [reflexivity|assumption]|]). cbn [answers] in EA. rewrite EA, <- app_assoc. reflexivity.
    + eexists. split; [reflexivity|]. right; right. exists cs', ws, x. repeat (split; [solve [reflexivity|assumption]|]). cbn [answers] in EA. rewrite app_nil_r. exact EA.
    + eexists. split; [reflexivity|]. right; right. eexists cs', _, _. split; [reflexivity|]. split; [reflexivity|]. split; [reflexivity|]. cbn [answers] in EA. rewrite app_nil_r. exact EA.
Qed.
Lemma one_reach A ops outs : reach cpu (program f nw ps cs) A ops outs -> exists a, A = Some a /\ one a ops outs.
Proof.
  intros R. induction R as [|a o ops outs os A R (a0 & E & O) S]; [eexists; split; [reflexivity|left; auto]|]. injection E as <-. apply (one_step a o ops outs os A O S).
Qed.
Lemma one_prefix a ops outs : one a ops outs -> prefix outs (answers f n (Some ps) cs).
Proof.
  intros [(_ & _ & ->)|[(cs' & qs & _ & _ & _ & _ & E & _)|(cs' & ws & x & _ & _ & _ & E)]]; [exists (answers f n (Some ps) cs); reflexivity|eexists; exact E|eexists; exact E].
Qed.
Theorem one_safe sch t : prefix (out (run started cpu sch (program f nw ps cs) t)) (answers f n (Some ps) cs).
Proof.
  destruct (run_phase started cpu sch (program f nw ps cs) t) as (A & ops & outs & R & P). destruct (one_reach A ops outs R) as (a & -> & O). destruct P as [-> _]. apply (one_prefix a ops), O.
Qed.

Hypothesis POS : 1 <= n.
Hypothesis TOT : forall p, In p (mentioned ps cs) -> f p <> None.
Theorem one_live sch : fair sch -> exists t0, forall t, t0 <= t -> out (run started cpu sch (program f nw ps cs) t) = answers f n (Some ps) cs /\ todo (run started cpu sch (program f nw ps cs) t) = [] /\ main (run started cpu sch (program f nw ps cs) t) = Ready.
Proof.
  intros FAIR. set (st := run started cpu sch (program f nw ps cs)). assert (STEP : forall t, st (S t) = act started cpu (sch t) (st t)) by reflexivity.
  assert (GO : forall m a ops outs t, length ops <= m -> one a ops outs -> out (st t) = outs -> resting a ops (st t) -> exists t0 a' outs', t <= t0 /\ one a' [] outs' /\ out (st t0) = outs' /\ resting a' [] (st t0)).
  { induction m as [|m IH]; intros a [|o ops] outs t LO O EO R; cbn in LO; try lia; [exists t, a, outs; auto|exists t, a, outs; auto|].
    destruct (resting_ends started cpu sch FAIR st STEP a o ops outs t) as (t1 & os & a' & L1 & AS & EO1 & R1); try assumption.
    - intros k qs m' -> AM. destruct O as [(-> & E & _)|[(cs' & rs & E & -> & _ & LR & EA & IN)|(cs' & ws & x & E & -> & OFF & _)]].
      + unfold program in E. discriminate.
      + destruct cs' as [|[] cs']; try discriminate. cbn in E. injection E as -> _. unfold a_man in AM. cbn in AM. injection AM as -> ->. split.
        * intros g k b I. cbn in I. apply repeat_spec in I. injection I as -> -> ->. split; [reflexivity|]. intros p IP. apply TOT, IN. unfold mentioned. apply in_or_app. left. exact IP.
        * cbn [aw]. rewrite repeat_length. exact POS.
      + destruct cs' as [|[] cs']; try discriminate. cbn in E. injection E as -> _. unfold a_man in AM. cbn in AM. rewrite AM in OFF. discriminate.
    - intros os AS. destruct (one_step a o ops outs os None O AS) as (a' & X & _). discriminate.
    - destruct (one_step a o ops outs os _ O AS) as (a1 & X & O1). injection X as <-. destruct (IH a' ops (outs ++ os) t1) as (t2 & a2 & o2 & L2 & Z); try assumption; [lia|]. exists t2, a2, o2. split; [lia|exact Z]. }
  destruct (GO (length (program f nw ps cs)) (mkA [] []) (program f nw ps cs) [] 0) as (t0 & a & outs & _ & O & EO & R).
  - lia.
  - left. auto.
  - reflexivity.
  - repeat split; try constructor. intros i w E. destruct i; discriminate.
  - exists t0. assert (ANS : outs = answers f n (Some ps) cs).
    { destruct O as [(_ & E & _)|[(cs' & qs & E & _ & _ & _ & EA & _)|(cs' & ws & x & E & _ & _ & EA)]]; [discriminate| |]; destruct cs'; try discriminate; cbn in EA; rewrite app_nil_r in EA; auto. }
    rewrite <- ANS, <- EO. assert (ST : forall t, t0 <= t -> resting a [] (st t) /\ out (st t) = out (st t0)).
    { intros t LT. induction LT as [|t LT [IR IO]]; [auto|]. rewrite STEP. destruct (agent_eq (sch t) Main) as [E|NM].
      - rewrite E. cbn [act]. unfold main_step. destruct (IR) as (Q1 & Q2 & _). rewrite Q1, Q2. auto.
      - split; [apply resting_other; assumption|rewrite out_other by exact NM; exact IO]. }
    intros t LT. destruct (ST t LT) as [(Q1 & Q2 & _) Q]. auto.
Qed.
End One.
