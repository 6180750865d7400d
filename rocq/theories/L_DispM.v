(** Several managers with one function, none closed. *)
From Coq Require Import Permutation.
From Verif Require Import Py M_Disp SpecDisp SpecDispM L_Disp L_DispC L_DispL L_DispF L_DispH L_DispP L_DispS.
Open Scope nat_scope.

Lemma upd_at {A} (g : A -> A) (l : list A) : forall k, upd l k g = at_nth g k l.
Proof. induction l as [|x l IH]; intros [|k]; cbn; try reflexivity. rewrite <- IH. reflexivity. Qed.
Lemma at_nth_In {A} (g : A -> A) (l : list A) : forall k x, In x (at_nth g k l) -> In x l \/ exists y, In y l /\ x = g y.
Proof.
  induction l as [|y l IH]; intros [|k] x I; cbn in *; try tauto.
  - destruct I as [<-|I]; [right; exists y; auto|auto].
  - destruct I as [<-|I]; [auto|]. destruct (IH k x I) as [Z|(z & Z1 & Z2)]; [auto|right; exists z; auto].
Qed.

Section Many.
Context {val : Type}.
Variable started : val.
Variable cpu : nat.
Variable f : val -> option val.
Variable cs0 : list (mcall val).
Let ops0 := map (mop f) cs0.
Let X0 := answers_shared f cpu 0 [] cs0.

Lemma fb_all ws : (forall x, In x ws -> exists k, x = (f, k, true)) -> map fb ws = repeat (f, true) (length ws).
Proof. induction ws as [|x ws IH]; intros H; [reflexivity|]. cbn. destruct (H x) as [k ->]; [left; reflexivity|]. rewrite IH; [reflexivity|]. intros y I. apply H. right. exact I. Qed.

Definition many (a : abs) ops outs : Prop :=
  exists cs, ops = map (mop f) cs /\ (forall x, In x (aw a) -> exists k, x = (f, k, true)) /\
    fst X0 = outs ++ fst (answers_shared f cpu (length (aw a)) (am a) cs) /\ snd X0 = snd (answers_shared f cpu (length (aw a)) (am a) cs) /\
    (forall ps n, In (ps, true, n) (am a) -> 2 <= cpu -> 1 <= length (aw a)).
Lemma wn_pos nw : 2 <= cpu -> 1 <= workers_number cpu nw.
Proof.
  intros C. assert (D : 1 <= cpu / 2) by (change 1 with (2 / 2); apply Nat.div_le_mono; lia).
  unfold workers_number. destruct nw as [m|]; [|exact D]. destruct (Nat.leb_spec 2 m), (Nat.leb_spec m cpu); cbn [andb]; try exact D; lia.
Qed.
Lemma say_fst o (x : list (outcome val) * bool) : fst (say_first o x) = o :: fst x. Proof. reflexivity. Qed.
Lemma say_snd o (x : list (outcome val) * bool) : snd (say_first o x) = snd x. Proof. reflexivity. Qed.
Lemma nth_off k (ms : list (list val * bool * nat)) p n : nth k ms ([], false, 0) = (p, true, n) -> In (p, true, n) ms.
Proof. intros E. destruct (Nat.ltb_spec k (length ms)) as [L|L]; [rewrite <- E; apply nth_In, L|]. rewrite nth_overflow in E by exact L. discriminate. Qed.

Lemma many_step a o ops outs os A : many a (o :: ops) outs -> astep cpu a o os A ->
  (exists a', A = Some a' /\ many a' ops (outs ++ os)) \/ (A = None /\ os = [OError IndexError] /\ fst X0 = outs ++ os /\ snd X0 = false).
Proof.
  intros (cs & EO & WF & E1 & E2 & US) S. destruct cs as [|c cs]; [discriminate|]. cbn in EO. injection EO as -> ->.
  destruct c as [nw ps|k|k qs]; cbn [mop] in S.
  - cbn [answers_shared] in E1, E2. inversion S; subst; match goal with X : bad_list _ _ = _ |- _ => rename X into HB; unfold bad_list in HB end.
    + left. eexists. split; [reflexivity|]. exists cs. cbn [aw am]. split; [reflexivity|]. split; [exact WF|].
      destruct (length ps =? 0) eqn:L0; [|destruct (length ps <? _) eqn:L1; [|discriminate]]; injection HB as <-; rewrite say_fst in E1; rewrite say_snd in E2.
      * split; [rewrite E1, <- app_assoc; reflexivity|]. split; [exact E2|].
        intros p n I. apply in_app_iff in I. destruct I as [I|[I|[]]]; [apply (US p n I)|discriminate].
      * split; [rewrite E1, <- app_assoc; reflexivity|]. split; [exact E2|].
        intros p n I. apply in_app_iff in I. destruct I as [I|[I|[]]]; [apply (US p n I)|discriminate].
    + left. eexists. split; [reflexivity|]. exists cs. cbn [aw am]. split; [reflexivity|]. destruct (length ps =? 0) eqn:L0; [discriminate|]. destruct (length ps <? _) eqn:L1; [discriminate|].
      split. { intros x I. apply in_app_iff in I. destruct I as [I|I]; [apply WF, I|]. apply repeat_spec in I. eexists. exact I. }
      rewrite app_length, repeat_length, app_nil_r. split; [exact E1|]. split; [exact E2|].
      intros p n I. apply in_app_iff in I. destruct I as [I|[I|[]]].
      * assert (U1 := US p n I). intros C. specialize (U1 C). lia.
      * injection I as <- <-. intros C. assert (Y := wn_pos nw C). lia.
  - cbn [answers_shared] in E1, E2. inversion S; subst; clear S.
    + match goal with X : a_man _ _ = _ |- _ => rename X into AM; unfold a_man in AM; rewrite AM in E1, E2 end.
      match goal with X : _ <= length ps |- _ => rename X into LP end. destruct (Nat.ltb_spec (length ps) (length (aw a))); [lia|].
      rewrite (fb_all _ WF) in H2. destruct (completed_repeat cpu f None _ _ _ H2) as [-> T]. rewrite T in E1, E2. rewrite say_fst in E1. rewrite say_snd in E2.
      left. exists a. split; [reflexivity|]. exists cs. split; [reflexivity|]. split; [exact WF|]. split; [rewrite E1, <- app_assoc; reflexivity|]. split; [exact E2|exact US].
    + match goal with X : a_man _ _ = _ |- _ => rename X into AM; unfold a_man in AM; rewrite AM in E1, E2 end.
      match goal with X : length ps < _ |- _ => rename X into LP end. destruct (Nat.ltb_spec (length ps) (length (aw a))); [|lia].
      right. cbn in E1, E2. auto.
    + match goal with X : a_on _ _ = _ |- _ => unfold a_on, a_man in X; destruct (nth k (am a) ([], false, 0)) as [[p [|]] n]; [discriminate|] end. rewrite say_fst in E1. rewrite say_snd in E2.
      left. exists a. split; [reflexivity|]. exists cs. split; [reflexivity|]. split; [exact WF|]. split; [rewrite E1, <- app_assoc; reflexivity|]. split; [exact E2|exact US].
  - cbn [answers_shared] in E1, E2. inversion S; subst; clear S.
    + match goal with X : a_man _ _ = _ |- _ => rename X into AM; unfold a_man in AM; rewrite AM in E1, E2 end. match goal with X : bad_list _ _ = _ |- _ => rename X into HB; unfold bad_list in HB end.
      left. exists a. split; [reflexivity|]. exists cs. split; [reflexivity|]. split; [exact WF|].
      destruct (length qs =? 0) eqn:L0; [|destruct (length qs <? _) eqn:L1; [|discriminate]]; injection HB as <-; rewrite say_fst in E1; rewrite say_snd in E2;
        (split; [rewrite E1, <- app_assoc; reflexivity|split; [exact E2|exact US]]).
    + match goal with X : a_man _ _ = _ |- _ => rename X into AM; unfold a_man in AM; rewrite AM in E1, E2 end. match goal with X : bad_list _ _ = _ |- _ => rename X into HB; unfold bad_list in HB end.
      destruct (length qs =? 0) eqn:L0; [discriminate|]. destruct (length qs <? _) eqn:L1; [discriminate|].
      left. eexists. split; [reflexivity|]. exists cs. cbn [aw am]. split; [reflexivity|]. split; [exact WF|]. rewrite upd_at, app_nil_r. split; [exact E1|]. split; [exact E2|].
      intros p m I. apply at_nth_In in I. destruct I as [I|([[p' b'] m'] & I & EQ)]; [apply (US p m I)|]. unfold replace_params in EQ. cbn in EQ. injection EQ as -> <- <-.
      apply (US p' _ I).
    + match goal with X : a_on _ _ = _ |- _ => unfold a_on, a_man in X; destruct (nth k (am a) ([], false, 0)) as [[p [|]] n]; [discriminate|] end.
      left. exists a. split; [reflexivity|]. exists cs. rewrite app_nil_r. split; [reflexivity|]. split; [exact WF|]. split; [exact E1|]. split; [exact E2|exact US].
Qed.
Lemma many_reach A ops outs : reach cpu ops0 A ops outs -> (exists a, A = Some a /\ many a ops outs) \/ (A = None /\ fst X0 = outs /\ snd X0 = false).
Proof.
  intros R. induction R as [|a o ops outs os A R IH S].
  - left. eexists. split; [reflexivity|]. exists cs0. split; [reflexivity|]. split; [intros x []|]. split; [reflexivity|]. split; [reflexivity|]. intros ps n [].
  - destruct IH as [(a0 & E & M)|(E & _)]; [|discriminate]. injection E as <-. destruct (many_step a o ops outs os A M S) as [X|(-> & -> & X1 & X2)]; [left; exact X|right; auto].
Qed.
Theorem many_safe sch t : let told := out (run started cpu sch ops0 t) in prefix told (fst X0) \/ (snd X0 = false /\ prefix (fst X0) told).
Proof.
  intros told. destruct (run_phase started cpu sch ops0 t) as (A & ops & outs & R & P). destruct (many_reach A ops outs R) as [(a & -> & M)|(-> & E1 & E2)].
  - left. destruct P as [P _]. unfold told. rewrite P. destruct M as (cs & _ & _ & E1 & _). eexists. exact E1.
  - right. split; [exact E2|]. destruct P as [more P]. unfold told. rewrite P, E1. exists more. reflexivity.
Qed.

Hypothesis CPU : 2 <= cpu.
Hypothesis FULL : snd X0 = true.
Theorem many_live sch : fair sch -> exists t0, forall t, t0 <= t -> out (run started cpu sch ops0 t) = fst X0 /\ todo (run started cpu sch ops0 t) = [] /\ main (run started cpu sch ops0 t) = Ready.
Proof.
  intros FAIR. set (st := run started cpu sch ops0). assert (STEP : forall t, st (S t) = act started cpu (sch t) (st t)) by reflexivity.
  assert (GO : forall m a ops outs t, length ops <= m -> many a ops outs -> out (st t) = outs -> resting a ops (st t) -> exists t0 a' outs', t <= t0 /\ many a' [] outs' /\ out (st t0) = outs' /\ resting a' [] (st t0)).
  { induction m as [|m IH]; intros a [|o ops] outs t LO O EO R; cbn in LO; try lia; [exists t, a, outs; auto|exists t, a, outs; auto|].
    destruct (resting_ends started cpu sch FAIR st STEP a o ops outs t) as (t1 & os & a' & L1 & AS & EO1 & R1); try assumption.
    - intros k qs m' -> AM. destruct O as (cs & E & WF & _ & E2 & US). destruct cs as [|[nw1 ps1|k1|k1 qs1] cs]; try discriminate. cbn in E. injection E as <- ->.
      rewrite FULL in E2. cbn [answers_shared] in E2. unfold a_man in AM. rewrite AM in E2. apply nth_off in AM. assert (U1 := US qs m' AM). split; [|apply U1, CPU].
      intros g k' b I. destruct (WF _ I) as [k2 EQ]. injection EQ as -> -> ->. split; [reflexivity|]. intros p IP.
      destruct (length qs <? length (aw a)); [discriminate|]. destruct (total_on f qs) eqn:T; [|discriminate]. unfold total_on in T. rewrite forallb_forall in T. specialize (T p IP). destruct (f p); [discriminate|discriminate].
    - intros os AS. destruct (many_step a o ops outs os None O AS) as [(a' & X & _)|(_ & _ & _ & X)]; [discriminate|congruence].
    - destruct (many_step a o ops outs os _ O AS) as [(a1 & X & O1)|(X & _)]; [|discriminate]. injection X as <-. destruct (IH a' ops (outs ++ os) t1) as (t2 & a2 & o2 & L2 & Z); try assumption; [lia|]. exists t2, a2, o2. split; [lia|exact Z]. }
  destruct (GO (length ops0) (mkA [] []) ops0 [] 0) as (t0 & a & outs & _ & O & EO & R).
  - lia.
  - exists cs0. split; [reflexivity|]. split; [intros x []|]. split; [reflexivity|]. split; [reflexivity|]. intros ps n [].
  - reflexivity.
  - repeat split; try constructor. intros i w E. destruct i; discriminate.
  - exists t0. assert (ANS : outs = fst X0). { destruct O as (cs & E & _ & E1 & _). destruct cs; [|discriminate]. cbn in E1. rewrite app_nil_r in E1. auto. }
    rewrite <- ANS, <- EO. assert (ST : forall t, t0 <= t -> resting a [] (st t) /\ out (st t) = out (st t0)).
    { intros t LT. induction LT as [|t LT [IR IO]]; [auto|]. rewrite STEP. destruct (agent_eq (sch t) Main) as [E|NM].
      - rewrite E. cbn [act]. unfold main_step. destruct (IR) as (Q1 & Q2 & _). rewrite Q1, Q2. auto.
      - split; [apply resting_other; assumption|rewrite out_other by exact NM; exact IO]. }
    intros t LT. destruct (ST t LT) as [(Q1 & Q2 & _) Q]. auto.
Qed.
End Many.
