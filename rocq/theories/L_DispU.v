(** A second manager after the first one was closed, given new parameters before its first compute(). *)
From Coq Require Import Permutation.
From Verif Require Import Py M_Disp SpecDisp L_Disp L_DispC L_DispF L_DispH L_DispS L_Disp2.
Open Scope nat_scope.

Section Two.
Context {val : Type}.
Variable started : val.
Variable cpu : nat.
Variables f g : val -> option val.
Variables nw nw' : option nat.
Variables ps qs0 qs : list val.
Variable cs : list (call val).
Notation n := (workers_number cpu nw).
Notation n' := (workers_number cpu nw').
Hypothesis NE : ps <> [].
Hypothesis LE : n <= length ps.
Hypothesis NE0 : qs0 <> [].
Hypothesis LE0 : n' <= length qs0.
Hypothesis NE' : qs <> [].
Hypothesis LE' : n' <= length qs.
Hypothesis NC : ~ In CClose cs.
Definition tail3 : list (op val) := [Close 0; New g nw' qs0; Update 1 qs; Compute 1].
Notation pool3 := (repeat (f, 0, false) n ++ repeat (g, 1, true) n').
Definition stages3 (A : option abs) (ops : list (op val)) (outs : list (outcome val)) : Prop :=
  let a0 := answers f n (Some ps) cs in
  (A = Some (mkA [] []) /\ ops = program f nw ps cs ++ tail3 /\ outs = []) \/
  (exists cs' rs, A = Some (mkA (repeat (f, 0, true) n) [(rs, true, n)]) /\ ops = map call_op cs' ++ tail3 /\ ~ In CClose cs' /\ rs <> [] /\ n <= length rs /\ a0 = outs ++ answers f n (Some rs) cs') \/
  (A = Some (mkA (repeat (f, 0, false) n) [([], false, n)]) /\ ops = [New g nw' qs0; Update 1 qs; Compute 1] /\ outs = a0) \/
  (A = Some (mkA pool3 [([], false, n); (qs0, true, n')]) /\ ops = [Update 1 qs; Compute 1] /\ outs = a0) \/
  (A = Some (mkA pool3 [([], false, n); (qs, true, n')]) /\ ops = [Compute 1] /\ outs = a0) \/
  (exists a r, A = Some a /\ ops = [] /\ outs = a0 ++ [OResult r] /\ n + n' <= length qs /\ length r = length qs /\ forall j, j < n -> nth_error r j = Some (nth_error qs j)) \/
  (A = None /\ ops = [] /\ outs = a0 ++ [OError IndexError] /\ length qs < n + n').
Lemma fb_pool3 : map fb pool3 = repeat (f, false) n ++ repeat (g, true) n'.
Proof. apply (fb_pool2 cpu f g nw nw'). Qed.
Lemma stages3_reach A ops outs : reach cpu (program f nw ps cs ++ tail3) A ops outs -> stages3 A ops outs.
Proof.
  intros R. induction R as [|a o ops outs os A R IH S]; [left; auto|]. unfold stages3 in IH. cbv zeta in IH.
  destruct IH as [(EA & EO & ->)|[(cs' & rs & EA & EO & NI & NR & LR & EQ)|[(EA & EO & ->)|[(EA & EO & ->)|[(EA & EO & ->)|[(a1 & r & _ & EO & _)|(EA & _)]]]]]]; try discriminate; injection EA as ->.
  - unfold program in EO. cbn in EO. injection EO as -> ->. inversion S; subst; [rewrite bad_ok in * by assumption; discriminate|]. right; left. exists cs, ps. cbn. repeat split; try assumption.
  - destruct cs' as [|c cs'].
    + cbn in EO. injection EO as -> ->. change (Close 0) with (call_op (val := val) CClose) in S. destruct (call_open cpu f nw rs CClose os A NR LR S) as [(X & _)|(_ & -> & ->)]; [congruence|].
      right; right; left. split; [reflexivity|]. split; [reflexivity|]. rewrite EQ, !app_nil_r. reflexivity.
    + cbn in EO. injection EO as -> ->. destruct (call_open cpu f nw rs c os A NR LR S) as [(NCl & rs' & -> & NR' & LR' & X)|(-> & _)]; [|elim NI; left; reflexivity].
      right; left. exists cs', rs'. split; [reflexivity|]. split; [reflexivity|]. split; [intros Y; apply NI; right; exact Y|]. split; [exact NR'|]. split; [exact LR'|]. rewrite EQ, <- app_assoc. f_equal. apply X.
  - injection EO as -> ->. inversion S; subst; [rewrite bad_ok in * by assumption; discriminate|]. right; right; right; left. cbn [aw am length app]. split; [reflexivity|]. split; [reflexivity|]. apply app_nil_r.
  - injection EO as -> ->. assert (AM : a_man (mkA pool3 [([], false, n); (qs0, true, n')]) 1 = (qs0, true, n')) by reflexivity.
    inversion S; subst; clear S; repeat match goal with X : a_man _ _ = _ |- _ => rewrite AM in X; injection X as <- <- end; try discriminate.
    + rewrite bad_ok in * by assumption. discriminate.
    + right; right; right; right; left. split; [reflexivity|]. split; [reflexivity|]. apply app_nil_r.
  - injection EO as -> ->. assert (AM : a_man (mkA pool3 [([], false, n); (qs, true, n')]) 1 = (qs, true, n')) by reflexivity.
    assert (LP : length pool3 = n + n') by (rewrite app_length, !repeat_length; reflexivity).
    inversion S; subst; clear S; repeat match goal with X : a_man _ _ = _ |- _ => rewrite AM in X; injection X as <- <- end; try discriminate.
    + do 5 right. left. exists (mkA pool3 [([], false, n); (qs, true, n')]), r. cbn [aw] in *. rewrite LP in *. rewrite fb_pool3 in *.
      match goal with C : completed _ _ _ |- _ => destruct C as [CL CC] end. repeat (split; [solve [reflexivity|assumption]|]). intros j LJ. destruct (nth_error qs j) as [q|] eqn:EQ; [|apply nth_error_None in EQ; lia].
      destruct (CC j q EQ) as (v & i & R1 & G & X). rewrite R1. rewrite app_length, !repeat_length in X. rewrite X in G by lia. unfold goodH in G. rewrite nth_error_app1 in G by (rewrite repeat_length; lia).
      rewrite nth_error_rep in G by lia. subst v. reflexivity.
    + do 6 right. cbn [aw] in *. rewrite LP in *. auto.
Qed.
Theorem third_result sch t : let a0 := answers f n (Some ps) cs in let o := out (run started cpu sch (program f nw ps cs ++ tail3) t) in
  prefix o a0 \/ (exists r, o = a0 ++ [OResult r] /\ length r = length qs /\ forall j, j < n -> nth_error r j = Some (nth_error qs j)) \/ (length qs < n + n' /\ prefix (a0 ++ [OError IndexError]) o).
Proof.
  intros a0 o. destruct (run_phase started cpu sch (program f nw ps cs ++ tail3) t) as (A & ops & outs & R & P). apply stages3_reach in R. unfold stages3 in R. cbv zeta in R. fold a0 in R. fold o in P.
  destruct R as [(-> & _ & ->)|[(cs' & rs & -> & _ & _ & _ & _ & EQ)|[(-> & _ & ->)|[(-> & _ & ->)|[(-> & _ & ->)|[(a1 & r & -> & _ & -> & X)|(-> & _ & -> & X)]]]]]].
  - left. destruct P as [P _]. fold o in P. rewrite P. exists a0. reflexivity.
  - left. destruct P as [P _]. fold o in P. rewrite P. eexists. exact EQ.
  - left. destruct P as [P _]. fold o in P. rewrite P. exists []. rewrite app_nil_r. reflexivity.
  - left. destruct P as [P _]. fold o in P. rewrite P. exists []. rewrite app_nil_r. reflexivity.
  - left. destruct P as [P _]. fold o in P. rewrite P. exists []. rewrite app_nil_r. reflexivity.
  - right; left. destruct P as [P _]. fold o in P. exists r. split; [exact P|apply X].
  - right; right. split; [exact X|]. destruct P as [m P]. fold o in P. exists m. exact P.
Qed.
End Two.
