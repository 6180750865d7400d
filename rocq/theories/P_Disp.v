(** C45, C46: the dispenser (utils/intmproc.py) under every interleaving. *)
From Verif Require Import Py M_Disp SpecDisp L_Disp L_DispC L_DispF L_DispH L_DispS L_Disp2.
Open Scope nat_scope.

(** a schedule on which everybody gets a turn again and again *)
Definition agent_of (c : nat) : agent := match c with 0 => Main | S m => nth (m mod 3) [Work (m / 3); FeedM (m / 3); FeedW (m / 3)] Main end.
Definition everybody (t : nat) : agent := agent_of (t - Nat.sqrt t * Nat.sqrt t).
Lemma agent_code a : exists c, agent_of c = a.
Proof.
  assert (X : forall i r, r < 3 -> (3 * i + r) mod 3 = r /\ (3 * i + r) / 3 = i).
  { intros i r LR. split; [symmetry; apply (Nat.mod_unique (3 * i + r) 3 i r); lia|symmetry; apply (Nat.div_unique (3 * i + r) 3 i r); lia]. }
  destruct a as [|i|i|i]; [exists 0; reflexivity|exists (S (3 * i + 0))|exists (S (3 * i + 1))|exists (S (3 * i + 2))]; unfold agent_of.
  - destruct (X i 0) as [-> ->]; [lia|reflexivity].
  - destruct (X i 1) as [-> ->]; [lia|reflexivity].
  - destruct (X i 2) as [-> ->]; [lia|reflexivity].
Qed.
Theorem C45_fair_exists : fair everybody.
Proof.
  intros a t. destruct (agent_code a) as [c <-]. exists ((t + c) * (t + c) + c). split; [nia|]. unfold everybody. rewrite (Nat.sqrt_unique ((t + c) * (t + c) + c) (t + c)) by nia. f_equal. lia.
Qed.

Section Any.
Context {val : Type}.

(** Whatever the interleaving, a program that makes one manager and uses it is told what the specification says, in this order, and nothing else: compute() returns f of every parameter in the order of
    the parameters, and returns at all only if f raises for none of them; update_params() refuses an empty or a short list and otherwise replaces the parameters; after close() compute() returns None. *)
Theorem C45_answers (started : val) cpu_count sch f n_workers ps cs t :
  ps <> [] -> workers_number cpu_count n_workers <= length ps ->
  prefix (out (run started cpu_count sch (program f n_workers ps cs) t)) (answers f (workers_number cpu_count n_workers) (Some ps) cs).
Proof. intros NE LE. apply one_safe; assumption. Qed.

(** Under every fair schedule all calls come to an end: there is no deadlock and no endless wait, provided there is a worker and f raises for no parameter. *)
Theorem C45_no_deadlock (started : val) cpu_count sch f n_workers ps cs :
  fair sch -> ps <> [] -> 1 <= workers_number cpu_count n_workers <= length ps -> (forall p, In p (mentioned ps cs) -> f p <> None) ->
  exists t0, forall t, t0 <= t -> let s := run started cpu_count sch (program f n_workers ps cs) t in
    out s = answers f (workers_number cpu_count n_workers) (Some ps) cs /\ todo s = [] /\ main s = Ready.
Proof. intros FA NE [PO LE] TOT. apply one_live; assumption. Qed.

(** the constructor refuses an empty list and one shorter than the number of workers *)
Theorem C45_rejected (started : val) cpu_count sch f n_workers ps t :
  ps = [] \/ length ps < workers_number cpu_count n_workers ->
  prefix (out (run started cpu_count sch [New f n_workers ps] t)) [OError (if length ps =? 0 then TypeError else ValueError)].
Proof.
  intros BAD. set (n := workers_number cpu_count n_workers) in *. assert (B : bad_list n ps = Some (if length ps =? 0 then TypeError else ValueError)).
  { unfold bad_list. destruct BAD as [->|LT]; [reflexivity|]. destruct (length ps =? 0); [reflexivity|]. destruct (Nat.ltb_spec (length ps) n); [reflexivity|lia]. }
  assert (X : forall t, let s := run started cpu_count sch [New f n_workers ps] t in main s = Ready /\ ((todo s = [New f n_workers ps] /\ out s = []) \/ (todo s = [] /\ out s = [OError (if length ps =? 0 then TypeError else ValueError)]))).
  { clear t. induction t as [|t IH]; [cbn; auto|]. cbn [run]. set (s := run started cpu_count sch [New f n_workers ps] t) in *. cbv zeta in IH |- *. destruct IH as [M1 IH]. destruct (agent_eq (sch t) Main) as [->|NM].
    - cbn [act]. unfold main_step. rewrite M1. destruct IH as [[T1 O1]|[T1 O1]]; rewrite T1; [|auto]. unfold begin. fold n. rewrite B. cbn. rewrite T1, O1, M1. auto.
    - destruct (sch t); [congruence|auto..]. }
  destruct (X t) as [_ [[_ ->]|[_ ->]]]; [exists [OError (if length ps =? 0 then TypeError else ValueError)]; reflexivity|exists []; reflexivity].
Qed.

(** a worker whose function raises takes compute() down with it: it never returns, whatever the schedule *)
Theorem C45_raise_hangs (started : val) cpu_count sch f n_workers ps cs p t :
  workers_number cpu_count n_workers <= length ps -> In p ps -> f p = None ->
  out (run started cpu_count sch (program f n_workers ps (CCompute :: cs)) t) = [].
Proof.
  intros LE IN F. assert (NE : ps <> []) by (intros ->; destruct IN). destruct (C45_answers started cpu_count sch f n_workers ps (CCompute :: cs) t NE LE) as [m E].
  assert (T : total_on f ps = false).
  { unfold total_on. apply not_true_iff_false. intros X. rewrite forallb_forall in X. specialize (X p IN). rewrite F in X. discriminate. }
  cbn [answers] in E. rewrite T in E. destruct (out _); [reflexivity|discriminate].
Qed.
(** with os.cpu_count() = 1 there are no workers and compute() never returns *)
Theorem C45_one_cpu_hangs (started : val) sch f n_workers ps cs t : ps <> [] -> out (run started 1 sch (program f n_workers ps (CCompute :: cs)) t) = [].
Proof.
  intros NE. assert (W0 : workers_number 1 n_workers = 0).
  { unfold workers_number. destruct n_workers as [m|]; [|reflexivity]. destruct (Nat.leb_spec 2 m), (Nat.leb_spec m 1); try reflexivity; lia. }
  destruct (run_phase started 1 sch (program f n_workers ps (CCompute :: cs)) t) as (A & ops & outs & R & P).
  assert (X : exists a, A = Some a /\ outs = [] /\ ((a = mkA [] [] /\ ops = program f n_workers ps (CCompute :: cs)) \/ (a = mkA [] [(ps, true, 0)] /\ ops = map call_op (CCompute :: cs)))).
  { clear P. induction R as [|a o ops outs os A R (a0 & E & -> & IH) S]; [eexists; auto|]. injection E as <-. destruct IH as [[-> EO]|[-> EO]].
    - unfold program in EO. injection EO as -> ->. inversion S; subst; rewrite W0 in *.
      + exfalso. match goal with B : bad_list 0 ps = _ |- _ => unfold bad_list in B; destruct ps; [congruence|discriminate] end.
      + eexists. split; [reflexivity|]. split; [reflexivity|]. right. auto.
    - cbn in EO. injection EO as -> ->. exfalso. inversion S; subst; try discriminate.
      + match goal with C : completed _ _ _, B : a_man _ _ = _ |- _ => unfold a_man in B; cbn in B; injection B as <- <-; destruct C as [_ C]; destruct ps as [|p ps']; [congruence|]; destruct (C 0 p eq_refl) as (v & i & _ & G & _); unfold goodH in G; cbn in G; destruct i; exact G end.
      + match goal with B : _ < _ |- _ => cbn in B; lia end. }
  destruct X as (a & -> & -> & _). apply P.
Qed.

(** C46 is false: after close() the workers of the first manager stay in the list of workers that all managers share. Whatever happened before, and whatever the schedule: the first n entries of what the
    second manager's compute() returns, n the number of workers of the first manager, are the parameters themselves and not results; with less than n + n' parameters compute() raises IndexError; *)
Definition reuse (f g : val -> option val) (n_workers n_workers' : option nat) (ps qs : list val) (cs : list (call val)) : list (op val) :=
  program f n_workers ps cs ++ [Close 0; New g n_workers' qs; Compute 1].
Theorem C46_reuse_refuted (started : val) cpu_count sch f g n_workers n_workers' ps qs cs t :
  let n := workers_number cpu_count n_workers in let n' := workers_number cpu_count n_workers' in
  ps <> [] -> n <= length ps -> qs <> [] -> n' <= length qs -> ~ In CClose cs ->
  let before := answers f n (Some ps) cs in let told := out (run started cpu_count sch (reuse f g n_workers n_workers' ps qs cs) t) in
  prefix told before \/
  (exists r, told = before ++ [OResult r] /\ length r = length qs /\ forall j, j < n -> nth_error r j = Some (nth_error qs j)) \/
  (length qs < n + n' /\ prefix (before ++ [OError IndexError]) told).
Proof. intros n n' NE LE NE' LE' NC before told. apply second_result; assumption. Qed.
(** so it never returns the right list, if g changes its first parameter *)
Theorem C46_never_right (started : val) cpu_count sch f g n_workers n_workers' ps q qs cs t :
  let n := workers_number cpu_count n_workers in let n' := workers_number cpu_count n_workers' in
  ps <> [] -> 1 <= n <= length ps -> n' <= length (q :: qs) -> ~ In CClose cs -> g q <> Some q ->
  out (run started cpu_count sch (reuse f g n_workers n_workers' ps (q :: qs) cs) t) <> answers f n (Some ps) cs ++ [OResult (map g (q :: qs))].
Proof.
  intros n n' NE [PO LE] LE' NC GQ E. destruct (C46_reuse_refuted started cpu_count sch f g n_workers n_workers' ps (q :: qs) cs t) as [[m X]|[(r & X & _ & Y)|(_ & m & X)]]; try assumption; [discriminate|..]; fold n in X.
  - rewrite E, <- app_assoc in X. apply (f_equal (@length _)) in X. rewrite !app_length in X. cbn in X. lia.
  - rewrite E in X. apply app_inv_head in X. injection X as <-. specialize (Y 0 PO). cbn in Y. congruence.
  - rewrite E, <- app_assoc in X. apply app_inv_head in X. discriminate.
Qed.
(** and if the first worker of the closed manager has ended by then (close() waits for that, 0.1 s), it never returns at all *)
Theorem C46_reuse_hangs (started : val) cpu_count sch f g n_workers n_workers' ps qs cs t0 w :
  let n := workers_number cpu_count n_workers in let n' := workers_number cpu_count n_workers' in
  ps <> [] -> 1 <= n <= length ps -> qs <> [] -> n + n' <= length qs -> ~ In CClose cs ->
  let r := run started cpu_count sch (reuse f g n_workers n_workers' ps qs cs) in
  main (r t0) = IPut 1 0 -> nth_error (heap (r t0)) 0 = Some w -> pc w = WDead -> forall t, t0 <= t -> out (r t) = out (r t0) /\ main (r t) <> Ready.
Proof. intros n n' NE [PO LE] NE' LE' NC r EM EW ED. apply (second_stuck started cpu_count f g n_workers n_workers' ps qs cs NE LE NE') with (w := w); try assumption. unfold n, n' in *. lia. Qed.
(** two managers in use at a time: the first n results of the second one are computed with the function of the first one *)
Theorem C46_two_refuted (started : val) cpu_count sch f g n_workers n_workers' ps qs t :
  let n := workers_number cpu_count n_workers in let n' := workers_number cpu_count n_workers' in
  ps <> [] -> n <= length ps -> qs <> [] -> n' <= length qs ->
  let told := out (run started cpu_count sch [New f n_workers ps; New g n_workers' qs; Compute 1] t) in
  told = [] \/ (exists r, told = [OResult r] /\ length r = length qs /\ forall j q, j < n -> nth_error qs j = Some q -> nth_error r j = Some (f q)) \/ (length qs < n + n' /\ prefix [OError IndexError] told).
Proof. intros n n' NE LE NE' LE' told. apply (both_result started cpu_count f g n_workers n_workers' ps qs); assumption. Qed.
End Any.

(** Concrete runs: utils/intmproc.py 295-329 *)
Definition plus1 (x : nat) : option nat := Some (x + 1).
Definition minus1 (x : nat) : option nat := Some (x - 1).
Definition round_robin (t : nat) : agent := nth (t mod 7) [Main; Work 0; FeedM 0; FeedW 0; Work 1; FeedM 1; FeedW 1] Main.
Definition slow_0 (t : nat) : agent := if ((115 <=? t) && (t <? 180) && (t mod 7 =? 1))%bool then Main else round_robin t.
Example C45_run : out (run 99 4 round_robin (program plus1 (Some 2) [10; 20; 30] [CCompute; CUpdate [1; 2]; CCompute; CUpdate [1]; CClose; CCompute]) 600) =
  [OResult [Some 11; Some 21; Some 31]; OResult [Some 2; Some 3]; OError ValueError; ONone].
Proof. vm_compute. reflexivity. Qed.
Example C46_run_parameters : out (run 99 2 slow_0 (reuse plus1 minus1 None None [10] [5; 6] [CCompute]) 300) = [OResult [Some 11]; OResult [Some 5; Some 5]].
Proof. vm_compute. reflexivity. Qed.
Example C46_run_hang : let s := run 99 2 round_robin (reuse plus1 minus1 None None [10] [5; 6] [CCompute]) 162 in main s = IPut 1 0 /\ option_map (@pc nat) (nth_error (heap s) 0) = Some WDead.
Proof. vm_compute. auto. Qed.
Example C46_run_two : out (run 99 2 round_robin [New plus1 None [10]; New minus1 None [5; 6]; Compute 1] 400) = [OResult [Some 6; Some 5]].
Proof. vm_compute. reflexivity. Qed.
