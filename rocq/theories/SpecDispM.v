(** Specification of several dispenser managers that are in use at a time, all made with the same function, none closed (C55). *)
From Verif Require Import Py M_Disp SpecDisp.
Open Scope nat_scope.

Section Spec.
Context {val : Type}.
(** calls on the k-th manager made *)
Inductive mcall := MNew (n_workers : option nat) (ps : list val) | MCompute (k : nat) | MUpdate (k : nat) (ps : list val).
Definition mop (f : val -> option val) (c : mcall) : op val := match c with MNew nw ps => New f nw ps | MCompute k => Compute k | MUpdate k ps => Update k ps end.
Definition replace_params (qs : list val) (x : list val * bool * nat) := (qs, snd (fst x), snd x).
Fixpoint at_nth {A} (g : A -> A) (k : nat) (l : list A) : list A :=
  match l, k with [], _ => [] | x :: l, 0 => g x :: l | x :: l, S k => x :: at_nth g k l end.
Definition say_first (o : outcome val) (x : list (outcome val) * bool) := (o :: fst x, snd x).
(** [pool]: number of workers made so far (all managers share them); [ms]: for every manager its parameters, whether it was accepted, its number of workers.
    The answers, and whether they are all: false if a compute() never answers (f raises for one of its parameters) or raises IndexError (it does when there are more
    workers than parameters), then nothing is said about later calls. *)
Fixpoint answers_shared (f : val -> option val) (cpu_count pool : nat) (ms : list (list val * bool * nat)) (cs : list mcall) : list (outcome val) * bool :=
  match cs with
  | [] => ([], true)
  | MNew nw ps :: cs =>
      let n := workers_number cpu_count nw in
      if length ps =? 0 then say_first (OError TypeError) (answers_shared f cpu_count pool (ms ++ [(ps, false, n)]) cs)
      else if length ps <? n then say_first (OError ValueError) (answers_shared f cpu_count pool (ms ++ [(ps, false, n)]) cs)
      else answers_shared f cpu_count (pool + n) (ms ++ [(ps, true, n)]) cs
  | MCompute k :: cs =>
      match nth k ms ([], false, 0) with
      | (ps, true, _) =>
          if length ps <? pool then ([OError IndexError], false)
          else if total_on f ps then say_first (OResult (map f ps)) (answers_shared f cpu_count pool ms cs)
          else ([], false)
      | _ => say_first ONone (answers_shared f cpu_count pool ms cs)
      end
  | MUpdate k qs :: cs =>
      match nth k ms ([], false, 0) with
      | (ps, true, n) =>
          if length qs =? 0 then say_first (OError TypeError) (answers_shared f cpu_count pool ms cs)
          else if length qs <? n then say_first (OError ValueError) (answers_shared f cpu_count pool ms cs)
          else answers_shared f cpu_count pool (at_nth (replace_params qs) k ms) cs
      | _ => answers_shared f cpu_count pool ms cs
      end
  end.
End Spec.
Arguments mcall : clear implicits.
