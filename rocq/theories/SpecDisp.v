(** Specification of the dispenser: what a program that uses one manager is told, call by call; fair schedules. *)
From Verif Require Import Py M_Disp.
Open Scope nat_scope.

(** every process and every feeder thread gets a turn again and again *)
Definition fair (sch : nat -> agent) : Prop := forall a t, exists t', t <= t' /\ sch t' = a.
Definition prefix {A} (l l' : list A) : Prop := exists more, l' = l ++ more.

Section Spec.
Context {val : Type}.
(** calls on one manager *)
Inductive call := CCompute | CUpdate (ps : list val) | CClose.
Definition call_op (c : call) : op val := match c with CCompute => Compute 0 | CUpdate ps => Update 0 ps | CClose => Close 0 end.
(** DispenserManager(f, ps, n_workers), followed by [cs] *)
Definition program (f : val -> option val) (n_workers : option nat) (ps : list val) (cs : list call) : list (op val) := New f n_workers ps :: map call_op cs.
(** f raises for no parameter *)
Definition total_on (f : val -> option val) (ps : list val) : bool := forallb (fun p => match f p with Some _ => true | None => false end) ps.
(** The answers, for a manager of n workers; [ps] is the parameter list, None after close(). A compute() for which f raises never answers. *)
Fixpoint answers (f : val -> option val) (n : nat) (ps : option (list val)) (cs : list call) : list (outcome val) :=
  match cs, ps with
  | [], _ => []
  | CCompute :: cs, Some ps => if total_on f ps then OResult (map f ps) :: answers f n (Some ps) cs else []
  | CCompute :: cs, None => ONone :: answers f n None cs
  | CUpdate qs :: cs, Some ps =>
      if length qs =? 0 then OError TypeError :: answers f n (Some ps) cs
      else if length qs <? n then OError ValueError :: answers f n (Some ps) cs
      else answers f n (Some qs) cs
  | CUpdate qs :: cs, None => answers f n None cs
  | CClose :: cs, _ => answers f n None cs
  end.
(** every parameter that the program ever mentions *)
Definition mentioned (ps : list val) (cs : list call) : list val := ps ++ flat_map (fun c => match c with CUpdate qs => qs | _ => [] end) cs.
End Spec.
Arguments call : clear implicits.
