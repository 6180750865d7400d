(** Specification side of C50: what a call returns when nothing else runs, and fair schedules. *)
From Coq Require Import Reals.
From Verif Require Import Py SpecIndex M_Coeffs M_Threads.
Open Scope Z_scope.

(** the call in a process with a single thread (the model of C11-C18) *)
Definition call_alone (c : call) : M R :=
  match c with
  | Value f m n e r th => zp_polynomial_value f m n e r th
  | Radial f m n e r => zp_radial f m n e r
  | RadialDr f m n e r => zp_radial_dr f m n e r
  end.
Definition call_orders (c : call) : Z * Z := match c with Value _ m n _ _ _ | Radial _ m n _ _ | RadialDr _ m n _ _ => (m, n) end.
Definition call_depth (c : call) : nat := match c with Value f _ _ _ _ _ | Radial f _ _ _ _ | RadialDr f _ _ _ _ => f end.
Definition valid_call (c : call) : Prop := valid (fst (call_orders c)) (snd (call_orders c)).
(** the recursion limit of the interpreter is large enough for the call *)
Definition enough_depth (c : call) : Prop := snd (call_orders c) + 1 < Z.of_nat (call_depth c).
(** the outcomes [rs] of a thread are right for the first calls of [cs]: each is the outcome of the call alone in a fresh process *)
Definition right_outcomes (cs : list call) (rs : list (res R)) : Prop :=
  exists first rest, cs = first ++ rest /\ Forall2 (fun c r => enough_depth c -> r = snd (call_alone c import_state)) first rs.
Definition fair (sch : nat -> nat) (threads : nat) : Prop := forall i t, (i < threads)%nat -> exists t', (t <= t')%nat /\ sch t' = i.
