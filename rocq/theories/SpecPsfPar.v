(** Specification side of C55: programs that calculate kernels with worker processes. *)
From Coq Require Import Reals.
From Verif Require Import Py M_Psf M_Sum SpecSum L_PsfKernel M_PsfClass SpecPsfClass M_PsfPar.
Local Open Scope R_scope.

(** the object has one polynomial within the recursion limit, integration nodes in the unit disk and an explicit kernel size *)
Definition ready (rnd : R -> R) (fuel : nat) (o : zernpsf) : Prop := exists p, zpol o = Some p /\ okp fuel p /\ good rnd (n_int_r o) /\ (3 <= kernel_size o)%Z.
(** how many managers a program makes *)
Definition inits (l : list pcall) : nat := length (filter (fun c => match c with PInit o => negb (airy o) | PKernel _ _ => false end) l).
(** kernels are calculated with managers that were made before *)
Fixpoint proper_from (made : nat) (l : list pcall) : Prop :=
  match l with
  | [] => True
  | PInit o :: l => proper_from (if airy o then made else S made) l
  | PKernel k o :: l => (k < made)%nat /\ proper_from made l
  end.
(** A program with any number of objects: every kernel is that of a usable object, and for [inits l] managers of (at most) 4 workers each the even angles 2, 4, ... < n_int_phi - 2 are enough. *)
Definition fine (rnd : R -> R) (fuel : nat) (total : nat) (o : zernpsf) : Prop := object o /\ ready rnd fuel o /\ (8 * Z.of_nat total + 3 <= n_int_phi o)%Z.
Definition session (rnd : R -> R) (fuel : nat) (l : list pcall) : Prop := proper_from 0 l /\ forall k o, In (PKernel k o) l -> fine rnd fuel (inits l) o.
(** answers that a call waits for: two per point *)
Definition asked (c : pcall) : nat := match c with PInit _ => 0 | PKernel _ o => 2 * (Z.to_nat (kernel_size o) * Z.to_nat (kernel_size o)) end.
Definition asked_by (l : list pcall) : nat := list_sum (map asked l).
