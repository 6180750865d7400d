(** Specification for C74: a proper normalised kernel. *)
From Coq Require Import Reals.
From Verif Require Import Py M_Sum SpecPsf.
Local Open Scope R_scope.

(** a size x size array of finite values in [0, 1], with the value 1 at least once: no division 0/0 happened *)
Definition proper (K : list (list fl)) (size : Z) : Prop :=
  square K size /\
  (forall i j, (0 <= i < size)%Z -> (0 <= j < size)%Z -> exists x, entry K i j = Some (Fin x) /\ 0 <= x <= 1) /\
  exists i j, (0 <= i < size)%Z /\ (0 <= j < size)%Z /\ entry K i j = Some (Fin 1).
