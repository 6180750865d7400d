(** Specification of cropping a kernel (C42). *)
From Coq Require Import Reals.
From Verif Require Import Py.
Local Open Scope R_scope.

(** all values on the four border lines at depth [d] of an n x n array are below the limit *)
Definition border_below (v : Z -> Z -> R) (n d : Z) (limit : R) : Prop :=
  forall t, (0 <= t < n)%Z -> v d t < limit /\ v (n - 1 - d)%Z t < limit /\ v t d < limit /\ v t (n - 1 - d)%Z < limit.
