(** Specification of binary64 results: accuracy of the mathematical library and the error bounds. *)
From Coq Require Import Reals.
From Flocq Require Import Core.
Local Open Scope R_scope.

(** binary64 numbers (with gradual underflow; no largest exponent), their spacing, round to nearest even *)
Definition exp64 : Z -> Z := FLT_exp (-1074) 53.
Definition float64 (x : R) : Prop := generic_format radix2 exp64 x.
Definition ulp64 (x : R) : R := ulp radix2 exp64 x.
Definition near64 (x : R) : R := round radix2 exp64 ZnearestE x.

(** np.power(x, k) on [0, 1] is a float within one unit in the last place of x^k *)
Definition power_within_ulp (pw : R -> Z -> R) : Prop :=
  forall x k, float64 x -> 0 <= x <= 1 -> (0 <= k)%Z -> float64 (pw x k) /\ Rabs (pw x k - powerRZ x k) <= ulp64 (powerRZ x k).

(** np.cos and np.sin: likewise *)
Definition trig_within_ulp (fcos fsin : R -> R) : Prop :=
  forall x, float64 x -> Rabs (fcos x - cos x) <= ulp64 (cos x) /\ Rabs (fsin x - sin x) <= ulp64 (sin x).

(** error bound for the radial part: 2.42^n * 2^-50 *)
Definition radial_error (n : Z) : R := (242 / 100) ^ Z.to_nat n / 2 ^ 50.
