(** Specification for C80: the size of the kernel that set_physical_props estimates. *)
From Coq Require Import Reals.
From Verif Require Import Py.
Local Open Scope R_scope.

(** [k] is the integer nearest to [x], the even one of two (Python's round) *)
Definition rounds_to (x : R) (k : Z) : Prop := Rabs (x - IZR k) <= / 2 /\ (Rabs (x - IZR k) = / 2 -> Z.even k = true).
(** the smallest odd integer that is not below [z] *)
Definition next_odd (z s : Z) : Prop := Z.odd s = true /\ (z <= s <= z + 1)%Z.

(** side of the kernel in wavelengths, for small amplitudes *)
Definition factor (m n : Z) (NA : R) : R :=
  if (n =? 0)%Z then (if Rlt_dec (1 / 4) NA then if Rlt_dec NA 1 then 13 / 2 - 5 * NA else 9 / 2 + 5 / 2 * sqrt (/ NA) else 9 / 2 + 5 / 2 * sqrt (/ NA))
  else if (m =? 0)%Z then 5 / 4 * sqrt (IZR n)
  else if Z.odd n then 5 / 4 * sqrt (IZR n) + 1 / 2 * sqrt (IZR (n - Z.abs m))
  else 29 / 20 * sqrt (IZR n).
(** the same for larger amplitudes (in wavelengths), and the additional pixels *)
Definition enlarge (amp : R) : R :=
  if Rlt_dec (Rabs amp) (1 / 4) then 1 else if Rlt_dec (Rabs amp) (1 / 2) then sqrt (17 / 4 * Rabs amp) else sqrt (5 / 2 * Rabs amp).
Definition extra_pixels (amp : R) : Z := if Rlt_dec (Rabs amp) (1 / 4) then 0%Z else if Rlt_dec (Rabs amp) (1 / 2) then 1%Z else 2%Z.
(** polynomials with a large azimuthal order get 1 + sqrt(n + |m|) pixels more *)
Definition azimuthal_pixels (m n e : Z) : Prop :=
  if ((n =? 0) || (n + 1 <? 2 * (n - Z.abs m)))%Z then e = 0%Z else rounds_to (sqrt (IZR (n + Z.abs m))) (e - 1).
Definition estimated (m n : Z) (px amp wl NA : R) (s : Z) : Prop :=
  exists k e, rounds_to (factor m n NA * enlarge amp * wl / px) k /\ azimuthal_pixels m n e /\ next_odd (k + 1 + e + extra_pixels amp) s.
(** several polynomials: pixels per polynomial, by the largest amplitude *)
Definition per_polynomial (amp : R) : R :=
  if Rlt_dec amp (1 / 4) then 0 else if Rlt_dec amp (1 / 2) then 3 / 5 else if Rlt_dec amp (3 / 4) then 1 else 7 / 5.
Definition largest (A : R) (l : list R) : Prop := (forall a, In a l -> Rabs a <= A) /\ exists a, In a l /\ A = Rabs a.
