(** Specification of the radial and full Zernike polynomials (factorial formula of
    Born & Wolf / Wikipedia), over the real numbers. *)
From Coq Require Import Reals.
From Verif Require Import Py SpecIndex.
Local Open Scope R_scope.

(** R_n^m(r) = sum_k (-1)^k (n-k)! / (k! ((n+|m|)/2-k)! ((n-|m|)/2-k)!) r^(n-2k) *)
Definition R_nm (m n : Z) (r : R) : R :=
  let a := Z.to_nat ((n + Z.abs m) / 2) in
  let b := Z.to_nat ((n - Z.abs m) / 2) in
  let N := Z.to_nat n in
  sum_f_R0 (fun k => (-1) ^ k * INR (fact (N - k))
                     / (INR (fact k) * INR (fact (a - k)) * INR (fact (b - k)))
                     * r ^ (N - 2 * k)) b.

(** normalisation: sqrt(2(n+1)/(1+delta_{m0})) *)
Definition norm_nm (m n : Z) : R :=
  sqrt (2 * (IZR n + 1) / (1 + (if Z.eqb m 0 then 1 else 0))).

(** angular part: cosine for m >= 0, sine of |m| theta for m < 0 *)
Definition T_m (m : Z) (theta : R) : R :=
  if Z.leb 0 m then cos (IZR m * theta) else sin (IZR (Z.abs m) * theta).

Definition Z_nm (m n : Z) (r theta : R) : R := norm_nm m n * R_nm m n r * T_m m theta.
