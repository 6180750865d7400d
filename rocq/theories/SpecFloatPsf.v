(** Specification for C59: the accuracy of numpy's functions used for the PSF, and the guaranteed accuracy of the result. *)
From Coq Require Import Reals Permutation.
From Verif Require Import Py SpecRadial M_Sum SpecSum SpecPsf SpecFloat.
Import ListNotations.
Local Open Scope R_scope.

(** s is a sum of the numbers l, each addition rounded, in this order with some bracketing *)
Inductive bracketing : list R -> R -> Prop :=
| br_one x : bracketing [x] x
| br_add l a l' b : bracketing l a -> bracketing l' b -> bracketing (l ++ l') (near64 (a + b)).
(** np.sum adds the elements in some order with some bracketing (which it may choose depending on the data) *)
Definition sums_somehow (npsum : list R -> R) : Prop :=
  npsum [] = 0 /\ forall l, l <> [] -> exists l', Permutation l l' /\ bracketing l' (npsum l).

(** np.abs of a complex number and np.power(x, 2) are within one unit in the last place *)
Definition hypot_within_ulp (fhyp : R -> R -> R) : Prop :=
  forall x y, float64 x -> float64 y -> Rabs (fhyp x y - sqrt (x * x + y * y)) <= ulp64 (sqrt (x * x + y * y)).
Definition square_within_ulp (fsq : R -> R) : Prop :=
  forall x, Rabs (fsq x - x * x) <= ulp64 (x * x).

(** the size of the aberration: sum_k |c_k| N_k *)
Fixpoint size_of (cs : list R) (ps : list (Z * Z)) : R :=
  match cs, ps with
  | c :: cs', (m, n) :: ps' => Rabs c * norm_nm m n + size_of cs' ps'
  | _, _ => 0
  end.
(** rounding errors of the values of the polynomials: sum_k |c_k| N_k (4 radial_error n_k + |m_k| 2^-49) *)
Fixpoint values_error (cs : list R) (ps : list (Z * Z)) : R :=
  match cs, ps with
  | c :: cs', (m, n) :: ps' => Rabs c * norm_nm m n * (4 * radial_error n + IZR (Z.abs m) / 2 ^ 49) + values_error cs' ps'
  | _, _ => 0
  end.

(** np.arctan2(y, x) is within one unit in the last place of the angle of the point (x, y); 0 for the origin *)
Definition angle_within_ulp (fatan2 : R -> R -> R) : Prop :=
  fatan2 0 0 = 0 /\
  forall x y rho t, float64 x -> float64 y -> 0 < rho -> rho * cos t = x -> rho * sin t = y -> - PI < t <= PI -> Rabs (fatan2 y x - t) <= ulp64 t.

(** what the rounding adds to the error of the quadrature: Lt bounds the change of the aberration with the angle *)
Definition rounding (n_r n_phi : Z) (cs : list R) (ps : list (Z * Z)) (Lt r : R) : R :=
  104 * values_error cs ps + (208 * INR (length ps) * (size_of cs ps + 1) + 3328 * (1 + size_of cs ps + Lt + Rabs r) + 300 * (IZR n_r + IZR n_phi)) / 2 ^ 53.
(** parameters for which nothing underflows *)
Definition ordinary (x : R) : Prop := / 2 ^ 200 <= x <= 2 ^ 200.

(** the pixel values of a kernel without normalisation, and with it: every quotient by the maximum is rounded *)
Definition holds_b64 (normalize : bool) (K : list (list fl)) (size : Z) (v : Z -> Z -> R) : Prop :=
  square K size /\
  if normalize then exists M, is_max v size M /\
    forall i j, (0 <= i < size)%Z -> (0 <= j < size)%Z -> entry K i j = Some (if Req_EM_T M 0 then NaN else Fin (near64 (v i j / M)))
  else forall i j, (0 <= i < size)%Z -> (0 <= j < size)%Z -> entry K i j = Some (Fin (v i j)).
(** numpy's functions *)
Record numpy64 (pw : R -> Z -> R) (fcos fsin : R -> R) (npsum : list R -> R) (fhyp : R -> R -> R) (fsq : R -> R) (fatan2 : R -> R -> R) : Prop := {
  np_power : power_within_ulp pw;
  np_trig : trig_within_ulp fcos fsin;
  np_sum : sums_somehow npsum;
  np_abs : hypot_within_ulp fhyp;
  np_square : square_within_ulp fsq;
  np_arctan2 : angle_within_ulp fatan2
}.
