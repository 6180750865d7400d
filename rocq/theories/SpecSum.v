(** Specification for sums of polynomials (C20, C21) and for the check of radii (C24). *)
From Coq Require Import Reals.
From Verif Require Import Py SpecIndex SpecRadial M_Sum.
Local Open Scope R_scope.

(** sum_i c_i Z_i(r, theta) *)
Fixpoint zsum (cs : list R) (ps : list (Z * Z)) (r theta : R) : R :=
  match cs, ps with
  | c :: cs', (m, n) :: ps' => c * Z_nm m n r theta + zsum cs' ps' r theta
  | _, _ => 0
  end.

(** an array-like argument with finite values [xs] *)
Inductive vec : raw -> list R -> Prop :=
  | vec_arr xs : vec (RArr (map Fin xs)) xs
  | vec_list xs : vec (RList (map Fin xs)) xs
  | vec_tuple xs : vec (RTuple (map Fin xs)) xs.

(** [broadcast r theta pts shape]: evaluating at (r, theta) means evaluating at the points [pts], and
    [shape] arranges the values at these points in the returned object (a float or a vector). *)
Inductive broadcast : raw -> raw -> list (R * R) -> (list R -> cv) -> Prop :=
  | bc_ff x y : broadcast (RNum (Fin x)) (RNum (Fin y)) [(x, y)] (fun l => KFloat (Fin (hd 0 l)))
  | bc_vf v xs y : vec v xs -> xs <> [] -> broadcast v (RNum (Fin y)) (map (fun x => (x, y)) xs) (fun l => KArr (map Fin l))
  | bc_fv x v ys : vec v ys -> ys <> [] -> broadcast (RNum (Fin x)) v (map (fun y => (x, y)) ys) (fun l => KArr (map Fin l))
  | bc_vv v w xs ys : vec v xs -> vec w ys -> xs <> [] -> length xs = length ys ->
      broadcast v w (combine xs ys) (fun l => KArr (map Fin l)).

Definition in_disk (r : R) : Prop := 0 <= r <= 1.

(** every element of the argument, whatever its container *)
Definition elements (v : raw) : list fl :=
  match v with RArr l | RList l | RTuple l | RSet l => l | RNum x => [x] | RBad _ => [] end.
(** not a number of the unit interval: finite and outside, or infinite *)
Definition outside (x : fl) : Prop :=
  match x with Fin x => x < 0 \/ 1 < x | Inf _ => True | NaN => False end.
(** containers the methods accept: array, list, tuple, number *)
Definition supported_container (v : raw) : Prop := match v with RSet _ | RBad _ => False | _ => True end.
(** a radius argument with finite values, and the arrangement of the values in the result *)
Inductive arg1 : raw -> list R -> (list R -> cv) -> Prop :=
  | arg_f x : arg1 (RNum (Fin x)) [x] (fun l => KFloat (Fin (hd 0 l)))
  | arg_v v xs : vec v xs -> xs <> [] -> arg1 v xs (fun l => KArr (map Fin l)).
(** a valid polynomial that the recursion limit [fuel] admits *)
Definition okp (fuel : nat) (p : Z * Z) : Prop := valid (fst p) (snd p) /\ (snd p + 1 < Z.of_nat fuel)%Z.
