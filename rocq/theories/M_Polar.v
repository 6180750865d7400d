(** Model of ZernPol.gen_polar_coordinates and gen_equal_polar_mesh (zernikepol.py 991-1052).
    Every floating-point operation is followed by [rnd]: with [rnd = fun x => x] this is the
    exact-arithmetic reading, with Flocq's round-to-nearest-even it is binary64 (overflow and memory
    exhaustion for extremely small steps are not modelled). *)
From Coq Require Import Reals.
From Flocq Require Import Core.
From Verif Require Import Py.
Local Open Scope R_scope.

Definition Rleb (x y : R) : bool := if Rle_dec x y then true else false.
Definition Rlt_b (x y : R) : bool := if Rlt_dec x y then true else false.

(** np.arange(0.0, stop, step): ceil(stop/step) elements i*step; ZeroDivisionError for a zero step *)
Definition arange (rnd : R -> R) (stop step : R) : res (list R) :=
  if Req_EM_T step 0 then Raise ZeroDivisionError
  else Ok (map (fun i => rnd (INR i * step)) (seq 0 (Z.to_nat (Zceil (rnd (stop / step)))))).

(** zernikepol.py 1023-1026: [if v[v.shape[0]-1] > limit: v[v.shape[0]-1] = limit]; for an empty
    array the index -1 raises IndexError *)
Definition clip_last (l : list R) (limit : R) : res (list R) :=
  match l with
  | [] => Raise IndexError
  | _ => Ok (if Rlt_b limit (last l 0) then removelast l ++ [limit] else l)
  end.

(** 2.0*np.pi *)
Definition two_pi (rnd : R -> R) : R := rnd (2 * rnd PI).

(** zernikepol.py 1017-1027. Lines 1017 and 1019 are Python's chained comparisons:
    [0.0 >= r_step > 0.5] means [0.0 >= r_step and r_step > 0.5]. *)
Definition gen_polar_coordinates (rnd : R -> R) (r_step theta_step : R) : res (list R * list R) :=
  if Rleb r_step 0 && Rlt_b (1/2) r_step then Raise ValueError
  else if Rleb theta_step 0 && Rlt_b (rnd PI) theta_step then Raise ValueError
  else
    do rs <- arange rnd (rnd (1 + r_step)) r_step;
    do ts <- arange rnd (rnd (two_pi rnd + theta_step)) theta_step;
    do rs' <- clip_last rs 1;
    do ts' <- clip_last ts (two_pi rnd);
    Ok (rs', ts').

(** np.linspace(0.0, stop, n) for n >= 2: i*(stop/(n-1)), the last element is set to stop *)
Definition linspace (rnd : R -> R) (stop : R) (n : nat) : list R :=
  map (fun i => rnd (INR i * rnd (stop / INR (n - 1)))) (seq 0 (n - 1)) ++ [stop].
(** zernikepol.py 1049-1052 *)
Definition gen_equal_polar_mesh (rnd : R -> R) (n_points : Z) : list R * list R :=
  let n := if (n_points <? 4)%Z then 4%Z else n_points in
  (linspace rnd 1 (Z.to_nat n), linspace rnd (two_pi rnd) (Z.to_nat n)).
