(** Model of the fit (calculations/fit_zernike_pols.py 154-214; zernikepol.py 1502-1592).
    [lstsq] stands for numpy.linalg.lstsq(..., rcond=None)[0] (line 210); the theorems assume only that
    it returns the least-squares solution of minimal norm. The arithmetic on values is exact. *)
From Coq Require Import Reals.
From Flocq Require Import Core.
From Verif Require Import Py M_Radial M_Coeffs M_Sum M_Crop.
Local Open Scope R_scope.

Definition zz_dec : forall a b : Z * Z, {a = b} + {a <> b}.
Proof. decide equality; apply Z.eq_dec. Defined.

(** 188-190: get_mn_orders() of every polynomial; [None] is an object without this method *)
Fixpoint all_orders (ps : list (option (Z * Z))) : res (list (Z * Z)) :=
  match ps with
  | [] => Ok []
  | None :: _ => Raise AttributeError
  | Some p :: ps' => do l <- all_orders ps'; Ok (p :: l)
  end.
(** 191-194: the set of the orders has as many elements as the list *)
Definition repeated (l : list (Z * Z)) : bool := negb (Nat.eqb (length (nodup zz_dec l)) (length l)).

(** numpy assignment col[lo:hi] = v (the slice is clipped; v must have the length of the slice or be
    of length one, otherwise ValueError) *)
Definition assign_slice (col : list fl) (lo hi : nat) (v : list fl) : res (list fl) :=
  let lo' := Nat.min lo (length col) in
  let hi' := Nat.max lo' (Nat.min hi (length col)) in
  let k := (hi' - lo')%nat in
  if Nat.eqb (length v) k then Ok (firstn lo' col ++ v ++ skipn hi' col)
  else match v with
  | [x] => Ok (firstn lo' col ++ repeat x k ++ skipn hi' col)
  | _ => Raise ValueError
  end.
Definition cv_list (v : cv) : list fl := match v with KArr l => l | KFloat x => [x] end.

(** 204-207: the rows of one column for radii i, i+1, ... *)
Fixpoint fill_mesh (fuel : nat) (p : Z * Z) (thetas : list fl) (i : nat) (radii : list fl) (col : list fl) : M (list fl) :=
  match radii with
  | [] => mret col
  | x :: tl =>
      run v <- polynomial_value fuel p (RNum x) (RArr thetas);
      run col' <- mlift (assign_slice col (i * length thetas) ((i + 1) * length thetas) (cv_list v));
      fill_mesh fuel p thetas (S i) tl col'
  end.
(** 183 and 200-207: one column of zernike_values *)
Definition column (fuel : nat) (vector_length : nat) (radii thetas : list fl) (p : Z * Z) : M (list fl) :=
  let zeros := repeat (Fin 0) vector_length in
  if Nat.eqb (length radii) (length thetas) then
    run v <- polynomial_value fuel p (RArr radii) (RArr thetas);
    mlift (assign_slice zeros 0 vector_length (cv_list v))
  else fill_mesh fuel p thetas 0 radii zeros.

(** a matrix with a non-finite element makes lstsq raise LinAlgError (a ValueError) *)
Fixpoint finite (l : list fl) : res (list R) :=
  match l with
  | [] => Ok []
  | Fin x :: tl => do r <- finite tl; Ok (x :: r)
  | _ => Raise ValueError
  end.
Fixpoint finite_all (l : list (list fl)) : res (list (list R)) :=
  match l with [] => Ok [] | c :: tl => do c' <- finite c; do r <- finite_all tl; Ok (c' :: r) end.

(** 178-214; the phases are a 1-D array of finite numbers *)
Definition fit_zernikes (lstsq : list (list R) -> list R -> list R) (fuel : nat) (phases : list R) (radii thetas : list fl)
  (ps : list (option (Z * Z))) : M (list R) :=
  match ps with
  | [] => mlift (Raise ValueError)
  | _ =>
      run orders <- mlift (all_orders ps);
      if repeated orders then mlift (Raise ValueError)
      else
        run cols <- mapM (column fuel (length phases) radii thetas) orders;
        run A <- mlift (finite_all cols);
        mret (lstsq A phases)
  end.

(** numpy.round(x, digits): half to even *)
Definition np_round (digits : Z) (x : R) : R := IZR (ZnearestE (x * powerRZ 10 digits)) / powerRZ 10 digits.

(** zernikepol.py 1541-1551 *)
Definition fit_polynomials (rnd : R -> R) (lstsq : list (list R) -> list R -> list R) (fuel : nat) (img : img_arg R)
  (ps : list (option (Z * Z))) (crop_radius : radius_arg) (strict : bool) (digits : Z) (return_cropped : bool)
  : M (list R * option (Z -> Z -> R)) :=
  run c <- mlift (crop_phases_img rnd img crop_radius strict);
  let '(mask, (phases, radii, thetas)) := c in
  run x <- fit_zernikes lstsq fuel phases (map Fin radii) (map Fin thetas) ps;
  let cropped := match img with Img _ _ f => Some (fun i j => IZR (mask i j) * f i j) | _ => None end in
  mret (map (np_round digits) x, if return_cropped then cropped else None).

(** an ndarray argument: 1-D with its elements, or of another dimension *)
Inductive arr1 (A : Type) := Arr1 (l : list A) | ArrN (dim : nat).
Arguments Arr1 {A} l. Arguments ArrN {A} dim.
Definition ndim {A} (a : arr1 A) : nat := match a with Arr1 _ => 1%nat | ArrN d => d end.

(** zernikepol.py 1586-1592. A 0-d array passes the check; then unpacking its shape (182) raises
    ValueError for the phases and shape[0] (201) IndexError for the coordinates; the latter is reached
    only after the checks of the polynomials. *)
Definition fit_polynomials_vectors (lstsq : list (list R) -> list R -> list R) (fuel : nat) (ps : list (option (Z * Z)))
  (phases : arr1 R) (radii thetas : arr1 fl) (digits : Z) : M (list R) :=
  if (Nat.ltb 1 (ndim phases) || Nat.ltb 1 (ndim radii) || Nat.ltb 1 (ndim thetas))%bool then mlift (Raise TypeError)
  else match phases, radii, thetas with
  | Arr1 b, Arr1 r, Arr1 t => run x <- fit_zernikes lstsq fuel b r t ps; mret (map (np_round digits) x)
  | Arr1 _, _, _ =>
      run orders <- mlift (all_orders ps);
      mlift (Raise (match ps with [] => ValueError | _ => if repeated orders then ValueError else IndexError end))
  | _, _, _ => mlift (Raise ValueError)
  end.
