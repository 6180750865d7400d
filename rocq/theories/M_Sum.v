(** Model of the argument checks of the evaluation methods and of the sums of polynomials
    (zernikepol.py 408-428, 871-988, 1255-1332). *)
From Coq Require Import Reals.
From Verif Require Import Py M_Radial M_Coeffs.
Local Open Scope R_scope.

(** A float64 value. Finite values are exact reals; the arithmetic of the non-finite values is not
    modelled beyond comparisons, min and max (any operation on them gives NaN here, and no theorem
    depends on it). *)
Inductive fl := Fin (x : R) | NaN | Inf (neg : bool).

Definition Rltb (x y : R) : bool := if Rlt_dec x y then true else false.
(** IEEE [<]: false whenever NaN is involved *)
Definition fltb (a b : fl) : bool :=
  match a, b with
  | Fin x, Fin y => Rltb x y
  | Fin _, Inf neg => negb neg
  | Inf neg, Fin _ => neg
  | Inf n1, Inf n2 => n1 && negb n2
  | _, _ => false
  end.
(** numpy minimum / maximum of two elements: NaN propagates *)
Definition fmin (a b : fl) : fl :=
  match a, b with NaN, _ => NaN | _, NaN => NaN | _, _ => if fltb b a then b else a end.
Definition fmax (a b : fl) : fl :=
  match a, b with NaN, _ => NaN | _, NaN => NaN | _, _ => if fltb a b then b else a end.
(** np.min, np.max: ValueError on an empty array *)
Definition np_min (l : list fl) : res fl :=
  match l with [] => Raise ValueError | x :: tl => Ok (fold_left fmin tl x) end.
Definition np_max (l : list fl) : res fl :=
  match l with [] => Raise ValueError | x :: tl => Ok (fold_left fmax tl x) end.

(** An argument given for radii or angles: numpy array, list, tuple, set of numbers, an object that
    float() converts to a number (float, int, bool, numpy scalar, numeric string), or one for which
    float() raises [e]. Arrays are 1-D here (the elements of an N-D array in memory order: the checks
    and the evaluation are elementwise). *)
Inductive raw := RArr (l : list fl) | RList (l : list fl) | RTuple (l : list fl) | RSet (l : list fl)
  | RNum (x : fl) | RBad (e : exc).
(** after conversion: numpy array or float *)
Inductive cv := KArr (l : list fl) | KFloat (x : fl).

(** zernikepol.py 1275-1280 and 1315-1320. [np.asarray] of a set is a 0-d object array holding the
    set, for which np.min returns the set itself and the comparison with 0.0 (or the subtraction)
    fails with TypeError. *)
Definition convert (v : raw) : res cv :=
  match v with
  | RArr l | RList l | RTuple l => Ok (KArr l)
  | RSet _ => Raise TypeError
  | RNum x => Ok (KFloat x)
  | RBad e => Raise e
  end.

(** zernikepol.py 1275-1289 *)
Definition check_radii (v : raw) : res cv :=
  do k <- convert v;
  match k with
  | KArr l =>
      do lo <- np_min l;
      if fltb lo (Fin 0) then Raise ValueError
      else do hi <- np_max l; if fltb (Fin 1) hi then Raise ValueError else Ok k
  | KFloat x => if fltb (Fin 1) x || fltb x (Fin 0) then Raise ValueError else Ok k
  end.

(** zernikepol.py 1315-1332: only warnings (not modelled) *)
Definition check_angles (v : raw) : res cv :=
  do k <- convert v;
  match k with KArr l => do _ <- np_max l; Ok k | KFloat _ => Ok k end.

(** zernikepol.py 475-493 and 567-585: check, then the evaluation [body] *)
Definition checked_call {A} (body : cv -> M A) (r : raw) : M A :=
  run k <- mlift (check_radii r); body k.
(** zernikepol.py 398-428: check radii, angles and equality of shapes, then evaluation *)
Definition checked_call2 {A} (body : cv -> cv -> M A) (r theta : raw) : M A :=
  run k <- mlift (check_radii r);
  run t <- mlift (check_angles theta);
  match k, t with
  | KArr l, KArr l' => if Nat.eqb (length l) (length l') then body k t else mlift (Raise ValueError)
  | _, _ => body k t
  end.

Fixpoint mapM {A B} (f : A -> M B) (l : list A) : M (list B) :=
  match l with [] => mret [] | x :: tl => run y <- f x; run ys <- mapM f tl; mret (y :: ys) end.

(** one element of the evaluation *)
Definition pt_value (fuel : nat) (p : Z * Z) (r t : fl) : M fl :=
  match r, t with
  | Fin x, Fin y => run v <- zp_polynomial_value fuel (fst p) (snd p) false x y; mret (Fin v)
  | _, _ => mret NaN
  end.
(** zernikepol.py 408-428 without flag use_exact_eq: elementwise with numpy broadcasting. The code
    evaluates the whole array in one pass; the model evaluates the elements one after another
    (the module state never changes a value, C18). *)
Definition value_body (fuel : nat) (p : Z * Z) (r t : cv) : M cv :=
  match r, t with
  | KFloat x, KFloat y => run v <- pt_value fuel p x y; mret (KFloat v)
  | KArr l, KFloat y => run v <- mapM (fun x => pt_value fuel p x y) l; mret (KArr v)
  | KFloat x, KArr l => run v <- mapM (fun y => pt_value fuel p x y) l; mret (KArr v)
  | KArr l, KArr l' => run v <- mapM (fun xy => pt_value fuel p (fst xy) (snd xy)) (combine l l'); mret (KArr v)
  end.
Definition polynomial_value (fuel : nat) (p : Z * Z) (r theta : raw) : M cv :=
  checked_call2 (value_body fuel p) r theta.

(** ** sums *)
Definition fadd (a b : fl) : fl := match a, b with Fin x, Fin y => Fin (x + y) | _, _ => NaN end.
Definition fmul (a b : fl) : fl := match a, b with Fin x, Fin y => Fin (x * y) | _, _ => NaN end.
(** coefficient * array *)
Definition cv_scale (c : R) (k : cv) : cv :=
  match k with KFloat x => KFloat (fmul (Fin c) x) | KArr l => KArr (map (fmul (Fin c)) l) end.
(** S += v, both from evaluations on the same coordinates; numpy raises ValueError if the shapes differ *)
Definition cv_add (a b : cv) : res cv :=
  match a, b with
  | KFloat x, KFloat y => Ok (KFloat (fadd x y))
  | KArr l, KArr l' => if Nat.eqb (length l) (length l') then Ok (KArr (map (fun xy => fadd (fst xy) (snd xy)) (combine l l'))) else Raise ValueError
  | KArr l, KFloat y => Ok (KArr (map (fun x => fadd x y) l))
  | KFloat x, KArr l => Ok (KArr (map (fun y => fadd x y) l))
  end.

Definition nonzero (c : R) : bool := if Req_EM_T c 0 then false else true.   (* abs(coefficient) > 0.0 *)

(** result of a sum: float, vector or 2-D array of given shape *)
Inductive sumval := SVal (k : cv) | SMat (rows cols : nat) (f : nat -> nat -> fl).

(** zernikepol.py 962-969, iterations with i >= 1; [None] is an element that is no ZernPol *)
Fixpoint sum_points (fuel : nat) (cs : list R) (ps : list (option (Z * Z))) (r theta : raw) (W : cv) : M cv :=
  match cs, ps with
  | c :: cs', p :: ps' =>
      match p with
      | None => mlift (Raise ValueError)
      | Some p =>
          if nonzero c then
            run v <- polynomial_value fuel p r theta;
            run W' <- mlift (cv_add W (cv_scale c v));
            sum_points fuel cs' ps' r theta W'
          else sum_points fuel cs' ps' r theta W
      end
  | _, _ => mret W
  end.

(** zernikepol.py 982-984: rows *)
Fixpoint add_rows (fuel : nat) (c : R) (p : Z * Z) (rs : list fl) (j : nat) (theta : list fl) (W : nat -> nat -> fl) : M (nat -> nat -> fl) :=
  match rs with
  | [] => mret W
  | x :: tl =>
      run v <- polynomial_value fuel p (RNum x) (RArr theta);
      match v with
      | KArr l => add_rows fuel c p tl (S j) theta
                    (fun a b => if Nat.eqb a j then fadd (W a b) (fmul (Fin c) (nth b l NaN)) else W a b)
      | KFloat _ => mlift (Raise TypeError)
      end
  end.
(** zernikepol.py 985-987: columns *)
Fixpoint add_cols (fuel : nat) (c : R) (p : Z * Z) (r : list fl) (ts : list fl) (j : nat) (W : nat -> nat -> fl) : M (nat -> nat -> fl) :=
  match ts with
  | [] => mret W
  | t :: tl =>
      run v <- polynomial_value fuel p (RArr r) (RNum t);
      match v with
      | KArr l => add_cols fuel c p r tl (S j)
                    (fun a b => if Nat.eqb b j then fadd (W a b) (fmul (Fin c) (nth a l NaN)) else W a b)
      | KFloat _ => mlift (Raise TypeError)
      end
  end.
(** zernikepol.py 976-987 *)
Fixpoint sum_surface (fuel : nat) (cs : list R) (ps : list (option (Z * Z))) (r theta : list fl) (W : nat -> nat -> fl) : M (nat -> nat -> fl) :=
  match cs, ps with
  | c :: cs', p :: ps' =>
      match p with
      | None => mlift (Raise ValueError)
      | Some p =>
          if nonzero c then
            run W' <- (if Nat.ltb (length r) (length theta) then add_rows fuel c p r 0 theta W else add_cols fuel c p r theta 0 W);
            sum_surface fuel cs' ps' r theta W'
          else sum_surface fuel cs' ps' r theta W
      end
  | _, _ => mret W
  end.

(** zernikepol.py 955-988. A surface is computed only for two arrays (1-D in the model). *)
Definition sum_zernikes (fuel : nat) (cs : list R) (ps : list (option (Z * Z))) (r theta : raw) (get_surface : bool) : M sumval :=
  if negb (Nat.eqb (length cs) (length ps)) then mlift (Raise ValueError)
  else match cs, ps with
  | c :: cs', p :: ps' =>
      match get_surface, r, theta with
      | true, RArr lr, RArr lt =>
          run W <- sum_surface fuel cs ps lr lt (fun _ _ => Fin 0);
          mret (SMat (length lr) (length lt) W)
      | _, _, _ =>
          match p with
          | None => mlift (Raise ValueError)
          | Some p =>
              run v <- polynomial_value fuel p r theta;
              run W <- sum_points fuel cs' ps' r theta (cv_scale c v);
              mret (SVal W)
          end
      end
  | _, _ => mlift (Raise ValueError)
  end.

(** zernikepol.py 910-916: evaluation on the mesh theta_grid, r_grid = np.meshgrid(theta, r), i.e. on
    the flattened arrays of (r_i, theta_j) in row-major order *)
Definition mesh (r theta : list fl) : list (fl * fl) := flat_map (fun x => map (fun t => (x, t)) theta) r.
Fixpoint sum_mesh_loop (fuel : nat) (cs : list R) (ps : list (option (Z * Z))) (r theta : list fl) (W : nat -> nat -> fl) : M (nat -> nat -> fl) :=
  match cs, ps with
  | c :: cs', p :: ps' =>
      match p with
      | None => mlift (Raise ValueError)
      | Some p =>
          if nonzero c then
            run v <- polynomial_value fuel p (RArr (map fst (mesh r theta))) (RArr (map snd (mesh r theta)));
            match v with
            | KArr l => sum_mesh_loop fuel cs' ps' r theta
                          (fun a b => fadd (W a b) (fmul (Fin c) (nth (a * length theta + b) l NaN)))
            | KFloat _ => mlift (Raise TypeError)
            end
          else sum_mesh_loop fuel cs' ps' r theta W
      end
  | _, _ => mret W
  end.
(** zernikepol.py 901-917 for arrays *)
Definition sum_zernikes_meshgrid (fuel : nat) (cs : list R) (ps : list (option (Z * Z))) (r theta : list fl) : M sumval :=
  if negb (Nat.eqb (length cs) (length ps)) then mlift (Raise ValueError)
  else run W <- sum_mesh_loop fuel cs ps r theta (fun _ _ => Fin 0); mret (SMat (length r) (length theta) W).

(** one element of radial / radial_dr *)
Definition pt1 (f : R -> M R) (x : fl) : M fl :=
  match x with Fin x => run v <- f x; mret (Fin v) | _ => mret NaN end.
Definition body1 (f : R -> M R) (k : cv) : M cv :=
  match k with
  | KFloat x => run v <- pt1 f x; mret (KFloat v)
  | KArr l => run v <- mapM (pt1 f) l; mret (KArr v)
  end.
(** zernikepol.py 475-493: ZernPol.radial on any argument *)
Definition radial (fuel : nat) (p : Z * Z) (use_exact_eq : bool) (r : raw) : M cv :=
  checked_call (body1 (zp_radial fuel (fst p) (snd p) use_exact_eq)) r.
(** zernikepol.py 567-585: ZernPol.radial_dr on any argument *)
Definition radial_dr (fuel : nat) (p : Z * Z) (use_exact_eq : bool) (r : raw) : M cv :=
  checked_call (body1 (zp_radial_dr fuel (fst p) (snd p) use_exact_eq)) r.
