(** Model of calculations/find_pols_coeffs.py (coefficient dictionaries with the module-level
    tables and the lru caches as explicit state) and of the functions of
    calculations/calc_zernike_pol.py that use it. *)
From Coq Require Import Reals.
From Verif Require Import Py M_Radial.
Open Scope Z_scope.

(** A Python dict with integer keys and values, in insertion order. *)
Definition dict := list (Z * Z).

Fixpoint dget (k : Z) (d : dict) : option Z :=
  match d with [] => None | (k', v) :: tl => if k =? k' then Some v else dget k tl end.
(** [d[k] = v]: overwrite in place, or append a new key *)
Fixpoint dset (k v : Z) (d : dict) : dict :=
  match d with
  | [] => [(k, v)]
  | (k', v') :: tl => if k =? k' then (k', v) :: tl else (k', v') :: dset k v tl
  end.
Fixpoint dpop (k : Z) (d : dict) : dict :=
  match d with [] => [] | (k', v') :: tl => if k =? k' then tl else (k', v') :: dpop k tl end.
(** [max(d.keys())]; ValueError on an empty dict *)
Definition dmaxkey (d : dict) : res Z :=
  match d with
  | [] => Raise ValueError
  | (k, _) :: tl => Ok (fold_left (fun acc e => Z.max acc (fst e)) tl k)
  end.
(** [{i: 0 for i in range(k)}] *)
Definition dzeros (k : Z) : dict := map (fun i => (i, 0)) (zrange 0 (Z.to_nat k)).

(** find_pols_coeffs.py 45-53 *)
Fixpoint make_loop (items : dict) (minus : bool) (acc : dict) : res dict :=
  match items with
  | [] => Ok acc
  | (k, v) :: tl =>
      match dget k acc with
      | Some _ => make_loop tl minus (dset k (if minus then - v else v) acc)
      | None => Raise ValueError
      end
  end.
(** find_pols_coeffs.py 14-54 *)
Definition make_orders_coeffs (defined : dict) (max_order : Z) (minus : bool) : res dict :=
  make_loop defined minus (dzeros (max_order + 1)).

(** find_pols_coeffs.py 135-137 *)
Fixpoint inc_loop (items acc : dict) : dict :=
  match items with
  | [] => acc
  | (k, v) :: tl => inc_loop tl (if 0 <? Z.abs v then dset (k + 1) v acc else acc)
  end.
(** find_pols_coeffs.py 115-138 *)
Definition increase_order_coeffs (d : dict) : res dict :=
  do mx <- dmaxkey d; Ok (inc_loop d (dzeros (mx + 1))).

(** find_pols_coeffs.py 165-166 *)
Fixpoint sum_loop (items acc : dict) : res dict :=
  match items with
  | [] => Ok acc
  | (k, v) :: tl =>
      match dget k acc with
      | Some x => sum_loop tl (dset k (x + v) acc)
      | None => Raise KeyError
      end
  end.
(** find_pols_coeffs.py 164 *)
Fixpoint sum_args (args : list dict) (acc : dict) : res dict :=
  match args with
  | [] => Ok acc
  | d :: tl => do acc' <- sum_loop d acc; sum_args tl acc'
  end.
(** find_pols_coeffs.py 141-170 *)
Definition sum_orders_coeffs (max_order : Z) (args : list dict) : res dict :=
  do c <- sum_args args (dzeros (max_order + 1));
  match dget max_order c with
  | None => Raise KeyError
  | Some v => Ok (if v =? 0 then dpop max_order c else c)
  end.

(** find_pols_coeffs.py 173-194; [None] is Python's None *)
Definition check_special_orders (m n : Z) : res (option dict) :=
  if Z.abs m =? n then do d <- make_orders_coeffs [(n, 1)] n false; Ok (Some d)
  else if Z.abs m =? n - 2 then
    do d <- make_orders_coeffs [(n, n); (n - 2, - (n - 1))] n false; Ok (Some d)
  else Ok None.
(** find_pols_coeffs.py 197-218 *)
Definition check_special_orders_dr (m n : Z) : res (option dict) :=
  if Z.abs m =? n then do d <- make_orders_coeffs [(n - 1, n)] (n - 1) false; Ok (Some d)
  else if Z.abs m =? n - 2 then
    do d <- make_orders_coeffs [(n - 1, n * n); (n - 3, - (n - 1) * (n - 2))] (n - 1) false; Ok (Some d)
  else Ok None.

(** find_pols_coeffs.py 59-67 [initial_coefficients_test]: key, (defined coefficients, max_order) *)
Definition tab_test : list ((Z * Z) * (dict * Z)) := [
    (((-3), 7), ([(7, 21); (5, (-30)); (3, 10)], 7));
    ((3, 7), ([(7, 21); (5, (-30)); (3, 10)], 7));
    (((-1), 7), ([(7, 35); (5, (-60)); (3, 30); (1, (-4))], 7));
    ((1, 7), ([(7, 35); (5, (-60)); (3, 30); (1, (-4))], 7));
    (((-4), 8), ([(8, 28); (6, (-42)); (4, 15)], 8));
    ((4, 8), ([(8, 28); (6, (-42)); (4, 15)], 8));
    (((-2), 8), ([(8, 56); (6, (-105)); (4, 60); (2, (-10))], 8));
    ((2, 8), ([(8, 56); (6, (-105)); (4, 60); (2, (-10))], 8));
    ((0, 8), ([(8, 70); (6, (-140)); (4, 90); (2, (-20)); (0, 1)], 8))].

(** find_pols_coeffs.py 69-84 [precalculated_initial_coeffs]: key, (defined coefficients, max_order) *)
Definition tab_pre : list ((Z * Z) * (dict * Z)) := [
    (((-9), 9), ([(9, 1)], 9));
    ((9, 9), ([(9, 1)], 9));
    (((-7), 9), ([(9, 9); (7, (-8))], 9));
    ((7, 9), ([(9, 9); (7, (-8))], 9));
    (((-5), 9), ([(9, 36); (7, (-56)); (5, 21)], 9));
    ((5, 9), ([(9, 36); (7, (-56)); (5, 21)], 9));
    (((-3), 9), ([(9, 84); (7, (-168)); (5, 105); (3, (-20))], 9));
    ((3, 9), ([(9, 84); (7, (-168)); (5, 105); (3, (-20))], 9));
    (((-1), 9), ([(9, 126); (7, (-280)); (5, 210); (3, (-60)); (1, 5)], 9));
    ((1, 9), ([(9, 126); (7, (-280)); (5, 210); (3, (-60)); (1, 5)], 9));
    (((-6), 10), ([(10, 45); (8, (-72)); (6, 28)], 10));
    ((6, 10), ([(10, 45); (8, (-72)); (6, 28)], 10));
    (((-4), 10), ([(10, 120); (8, (-252)); (6, 168); (4, (-35))], 10));
    ((4, 10), ([(10, 120); (8, (-252)); (6, 168); (4, (-35))], 10));
    (((-2), 10), ([(10, 210); (8, (-504)); (6, 420); (4, (-140)); (2, 15)], 10));
    ((2, 10), ([(10, 210); (8, (-504)); (6, 420); (4, (-140)); (2, 15)], 10));
    ((0, 10), ([(10, 252); (8, (-630)); (6, 560); (4, (-210)); (2, 30); (0, (-1))], 10))].

(** find_pols_coeffs.py 88-96 [initial_coefficients_test_dr]: key, (defined coefficients, max_order) *)
Definition tab_test_dr : list ((Z * Z) * (dict * Z)) := [
    (((-3), 7), ([(6, 147); (4, (-150)); (2, 30)], 6));
    ((3, 7), ([(6, 147); (4, (-150)); (2, 30)], 6));
    (((-1), 7), ([(6, 245); (4, (-300)); (2, 90); (0, (-4))], 6));
    ((1, 7), ([(6, 245); (4, (-300)); (2, 90); (0, (-4))], 6));
    (((-4), 8), ([(7, 224); (5, (-252)); (3, 60)], 7));
    ((4, 8), ([(7, 224); (5, (-252)); (3, 60)], 7));
    (((-2), 8), ([(7, 448); (5, (-630)); (3, 240); (1, (-20))], 7));
    ((2, 8), ([(7, 448); (5, (-630)); (3, 240); (1, (-20))], 7));
    ((0, 8), ([(7, 560); (5, (-840)); (3, 360); (1, (-40))], 7))].

(** find_pols_coeffs.py 98-111 [precalculated_initial_coeffs_dr]: key, (defined coefficients, max_order) *)
Definition tab_pre_dr : list ((Z * Z) * (dict * Z)) := [
    (((-9), 9), ([(8, 9)], 8));
    (((-7), 9), ([(8, 81); (6, (-56))], 8));
    (((-5), 9), ([(8, 324); (6, (-392)); (4, 105)], 8));
    ((5, 9), ([(8, 324); (6, (-392)); (4, 105)], 8));
    (((-3), 9), ([(8, 756); (6, (-1176)); (4, 525); (2, (-60))], 8));
    ((3, 9), ([(8, 756); (6, (-1176)); (4, 525); (2, (-60))], 8));
    (((-1), 9), ([(8, 1134); (6, (-1960)); (4, 1050); (2, (-180)); (0, 5)], 8));
    ((1, 9), ([(8, 1134); (6, (-1960)); (4, 1050); (2, (-180)); (0, 5)], 8));
    (((-6), 10), ([(9, 450); (7, (-576)); (5, 168)], 9));
    ((6, 10), ([(9, 450); (7, (-576)); (5, 168)], 9));
    (((-4), 10), ([(9, 1200); (7, (-2016)); (5, 1008); (3, (-140))], 9));
    ((4, 10), ([(9, 1200); (7, (-2016)); (5, 1008); (3, (-140))], 9));
    (((-2), 10), ([(9, 2100); (7, (-4032)); (5, 2520); (3, (-560)); (1, 30)], 9));
    ((2, 10), ([(9, 2100); (7, (-4032)); (5, 2520); (3, (-560)); (1, 30)], 9));
    ((0, 10), ([(9, 2520); (7, (-5040)); (5, 3360); (3, (-840)); (1, 60)], 9))].

(** Module state: the four global tables and the two lru caches. *)
Definition orders := (Z * Z)%type.
Definition table := list (orders * dict).
(** The way the flag use_test_dict was passed: functools.lru_cache keeps separate entries for
    an omitted, a positional and a keyword argument. *)
Inductive flagform := NoFlag | Pos (b : bool) | Kw (b : bool).
Definition flag_value (f : flagform) : bool := match f with NoFlag => false | Pos b | Kw b => b end.
Definition lrukey := (flagform * orders)%type.

Definition orders_eqb (a b : orders) : bool := (fst a =? fst b) && (snd a =? snd b).
Definition flag_eqb (a b : flagform) : bool :=
  match a, b with
  | NoFlag, NoFlag => true
  | Pos x, Pos y | Kw x, Kw y => Bool.eqb x y
  | _, _ => false
  end.
Definition lrukey_eqb (a b : lrukey) : bool := flag_eqb (fst a) (fst b) && orders_eqb (snd a) (snd b).

Fixpoint assoc {K V} (eqb : K -> K -> bool) (k : K) (l : list (K * V)) : option V :=
  match l with [] => None | (k', v) :: tl => if eqb k k' then Some v else assoc eqb k tl end.
Definition tget (k : orders) (t : table) : option dict := assoc orders_eqb k t.
(** [if k not in t.keys(): t[k] = d] *)
Definition tput (k : orders) (d : dict) (t : table) : table :=
  match tget k t with Some _ => t | None => t ++ [(k, d)] end.

Record cstate := {
  pre : bool -> table;       (* [false]: precalculated_initial_coeffs, [true]: initial_coefficients_test *)
  pre_dr : bool -> table;    (* the same for derivatives *)
  lru : list (lrukey * dict);
  lru_dr : list (lrukey * dict) }.

Definition set_pre (s : cstate) (t : bool) (k : orders) (d : dict) : cstate :=
  {| pre := fun t' => if Bool.eqb t' t then tput k d (pre s t) else pre s t';
     pre_dr := pre_dr s; lru := lru s; lru_dr := lru_dr s |}.
Definition set_pre_dr (s : cstate) (t : bool) (k : orders) (d : dict) : cstate :=
  {| pre := pre s;
     pre_dr := fun t' => if Bool.eqb t' t then tput k d (pre_dr s t) else pre_dr s t';
     lru := lru s; lru_dr := lru_dr s |}.

(** functools.lru_cache(maxsize=128): a hit moves the entry to the front, a miss inserts the
    computed result unless the (re-entrant) computation did it already, and drops the oldest
    entry; exceptions are not cached. *)
Definition lru_hit (k : lrukey) (d : dict) (l : list (lrukey * dict)) :=
  (k, d) :: filter (fun e => negb (lrukey_eqb k (fst e))) l.
Definition lru_add (k : lrukey) (d : dict) (l : list (lrukey * dict)) :=
  match assoc lrukey_eqb k l with Some _ => l | None => firstn 128 ((k, d) :: l) end.
Definition with_lru (s : cstate) l := {| pre := pre s; pre_dr := pre_dr s; lru := l; lru_dr := lru_dr s |}.
Definition with_lru_dr (s : cstate) l := {| pre := pre s; pre_dr := pre_dr s; lru := lru s; lru_dr := l |}.

(** computations that read and write the module state *)
Definition M (A : Type) := cstate -> cstate * res A.
Definition mret {A} (a : A) : M A := fun s => (s, Ok a).
Definition mlift {A} (x : res A) : M A := fun s => (s, x).
Definition mbind {A B} (x : M A) (f : A -> M B) : M B :=
  fun s => let '(s', r) := x s in match r with Ok a => f a s' | Raise e => (s', Raise e) end.
Definition mmod (f : cstate -> cstate) : M unit := fun s => (f s, Ok tt).
Notation "'run' x <- a ; b" := (mbind a (fun x => b)) (at level 60, x pattern, a at level 50, b at level 60, right associativity).

Definition cached (get : cstate -> list (lrukey * dict)) (put : cstate -> list (lrukey * dict) -> cstate)
    (k : lrukey) (body : M dict) : M dict :=
  fun s => match assoc lrukey_eqb k (get s) with
           | Some d => (put s (lru_hit k d (get s)), Ok d)
           | None => let '(s', r) := body s in
                     match r with Ok d => (put s' (lru_add k d (get s')), Ok d) | Raise e => (s', Raise e) end
           end.

(** find_pols_coeffs.py 221-281; [fuel] models the interpreter's recursion limit *)
Fixpoint find_coeffs_orders (fuel : nat) (fl : flagform) (m n : Z) : M dict :=
  match fuel with
  | O => mlift (Raise RecursionError)
  | S f =>
    cached lru with_lru (fl, (m, n)) (fun s =>
      let t := flag_value fl in
      match tget (m, n) (pre s t) with
      | Some d => (s, Ok d)
      | None =>
        match check_special_orders m n with
        | Raise e => (s, Raise e)
        | Ok (Some d) => (set_pre s t (m, n) d, Ok d)
        | Ok None =>
          (run a <- find_coeffs_orders f (Pos t) (Z.abs (m - 1)) (n - 1);
           run b <- find_coeffs_orders f (Pos t) (m + 1) (n - 1);
           run a' <- mlift (increase_order_coeffs a);
           run b' <- mlift (increase_order_coeffs b);
           run c <- find_coeffs_orders f (Pos t) m (n - 2);
           run c' <- mlift (make_orders_coeffs c (n - 2) true);
           run d <- mlift (sum_orders_coeffs n [a'; b'; c']);
           run _ <- mmod (fun s => set_pre s t (Z.abs (m - 1), n - 1) a);
           run _ <- mmod (fun s => set_pre s t (m + 1, n - 1) b);
           mret d) s
        end
      end)
  end.

(** find_pols_coeffs.py 284-355 *)
Fixpoint find_coeffs_orders_dr (fuel : nat) (fl : flagform) (m n : Z) : M dict :=
  match fuel with
  | O => mlift (Raise RecursionError)
  | S f =>
    cached lru_dr with_lru_dr (fl, (m, n)) (fun s =>
      let t := flag_value fl in
      match tget (m, n) (pre_dr s t) with
      | Some d => (s, Ok d)
      | None =>
        match check_special_orders_dr m n with
        | Raise e => (s, Raise e)
        | Ok (Some d) => (set_pre_dr s t (m, n) d, Ok d)
        | Ok None =>
          (run a <- find_coeffs_orders f (Pos t) (Z.abs (m - 1)) (n - 1);
           run b <- find_coeffs_orders f (Pos t) (m + 1) (n - 1);
           run da <- find_coeffs_orders_dr f (Pos t) (Z.abs (m - 1)) (n - 1);
           run db <- find_coeffs_orders_dr f (Pos t) (m + 1) (n - 1);
           run da' <- mlift (increase_order_coeffs da);
           run db' <- mlift (increase_order_coeffs db);
           run dc <- find_coeffs_orders_dr f (Pos t) m (n - 2);
           run dc' <- mlift (make_orders_coeffs dc (n - 2) true);
           run d <- mlift (sum_orders_coeffs n [a; b; da'; db'; dc']);
           run _ <- mmod (fun s => set_pre s t (Z.abs (m - 1), n - 1) a);
           run _ <- mmod (fun s => set_pre s t (m + 1, n - 1) b);
           run _ <- mmod (fun s => set_pre_dr s t (Z.abs (m - 1), n - 1) da);
           run _ <- mmod (fun s => set_pre_dr s t (m + 1, n - 1) db);
           mret d) s
        end
      end)
  end.

(** State after importing the module: the tables of lines 59-111 built by make_orders_coeffs
    (an entry whose construction raised would abort the import; it is dropped here and the proofs
    show that none is), empty caches. *)
Fixpoint build_table (t : list (orders * (dict * Z))) : table :=
  match t with
  | [] => []
  | (k, (d, mx)) :: tl =>
      match make_orders_coeffs d mx false with Ok x => (k, x) :: build_table tl | Raise _ => build_table tl end
  end.
Definition import_state : cstate :=
  {| pre := fun t => build_table (if t then tab_test else tab_pre);
     pre_dr := fun t => build_table (if t then tab_test_dr else tab_pre_dr);
     lru := []; lru_dr := [] |}.

(** calc_zernike_pol.py 22-30 *)
Definition MAX_RADIAL_ORDER_COEFFS : Z := 40.
Definition MAX_RADIAL_ORDER_COEFFS_dR : Z := 38.

Local Open Scope R_scope.
(** calc_zernike_pol.py 490-492 and 540-542: sum of value*r^key over non-zero coefficients *)
Fixpoint eval_dict (d : dict) (r acc : R) : R :=
  match d with
  | [] => acc
  | (k, v) :: tl => eval_dict tl r (if (0 <? Z.abs v)%Z then acc + IZR v * powerRZ r k else acc)
  end.

(** calc_zernike_pol.py 456-506 *)
Fixpoint radial_polynomial_coeffs (fuel : nat) (m n : Z) (r : R) : M R :=
  match fuel with
  | O => mlift (Raise RecursionError)
  | S f =>
    if (n <=? MAX_RADIAL_ORDER_COEFFS)%Z then
      run d <- find_coeffs_orders f NoFlag m n; mret (eval_dict d r 0)
    else if (Z.abs m =? n)%Z then mret (powerRZ r n)
    else if (m =? 0)%Z then
      run x <- radial_polynomial_coeffs f 1 (n - 1) r;
      run y <- radial_polynomial_coeffs f 0 (n - 2) r;
      mret (2 * r * x - y)
    else if (Z.abs m =? n - 2)%Z then
      mret (IZR n * powerRZ r n - IZR (n - 1) * powerRZ r (n - 2))
    else
      run x <- radial_polynomial_coeffs f (Z.abs (m - 1)) (n - 1) r;
      run y <- radial_polynomial_coeffs f (m + 1) (n - 1) r;
      run z <- radial_polynomial_coeffs f m (n - 2) r;
      mret (r * (x + y) - z)
  end.

(** calc_zernike_pol.py 509-559; lines 550-551 call the derivative where the polynomial is meant *)
Fixpoint radial_polynomial_coeffs_dr (fuel : nat) (m n : Z) (r : R) : M R :=
  match fuel with
  | O => mlift (Raise RecursionError)
  | S f =>
    if (n <=? MAX_RADIAL_ORDER_COEFFS_dR)%Z then
      run d <- find_coeffs_orders_dr f NoFlag m n; mret (eval_dict d r 0)
    else if (Z.abs m =? n)%Z then mret (IZR n * powerRZ r (n - 1))
    else if (m =? 0)%Z then
      run p <- radial_polynomial_coeffs_dr f 1 (n - 1) r;
      run x <- radial_polynomial_coeffs_dr f 1 (n - 1) r;
      run y <- radial_polynomial_coeffs_dr f 0 (n - 2) r;
      mret (2 * (p + r * x) - y)
    else if (Z.abs m =? n - 2)%Z then
      mret (IZR n * IZR n * powerRZ r (n - 1) - IZR (n - 1) * IZR (n - 2) * powerRZ r (n - 3))
    else
      run p <- radial_polynomial_coeffs f (Z.abs (m - 1)) (n - 1) r;
      run q <- radial_polynomial_coeffs f (m + 1) (n - 1) r;
      run x <- radial_polynomial_coeffs_dr f (Z.abs (m - 1)) (n - 1) r;
      run y <- radial_polynomial_coeffs_dr f (m + 1) (n - 1) r;
      run z <- radial_polynomial_coeffs_dr f m (n - 2) r;
      mret ((p + q) + r * (x + y) - z)
  end.

(** zernikepol.py 475-493, after the check of the radius. Warnings are not modelled. *)
Definition zp_radial (fuel : nat) (m n : Z) (use_exact_eq : bool) (r : R) : M R :=
  if use_exact_eq then
    if (MAX_RADIAL_ORDER_COEFFS <? n)%Z then mret 0 else mlift (radial_polynomial_eq m n r)
  else if (n <=? 12)%Z then mlift (radial_polynomial fuel m n r)
  else radial_polynomial_coeffs fuel m n r.

(** zernikepol.py 567-585 *)
Definition zp_radial_dr (fuel : nat) (m n : Z) (use_exact_eq : bool) (r : R) : M R :=
  if use_exact_eq then
    if (MAX_RADIAL_ORDER_COEFFS_dR <? n)%Z then mret 0 else mlift (radial_derivative_eq m n r)
  else if (n <=? 12)%Z then mlift (radial_derivative fuel m n r)
  else radial_polynomial_coeffs_dr fuel m n r.

(** zernikepol.py 408-428, after the checks of the coordinates *)
Definition zp_polynomial_value (fuel : nat) (m n : Z) (use_exact_eq : bool) (r theta : R) : M R :=
  if use_exact_eq && (MAX_RADIAL_ORDER_COEFFS <? n)%Z then mret 0
  else run v <- zp_radial fuel m n use_exact_eq r;
       mret (normalization_factor m n * triangular_function m theta * v).
