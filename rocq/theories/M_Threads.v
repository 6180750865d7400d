(** The evaluation methods of ZernPol called from several threads. The functions of M_Coeffs once more, with every access to the
    module-level dictionaries and to the lru caches as a separate atomic action (one bytecode instruction under the interpreter lock, or one
    operation of the C implementation of functools.lru_cache, which calls the decorated function without holding its lock): find_pols_coeffs.py 221-355,
    calc_zernike_pol.py 456-559, zernikepol.py 408-585. Dictionaries of coefficients are never changed after they became visible to other threads, so they are values. *)
From Coq Require Import Reals.
From Verif Require Import Py M_Radial M_Coeffs.
Open Scope Z_scope.

(** a program: finished with an outcome, or an atomic action on the shared state followed by a program *)
Inductive prog (A : Type) : Type :=
  | Done (r : res A)
  | Act (B : Type) (op : cstate -> cstate * B) (k : B -> prog A).
Arguments Done {A} r. Arguments Act {A B} op k.

Fixpoint pbind {A B} (x : prog A) (f : A -> prog B) : prog B :=
  match x with
  | Done (Ok a) => f a
  | Done (Raise e) => Done (Raise e)
  | Act op k => Act op (fun b => pbind (k b) f)
  end.
Notation "'seq' x <- a ; b" := (pbind a (fun x => b)) (at level 60, x pattern, a at level 50, b at level 60, right associativity).
Definition plift {A} (r : res A) : prog A := Done r.
Definition pret {A} (a : A) : prog A := Done (Ok a).

(** the program run without any other thread *)
Fixpoint alone {A} (p : prog A) : M A :=
  fun s => match p with
           | Done r => (s, r)
           | Act op k => let '(s', b) := op s in alone (k b) s'
           end.

(** t[k] = d : the key keeps its place if it is there *)
Fixpoint tset (k : orders) (d : dict) (t : table) : table :=
  match t with
  | [] => [(k, d)]
  | (k', d') :: tl => if orders_eqb k k' then (k', d) :: tl else (k', d') :: tset k d tl
  end.
Definition assign_pre (s : cstate) (t : bool) (k : orders) (d : dict) : cstate :=
  {| pre := fun t' => if Bool.eqb t' t then tset k d (pre s t) else pre s t'; pre_dr := pre_dr s; lru := lru s; lru_dr := lru_dr s |}.
Definition assign_pre_dr (s : cstate) (t : bool) (k : orders) (d : dict) : cstate :=
  {| pre := pre s; pre_dr := fun t' => if Bool.eqb t' t then tset k d (pre_dr s t) else pre_dr s t'; lru := lru s; lru_dr := lru_dr s |}.

Definition present (o : option dict) : bool := match o with Some _ => true | None => false end.
(** [k in t.keys()] and [t[k]], which raises KeyError *)
Definition p_in (get : cstate -> table) (k : orders) : prog bool := Act (fun s => (s, present (tget k (get s)))) (fun b => Done (Ok b)).
Definition p_get (get : cstate -> table) (k : orders) : prog dict :=
  Act (fun s => (s, tget k (get s))) (fun o => Done (match o with Some d => Ok d | None => Raise KeyError end)).
Definition p_set (f : cstate -> cstate) : prog unit := Act (fun s => (f s, tt)) (fun _ => Done (Ok tt)).
(** [if k not in t.keys(): t[k] = d] *)
Definition p_store (t : bool) (k : orders) (d : dict) : prog unit :=
  seq b <- p_in (fun s => pre s t) k; if b then pret tt else p_set (fun s => assign_pre s t k d).
Definition p_store_dr (t : bool) (k : orders) (d : dict) : prog unit :=
  seq b <- p_in (fun s => pre_dr s t) k; if b then pret tt else p_set (fun s => assign_pre_dr s t k d).

(** functools.lru_cache: look up (a hit moves the entry to the front); on a miss call the function, then insert *)
Definition p_cached (get : cstate -> list (lrukey * dict)) (put : cstate -> list (lrukey * dict) -> cstate) (k : lrukey) (body : prog dict) : prog dict :=
  Act (fun s => match assoc lrukey_eqb k (get s) with Some d => (put s (lru_hit k d (get s)), Some d) | None => (s, None) end)
      (fun o => match o with
                | Some d => Done (Ok d)
                | None => seq d <- body; seq _ <- p_set (fun s => put s (lru_add k d (get s))); pret d
                end).

(** find_pols_coeffs.py 221-281 *)
Fixpoint p_find (fuel : nat) (fl : flagform) (m n : Z) : prog dict :=
  match fuel with
  | O => plift (Raise RecursionError)
  | S f =>
    p_cached lru with_lru (fl, (m, n))
      (let t := flag_value fl in
       seq b <- p_in (fun s => pre s t) (m, n);
       if b then p_get (fun s => pre s t) (m, n)
       else
         seq sp <- plift (check_special_orders m n);
         match sp with
         | Some d => seq _ <- p_store t (m, n) d; pret d
         | None =>
             seq a <- p_find f (Pos t) (Z.abs (m - 1)) (n - 1);
             seq b <- p_find f (Pos t) (m + 1) (n - 1);
             seq a' <- plift (increase_order_coeffs a);
             seq b' <- plift (increase_order_coeffs b);
             seq c <- p_find f (Pos t) m (n - 2);
             seq c' <- plift (make_orders_coeffs c (n - 2) true);
             seq d <- plift (sum_orders_coeffs n [a'; b'; c']);
             seq _ <- p_store t (Z.abs (m - 1), n - 1) a;
             seq _ <- p_store t (m + 1, n - 1) b;
             pret d
         end)
  end.

(** find_pols_coeffs.py 284-355 *)
Fixpoint p_find_dr (fuel : nat) (fl : flagform) (m n : Z) : prog dict :=
  match fuel with
  | O => plift (Raise RecursionError)
  | S f =>
    p_cached lru_dr with_lru_dr (fl, (m, n))
      (let t := flag_value fl in
       seq b <- p_in (fun s => pre_dr s t) (m, n);
       if b then p_get (fun s => pre_dr s t) (m, n)
       else
         seq sp <- plift (check_special_orders_dr m n);
         match sp with
         | Some d => seq _ <- p_store_dr t (m, n) d; pret d
         | None =>
             seq a <- p_find f (Pos t) (Z.abs (m - 1)) (n - 1);
             seq b <- p_find f (Pos t) (m + 1) (n - 1);
             seq da <- p_find_dr f (Pos t) (Z.abs (m - 1)) (n - 1);
             seq db <- p_find_dr f (Pos t) (m + 1) (n - 1);
             seq da' <- plift (increase_order_coeffs da);
             seq db' <- plift (increase_order_coeffs db);
             seq dc <- p_find_dr f (Pos t) m (n - 2);
             seq dc' <- plift (make_orders_coeffs dc (n - 2) true);
             seq d <- plift (sum_orders_coeffs n [a; b; da'; db'; dc']);
             seq _ <- p_store t (Z.abs (m - 1), n - 1) a;
             seq _ <- p_store t (m + 1, n - 1) b;
             seq _ <- p_store_dr t (Z.abs (m - 1), n - 1) da;
             seq _ <- p_store_dr t (m + 1, n - 1) db;
             pret d
         end)
  end.

Local Open Scope R_scope.
(** calc_zernike_pol.py 456-506 *)
Fixpoint p_coeffs (fuel : nat) (m n : Z) (r : R) : prog R :=
  match fuel with
  | O => plift (Raise RecursionError)
  | S f =>
    if (n <=? MAX_RADIAL_ORDER_COEFFS)%Z then
      seq d <- p_find f NoFlag m n; pret (eval_dict d r 0)
    else if (Z.abs m =? n)%Z then pret (powerRZ r n)
    else if (m =? 0)%Z then
      seq x <- p_coeffs f 1 (n - 1) r;
      seq y <- p_coeffs f 0 (n - 2) r;
      pret (2 * r * x - y)
    else if (Z.abs m =? n - 2)%Z then
      pret (IZR n * powerRZ r n - IZR (n - 1) * powerRZ r (n - 2))
    else
      seq x <- p_coeffs f (Z.abs (m - 1)) (n - 1) r;
      seq y <- p_coeffs f (m + 1) (n - 1) r;
      seq z <- p_coeffs f m (n - 2) r;
      pret (r * (x + y) - z)
  end.
(** calc_zernike_pol.py 509-559 *)
Fixpoint p_coeffs_dr (fuel : nat) (m n : Z) (r : R) : prog R :=
  match fuel with
  | O => plift (Raise RecursionError)
  | S f =>
    if (n <=? MAX_RADIAL_ORDER_COEFFS_dR)%Z then
      seq d <- p_find_dr f NoFlag m n; pret (eval_dict d r 0)
    else if (Z.abs m =? n)%Z then pret (IZR n * powerRZ r (n - 1))
    else if (m =? 0)%Z then
      seq p <- p_coeffs_dr f 1 (n - 1) r;
      seq x <- p_coeffs_dr f 1 (n - 1) r;
      seq y <- p_coeffs_dr f 0 (n - 2) r;
      pret (2 * (p + r * x) - y)
    else if (Z.abs m =? n - 2)%Z then
      pret (IZR n * IZR n * powerRZ r (n - 1) - IZR (n - 1) * IZR (n - 2) * powerRZ r (n - 3))
    else
      seq p <- p_coeffs f (Z.abs (m - 1)) (n - 1) r;
      seq q <- p_coeffs f (m + 1) (n - 1) r;
      seq x <- p_coeffs_dr f (Z.abs (m - 1)) (n - 1) r;
      seq y <- p_coeffs_dr f (m + 1) (n - 1) r;
      seq z <- p_coeffs_dr f m (n - 2) r;
      pret ((p + q) + r * (x + y) - z)
  end.
(** zernikepol.py 475-493, 567-585, 408-428 *)
Definition p_radial (fuel : nat) (m n : Z) (use_exact_eq : bool) (r : R) : prog R :=
  if use_exact_eq then
    if (MAX_RADIAL_ORDER_COEFFS <? n)%Z then pret 0 else plift (radial_polynomial_eq m n r)
  else if (n <=? 12)%Z then plift (radial_polynomial fuel m n r)
  else p_coeffs fuel m n r.
Definition p_radial_dr (fuel : nat) (m n : Z) (use_exact_eq : bool) (r : R) : prog R :=
  if use_exact_eq then
    if (MAX_RADIAL_ORDER_COEFFS_dR <? n)%Z then pret 0 else plift (radial_derivative_eq m n r)
  else if (n <=? 12)%Z then plift (radial_derivative fuel m n r)
  else p_coeffs_dr fuel m n r.
Definition p_value (fuel : nat) (m n : Z) (use_exact_eq : bool) (r theta : R) : prog R :=
  if use_exact_eq && (MAX_RADIAL_ORDER_COEFFS <? n)%Z then pret 0
  else seq v <- p_radial fuel m n use_exact_eq r;
       pret (normalization_factor m n * triangular_function m theta * v).

(** ** threads *)
(** a call of one of the three methods; [fuel] is the recursion depth left in the thread *)
Inductive call := Value (fuel : nat) (m n : Z) (e : bool) (r theta : R) | Radial (fuel : nat) (m n : Z) (e : bool) (r : R) | RadialDr (fuel : nat) (m n : Z) (e : bool) (r : R).
Definition code (c : call) : prog R :=
  match c with
  | Value f m n e r th => p_value f m n e r th
  | Radial f m n e r => p_radial f m n e r
  | RadialDr f m n e r => p_radial_dr f m n e r
  end.
(** a thread: the calls that it still has to do (the first one in progress) and the outcomes so far *)
Record thread := Th { calls : list (prog R); outcomes : list (res R) }.
(** the next action of the thread: an atomic action of the call in progress, or its return *)
Definition thread_step (th : thread) (s : cstate) : cstate * thread :=
  match calls th with
  | [] => (s, th)
  | Done r :: tl => (s, Th tl (outcomes th ++ [r]))
  | Act op k :: tl => let '(s', b) := op s in (s', Th (k b :: tl) (outcomes th))
  end.
Definition world := (cstate * list thread)%type.
Definition spawn (s : cstate) (l : list (list call)) : world := (s, map (fun cs => Th (map code cs) []) l).
Fixpoint replace (i : nat) (x : thread) (l : list thread) : list thread :=
  match l, i with [], _ => [] | _ :: tl, O => x :: tl | y :: tl, S i' => y :: replace i' x tl end.
(** the interpreter lets thread [i] act *)
Definition switch (i : nat) (w : world) : world :=
  match nth_error (snd w) i with
  | None => w
  | Some th => let '(s', th') := thread_step th (fst w) in (s', replace i th' (snd w))
  end.
(** the state after [t] actions under the schedule [sch] *)
Fixpoint interleave (sch : nat -> nat) (w : world) (t : nat) : world :=
  match t with O => w | S t' => switch (sch t') (interleave sch w t') end.
