(** Model of the index functions of class ZernPol (zernikepol.py). *)
From Verif Require Import Py.

(** zernikepol.py 655: [(n*(n + 2) + m)//2] *)
Definition get_osa_index (m n : Z) : Z := (n * (n + 2) + m) / 2.

(** zernikepol.py 679-690 *)
Definition get_noll_index (m n : Z) : Z :=
  let add_n :=
    if 0 <? m then
      if n mod 4 =? 0 then 0 else if (n - 1) mod 4 =? 0 then 0 else 1
    else if m <? 0 then
      if (n - 2) mod 4 =? 0 then 0 else if (n - 3) mod 4 =? 0 then 0 else 1
    else 1 in
  (n * (n + 1)) / 2 + Z.abs m + add_n.

(** zernikepol.py 714: [(1 + (n + abs(m))//2)**2 - 2*abs(m) + (1 - np.sign(m))//2].
    The Python result is a numpy integer because of [np.sign]; see [get_fringe_index_py]. *)
Definition get_fringe_index (m n : Z) : Z :=
  (1 + (n + Z.abs m) / 2) ^ 2 - 2 * Z.abs m + (1 - Z.sgn m) / 2.

(** The Python objects returned by the three functions: [np.sign(m)] is a numpy
    scalar and int + numpy scalar is a numpy scalar. *)
Definition get_osa_index_py (m n : Z) : pyval := PInt (get_osa_index m n).
Definition get_noll_index_py (m n : Z) : pyval := PInt (get_noll_index m n).
Definition get_fringe_index_py (m n : Z) : pyval := PNpInt (get_fringe_index m n).

(** zernikepol.py 742-756, inner loop [for polynomial in range(0, order+1)]:
    [test m n] is the comparison selected by the keyword. Returns (stop_search, m). *)
Fixpoint search_row (test : Z -> Z -> bool) (n : Z) (k : nat) (m : Z) : bool * Z :=
  match k with
  | O => (false, m)
  | S k' => if test m n then (true, m) else search_row test n k' (m + 2)
  end.

(** zernikepol.py 742-758, outer loop over [order]; [k] iterations remain.
    The result carries the values of m, n when the loops end, found or not. *)
Fixpoint search (test : Z -> Z -> bool) (k : nat) (order : Z) (mn : Z * Z) : Z * Z :=
  match k with
  | O => mn
  | S k' =>
      let '(found, m) := search_row test order (Z.to_nat (order + 1)) (- order) in
      if found then (m, order) else search test k' (order + 1) (m, order)
  end.

(** zernikepol.py 732-740: selection of the keyword; exactly one of the three
    index variables is set, others stay -1. Inside the loops the sign of the
    set value is tested first (745, 748, 751): a negative value matches nothing.
    A value that cannot be ordered with 0 raises TypeError. *)
Definition index2orders_v (v : pyval) (f : Z -> Z -> Z) (highest : nat) : res (Z * Z) :=
  do pos <- py_ge0 v;
  Ok (search (fun m n => if (pos : bool) then py_eqZ v (f m n) else false) highest 0 (-1, -1)).

Definition index2orders (kw : kwargs) : res (Z * Z) :=
  match kw_get "osa_index" kw with
  | Some v => index2orders_v v get_osa_index 56
  | None =>
    match kw_get "noll_index" kw with
    | Some v => index2orders_v v get_noll_index 56
    | None =>
      match kw_get "fringe_index" kw with
      | Some v => index2orders_v v get_fringe_index 250
      | None => Ok (search (fun _ _ => false) 56 0 (-1, -1))
      end
    end
  end.

(** zernikepol.py 762-786 *)
Definition osa2noll (v : pyval) : res pyval :=
  match as_int v with
  | Some z => if 0 <=? z then
                do mn <- index2orders [("osa_index"%string, v)];
                Ok (get_noll_index_py (fst mn) (snd mn))
              else Raise ValueError
  | None => Raise ValueError
  end.

(** zernikepol.py 789-813 *)
Definition noll2osa (v : pyval) : res pyval :=
  match as_int v with
  | Some z => if 1 <=? z then
                do mn <- index2orders [("noll_index"%string, v)];
                Ok (get_osa_index_py (fst mn) (snd mn))
              else Raise ValueError
  | None => Raise ValueError
  end.

(** zernikepol.py 816-840 *)
Definition osa2fringe (v : pyval) : res pyval :=
  match as_int v with
  | Some z => if 0 <=? z then
                do mn <- index2orders [("osa_index"%string, v)];
                Ok (get_fringe_index_py (fst mn) (snd mn))
              else Raise ValueError
  | None => Raise ValueError
  end.

(** zernikepol.py 843-867 *)
Definition fringe2osa (v : pyval) : res pyval :=
  match as_int v with
  | Some z => if 1 <=? z then
                do mn <- index2orders [("fringe_index"%string, v)];
                Ok (get_osa_index_py (fst mn) (snd mn))
              else Raise ValueError
  | None => Raise ValueError
  end.
