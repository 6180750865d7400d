(** Model of the construction, comparison, naming and enumeration of ZernPol
    objects (zernikepol.py, props/properties.py). *)
From Verif Require Import Py M_Index.
From Coq Require Import Ascii.
Local Open Scope string_scope.
Local Open Scope Z_scope.

(** Instance attributes set by [ZernPol.__init__] (zernikepol.py 47-50).
    The message attributes (220-227) carry no information and are left out. *)
Record zernpol := ZP { zp_m : Z; zp_n : Z; zp_osa : Z; zp_noll : Z; zp_fringe : Z }.

(** the first key of the list that is present: the [if/elif] chains 94-98, 101-111,
    141-148, 169-172, 193-196 *)
Fixpoint first_key (keys : list string) (kw : kwargs) : option pyval :=
  match keys with
  | [] => None
  | k :: tl => match kw_get k kw with Some v => Some v | None => first_key tl kw end
  end.

Definition n_keys := ["n"; "radial_order"].
Definition m_keys := ["m"; "l"; "azimuthal_order"; "angular_frequency"].
Definition osa_keys := ["osa_index"; "osa"; "ansi_index"; "ansi"].
Definition noll_keys := ["noll_index"; "noll"].
Definition fringe_keys := ["fringe_index"; "fringe"].

(** zernikepol.py 114-132: checks and index calculation for given (m, n) *)
Definition init_orders (m n : Z) : res zernpol :=
  if negb ((n - Z.abs m) mod 2 =? 0) then Raise ValueError
  else if n <? 0 then Raise ValueError
  else if (n =? 0) && negb (m =? 0) then Raise ValueError
  else if n <? 0 then Raise ValueError
  else if 54 <? n then Raise ValueError
  else Ok (ZP m n (get_osa_index m n) (get_noll_index m n) (get_fringe_index m n)).

(** zernikepol.py 53-227. [not_initialized] is the final check at 216-217; the
    misplaced [ValueError(...)] expressions at 159 and 182 are not raised, so the
    control reaches it. *)
Definition not_initialized {A} : res A := Raise ValueError.

Definition zernpol_init (kw : kwargs) : res zernpol :=
  match length kw with
  | 2%nat =>
    match first_key n_keys kw with
    | Some vn =>
      match as_int vn with
      | Some n =>
        match first_key m_keys kw with
        | Some vm =>
          match as_int vm with
          | Some m => init_orders m n
          | None => Raise ValueError
          end
        | None => not_initialized
        end
      | None => Raise ValueError
      end
    | None => not_initialized
    end
  | 1%nat =>
    match first_key osa_keys kw with
    | Some v =>
      match as_int v with
      | Some i =>
        if i <? 0 then Raise ValueError
        else if 1539 <? i then not_initialized
        else
          do mn <- index2orders [("osa_index", v)];
          let '(m, n) := mn in
          Ok (ZP m n i (get_noll_index m n) (get_fringe_index m n))
      | None => Raise ValueError
      end
    | None =>
      match first_key noll_keys kw with
      | Some v =>
        match as_int v with
        | Some i =>
          if i <? 1 then Raise ValueError
          else if 1540 <? i then not_initialized
          else
            do mn <- index2orders [("noll_index", v)];
            let '(m, n) := mn in
            Ok (ZP m n (get_osa_index m n) i (get_fringe_index m n))
        | None => Raise ValueError
        end
      | None =>
        match first_key fringe_keys kw with
        | Some v =>
          match as_int v with
          | Some i =>
            if i <? 1 then Raise ValueError
            else
              do mn <- index2orders [("fringe_index", v)];
              let '(m, n) := mn in
              if 54 <? n then Raise ValueError
              else Ok (ZP m n (get_osa_index m n) (get_noll_index m n) i)
          | None => Raise ValueError
          end
        | None => not_initialized
        end
      end
    end
  | _ => Raise ValueError
  end.

(** zernikepol.py 229-239, 241-251: getters *)
Definition get_indices (p : zernpol) := ((zp_m p, zp_n p), zp_osa p, zp_noll p, zp_fringe p).
Definition get_mn_orders (p : zernpol) := (zp_m p, zp_n p).

(** zernikepol.py 300-322: [a > b]; an argument that is not a ZernPol ([None]) raises. *)
Definition zp_gt (a : zernpol) (b : option zernpol) : res bool :=
  match b with Some b => Ok (zp_osa b <? zp_osa a) | None => Raise ValueError end.

(** zernikepol.py 324-349: [a == b] *)
Definition zp_eq (a : zernpol) (b : option zernpol) : res bool :=
  match b with
  | Some b => Ok ((zp_osa a =? zp_osa b) && (zp_m a =? zp_m b) && (zp_n a =? zp_n b)
                  && (zp_noll a =? zp_noll b) && (zp_fringe a =? zp_fringe b))
  | None => Raise ValueError
  end.

(** [a < b] for two ZernPol: no [__lt__] is defined, Python evaluates the reflected
    [b.__gt__(a)]. [a != b] is the negation of [a == b]; [a <= b], [a >= b] and
    [hash(a)] raise TypeError ([__eq__] without [__hash__]). *)
Definition zp_lt (a b : zernpol) : res bool := zp_gt b (Some a).
Definition zp_ne (a b : zernpol) : res bool := do e <- zp_eq a (Some b); Ok (negb e).
Definition zp_le (a b : zernpol) : res bool := Raise TypeError.
Definition zp_ge (a b : zernpol) : res bool := Raise TypeError.
Definition zp_hash (a : zernpol) : res Z := Raise TypeError.

(** zernikepol.py 1365-1372, inner loop of [generate_polynomials] *)
Fixpoint gen_row (k : nat) (m n : Z) : res (list zernpol) :=
  match k with
  | O => Ok []
  | S k' =>
      do p <- zernpol_init [("azimuthal_order", PInt m); ("radial_order", PInt n)];
      do tl <- gen_row k' (m + 2) n;
      Ok (p :: tl)
  end.

Fixpoint gen_rows (k : nat) (order : Z) : res (list zernpol) :=
  match k with
  | O => Ok []
  | S k' =>
      do row <- gen_row (Z.to_nat (order + 1)) (- order) order;
      do tl <- gen_rows k' (order + 1);
      Ok (row ++ tl)%list
  end.

(** zernikepol.py 1336-1373 for an integer argument (the conversion of other types
    by [int()] and the warnings are not modelled). *)
Definition generate_polynomials (max_order : Z) : res (list zernpol) :=
  if max_order <? 0 then Raise ValueError
  else
    do p0 <- zernpol_init [("m", PInt 0); ("n", PInt 0)];
    do tl <- gen_rows (Z.to_nat max_order) 1;
    Ok (p0 :: tl).

(** props/properties.py 17-37 *)
Definition polynomial_names : list ((Z * Z) * string) :=
  [ ((0, 0), "Piston");
    ((-1, 1), "Vertical tilt"); ((1, 1), "Horizontal tilt"); ((-2, 2), "Oblique astigmatism");
    ((0, 2), "Defocus"); ((2, 2), "Vertical astigmatism"); ((-3, 3), "Vertical trefoil");
    ((-1, 3), "Vertical coma"); ((1, 3), "Horizontal coma"); ((3, 3), "Oblique trefoil");
    ((-4, 4), "Oblique quadrafoil"); ((-2, 4), "Oblique secondary astigmatism");
    ((0, 4), "Primary spherical"); ((2, 4), "Vertical secondary astigmatism");
    ((4, 4), "Vertical quadrafoil"); ((-5, 5), "Vertical pentafoil");
    ((-3, 5), "Vertical secondary trefoil"); ((-1, 5), "Vertical secondary coma");
    ((1, 5), "Horizontal secondary coma"); ((3, 5), "Oblique secondary trefoil");
    ((5, 5), "Oblique pentafoil"); ((-6, 6), "Oblique sexfoil");
    ((-4, 6), "Oblique secondary quadrafoil"); ((-2, 6), "Oblique thirdly astigmatism");
    ((0, 6), "Secondary spherical"); ((2, 6), "Vertical thirdly astigmatism");
    ((4, 6), "Vertical secondary quadrafoil"); ((6, 6), "Vertical sexfoil");
    ((-7, 7), "Vertical septfoil"); ((-5, 7), "Vertical secondary pentafoil");
    ((-3, 7), "Vertical thirdly trefoil"); ((-1, 7), "Vertical thirdly coma");
    ((1, 7), "Horizontal thirdly coma"); ((3, 7), "Oblique thirdly trefoil");
    ((5, 7), "Oblique secondary pentafoil"); ((7, 7), "Oblique septfoil") ].

(** props/properties.py 39-54 *)
Definition short_polynomial_names : list ((Z * Z) * string) :=
  [ ((0, 0), "Piston");
    ((-1, 1), "Vert. tilt"); ((1, 1), "Hor. tilt"); ((-2, 2), "Obliq. astigm.");
    ((0, 2), "Defocus"); ((2, 2), "Vert. astigm."); ((-3, 3), "Vert. 3foil");
    ((-1, 3), "Vert. coma"); ((1, 3), "Hor. coma"); ((3, 3), "Obliq. 3foil");
    ((-4, 4), "Obliq. 4foil"); ((-2, 4), "Obliq. 2d ast.");
    ((0, 4), "Spherical"); ((2, 4), "Vert. 2d ast."); ((4, 4), "Vert. 4foil");
    ((-5, 5), "Vert. 5foil"); ((-3, 5), "Vert. 2d 3foil"); ((-1, 5), "Vert. 2d coma");
    ((1, 5), "Hor. 2d coma"); ((3, 5), "Obliq. 2d 3foil");
    ((5, 5), "Obliq. 5foil"); ((-6, 6), "Obliq. 6foil"); ((-4, 6), "Obliq.2d 4foil");
    ((-2, 6), "Obliq. 3d ast."); ((0, 6), "2d spherical"); ((2, 6), "Vert. 3d ast.");
    ((4, 6), "Vert. 2d 4foil"); ((6, 6), "Vert. 6foil"); ((-7, 7), "Vert. 7foil");
    ((-5, 7), "Vert. 2d 5foil"); ((-3, 7), "Vert. 3d 3foil"); ((-1, 7), "Vert. 3d coma");
    ((1, 7), "Hor. 3d coma"); ((3, 7), "Obliq.3d 3foil");
    ((5, 7), "Obliq.2d 5foil"); ((7, 7), "Obliq. 7foil") ].

Fixpoint name_lookup (tbl : list ((Z * Z) * string)) (m n : Z) : option string :=
  match tbl with
  | [] => None
  | ((a, b), s) :: tl => if (a =? m) && (b =? n) then Some s else name_lookup tl m n
  end.

(** zernikepol.py 253-281 *)
Definition get_polynomial_name (p : zernpol) (short : bool) : string :=
  match name_lookup (if short then short_polynomial_names else polynomial_names) (zp_m p) (zp_n p) with
  | Some s => s
  | None => ""
  end.

(** zernikepol.py 283-298: [str(p)]; [show] renders an integer (Python's f-string). *)
Definition zp_str (show : Z -> string) (p : zernpol) : string :=
  let name := get_polynomial_name p false in
  if (0 <? String.length name)%nat then
    name ++ ": n=" ++ show (zp_n p) ++ ", m=" ++ show (zp_m p) ++ ", OSA=" ++ show (zp_osa p)
         ++ ", Noll=" ++ show (zp_noll p) ++ ", Fringe=" ++ show (zp_fringe p)
  else "Zernike polynomial".
