(** Model of gen_zernikes_surface, plot_profile and plot_sum_zernikes_on_fig (zernikepol.py 1055-1225) and of the functions
    of plotting/plot_zerns.py: which values are handed to matplotlib for which points. Not modelled: colours, colour bars,
    fonts, layout, windows. Coordinate vectors are 1-D arrays of finite numbers. *)
From Coq Require Import Reals.
From Verif Require Import Py M_Radial M_Coeffs M_Init M_Sum M_Polar.
Local Open Scope R_scope.

(** zernikepol.py 40 (namedtuple ZernikesSurface) *)
Record zsurface := ZSurf { zs_S : sumval; zs_R : list R; zs_T : list R }.

Section Plot.
Variable rnd : R -> R.
Variable fuel : nat.

(** zernikepol.py 1145-1152 *)
Definition gen_zernikes_surface (cs : list R) (ps : list (option (Z * Z))) (r_step theta_rad_step : R)
    (equal_n_coordinates : bool) (n_points : Z) : M zsurface :=
  run pv <- (if negb equal_n_coordinates then mlift (gen_polar_coordinates rnd r_step theta_rad_step)
             else mret (gen_equal_polar_mesh rnd n_points));
  run zernikes_sum <- sum_zernikes fuel cs ps (RArr (map Fin (fst pv))) (RArr (map Fin (snd pv))) true;
  mret (ZSurf zernikes_sum (fst pv) (snd pv)).

(** What matplotlib is given: on polar axes, the value C[i][j] for the cell around the angle theta[j] and the radius r[i]
    (shading='nearest'); on 3-D axes the vertices (X[i][j], Y[i][j], Z[i][j])
    (matplotlib's plot_surface renders at most 50 rows and columns of them). *)
Inductive drawing :=
| Mesh2D (theta r : list R) (C : nat -> nat -> fl)
| Surf3D (rows cols : nat) (X Y : nat -> nat -> R) (V : nat -> nat -> fl).

(** axes.pcolormesh(theta, r, S, shading='nearest'): TypeError unless S has len(r) rows and len(theta) columns *)
Definition pcolormesh (theta r : list R) (v : sumval) : res drawing :=
  match v with
  | SMat rows cols f => if Nat.eqb rows (length r) && Nat.eqb cols (length theta) then Ok (Mesh2D theta r f) else Raise TypeError
  | SVal _ => Raise ValueError
  end.
(** axes.plot_surface(X, Y, S); ValueError unless the shapes agree (the broadcasting of arrays with one row or column is
    not modelled) *)
Definition plot_surface (rows cols : nat) (X Y : nat -> nat -> R) (v : sumval) : res drawing :=
  match v with
  | SMat rows' cols' f => if Nat.eqb rows' rows && Nat.eqb cols' cols then Ok (Surf3D rows cols X Y f) else Raise ValueError
  | SVal _ => Raise ValueError
  end.
(** plot_zerns.py 43-51 and 114-121 *)
Definition draw_2d (v : sumval) (r theta : list R) : res drawing := pcolormesh theta r v.
(** plot_zerns.py 76-79 and 155-158: Thetas, Rs = np.meshgrid(theta, r), the elements [i][j] are theta[j] and r[i] *)
Definition draw_3d (v : sumval) (r theta : list R) : res drawing :=
  let Thetas := fun i j : nat => nth j theta 0 in
  let Rs := fun i j : nat => nth i r 0 in
  plot_surface (length r) (length theta) (fun i j => Rs i j * cos (Thetas i j)) (fun i j => Rs i j * sin (Thetas i j)) v.

(** projection == "3d" or projection == "3D" *)
Definition is_3d (projection : string) : bool := String.eqb projection "3d" || String.eqb projection "3D".

(** default arguments of zernikepol.py 991: round(np.pi/240, 7) is 0.01309 *)
Definition default_r_step : R := rnd (1 / 100).
Definition default_theta_step : R := rnd (1309 / 100000).
(** zernikepol.py 1094-1097 and 1206-1209 *)
Definition default_mesh (projection : string) : res (list R * list R) :=
  if is_3d projection then Ok (gen_equal_polar_mesh rnd 250) else gen_polar_coordinates rnd default_r_step default_theta_step.

(** a coordinates argument: the named tuple (R, Theta), or a plain tuple of some length *)
Inductive coords := CNamed (r theta : list R) | CTuple (len : nat).
Definition coords_len (c : coords) : nat := match c with CNamed _ _ => 2 | CTuple k => k end.

(** zernikepol.py 1089-1112: the drawing and its title; None: nothing is drawn (the argument is no ZernPol).
    plot_zerns.py 47: an empty title is not drawn. *)
Definition plot_profile (polynomial : option zernpol) (show_title use_defaults : bool) (projection : string) (polar_coordinates : coords)
    : M (option (drawing * option string)) :=
  match polynomial with
  | None => mret None
  | Some p =>
      if negb use_defaults && negb (Nat.eqb (coords_len polar_coordinates) 2) then mlift (Raise ValueError) else
      run rt <- mlift (if use_defaults then default_mesh projection
                       else match polar_coordinates with CNamed r theta => Ok (r, theta) | CTuple _ => Raise AttributeError end);
      run surf <- sum_zernikes fuel [1] [Some (zp_m p, zp_n p)] (RArr (map Fin (fst rt))) (RArr (map Fin (snd rt))) true;
      if is_3d projection then
        run d <- mlift (draw_3d surf (fst rt) (snd rt)); mret (Some (d, None))
      else
        let title := if show_title then get_polynomial_name p false else EmptyString in
        run d <- mlift (draw_2d surf (fst rt) (snd rt));
        mret (Some (d, if Nat.ltb 0 (String.length title) then Some title else None))
  end.

(** a surface argument: the named tuple ZernikesSurface or a plain tuple of some length *)
Inductive surf_arg := SNamed (z : zsurface) | STuple (len : nat).
Definition surf_len (a : surf_arg) : nat := match a with SNamed _ => 3 | STuple k => k end.

(** plot_zerns.py 114-126, 154-163: the figure is cleared first; [figure] is the list of its drawings *)
Definition subplot (projection : string) (v : sumval) (r theta : list R) (figure : list drawing) : list drawing * res unit :=
  match (if is_3d projection then draw_3d v r theta else draw_2d v r theta) with
  | Ok d => ([d], Ok tt)
  | Raise e => ([], Raise e)
  end.

(** zernikepol.py 1201-1225; result: module state, contents of the figure, exception or normal end *)
Definition plot_sum_zernikes_on_fig (figure : list drawing) (cs : list R) (ps : list (option (Z * Z))) (use_defaults : bool)
    (surface : surf_arg) (projection : string) (s : cstate) : cstate * (list drawing * res unit) :=
  if use_defaults && Nat.eqb (length cs) 0 && Nat.eqb (length ps) 0 then (s, (figure, Raise ValueError))
  else if negb use_defaults && negb (Nat.eqb (surf_len surface) 3) then (s, (figure, Raise ValueError))
  else if use_defaults then
    match default_mesh projection with
    | Raise e => (s, (figure, Raise e))
    | Ok (rs, ts) =>
        match sum_zernikes fuel cs ps (RArr (map Fin rs)) (RArr (map Fin ts)) true s with
        | (s', Raise e) => (s', (figure, Raise e))
        | (s', Ok v) => (s', subplot projection v rs ts figure)
        end
    end
  else
    match surface with
    | STuple _ => (s, (figure, Raise AttributeError))
    | SNamed z => (s, subplot projection (zs_S z) (zs_R z) (zs_T z) figure)
    end.
End Plot.
