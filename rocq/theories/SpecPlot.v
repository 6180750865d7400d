(** Specification for C58: what a drawing shows. *)
From Coq Require Import Reals.
From Verif Require Import Py SpecSum M_Sum M_Plot.
Local Open Scope R_scope.

(** the drawing has the value [v] at the point (x, y) of the plane *)
Definition shows (d : drawing) (x y : R) (v : fl) : Prop :=
  match d with
  | Mesh2D theta r C => exists i j, (i < length r)%nat /\ (j < length theta)%nat /\
      x = nth i r 0 * cos (nth j theta 0) /\ y = nth i r 0 * sin (nth j theta 0) /\ v = C i j
  | Surf3D rows cols X Y V => exists i j, (i < rows)%nat /\ (j < cols)%nat /\ x = X i j /\ y = Y i j /\ v = V i j
  end.

(** [pictures d cs ps g]: d shows only points of the unit disk, each with the value of sum_k c_k Z_k there (for all polar
    coordinates of the point), and every point of the unit disk is within the distance g of a shown one *)
Definition pictures (d : drawing) (cs : list R) (ps : list (Z * Z)) (g : R) : Prop :=
  (forall x y v, shows d x y v -> x * x + y * y <= 1 /\
     forall rho phi, 0 <= rho -> rho * cos phi = x -> rho * sin phi = y -> v = Fin (zsum cs ps rho phi)) /\
  (forall x y, x * x + y * y <= 1 -> exists x' y' v, shows d x' y' v /\ (x - x') * (x - x') + (y - y') * (y - y') <= g * g).

(** drawn on 3-D axes (otherwise on polar axes) *)
Definition on_3d_axes (d : drawing) : bool := match d with Surf3D _ _ _ _ _ => true | Mesh2D _ _ _ => false end.

(** d shows the values of sum_k c_k Z_k at the points with a radius of rs and an angle of ts, and nothing else *)
Definition shows_grid (d : drawing) (cs : list R) (ps : list (Z * Z)) (rs ts : list R) : Prop :=
  forall x y v, shows d x y v <-> exists rho phi, In rho rs /\ In phi ts /\ x = rho * cos phi /\ y = rho * sin phi /\ v = Fin (zsum cs ps rho phi).
