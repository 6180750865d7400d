(** The quadrature formula behind the PSF (C30-C37), over the real numbers.
    [Phi p phi] is the phase of the aberration at pupil radius p and pupil angle phi. *)
From Coq Require Import Reals.
From Verif Require Import Py SpecIndex SpecRadial M_Sum SpecSum.
Local Open Scope R_scope.

Definition rsum {A} (l : list A) (f : A -> R) : R := fold_right Rplus 0 (map f l).

(** trapezoidal rule on [0, 1] with step [h] and inner nodes [nodes] *)
Definition trapezoid (h : R) (nodes : list R) (g : R -> R) : R := h * (rsum nodes g + (g 0 + g 1) / 2).
(** the n - 1 equidistant inner nodes *)
Definition inner_nodes (n : Z) : list R := map (fun i => IZR i / IZR n) (zrange 1 (Z.to_nat (n - 1))).

(** even numbers 2 <= i < n - 2 and odd numbers 1 <= i < n - 1 *)
Definition evens (n : Z) : list Z := filter (fun i => Z.even i && (i <? n - 2)%Z)%bool (zrange 2 (Z.to_nat n)).
Definition odds (n : Z) : list Z := filter (fun i => Z.odd i && (i <? n - 1)%Z)%bool (zrange 1 (Z.to_nat n)).
(** the rule on [0, 2 pi]: Simpson's weights 1, 4, 2, ..., 1 on these nodes *)
Definition angular (n : Z) (g : R -> R) : R :=
  let h := 2 * PI / IZR n in
  h / 3 * (g 0 + g (2 * PI) + 2 * rsum (evens n) (fun i => g (IZR i * h)) + 4 * rsum (odds n) (fun i => g (IZR i * h))).

(** |1/pi sum sum w p exp(i (Phi(p, phi) - r p cos(phi - theta)))|^2 *)
Definition psf_on (h : R) (nodes : list R) (n_phi : Z) (Phi : R -> R -> R) (r theta : R) : R :=
  let psi p phi := Phi p phi - r * p * cos (phi - theta) in
  let re := angular n_phi (fun phi => trapezoid h nodes (fun p => p * cos (psi p phi))) in
  let im := angular n_phi (fun phi => trapezoid h nodes (fun p => p * sin (psi p phi))) in
  (re * re + im * im) / (PI * PI).
Definition psf (n_r n_phi : Z) (Phi : R -> R -> R) (r theta : R) : R :=
  psf_on (1 / IZR n_r) (inner_nodes n_r) n_phi Phi r theta.

(** ** kernels: lists of rows *)
Definition square {A} (K : list (list A)) (size : Z) : Prop :=
  Z.of_nat (length K) = size /\ Forall (fun row => Z.of_nat (length row) = size) K.
(** K[i][j] *)
Definition entry {A} (K : list (list A)) (i j : Z) : option A :=
  match nth_error K (Z.to_nat i) with Some row => nth_error row (Z.to_nat j) | None => None end.
(** M is the maximum of v over the size x size pixels *)
Definition is_max (v : Z -> Z -> R) (size : Z) (M : R) : Prop :=
  (forall i j, (0 <= i < size)%Z -> (0 <= j < size)%Z -> v i j <= M) /\
  exists i j, (0 <= i < size)%Z /\ (0 <= j < size)%Z /\ v i j = M.
(** the pixel values of a kernel without normalisation, and with it (0/0 if everything is 0) *)
Definition holds_raw (K : list (list fl)) (size : Z) (v : Z -> Z -> R) : Prop :=
  square K size /\ forall i j, (0 <= i < size)%Z -> (0 <= j < size)%Z -> entry K i j = Some (Fin (v i j)).
Definition holds_normalized (K : list (list fl)) (size : Z) (v : Z -> Z -> R) : Prop :=
  square K size /\ exists M, is_max v size M /\
  forall i j, (0 <= i < size)%Z -> (0 <= j < size)%Z -> entry K i j = Some (if Req_EM_T M 0 then NaN else Fin (v i j / M)).
Definition holds (normalize : bool) (K : list (list fl)) (size : Z) (v : Z -> Z -> R) : Prop :=
  if normalize then holds_normalized K size v else holds_raw K size v.
