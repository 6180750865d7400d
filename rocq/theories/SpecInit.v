(** Specification of what a set of constructor keywords denotes. *)
From Verif Require Import Py SpecIndex M_Index M_Init.
Local Open Scope string_scope.
Local Open Scope Z_scope.

(** The documented keyword names (docstring of ZernPol.__init__, zernikepol.py 60-66). *)
Definition radial_names := ["n"; "radial_order"].
Definition azimuthal_names := ["m"; "l"; "azimuthal_order"; "angular_frequency"].
Definition osa_names := ["osa_index"; "osa"; "ansi_index"; "ansi"].
Definition noll_names := ["noll_index"; "noll"].
Definition fringe_names := ["fringe_index"; "fringe"].

(** [denotes kw m n]: the keywords, with integer values, name the orders (m, n):
    either both orders directly (in any order of keywords), or the single index
    of the valid polynomial (m, n). *)
Inductive denotes : kwargs -> Z -> Z -> Prop :=
  | den_nm kn km vn vm m n : In kn radial_names -> In km azimuthal_names ->
      as_int vn = Some n -> as_int vm = Some m -> denotes [(kn, vn); (km, vm)] m n
  | den_mn kn km vn vm m n : In kn radial_names -> In km azimuthal_names ->
      as_int vn = Some n -> as_int vm = Some m -> denotes [(km, vm); (kn, vn)] m n
  | den_osa k v m n : In k osa_names -> valid m n ->
      as_int v = Some (get_osa_index m n) -> denotes [(k, v)] m n
  | den_noll k v m n : In k noll_names -> valid m n ->
      as_int v = Some (get_noll_index m n) -> denotes [(k, v)] m n
  | den_fringe k v m n : In k fringe_names -> valid m n ->
      as_int v = Some (get_fringe_index m n) -> denotes [(k, v)] m n.

(** what the property asks for: valid orders, radial order at most 54 *)
Definition supported (m n : Z) : Prop := valid m n /\ n <= 54.

(** what the code checks instead: |m| <= n is only enforced for n = 0 *)
Definition code_accepts (m n : Z) : Prop :=
  0 <= n <= 54 /\ (exists k, n - Z.abs m = 2 * k) /\ (n = 0 -> m = 0).

(** the object with orders (m, n) and its three indices *)
Definition obj (m n : Z) : zernpol :=
  ZP m n (get_osa_index m n) (get_noll_index m n) (get_fringe_index m n).

(** objects that the constructor can produce with valid orders *)
Definition good (p : zernpol) : Prop :=
  (exists kw, zernpol_init kw = Ok p) /\ valid (zp_m p) (zp_n p).

(** [int(x)] applied to the numpy integer *)
Definition py_int (v : pyval) : pyval := match v with PNpInt z => PInt z | _ => v end.
