(** Property theorem C27, for every rounding of the floating-point operations that is [sane]
    (exact arithmetic and binary64 are). *)
From Coq Require Import Reals Lra.
From Verif Require Import Py M_Geo SpecGeo M_Crop SpecCrop L_Polar L_Crop.
Local Open Scope R_scope.

Theorem C27_crop : forall (A : Type) rnd rows cols (f : Z -> Z -> A) x (strict : bool), sane rnd ->
  (3 <= Z.min rows cols)%Z -> 1 / 2 <= round4 rnd x <= 1 ->
  exists selected mask phases radii thetas, let S := filter selected (row_major rows cols) in let c := round4 rnd x in
    crop_phases_img rnd (Img rows cols f) (RadNum x) strict = Ok (mask, (phases, radii, thetas)) /\
    S <> [] /\ phases = map (fun p => f (fst p) (snd p)) S /\ length radii = length S /\ length thetas = length S /\
    (forall r, In r radii -> 0 <= r <= 1) /\
    (forall k, (k < length S)%nat -> exists rho, polar (off_x cols (nth k S (0, 0)%Z)) (off_y rows (nth k S (0, 0)%Z)) rho (nth k thetas 0)) /\
    (forall i j, (In (i, j) S -> mask i j = 1%Z) /\ (~ In (i, j) S -> mask i j = 0%Z)) /\
    (forall p, rel_dist rows cols p <= c + border_margin rows cols strict - / 10000 -> selected p = true) /\
    (forall p, selected p = true -> rel_dist rows cols p < c + border_margin rows cols strict + / 10000) /\
    (exists q, 1 <= q <= 1 + border_margin rows cols strict + / 10000 /\ forall k, (k < length S)%nat ->
        Rabs (nth k radii 0 - rel_dist rows cols (nth k S (0, 0)%Z) / q) <= 2 / 10000).
Proof. exact @crop_ok. Qed.
Print Assumptions C27_crop.

Theorem C27_rejects : forall (A : Type) rnd (img : img_arg A) cr strict,
  (cr = RadNaN \/ (exists x, cr = RadNum x /\ (round4 rnd x < 1 / 2 \/ 1 < round4 rnd x)) \/
   ((exists x, cr = RadNum x) /\ (img = NotArray \/ img = WrongDim \/ exists rows cols f, img = Img rows cols f /\ (Z.min rows cols < 3)%Z))) ->
  crop_phases_img rnd img cr strict = Raise ValueError.
Proof. exact @crop_reject. Qed.
Print Assumptions C27_rejects.
(** both arithmetics are admitted, and the accepted radii include 1.0 and 0.5 *)
Example C27_nonvacuous : sane idr /\ sane b64 /\ 1 / 2 <= round4 b64 1 <= 1 /\ 1 / 2 <= round4 b64 (1 / 2) <= 1.
Proof.
  split; [exact sane_idr|]. split; [exact sane_b64|]. rewrite (round4_1 b64 sane_b64), (round4_half b64 sane_b64). lra.
Qed.
