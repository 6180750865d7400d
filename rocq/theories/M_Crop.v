(** Model of crop_phases_img (calculations/fit_zernike_pols.py 21-151).
    [rnd] is applied after every rounded floating-point operation on radii ([fun x => x]: exact
    arithmetic; Flocq's binary64 rounding: the machine). Angles are exact ([pixel_theta]).
    Warnings are not modelled. *)
From Coq Require Import Reals.
From Flocq Require Import Core.
From Verif Require Import Py M_Geo.
Local Open Scope R_scope.

(** crop_radius argument: a number, NaN, or an object for which float() raises *)
Inductive radius_arg := RadNum (x : R) | RadNaN | RadBad (e : exc).
(** phases_image argument: not an ndarray, an ndarray that is not 2-D, or a 2-D array with its shape *)
Inductive img_arg (A : Type) := NotArray | WrongDim | Img (rows cols : Z) (f : Z -> Z -> A).
Arguments NotArray {A}. Arguments WrongDim {A}. Arguments Img {A} rows cols f.

(** np.round(x, 4): multiply by 10^4, round half to even, divide *)
Definition round4 (rnd : R -> R) (x : R) : R := rnd (IZR (ZnearestE (rnd (x * 10000))) / 10000).

Definition Rltb' (x y : R) : bool := if Rlt_dec x y then true else false.

(** 90-97: coordinate of the centre *)
Definition center (size : Z) : R :=
  if (size mod 2 =? 0)%Z then IZR (size / 2) - 1 / 2 else IZR ((size - 1) / 2).
(** 98-107: the radius in pixels *)
Definition half_size (size : Z) : R :=
  if (size mod 2 =? 0)%Z then IZR (size / 2) - 1 / 2 else IZR ((size - 1) / 2).
Definition crop_r (rows cols : Z) : R :=
  let lo := if (rows =? cols)%Z then rows else Z.min rows cols in
  let hi := if (rows =? cols)%Z then rows else Z.max rows cols in
  if (hi - lo <? 2)%Z then half_size hi else half_size lo.
(** 109-111 *)
Definition radius_epsilon (rows cols : Z) (strict : bool) : R :=
  if negb strict && (((rows mod 2 =? 0)%Z && (cols mod 2 =? 0)%Z) || (Z.abs (rows - cols) =? 1)%Z) then 55 / 1000 else 1 / 1000.

(** 123 *)
Definition pixel_radius (rnd : R -> R) (rows cols i j : Z) : R :=
  let di := IZR i - center rows in let dj := IZR j - center cols in
  round4 rnd (rnd (rnd (sqrt (di * di + dj * dj)) / crop_r rows cols)).
(** 124, 129-130 *)
Definition crop_theta (rows cols i j : Z) : R := pixel_theta (center rows - IZR i) (IZR j - center cols).

(** variables of the loop 119-137; the vectors hold the first [vector_index] elements only, so the
    cut of lines 139-141 is the identity *)
Record crop_state (A : Type) := { mask : Z -> Z -> Z; vphases : list A; vradii : list R; vthetas : list R; recal : bool; rcoeff : R }.
Arguments mask {A}. Arguments vphases {A}. Arguments vradii {A}. Arguments vthetas {A}. Arguments recal {A}. Arguments rcoeff {A}.

(** 123-137: body of the loop *)
Definition crop_step {A} (rnd : R -> R) (rows cols : Z) (f : Z -> Z -> A) (strict : bool) (c eps : R) (st : crop_state A) (ij : Z * Z) : crop_state A :=
  let '(i, j) := ij in
  let radius := pixel_radius rnd rows cols i j in
  if Rltb' (rnd (radius - c)) eps then
    let again := negb strict && Rltb' (1 / 1000) (rnd (radius - c)) in
    {| mask := fun a b => if ((a =? i) && (b =? j))%Z then (mask st a b + 1)%Z else mask st a b;
       vphases := vphases st ++ [f i j];
       vradii := vradii st ++ [radius];
       vthetas := vthetas st ++ [crop_theta rows cols i j];
       recal := again || recal st;
       rcoeff := if again && Rltb' (rcoeff st) radius then radius else rcoeff st |}
  else st.

(** the pixels in the order of the two nested loops *)
Definition pixels (rows cols : Z) : list (Z * Z) :=
  flat_map (fun i => map (fun j => (i, j)) (zrange 0 (Z.to_nat cols))) (zrange 0 (Z.to_nat rows)).

Definition max_list (l : list R) : R := match l with [] => 0 | x :: tl => fold_left Rmax tl x end.

(** 143-148: recalibrations of the radii. np.max of an empty vector would raise ValueError; see
    [crop_phases_img]. *)
Definition recalibrate (rnd : R -> R) (recal : bool) (k : R) (l : list R) : list R :=
  let l1 := if recal then map (fun x => round4 rnd (rnd (x / k))) l else l in
  let mx := max_list l1 in
  if Rltb' 1 mx && Rltb' mx (1002 / 1000) then map (fun x => round4 rnd (rnd (x / mx))) l1 else l1.

(** 57-151 *)
Definition crop_phases_img {A} (rnd : R -> R) (img : img_arg A) (crop_radius : radius_arg) (strict : bool)
  : res ((Z -> Z -> Z) * (list A * list R * list R)) :=
  match crop_radius with
  | RadBad e => Raise e
  | RadNaN => Raise ValueError
  | RadNum x =>
      let c := round4 rnd x in
      if negb (if Rle_dec (1 / 2) c then (if Rle_dec c 1 then true else false) else false) then Raise ValueError
      else match img with
      | NotArray => Raise ValueError
      | WrongDim => Raise ValueError
      | Img rows cols f =>
          if (Z.min rows cols <? 3)%Z then Raise ValueError
          else
            let eps := radius_epsilon rows cols strict in
            let st := fold_left (crop_step rnd rows cols f strict c eps) (pixels rows cols)
                        {| mask := fun _ _ => 0%Z; vphases := []; vradii := []; vthetas := []; recal := false; rcoeff := 1 |} in
            match vradii st with
            | [] => Raise ValueError
            | _ => Ok (mask st, (vphases st, recalibrate rnd (recal st) (rcoeff st) (vradii st), vthetas st))
            end
      end
  end.
