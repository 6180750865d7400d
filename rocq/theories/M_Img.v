(** Model of convolute_img_psf (calculations/calc_psfs.py 709-734), ZernPSF.convolute_img (zernpsf.py 462-479) and get_bumped_circle (calc_psfs.py 844-888).
    An image is a list of rows of real numbers (a 2D array, at least 1 x 1). *)
From Coq Require Import Reals.
From Flocq Require Import Core.
From Verif Require Import Py M_Radial M_Coeffs M_Sum M_Psf M_Numba.
Local Open Scope R_scope.

Definition image := list (list R).
Definition pix (I : image) (i j : Z) : R := nth (Z.to_nat j) (nth (Z.to_nat i) I []) 0.
Definition height (I : image) : Z := Z.of_nat (length I).
Definition width (I : image) : Z := Z.of_nat (length (hd [] I)).

(** dtype of the image: float64, or unsigned integers of [bits] bits *)
Inductive dtype := DFloat | DUint (bits : Z).

(** scipy.ndimage.convolve(img, K, mode='reflect'), from the documentation and source of scipy: the index is mirrored at the edges of the image, (d c b a | a b c d | d c b a);
    weights of modulus up to DBL_EPSILON ([eps]) are left out; products are accumulated in the order of the reversed kernel. [rnd] rounds every operation. *)
Definition reflect (n x : Z) : Z := let y := (x mod (2 * n))%Z in if (y <? n)%Z then y else (2 * n - 1 - y)%Z.
Definition coords (kh kw : Z) : list (Z * Z) := flat_map (fun a => map (fun b => (a, b)) (zrange 0 (Z.to_nat kw))) (zrange 0 (Z.to_nat kh)).
Definition used (eps : R) (K : image) (ab : Z * Z) : bool := Rltb eps (Rabs (pix K (fst ab) (snd ab))).
Definition conv_term (I K : image) (i j : Z) (ab : Z * Z) : R :=
  let '(a, b) := ab in pix K a b * pix I (reflect (height I) (i + height K / 2 - a)) (reflect (width I) (j + width K / 2 - b)).
Definition conv_pixel (rnd : R -> R) (eps : R) (I K : image) (i j : Z) : R :=
  fold_left (fun acc ab => rnd (acc + rnd (conv_term I K i j ab))) (rev (filter (used eps K) (coords (height K) (width K)))) 0.
Definition convolve (rnd : R -> R) (eps : R) (I K : image) : image :=
  map (fun i => map (fun j => conv_pixel rnd eps I K i j) (zrange 0 (Z.to_nat (width I)))) (zrange 0 (Z.to_nat (height I))).

(** np.sum (the order of the additions, which numpy does not promise, matters for the rounding only) and np.max *)
Definition np_sum (rnd : R -> R) (I : image) : R := fold_left (fun acc x => rnd (acc + x)) (concat I) 0.
Definition np_max (I : image) : R := match concat I with [] => 0 | x :: tl => fold_left Rmax tl x end.
(** 731: a / b with numpy numbers *)
Definition np_div (rnd : R -> R) (a b : R) : fl :=
  if Req_EM_T b 0 then (if Req_EM_T a 0 then NaN else Inf (Rltb a 0)) else Fin (rnd (a / b)).
Definition np_mul (rnd : R -> R) (x : R) (f : fl) : fl :=
  match f with
  | Fin y => Fin (rnd (x * y))
  | NaN => NaN
  | Inf neg => if Req_EM_T x 0 then NaN else Inf (xorb neg (Rltb x 0))
  end.
(** 732: astype; conversion to unsigned integers truncates; [cast] stands for the conversion of NaN, infinities and of numbers out of range, which C leaves open *)
Definition astype (cast : fl -> Z) (t : dtype) (x : fl) : fl :=
  match t with
  | DFloat => x
  | DUint bits =>
      match x with
      | Fin v => let z := Ztrunc v in Fin (IZR (if (0 <=? z)%Z && (z <? 2 ^ bits)%Z then z else cast x))
      | _ => Fin (IZR (cast x))
      end
  end.
(** 726-733 *)
Definition convolute_img_psf (rnd : R -> R) (eps : R) (cast : fl -> Z) (t : dtype) (I K : image) (scale2original : bool) : list (list fl) :=
  let c := convolve rnd eps I K in
  let coeff := np_sum rnd K in
  let c := if Rltb 0 coeff then map (map (fun x => rnd (x / coeff))) c else c in
  let s := if scale2original then let f := np_div rnd (np_max I) (np_max c) in map (map (fun x => np_mul rnd x f)) c
           else map (map Fin) c in
  map (map (astype cast t)) s.

(** ** get_bumped_circle, 860-888, in exact arithmetic *)
(** round(x, 6) *)
Definition round6 (x : R) : R := IZR (ZnearestE (x * 1000000)) / 1000000.
(** 873-881: the value before scaling; [radius] >= 1 *)
Definition bump_value (radius distance : R) : R :=
  if Rltb distance (round6 (25 / 100 * radius)) then 1
  else if Rltb distance (radius * (1 + 25 / 100)) then
    let x_pow := (distance / (radius + 25 / 100)) ^ 8 in let b_pow := (1 + 25 / 100) ^ 8 in
    exp 1 * exp (b_pow / (x_pow - b_pow))
  else 0.
(** 870-886: one pixel; int() of the rounded number *)
Definition bump_pixel (radius : R) (max_intensity : Z) (max_size i j : Z) : Z :=
  let c := (max_size / 2)%Z in
  let distance := round6 (sqrt (IZR (i - c) * IZR (i - c) + IZR (j - c) * IZR (j - c))) in
  let v := bump_value radius distance * IZR max_intensity in
  if Rltb 0 v then ZnearestE v else 0%Z.
(** 862-888: dtype uint8 up to 255, uint16 above; storing a number that is too large for the dtype raises OverflowError (NumPy 2; before, it wrapped around) *)
Definition bump_size (radius : R) : Z := (4 * ZnearestE radius + 1)%Z.
Definition bump_bits (max_intensity : Z) : Z := if (max_intensity <=? 255)%Z then 8 else 16.
Definition get_bumped_circle (radius : R) (max_intensity : Z) : res (list (list Z)) :=
  let radius := if Rltb radius 1 then 1 else radius in
  let n := bump_size radius in
  mapR (fun i => mapR (fun j => let v := bump_pixel radius max_intensity n i j in
                                if (v <? 2 ^ bump_bits max_intensity)%Z then Ok v else Raise OverflowError) (zrange 0 (Z.to_nat n))) (zrange 0 (Z.to_nat n)).
