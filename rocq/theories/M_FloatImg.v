(** Model of convolute_img_psf (calculations/calc_psfs.py 709-734) in binary64: the function of M_Img.v, except that np.sum is any function that adds the numbers
    in some order and bracketing ([npsum], given the numbers of the kernel row by row). [rnd] rounds every operation; overflow is left out (the theorems exclude it). *)
From Coq Require Import Reals.
From Verif Require Import Py M_Radial M_Coeffs M_Sum M_Psf M_Numba M_Img.
Local Open Scope R_scope.

(** 726-733 *)
Definition fconvolute_img_psf (rnd : R -> R) (npsum : list R -> R) (eps : R) (cast : fl -> Z) (t : dtype) (I K : image) (scale2original : bool) : list (list fl) :=
  let c := convolve rnd eps I K in
  let coeff := npsum (concat K) in
  let c := if Rltb 0 coeff then map (map (fun x => rnd (x / coeff))) c else c in
  let s := if scale2original then let f := np_div rnd (np_max I) (np_max c) in map (map (fun x => np_mul rnd x f)) c
           else map (map Fin) c in
  map (map (astype cast t)) s.
