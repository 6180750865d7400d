(** Model of ZernPSF.plot_kernel (zernpsf.py 431-459) and ZernPSF.visualize_convolution (481-503). A title is given by the parts
    that the f-string joins; matplotlib shows one figure per title: plt.figure(title) selects the figure with that title or makes a
    new one, plt.imshow draws on it (over what it shows). Not modelled: colour bar, layout, sizes, interactive mode; kernels with NaN
    or infinities are not convolved here (None). *)
From Coq Require Import Reals.
From Verif Require Import Py M_Index M_Init M_Radial M_Coeffs M_Sum M_Fit M_Psf M_PsfClass M_Img M_Alias.
Local Open Scope R_scope.

(** 446-456: "Airy pattern with {c} expansion coeff. {id}", "{orders} {name}: {c} expansion coeff. {id}",
    "Composed kernel for #{count} polynomials: {orders} {id}"; 498, 501 *)
Inductive title :=
  | TAiry (c : R) (id : string)
  | TPol (p : Z * Z) (name : string) (c : R) (id : string)
  | TComposed (count : nat) (orders : list (Z * Z)) (id : string)
  | TDisk | TConvolved.
Definition title_eq_dec : forall a b : title, {a = b} + {a <> b}.
Proof.
  intros a b. decide equality; try apply string_dec; try apply Req_EM_T; try apply Nat.eq_dec.
  - decide equality; apply Z.eq_dec.
  - apply list_eq_dec. decide equality; apply Z.eq_dec.
Defined.
(** the open figures: title, and the pictures drawn on it, the topmost first *)
Definition figures := list (title * list kernel).
Fixpoint draw (t : title) (K : kernel) (fs : figures) : figures :=
  match fs with
  | [] => [(t, [K])]
  | (t', ks) :: tl => if title_eq_dec t t' then (t', K :: ks) :: tl else (t', ks) :: draw t K tl
  end.

(** 252-281 (zernikepol.py), get_polynomial_name(True) *)
Definition short_name (p : Z * Z) : string := match name_lookup short_polynomial_names (fst p) (snd p) with Some s => s | None => "" end.
(** 445-456 *)
Definition kernel_title (id : string) (o : zernpsf) : title :=
  match zpol o with
  | Some p => if airy o then TAiry (np_round 2 (expansion_coeff o)) id else TPol p (short_name p) (np_round 2 (expansion_coeff o)) id
  | None => TComposed (length (polynomials o)) (polynomials o) id
  end.
(** 459 *)
Definition plot_kernel (id : string) (o : zernpsf) (fs : figures) : figures := draw (kernel_title id o) (kern o) fs.

(** 496-503; the figures and the way the call ends. [eps], [cast]: see M_Img *)
Definition visualize_convolution (rnd : R -> R) (eps : R) (cast : fl -> Z) (radius : R) (max_intensity : Z) (o : zernpsf) (fs : figures) :
  option (figures * res unit) :=
  match get_bumped_circle radius max_intensity with
  | Raise e => Some (fs, Raise e)
  | Ok disk =>
      let disk := map (map IZR) disk in
      let fs := draw TDisk (map (map Fin) disk) fs in
      match finite_kernel (kern o) with
      | None => None
      | Some K => Some (draw TConvolved (convolute_img_psf rnd eps cast (DUint (bump_bits max_intensity)) disk K true) fs, Ok tt)
      end
  end.
