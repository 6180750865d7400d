(** Model of the containers that class ZernPSF shares with its caller: numpy arrays and lists are references, methods read and write them where
    the Python code does (zernpsf.py 71-86, 87-148, 202-263, 322-429, 479, 505-549, 570-656, 711-750). The values calculated are those of M_PsfClass.
    Attributes that are numbers, and amplitudes (a fresh array that is neither passed in nor returned), are kept by value. Lists of the caller
    contain ZernPol instances only (these have no method that changes them). *)
From Coq Require Import Reals.
From Verif Require Import Py M_Index M_Init M_Radial M_Coeffs M_Sum M_Geo M_Fit M_Psf M_Numba M_PsfClass M_Img.
Local Open Scope R_scope.

(** a 2D array is a view on a buffer: buffer number and the slices [a:b, c:d] taken one after the other *)
Record view := View { v_buf : nat; v_slices : list (Z * Z * Z * Z) }.
Definition take (K : kernel) (s : Z * Z * Z * Z) : kernel := let '(a, b, c, d) := s in subkernel K a b c d.
Definition read_view (bufs : list kernel) (v : view) : kernel := fold_left take (v_slices v) (nth (v_buf v) bufs []).

(** attribute coefficients: None, an array of the caller (np.asarray of an ndarray is the same array), or an array of its own (219) *)
Inductive cref := CNone | CShared (a : nat) | COwn (l : list R).
(** attribute polynomials: the caller's list itself (140), or a tuple (which nobody can change) or a list of its own (646-647) *)
Inductive pref := PShared (p : nat) | POwn (l : list (Z * Z)).

(** an object: [base] holds the attributes other than kernel, coefficients and polynomials (the values of these in [base] are not used) *)
Record hobj := HObj { base : zernpsf; o_kernel : view; o_coeffs : cref; o_pols : pref }.
Record hstate := HState { bufs : list kernel; arrays : list (list R); lists : list (list (Z * Z)); objs : list hobj; caches : cstate }.

Definition coeffs_of (ar : list (list R)) (c : cref) : option (list R) :=
  match c with CNone => None | CShared a => Some (nth a ar []) | COwn l => Some l end.
Definition pols_of (li : list (list (Z * Z))) (p : pref) : list (Z * Z) := match p with PShared n => nth n li [] | POwn l => l end.
(** the attributes as the methods read them *)
Definition deref (st : hstate) (o : hobj) : zernpsf :=
  with_kern (read_view (bufs st) (o_kernel o)) (with_coefficients (coeffs_of (arrays st) (o_coeffs o)) (with_polynomials (pols_of (lists st) (o_pols o)) (base o))).

Fixpoint upd {A} (n : nat) (x : A) (l : list A) : list A :=
  match l, n with [], _ => [] | _ :: tl, O => x :: tl | y :: tl, S n' => y :: upd n' x tl end.
Definition with_bufs b st := HState b (arrays st) (lists st) (objs st) (caches st).
Definition with_arrays a st := HState (bufs st) a (lists st) (objs st) (caches st).
Definition with_lists l st := HState (bufs st) (arrays st) l (objs st) (caches st).
Definition with_objs o st := HState (bufs st) (arrays st) (lists st) o (caches st).
Definition with_caches c st := HState (bufs st) (arrays st) (lists st) (objs st) c.
Definition new_buf (K : kernel) (st : hstate) : nat * hstate := (length (bufs st), with_bufs (bufs st ++ [K]) st).
Definition write_buf (b : nat) (K : kernel) (st : hstate) : hstate := with_bufs (upd b K (bufs st)) st.

(** ** constructor (87-148): a ZernPol or any other object; a tuple; a list of the caller *)
Inductive harg := HOne (x : item) | HTuple (l : list item) | HList (p : nat).
Definition harg_value (li : list (list (Z * Z))) (a : harg) : ctor_arg :=
  match a with HOne x => COne x | HTuple l => CSeq l | HList p => CSeq (map IPol (nth p li [])) end.
Definition arg_made (li : list (list (Z * Z))) (a : harg) : bool := match a with HList p => (p <? length li)%nat | _ => true end.
(** 71: until the first calculation the attribute kernel is the class attribute, buffer 0; 140: self.polynomials = zernpol; the default is the empty tuple (75) *)
Definition h_new (a : harg) (st : hstate) : res hobj :=
  do v <- zernpsf_init (harg_value (lists st) a);
  Ok (HObj v (View 0 []) CNone
    (match a, zpol v with HList p, None => PShared p | _, _ => POwn (polynomials v) end)).

(** ** set_physical_props (151-263): a number, a list or tuple of numbers, an array of the caller, anything else *)
Inductive hcoeff := HNum (a : R) | HSeq (l : list R) | HArray (a : nat) | HBad (e : exc).
Definition hcoeff_value (ar : list (list R)) (c : hcoeff) : coeff_arg :=
  match c with HNum a => KNum a | HSeq l => KSeq l | HArray a => KSeq (nth a ar []) | HBad e => KBad e end.
(** the array exists (a program cannot name one that it has not made) *)
Definition coeff_made (ar : list (list R)) (c : hcoeff) : bool := match c with HArray a => (a <? length ar)%nat | _ => true end.
(** 187-219: the assignment to self.coefficients is reached *)
Definition stores_coeffs (na wl : R) (c : coeff_arg) (px : R) (o : zernpsf) : bool :=
  if Rltb na 0 || Rltb (17 / 10) na then false
  else if Rleb wl 0 then false
  else match pydiv (5 / 10 * (5 / 10) * wl) na with
       | Raise _ => false
       | Ok nyq =>
           if Rleb px 0 then false else if Rltb nyq px then false
           else match c with KSeq l => (length l =? length (polynomials o))%nat | _ => false end
       end.
(** 219: np.asarray *)
Definition asarray (c : hcoeff) : cref := match c with HArray a => CShared a | HSeq l => COwn l | _ => CNone end.
Definition h_physical (na wl : R) (c : hcoeff) (px : R) (o : hobj) (st : hstate) : hobj * res unit :=
  let v := deref st o in let cv := hcoeff_value (arrays st) c in
  let '(v', r) := set_physical_props na wl cv px v in
  (HObj v' (o_kernel o) (if stores_coeffs na wl cv px v then asarray c else o_coeffs o) (o_pols o), r).

Definition h_calculation (ks nr nphi : Z) (o : hobj) (st : hstate) : hobj * res unit :=
  let '(v', r) := set_calculation_props ks nr nphi (deref st o) in (HObj v' (o_kernel o) (o_coeffs o) (o_pols o), r).

(** ** calculate_psf_kernel (322-429): the kernel is built in a new array (calc_psfs.py 401, 652; calc_psfs_numba.py 331) and self.kernel is rebound to it;
    with no polynomials (387, 406) it is not rebound *)
Definition h_calculate (rnd jv1 : R -> R) (fuel : nat) (suppress normalized : bool) (accelerated : option bool) (installed : bool)
  (o : hobj) (st : hstate) : hobj * res kernel * hstate :=
  let v := deref st o in
  let '(s', (v', r)) := calculate_psf_kernel rnd jv1 fuel suppress normalized accelerated installed v (caches st) in
  let st := with_caches s' st in
  match r with
  | Raise e => (HObj v' (o_kernel o) (o_coeffs o) (o_pols o), Raise e, st)
  | Ok K =>
      match zpol v, polynomials v with
      | None, [] => (HObj v' (o_kernel o) (o_coeffs o) (o_pols o), Ok K, st)
      | _, _ => let '(b, st) := new_buf K st in (HObj v' (View b []) (o_coeffs o) (o_pols o), Ok K, st)
      end
  end.

(** ** get_kernel_parallel (711-750): self.kernel is rebound to an array of zeros (734), which is then filled (743) and divided (748) in place *)
Definition zeros (K : kernel) : kernel := map (map (fun _ => Fin 0)) K.
Definition h_parallel (rnd : R -> R) (fuel : nat) (workers normalize : bool) (o : hobj) (st : hstate) : hobj * res kernel * hstate :=
  let '(s', (v', r)) := get_kernel_parallel rnd fuel workers normalize (deref st o) (caches st) in
  let st := with_caches s' st in
  match r with
  | Raise e => (HObj v' (o_kernel o) (o_coeffs o) (o_pols o), Raise e, st)
  | Ok K => let '(b, st) := new_buf (zeros K) st in (HObj v' (View b []) (o_coeffs o) (o_pols o), Ok K, write_buf b K st)
  end.

(** ** crop_kernel (505-549): self.kernel is rebound to a slice of itself, a view on the same buffer (548) *)
Definition crop_slice (part : R) (o : zernpsf) : option (Z * Z * Z * Z) :=
  if (kernel_size o <=? 3)%Z then None
  else if Rleb part 0 then None else if Rleb (5 / 10) part then None
  else
    let rows := Z.of_nat (length (kern o)) in
    let cols := Z.of_nat (length (row (kern o) 0)) in
    let step := crop_steps (length (kern o)) (kern o) rows cols 0 (fscale part (fmax_list (concat (kern o)))) in
    if (0 <? step)%Z then Some (step, rows - step, step, cols - step)%Z else None.
Definition h_crop (part : R) (o : hobj) (st : hstate) : hobj * res unit :=
  let v := deref st o in
  let '(v', r) := crop_kernel part v in
  (HObj v' (match crop_slice part v with Some s => View (v_buf (o_kernel o)) (v_slices (o_kernel o) ++ [s]) | None => o_kernel o end) (o_coeffs o) (o_pols o), r).

(** ** read_json (591-656): new arrays for kernel (615) and coefficients (629), a new list of polynomials (636-647) *)
Definition reads_pols (j : json) : bool :=
  match j_pol j with Some i => match pol_of_osa i with Ok _ => true | Raise _ => false end | None => true end &&
  match j_pols j with
  | None | Some [_] => false
  | Some l => match mapR pol_of_osa l with Ok _ => true | Raise _ => false end
  end.
Definition h_read (j : json) (o : hobj) (st : hstate) : hobj * res unit * hstate :=
  let v := deref st o in
  let '(v', r) := read_json j v in
  let '(kv, st) := match j_kernel j with Some K => let '(b, st) := new_buf K st in (View b [], st) | None => (o_kernel o, st) end in
  let v1 := opt (j_nphi j) with_n_int_phi (opt (j_nr j) with_n_int_r (opt (j_size j) with_kernel_size (opt (j_kernel j) with_kern v))) in
  let stored := match snd (read_pols j v1), j_na j, j_wl j, j_px j, j_coeff j, j_amps j with
                | Ok _, Some na, Some wl, Some px, None, Some l =>
                    is_some (j_kernel j) && is_some (j_size j) && is_some (j_nr j) && is_some (j_nphi j) && stores_coeffs na wl (KSeq l) px (fst (read_pols j v1))
                | _, _, _, _, _, _ => false
                end in
  (HObj v' kv (if stored then match j_amps j with Some l => COwn l | None => o_coeffs o end else o_coeffs o)
     (if reads_pols j then POwn (polynomials v') else o_pols o), r, st).

(** ** convolute_img (479): for kernels of finite numbers *)
Fixpoint finite_row (l : list fl) : option (list R) :=
  match l with [] => Some [] | Fin v :: tl => match finite_row tl with Some t => Some (v :: t) | None => None end | _ => None end.
Fixpoint finite_kernel (K : kernel) : option image :=
  match K with [] => Some [] | r :: tl => match finite_row r, finite_kernel tl with Some r', Some t => Some (r' :: t) | _, _ => None end end.

(** ** programs *)
(** what a program that uses the package does: it makes arrays and lists, writes into arrays and lists it holds (the kernels it was given, too), constructs
    objects, and calls methods of the i-th object. OpKernel: the program reads the attribute kernel. *)
Inductive op :=
  | NewArray (l : list R) | NewList (l : list (Z * Z))
  | WriteKernel (b : nat) (K : kernel) | WriteArray (a : nat) (l : list R) | WriteList (p : nat) (l : list (Z * Z))
  | OpNew (a : harg)
  | OpPhysical (i : nat) (na wl : R) (c : hcoeff) (px : R)
  | OpCalculation (i : nat) (ks nr nphi : Z)
  | OpCalculate (i : nat) (suppress normalized : bool) (accelerated : option bool) (installed : bool)
  | OpParallel (i : nat) (workers normalize : bool)
  | OpCrop (i : nat) (part : R)
  | OpSave (i : nat)
  | OpRead (i : nat) (j : json)
  | OpKernel (i : nat)
  | OpConvolute (i : nat) (eps : R) (cast : fl -> Z) (t : dtype) (I : image) (scale : bool).
(** what it sees *)
Inductive out :=
  | ONothing | OUnit (r : res unit) | OCalculated (r : res kernel) | OSaved (r : res (option json)) | OKernel (K : kernel) | OImage (x : option (list (list fl))).
Definition unit_of {A} (r : res A) : res unit := match r with Ok _ => Ok tt | Raise e => Raise e end.
(** OpSave: the data that save_json hands to json.dump *)
Definition hstep (rnd jv1 : R -> R) (fuel : nat) (c : op) (st : hstate) : out * hstate :=
  let on i (f : hobj -> out * hstate) : out * hstate := match nth_error (objs st) i with Some o => f o | None => (ONothing, st) end in
  let put i o st := with_objs (upd i o (objs st)) st in
  match c with
  | NewArray l => (ONothing, with_arrays (arrays st ++ [l]) st)
  | NewList l => (ONothing, with_lists (lists st ++ [l]) st)
  | WriteKernel b K => (ONothing, write_buf b K st)
  | WriteArray a l => (ONothing, with_arrays (upd a l (arrays st)) st)
  | WriteList p l => (ONothing, with_lists (upd p l (lists st)) st)
  | OpNew a =>
      if arg_made (lists st) a
      then match h_new a st with Ok o => (OUnit (Ok tt), with_objs (objs st ++ [o]) st) | Raise e => (OUnit (Raise e), st) end
      else (ONothing, st)
  | OpPhysical i na wl k px =>
      if coeff_made (arrays st) k then on i (fun o => let '(o', r) := h_physical na wl k px o st in (OUnit r, put i o' st)) else (ONothing, st)
  | OpCalculation i ks nr nphi => on i (fun o => let '(o', r) := h_calculation ks nr nphi o st in (OUnit r, put i o' st))
  | OpCalculate i su nm ac inst => on i (fun o => let '(o', r, st') := h_calculate rnd jv1 fuel su nm ac inst o st in (OCalculated r, put i o' st'))
  | OpParallel i w nm => on i (fun o => let '(o', r, st') := h_parallel rnd fuel w nm o st in (OCalculated r, put i o' st'))
  | OpCrop i part => on i (fun o => let '(o', r) := h_crop part o st in (OUnit r, put i o' st))
  | OpSave i => on i (fun o => (OSaved (saved_data (deref st o)), st))
  | OpRead i j => on i (fun o => let '(o', r, st') := h_read j o st in (OUnit r, put i o' st'))
  | OpKernel i => on i (fun o => (OKernel (kern (deref st o)), st))
  | OpConvolute i eps cast t img sc =>
      on i (fun o => (OImage (match finite_kernel (kern (deref st o)) with Some K => Some (convolute_img_psf rnd eps cast t img K sc) | None => None end), st))
  end.
Fixpoint hrun (rnd jv1 : R -> R) (fuel : nat) (prog : list op) (st : hstate) : list out * hstate :=
  match prog with
  | [] => ([], st)
  | c :: tl => let '(x, st) := hstep rnd jv1 fuel c st in let '(xs, st) := hrun rnd jv1 fuel tl st in (x :: xs, st)
  end.
(** the start of a program: buffer 0 is the class attribute kernel = np.ones(shape=(1, 1)) (71) *)
Definition hstart (s : cstate) : hstate := HState [[[Fin 1]]] [] [] [] s.
