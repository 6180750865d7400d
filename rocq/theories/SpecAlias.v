(** Specification side of C60: a program whose objects copy every container they are given and hand out copies only. *)
From Coq Require Import Reals.
From Verif Require Import Py M_Coeffs M_Sum M_Psf M_Numba M_PsfClass M_Img M_Alias.
Local Open Scope R_scope.

(** The objects are values (M_PsfClass); arrays and lists belong to the caller alone. *)
Record vstate := VState { v_arrays : list (list R); v_lists : list (list (Z * Z)); v_objs : list zernpsf; v_caches : cstate }.
Definition vstep (rnd jv1 : R -> R) (fuel : nat) (c : op) (st : vstate) : out * vstate :=
  let '(VState ar li ob s) := st in
  let on i (f : zernpsf -> out * vstate) : out * vstate := match nth_error ob i with Some o => f o | None => (ONothing, st) end in
  match c with
  | NewArray l => (ONothing, VState (ar ++ [l]) li ob s)
  | NewList l => (ONothing, VState ar (li ++ [l]) ob s)
  | WriteKernel _ _ => (ONothing, st)
  | WriteArray a l => (ONothing, VState (upd a l ar) li ob s)
  | WriteList p l => (ONothing, VState ar (upd p l li) ob s)
  | OpNew a =>
      if arg_made li a
      then match zernpsf_init (harg_value li a) with Ok o => (OUnit (Ok tt), VState ar li (ob ++ [o]) s) | Raise e => (OUnit (Raise e), st) end
      else (ONothing, st)
  | OpPhysical i na wl k px =>
      if coeff_made ar k then on i (fun o => let '(o', r) := set_physical_props na wl (hcoeff_value ar k) px o in (OUnit r, VState ar li (upd i o' ob) s)) else (ONothing, st)
  | OpCalculation i ks nr nphi => on i (fun o => let '(o', r) := set_calculation_props ks nr nphi o in (OUnit r, VState ar li (upd i o' ob) s))
  | OpCalculate i su nm ac inst => on i (fun o => let '(s', (o', r)) := calculate_psf_kernel rnd jv1 fuel su nm ac inst o s in (OCalculated r, VState ar li (upd i o' ob) s'))
  | OpParallel i w nm => on i (fun o => let '(s', (o', r)) := get_kernel_parallel rnd fuel w nm o s in (OCalculated r, VState ar li (upd i o' ob) s'))
  | OpCrop i part => on i (fun o => let '(o', r) := crop_kernel part o in (OUnit r, VState ar li (upd i o' ob) s))
  | OpSave i => on i (fun o => (OSaved (saved_data o), st))
  | OpRead i j => on i (fun o => let '(o', r) := read_json j o in (OUnit r, VState ar li (upd i o' ob) s))
  | OpKernel i => on i (fun o => (OKernel (kern o), st))
  | OpConvolute i eps cast t img sc =>
      on i (fun o => (OImage (match finite_kernel (kern o) with Some K => Some (convolute_img_psf rnd eps cast t img K sc) | None => None end), st))
  end.
Fixpoint vrun (rnd jv1 : R -> R) (fuel : nat) (prog : list op) (st : vstate) : list out * vstate :=
  match prog with
  | [] => ([], st)
  | c :: tl => let '(x, st) := vstep rnd jv1 fuel c st in let '(xs, st) := vrun rnd jv1 fuel tl st in (x :: xs, st)
  end.
Definition vstart (s : cstate) : vstate := VState [] [] [] s.
(** what the program sees, with shared containers and with private ones *)
Definition seen (rnd jv1 : R -> R) (fuel : nat) (s : cstate) (prog : list op) : list out := fst (hrun rnd jv1 fuel prog (hstart s)).
Definition seen_private (rnd jv1 : R -> R) (fuel : nat) (s : cstate) (prog : list op) : list out := fst (vrun rnd jv1 fuel prog (vstart s)).

(** The program never writes into a container while an object uses it: the buffer of its kernel, the array of its coefficients, its list of polynomials;
    nor into the default kernel, which belongs to the class and serves every new object. *)
Definition careful_step (c : op) (st : hstate) : Prop :=
  match c with
  | WriteKernel b _ => b <> O /\ Forall (fun o => v_buf (o_kernel o) <> b) (objs st)
  | WriteArray a _ => Forall (fun o => o_coeffs o <> CShared a) (objs st)
  | WriteList p _ => Forall (fun o => o_pols o <> PShared p) (objs st)
  | _ => True
  end.
Fixpoint careful (rnd jv1 : R -> R) (fuel : nat) (prog : list op) (st : hstate) : Prop :=
  match prog with [] => True | c :: tl => careful_step c st /\ careful rnd jv1 fuel tl (snd (hstep rnd jv1 fuel c st)) end.

(** The calls whose answers do not come from the stored kernel or from the stored coefficients *)
Definition calculated (x : out) : Prop := match x with OUnit _ | OCalculated _ => True | _ => False end.
(** No list of the caller is given to a constructor (but ZernPol instances, tuples), kernels are not cropped, and no file with an empty list of polynomials is read. *)
Definition shares_no_list (c : op) : Prop :=
  match c with OpNew (HList _) => False | OpCrop _ _ => False | OpRead _ j => j_pols j <> Some [] | _ => True end.
