(** Specification for C77: what an open figure shows. *)
From Coq Require Import Reals.
From Verif Require Import Py M_Psf M_PlotPsf SpecImg.
Local Open Scope R_scope.

(** the pictures drawn on the figure with the title [t], the topmost first; nothing if there is no such figure *)
Fixpoint pictures (t : title) (fs : figures) : list kernel :=
  match fs with
  | [] => []
  | (t', ks) :: tl => if title_eq_dec t t' then ks else pictures t tl
  end.
(** [fs'] is [fs] with the picture [K] drawn on top of the figure [t] and nothing else changed *)
Definition drawn (t : title) (K : kernel) (fs fs' : figures) : Prop :=
  pictures t fs' = K :: pictures t fs /\ forall t', t' <> t -> pictures t' fs' = pictures t' fs.
(** weights up to [eps] (DBL_EPSILON) are left out by scipy *)
Definition noticed (eps : R) (k : Z -> Z -> R) (a b : Z) : R := if Rlt_dec eps (Rabs (k a b)) then k a b else 0.
