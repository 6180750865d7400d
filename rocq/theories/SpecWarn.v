(** Specification for C81: what the warnings mean. *)
From Coq Require Import Reals.
From Verif Require Import Py M_Sum SpecPsf M_PsfClass SpecPsfClass.
Local Open Scope R_scope.

(** pixel (i, j) is on the border of the n x n kernel *)
Definition on_border (n i j : Z) : Prop := (i = 0 \/ i = n - 1 \/ j = 0 \/ j = n - 1)%Z.
(** a pixel on the border has more than 5 % of the value of every pixel (all of them are numbers) *)
Definition cut_off (K : list (list fl)) : Prop :=
  exists i j v, entry K i j = Some (Fin v) /\ (0 <= i)%Z /\ (0 <= j)%Z /\ on_border (Z.of_nat (length K)) i j /\
    forall i' j' x, (0 <= i')%Z -> (0 <= j')%Z -> entry K i' j' = Some x -> exists u, x = Fin u /\ u / 20 < v.
(** objects of programs in which every call of set_physical_props is accepted (the other calls may raise) and which read no files *)
Inductive settled : zernpsf -> Prop :=
  | s_new a o : proper_arg a -> zernpsf_init a = Ok o -> settled o
  | s_physical na wl c px o o' : settled o -> set_physical_props na wl c px o = (o', Ok Datatypes.tt) -> settled o'
  | s_calculation ks nr nphi o : settled o -> settled (fst (set_calculation_props ks nr nphi o))
  | s_calculate rnd jv1 fuel suppress normalized accelerated installed s o : settled o ->
      settled (fst (snd (calculate_psf_kernel rnd jv1 fuel suppress normalized accelerated installed o s)))
  | s_parallel rnd fuel workers normalize s o : settled o -> settled (fst (snd (get_kernel_parallel rnd fuel workers normalize o s)))
  | s_crop part o : settled o -> settled (fst (crop_kernel part o)).
