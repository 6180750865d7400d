(** Specification side of C44 and C47: images, mirrored extension, convolution. *)
From Coq Require Import Reals.
From Verif Require Import Py M_Sum SpecPsf.
Local Open Scope R_scope.

Definition shape {A} (I : list (list A)) (h w : Z) : Prop := Z.of_nat (length I) = h /\ Forall (fun row => Z.of_nat (length row) = w) I.
(** I is the h x w array of the values v *)
Definition is_array {A} (I : list (list A)) (h w : Z) (v : Z -> Z -> A) : Prop :=
  (1 <= h)%Z /\ (1 <= w)%Z /\ shape I h w /\ forall i j, (0 <= i < h)%Z -> (0 <= j < w)%Z -> entry I i j = Some (v i j).
(** f extends the indices 0..n-1 to all integers by mirroring at both edges *)
Definition mirrors (n : Z) (f : Z -> Z) : Prop :=
  (forall x, (0 <= x < n)%Z -> f x = x) /\ (forall x, f (-1 - x)%Z = f x) /\ (forall x, f (2 * n - 1 - x)%Z = f x).
Definition sum2 (kh kw : Z) (g : Z -> Z -> R) : R := rsum (zrange 0 (Z.to_nat kh)) (fun a => rsum (zrange 0 (Z.to_nat kw)) (fun b => g a b)).
(** the convolution of the mirrored image with the kernel k (kh x kw), centred at the pixel (kh/2, kw/2) *)
Definition convolution (f g : Z -> Z) (kh kw : Z) (k v : Z -> Z -> R) (i j : Z) : R :=
  sum2 kh kw (fun a b => k a b * v (f (i + kh / 2 - a)%Z) (g (j + kw / 2 - b)%Z)).
(** weights that scipy does not ignore *)
Definition no_tiny (eps : R) (kh kw : Z) (k : Z -> Z -> R) : Prop := forall a b, (0 <= a < kh)%Z -> (0 <= b < kw)%Z -> k a b = 0 \/ eps < Rabs (k a b).
Definition max2 (h w : Z) (v : Z -> Z -> R) (M : R) : Prop :=
  (forall i j, (0 <= i < h)%Z -> (0 <= j < w)%Z -> v i j <= M) /\ exists i j, (0 <= i < h)%Z /\ (0 <= j < w)%Z /\ v i j = M.
(** the documented result: the convolution, divided by the sum of the kernel if that sum is positive *)
Definition blurred (f g : Z -> Z) (kh kw : Z) (k v : Z -> Z -> R) (i j : Z) : R :=
  if Rlt_dec 0 (sum2 kh kw k) then convolution f g kh kw k v i j / sum2 kh kw k else convolution f g kh kw k v i j.
