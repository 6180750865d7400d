(** Rounded sums, in any order and bracketing. *)
From Coq Require Import Reals Lra Lia Permutation.
From Flocq Require Import Core.
From Verif Require Import Py M_Polar L_Polar L_Float SpecFloat SpecFloatPsf.
Import ListNotations.
Local Open Scope R_scope.

Definition suml (l : list R) : R := fold_right Rplus 0 l.
Lemma suml_app l l' : suml (l ++ l') = suml l + suml l'.
Proof. unfold suml. induction l as [|x l IH]; cbn [app fold_right]; [lra|]. rewrite IH. lra. Qed.
Lemma suml_perm l l' : Permutation l l' -> suml l = suml l'.
Proof. unfold suml. induction 1; cbn [fold_right]; lra. Qed.
Lemma suml_abs_pos l : 0 <= suml (map Rabs l).
Proof. unfold suml. induction l as [|x l IH]; cbn [map fold_right]; [lra|]. pose proof (Rabs_pos x). lra. Qed.
Lemma suml_le_abs l : Rabs (suml l) <= suml (map Rabs l).
Proof.
  unfold suml. induction l as [|x l IH]; cbn [map fold_right]; [rewrite Rabs_R0; lra|]. eapply Rle_trans; [apply Rabs_triang|]. lra.
Qed.
Lemma br_len l s : bracketing l s -> (1 <= length l)%nat.
Proof. induction 1; [cbn; lia|]. rewrite app_length. lia. Qed.

Lemma g_ge1 k : 1 <= (1 + u) ^ k.
Proof. pose proof u_pos. apply pow_R1_Rle. lra. Qed.
Lemma g_mono a b : (a <= b)%nat -> (1 + u) ^ a <= (1 + u) ^ b.
Proof. intros H. pose proof u_pos. apply Rle_pow; [lra|exact H]. Qed.

Lemma br_err l s : bracketing l s -> Rabs (s - suml l) <= ((1 + u) ^ (length l - 1) - 1) * (suml (map Rabs l) + INR (length l)).
Proof.
  pose proof u_pos as U. induction 1 as [x|l a l' b Ha IHa Hb IHb].
  - unfold suml. cbn [map fold_right length Nat.sub pow INR]. replace (x - (x + 0)) with 0 by ring. rewrite Rabs_R0. lra.
  - rewrite map_app, !suml_app, app_length. pose proof (br_len _ _ Ha) as La. pose proof (br_len _ _ Hb) as Lb.
    set (A := suml (map Rabs l)) in *. set (B := suml (map Rabs l')) in *.
    assert (A0 : 0 <= A) by apply suml_abs_pos. assert (B0 : 0 <= B) by apply suml_abs_pos.
    set (n := length l) in *. set (n' := length l') in *. rewrite plus_INR.
    assert (N1 : 1 <= INR n) by (change 1 with (INR 1); apply le_INR, La). assert (N2 : 1 <= INR n') by (change 1 with (INR 1); apply le_INR, Lb).
    set (G := (1 + u) ^ (n + n' - 2)). assert (G1 : 1 <= G) by apply g_ge1.
    assert (EG : (1 + u) ^ (n + n' - 1) = (1 + u) * G). { unfold G. replace (n + n' - 1)%nat with (S (n + n' - 2)) by lia. reflexivity. }
    assert (Ea : Rabs (a - suml l) <= (G - 1) * (A + INR n)).
    { eapply Rle_trans; [exact IHa|]. apply Rmult_le_compat_r; [lra|]. pose proof (g_mono (n - 1) (n + n' - 2) ltac:(lia)). unfold G. lra. }
    assert (Eb : Rabs (b - suml l') <= (G - 1) * (B + INR n')).
    { eapply Rle_trans; [exact IHb|]. apply Rmult_le_compat_r; [lra|]. pose proof (g_mono (n' - 1) (n + n' - 2) ltac:(lia)). unfold G. lra. }
    change (near64 (a + b)) with (b64 (a + b)).
    assert (M : Rabs (suml l + suml l') <= A + B).
    { eapply Rle_trans; [apply Rabs_triang|]. pose proof (suml_le_abs l). pose proof (suml_le_abs l'). unfold A, B. lra. }
    assert (D : Rabs (a + b - (suml l + suml l')) <= (G - 1) * (A + B + (INR n + INR n'))).
    { replace (a + b - (suml l + suml l')) with ((a - suml l) + (b - suml l')) by ring. eapply Rle_trans; [apply Rabs_triang|]. lra. }
    eapply Rle_trans; [apply (b64_step _ _ _ _ M D)|]. rewrite EG. nra.
Qed.

Lemma g_lin k : INR k * u <= 1 / 2 -> (1 + u) ^ k - 1 <= 2 * INR k * u.
Proof.
  pose proof u_pos as U. intros H.
  assert (Q : forall j, INR j * u <= 1 / 2 -> (1 + u) ^ j * (1 - INR j * u) <= 1).
  { induction j as [|j IHj]; intros J; [cbn [pow INR]; lra|]. rewrite S_INR in *. pose proof (pos_INR j) as PJ. cbn [pow].
    assert (I0 : (1 + u) ^ j * (1 - INR j * u) <= 1) by (apply IHj; lra). pose proof (g_ge1 j) as G1.
    apply Rle_trans with ((1 + u) ^ j * (1 - INR j * u)); [|exact I0].
    replace ((1 + u) * (1 + u) ^ j * (1 - (INR j + 1) * u)) with ((1 + u) ^ j * ((1 + u) * (1 - (INR j + 1) * u))) by ring.
    apply Rmult_le_compat_l; [lra|]. assert (0 <= INR j * (u * u)) by (apply Rmult_le_pos; nra). nra. }
  pose proof (Q k H) as Q1. set (t := INR k * u) in *. assert (0 <= t) by (unfold t; apply Rmult_le_pos; [apply pos_INR|lra]). pose proof (g_ge1 k).
  replace (2 * INR k * u) with (2 * t) by (unfold t; ring). nra.
Qed.

(** the error of a rounded sum of numbers of size at most M, close to exact numbers *)
Lemma suml_bound l M : 0 <= M -> (forall x, In x l -> Rabs x <= M) -> suml (map Rabs l) <= INR (length l) * M.
Proof.
  intros M0. unfold suml. induction l as [|x l IH]; intros H; [cbn; lra|]. cbn [map fold_right length]. rewrite S_INR.
  assert (Rabs x <= M) by (apply H; left; reflexivity). specialize (IH ltac:(intros y Hy; apply H; right; exact Hy)). lra.
Qed.
Lemma br_bound l s M : bracketing l s -> 0 <= M -> (forall x, In x l -> Rabs x <= M) -> INR (length l) * u <= 1 / 2 ->
  Rabs (s - suml l) <= 2 * INR (length l) * u * (INR (length l) * (M + 1)).
Proof.
  intros B M0 HM HN. pose proof u_pos as U. eapply Rle_trans; [apply (br_err _ _ B)|]. pose proof (br_len _ _ B) as L.
  pose proof (suml_bound l M M0 HM) as SB. pose proof (suml_abs_pos l) as S0.
  assert (K : (1 + u) ^ (length l - 1) - 1 <= 2 * INR (length l) * u).
  { eapply Rle_trans; [|apply (g_lin _ HN)]. pose proof (g_mono (length l - 1) (length l) ltac:(lia)). lra. }
  pose proof (g_ge1 (length l - 1)). pose proof (pos_INR (length l)).
  apply Rmult_le_compat; try lra.
Qed.
Lemma npsum_bound npsum l M : sums_somehow npsum -> 0 <= M -> (forall x, In x l -> Rabs x <= M) -> INR (length l) * u <= 1 / 2 ->
  Rabs (npsum l - suml l) <= 2 * INR (length l) * u * (INR (length l) * (M + 1)).
Proof.
  intros (E & H) M0 HM HN. destruct l as [|x l].
  - rewrite E. cbn [suml fold_right length INR]. rewrite Rminus_0_r, Rabs_R0. lra.
  - destruct (H (x :: l) ltac:(discriminate)) as (l' & P & B). rewrite (suml_perm _ _ P), (Permutation_length P). rewrite (Permutation_length P) in HN.
    apply br_bound; [exact B|exact M0| |exact HN]. intros y Hy. apply HM. apply (Permutation_in y (Permutation_sym P)), Hy.
Qed.
(** ... of approximations of f over a list *)
Lemma approx_sum {A} (l : list A) (f : A -> R) (ts : list R) d : Forall2 (fun x t => Rabs (t - f x) <= d) l ts ->
  Rabs (suml ts - suml (map f l)) <= INR (length l) * d.
Proof.
  unfold suml. induction 1 as [|x t l ts H HF IH].
  - cbn. rewrite Rminus_0_r, Rabs_R0. lra.
  - cbn [map fold_right length]. rewrite S_INR. replace (t + fold_right Rplus 0 ts - (f x + fold_right Rplus 0 (map f l))) with ((t - f x) + (fold_right Rplus 0 ts - fold_right Rplus 0 (map f l))) by ring.
    eapply Rle_trans; [apply Rabs_triang|]. lra.
Qed.
Lemma F2_len {A B} (P : A -> B -> Prop) l l' : Forall2 P l l' -> length l = length l'.
Proof. induction 1; cbn; lia. Qed.
Lemma F2_in {A B} (P : A -> B -> Prop) l l' : Forall2 P l l' -> forall y, In y l' -> exists x, In x l /\ P x y.
Proof.
  induction 1 as [|x y l l' H HF IH]; intros z Hz; [destruct Hz|]. destruct Hz as [<- |Hz]; [exists x; split; [left; reflexivity|exact H]|].
  destruct (IH z Hz) as (w & I & W). exists w. split; [right; exact I|exact W].
Qed.
Lemma approx_npsum {A} npsum (l : list A) (f : A -> R) ts d M : sums_somehow npsum -> 0 <= d -> 0 <= M ->
  (forall x, In x l -> Rabs (f x) <= M) -> Forall2 (fun x t => Rabs (t - f x) <= d) l ts -> INR (length l) * u <= 1 / 2 ->
  Rabs (npsum ts - suml (map f l)) <= INR (length l) * d + 2 * INR (length l) * u * (INR (length l) * (M + d + 1)).
Proof.
  intros S D0 M0 HM F HN. pose proof (F2_len _ _ _ F) as L. rewrite L in HN.
  assert (TB : forall t, In t ts -> Rabs t <= M + d).
  { intros t Ht. destruct (F2_in _ _ _ F t Ht) as (x & I & E). replace t with (f x + (t - f x)) by ring. eapply Rle_trans; [apply Rabs_triang|].
    pose proof (HM x I). lra. }
  pose proof (npsum_bound npsum ts (M + d) S ltac:(lra) TB HN) as B. pose proof (approx_sum l f ts d F) as C. rewrite <- L in B.
  replace (npsum ts - suml (map f l)) with ((npsum ts - suml ts) + (suml ts - suml (map f l))) by ring. eapply Rle_trans; [apply Rabs_triang|]. lra.
Qed.
