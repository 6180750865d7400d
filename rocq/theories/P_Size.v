(** Property theorems C80: the kernel size estimated by ZernPSF.set_physical_props. *)
From Coq Require Import Reals Lra Lia List Psatz Permutation.
From Flocq Require Import Core.
From Verif Require Import Py SpecIndex SpecRadial M_Radial M_Coeffs SpecCoeffs M_Sum SpecSum M_Psf SpecPsf L_Polar L_PsfKernel M_Init SpecInit M_PsfClass SpecPsfClass L_PsfClass L_PsfSet L_PsfObj P_PsfClass SpecSize L_Size.
Import ListNotations.
Local Open Scope R_scope.

Definition valid_pol (p : Z * Z) : Prop := valid (fst p) (snd p).
Lemma pols_valid o : inv o -> Forall (fun p => valid (fst p) (snd p)) (polynomials o).
Proof. intros I. pose proof (i_pols o I) as H. eapply Forall_impl; [|exact H]. intros p (V & _). exact V. Qed.
Lemma zpol_valid o p : inv o -> zpol o = Some p -> valid (fst p) (snd p).
Proof. intros I E. pose proof (i_zpol o I) as H. rewrite E in H. apply H. Qed.

(** one polynomial: after every accepted call kernel_size is the documented estimate *)
Theorem C80_single : forall o m n na wl c px, object o -> zpol o = Some (m, n) -> in_range na wl px ->
  exists o', set_physical_props na wl (KNum c) px o = (o', Ok Datatypes.tt) /\ estimated m n px (c / wl) wl na (kernel_size o').
Proof.
  intros o m n na wl c px O E IR. assert (I := object_inv o O). destruct (physical_num na wl c px o (m, n) I IR E) as (ks & EK & _ & ES).
  eexists. split; [exact ES|]. destruct (size_model m n px (c / wl) wl na (zpol_valid o (m, n) I E) ltac:(apply IR) ltac:(apply IR)) as (s & EK' & H).
  rewrite EK in EK'. apply Ok_inj in EK'. subst s. destruct (final_common na wl (KNum c) px ks o) as (_ & _ & _ & _ & _ & _ & _ & _ & _ & _ & _ & HK & _). rewrite HK. exact H.
Qed.
Print Assumptions C80_single.
(** the estimate is determined by the parameters: what holds for one of its values is what the library calculates *)
Theorem C80_unique : forall m n px amp wl NA s s', estimated m n px amp wl NA s -> estimated m n px amp wl NA s' -> s = s'.
Proof. exact estimated_unique. Qed.
Print Assumptions C80_unique.
Theorem C80_exists : forall m n px amp wl NA, valid m n -> 0 < px -> 0 < NA -> exists s, estimated m n px amp wl NA s.
Proof. intros m n px amp wl NA V P A. destruct (size_model m n px amp wl NA V P A) as (s & _ & H). exists s. exact H. Qed.
Print Assumptions C80_exists.
(** several polynomials: the largest of their estimates, and more pixels for larger amplitudes *)
Theorem C80_several : forall o na wl l px, object o -> zpol o = None -> in_range na wl px -> l <> [] -> length l = length (polynomials o) ->
  exists o' sizes mx A inc, set_physical_props na wl (KSeq l) px o = (o', Ok Datatypes.tt) /\ length sizes = length l /\
    (forall i, (i < length l)%nat ->
       let p := nth i (polynomials o) (0, 0)%Z in estimated (fst p) (snd p) px (nth i l 0 / wl) wl na (nth i sizes 0%Z)) /\
    In mx sizes /\ (forall s, In s sizes -> (s <= mx)%Z) /\ largest A (map (fun c => c / wl) l) /\
    rounds_to (per_polynomial A * INR (length l)) inc /\ next_odd (mx + inc) (kernel_size o').
Proof.
  intros o na wl l px O E IR NE L. assert (I := object_inv o O). assert (V := pols_valid o I).
  assert (F : fits (KSeq l) o) by (split; [exact NE|left; exact L]).
  assert (IB := inv_base na wl px o I IR). pose proof (coeff_fits (KSeq l) (base na wl px o) IB) as CF. assert (FB : fits (KSeq l) (base na wl px o)) by exact F.
  specialize (CF FB). pose proof (base_reached na wl (KSeq l) px o IR) as BR. rewrite CF in BR.
  assert (LN : (2 <= length (polynomials o))%nat) by exact (i_several o I E).
  destruct (max_model px wl na ltac:(apply IR) ltac:(apply IR) (polynomials o) (map (fun c => c / wl) l) 0%Z 0 ltac:(rewrite map_length; exact L) V)
    as (sizes & mx & ma & EM & LS & H1 & H2 & H3 & H4 & H5 & H6 & H7).
  destruct (several_model mx ma (length (polynomials o)) H5) as (inc & HI & HN).
  assert (ES : estimate_size (store (KSeq l) (base na wl px o)) = (with_props_set true (with_kernel_size (several_size mx ma (length (polynomials o))) (store (KSeq l) (base na wl px o))), Ok Datatypes.tt)).
  { unfold estimate_size. cbn [store]. change (polynomials (base na wl px o)) with (polynomials o). destruct (polynomials o) as [|p ps] eqn:EP; [cbn in LN; lia|].
    change (zpol (with_amplitudes _ (with_coefficients _ (base na wl px o)))) with (zpol o). rewrite E. cbn [polynomials amplitudes with_amplitudes with_coefficients pixel_size wavelength NA base with_pixel_size with_nyquist with_wavelength with_NA with_k]. rewrite EP, EM. reflexivity. }
  exists (with_props_set true (with_kernel_size (several_size mx ma (length (polynomials o))) (store (KSeq l) (base na wl px o)))), sizes, mx, ma, inc.
  split; [rewrite BR, ES; reflexivity|]. split; [congruence|]. split.
  { intros i Hi p. specialize (H1 i ltac:(congruence)). rewrite (nth_indep _ 0 (0 / wl)) in H1 by (rewrite map_length; exact Hi). rewrite (map_nth (fun c => c / wl)) in H1. exact H1. }
  assert (N0 : sizes <> []) by (intros ->; cbn in LS; lia).
  split.
  { destruct H4 as [->|H4]; [|exact H4]. exfalso. destruct sizes as [|s t]; [contradiction|]. specialize (H3 s (or_introl eq_refl)).
    destruct (polynomials o) as [|q qs] eqn:EP; [cbn in LN; lia|]. specialize (H1 0%nat ltac:(cbn; lia)). cbn [nth] in H1.
    destruct q as (m, n). assert (VQ : valid m n) by (inversion V; assumption). destruct (kernel_size_ok (m, n) px (nth 0 (map (fun c => c / wl) l) 0) wl na VQ ltac:(apply IR) ltac:(apply IR) ltac:(apply IR)) as (ks & EK & K1 & _).
    destruct (size_model m n px (nth 0 (map (fun c => c / wl) l) 0) wl na VQ ltac:(apply IR) ltac:(apply IR)) as (ks' & EK' & H'). rewrite EK in EK'. apply Ok_inj in EK'. subst ks'.
    pose proof (estimated_unique _ _ _ _ _ _ _ _ H1 H'). lia. }
  split; [exact H3|]. split.
  { split; [exact H6|]. destruct H7 as [->|H7]; [|exact H7]. destruct l as [|c l]; [contradiction|]. exists (c / wl). split; [left; reflexivity|].
    specialize (H6 (c / wl) (or_introl eq_refl)). pose proof (Rabs_pos (c / wl)). lra. }
  rewrite L. split; [exact HI|exact HN].
Qed.
Print Assumptions C80_several.
(** at least as large as the estimate of every single polynomial *)
Theorem C80_largest : forall o na wl l px, object o -> zpol o = None -> in_range na wl px -> l <> [] -> length l = length (polynomials o) ->
  exists o', set_physical_props na wl (KSeq l) px o = (o', Ok Datatypes.tt) /\
    forall i s, (i < length l)%nat -> let p := nth i (polynomials o) (0, 0)%Z in estimated (fst p) (snd p) px (nth i l 0 / wl) wl na s -> (s <= kernel_size o')%Z.
Proof.
  intros o na wl l px O E IR NE L. destruct (C80_several o na wl l px O E IR NE L) as (o' & sizes & mx & A & inc & ES & LS & H1 & H2 & H3 & H4 & H5 & H6).
  exists o'. split; [exact ES|]. intros i s Hi p HS. specialize (H1 i Hi). cbv zeta in H1. fold p in H1. rewrite (estimated_unique _ _ _ _ _ _ _ _ HS H1).
  assert (IN : In (nth i sizes 0%Z) sizes) by (apply nth_In; lia). specialize (H3 _ IN).
  assert (I0 : (0 <= inc)%Z).
  { rewrite (rounds_unique _ _ _ H5 (nearest_rounds _)). apply nearest_nonneg. apply Rmult_le_pos; [|apply pos_INR]. unfold per_polynomial. repeat destruct (Rlt_dec _ _); lra. }
  destruct H6 as (_ & H6). lia.
Qed.
Print Assumptions C80_largest.
(** the order in which the polynomials (with their coefficients) are listed is irrelevant *)
Lemma nth_combine {A B} (l : list A) (l' : list B) a b i : (i < length l)%nat -> length l = length l' -> nth i (combine l l') (a, b) = (nth i l a, nth i l' b).
Proof. intros Hi L. apply combine_nth, L. Qed.
Lemma max_under_perm (ps ps' : list (Z * Z)) (l l' : list R) px wl na sizes sizes' mx mx' : length l = length ps -> length l' = length ps' -> Permutation (combine ps l) (combine ps' l') ->
  length sizes = length l -> length sizes' = length l' ->
  (forall i, (i < length l)%nat -> let p := nth i ps (0, 0)%Z in estimated (fst p) (snd p) px (nth i l 0 / wl) wl na (nth i sizes 0%Z)) ->
  (forall i, (i < length l')%nat -> let p := nth i ps' (0, 0)%Z in estimated (fst p) (snd p) px (nth i l' 0 / wl) wl na (nth i sizes' 0%Z)) ->
  In mx sizes -> (forall s, In s sizes' -> (s <= mx')%Z) -> (mx <= mx')%Z.
Proof.
  intros L L' P LS LS' H H' IM UB. destruct (In_nth sizes mx 0%Z IM) as (i & Hi & <-). rewrite LS in Hi.
  assert (IC : In (nth i ps (0, 0)%Z, nth i l 0) (combine ps' l')).
  { apply (Permutation_in _ P). rewrite <- nth_combine by lia. apply nth_In. rewrite combine_length. lia. }
  destruct (In_nth _ _ ((0, 0)%Z, 0) IC) as (j & Hj & EJ). rewrite combine_length in Hj. rewrite nth_combine in EJ by lia. injection EJ as EJ1 EJ2.
  specialize (H i Hi). specialize (H' j ltac:(lia)). cbv zeta in H, H'. rewrite EJ1, EJ2 in H'. rewrite (estimated_unique _ _ _ _ _ _ _ _ H H'). apply UB, nth_In. lia.
Qed.
Theorem C80_order : forall o o' na wl l l' px, object o -> object o' -> zpol o = None -> zpol o' = None -> in_range na wl px -> l <> [] ->
  length l = length (polynomials o) -> length l' = length (polynomials o') -> Permutation (combine (polynomials o) l) (combine (polynomials o') l') ->
  exists q q', set_physical_props na wl (KSeq l) px o = (q, Ok Datatypes.tt) /\ set_physical_props na wl (KSeq l') px o' = (q', Ok Datatypes.tt) /\ kernel_size q = kernel_size q'.
Proof.
  intros o o' na wl l l' px O O' E E' IR NE L L' P.
  assert (LL : length l = length l') by (pose proof (Permutation_length P) as H; rewrite !combine_length in H; lia).
  assert (NE' : l' <> []) by (intros ->; destruct l; [contradiction|discriminate]).
  destruct (C80_several o na wl l px O E IR NE L) as (q & sizes & mx & A & inc & ES & LS & H1 & H2 & H3 & H4 & H5 & H6).
  destruct (C80_several o' na wl l' px O' E' IR NE' L') as (q' & sizes' & mx' & A' & inc' & ES' & LS' & H1' & H2' & H3' & H4' & H5' & H6').
  exists q, q'. split; [exact ES|]. split; [exact ES'|].
  assert (MX : mx = mx').
  { apply Z.le_antisymm.
    - exact (max_under_perm (polynomials o) (polynomials o') l l' px wl na sizes sizes' mx mx' L L' P LS LS' H1 H1' H2 H3').
    - exact (max_under_perm (polynomials o') (polynomials o) l' l px wl na sizes' sizes mx' mx L' L (Permutation_sym P) LS' LS H1' H1 H2' H3). }
  assert (PL : Permutation l l').
  { assert (S2 : forall (a : list (Z * Z)) (b : list R), length b = length a -> map snd (combine a b) = b) by (induction a as [|x a IH]; intros [|y b] H; try discriminate; [reflexivity|]; cbn [combine map snd]; rewrite IH by (injection H; auto); reflexivity).
    rewrite <- (S2 _ l L), <- (S2 _ l' L'). apply Permutation_map, P. }
  assert (AA : A = A').
  { destruct H4 as (U & a & Ia & ->). destruct H4' as (U' & a' & Ia' & ->). apply Rle_antisym.
    - apply U'. apply (Permutation_in _ (Permutation_map _ PL)). exact Ia.
    - apply U. apply (Permutation_in _ (Permutation_map _ (Permutation_sym PL))). exact Ia'. }
  subst mx' A'. rewrite LL in H5. rewrite (rounds_unique _ _ _ H5 H5') in H6. exact (next_unique _ _ _ H6 H6').
Qed.
Print Assumptions C80_order.
(** ** one polynomial *)
(** the signs of the azimuthal order and of the coefficient are irrelevant *)
Theorem C80_symmetric : forall o o' m m' n na wl c c' px, object o -> object o' -> zpol o = Some (m, n) -> zpol o' = Some (m', n) -> in_range na wl px -> Z.abs m = Z.abs m' -> Rabs c = Rabs c' ->
  exists q q', set_physical_props na wl (KNum c) px o = (q, Ok Datatypes.tt) /\ set_physical_props na wl (KNum c') px o' = (q', Ok Datatypes.tt) /\ kernel_size q = kernel_size q'.
Proof.
  intros o o' m m' n na wl c c' px O O' E E' IR M C. destruct (C80_single o m n na wl c px O E IR) as (q & ES & H). destruct (C80_single o' m' n na wl c' px O' E' IR) as (q' & ES' & H').
  exists q, q'. split; [exact ES|]. split; [exact ES'|]. destruct IR as (_ & W & _). assert (CA : Rabs (c / wl) = Rabs (c' / wl)) by (unfold Rdiv; rewrite !Rabs_mult, C; reflexivity).
  assert (X : estimated m n px (c / wl) wl na (kernel_size q')); [|exact (estimated_unique _ _ _ _ _ _ _ _ H X)].
  destruct H' as (k & e & K & AZ & N). exists k, e. unfold enlarge, extra_pixels, azimuthal_pixels, factor in *. rewrite CA, M. split; [|split; [exact AZ|exact N]].
  replace (m =? 0)%Z with (m' =? 0)%Z; [exact K|]. apply Bool.eq_iff_eq_true. rewrite !Z.eqb_eq. lia.
Qed.
Print Assumptions C80_symmetric.
(** the unit of length is irrelevant *)
Theorem C80_units : forall o m n na wl c px t, object o -> zpol o = Some (m, n) -> in_range na wl px -> 0 < t ->
  exists q q', set_physical_props na wl (KNum c) px o = (q, Ok Datatypes.tt) /\ set_physical_props na (t * wl) (KNum (t * c)) (t * px) o = (q', Ok Datatypes.tt) /\ kernel_size q = kernel_size q'.
Proof.
  intros o m n na wl c px t O E IR T. assert (IR' : in_range na (t * wl) (t * px)).
  { destruct IR as (A & W & P). split; [exact A|]. split; [apply Rmult_lt_0_compat; assumption|]. split; [apply Rmult_lt_0_compat; lra|].
    replace (t * wl / (4 * na)) with (t * (wl / (4 * na))) by (field; lra). apply Rmult_le_compat_l; lra. }
  destruct (C80_single o m n na wl c px O E IR) as (q & ES & H). destruct (C80_single o m n na (t * wl) (t * c) (t * px) O E IR') as (q' & ES' & H').
  exists q, q'. split; [exact ES|]. split; [exact ES'|]. destruct IR as (A & W & P).
  replace (t * c / (t * wl)) with (c / wl) in H' by (field; lra). destruct H' as (k & e & K & AZ & N).
  apply (estimated_unique m n px (c / wl) wl na); [exact H|]. exists k, e. split; [|split; [exact AZ|exact N]].
  replace (factor m n na * enlarge (c / wl) * (t * wl) / (t * px)) with (factor m n na * enlarge (c / wl) * wl / px) in K by (field; lra). exact K.
Qed.
Print Assumptions C80_units.
Lemma factor_pos m n na : valid m n -> 0 < na -> 0 <= factor m n na.
Proof.
  intros V A. unfold factor. assert (S0 := sqrt_pos (/ na)). assert (S1 := sqrt_pos (IZR n)). assert (S2 := sqrt_pos (IZR (n - Z.abs m))).
  destruct (n =? 0)%Z; [destruct (Rlt_dec (1 / 4) na); [destruct (Rlt_dec na 1)|]; lra|]. destruct (m =? 0)%Z; [lra|]. destruct (Z.odd n); lra.
Qed.
Lemma enlarge_ge1 a : 1 <= enlarge a.
Proof.
  unfold enlarge. destruct (Rlt_dec (Rabs a) (1 / 4)); [lra|]. destruct (Rlt_dec (Rabs a) (1 / 2)); rewrite <- sqrt_1 at 1; apply sqrt_le_1_alt; lra.
Qed.
Lemma estimated_mono m n px px' a a' wl na s s' : valid m n -> 0 < na -> 0 < wl -> 0 < px' <= px -> enlarge a <= enlarge a' -> (extra_pixels a <= extra_pixels a')%Z ->
  estimated m n px a wl na s -> estimated m n px' a' wl na s' -> (s <= s')%Z.
Proof.
  intros V A W P EN EX (k & e & K & AZ & N) (k' & e' & K' & AZ' & N'). rewrite (azimuthal_unique _ _ _ _ AZ' AZ) in N'. eapply next_mono; [|exact N|exact N'].
  assert (KK : (k <= k')%Z); [|lia]. eapply rounds_mono; [|exact K|exact K']. pose proof (factor_pos m n na V A) as F. pose proof (enlarge_ge1 a) as E1.
  unfold Rdiv. apply Rmult_le_compat.
  - apply Rmult_le_pos; [apply Rmult_le_pos; lra|lra].
  - left. apply Rinv_0_lt_compat. lra.
  - apply Rmult_le_compat_r; [lra|]. apply Rmult_le_compat_l; [exact F|exact EN].
  - apply Rinv_le_contravar; lra.
Qed.
(** smaller pixels never make the kernel smaller *)
Theorem C80_pixel : forall o m n na wl c px px', object o -> zpol o = Some (m, n) -> in_range na wl px -> 0 < px' <= px ->
  exists q q', set_physical_props na wl (KNum c) px o = (q, Ok Datatypes.tt) /\ set_physical_props na wl (KNum c) px' o = (q', Ok Datatypes.tt) /\ (kernel_size q <= kernel_size q')%Z.
Proof.
  intros o m n na wl c px px' O E IR P. assert (IR' : in_range na wl px') by (destruct IR as (A & W & Q); split; [exact A|]; split; [exact W|]; split; lra).
  destruct (C80_single o m n na wl c px O E IR) as (q & ES & H). destruct (C80_single o m n na wl c px' O E IR') as (q' & ES' & H').
  exists q, q'. split; [exact ES|]. split; [exact ES'|]. assert (V := zpol_valid o (m, n) (object_inv o O) E). destruct IR as (A & W & _).
  eapply estimated_mono; [exact V|apply A|exact W|exact P|apply Rle_refl|apply Z.le_refl|exact H|exact H'].
Qed.
Print Assumptions C80_pixel.
(** nor do larger amplitudes, below half a wavelength and from half a wavelength on *)
Theorem C80_amplitude : forall o m n na wl c c' px, object o -> zpol o = Some (m, n) -> in_range na wl px -> Rabs c <= Rabs c' -> (Rabs (c' / wl) < 1 / 2 \/ 1 / 2 <= Rabs (c / wl)) ->
  exists q q', set_physical_props na wl (KNum c) px o = (q, Ok Datatypes.tt) /\ set_physical_props na wl (KNum c') px o = (q', Ok Datatypes.tt) /\ (kernel_size q <= kernel_size q')%Z.
Proof.
  intros o m n na wl c c' px O E IR CC RG.
  destruct (C80_single o m n na wl c px O E IR) as (q & ES & H). destruct (C80_single o m n na wl c' px O E IR) as (q' & ES' & H').
  exists q, q'. split; [exact ES|]. split; [exact ES'|]. assert (V := zpol_valid o (m, n) (object_inv o O) E). destruct IR as (A & W & P).
  assert (CA : Rabs (c / wl) <= Rabs (c' / wl)) by (unfold Rdiv; rewrite !Rabs_mult; apply Rmult_le_compat_r; [apply Rabs_pos|exact CC]).
  assert (P1 : 0 < px <= px) by lra.
  eapply (estimated_mono m n px px _ _ wl na); [exact V|apply A|exact W|exact P1| | |exact H|exact H'].
  - pose proof (enlarge_ge1 (c' / wl)) as G. unfold enlarge in *. set (x := Rabs (c / wl)) in *. set (y := Rabs (c' / wl)) in *.
    destruct (Rlt_dec x (1 / 4)); [exact G|]. destruct (Rlt_dec y (1 / 4)); [lra|]. destruct (Rlt_dec x (1 / 2)), (Rlt_dec y (1 / 2)); try lra; apply sqrt_le_1_alt; lra.
  - unfold extra_pixels. set (x := Rabs (c / wl)) in *. set (y := Rabs (c' / wl)) in *.
    destruct (Rlt_dec x (1 / 4)), (Rlt_dec y (1 / 4)), (Rlt_dec x (1 / 2)), (Rlt_dec y (1 / 2)); try lra; lia.
Qed.
Print Assumptions C80_amplitude.
Lemma estimated_ge m n px a wl na s : valid m n -> 0 < na -> 0 < wl -> 0 < px -> estimated m n px a wl na s -> factor m n na * wl <= IZR s * px.
Proof.
  intros V A W P (k & e & (K & _) & AZ & (_ & N)). pose proof (factor_pos m n na V A) as F. pose proof (enlarge_ge1 a) as E1.
  assert (E0 : (0 <= e)%Z).
  { unfold azimuthal_pixels in AZ. destruct (_ || _)%bool; [lia|].
    assert (H := rounds_unique _ _ _ AZ (nearest_rounds _)). assert (Q := nearest_nonneg _ (sqrt_pos (IZR (n + Z.abs m)))). lia. }
  assert (X0 : (0 <= extra_pixels a)%Z) by (unfold extra_pixels; repeat destruct (Rlt_dec _ _); lia).
  assert (SK : IZR k + 1 <= IZR s) by (rewrite <- plus_IZR; apply IZR_le; lia). apply Rabs_le_inv in K.
  assert (XP : factor m n na * wl <= factor m n na * enlarge a * wl).
  { apply Rmult_le_compat_r; [lra|]. rewrite <- (Rmult_1_r (factor m n na)) at 1. apply Rmult_le_compat_l; lra. }
  set (x := factor m n na * enlarge a * wl) in *. assert (Q : x = x / px * px) by (field; lra). rewrite Q in XP. eapply Rle_trans; [exact XP|]. apply Rmult_le_compat_r; lra.
Qed.
(** the kernel is at least as wide as the central disk of the diffraction limited spot (diameter 1.22 wavelength / NA): for piston if
    NA >= 0.1, for all polynomials if NA >= 1 *)
Theorem C80_covers : forall o m n na wl c px, object o -> zpol o = Some (m, n) -> in_range na wl px -> (n = 0%Z /\ 1 / 10 <= na \/ 1 <= na) ->
  exists q, set_physical_props na wl (KNum c) px o = (q, Ok Datatypes.tt) /\ 122 / 100 * wl / na <= IZR (kernel_size q) * px.
Proof.
  intros o m n na wl c px O E IR H. destruct (C80_single o m n na wl c px O E IR) as (q & ES & HS). exists q. split; [exact ES|].
  assert (V := zpol_valid o (m, n) (object_inv o O) E). cbn [fst snd] in V. destruct IR as (A & W & P).
  eapply Rle_trans; [|apply (estimated_ge m n px (c / wl) wl na _ V ltac:(lra) W ltac:(lra) HS)].
  replace (122 / 100 * wl / na) with (122 / 100 * / na * wl) by (field; lra). apply Rmult_le_compat_r; [lra|].
  assert (IN : 0 < / na) by (apply Rinv_0_lt_compat; lra). unfold factor. destruct (Z.eqb_spec n 0) as [->|N].
  - assert (NA0 : 1 / 10 <= na) by (destruct H; lra). assert (N10 : / na <= 10) by (apply Rmult_le_reg_l with na; [lra|]; rewrite Rinv_r; lra).
    assert (Q : 122 / 100 * / na <= 9 / 2 + 5 / 2 * sqrt (/ na)).
    { assert (S := sqrt_pos (/ na)). assert (S2 := sqrt_sqrt (/ na) ltac:(lra)). set (s := sqrt (/ na)) in *. rewrite <- S2 in N10 |- *. assert (S3 : s <= 317 / 100).
      { destruct (Rle_dec s (317 / 100)) as [H1|H1]; [exact H1|]. pose proof (Rmult_le_compat (317 / 100) s (317 / 100) s ltac:(lra) ltac:(lra) ltac:(lra) ltac:(lra)). lra. }
      pose proof (Rmult_le_compat_l s s (317 / 100) S S3). lra. }
    destruct (Rlt_dec (1 / 4) na) as [L1|]; [|exact Q]. destruct (Rlt_dec na 1) as [L2|]; [|exact Q].
    apply Rmult_le_reg_r with na; [lra|]. rewrite Rmult_assoc, Rinv_l by lra. pose proof (Rmult_lt_0_compat (na - 1 / 4) (1 - na) ltac:(lra) ltac:(lra)) as PP. replace ((na - 1 / 4) * (1 - na)) with (5 / 4 * na - 1 / 4 - na * na) in PP by field. replace ((13 / 2 - 5 * na) * na) with (13 / 2 * na - 5 * (na * na)) by ring. lra.
  - destruct H as [(H & _)|H]; [contradiction|]. assert (NA1 : / na <= 1) by (apply Rmult_le_reg_l with na; [lra|]; rewrite Rinv_r; lra).
    assert (N1 : 1 <= sqrt (IZR n)) by (rewrite <- sqrt_1; apply sqrt_le_1_alt; apply IZR_le; destruct V; lia). assert (S2 := sqrt_pos (IZR (n - Z.abs m))).
    destruct (m =? 0)%Z; [lra|]. destruct (Z.odd n); lra.
Qed.
Print Assumptions C80_covers.
(** ** what a user might expect as well is false *)
Definition spherical : zernpsf := with_airy false (with_zpol (Some (0, 4)%Z) defaults).
Lemma spherical_object : object spherical.
Proof. apply (o_new (COne (IPol (0, 4)%Z))); [split; [split; [lia|split; [cbn; lia|exists 2%Z; reflexivity]]|lia]|reflexivity]. Qed.
Lemma rounds_near x k : Rabs (x - IZR k) < / 2 -> rounds_to x k.
Proof. intros H. split; [lra|intros E; lra]. Qed.
Lemma sqrt_between x a b : 0 <= a -> 0 <= b -> a * a <= x <= b * b -> a <= sqrt x <= b.
Proof. intros A B (H1 & H2). split; [rewrite <- (sqrt_square a) by exact A; apply sqrt_le_1_alt; exact H1|rewrite <- (sqrt_square b) by exact B; apply sqrt_le_1_alt; exact H2]. Qed.
(** across half a wavelength the kernel shrinks: spherical aberration of 0.49 wavelengths gets 39 pixels, of 0.5 wavelengths 31 *)
Theorem C80_amplitude_refuted : exists q q', set_physical_props 1 1 (KNum (49 / 100)) (1 / 10) spherical = (q, Ok Datatypes.tt) /\
  set_physical_props 1 1 (KNum (1 / 2)) (1 / 10) spherical = (q', Ok Datatypes.tt) /\ kernel_size q = 39%Z /\ kernel_size q' = 31%Z.
Proof.
  assert (IR : in_range 1 1 (1 / 10)) by (unfold in_range; lra).
  destruct (C80_single spherical 0 4 1 1 (49 / 100) (1 / 10) spherical_object eq_refl IR) as (q & ES & H).
  destruct (C80_single spherical 0 4 1 1 (1 / 2) (1 / 10) spherical_object eq_refl IR) as (q' & ES' & H').
  exists q, q'. split; [exact ES|]. split; [exact ES'|].
  assert (S4 : sqrt 4 = 2) by (replace 4 with (2 * 2) by lra; apply sqrt_square; lra).
  split.
  - apply (estimated_unique 0 4 (1 / 10) (49 / 100 / 1) 1 1); [exact H|]. exists 36%Z, 0%Z.
    unfold enlarge, extra_pixels, factor, azimuthal_pixels, next_odd. replace (Rabs (49 / 100 / 1)) with (49 / 100) by (rewrite Rabs_pos_eq; lra).
    destruct (Rlt_dec (49 / 100) (1 / 4)); [lra|]. destruct (Rlt_dec (49 / 100) (1 / 2)); [|lra]. cbn [Z.eqb]. rewrite S4. split; [|split; [reflexivity|split; [reflexivity|lia]]].
    apply rounds_near. destruct (sqrt_between (17 / 4 * (49 / 100)) (1443 / 1000) (1444 / 1000)) as (B1 & B2); try lra. rewrite Rabs_pos_eq; lra.
  - apply (estimated_unique 0 4 (1 / 10) (1 / 2 / 1) 1 1); [exact H'|]. exists 28%Z, 0%Z.
    unfold enlarge, extra_pixels, factor, azimuthal_pixels, next_odd. replace (Rabs (1 / 2 / 1)) with (1 / 2) by (rewrite Rabs_pos_eq; lra).
    destruct (Rlt_dec (1 / 2) (1 / 4)); [lra|]. destruct (Rlt_dec (1 / 2) (1 / 2)); [lra|]. cbn [Z.eqb]. rewrite S4. split; [|split; [reflexivity|split; [reflexivity|lia]]].
    apply rounds_near. destruct (sqrt_between (5 / 2 * (1 / 2)) (1118 / 1000) (1119 / 1000)) as (B1 & B2); try lra. rewrite Rabs_left1; lra.
Qed.
Print Assumptions C80_amplitude_refuted.
(** other polynomials at lower NA: the estimate ignores NA; defocus at NA = 0.5 gets 19 pixels of 0.1 wavelengths, the central disk has 24.4 *)
Theorem C80_covers_refuted : exists q, set_physical_props (1 / 2) 1 (KNum (1 / 10)) (1 / 10) blur = (q, Ok Datatypes.tt) /\ kernel_size q = 19%Z /\
  IZR (kernel_size q) * (1 / 10) < 122 / 100 * 1 / (1 / 2).
Proof.
  assert (IR : in_range (1 / 2) 1 (1 / 10)) by (unfold in_range; lra).
  destruct (C80_single blur 0 2 (1 / 2) 1 (1 / 10) (1 / 10) blur_object eq_refl IR) as (q & ES & H). exists q. split; [exact ES|].
  assert (K : kernel_size q = 19%Z); [|split; [exact K|rewrite K; lra]].
  apply (estimated_unique 0 2 (1 / 10) (1 / 10 / 1) 1 (1 / 2)); [exact H|]. exists 18%Z, 0%Z.
  unfold enlarge, extra_pixels, factor, azimuthal_pixels, next_odd. replace (Rabs (1 / 10 / 1)) with (1 / 10) by (rewrite Rabs_pos_eq; lra).
  destruct (Rlt_dec (1 / 10) (1 / 4)); [|lra]. cbn [Z.eqb]. split; [|split; [reflexivity|split; [reflexivity|lia]]].
  apply rounds_near. destruct (sqrt_between 2 (1414 / 1000) (1415 / 1000)) as (B1 & B2); try lra. rewrite Rabs_left1; lra.
Qed.
Print Assumptions C80_covers_refuted.
(** the hypotheses hold for concrete objects: a piston, and two polynomials *)
Example C80_nonvacuous : object airy_disk /\ zpol airy_disk = Some (0, 0)%Z /\ in_range (95 / 100) (532 / 1000) (1 / 10) /\
  exists o, object o /\ zpol o = None /\ polynomials o = [(-2, 2); (0, 0)]%Z.
Proof.
  split; [exact airy_object|]. split; [reflexivity|]. split; [unfold in_range; lra|].
  destruct C40_nonvacuous as (o & EI & O & _). exists o. split; [exact O|]. revert EI. cbn. intros EI. apply Ok_inj in EI. subst o. split; reflexivity.
Qed.
