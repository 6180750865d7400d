(** C60: containers shared with the caller. *)
From Coq Require Import Reals Lra Lia List Bool.
From Verif Require Import Py SpecIndex M_Index M_Init SpecInit M_Radial M_Coeffs SpecCoeffs M_Sum M_Geo M_Fit M_Psf SpecPsf P_Psf L_Psf M_Numba M_PsfClass SpecPsfClass L_PsfClass L_PsfObj L_PsfSet P_PsfClass P_PsfIO P_Airy SpecPsfEnd P_PsfEnd
  M_Img M_Alias SpecAlias L_Alias L_Alias2 SpecDiff.
Import ListNotations.
Local Open Scope R_scope.

(** A program that does not write into containers in use sees what it would see if every object had private copies: with any number of objects, any
    calls (accepted and rejected), any writes elsewhere. *)
Theorem C60_as_if_copied_partial : forall rnd jv1 fuel s prog, careful rnd jv1 fuel prog (hstart s) -> seen rnd jv1 fuel s prog = seen_private rnd jv1 fuel s prog.
Proof. intros rnd jv1 fuel s prog C. exact (proj1 (sim_run rnd jv1 fuel prog _ _ (rel_start s) C)). Qed.
Print Assumptions C60_as_if_copied_partial.

(** Whatever the program writes anywhere: setters and calculations answer as if the objects had private copies, if the objects were made from ZernPol
    instances or tuples and kernels are not cropped. *)
Theorem C60_calculation_immune : forall rnd jv1 fuel s prog, Forall shares_no_list prog ->
  Forall2 (fun x y => calculated x \/ calculated y -> x = y) (seen rnd jv1 fuel s prog) (seen_private rnd jv1 fuel s prog).
Proof. intros rnd jv1 fuel s prog H. apply loose_run; [|exact H]. constructor; try reflexivity. constructor. Qed.
Print Assumptions C60_calculation_immune.

(** The package never writes into an array or a list that exists: after any calls a kernel returned before, an array or a list of the caller contains what the caller put there. *)
Theorem C60_never_written : forall rnd jv1 fuel prog st,
  (forall b K, nth_error (bufs st) b = Some K -> (forall K', ~ In (WriteKernel b K') prog) -> nth_error (bufs (snd (hrun rnd jv1 fuel prog st))) b = Some K) /\
  (forall a l, nth_error (arrays st) a = Some l -> (forall l', ~ In (WriteArray a l') prog) -> nth_error (arrays (snd (hrun rnd jv1 fuel prog st))) a = Some l) /\
  (forall p l, nth_error (lists st) p = Some l -> (forall l', ~ In (WriteList p l') prog) -> nth_error (lists (snd (hrun rnd jv1 fuel prog st))) p = Some l).
Proof. intros rnd jv1 fuel prog st. apply run_keeps. Qed.
Print Assumptions C60_never_written.

(** A calculated kernel is returned in a new array, which no object used before ... *)
Theorem C60_new_array : forall rnd jv1 fuel st i su nm ac inst o K, nth_error (objs st) i = Some o -> (zpol (deref st o) <> None \/ polynomials (deref st o) <> []) ->
  fst (hstep rnd jv1 fuel (OpCalculate i su nm ac inst) st) = OCalculated (Ok K) ->
  exists o', nth_error (objs (snd (hstep rnd jv1 fuel (OpCalculate i su nm ac inst) st))) i = Some o' /\ o_kernel o' = View (length (bufs st)) [] /\
    nth_error (bufs (snd (hstep rnd jv1 fuel (OpCalculate i su nm ac inst) st))) (length (bufs st)) = Some K.
Proof.
  intros rnd jv1 fuel st i su nm ac inst o K EO NE. cbn [hstep]. rewrite EO. unfold h_calculate. cbv zeta. destruct (calculate_psf_kernel _ _ _ _ _ _ _ (deref st o) _) as [s' [v' [K0|e]]]; [|discriminate].
  assert (L : (i < length (objs st))%nat) by (apply nth_error_Some; congruence).
  assert (U : forall (x : hobj) l, (i < length l)%nat -> nth_error (upd i x l) i = Some x).
  { clear. intros x l. revert i. induction l as [|y l IH]; intros [|i] H; cbn in *; try lia; [reflexivity|]. apply IH. lia. }
  destruct (zpol (deref st o)) as [p|] eqn:EZ; [|destruct (polynomials (deref st o)) eqn:EP; [destruct NE as [X|X]; exfalso; apply X; reflexivity|]]; cbn [new_buf fst snd]; intros [= <-];
    (eexists; split; [apply U; exact L|split; [reflexivity|]]; cbn; rewrite nth_error_app2, PeanoNat.Nat.sub_diag by lia; reflexivity).
Qed.
Print Assumptions C60_new_array.
Lemma saved_kernel o j : saved_data o = Ok (Some j) -> j_kernel j = Some (kern o).
Proof.
  unfold saved_data. destruct (zpol o); [intros E; injection E as <-; reflexivity|]. destruct (polynomials o); [discriminate|]. destruct (coefficients o); [|discriminate]. intros E; injection E as <-; reflexivity.
Qed.
(** ... but it is the array of the object: what the caller writes into it becomes the object's kernel, for its convolutions and files as well. *)
Theorem C60_returned_kernel_refuted : forall rnd jv1 fuel st i su nm ac inst o K, nth_error (objs st) i = Some o -> (zpol (deref st o) <> None \/ polynomials (deref st o) <> []) ->
  fst (hstep rnd jv1 fuel (OpCalculate i su nm ac inst) st) = OCalculated (Ok K) ->
  exists b, forall K', fst (hrun rnd jv1 fuel [OpCalculate i su nm ac inst; WriteKernel b K'; OpKernel i] st) = [OCalculated (Ok K); ONothing; OKernel K'] /\
    forall j, In (OSaved (Ok (Some j))) (fst (hrun rnd jv1 fuel [OpCalculate i su nm ac inst; WriteKernel b K'; OpSave i] st)) -> j_kernel j = Some K'.
Proof.
  intros rnd jv1 fuel st i su nm ac inst o K EO NE E. destruct (C60_new_array rnd jv1 fuel st i su nm ac inst o K EO NE E) as (o' & EO' & EK & EB). exists (length (bufs st)). intros K'. cbn [hrun].
  destruct (hstep rnd jv1 fuel (OpCalculate i su nm ac inst) st) as [x st1]. cbn [fst snd] in *. subst x.
  assert (L : (length (bufs st) < length (bufs st1))%nat) by (apply nth_error_Some; congruence). cbn [hstep fst snd write_buf with_bufs objs]. rewrite EO'.
  assert (KK : kern (deref (with_bufs (upd (length (bufs st)) K' (bufs st1)) st1) o') = K') by (unfold deref, read_view; cbn; rewrite EK; cbn; apply nth_upd_same, L).
  split; [cbn [fst]; do 3 f_equal; exact (f_equal OKernel KK)|]. cbn [fst In]. intros j [X|[X|[X|[]]]]; try discriminate X. injection X as X. rewrite (saved_kernel _ _ X). exact (f_equal Some KK).
Qed.
Print Assumptions C60_returned_kernel_refuted.
(** crop_kernel keeps a window of the same memory: the array returned before and the cropped kernel change together. *)
Theorem C60_cropped_window_refuted : forall rnd jv1 fuel st i part o w, nth_error (objs st) i = Some o -> (v_buf (o_kernel o) < length (bufs st))%nat -> v_slices (o_kernel o) = [] -> crop_slice part (deref st o) = Some w ->
  forall K', fst (hrun rnd jv1 fuel [OpCrop i part; WriteKernel (v_buf (o_kernel o)) K'; OpKernel i] st) = [OUnit (Ok Datatypes.tt); ONothing; OKernel (take K' w)].
Proof.
  intros rnd jv1 fuel st i part o w EO LB SL CS K'. cbn [hrun hstep]. rewrite EO. unfold h_crop. cbv zeta. rewrite CS.
  assert (R : snd (crop_kernel part (deref st o)) = Ok Datatypes.tt).
  { revert CS. unfold crop_slice, crop_kernel. destruct (_ <=? 3)%Z; [discriminate|]. destruct (Rleb part 0); [discriminate|]. destruct (Rleb (5 / 10) part); [discriminate|]. cbv zeta. destruct (0 <? _)%Z; [reflexivity|discriminate]. }
  destruct (crop_kernel part (deref st o)) as [v' r]. cbn [snd] in R. subst r. cbn [fst snd write_buf with_bufs with_objs objs].
  assert (L : (i < length (objs st))%nat) by (apply nth_error_Some; congruence).
  assert (U : forall (x : hobj) l, (i < length l)%nat -> nth_error (upd i x l) i = Some x).
  { clear. intros x l. revert i. induction l as [|y l IH]; intros [|i] H; cbn in *; try lia; [reflexivity|]. apply IH. lia. }
  rewrite U by exact L. cbn [fst]. unfold deref, read_view. cbn. rewrite SL. cbn. rewrite nth_upd_same by exact LB. reflexivity.
Qed.
Print Assumptions C60_cropped_window_refuted.

(** The default kernel belongs to the class: a write through one object shows in all objects without a calculated kernel, also in later ones. *)
Theorem C60_default_kernel_refuted : forall rnd jv1 fuel s K', let prog := [OpNew (HOne (IPol (1, 1)%Z)); WriteKernel 0 K'; OpNew (HOne (IPol (0, 2)%Z)); OpKernel 1] in
  nth 3 (seen rnd jv1 fuel s prog) ONothing = OKernel K' /\ nth 3 (seen_private rnd jv1 fuel s prog) ONothing = OKernel [[Fin 1]].
Proof. intros. split; reflexivity. Qed.
Print Assumptions C60_default_kernel_refuted.

Lemma hrun_cons rnd jv1 fuel c tl st : fst (hrun rnd jv1 fuel (c :: tl) st) = fst (hstep rnd jv1 fuel c st) :: fst (hrun rnd jv1 fuel tl (snd (hstep rnd jv1 fuel c st))).
Proof. cbn [hrun]. destruct (hstep rnd jv1 fuel c st) as [x st']. cbn [fst snd]. destruct (hrun rnd jv1 fuel tl st'). reflexivity. Qed.
(** A list given to the constructor stays in use: if the caller empties it, calculate_psf_kernel returns the default kernel of one point without an
    error instead of a kernel of the configured size. *)
Definition two_list := [(1, 1)%Z; (0, 2)%Z].
Definition list_prog (change : list op) := [NewList two_list; OpNew (HList 0); OpPhysical 0 1 1 (HSeq [1; 1]) (1 / 10); OpCalculation 0 25 320 300] ++ change ++ [OpCalculate 0 true true (Some false) false].
Definition two : zernpsf := with_airy false (with_polynomials two_list (with_zpol None defaults)).
Lemma two_new : zernpsf_init (CSeq (map IPol two_list)) = Ok two. Proof. reflexivity. Qed.
Lemma two_proper : proper_arg (CSeq (map IPol two_list)).
Proof. cbn. constructor; [|constructor; [|constructor]]; cbn; (split; [split; [lia|split; [lia|]]|lia]); [exists 0%Z|exists 1%Z]; reflexivity. Qed.
Lemma two_fresh : fresh two. Proof. exact (f_new _ _ two_proper two_new). Qed.
Lemma two_physical l : length l = 2%nat -> exists o1, set_physical_props 1 1 (KSeq l) (1 / 10) two = (o1, Ok Datatypes.tt).
Proof.
  intros L. apply (C39_accepted 1 1 (KSeq l) (1 / 10) two (fresh_object _ two_fresh)). split; [unfold in_range; lra|]. cbn. split; [intros ->; discriminate|left; exact L].
Qed.
Theorem C60_list_refuted : forall rnd jv1 fuel s, (forall x, jv1 x = bessel_J1 x) -> (56 <= fuel)%nat -> placement rnd 320 -> reachable s ->
  last (seen rnd jv1 fuel s (list_prog [WriteList 0 []])) ONothing = OCalculated (Ok [[Fin 1]]) /\
  exists K, last (seen_private rnd jv1 fuel s (list_prog [WriteList 0 []])) ONothing = OCalculated (Ok K) /\ length K = 25%nat /\
    last (seen rnd jv1 fuel s (list_prog [])) ONothing = OCalculated (Ok K).
Proof.
  intros rnd jv1 fuel s HJ FU PL RS. destruct (two_physical [1; 1] eq_refl) as [o1 E1]. destruct (physical_keeps 1 1 (KSeq [1; 1]) (1 / 10) two) as (P1 & P2 & P3). rewrite E1 in P1, P2, P3. cbn [fst] in P1, P2, P3.
  assert (P4 := some_physical 1 1 (KSeq [1; 1]) (1 / 10) two). rewrite E1 in P4. cbn [fst] in P4. change (zpol two) with (@None (Z * Z)) in P4.
  assert (O1 : object o1) by (assert (X := o_physical 1 1 (KSeq [1; 1]) (1 / 10) two (fresh_object _ two_fresh)); rewrite E1 in X; exact X).
  destruct (set_calculation_props 25 320 300 o1) as [o2 [u|e]] eqn:E2; [|discriminate]. destruct u. destruct (C56_configured o1 o2 25 320 300 O1 E2) as (K1 & K2 & K3 & K4 & LT). change (made_odd 25) with 25%Z in K1.
  destruct (calculation_keeps 25 320 300 o1) as (Q1 & Q2 & Q3). rewrite E2 in Q1, Q2, Q3. cbn [fst] in Q1, Q2, Q3.
  assert (ZO : zpol o2 = None) by (destruct (later_same _ _ LT) as ((-> & _) & _); exact P4).
  assert (PR : props_set o2 = true). { destruct (later_same _ _ LT) as (_ & _ & _ & _ & _ & _ & ->). destruct (C39_stored_partial _ _ _ _ _ _ (fresh_object _ two_fresh) E1) as (_ & _ & _ & _ & X & _). exact X. }
  destruct (C56_kernel_partial rnd jv1 fuel two 1 1 (KSeq [1; 1]) (1 / 10) o1 o2 true true (Some false) false s two_fresh E1 LT ltac:(lia) HJ FU ltac:(rewrite K2; exact PL) RS (or_introl eq_refl)) as (K & v & EK & HK & _).
  assert (LK : length K = 25%nat) by (destruct HK as [[A _] _]; rewrite K1 in A; lia).
  assert (VIEW : forall v', seen_private rnd jv1 fuel s (list_prog v') = seen_private rnd jv1 fuel s (list_prog v')) by reflexivity. clear VIEW.
  assert (PRIV : forall ch, ch = [] \/ ch = [WriteList 0 []] -> last (seen_private rnd jv1 fuel s (list_prog ch)) ONothing = OCalculated (Ok K)).
  { intros ch [-> | ->]; unfold seen_private, list_prog; cbn [app vrun vstep vstart arg_made harg_value nth length hcoeff_value coeff_made app Nat.ltb Nat.leb]; rewrite two_new; cbn [vrun vstep vstart arg_made harg_value nth length hcoeff_value coeff_made app nth_error upd]; rewrite E1; cbn [upd vrun vstep nth_error]; rewrite E2; cbn [upd vrun vstep nth_error];
      destruct (calculate_psf_kernel rnd jv1 fuel true true (Some false) false o2 s) as [s' [o' r]]; cbn [fst snd last] in *; congruence. }
  split; [|exists K; split; [apply PRIV; right; reflexivity|split; [exact LK|]]].
  - unfold seen, list_prog. cbn [app].
    set (cr := if stores_coeffs 1 1 (KSeq [1; 1]) (1 / 10) two then COwn [1; 1] else CNone).
    set (B := [[[Fin 1]]] : list kernel).
    set (ob0 := HObj two (View 0 []) CNone (PShared 0)). set (ob1 := HObj o1 (View 0 []) cr (PShared 0)). set (ob2 := HObj o2 (View 0 []) cr (PShared 0)).
    assert (S1 : hstep rnd jv1 fuel (OpNew (HList 0)) (HState B [] [two_list] [] s) = (OUnit (Ok Datatypes.tt), HState B [] [two_list] [ob0] s)) by reflexivity.
    assert (D0 : deref (HState B [] [two_list] [ob0] s) ob0 = two) by reflexivity.
    assert (S2 : hstep rnd jv1 fuel (OpPhysical 0 1 1 (HSeq [1; 1]) (1 / 10)) (HState B [] [two_list] [ob0] s) = (OUnit (Ok Datatypes.tt), HState B [] [two_list] [ob1] s)).
    { cbn [hstep coeff_made nth_error objs]. unfold h_physical. cbv zeta. rewrite D0. change (hcoeff_value _ (HSeq [1; 1])) with (KSeq [1; 1]). rewrite E1. reflexivity. }
    assert (D1 : deref (HState B [] [two_list] [ob1] s) ob1 = o1).
    { apply deref_is; [rewrite P1; reflexivity|rewrite P3|rewrite P2; reflexivity]. cbn [o_coeffs ob1]. unfold cr. destruct (stores_coeffs 1 1 (KSeq [1; 1]) (1 / 10) two); reflexivity. }
    assert (S3 : hstep rnd jv1 fuel (OpCalculation 0 25 320 300) (HState B [] [two_list] [ob1] s) = (OUnit (Ok Datatypes.tt), HState B [] [two_list] [ob2] s)).
    { cbn [hstep nth_error objs]. unfold h_calculation. rewrite D1, E2. reflexivity. }
    set (st4 := HState B [] [[]] [ob2] s).
    assert (S4 : fst (hstep rnd jv1 fuel (OpCalculate 0 true true (Some false) false) st4) = OCalculated (Ok [[Fin 1]])).
    { cbn [hstep nth_error objs st4]. unfold h_calculate. cbv zeta. fold st4.
      assert (DZ : zpol (deref st4 ob2) = None) by exact ZO. assert (DP : polynomials (deref st4 ob2) = []) by reflexivity. assert (DK : kern (deref st4 ob2) = [[Fin 1]]) by reflexivity.
      assert (DR : props_set (deref st4 ob2) = true) by exact PR.
      assert (C : calculate_psf_kernel rnd jv1 fuel true true (Some false) false (deref st4 ob2) (caches st4) = (s, (deref st4 ob2, Ok [[Fin 1]]))).
      { unfold calculate_psf_kernel. cbv zeta. rewrite DR. cbn [negb andb]. rewrite DZ, DP. unfold mret. rewrite DK. reflexivity. }
      rewrite C, DZ, DP. reflexivity. }
    assert (H0 : hstep rnd jv1 fuel (NewList two_list) (hstart s) = (ONothing, HState B [] [two_list] [] s)) by reflexivity.
    assert (H4 : hstep rnd jv1 fuel (WriteList 0 []) (HState B [] [two_list] [ob2] s) = (ONothing, st4)) by reflexivity.
    rewrite !hrun_cons, H0. cbn [fst snd]. rewrite S1. cbn [fst snd]. rewrite S2. cbn [fst snd]. rewrite S3. cbn [fst snd]. rewrite H4. cbn [fst snd hrun last]. exact S4.
  - rewrite C60_as_if_copied_partial; [apply PRIV; left; reflexivity|]. unfold list_prog. cbn [app careful careful_step]. repeat split.
Qed.
Print Assumptions C60_list_refuted.

(** An array of coefficients given to set_physical_props stays in use for the file, not for the calculation: if the caller changes it, save_json stores
    coefficients that the kernel was not calculated with. *)
Definition array_prog := [NewArray [1; 2]; OpNew (HTuple (map IPol two_list)); OpPhysical 0 1 1 (HArray 0) (1 / 10); WriteArray 0 [5; 6]; OpSave 0].
Theorem C60_array_refuted : forall rnd jv1 fuel s, exists j j',
  last (seen rnd jv1 fuel s array_prog) ONothing = OSaved (Ok (Some j)) /\ j_amps j = Some [5; 6] /\
  last (seen_private rnd jv1 fuel s array_prog) ONothing = OSaved (Ok (Some j')) /\ j_amps j' = Some [1; 2].
Proof.
  intros rnd jv1 fuel s. destruct (two_physical [1; 2] eq_refl) as [o1 E1]. destruct (physical_keeps 1 1 (KSeq [1; 2]) (1 / 10) two) as (P1 & P2 & P3). rewrite E1 in P1, P2, P3. cbn [fst] in P1, P2, P3.
  assert (P4 := some_physical 1 1 (KSeq [1; 2]) (1 / 10) two). rewrite E1 in P4. cbn [fst] in P4. change (zpol two) with (@None (Z * Z)) in P4.
  assert (SC : stores_coeffs 1 1 (KSeq [1; 2]) (1 / 10) two = true).
  { unfold stores_coeffs. rewrite (Rltb_false 1 0), (Rltb_false (17 / 10) 1), (Rleb_false 1 0) by lra. cbn [orb]. rewrite pydiv_ok by lra. rewrite (Rleb_false (1 / 10) 0), (Rltb_false _ (1 / 10)) by lra. reflexivity. }
  rewrite SC in P3.
  set (B := [[[Fin 1]]] : list kernel). set (ob0 := HObj two (View 0 []) CNone (POwn two_list)). set (ob1 := HObj o1 (View 0 []) (CShared 0) (POwn two_list)).
  assert (H0 : hstep rnd jv1 fuel (NewArray [1; 2]) (hstart s) = (ONothing, HState B [[1; 2]] [] [] s)) by reflexivity.
  assert (S1 : hstep rnd jv1 fuel (OpNew (HTuple (map IPol two_list))) (HState B [[1; 2]] [] [] s) = (OUnit (Ok Datatypes.tt), HState B [[1; 2]] [] [ob0] s)) by reflexivity.
  assert (D0 : deref (HState B [[1; 2]] [] [ob0] s) ob0 = two) by reflexivity.
  assert (S2 : hstep rnd jv1 fuel (OpPhysical 0 1 1 (HArray 0) (1 / 10)) (HState B [[1; 2]] [] [ob0] s) = (OUnit (Ok Datatypes.tt), HState B [[1; 2]] [] [ob1] s)).
  { cbn [hstep coeff_made nth_error objs arrays length Nat.ltb Nat.leb]. unfold h_physical. cbv zeta. rewrite D0. change (hcoeff_value _ (HArray 0)) with (KSeq [1; 2]). rewrite E1, SC. reflexivity. }
  set (st4 := HState B [[5; 6]] [] [ob1] s).
  assert (H4 : hstep rnd jv1 fuel (WriteArray 0 [5; 6]) (HState B [[1; 2]] [] [ob1] s) = (ONothing, st4)) by reflexivity.
  assert (SAVE : forall o l, zpol o = None -> polynomials o = two_list -> coefficients o = Some l -> exists j, saved_data o = Ok (Some j) /\ j_amps j = Some l).
  { intros o l A1 A2 A3. unfold saved_data. rewrite A1, A2, A3. eexists. split; reflexivity. }
  destruct (SAVE (deref st4 ob1) [5; 6] P4 eq_refl eq_refl) as (j & J1 & J2). destruct (SAVE o1 [1; 2] P4 P2 P3) as (j' & J1' & J2').
  exists j, j'. split; [|split; [exact J2|split; [|exact J2']]].
  - unfold seen, array_prog. rewrite !hrun_cons, H0. cbn [fst snd]. rewrite S1. cbn [fst snd]. rewrite S2. cbn [fst snd]. rewrite H4. cbn [fst snd hrun last]. cbn [hstep objs st4 nth_error]. fold st4. rewrite J1. reflexivity.
  - unfold seen_private, array_prog. cbn [vrun vstep vstart arg_made harg_value]. rewrite two_new. cbn [vrun vstep app coeff_made length Nat.ltb Nat.leb hcoeff_value nth nth_error upd]. rewrite E1. cbn [vrun vstep app nth_error upd fst last]. rewrite J1'. reflexivity.
Qed.
Print Assumptions C60_array_refuted.

(** *** non-vacuity *)
(** a careful program that writes into an array after the object has got another one, into a list that no object uses, and into a kernel that was replaced *)
Definition jk (K : kernel) : json := JSON (Some K) None None None None None None None None None None.
Definition careful_prog (K : kernel) : list op :=
  [NewArray [1; 2]; OpNew (HTuple (map IPol two_list)); OpPhysical 0 1 1 (HArray 0) (1 / 10); OpPhysical 0 1 1 (HSeq [3; 4]) (1 / 10); WriteArray 0 [5; 6];
   OpRead 0 (jk [[Fin 2]]); OpRead 0 (jk [[Fin 3]]); WriteKernel 1 K; OpKernel 0].
Example C60_nonvacuous : forall rnd jv1 fuel s K, careful rnd jv1 fuel (careful_prog K) (hstart s) /\ last (seen rnd jv1 fuel s (careful_prog K)) ONothing = OKernel [[Fin 3]].
Proof.
  intros rnd jv1 fuel s K.
  assert (SC : forall l o, length l = 2%nat -> polynomials o = two_list -> stores_coeffs 1 1 (KSeq l) (1 / 10) o = true).
  { intros l o L P. unfold stores_coeffs. rewrite (Rltb_false 1 0), (Rltb_false (17 / 10) 1), (Rleb_false 1 0) by lra. cbn [orb]. rewrite pydiv_ok by lra. rewrite (Rleb_false (1 / 10) 0), (Rltb_false _ (1 / 10)) by lra. rewrite L, P. reflexivity. }
  set (B := [[[Fin 1]]] : list kernel). set (ob0 := HObj two (View 0 []) CNone (POwn two_list)).
  assert (PH : forall o l k cr, length l = 2%nat -> hcoeff_value [[1; 2]] k = KSeq l -> coeff_made [[1; 2]] k = true -> exists o', forall ls, hstep rnd jv1 fuel (OpPhysical 0 1 1 k (1 / 10)) (HState B [[1; 2]] ls [HObj o (View 0 []) cr (POwn two_list)] s) =
    (OUnit (snd (set_physical_props 1 1 (KSeq l) (1 / 10) (deref (HState B [[1; 2]] [] [] s) (HObj o (View 0 []) cr (POwn two_list))))), HState B [[1; 2]] ls [HObj o' (View 0 []) (asarray k) (POwn two_list)] s)).
  { intros o l k cr L EL MD. exists (fst (set_physical_props 1 1 (KSeq l) (1 / 10) (deref (HState B [[1; 2]] [] [] s) (HObj o (View 0 []) cr (POwn two_list))))). intros ls. cbn [hstep objs nth_error arrays]. rewrite MD. unfold h_physical. cbv zeta. cbn [arrays]. rewrite EL. rewrite SC by (exact L || reflexivity).
    change (deref (HState B [[1; 2]] ls [HObj o (View 0 []) cr (POwn two_list)] s) (HObj o (View 0 []) cr (POwn two_list))) with (deref (HState B [[1; 2]] [] [] s) (HObj o (View 0 []) cr (POwn two_list))).
    destruct (set_physical_props _ _ _ _ _) as [o' r]. reflexivity. }
  destruct (PH two [1; 2] (HArray 0) CNone eq_refl eq_refl eq_refl) as [o1 E1]. destruct (PH o1 [3; 4] (HSeq [3; 4]) (CShared 0) eq_refl eq_refl eq_refl) as [o2 E2].
  assert (H0 : hstep rnd jv1 fuel (NewArray [1; 2]) (hstart s) = (ONothing, HState B [[1; 2]] [] [] s)) by reflexivity.
  assert (S1 : hstep rnd jv1 fuel (OpNew (HTuple (map IPol two_list))) (HState B [[1; 2]] [] [] s) = (OUnit (Ok Datatypes.tt), HState B [[1; 2]] [] [ob0] s)) by reflexivity.
  split.
  - unfold careful_prog. cbn [careful careful_step]. rewrite H0. cbn [snd]. rewrite S1. cbn [snd]. unfold ob0. rewrite E1. cbn [snd asarray]. rewrite E2. cbn [snd asarray].
    repeat split; try (cbn; constructor; [discriminate|constructor]); discriminate.
  - unfold seen, careful_prog. rewrite !hrun_cons, H0. cbn [fst snd]. rewrite S1. cbn [fst snd]. unfold ob0. rewrite E1. cbn [fst snd asarray]. rewrite E2. cbn [fst snd asarray]. reflexivity.
Qed.
(** the hypotheses of C60_returned_kernel_refuted: a program that ends with a calculation *)
Example C60_returned_nonvacuous : forall rnd jv1 fuel s, (forall x, jv1 x = bessel_J1 x) -> (56 <= fuel)%nat -> placement rnd 320 -> reachable s ->
  exists K, last (seen rnd jv1 fuel s (list_prog [])) ONothing = OCalculated (Ok K) /\ length K = 25%nat.
Proof. intros rnd jv1 fuel s A B C D. destruct (C60_list_refuted rnd jv1 fuel s A B C D) as (_ & K & _ & L & E). exists K. split; assumption. Qed.
(** the hypotheses of C60_cropped_window_refuted: a kernel with a dark border, read from a file *)
Definition bordered : kernel := [[Fin 0; Fin 0; Fin 0]; [Fin 0; Fin 1; Fin 0]; [Fin 0; Fin 0; Fin 0]].
Definition jb : json := JSON (Some bordered) (Some 5%Z) None None None None None None None None None.
Example C60_cropped_nonvacuous : forall rnd jv1 fuel s, let st := snd (hrun rnd jv1 fuel [OpNew (HOne (IPol (1, 1)%Z)); OpRead 0 jb] (hstart s)) in
  exists o, nth_error (objs st) 0 = Some o /\ (v_buf (o_kernel o) < length (bufs st))%nat /\ v_slices (o_kernel o) = [] /\ crop_slice (1 / 10) (deref st o) = Some (1, 2, 1, 2)%Z.
Proof.
  intros rnd jv1 fuel s. cbv zeta. eexists. split; [reflexivity|]. split; [cbn; lia|]. split; [reflexivity|].
  match goal with |- crop_slice _ ?o = _ => set (v := o) end. assert (V1 : kern v = bordered) by reflexivity. assert (V2 : kernel_size v = 5%Z) by reflexivity.
  unfold crop_slice. rewrite V1, V2. rewrite (Rleb_false (1 / 10) 0), (Rleb_false (5 / 10) (1 / 10)) by lra.
  assert (F1 : Rltb 0 0 = false) by (apply Rltb_false; lra). assert (F2 : Rltb 0 1 = true) by (apply Rltb_true; lra). assert (F3 : Rltb 1 0 = false) by (apply Rltb_false; lra).
  assert (M00 : fmax (Fin 0) (Fin 0) = Fin 0) by (unfold fmax, fltb; rewrite F1; reflexivity).
  assert (M01 : fmax (Fin 0) (Fin 1) = Fin 1) by (unfold fmax, fltb; rewrite F2; reflexivity).
  assert (M10 : fmax (Fin 1) (Fin 0) = Fin 1) by (unfold fmax, fltb; rewrite F3; reflexivity).
  assert (MX : fmax_list (concat bordered) = Fin 1) by (cbn [bordered concat app fmax_list fold_left]; rewrite !M00, M01, !M10; reflexivity).
  assert (Z1 : fmax_list [Fin 0; Fin 0; Fin 0] = Fin 0) by (cbn [fmax_list fold_left]; rewrite !M00; reflexivity).
  assert (Z2 : fmax_list [Fin 0; Fin 1; Fin 0] = Fin 1) by (cbn [fmax_list fold_left]; rewrite M01, M10; reflexivity).
  assert (D0 : dark bordered 3 3 0 (Fin (1 / 10 * 1)) = true).
  { unfold dark. change (row bordered 0) with [Fin 0; Fin 0; Fin 0]. change (row bordered (3 - 1 - 0)) with [Fin 0; Fin 0; Fin 0]. change (column bordered 0) with [Fin 0; Fin 0; Fin 0]. change (column bordered (3 - 1 - 0)) with [Fin 0; Fin 0; Fin 0].
    rewrite Z1. cbn [fltb]. rewrite Rltb_true by lra. reflexivity. }
  assert (D1 : dark bordered 3 3 1 (Fin (1 / 10 * 1)) = false).
  { unfold dark. change (row bordered 1) with [Fin 0; Fin 1; Fin 0]. rewrite Z2. cbn [fltb]. rewrite Rltb_false by lra. reflexivity. }
  rewrite MX. cbn [fscale]. change (Z.of_nat (length bordered)) with 3%Z. change (Z.of_nat (length (row bordered 0))) with 3%Z. change (length bordered) with 3%nat.
  cbn [crop_steps]. rewrite D0. change (0 + 1)%Z with 1%Z. rewrite D1. reflexivity.
Qed.
