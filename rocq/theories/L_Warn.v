(** Lemmas on the warnings of ZernPSF. *)
From Coq Require Import Reals Lra Psatz.
From Verif Require Import Py M_Coeffs M_Sum M_Geo M_Fit M_Psf SpecPsf L_Psf L_PsfKernel M_Numba M_PsfClass SpecPsfClass L_PsfClass SpecCropK L_CropK L_PsfObj L_PsfSet M_Warn SpecWarn.
Local Open Scope R_scope.

(** ** the functions are those without warnings *)
Lemma set_coeff_erase c o : set_coeff c o = (fst (set_coeff_w c o), snd (snd (set_coeff_w c o))).
Proof.
  destruct c as [a|l|e]; cbn [set_coeff set_coeff_w].
  - destruct (zpol o), (polynomials o) as [|? [|]]; reflexivity.
  - destruct (length l =? length (polynomials o))%nat; [destruct l; reflexivity|]. destruct l as [|a [|]], (polynomials o); reflexivity.
  - destruct (zpol o), (polynomials o) as [|? [|]]; reflexivity.
Qed.
Lemma physical_erase na wl c px o : set_physical_props na wl c px o = (fst (set_physical_props_w na wl c px o), snd (snd (set_physical_props_w na wl c px o))).
Proof.
  unfold set_physical_props, set_physical_props_w. destruct (_ || _)%bool; [reflexivity|]. destruct (Rleb wl 0); [reflexivity|]. cbv zeta.
  destruct (pydiv _ na); [|reflexivity]. destruct (Rleb px 0); [reflexivity|]. destruct (Rltb _ px); [reflexivity|]. rewrite set_coeff_erase.
  destruct (set_coeff_w c _) as (o1 & w & [u|e]); [|reflexivity]. cbn [fst snd]. destruct (estimate_size o1); reflexivity.
Qed.
Lemma calculation_erase ks nr nphi o : set_calculation_props ks nr nphi o = (fst (set_calculation_props_w ks nr nphi o), snd (snd (set_calculation_props_w ks nr nphi o))).
Proof.
  unfold set_calculation_props, set_calculation_props_w. destruct (ks <? 3)%Z; [reflexivity|]. cbv zeta. destruct (nr <? 20)%Z; [reflexivity|]. destruct (nphi <? 36)%Z; reflexivity.
Qed.
(** [x] without its warnings is [y] *)
Definition erases {A} (x : W A) (y : M A) : Prop := forall s, y s = (fst (x s), snd (snd (x s))).
Lemma erases_quiet {A} (y : M A) : erases (quiet y) y.
Proof. intros s. unfold quiet. destruct (y s); reflexivity. Qed.
Lemma erases_bind {A B} (x : W A) (y : M A) (f : A -> W B) (g : A -> M B) : erases x y -> (forall a, erases (f a) (g a)) -> erases (wbind x f) (mbind y g).
Proof.
  intros H1 H2 s. unfold wbind, mbind. rewrite (H1 s). destruct (x s) as (s1 & w & [a|e]); [|reflexivity]. cbn [fst snd]. rewrite (H2 a s1). destruct (f a s1) as (s2 & w2 & r). reflexivity.
Qed.
Lemma erases_show {A} sup c w (x : W A) y : erases x y -> erases (wbind (show sup c w) (fun _ => x)) y.
Proof. intros H s. unfold wbind, show. rewrite (H s). destruct (x s) as (s2 & w2 & r). reflexivity. Qed.
Lemma erases_pixel {A} sup px wl na (x : W A) y : erases x y -> erases (wbind (check_pixel sup px wl na) (fun _ => x)) (mbind (mlift (pydiv (5 / 10 * (61 / 100) * wl) na)) (fun _ => y)).
Proof.
  intros H s. unfold check_pixel, wbind, quiet, mlift, mbind, show. destruct (pydiv _ na) as [q|e]; [|reflexivity]. rewrite (H s). destruct (x s) as (s2 & w2 & r). reflexivity.
Qed.
Lemma erases_border sup K : erases (check_border sup K) (mret K).
Proof. unfold check_border. apply erases_show, erases_quiet. Qed.
Lemma single_erase rnd jv1 fuel p px a wl na nr nphi normalize ai ks mt sup :
  erases (get_psf_kernel_w rnd jv1 fuel p px a wl na nr nphi normalize ai ks mt sup) (get_psf_kernel rnd jv1 fuel p px a wl na nr nphi normalize ai ks mt).
Proof.
  unfold get_psf_kernel_w, get_psf_kernel. apply erases_bind; [apply erases_quiet|intros al]. apply erases_bind; [apply erases_quiet|intros k]. apply erases_bind; [apply erases_quiet|intros size].
  cbv zeta. destruct (odd_size size <? 0)%Z; [apply erases_quiet|]. apply erases_pixel. apply erases_bind; [apply erases_quiet|intros l]. apply erases_border.
Qed.
Lemma zerns_erase rnd fuel ps amps px wl na ks nr nphi normalize sup :
  erases (get_psf_kernel_zerns_w rnd fuel ps amps px wl na ks nr nphi normalize sup) (get_psf_kernel_zerns rnd fuel ps amps px wl na ks nr nphi normalize).
Proof.
  unfold get_psf_kernel_zerns_w, get_psf_kernel_zerns. apply erases_bind; [apply erases_quiet|intros k].
  cbv zeta. destruct (odd_size ks <? 0)%Z; [apply erases_quiet|]. apply erases_pixel. apply erases_bind; [apply erases_quiet|intros l]. apply erases_border.
Qed.
Lemma comp_erase rnd tg px al wl na nr nphi normalize ks sup :
  erases (get_psf_kernel_comp_w rnd tg px al wl na nr nphi normalize ks sup) (get_psf_kernel_comp rnd tg px al wl na nr nphi normalize ks).
Proof.
  unfold get_psf_kernel_comp_w, get_psf_kernel_comp. apply erases_bind; [apply erases_quiet|intros k].
  cbv zeta. apply erases_show. destruct (odd_size ks <? 0)%Z; [apply erases_quiet|]. apply erases_bind; [apply erases_quiet|intros ph].
  apply erases_pixel. apply erases_bind; [apply erases_quiet|intros l]. apply erases_border.
Qed.
Lemma calculate_erase rnd jv1 fuel sup nz acc inst o s :
  let '(s', (ws, (o', r))) := calculate_psf_kernel_w rnd jv1 fuel sup nz acc inst o s in calculate_psf_kernel rnd jv1 fuel sup nz acc inst o s = (s', (o', r)).
Proof.
  unfold calculate_psf_kernel_w, calculate_psf_kernel. cbv zeta. set (o1 := if negb (props_set o) && negb sup then with_kernel_size 19 o else o). clearbody o1.
  destruct (zpol o1) as [p|].
  - destruct (use_numba acc inst).
    + rewrite comp_erase with (sup := sup). destruct (get_psf_kernel_comp_w _ _ _ _ _ _ _ _ _ _ _ s) as (s1 & w & [K|e]); reflexivity.
    + rewrite single_erase with (sup := sup). destruct (get_psf_kernel_w _ _ _ _ _ _ _ _ _ _ _ _ _ _ _ s) as (s1 & w & [K|e]); reflexivity.
  - destruct (polynomials o1) as [|p ps]; [reflexivity|]. destruct (amplitudes o1) as [amps|]; [|reflexivity]. destruct (use_numba acc inst).
    + rewrite comp_erase with (sup := sup). destruct (get_psf_kernel_comp_w _ _ _ _ _ _ _ _ _ _ _ s) as (s1 & w & [K|e]); reflexivity.
    + rewrite zerns_erase with (sup := sup). destruct (get_psf_kernel_zerns_w _ _ _ _ _ _ _ _ _ _ _ _ s) as (s1 & w & [K|e]); reflexivity.
Qed.

(** ** the border *)
Lemma above_iff l limit : l <> [] -> fltb (Fin limit) (fmax_list (map Fin l)) = true <-> exists x, In x l /\ limit < x.
Proof.
  intros N. destruct l as [|x l]; [elim N; reflexivity|]. cbn [map fmax_list]. rewrite fmax_Fin. cbn [fltb]. unfold Rltb.
  destruct (fold_max l x) as [U I]. destruct (Rlt_dec limit (fold_left Rmax l x)) as [L|L]; split; intros H; try reflexivity; try discriminate.
  - exists (fold_left Rmax l x). auto.
  - destruct H as (y & Hy & Y). apply U in Hy. lra.
Qed.
Lemma line_max (f : Z -> R) n : (0 < n)%Z -> exists M, fmax_list (map Fin (map f (zrange 0 (Z.to_nat n)))) = Fin M /\ forall limit, limit < M <-> exists t, (0 <= t < n)%Z /\ limit < f t.
Proof.
  intros N. assert (NE : map f (zrange 0 (Z.to_nat n)) <> []) by (destruct (Z.to_nat n) eqn:E; [lia|discriminate]). remember (map f (zrange 0 (Z.to_nat n))) as l eqn:EL.
  destruct l as [|x l]; [contradiction|]. exists (fold_left Rmax l x). split; [cbn [map fmax_list]; apply fmax_Fin|]. intros limit. destruct (fold_max l x) as [U I]. split.
  - intros L. rewrite EL in I. apply In_line in I. destruct I as (t & B & E). exists t. split; [exact B|]. rewrite E. exact L.
  - intros (t & B & L). assert (IN : In (f t) (x :: l)) by (rewrite EL; apply In_line; exists t; auto). apply U in IN. lra.
Qed.
Lemma entry_inside {A} (K : list (list A)) n i j x : square K n -> (0 <= i)%Z -> (0 <= j)%Z -> entry K i j = Some x -> (i < n)%Z /\ (j < n)%Z.
Proof.
  intros [L F] Hi Hj E. unfold entry in E. destruct (nth_error K (Z.to_nat i)) as [r|] eqn:ER; [|discriminate]. assert (IR := nth_error_In _ _ ER).
  rewrite Forall_forall in F. specialize (F r IR). assert (B1 : (Z.to_nat i < length K)%nat) by (apply nth_error_Some; congruence). assert (B2 : (Z.to_nat j < length r)%nat) by (apply nth_error_Some; congruence). lia.
Qed.
Lemma bright_finite n v K : (0 < n)%Z -> holds_raw K n v -> border_is_bright K = true <-> cut_off K.
Proof.
  intros N HK. assert (RT := raw_table K n v ltac:(lia) HK). destruct HK as (SQ & HE). assert (LK : Z.of_nat (length K) = n) by (destruct SQ as [L _]; exact L).
  unfold border_is_bright, cut_off. rewrite LK. cbv zeta. destruct (max_of v n N) as (M & [U (i0 & j0 & Hi0 & Hj0 & E0)] & EM). rewrite <- RT in EM. rewrite EM. cbn [fscale].
  rewrite RT at 1 2 3 4. rewrite !table_row, !table_column by lia.
  destruct (line_max (fun i => v i 0%Z) n N) as (m1 & -> & H1). destruct (line_max (fun j => v 0%Z j) n N) as (m2 & -> & H2).
  destruct (line_max (fun i => v i (n - 1)%Z) n N) as (m3 & -> & H3). destruct (line_max (fun j => v (n - 1)%Z j) n N) as (m4 & -> & H4).
  change [Fin m1; Fin m2; Fin m3; Fin m4] with (map Fin [m1; m2; m3; m4]). rewrite above_iff by discriminate.
  assert (ALL : forall u, / 20 * M < u -> forall i' j' x, (0 <= i')%Z -> (0 <= j')%Z -> entry K i' j' = Some x -> exists w, x = Fin w /\ w / 20 < u).
  { intros u Hu i' j' x Hi Hj E. destruct (entry_inside K n i' j' x SQ Hi Hj E) as (Bi & Bj). rewrite HE in E by lia. injection E as <-. eexists. split; [reflexivity|]. specialize (U i' j' ltac:(lia) ltac:(lia)). lra. }
  split.
  - intros (x & IN & L). assert (C : / 20 * M < m1 \/ / 20 * M < m2 \/ / 20 * M < m3 \/ / 20 * M < m4) by (cbn [In] in IN; destruct IN as [<- | [<- | [<- | [<- | []]]]]; auto).
    destruct C as [C|[C|[C|C]]]; [apply H1 in C|apply H2 in C|apply H3 in C|apply H4 in C]; destruct C as (t & B & C).
    + exists t, 0%Z, (v t 0%Z). split; [apply HE; lia|]. split; [lia|]. split; [lia|]. split; [unfold on_border; lia|]. apply ALL, C.
    + exists 0%Z, t, (v 0%Z t). split; [apply HE; lia|]. split; [lia|]. split; [lia|]. split; [unfold on_border; lia|]. apply ALL, C.
    + exists t, (n - 1)%Z, (v t (n - 1)%Z). split; [apply HE; lia|]. split; [lia|]. split; [lia|]. split; [unfold on_border; lia|]. apply ALL, C.
    + exists (n - 1)%Z, t, (v (n - 1)%Z t). split; [apply HE; lia|]. split; [lia|]. split; [lia|]. split; [unfold on_border; lia|]. apply ALL, C.
  - intros (i & j & u & E & Hi & Hj & B & A). destruct (entry_inside K n i j _ SQ Hi Hj E) as (Bi & Bj). rewrite HE in E by lia. injection E as <-.
    destruct (A i0 j0 (Fin (v i0 j0)) ltac:(lia) ltac:(lia) ltac:(apply HE; lia)) as (w & EW & LW). injection EW as <-. rewrite E0 in LW.
    assert (C : / 20 * M < v i j) by lra. unfold on_border in B. destruct B as [-> | [-> | [-> | -> ]]].
    + exists m2. split; [cbn [In]; auto|]. apply H2. exists j. split; [lia|exact C].
    + exists m4. split; [cbn [In]; auto|]. apply H4. exists j. split; [lia|exact C].
    + exists m1. split; [cbn [In]; auto|]. apply H1. exists i. split; [lia|exact C].
    + exists m3. split; [cbn [In]; auto|]. apply H3. exists i. split; [lia|exact C].
Qed.
(** a kernel with values that are no numbers is not reported *)
Lemma bright_nan K : fmax_list (concat K) = NaN -> border_is_bright K = false.
Proof. intros E. unfold border_is_bright. rewrite E. reflexivity. Qed.
Lemma all_fin_max l : Forall (fun x => exists u, x = Fin u) l -> l <> [] -> fmax_list l <> NaN.
Proof.
  intros F N. assert (H : exists xs, l = map Fin xs).
  { clear N. induction F as [|x l (u & ->) F (xs & ->)]; [exists []; reflexivity|exists (u :: xs); reflexivity]. }
  destruct H as (xs & ->). destruct xs as [|x xs]; [contradiction|]. cbn [map fmax_list]. rewrite fmax_Fin. discriminate.
Qed.
Lemma bright_iff K : kgood K -> border_is_bright K = true <-> cut_off K.
Proof.
  intros G. destruct (kgood_cases K G) as [(n & v & [O _] & HK & _)|NN].
  - apply (bright_finite n v K); [lia|exact HK].
  - rewrite (bright_nan K NN). split; [discriminate|]. intros (i & j & v & E & Hi & Hj & _ & A). exfalso. destruct G as [(n & _ & SQ) _].
    apply (all_fin_max (concat K)); [| |exact NN].
    + apply Forall_forall. intros x H. apply in_concat in H. destruct H as (r & IR & IX). apply In_nth_error in IR, IX. destruct IR as (a & EA), IX as (b & EB).
      destruct (A (Z.of_nat a) (Z.of_nat b) x ltac:(lia) ltac:(lia)) as (u & -> & _); [unfold entry; rewrite !Nat2Z.id, EA; exact EB|eauto].
    + intros EC. unfold entry in E. destruct (nth_error K (Z.to_nat i)) as [r|] eqn:ER; [|discriminate]. apply nth_error_In in ER, E.
      assert (IN : In (Fin v) (concat K)) by (apply in_concat; exists r; auto). rewrite EC in IN. exact IN.
Qed.
