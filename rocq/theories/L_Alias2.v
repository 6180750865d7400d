(** Lemmas for C60: calculations do not depend on the stored kernel and coefficients. *)
From Coq Require Import Reals Lra Lia List Bool.
From Verif Require Import Py M_Index M_Init M_Radial M_Coeffs M_Sum M_Geo M_Fit M_Psf M_Numba M_PsfClass M_Img M_Alias SpecAlias L_Alias.
Import ListNotations.
Local Open Scope R_scope.

(** the object without its kernel and its coefficients *)
Definition forget (v : zernpsf) : zernpsf := with_kern [] (with_coefficients None v).
Definition alike {A} (x y : zernpsf * A) : Prop := forget (fst x) = forget (fst y) /\ snd x = snd y.
Lemma forget_split v w : forget v = forget w -> w = with_kern (kern w) (with_coefficients (coefficients w) v).
Proof. destruct v, w. unfold forget. cbn. intros [=]. subst. reflexivity. Qed.
Lemma forget_fields v w : forget v = forget w -> zpol v = zpol w /\ polynomials v = polynomials w /\ amplitudes v = amplitudes w.
Proof. destruct v, w. unfold forget. cbn. intros [=]. subst. repeat split. Qed.

Lemma alike_coeff c v w : forget v = forget w -> alike (set_coeff c v) (set_coeff c w).
Proof.
  intros H. rewrite (forget_split _ _ H). unfold set_coeff. cbn [zpol polynomials with_kern with_coefficients]. destruct c as [a|l|e].
  - destruct (zpol v); [split; reflexivity|]. destruct (polynomials v) as [|x [|y t]]; split; reflexivity.
  - destruct (_ =? _)%nat; [destruct l; split; reflexivity|]. destruct l as [|x [|y l]]; [split; reflexivity| |split; reflexivity]. destruct (polynomials v); split; reflexivity.
  - destruct (zpol v); [split; reflexivity|]. destruct (polynomials v) as [|x [|y t]]; split; reflexivity.
Qed.
Lemma alike_estimate v w : forget v = forget w -> alike (estimate_size v) (estimate_size w).
Proof.
  intros H. rewrite (forget_split _ _ H). unfold estimate_size. cbn [zpol polynomials amplitudes pixel_size alpha wavelength NA with_kern with_coefficients]. destruct (zpol v); [destruct (get_kernel_size _ _ _ _ _); split; reflexivity|].
  destruct (polynomials v) as [|x t]; destruct (amplitudes v); try (split; reflexivity); destruct (max_sizes _ _ _ _ _ _ _) as [[mx ma]|e]; split; reflexivity.
Qed.
Lemma alike_physical na wl c px v w : forget v = forget w -> alike (set_physical_props na wl c px v) (set_physical_props na wl c px w).
Proof.
  intros H. unfold set_physical_props. destruct (_ || _); [split; [exact H|reflexivity]|]. destruct (Rleb wl 0); [split; [exact H|reflexivity]|]. cbv zeta. rewrite (forget_split _ _ H).
  cbn [wavelength with_kern with_coefficients]. destruct (pydiv _ _) as [nyq|e]; [|split; reflexivity]. destruct (Rleb px 0); [split; reflexivity|]. destruct (Rltb nyq px); [split; reflexivity|].
  match goal with |- context [match set_coeff c ?x with _ => _ end] => match goal with |- alike _ (match set_coeff c ?y with _ => _ end) => assert (AC := alike_coeff c x y eq_refl); destruct (set_coeff c x) as [v2 [u|e]], (set_coeff c y) as [w2 [u'|e']] end end;
    destruct AC as [A1 A2]; cbn [fst snd] in A1, A2; try discriminate A2; [|split; assumption]. apply alike_estimate, A1.
Qed.
Lemma alike_calculation ks nr nphi v w : forget v = forget w -> alike (set_calculation_props ks nr nphi v) (set_calculation_props ks nr nphi w).
Proof.
  intros H. rewrite (forget_split _ _ H). unfold set_calculation_props. destruct (ks <? 3)%Z; [split; reflexivity|]. cbv zeta. destruct (nr <? 20)%Z; [split; reflexivity|]. destruct (nphi <? 36)%Z; split; reflexivity.
Qed.
Lemma alike_calculate rnd jv1 fuel su nm ac inst s v w : forget v = forget w -> (zpol v = None -> polynomials v <> []) ->
  let x := calculate_psf_kernel rnd jv1 fuel su nm ac inst v s in let y := calculate_psf_kernel rnd jv1 fuel su nm ac inst w s in fst x = fst y /\ alike (snd x) (snd y).
Proof.
  intros H NE. rewrite (forget_split _ _ H). cbv zeta. unfold calculate_psf_kernel. cbv zeta. cbn [props_set with_kern with_coefficients]. destruct (negb (props_set v) && negb su); cbn [zpol polynomials amplitudes pixel_size wavelength NA n_int_r n_int_phi kernel_size expansion_coeff airy with_kern with_coefficients with_kernel_size].
  all: destruct (zpol v) as [p|];
    [match goal with |- context [match ?x with (_, _) => _ end] => match type of x with (_ * res kernel)%type => destruct x as [s' [K|e]] end end; split; try reflexivity; split; reflexivity|].
  all: destruct (polynomials v) as [|p ps]; [exfalso; apply NE; reflexivity|]; destruct (amplitudes v) as [am|];
    match goal with |- context [match ?x with (_, _) => _ end] => match type of x with (_ * res kernel)%type => destruct x as [s' [K|e]] end end; split; try reflexivity; split; reflexivity.
Qed.
Lemma alike_parallel rnd fuel wk nm s v w : forget v = forget w ->
  let x := get_kernel_parallel rnd fuel wk nm v s in let y := get_kernel_parallel rnd fuel wk nm w s in fst x = fst y /\ alike (snd x) (snd y).
Proof.
  intros H. rewrite (forget_split _ _ H). cbv zeta. unfold get_kernel_parallel. cbn [zpol kernel_size alpha n_int_r n_int_phi k NA pixel_size with_kern with_coefficients].
  destruct (zpol v); [|split; [reflexivity|split; reflexivity]]. destruct (_ <? 3)%Z; [split; [reflexivity|split; reflexivity]|]. destruct (fill_kernel _ _ _ _ _ s) as [s' [l|]]; (split; [reflexivity|split; reflexivity]).
Qed.
Lemma alike_read_pols j v w : forget v = forget w -> alike (read_pols j v) (read_pols j w).
Proof.
  intros H. rewrite (forget_split _ _ H). unfold read_pols. destruct (j_pol j) as [i|].
  - destruct (pol_of_osa i) as [q|q]; [|split; reflexivity]. destruct (j_pols j) as [[|a [|b l]]|]; try (split; reflexivity).
    + destruct (pol_of_osa a); split; reflexivity.
    + destruct (mapR pol_of_osa (a :: b :: l)); split; reflexivity.
  - destruct (j_pols j) as [[|a [|b l]]|]; try (split; reflexivity).
    + destruct (pol_of_osa a); split; reflexivity.
    + destruct (mapR pol_of_osa (a :: b :: l)); split; reflexivity.
Qed.
Lemma alike_read j v w : forget v = forget w -> alike (read_json j v) (read_json j w).
Proof.
  intros H. unfold read_json. cbv zeta.
  match goal with |- context [match read_pols j ?x with _ => _ end] => match goal with |- alike _ (match read_pols j ?y with _ => _ end) => assert (AC : alike (read_pols j x) (read_pols j y)); [|destruct (read_pols j x) as [v2 [u|e]], (read_pols j y) as [w2 [u'|e']]] end end.
  { apply alike_read_pols. rewrite (forget_split _ _ H). destruct (j_nphi j), (j_nr j), (j_size j), (j_kernel j); reflexivity. }
  all: destruct AC as [A1 A2]; cbn [fst snd] in A1, A2; try discriminate A2.
  2: split; assumption.
  destruct (j_na j) as [na|]; [|split; [assumption|reflexivity]]. destruct (j_wl j) as [wl|]; [|split; [assumption|reflexivity]]. destruct (j_px j) as [px|]; [|split; [assumption|reflexivity]].
  destruct (j_coeff j) as [a|]; destruct (j_amps j) as [l|]; try (split; [assumption|reflexivity]); (destruct (is_some _ && _ && _ && _); [apply alike_physical; exact A1|split; [exact A1|reflexivity]]).
Qed.
(** polynomials are there when there is no single one *)
Definition some_pols (v : zernpsf) : Prop := zpol v = None -> polynomials v <> [].
Lemma some_calculate rnd jv1 fuel su nm ac inst s v : some_pols v -> some_pols (fst (snd (calculate_psf_kernel rnd jv1 fuel su nm ac inst v s))).
Proof.
  intros H. unfold calculate_psf_kernel. cbv zeta. set (o1 := if negb (props_set v) && negb su then with_kernel_size 19 v else v).
  assert (H1 : some_pols o1) by (unfold o1; destruct (_ && _); exact H). match goal with |- context [match ?x with (_, _) => _ end] => match type of x with (_ * res kernel)%type => destruct x as [s' [K|e]] end end; exact H1.
Qed.
Lemma some_parallel rnd fuel w nm s v : some_pols v -> some_pols (fst (snd (get_kernel_parallel rnd fuel w nm v s))).
Proof.
  unfold get_kernel_parallel. intros H. destruct (zpol v) eqn:EZ; [|exact H]. destruct (_ <? 3)%Z; [exact H|]. destruct (fill_kernel _ _ _ _ _ s) as [s' [l|]]; exact H.
Qed.
Lemma some_same v v' : zpol v' = zpol v -> polynomials v' = polynomials v -> some_pols v -> some_pols v'.
Proof. unfold some_pols. intros -> ->. exact (fun H => H). Qed.
Lemma some_coeff c v : zpol (fst (set_coeff c v)) = zpol v.
Proof.
  unfold set_coeff. destruct c as [a|l|e].
  - destruct (zpol v) eqn:E; [exact E|]. destruct (polynomials v) as [|x [|y t]]; exact E.
  - destruct (_ =? _)%nat; [destruct l; reflexivity|]. destruct l as [|x [|y l]]; [reflexivity| |reflexivity]. destruct (polynomials v); reflexivity.
  - destruct (zpol v) eqn:E; [exact E|]. destruct (polynomials v) as [|x [|y t]]; exact E.
Qed.
Lemma some_estimate v : zpol (fst (estimate_size v)) = zpol v.
Proof.
  unfold estimate_size. destruct (zpol v) eqn:E; [destruct (get_kernel_size _ _ _ _ _); exact E|]. destruct (polynomials v) as [|x t]; destruct (amplitudes v); try exact E; destruct (max_sizes _ _ _ _ _ _ _) as [[mx ma]|e]; exact E.
Qed.
Lemma some_physical na wl c px v : zpol (fst (set_physical_props na wl c px v)) = zpol v.
Proof.
  unfold set_physical_props. destruct (_ || _); [reflexivity|]. destruct (Rleb wl 0); [reflexivity|]. cbv zeta. destruct (pydiv _ _); [|reflexivity]. destruct (Rleb px 0); [reflexivity|]. destruct (Rltb _ px); [reflexivity|].
  match goal with |- context [set_coeff c ?x] => assert (E := some_coeff c x); change (zpol x) with (zpol v) in E; destruct (set_coeff c x) as [v2 [u|e]] end; cbn [fst] in *; [rewrite some_estimate|]; exact E.
Qed.
Lemma some_read j v : j_pols j <> Some [] -> some_pols v -> some_pols (fst (read_json j v)).
Proof.
  intros NJ H. unfold read_json. cbv zeta. set (v1 := opt (j_nphi j) with_n_int_phi _).
  assert (H1 : some_pols v1) by (unfold v1; destruct (j_nphi j), (j_nr j), (j_size j), (j_kernel j); exact H).
  assert (H2 : some_pols (fst (read_pols j v1))).
  { unfold read_pols. destruct (j_pol j) as [i|].
    - destruct (pol_of_osa i) as [q|q]; [|exact H1]. destruct (j_pols j) as [[|a [|b l]]|]; [contradiction| | |intros X; discriminate X].
      + destruct (pol_of_osa a); intros X; discriminate X.
      + cbn [mapR bind]. destruct (pol_of_osa a); [|intros X; discriminate X]. destruct (pol_of_osa b); [|intros X; discriminate X]. cbn [bind]. destruct (mapR pol_of_osa l); cbn [bind]; intros X; discriminate.
    - destruct (j_pols j) as [[|a [|b l]]|]; [contradiction| | |exact H1].
      + destruct (pol_of_osa a); [intros X; discriminate X|exact H1].
      + cbn [mapR bind]. destruct (pol_of_osa a); [|exact H1]. destruct (pol_of_osa b); [|exact H1]. cbn [bind]. destruct (mapR pol_of_osa l); cbn [bind]; [intros X; discriminate|exact H1]. }
  destruct (read_pols j v1) as [v2 [u|e]]; cbn [fst] in *; [|exact H2].
  destruct (j_na j) as [na|]; [|exact H2]. destruct (j_wl j) as [wl|]; [|exact H2]. destruct (j_px j) as [px|]; [|exact H2].
  destruct (j_coeff j) as [a|]; destruct (j_amps j) as [l|]; try exact H2; (destruct (is_some _ && _ && _ && _); [|exact H2]).
  - destruct (physical_keeps na wl (KNum a) px v2) as (_ & P & _). apply (some_same v2); [apply some_physical|exact P|exact H2].
  - destruct (physical_keeps na wl (KSeq l) px v2) as (_ & P & _). apply (some_same v2); [apply some_physical|exact P|exact H2].
Qed.

Definition loose (st : hstate) (o : hobj) (v : zernpsf) : Prop := (exists l, o_pols o = POwn l) /\ forget (deref st o) = forget v /\ some_pols v.
Lemma loose_st st st' o v : loose st o v -> loose st' o v.
Proof. intros ([l E] & F & S0). split; [exists l; exact E|]. split; [|exact S0]. rewrite <- F. unfold deref, forget. rewrite E. reflexivity. Qed.
Lemma loose_new st' o v k c w (l : list (Z * Z)) : o_pols o = POwn l -> polynomials v = l -> forget v = forget w -> some_pols w -> loose st' (HObj v k c (o_pols o)) w.
Proof.
  intros E1 E2 F S0. split; [exists l; exact E1|]. split; [|exact S0]. rewrite <- F. unfold deref, forget. cbn [base o_kernel o_coeffs o_pols]. rewrite E1. cbn [pols_of]. subst l. destruct v. reflexivity.
Qed.
Record rel2 (st : hstate) (vs : vstate) : Prop := {
  q_arrays : v_arrays vs = arrays st; q_lists : v_lists vs = lists st; q_caches : v_caches vs = caches st; q_objs : Forall2 (loose st) (objs st) (v_objs vs) }.
Lemma loose_all st st' l l' : Forall2 (loose st) l l' -> Forall2 (loose st') l l'.
Proof. apply Forall2_impl'. intros x y _. apply loose_st. Qed.
Lemma rel2_put st st' vs i o v ar li s' : rel2 st vs -> objs st' = objs st -> arrays st' = ar -> lists st' = li -> caches st' = s' -> v_arrays vs = ar -> v_lists vs = li -> loose st' o v ->
  rel2 (with_objs (upd i o (objs st')) st') (VState ar li (upd i v (v_objs vs)) s').
Proof. intros [H1 H2 H3 H4] EO EA EL EC EVA EVL R1. constructor; cbn; try congruence. rewrite EO. apply Forall2_upd; [|exact R1]. exact (loose_all st _ _ _ H4). Qed.
Lemma deref_pols st o l : o_pols o = POwn l -> polynomials (deref st o) = l.
Proof. intros E. unfold deref. cbn. rewrite E. reflexivity. Qed.
(** either two equal answers, or answers that show stored data *)
Definition agree (x y : out) : Prop := calculated x \/ calculated y -> x = y.
Lemma loose_step rnd jv1 fuel c st vs : rel2 st vs -> shares_no_list c ->
  agree (fst (hstep rnd jv1 fuel c st)) (fst (vstep rnd jv1 fuel c vs)) /\ rel2 (snd (hstep rnd jv1 fuel c st)) (snd (vstep rnd jv1 fuel c vs)).
Proof.
  intros RL SN. assert (RL' := RL). destruct RL' as [H1 H2 H3 H4]. destruct vs as [ar li ob s]. cbn in H1, H2, H3, H4. subst ar li s. assert (NTH := Forall2_nth _ _ _ H4).
  assert (KEEP : forall i o, nth_error (objs st) i = Some o -> exists v, nth_error ob i = Some v /\ loose st o v).
  { intros i o E. specialize (NTH i). rewrite E in NTH. destruct (nth_error ob i) as [v|]; [exists v; split; [reflexivity|exact NTH]|contradiction]. }
  assert (NONE : forall i, nth_error (objs st) i = None -> nth_error ob i = None).
  { intros i E. specialize (NTH i). rewrite E in NTH. destruct (nth_error ob i); [contradiction|reflexivity]. }
  assert (EQ : forall x, agree x x) by (intros x _; reflexivity).
  destruct c as [l|l|b K|a l|p l|a|i na wl c px|i ks nr nphi|i su nm ac inst|i w nm|i part|i|i j|i|i eps cast t img sc]; cbn [hstep vstep fst snd].
  - split; [apply EQ|]. constructor; cbn; try reflexivity. exact (loose_all st _ _ _ H4).
  - split; [apply EQ|]. constructor; cbn; try reflexivity. exact (loose_all st _ _ _ H4).
  - split; [apply EQ|]. constructor; cbn; try reflexivity. exact (loose_all st _ _ _ H4).
  - split; [apply EQ|]. constructor; cbn; try reflexivity. exact (loose_all st _ _ _ H4).
  - split; [apply EQ|]. constructor; cbn; try reflexivity. exact (loose_all st _ _ _ H4).
  - destruct (arg_made (lists st) a) eqn:AM; [|split; [apply EQ|exact RL]]. unfold h_new. destruct (zernpsf_init (harg_value (lists st) a)) as [v|e] eqn:EI; cbn [bind]; [|split; [apply EQ|exact RL]].
    split; [apply EQ|]. destruct (init_keeps _ _ EI) as (I1 & I2 & I3 & I4). constructor; cbn [arrays lists caches objs bufs v_arrays v_lists v_objs v_caches snd with_objs]; try reflexivity.
    apply Forall2_app; [exact (loose_all st _ _ _ H4)|]. constructor; [|constructor]. destruct a as [x|l|p]; [| |contradiction].
    + split; [eexists; reflexivity|]. split; [unfold forget, deref; cbn; destruct v; reflexivity|]. intros Z0. destruct (I3 Z0) as (ps & _ & -> & N). exact N.
    + split; [eexists; reflexivity|]. split; [unfold forget, deref; cbn; destruct v; reflexivity|]. intros Z0. destruct (I3 Z0) as (ps & _ & -> & N). exact N.
  - destruct (coeff_made (arrays st) c) eqn:CM; [|split; [apply EQ|exact RL]]. destruct (nth_error (objs st) i) as [o|] eqn:EO; [|rewrite (NONE _ EO); split; [apply EQ|exact RL]].
    destruct (KEEP _ _ EO) as (v & -> & ([l EL] & F & S0)). unfold h_physical. cbv zeta. assert (A := alike_physical na wl (hcoeff_value (arrays st) c) px _ _ F). assert (PK := physical_keeps na wl (hcoeff_value (arrays st) c) px (deref st o)).
    assert (S1 := some_physical na wl (hcoeff_value (arrays st) c) px v). assert (S2 := physical_keeps na wl (hcoeff_value (arrays st) c) px v).
    destruct (set_physical_props _ _ _ _ (deref st o)) as [u1 r1], (set_physical_props _ _ _ _ v) as [u2 r2]. destruct A as [A1 A2]. cbn [fst snd] in *. subst r2. split; [apply EQ|].
    apply (rel2_put st st _ i _ u2 _ _ _ RL); try reflexivity. apply (loose_new st o u1 _ _ u2 l EL); [rewrite (proj1 (proj2 PK)); apply deref_pols, EL|exact A1|]. exact (some_same v u2 S1 (proj1 (proj2 S2)) S0).
  - destruct (nth_error (objs st) i) as [o|] eqn:EO; [|rewrite (NONE _ EO); split; [apply EQ|exact RL]].
    destruct (KEEP _ _ EO) as (v & -> & ([l EL] & F & S0)). unfold h_calculation. assert (A := alike_calculation ks nr nphi _ _ F). assert (PK := calculation_keeps ks nr nphi (deref st o)). assert (S2 := calculation_keeps ks nr nphi v).
    assert (S1 : zpol (fst (set_calculation_props ks nr nphi v)) = zpol v) by (unfold set_calculation_props; destruct (ks <? 3)%Z; [reflexivity|]; cbv zeta; destruct (nr <? 20)%Z; [reflexivity|]; destruct (nphi <? 36)%Z; reflexivity).
    destruct (set_calculation_props _ _ _ (deref st o)) as [u1 r1], (set_calculation_props _ _ _ v) as [u2 r2]. destruct A as [A1 A2]. cbn [fst snd] in *. subst r2. split; [apply EQ|].
    apply (rel2_put st st _ i _ u2 _ _ _ RL); try reflexivity. apply (loose_new st o u1 _ _ u2 l EL); [rewrite (proj1 (proj2 PK)); apply deref_pols, EL|exact A1|]. exact (some_same v u2 S1 (proj1 (proj2 S2)) S0).
  - destruct (nth_error (objs st) i) as [o|] eqn:EO; [|rewrite (NONE _ EO); split; [apply EQ|exact RL]].
    destruct (KEEP _ _ EO) as (v & -> & ([l EL] & F & S0)). unfold h_calculate. cbv zeta.
    assert (NE : zpol (deref st o) = None -> polynomials (deref st o) <> []) by (destruct (forget_fields _ _ F) as (-> & -> & _); exact S0).
    destruct (alike_calculate rnd jv1 fuel su nm ac inst (caches st) _ _ F NE) as [A0 A]. assert (PK := calculate_keeps rnd jv1 fuel su nm ac inst (deref st o) (caches st)). assert (S1 := some_calculate rnd jv1 fuel su nm ac inst (caches st) v S0).
    destruct (calculate_psf_kernel _ _ _ _ _ _ _ (deref st o) _) as [s1 [u1 r1]], (calculate_psf_kernel _ _ _ _ _ _ _ v _) as [s2 [u2 r2]]. cbn [fst snd] in *. destruct A as [A1 A2]. cbn [fst snd] in *. subst r2 s2. cbv zeta in PK. cbn [fst snd] in PK. destruct PK as (P1 & _ & _ & _).
    assert (EP : polynomials u1 = l) by (rewrite P1; apply deref_pols, EL).
    destruct r1 as [K|e].
    + destruct (zpol (deref st o)), (polynomials (deref st o)); cbn [fst snd new_buf]; (split; [apply EQ|]); (apply (rel2_put st _ _ i _ u2 _ _ _ RL); try reflexivity; apply (loose_new _ o u1 _ _ u2 l EL); assumption).
    + split; [apply EQ|]. apply (rel2_put st _ _ i _ u2 _ _ _ RL); try reflexivity. apply (loose_new _ o u1 _ _ u2 l EL); assumption.
  - destruct (nth_error (objs st) i) as [o|] eqn:EO; [|rewrite (NONE _ EO); split; [apply EQ|exact RL]].
    destruct (KEEP _ _ EO) as (v & -> & ([l EL] & F & S0)). unfold h_parallel. destruct (alike_parallel rnd fuel w nm (caches st) _ _ F) as [A0 A]. assert (PK := parallel_keeps rnd fuel w nm (deref st o) (caches st)). assert (S1 := some_parallel rnd fuel w nm (caches st) v S0).
    destruct (get_kernel_parallel _ _ _ _ (deref st o) _) as [s1 [u1 r1]], (get_kernel_parallel _ _ _ _ v _) as [s2 [u2 r2]]. cbn [fst snd] in *. destruct A as [A1 A2]. cbn [fst snd] in *. subst r2 s2. cbv zeta in PK. cbn [fst snd] in PK. destruct PK as (P1 & _ & _).
    assert (EP : polynomials u1 = l) by (rewrite P1; apply deref_pols, EL).
    destruct r1 as [K|e]; cbn [fst snd new_buf]; (split; [apply EQ|]); (apply (rel2_put st _ _ i _ u2 _ _ _ RL); try reflexivity; apply (loose_new _ o u1 _ _ u2 l EL); assumption).
  - contradiction.
  - destruct (nth_error (objs st) i) as [o|] eqn:EO; [|rewrite (NONE _ EO); split; [apply EQ|exact RL]]. destruct (KEEP _ _ EO) as (v & -> & _). split; [intros [[]|[]]|exact RL].
  - destruct (nth_error (objs st) i) as [o|] eqn:EO; [|rewrite (NONE _ EO); split; [apply EQ|exact RL]].
    destruct (KEEP _ _ EO) as (v & -> & ([l EL] & F & S0)). unfold h_read. cbv zeta. assert (A := alike_read j _ _ F). assert (S1 := some_read j v SN S0). assert (Q := read_keeps j (deref st o)). cbv zeta in Q. destruct Q as (_ & K2 & _).
    match goal with |- context [if ?b then match j_amps j with _ => _ end else _] => generalize b; intros sb end.
    destruct (read_json j (deref st o)) as [u1 r1], (read_json j v) as [u2 r2]. destruct A as [A1 A2]. cbn [fst snd] in *. subst r2.
    assert (LN : forall st' k c, loose st' (HObj u1 k c (if reads_pols j then POwn (polynomials u1) else o_pols o)) u2).
    { intros st' k0 c0. destruct (reads_pols j).
      - exact (loose_new st' (HObj u1 k0 c0 (POwn (polynomials u1))) u1 k0 c0 u2 (polynomials u1) eq_refl eq_refl A1 S1).
      - apply (loose_new st' o u1 _ _ u2 l EL); [rewrite (K2 eq_refl); apply deref_pols, EL|exact A1|exact S1]. }
    destruct (j_kernel j) as [K|]; cbn [fst snd new_buf]; (split; [apply EQ|]); (apply (rel2_put st _ _ i _ u2 _ _ _ RL); try reflexivity; apply LN).
  - destruct (nth_error (objs st) i) as [o|] eqn:EO; [|rewrite (NONE _ EO); split; [apply EQ|exact RL]]. destruct (KEEP _ _ EO) as (v & -> & _). split; [intros [[]|[]]|exact RL].
  - destruct (nth_error (objs st) i) as [o|] eqn:EO; [|rewrite (NONE _ EO); split; [apply EQ|exact RL]]. destruct (KEEP _ _ EO) as (v & -> & _). split; [intros [[]|[]]|exact RL].
Qed.
Lemma loose_run rnd jv1 fuel prog : forall st vs, rel2 st vs -> Forall shares_no_list prog -> Forall2 agree (fst (hrun rnd jv1 fuel prog st)) (fst (vrun rnd jv1 fuel prog vs)).
Proof.
  induction prog as [|c tl IH]; intros st vs RL CF; [constructor|]. inversion CF as [|? ? C1 C2]; subst. cbn [hrun vrun]. destruct (loose_step rnd jv1 fuel c st vs RL C1) as [E1 E2].
  destruct (hstep rnd jv1 fuel c st) as [x st1], (vstep rnd jv1 fuel c vs) as [y vs1]. cbn [fst snd] in *. specialize (IH st1 vs1 E2 C2).
  destruct (hrun rnd jv1 fuel tl st1) as [xs st2], (vrun rnd jv1 fuel tl vs1) as [ys vs2]. cbn [fst snd] in *. constructor; assumption.
Qed.
