(** Property theorems C75: force_get_psf_compilation. [rnd]: exact or binary64 positions of the quadrature nodes. *)
From Coq Require Import Reals Lra Lia Psatz.
From Flocq Require Import Core.
From Verif Require Import Py SpecIndex SpecRadial M_Index M_Init M_Radial M_Coeffs SpecCoeffs M_Sum SpecSum L_Sum M_Polar L_Polar M_Geo SpecGeo L_Geo M_Fit L_Fit
  M_Psf SpecPsf L_Psf L_PsfKernel P_Psf M_Numba L_Numba SpecFloatPsf M_PsfClass SpecPsfClass L_PsfClass L_PsfObj L_PsfSet SpecWeak P_Weak M_Force.
Local Open Scope R_scope.

(** without numba: a warning and None, nothing changes *)
Theorem C75_without_numba : forall rnd jv1 fuel ver compiled s,
  force_get_psf_compilation rnd jv1 fuel false ver compiled s = (s, ([NoNumba], Ok None, compiled)).
Proof. reflexivity. Qed.
Print Assumptions C75_without_numba.

Lemma then_ok {A B} (x : zernpsf * res A) o a (f : zernpsf -> res B) : x = (o, Ok a) -> then_ x f = f o.
Proof. intros ->. reflexivity. Qed.
Lemma calc_comp_isok rnd jv1 fuel o tg al K s : props_set o = true -> reachable s ->
  (match zpol o with Some p => tg = Single p /\ al = AFloat (expansion_coeff o)
   | None => exists p ps amps, polynomials o = p :: ps /\ amplitudes o = Some amps /\ tg = Several (p :: ps) /\ al = AArr amps end) ->
  isok (get_psf_kernel_comp rnd tg (pixel_size o) al (wavelength o) (NA o) (n_int_r o) (n_int_phi o) true (kernel_size o)) K ->
  exists s', reachable s' /\ calculate_psf_kernel rnd jv1 fuel true true (Some true) true o s = (s', (with_kern K o, Ok K)).
Proof.
  intros PS RS T I. unfold calculate_psf_kernel. rewrite PS. cbn [negb andb use_numba]. cbv zeta. destruct (I s RS) as (R1 & E).
  destruct (zpol o) as [p|].
  - destruct T as (-> & ->). destruct (get_psf_kernel_comp _ _ _ _ _ _ _ _ _ _ s) as (s', r). cbn [fst snd] in *. subst r. exists s'. split; [exact R1|reflexivity].
  - destruct T as (p & ps & amps & -> & -> & -> & ->). destruct (get_psf_kernel_comp _ _ _ _ _ _ _ _ _ _ s) as (s', r). cbn [fst snd] in *. subst r.
    exists s'. split; [exact R1|reflexivity].
Qed.
Lemma proper_one K : proper K 1 -> K = [[Fin 1]].
Proof.
  intros ((L & F) & _ & i & j & Hi & Hj & E). assert (i = 0 /\ j = 0)%Z as (-> & ->) by lia.
  destruct K as [|r [|r' K]]; try (cbn [length] in L; lia). inversion F as [|? ? LR _]; subst.
  destruct r as [|x [|x' r]]; try (cbn [length] in LR; lia). cbn in E. injection E as ->. reflexivity.
Qed.

Lemma valid_a : valid (-1) 1. Proof. split; [lia|split; [lia|exists 0%Z; reflexivity]]. Qed.
Lemma valid_b : valid (-2) 4. Proof. split; [lia|split; [lia|exists 1%Z; reflexivity]]. Qed.
Lemma valid_c : valid 3 3. Proof. split; [lia|split; [lia|exists 0%Z; reflexivity]]. Qed.
Lemma valid_d : valid 0 4. Proof. split; [lia|split; [lia|exists 2%Z; reflexivity]]. Qed.
Lemma single_object : exists ks, force_single = Ok (with_kernel_size 1 (final (2 / 10) (55 / 100) (KNum (42 / 1000)) (55 / 100 / (82 / 100)) ks (with_airy false (with_zpol (Some (-1, 1)%Z) defaults)))).
Proof.
  unfold force_single. change (new_pol (-1) 1) with (Ok (-1, 1)%Z). cbn [bind].
  change (zernpsf_init (COne (IPol (-1, 1)%Z))) with (Ok (with_airy false (with_zpol (Some (-1, 1)%Z) defaults))). cbn [bind].
  set (o := with_airy false (with_zpol (Some (-1, 1)%Z) defaults)).
  assert (I : inv o) by (apply (inv_init (COne (IPol (-1, 1)%Z))); [split; [exact valid_a|lia]|reflexivity]).
  assert (IR : in_range (2 / 10) (55 / 100) (55 / 100 / (82 / 100))) by (unfold in_range; lra).
  destruct (physical_ok (2 / 10) (55 / 100) (KNum (42 / 1000)) _ o I IR ltac:(discriminate)) as (ks & _ & E).
  exists ks. rewrite (then_ok _ _ _ _ E). reflexivity.
Qed.
Definition three : list (Z * Z) := [(-2, 4); (3, 3); (0, 4)]%Z.
Definition three_coeffs : list R := [- (1 / 100); 43 / 1000; 27 / 1000].
Lemma several_object : exists ks, force_several = Ok (with_kernel_size 3 (final (2 / 10) (5 / 10) (KSeq three_coeffs) (5 / 10 / (85 / 100)) ks (with_airy false (with_polynomials three (with_zpol None defaults))))).
Proof.
  unfold force_several. change (new_pol (-2) 4) with (Ok (-2, 4)%Z). change (new_pol 3 3) with (Ok (3, 3)%Z). change (new_pol 0 4) with (Ok (0, 4)%Z). cbn [bind].
  change (zernpsf_init (CSeq [IPol (-2, 4)%Z; IPol (3, 3)%Z; IPol (0, 4)%Z])) with (Ok (with_airy false (with_polynomials three (with_zpol None defaults)))). cbn [bind].
  set (o := with_airy false (with_polynomials three (with_zpol None defaults))).
  assert (I : inv o).
  { apply (inv_init (CSeq [IPol (-2, 4)%Z; IPol (3, 3)%Z; IPol (0, 4)%Z])); [|reflexivity]. cbn [proper_arg].
    constructor; [split; [exact valid_b|lia]|]. constructor; [split; [exact valid_c|lia]|]. constructor; [split; [exact valid_d|lia]|constructor]. }
  assert (IR : in_range (2 / 10) (5 / 10) (5 / 10 / (85 / 100))) by (unfold in_range; lra).
  destruct (physical_ok (2 / 10) (5 / 10) (KSeq three_coeffs) _ o I IR) as (ks & _ & E); [split; [discriminate|left; reflexivity]|].
  exists ks. fold three_coeffs. rewrite (then_ok _ _ _ _ E). reflexivity.
Qed.
(** the amplitudes are weak enough for C74 *)
Lemma single_is_weak : Rabs (42 / 1000 / (55 / 100)) * norm_nm (-1) 1 < PI / 2.
Proof.
  assert (N : norm_nm (-1) 1 = 2) by (unfold norm_nm; cbn [Z.eqb]; replace (2 * (1 + 1) / (1 + 0)) with (2 * 2) by field; apply sqrt_square; lra).
  rewrite N, Rabs_pos_eq by lra. pose proof PI2_3_2. lra.
Qed.
Lemma several_is_weak : size_of (map (fun x => x / (5 / 10)) three_coeffs) three < PI / 2.
Proof.
  unfold three, three_coeffs. cbn [map size_of].
  assert (B : forall m n, (0 <= n <= 4)%Z -> norm_nm m n <= 4).
  { intros m n H. unfold norm_nm. rewrite <- (sqrt_square 4) by lra. apply sqrt_le_1_alt. assert (0 <= IZR n <= 4) by (split; apply IZR_le; lia). destruct (m =? 0)%Z; lra. }
  pose proof (B (-2)%Z 4%Z ltac:(lia)). pose proof (B 3%Z 3%Z ltac:(lia)). pose proof (B 0%Z 4%Z ltac:(lia)).
  rewrite (Rabs_left (- (1 / 100) / (5 / 10))), !Rabs_pos_eq by lra. pose proof PI2_3_2. lra.
Qed.

(** with numba and a version string it can read: the two objects with the stated properties and the calculated kernels, whatever
    was computed before; the first kernel is the array [[1.0]], the second is a proper 3 x 3 kernel *)
Theorem C75_objects : forall rnd jv1 fuel ver w compiled s, placement rnd 320 -> reachable s -> version_check ver = Ok w ->
  exists s' o1 o2, force_get_psf_compilation rnd jv1 fuel true ver compiled s = (s', (w, Ok (Some (o1, o2)), true)) /\ reachable s' /\
    zpol o1 = Some (-1, 1)%Z /\ NA o1 = 2 / 10 /\ wavelength o1 = 55 / 100 /\ expansion_coeff o1 = 42 / 1000 /\ pixel_size o1 = 55 / 82 /\ kern o1 = [[Fin 1]] /\
    zpol o2 = None /\ polynomials o2 = [(-2, 4); (3, 3); (0, 4)]%Z /\ coefficients o2 = Some [- (1 / 100); 43 / 1000; 27 / 1000] /\
    NA o2 = 2 / 10 /\ wavelength o2 = 5 / 10 /\ pixel_size o2 = 10 / 17 /\ kernel_size o2 = 3%Z /\ proper (kern o2) 3.
Proof.
  intros rnd jv1 fuel ver w compiled s PL RS V. unfold force_get_psf_compilation. rewrite V.
  destruct single_object as (k1 & E1). destruct several_object as (k2 & E2). rewrite E1, E2.
  set (O1 := with_kernel_size 1 _). set (O2 := with_kernel_size 3 _).
  assert (V1 : comp_ok (-1, 1)%Z) by (split; [exact valid_a|split; [cbn; lia|cbn; lia]]).
  assert (V2 : Forall comp_ok three).
  { unfold three. constructor; [split; [exact valid_b|cbn; lia]|]. constructor; [split; [exact valid_c|cbn; lia]|].
    constructor; [split; [exact valid_d|cbn; lia]|constructor]. }
  pose proof (comp_single_isok rnd 320 300 (55 / 100) (2 / 10) (55 / 100 / (82 / 100)) (placement_good _ _ PL) ltac:(lia) ltac:(lra) ltac:(lra) (-1, 1)%Z (42 / 1000) true 1%Z V1 ltac:(lia)) as C1.
  pose proof (comp_list_isok rnd 320 300 (5 / 10) (2 / 10) (5 / 10 / (85 / 100)) (placement_good _ _ PL) ltac:(lia) ltac:(lra) ltac:(lra) three (map (fun x => x / (5 / 10)) three_coeffs) true 3%Z ltac:(discriminate) eq_refl V2 ltac:(lia)) as C2.
  set (K1 := finish true _) in C1. set (K2 := finish true _) in C2.
  assert (P1 : proper K1 1).
  { apply weak_table; [exact PL|lia|lia|]. intros x phi X. apply single_weak; [apply V1|exact single_is_weak|exact X]. }
  assert (P2 : proper K2 3).
  { apply weak_table; [exact PL|lia|lia|]. intros x phi X. eapply Rle_lt_trans; [|exact several_is_weak]. apply L_FPsf5.zsum_bound; [|exact X].
    unfold L_Conv2.all_valid. apply Forall_forall. intros p I. rewrite Forall_forall in V2. apply (V2 p I). }
  clearbody K1 K2. apply proper_one in P1. subst K1.
  destruct (calc_comp_isok rnd jv1 fuel O1 (Single (-1, 1)%Z) (AFloat (42 / 1000)) [[Fin 1]] s eq_refl RS (conj eq_refl eq_refl) C1) as (s1 & R1 & Q1).
  destruct (calc_comp_isok rnd jv1 fuel O2 (Several three) (AArr (map (fun x => x / (5 / 10)) three_coeffs)) K2 s1 eq_refl R1) as (s2 & R2 & Q2).
  { cbn. exists (-2, 4)%Z, [(3, 3); (0, 4)]%Z, (map (fun x => x / (5 / 10)) three_coeffs). split; [reflexivity|]. split; [reflexivity|]. split; reflexivity. }
  { exact C2. }
  rewrite Q1, Q2. exists s2, (with_kern [[Fin 1]] O1), (with_kern K2 O2). split; [reflexivity|]. split; [exact R2|].
  repeat (split; [first [reflexivity | cbn; field]|]). exact P2.
Qed.
Print Assumptions C75_objects.

(** ** the version check *)
(** older than 0.57.1, the version the warning recommends *)
Definition older (major minor patch : Z) : Prop := (major < 0 \/ (major = 0 /\ (minor < 57 \/ (minor = 57 /\ patch < 1))))%Z.
Theorem C75_version : forall a b c rest, (0 <= a)%Z -> (0 <= b)%Z -> (0 <= c)%Z ->
  exists w, version_check (Some a :: Some b :: Some c :: rest) = Ok w /\ (w = [] \/ w = [OldNumba]) /\
    (w = [OldNumba] <-> (a = 0 /\ b <= 57 /\ c = 0)%Z) /\ (w = [OldNumba] -> older a b c) /\
    (older a b c -> w = [] <-> (b < 57 /\ 1 <= c)%Z).
Proof.
  intros a b c rest Ha Hb Hc. unfold version_check, older. cbn [nth_error bind].
  destruct (Z.eqb_spec a 0) as [A|A]; [destruct (Z.leb_spec b 57) as [B|B]; [destruct (Z.ltb_spec c 1) as [C|C]|]|];
    eexists; (split; [reflexivity|]); (split; [tauto|]); repeat split; intros; try discriminate; try reflexivity; lia.
Qed.
Print Assumptions C75_version.
(** the check misses older versions with a patch number, such as 0.56.4, ... *)
Theorem C75_version_refuted : older 0 56 4 /\ version_check [Some 0; Some 56; Some 4]%Z = Ok [].
Proof. split; [right; lia|reflexivity]. Qed.
Print Assumptions C75_version_refuted.
(** ... and a version of two numbers up to 0.57 makes the function fail *)
Theorem C75_short_version_refuted : forall rnd jv1 fuel b compiled s, (b <= 57)%Z ->
  force_get_psf_compilation rnd jv1 fuel true [Some 0%Z; Some b] compiled s = (s, ([], Raise IndexError, compiled)).
Proof.
  intros rnd jv1 fuel b compiled s H. unfold force_get_psf_compilation, version_check. cbn [nth_error bind Z.eqb].
  destruct (Z.leb_spec b 57); [reflexivity|lia].
Qed.
Print Assumptions C75_short_version_refuted.
(** a part that is no number is reported by a warning if the check gets to it *)
Theorem C75_unparsable : forall rest, version_check (None :: rest) = Ok [UnparsableVersion] /\ version_check (Some 0%Z :: None :: rest) = Ok [UnparsableVersion] /\
  (forall b, (b <= 57)%Z -> version_check (Some 0%Z :: Some b :: None :: rest) = Ok [UnparsableVersion]).
Proof.
  intros rest. split; [reflexivity|]. split; [reflexivity|]. intros b H. unfold version_check. cbn [nth_error bind Z.eqb]. destruct (Z.leb_spec b 57); [reflexivity|lia].
Qed.
Print Assumptions C75_unparsable.
Example C75_nonvacuous : version_check [Some 0; Some 60; Some 0]%Z = Ok [] /\ placement b64 320 /\ reachable import_state.
Proof. split; [reflexivity|]. split; [right; split; [reflexivity|lia]|constructor]. Qed.
