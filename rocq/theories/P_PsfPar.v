(** C55: the worker processes of ZernPSF under every schedule. *)
From Coq Require Import Reals Lra Lia List.
From Verif Require Import Py SpecIndex SpecRadial M_Radial M_Coeffs SpecCoeffs M_Sum SpecSum L_Sum M_Geo M_Psf SpecPsf L_Psf L_PsfKernel L_PsfNodes L_Fit L_Phases L_Polar M_PsfClass SpecPsfClass L_PsfClass L_PsfObj P_PsfClass P_PsfIO P_Psf
  M_Disp SpecDisp SpecDispM L_DispS L_DispM L_DispU P_Disp M_PsfPar SpecPsfPar L_PsfPar.
Local Open Scope R_scope.

Lemma asked_len f rnd fuel l : (forall k o, In (PKernel k o) l -> ready rnd fuel o) -> length (flat_map (told_to f) l) = asked_by l.
Proof.
  intros H. unfold asked_by. induction l as [|c l IH]; [reflexivity|]. cbn [flat_map map list_sum fold_right]. rewrite app_length, IH by (intros k o I; apply (H k o); right; exact I). f_equal.
  destruct c as [o|k o]; [reflexivity|]. cbn [told_to asked]. destruct (H k o) as (p & E & _); [left; reflexivity|]. rewrite map_length, (jobs_count o p E). reflexivity.
Qed.
Lemma session_all rnd fuel f cpu l : worker_function rnd fuel f -> session rnd fuel l -> answers_shared f cpu 0 [] (session_calls l) = (flat_map (told_to f) l, true).
Proof.
  intros WF [PR FI]. assert (X := session_answers rnd fuel f WF cpu (inits l) l []). cbn [length] in X. rewrite Nat.mul_0_r in X. apply X; [constructor|lia|exact PR|exact FI].
Qed.
Lemma prefix_firstn {A} (l l' : list A) : prefix l l' -> l = firstn (length l) l'.
Proof. intros [m ->]. rewrite firstn_app, Nat.sub_diag, firstn_all. cbn. rewrite app_nil_r. reflexivity. Qed.

(** Any number of objects and kernels in one program, any schedule, any moment: a kernel either still waits for answers, or it is the kernel of the sequential calculation. *)
Theorem C55_any_schedule : forall rnd fuel f cpu sch pre k o post normalize t s,
  worker_function rnd fuel f -> session rnd fuel (pre ++ PKernel k o :: post) -> reachable s ->
  let told := out (M_Disp.run VStarted cpu sch (map (mop f) (session_calls (pre ++ PKernel k o :: post))) t) in
  let mine := skipn (asked_by pre) told in
  if (length mine <? asked (PKernel k o))%nat then snd (kernel_told rnd fuel normalize o mine s) = Ok None
  else exists K, snd (kernel_told rnd fuel normalize o mine s) = Ok (Some K) /\ snd (snd (get_kernel_parallel rnd fuel true normalize o s)) = Ok K.
Proof.
  intros rnd fuel f cpu sch pre k o post normalize t s WF SE RS told mine. set (l := pre ++ PKernel k o :: post) in *.
  assert (SF := many_safe VStarted cpu f (session_calls l) sch t). cbv zeta in SF. rewrite (session_all rnd fuel f cpu l WF SE) in SF. cbn [fst snd] in SF. fold told in SF.
  destruct SF as [SF|[X _]]; [|discriminate]. destruct SE as [PR FI]. destruct (FI k o) as (O & (p & EZ & OK & G & K3) & _); [unfold l; apply in_or_app; right; left; reflexivity|].
  assert (RD : forall k' o', In (PKernel k' o') pre -> ready rnd fuel o'). { intros k' o' I. destruct (FI k' o') as (_ & R & _); [unfold l; apply in_or_app; left; exact I|exact R]. }
  unfold l in SF. rewrite flat_map_app in SF. cbn [flat_map told_to] in SF.
  assert (MINE : prefix mine (map (right_answer f) (kernel_jobs o) ++ flat_map (told_to f) post)).
  { unfold mine. destruct (Nat.leb_spec (asked_by pre) (length told)) as [L|L].
    - destruct SF as [more E]. exists more. apply (f_equal (skipn (asked_by pre))) in E. rewrite !skipn_app in E. rewrite (asked_len f rnd fuel pre RD), Nat.sub_diag in E. cbn [skipn] in E.
      rewrite (skipn_all2 (flat_map (told_to f) pre)) in E by (rewrite (asked_len f rnd fuel pre RD); lia). cbn [app] in E. replace (asked_by pre - length told)%nat with 0%nat in E by lia. exact E.
    - rewrite skipn_all2 by lia. eexists. reflexivity. }
  assert (LJ := jobs_count o p EZ). assert (EA : asked (PKernel k o) = length (kernel_jobs o)) by (cbn [asked]; lia).
  destruct (Nat.ltb_spec (length mine) (asked (PKernel k o))) as [L|L].
  - apply prefix_firstn in MINE. rewrite MINE, firstn_app, map_length. replace (length mine - length (kernel_jobs o))%nat with 0%nat by lia. cbn [firstn]. rewrite app_nil_r.
    apply (kernel_waits rnd fuel f WF normalize o p (length mine) s O EZ OK G K3 RS). lia.
  - apply prefix_firstn in MINE. rewrite MINE, firstn_app, map_length, firstn_all2 by (rewrite map_length; lia).
    exists (kernel_value rnd normalize o p). split; [apply (kernel_told_isok rnd fuel f WF normalize o p _ s O EZ OK G K3 RS)|apply (parallel_isok rnd fuel normalize o p s O EZ OK G K3 RS)].
Qed.
Print Assumptions C55_any_schedule.

(** Under every fair schedule, on a machine with two processors or more, all answers come and the program ends. *)
Theorem C55_ends : forall rnd fuel f cpu sch l, worker_function rnd fuel f -> session rnd fuel l -> fair sch -> (2 <= cpu)%nat ->
  exists t0, forall t, (t0 <= t)%nat -> let w := M_Disp.run VStarted cpu sch (map (mop f) (session_calls l)) t in length (out w) = asked_by l /\ todo w = [] /\ main w = Ready.
Proof.
  intros rnd fuel f cpu sch l WF SE FA C2. assert (E := session_all rnd fuel f cpu l WF SE).
  destruct (many_live VStarted cpu f (session_calls l) C2) with (sch := sch) as [t0 H]; [rewrite E; reflexivity|exact FA|]. exists t0. intros t L. destruct (H t L) as (H1 & H2 & H3). cbv zeta. rewrite H1, E. cbn [fst].
  split; [|split; assumption]. apply (asked_len f rnd fuel). intros k o I. destruct SE as [_ FI]. apply (FI k o I).
Qed.
Print Assumptions C55_ends.

(** Too many objects: all managers share their workers, and compute() needs a parameter for each of them. With q managers and too few angles the first call fails, if it comes to anything:
    with 36 angles the fifth object is one too many, with the default 300 angles the 38th. *)
Theorem C55_too_many_refuted : forall rnd fuel f cpu sch (os : list zernpsf) k o t, worker_function rnd fuel f -> (4 <= cpu)%nat ->
  Forall (fun o => airy o = false) os -> (k < length os)%nat -> object o -> ready rnd fuel o -> (n_int_phi o < 8 * Z.of_nat (length os) + 3)%Z ->
  let told := out (M_Disp.run VStarted cpu sch (map (mop f) (session_calls (map PInit os ++ [PKernel k o]))) t) in
  told = [] \/ prefix [OError IndexError] told.
Proof.
  intros rnd fuel f cpu sch os k o t WF C4 NA LK O (p & EZ & OK & G & K3) SMALL told. assert (N36 := i_nphi o (object_inv o O)).
  assert (W4 : workers_number cpu (Some 4%nat) = 4%nat) by (unfold workers_number; change (2 <=? 4)%nat with true; destruct (Nat.leb_spec 4 cpu); [reflexivity|lia]).
  assert (ST : forall l ms rest, usable 4 ms -> Forall (fun o => airy o = false) l -> exists ms', usable 4 ms' /\ length ms' = (length ms + length l)%nat /\
      answers_shared f cpu (4 * length ms) ms (session_calls (map PInit l ++ rest)) = answers_shared f cpu (4 * length ms') ms' (session_calls rest)).
  { induction l as [|a l IH]; intros ms rest U A; [exists ms; split; [exact U|split; [cbn; lia|reflexivity]]|]. inversion A; subst.
    destruct (IH (ms ++ [(placeholders, true, 4%nat)]) rest) as (ms' & U' & L' & E').
    - apply Forall_app. split; [exact U|]. constructor; [split; reflexivity|constructor].
    - assumption.
    - exists ms'. split; [exact U'|]. rewrite app_length in L', E'. cbn [length] in *. split; [lia|]. rewrite <- E'. cbn [map app session_calls flat_map pcall_calls]. unfold init_calls.
      match goal with X : airy a = false |- _ => rewrite X end. cbn [negb andb app answers_shared]. rewrite W4. change (length placeholders) with 10%nat. cbn [Nat.eqb Nat.ltb Nat.leb].
      replace (4 * (length ms + 1))%nat with (4 * length ms + 4)%nat by lia. reflexivity. }
  destruct (ST os [] [PKernel k o]) as (ms' & U' & L' & E'); [constructor|exact NA|]. cbn [length] in L', E'. rewrite Nat.mul_0_r in E'.
  assert (KJ : exists js rest, kernel_jobs o = js :: rest /\ length js = Z.to_nat ((n_int_phi o - 3) / 2)).
  { assert (LJ := jobs_count o p EZ). assert (X : kernel_jobs o <> []) by (intros E; rewrite E in LJ; cbn [length] in LJ; nia).
    unfold kernel_jobs in *. rewrite EZ in *. destruct (concat (kernel_points o)) as [|pt pts]; [exfalso; apply X; reflexivity|]. cbn [flat_map app]. eexists _, _. split; [reflexivity|]. apply jobs_len. }
  destruct KJ as (js & rest & EJ & LJ).
  assert (D1 : (Z.to_nat ((n_int_phi o - 3) / 2) < 4 * length os)%nat).
  { assert ((n_int_phi o - 3) / 2 < 4 * Z.of_nat (length os))%Z by (apply Z.div_lt_upper_bound; lia). assert (0 <= (n_int_phi o - 3) / 2)%Z by (apply Z.div_pos; lia). lia. }
  assert (D2 : (16 <= Z.to_nat ((n_int_phi o - 3) / 2))%nat). { assert (16 <= (n_int_phi o - 3) / 2)%Z by (apply Z.div_le_lower_bound; lia). lia. }
  assert (E : answers_shared f cpu 0 [] (session_calls (map PInit os ++ [PKernel k o])) = ([OError IndexError], false)).
  { rewrite E'. cbn [session_calls flat_map pcall_calls]. rewrite app_nil_r. unfold kernel_calls. rewrite EJ. cbn [flat_map app answers_shared].
    assert (LK' : (k < length ms')%nat) by lia. assert (US := proj1 (Forall_forall _ _) U' _ (nth_In ms' ([], false, 0%nat) LK')). destruct (nth k ms' ([], false, 0%nat)) as [[qs b] n0] eqn:EN. cbn in US. destruct US as [-> ->].
    destruct (Nat.eqb_spec (length js) 0); [lia|]. destruct (Nat.ltb_spec (length js) 4); [lia|]. rewrite nth_at by exact LK'. rewrite EN. unfold replace_params at 1. cbn [fst snd].
    destruct (Nat.ltb_spec (length js) (4 * length ms')); [reflexivity|lia]. }
  assert (SF := many_safe VStarted cpu f (session_calls (map PInit os ++ [PKernel k o])) sch t). cbv zeta in SF. rewrite E in SF. cbn [fst snd] in SF. fold told in SF.
  destruct SF as [[more SF]|[_ SF]]; [|right; exact SF]. destruct told as [|a told'] eqn:ET; [left; reflexivity|]. right. cbn in SF. injection SF as SF1 SF2. symmetry in SF2. apply app_eq_nil in SF2. destruct SF2 as [-> ->].
  exists []. rewrite SF1. reflexivity.
Qed.
Print Assumptions C55_too_many_refuted.

(** Without initialize_parallel_workers() - or for the piston, for which it does nothing - no error is raised and the kernel is wrong: without aberration every pixel of the middle column has the value
    (2 / (3 n_phi))^2, the focus and the border alike; the right focus value is that of C31. *)
Theorem C55_uninitialised_refuted : forall fuel o p s, object o -> zpol o = Some p -> okp fuel p -> (3 <= kernel_size o)%Z -> alpha o = 0 -> reachable s ->
  exists K, snd (snd (get_kernel_parallel (fun x => x) fuel false false o s)) = Ok K /\
    forall i, (0 <= i < kernel_size o)%Z -> entry K i (kernel_size o / 2) = Some (Fin ((2 / (3 * IZR (n_int_phi o))) ^ 2)).
Proof.
  intros fuel o p s O EZ OK K3 AL RS. assert (IV := object_inv o O). assert (N := i_nphi o IV). assert (N20 := i_nr o IV). destruct (good_exact (n_int_r o)) as (G1 & G2 & G3); [lia|].
  unfold get_kernel_parallel. rewrite EZ. replace (kernel_size o <? 3)%Z with false by lia.
  set (tv := fun r theta phi => job_value idr p (alpha o) (n_int_r o) r theta phi).
  set (v := fun r theta => let q := cscale (2 * PI / IZR (n_int_phi o) / 3) (cadd (cadd (cadd (tv r theta 0) (tv r theta (2 * PI))) (cscale 2 (0, 0))) (cscale 4 (0, 0))) in cabs q * cabs q * (1 / (PI * PI))).
  assert (F := fill_isok (point_parallel idr fuel false p (alpha o) (n_int_r o) (n_int_phi o)) v (k o) (NA o) (pixel_size o) (kernel_size o)).
  destruct F with (s := s) as [_ E]; [|exact RS|].
  - intros d th. unfold point_parallel. replace (n_int_phi o =? 0)%Z with false by lia. cbv zeta. eapply isok_bind; [apply isok_ret|]. eapply isok_bind; [apply isok_ret|]. cbv beta. unfold simpson_end.
    assert (C := phase_pol_computes fuel p (alpha o) OK).
    eapply isok_bind; [apply (radial_isok _ _ C); assumption|]. eapply isok_bind; [apply (radial_isok _ _ C); assumption|]. cbv beta zeta. apply isok_ret.
  - change (fun x : R => x) with idr. destruct (fill_kernel _ _ _ _ _ s) as [s' [l|e]]; cbn [snd] in E; [|discriminate]. injection E as ->. eexists. split; [reflexivity|]. intros i I.
    set (size := kernel_size o) in *. assert (MID : (0 <= size / 2 < size)%Z) by (split; [apply Z.div_pos; lia|apply Z.div_lt_upper_bound; lia]).
    cbn [finish]. rewrite table_map, table_entry by assumption. f_equal. f_equal. unfold v. cbv zeta.
    assert (P := PI_RGT_0). assert (NP : 0 < IZR (n_int_phi o)) by (apply IZR_lt; lia).
    assert (TV : forall phi, phi = 0 \/ phi = 2 * PI -> tv (k o * NA o * pixel_size o * pix_d size i (size / 2)) (pix_t size i (size / 2)) phi = (1 / 2, 0)).
    { intros phi HP. unfold tv, job_value. assert (D := pix_dir size i (size / 2) phi). rewrite Z.sub_diag in D. rewrite Rmult_0_l, Rplus_0_l in D.
      assert (SN : sin phi = 0) by (destruct HP as [-> | ->]; [apply sin_0|apply sin_2PI]). rewrite SN, Rmult_0_r in D.
      assert (Z0 : forall x, alpha o * Zv p x phi - k o * NA o * pixel_size o * pix_d size i (size / 2) * x * cos (phi - pix_t size i (size / 2)) = 0).
      { intros x. rewrite AL. replace (k o * NA o * pixel_size o * pix_d size i (size / 2) * x * cos (phi - pix_t size i (size / 2))) with (k o * NA o * pixel_size o * x * (pix_d size i (size / 2) * cos (phi - pix_t size i (size / 2)))) by ring. rewrite D. ring. }
      unfold tr. rewrite (nodes_exact (n_int_r o)) by lia. change (idr (1 / IZR (n_int_r o))) with (1 / IZR (n_int_r o)). f_equal.
      - rewrite <- (trapezoid_p (n_int_r o)) by lia. apply trapezoid_ext; try (intros x _); unfold re_psi; rewrite Z0, cos_0; ring.
      - transitivity (trapezoid (1 / IZR (n_int_r o)) (inner_nodes (n_int_r o)) (fun _ => 0)); [apply trapezoid_ext; try (intros x _); unfold im_psi; rewrite Z0, sin_0; ring|].
        unfold trapezoid. rewrite rsum_const. lra. }
    rewrite !TV by auto. rewrite cabs_sq. unfold cscale, cadd. cbn [fst snd]. field. split; lra.
Qed.
Print Assumptions C55_uninitialised_refuted.
(** the value of the focus with workers (C31) is another one *)
Theorem C55_uninitialised_differs : forall n, (36 <= n)%Z -> (2 / (3 * IZR n)) ^ 2 < weight n ^ 2.
Proof.
  intros n N. assert (36 <= IZR n) by (apply IZR_le; exact N). destruct (weight_bound n) as [W1 W2]; [lia|].
  assert (X : 2 / (3 * IZR n) <= 2 / (3 * 36)) by (apply Rmult_le_compat_l; [lra|apply Rinv_le_contravar; lra]). assert (0 < 2 / (3 * IZR n)) by (apply Rdiv_lt_0_compat; lra).
  assert (Y : 2 / IZR n <= 2 / 36) by (apply Rmult_le_compat_l; [lra|apply Rinv_le_contravar; lra]).
  assert (1 / 2 < weight n) by lra. nra.
Qed.

(** After deinitialize_workers() the object keeps its closed manager: initialize_parallel_workers() does nothing, compute() answers None and get_kernel_parallel() raises TypeError. *)
Lemma after_close f n cs l : (forall c, In c cs -> c <> CClose) -> forall ps, exists m, answers f n (Some ps) (cs ++ [CClose] ++ flat_map (fun ps => [CUpdate ps; CCompute]) l) = answers f n (Some ps) cs ++ m /\
  (m = [] \/ m = repeat (@ONone pval) (length l)).
Proof.
  intros H. assert (NO : forall l, answers f n None (flat_map (fun ps => [CUpdate ps; CCompute]) l) = repeat ONone (length l)).
  { clear. induction l as [|x l IH]; [reflexivity|]. cbn [flat_map app answers length repeat]. rewrite IH. reflexivity. }
  induction cs as [|c cs IH]; intros ps.
  - exists (repeat ONone (length l)). cbn [app answers]. rewrite NO. auto.
  - assert (H' : forall c, In c cs -> c <> CClose) by (intros c' I; apply H; right; exact I). destruct c as [|qs|]; [| |exfalso; apply (H CClose); [left; reflexivity|reflexivity]]; cbn [app answers].
    + destruct (total_on f ps); [|exists []; rewrite app_nil_r; auto]. destruct (IH H' ps) as (m & E & M). exists m. cbn [app] in E |- *. rewrite E. auto.
    + destruct (length qs =? 0)%nat; [|destruct (length qs <? n)%nat]; [destruct (IH H' ps) as (m & E & M)|destruct (IH H' ps) as (m & E & M)|destruct (IH H' qs) as (m & E & M)]; exists m; cbn [app] in E |- *; rewrite E; auto.
Qed.
Theorem C55_after_deinitialise_refuted : forall rnd fuel f cpu sch (os : list zernpsf) o t normalize s, (2 <= cpu)%nat -> object o -> ready rnd fuel o ->
  let used := flat_map kernel_calls_one os in let n := workers_number cpu (Some 4%nat) in
  init_calls true o = [] /\
  exists m, prefix (out (M_Disp.run VStarted cpu sch (program f (Some 4%nat) placeholders (used ++ deinit_calls true ++ kernel_calls_one o)) t)) (answers f n (Some placeholders) used ++ m) /\
    (m = [] \/ (m = repeat ONone (asked (PKernel 0 o)) /\ forall j, (1 <= j)%nat -> snd (kernel_told rnd fuel normalize o (firstn j m) s) = Raise TypeError)).
Proof.
  intros rnd fuel f cpu sch os o t normalize s C2 O (p & EZ & OK & G & K3) used n. split; [reflexivity|].
  assert (NU : forall c, In c used -> c <> CClose).
  { intros c I. unfold used, kernel_calls_one in I. apply in_flat_map in I. destruct I as (o' & _ & I). apply in_flat_map in I. destruct I as (ps & _ & [<-|[<-|[]]]); discriminate. }
  destruct (after_close f n used (kernel_jobs o) NU placeholders) as (m & E & M). exists m. split.
  - rewrite <- E. assert (W4 := wn4 cpu). apply C45_answers; [discriminate|]. change (length placeholders) with 10%nat. lia.
  - destruct M as [-> | ->]; [left; reflexivity|]. right. rewrite (jobs_count o p EZ). split; [reflexivity|]. intros j J.
    assert (PL := points_len o). destruct (concat (kernel_points o)) as [|pt pts] eqn:EC; [cbn [length] in PL; nia|].
    unfold kernel_told. rewrite EZ. replace (kernel_size o <? 3)%Z with false by lia. unfold mbind.
    assert (ER : exists row rows, kernel_points o = (pt :: row) :: rows).
    { unfold kernel_points in EC |- *. cbv zeta in EC |- *. set (l := zrange 0 (Z.to_nat (kernel_size o))) in *. assert (LL : length l = Z.to_nat (kernel_size o)) by apply zrange_len.
      destruct l as [|i l]; [cbn in LL; lia|]. cbn [map concat app] in EC |- *. injection EC as EC1 EC2. rewrite <- EC1. eexists _, _. reflexivity. }
    destruct ER as (row & rows & ER). rewrite ER. cbn [rows_told]. unfold mbind. cbn [row_told].
    assert (N := i_nphi o (object_inv o O)).
    destruct (2 * (Z.to_nat (kernel_size o) * Z.to_nat (kernel_size o)))%nat as [|[|m]] eqn:EM; [nia|nia|]. destruct j as [|[|j]]; [lia|reflexivity|]. cbn [repeat firstn]. unfold point_told.
    replace (n_int_phi o =? 0)%Z with false by lia. reflexivity.
Qed.
Print Assumptions C55_after_deinitialise_refuted.

(** A second object after the first one was deinitialised: the workers of the first manager stay in the common list, dead. Whatever was calculated before and whatever the schedule, the second object's first
    point never gets its answer, or an array with the parameters themselves in it (ValueError), or IndexError. *)
Theorem C55_second_object_refuted : forall rnd fuel f cpu sch (os : list zernpsf) o js jobs t normalize s, (2 <= cpu)%nat -> object o -> ready rnd fuel o -> kernel_jobs o = js :: jobs ->
  let used := flat_map kernel_calls_one os in let n := workers_number cpu (Some 4%nat) in
  let before := answers f n (Some placeholders) used in
  let told := out (M_Disp.run VStarted cpu sch (program f (Some 4%nat) placeholders used ++ [Close 0; New f (Some 4%nat) placeholders; Update 1 js; Compute 1]) t) in
  prefix told before \/ (exists r, told = before ++ [r] /\ snd (kernel_told rnd fuel normalize o [r] s) = Raise ValueError) \/ prefix (before ++ [OError IndexError]) told.
Proof.
  intros rnd fuel f cpu sch os o js jobs t normalize s C2 O (p & EZ & OK & G & K3) EJ used n before told.
  assert (NU : ~ In CClose used).
  { intros I. unfold used, kernel_calls_one in I. apply in_flat_map in I. destruct I as (o' & _ & I). apply in_flat_map in I. destruct I as (ps & _ & [X|[X|[]]]); discriminate. }
  assert (W4 := wn4 cpu). assert (W1 := wn_pos cpu (Some 4%nat) C2). assert (N := i_nphi o (object_inv o O)).
  assert (LJ : (16 <= length js)%nat).
  { assert (J := jobs_sizes o js N). rewrite EJ in J. specialize (J (or_introl eq_refl)). assert (16 <= (n_int_phi o - 3) / 2)%Z by (apply Z.div_le_lower_bound; lia). lia. }
  destruct (third_result VStarted cpu f f (Some 4%nat) (Some 4%nat) placeholders placeholders js used) with (sch := sch) (t := t) as [X|[(r & X & LR & Y)|[_ X]]];
    try discriminate; try assumption; try (change (length placeholders) with 10%nat; lia); try lia.
  - intros ->. cbn in LJ. lia.
  - left. exact X.
  - right; left. exists (OResult r). split; [exact X|]. specialize (Y 0%nat W1).
    assert (HJ : exists phi a b c d q js', js = VJob phi a b c d q :: js').
    { assert (J := EJ). unfold kernel_jobs in J. rewrite EZ in J. destruct (concat (kernel_points o)) as [|pt pts]; [discriminate|]. cbn [flat_map app] in J. injection J as J _. unfold jobs_even in J.
      destruct (range2 2 (n_int_phi o - 2)); [rewrite <- J in LJ; cbn in LJ; lia|]. cbn [map] in J. rewrite <- J. repeat eexists. }
    destruct HJ as (phi & a & b & c & d & q & js' & ->). cbn [nth_error] in Y. destruct r as [|r0 r]; [cbn in LR; lia|]. cbn [nth_error] in Y. injection Y as ->.
    assert (PL := points_len o). destruct (concat (kernel_points o)) as [|pt pts] eqn:EC; [cbn [length] in PL; nia|].
    unfold kernel_told. rewrite EZ. replace (kernel_size o <? 3)%Z with false by lia. unfold mbind.
    assert (ER : exists row rows, kernel_points o = (pt :: row) :: rows).
    { unfold kernel_points in EC |- *. cbv zeta in EC |- *. set (l := zrange 0 (Z.to_nat (kernel_size o))) in *. assert (LL : length l = Z.to_nat (kernel_size o)) by apply zrange_len.
      destruct l as [|i l]; [cbn in LL; lia|]. cbn [map concat app] in EC |- *. injection EC as EC1 EC2. rewrite <- EC1. eexists _, _. reflexivity. }
    destruct ER as (row & rows & ER). rewrite ER. cbn [rows_told]. unfold mbind. cbn [row_told sum_results numbers]. reflexivity.
  - right; right. exact X.
Qed.
Print Assumptions C55_second_object_refuted.

(** Hypotheses met: a worker function (caches as after import), and a program with two objects, the kernels calculated in turn; with the default 300 angles up to 37 objects fit. *)
Example C55_worker_exists : forall rnd fuel, exists f, worker_function rnd fuel f /\ (f (VPlaceholder 3) = None).
Proof.
  intros rnd fuel. exists (fun v => match snd (radial_integral_s rnd fuel v import_state) with Ok c => Some (VNumber c) | Raise _ => None end). split; [|reflexivity].
  intros v. exists import_state. split; [apply reach_import|reflexivity].
Qed.
Lemma wide_tilt : exists o, object o /\ zpol o = Some (1, 1)%Z /\ airy o = false /\ kernel_size o = 5%Z /\ n_int_r o = 320%Z /\ n_int_phi o = 300%Z.
Proof. exists (fst (set_calculation_props 5 320 300 tilt)). split; [apply o_calculation, tilt_object|]. repeat split. Qed.
Lemma tilts_proper n made l : proper_from (n + made) l -> proper_from made (repeat (PInit tilt) n ++ l).
Proof. revert made. induction n as [|n IH]; intros made H; [exact H|]. cbn [repeat app proper_from]. change (airy tilt) with false. cbv iota. apply IH. replace (n + S made)%nat with (S n + made)%nat by lia. exact H. Qed.
Lemma tilts_inits n l : inits (repeat (PInit tilt) n ++ l) = (n + inits l)%nat.
Proof. induction n as [|n IH]; [reflexivity|]. cbn [repeat app]. unfold inits in *. cbn [filter]. change (airy tilt) with false. cbn [negb length]. rewrite IH. reflexivity. Qed.
Example C55_nonvacuous : exists o, object o /\ ready b64 1000 o /\ session b64 1000 [PInit tilt; PInit o; PKernel 1 o; PKernel 0 o; PKernel 1 o] /\
  ready (fun x => x) 1000 o /\ session (fun x => x) 1000 (repeat (PInit tilt) 37 ++ [PKernel 36 o]) /\ (n_int_phi o < 8 * Z.of_nat (length (repeat tilt 38)) + 3)%Z.
Proof.
  destruct wide_tilt as (o & O & EZ & EA & EK & ER & EP). exists o.
  assert (OK : okp 1000 (1, 1)%Z) by (split; [split; [cbn; lia|split; [cbn; lia|exists 0%Z; reflexivity]]|cbn [snd]; lia]).
  assert (G : good b64 320) by (apply nodes64_good; lia). assert (G' : good (fun x => x) 320) by (apply (good_exact 320); lia).
  assert (R1 : ready b64 1000 o) by (exists (1, 1)%Z; rewrite ER, EK; split; [exact EZ|split; [exact OK|split; [exact G|lia]]]).
  assert (R2 : ready (fun x => x) 1000 o) by (exists (1, 1)%Z; rewrite ER, EK; split; [exact EZ|split; [exact OK|split; [exact G'|lia]]]).
  split; [exact O|]. split; [exact R1|]. split; [|split; [exact R2|]].
  - split; [cbn [proper_from]; rewrite EA; cbn; lia|]. intros k o' I. assert (X : o' = o) by (destruct I as [I|[I|[I|[I|[I|[]]]]]]; (discriminate I || (injection I; intros; subst; reflexivity))). subst o'. split; [exact O|]. split; [exact R1|].
    rewrite EP. unfold inits. cbn [filter]. rewrite EA. cbn. lia.
  - split; [|rewrite EP, repeat_length; lia]. split; [apply tilts_proper; cbn; lia|]. intros k o' I. assert (X : o' = o) by (apply in_app_or in I; destruct I as [I|[I|[]]]; [apply repeat_spec in I; discriminate I|injection I; intros; subst; reflexivity]). subst o'.
    split; [exact O|]. split; [exact R2|]. rewrite EP, tilts_inits. unfold inits. cbn [filter length]. lia.
Qed.
