(** Lemmas on class ZernPSF: sizes, shapes and the invariant of all reachable objects. *)
From Coq Require Import Reals Lra Psatz.
From Flocq Require Import Core.
From Verif Require Import Py SpecIndex SpecRadial M_Index L_Index M_Init SpecInit L_Init M_Radial M_Coeffs SpecCoeffs M_Sum SpecSum M_Geo SpecGeo L_Sum M_Polar L_Polar L_Geo L_Phases M_Fit L_Fit M_Psf SpecPsf L_Psf L_PsfKernel M_Numba L_Numba M_PsfClass SpecPsfClass.
Local Open Scope R_scope.

(** ** kernel sizes *)
Lemma nearest_nonneg x : 0 <= x -> (0 <= ZnearestE x)%Z.
Proof. intros H. change 0%Z with (ZnearestE (IZR 0)) at 1 || idtac. rewrite <- (Zrnd_IZR ZnearestE 0). apply (Zrnd_le ZnearestE). exact H. Qed.
Lemma odd_up z : (0 <= z)%Z -> odd_positive (if (z mod 2 =? 0)%Z then (z + 1)%Z else z).
Proof.
  intros H. change (if (z mod 2 =? 0)%Z then (z + 1)%Z else z) with (odd_size z). split; [|apply odd_size_odd].
  assert (O := odd_size_odd z). assert (G := odd_size_ge z). destruct (Z.eq_dec (odd_size z) 0) as [E|E]; [rewrite E in O; discriminate|lia].
Qed.
Lemma pydiv_ok a b : b <> 0 -> pydiv a b = Ok (a / b).
Proof. intros H. unfold pydiv. destruct (Req_EM_T b 0); [contradiction|reflexivity]. Qed.
Lemma pysqrt_ok a : 0 <= a -> pysqrt a = Ok (sqrt a).
Proof. intros H. unfold pysqrt. destruct (Rlt_dec a 0); [lra|reflexivity]. Qed.

Lemma kernel_size_ok p px a wl na : valid (fst p) (snd p) -> 0 < px -> 0 < wl -> 0 < na ->
  exists ks, get_kernel_size p px a wl na = Ok ks /\ odd_positive ks.
Proof.
  destruct p as [m n]. cbn [fst snd]. intros V PX W A. unfold get_kernel_size.
  assert (ME : exists mu ext, (if ((m =? 0) && (n =? 0))%Z then do mu <- airy_multiplier na; Ok (mu, 0%Z)
            else Ok (pol_multiplier m n, pol_size_ext m n)) = Ok (mu, ext) /\ 0 <= mu /\ (0 <= ext)%Z).
  { destruct ((m =? 0) && (n =? 0))%Z.
    - unfold airy_multiplier. destruct (Rltb (25 / 100) na && Rltb na 1) eqn:E.
      + apply andb_prop in E. destruct E as [_ E]. unfold Rltb in E. destruct (Rlt_dec na 1); [|discriminate].
        exists (5 * (1 - na) + 15 / 10), 0%Z. split; [reflexivity|split; [lra|lia]].
      + rewrite pydiv_ok by lra. cbn [bind]. assert (0 < 1 / na) by (apply Rdiv_lt_0_compat; lra). rewrite pysqrt_ok by lra. cbn [bind].
        exists (45 / 10 + 25 / 10 * sqrt (1 / na)), 0%Z. split; [reflexivity|]. assert (0 <= sqrt (1 / na)) by apply sqrt_pos. split; [lra|lia].
    - exists (pol_multiplier m n), (pol_size_ext m n). split; [reflexivity|]. split.
      + assert (S1 := sqrt_pos (IZR n)). assert (S2 := sqrt_pos (IZR (n - Z.abs m))). unfold pol_multiplier.
        destruct (_ && _); [lra|]. destruct (_ && _); lra.
      + unfold pol_size_ext. destruct (_ <=? _)%Z; [|lia]. assert (0 <= ZnearestE (sqrt (IZR (n + Z.abs m))))%Z by apply nearest_nonneg, sqrt_pos. lia. }
  destruct ME as (mu & ext & -> & M0 & E0). cbn [bind].
  assert (Q : exists mu' ext', (if Rleb (5 / 10) (Rabs a) then (mu * sqrt (25 / 10 * Rabs a), (ext + 2)%Z)
                    else if Rleb (25 / 100) (Rabs a) then (mu * sqrt (425 / 100 * Rabs a), (ext + 1)%Z) else (mu, ext)) = (mu', ext') /\ 0 <= mu' /\ (0 <= ext')%Z).
  { assert (S1 := sqrt_pos (25 / 10 * Rabs a)). assert (S2 := sqrt_pos (425 / 100 * Rabs a)).
    destruct (Rleb (5 / 10) (Rabs a)); [|destruct (Rleb (25 / 100) (Rabs a))]; eexists; eexists; (split; [reflexivity|split; [nra|lia]]). }
  destruct Q as (mu' & ext' & -> & M1 & E1). rewrite pydiv_ok by lra. cbn [bind].
  assert (NN : (0 <= ZnearestE (mu' * wl / px))%Z).
  { apply nearest_nonneg. apply Rmult_le_pos; [nra|]. apply Rlt_le, Rinv_0_lt_compat; exact PX. }
  eexists. split; [reflexivity|]. apply odd_up. lia.
Qed.

Definition kok (p : Z * Z) : Prop := supported (fst p) (snd p).
Lemma max_sizes_ok px wl na : 0 < px -> 0 < wl -> 0 < na -> forall ps amps mx ma, length amps = length ps -> Forall kok ps -> (0 <= mx)%Z ->
  exists mx' ma', max_sizes ps amps px wl na mx ma = Ok (mx', ma') /\ (0 <= mx')%Z.
Proof.
  intros PX W A. induction ps as [|p ps IH]; intros [|a amps] mx ma L F M0; try discriminate.
  - exists mx, ma. split; [reflexivity|exact M0].
  - inversion F; subst. cbn [max_sizes]. destruct (kernel_size_ok p px a wl na) as (ks & -> & K1 & _); try assumption; [apply H1|]. cbn [bind].
    apply IH; [injection L; auto|assumption|]. destruct (mx <? ks)%Z; lia.
Qed.
Lemma several_odd mx ma c : (0 <= mx)%Z -> odd_positive (several_size mx ma c).
Proof.
  intros M. unfold several_size. apply odd_up. assert (C := pos_INR c).
  assert (H1 : (0 <= ZnearestE (6 / 10 * INR c))%Z) by (apply nearest_nonneg; lra).
  assert (H2 : (0 <= ZnearestE (1 * INR c))%Z) by (apply nearest_nonneg; lra).
  assert (H3 : (0 <= ZnearestE (14 / 10 * INR c))%Z) by (apply nearest_nonneg; lra).
  destruct (_ && _); [lia|]. destruct (_ && _); [lia|]. destruct (Rleb _ _); lia.
Qed.

(** ** shapes and signs of the calculated kernels *)
Definition pix_ok (x : fl) : Prop := match x with Fin v => 0 <= v | NaN => True | Inf _ => False end.
Definition kgood (K : kernel) : Prop := (exists size, odd_positive size /\ square K size) /\ Forall (Forall pix_ok) K.

Lemma mapM_len {A B} (f : A -> M B) (P : B -> Prop) : forall l s s' r, (forall x s s' y, In x l -> f x s = (s', Ok y) -> P y) ->
  mapM f l s = (s', Ok r) -> length r = length l /\ Forall P r.
Proof.
  induction l as [|x l IH]; intros s s' r H E.
  - cbn in E. injection E as <- <-. split; [reflexivity|constructor].
  - cbn [mapM] in E. unfold mbind in E. destruct (f x s) as [s1 [y|e]] eqn:E1; [|discriminate].
    destruct (mapM f l s1) as [s2 [ys|e]] eqn:E2; [|discriminate]. cbn in E. injection E as <- <-.
    destruct (IH s1 s2 ys) as [L F]; [intros; eapply H; [right|]; eassumption|exact E2|]. split; [cbn; rewrite L; reflexivity|].
    constructor; [eapply H; [left; reflexivity|exact E1]|exact F].
Qed.
Lemma fill_shape point k0 na px size s s' l : (0 <= size)%Z -> (forall d t s s' v, point d t s = (s', Ok v) -> 0 <= v) ->
  fill_kernel point k0 na px size s = (s', Ok l) -> square l size /\ Forall (Forall (fun v => 0 <= v)) l.
Proof.
  intros S H E. unfold fill_kernel in E.
  assert (Q : length l = length (zrange 0 (Z.to_nat size)) /\ Forall (fun r => Z.of_nat (length r) = size /\ Forall (fun v => 0 <= v) r) l).
  { eapply mapM_len; [|exact E]. intros i s1 s2 r _ E1.
    assert (Q : length r = length (zrange 0 (Z.to_nat size)) /\ Forall (fun v => 0 <= v) r).
    { eapply mapM_len; [|exact E1]. intros j s3 s4 v _ E2. cbv zeta in E2. exact (H _ _ _ _ _ E2). }
    rewrite zrange_len in Q. destruct Q as [L F]. split; [lia|exact F]. }
  destruct Q as [L F]. rewrite zrange_len in L. rewrite Forall_forall in F. repeat split.
  - lia.
  - apply Forall_forall. intros r I. apply F, I.
  - apply Forall_forall. intros r I. apply F, I.
Qed.
Lemma simpson_nonneg rnd ph n r t h e o s s' v : simpson_end rnd ph n r t h e o s = (s', Ok v) -> 0 <= v.
Proof.
  unfold simpson_end, mbind. destruct (radial_integral _ _ _ _ _ 0 s) as [s1 [a|]]; [|discriminate].
  destruct (radial_integral _ _ _ _ _ (2 * PI) s1) as [s2 [b|]]; [|discriminate]. cbn [mret]. intros E. injection E as _ <-.
  assert (P := PI_RGT_0). apply Rmult_le_pos; [apply Rle_0_sqr|]. apply Rlt_le, Rdiv_lt_0_compat; [lra|nra].
Qed.
Ltac unbind E := unfold mbind in E; repeat
  match type of E with
  | context [match ?x with (_, _) => _ end] => destruct x as [? [?|?]] eqn:?; [|discriminate]
  end.
Lemma vec_nonneg rnd ph n nphi r t jl pj s s' v : psf_point_vec rnd ph n nphi r t jl pj s = (s', Ok v) -> 0 <= v.
Proof.
  unfold psf_point_vec. destruct (nphi =? 0)%Z; [discriminate|]. cbv zeta.
  destruct jl; [destruct pj|]; unfold mbind; try (apply simpson_nonneg);
  (destruct (mapM _ (range2 2 (nphi - 2)) s) as [s1 [a|]]; [|discriminate]; destruct (mapM _ (range2 1 (nphi - 1)) s1) as [s2 [b|]]; [|discriminate]; apply simpson_nonneg).
Qed.
Lemma loop_nonneg rnd ph n nphi r t s s' v : psf_point_loop rnd ph n nphi r t s = (s', Ok v) -> 0 <= v.
Proof.
  unfold psf_point_loop. destruct (nphi =? 0)%Z; [discriminate|]. cbv zeta. unfold mbind.
  destruct (accumulate _ (range2 2 (nphi - 2)) (0, 0) s) as [s1 [a|]]; [|discriminate].
  destruct (accumulate _ (range2 1 (nphi - 1)) (0, 0) s1) as [s2 [b|]]; [|discriminate]. apply simpson_nonneg.
Qed.
Lemma by_nonneg mt rnd ph n nphi r t s s' v : point_by mt rnd ph n nphi r t s = (s', Ok v) -> 0 <= v.
Proof. destruct mt; [apply loop_nonneg|apply vec_nonneg|apply vec_nonneg]. Qed.
Lemma airy_nonneg jv1 r : 0 <= airy_ref_pattern jv1 r.
Proof. unfold airy_ref_pattern. apply Rmult_le_pos; [lra|apply Rle_0_sqr]. Qed.

Lemma kmax_nonneg l : Forall (Forall (fun v => 0 <= v)) l -> 0 <= kmax l.
Proof.
  intros P. unfold kmax. destruct (concat l) as [|x tl] eqn:C; [lra|]. destruct (fold_max tl x) as [_ M]. rewrite <- C in M.
  apply in_concat in M. destruct M as (r & I & M). rewrite Forall_forall in P. specialize (P r I). rewrite Forall_forall in P. apply P, M.
Qed.
Lemma finish_good normalize l size : square l size -> Forall (Forall (fun v => 0 <= v)) l ->
  square (finish normalize l) size /\ Forall (Forall pix_ok) (finish normalize l).
Proof.
  intros [L F] P. assert (SQ : forall f : R -> fl, square (map (map f) l) size).
  { intros f. split; [rewrite map_length; exact L|]. rewrite Forall_map. eapply Forall_impl; [|exact F]. intros r E. rewrite map_length. exact E. }
  assert (KM := kmax_nonneg l P).
  unfold finish. destruct normalize; (split; [apply SQ|]); rewrite Forall_map; (eapply Forall_impl; [|exact P]); intros r Pr; rewrite Forall_map;
    (eapply Forall_impl; [|exact Pr]); intros v V; [|exact V].
  destruct (Req_EM_T (kmax l) 0) as [Z|NZ]; [exact I|]. cbn. apply Rmult_le_pos; [exact V|]. apply Rlt_le, Rinv_0_lt_compat. lra.
Qed.

Lemma single_shape rnd jv1 fuel p px a wl na nr nphi normalize ai ks mt s s' K :
  get_psf_kernel rnd jv1 fuel p px a wl na nr nphi normalize ai ks mt s = (s', Ok K) ->
  kgood K /\ ((3 <= ks)%Z -> square K (odd_size ks)).
Proof.
  unfold get_psf_kernel. intros E. unfold mbind, mlift in E. destruct (pydiv a wl) as [al|]; [|discriminate].
  destruct (pydiv (2 * PI) wl) as [k0|]; [|discriminate].
  destruct (if (ks <? 3)%Z then get_kernel_size p px al wl na else Ok ks) as [size|] eqn:SZ; [|discriminate]. cbv zeta in E.
  destruct (odd_size size <? 0)%Z eqn:S0; [discriminate|]. apply Z.ltb_ge in S0. destruct (pydiv (5 / 10 * (61 / 100) * wl) na) as [q|]; [|discriminate].
  destruct (fill_kernel _ k0 na px (odd_size size) s) as [s1 [l|]] eqn:FK; [|discriminate]. cbn in E. injection E as _ <-.
  apply fill_shape in FK; [|exact S0|].
  - destruct FK as [SQ P]. destruct (finish_good normalize l _ SQ P) as [SQ' P']. assert (O := odd_size_odd size).
    assert (OP : odd_positive (odd_size size)) by (split; [destruct (Z.eq_dec (odd_size size) 0) as [Z|Z]; [rewrite Z in O; discriminate|lia]|exact O]).
    split; [split; [exists (odd_size size); split; [exact OP|exact SQ']|exact P']|].
    intros KS. replace (ks <? 3)%Z with false in SZ by lia. injection SZ as <-. exact SQ'.
  - intros d t s2 s3 v. destruct ai; [intros E1; injection E1 as _ <-; apply airy_nonneg|apply by_nonneg].
Qed.
Lemma odd_size_pos size : (0 <= odd_size size)%Z -> odd_positive (odd_size size).
Proof. intros S0. assert (O := odd_size_odd size). split; [destruct (Z.eq_dec (odd_size size) 0) as [Z|Z]; [rewrite Z in O; discriminate|lia]|exact O]. Qed.
Lemma zerns_shape rnd fuel ps amps px wl na ks nr nphi normalize s s' K :
  get_psf_kernel_zerns rnd fuel ps amps px wl na ks nr nphi normalize s = (s', Ok K) ->
  kgood K /\ square K (odd_size ks).
Proof.
  unfold get_psf_kernel_zerns. intros E. unfold mbind, mlift in E.
  destruct (pydiv (2 * PI) wl) as [k0|]; [|discriminate]. cbv zeta in E.
  destruct (odd_size ks <? 0)%Z eqn:S0; [discriminate|]. apply Z.ltb_ge in S0. destruct (pydiv (5 / 10 * (61 / 100) * wl) na) as [q|]; [|discriminate].
  destruct (fill_kernel _ k0 na px (odd_size ks) s) as [s1 [l|]] eqn:FK; [|discriminate]. cbn in E. injection E as _ <-.
  apply fill_shape in FK; [|exact S0|intros d t s2 s3 v; apply vec_nonneg].
  destruct FK as [SQ P]. destruct (finish_good normalize l _ SQ P) as [SQ' P'].
  split; [split; [exists (odd_size ks); split; [apply odd_size_pos, S0|exact SQ']|exact P']|exact SQ'].
Qed.
Lemma comp_shape rnd tg px al wl na nr nphi normalize ks s s' K :
  get_psf_kernel_comp rnd tg px al wl na nr nphi normalize ks s = (s', Ok K) ->
  kgood K /\ square K (odd_size ks).
Proof.
  unfold get_psf_kernel_comp. intros E. unfold mbind, mlift in E.
  destruct (pydiv (2 * PI) wl) as [k0|]; [|discriminate]. cbv zeta in E.
  destruct (odd_size ks <? 0)%Z eqn:S0; [discriminate|]. apply Z.ltb_ge in S0.
  match type of E with context [match (match tg with Single p => _ | Several ps => _ end) with _ => _ end] => destruct (match tg with Single p => _ | Several ps => _ end) as [ph|]; [|discriminate] end.
  destruct (pydiv (5 / 10 * (61 / 100) * wl) na) as [q|]; [|discriminate].
  destruct (fill_kernel _ k0 na px (odd_size ks) s) as [s1 [l|]] eqn:FK; [|discriminate]. cbn in E. injection E as _ <-.
  apply fill_shape in FK; [|exact S0|intros d t s2 s3 v; apply vec_nonneg].
  destruct FK as [SQ P]. destruct (finish_good normalize l _ SQ P) as [SQ' P'].
  split; [split; [exists (odd_size ks); split; [apply odd_size_pos, S0|exact SQ']|exact P']|exact SQ'].
Qed.
