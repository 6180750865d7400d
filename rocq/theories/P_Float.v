(** Property theorems C57: binary64 results of radial() and polynomial_value(). [near64]: round to nearest, ties to
    even, after every arithmetic operation; [pw], [fcos], [fsin]: numpy's power, cosine and sine. *)
From Coq Require Import Reals Lra Lia.
From Flocq Require Import Core.
From Verif Require Import Py SpecIndex SpecRadial RadialMath M_Radial M_Coeffs SpecCoeffs L_Cache L_Radial L_Trig L_Value L_Polar
  SpecFloat M_Float L_Float L_Float2 L_Float3 L_Float4 L_FloatC.
Local Open Scope R_scope.

(** without rounding and with exact functions, the floating-point programs are the ones of C11-C19 *)
Theorem C57_unrounded : forall s fuel m n (use_exact_eq : bool) r th,
  fzp_radial (fun x => x) powerRZ fuel m n use_exact_eq r s = zp_radial fuel m n use_exact_eq r s /\
  fzp_polynomial_value (fun x => x) powerRZ cos sin fuel m n use_exact_eq r th s = zp_polynomial_value fuel m n use_exact_eq r th s.
Proof. intros s fuel m n e r th. split; [apply fzp_radial_exact|apply fzp_value_exact]. Qed.
Print Assumptions C57_unrounded.

Theorem C57_radial_error : forall s pw fuel m n (use_exact_eq : bool) r, reachable s -> power_within_ulp pw ->
  float64 r -> 0 <= r <= 1 -> valid m n -> (n + 1 < Z.of_nat fuel)%Z -> (use_exact_eq = true -> n <= 40)%Z ->
  exists v, snd (fzp_radial near64 pw fuel m n use_exact_eq r s) = Ok v /\
    Rabs (v - R_nm m n r) <= radial_error n /\
    ((n <= 10)%Z -> Rabs (v - R_nm m n r) <= 1 / 10 ^ 11) /\
    ((n <= 20)%Z -> Rabs (v - R_nm m n r) <= 1 / 10 ^ 7) /\
    ((n <= 30)%Z -> Rabs (v - R_nm m n r) <= 3 / 10 ^ 4).
Proof.
  intros s pw fuel m n e r RS P Fr Hr V HF HE. destruct (fzp_radial_near s pw fuel m n e r RS P Fr Hr V HF HE) as (v & Ev & N).
  unfold near in N. pose proof (R_nm_F m n r V) as RF. fold (Fmn m n r) in RF. rewrite <- RF in N.
  pose proof V as (Hn & _). destruct (E_num n Hn) as (E1 & E2 & E3).
  exists v. split; [exact Ev|]. split; [exact N|]. repeat split; intros L; eapply Rle_trans; try exact N; auto.
Qed.
Print Assumptions C57_radial_error.

Theorem C57_value_error : forall s pw fcos fsin fuel m n (use_exact_eq : bool) r th, reachable s -> power_within_ulp pw -> trig_within_ulp fcos fsin ->
  float64 r -> 0 <= r <= 1 -> valid m n -> (n + 1 < Z.of_nat fuel)%Z -> (use_exact_eq = true -> n <= 40)%Z ->
  exists v, snd (fzp_polynomial_value near64 pw fcos fsin fuel m n use_exact_eq r th s) = Ok v /\
    Rabs (v - Z_nm m n r th) <= norm_nm m n * (4 * radial_error n + Rabs (IZR m * th) * / 2 ^ 52).
Proof.
  intros s pw fcos fsin fuel m n e r th RS P T Fr Hr V HF HE.
  destruct (fzp_value_near s pw fcos fsin fuel m n e r th RS P T Fr Hr V HF HE) as (v & Ev & N). exists v. split; [exact Ev|].
  pose proof V as (Hn & _). pose proof (R_nm_F m n r V) as RF. fold (Fmn m n r) in RF.
  unfold Z_nm. rewrite <- (normalization_norm m n) by exact Hn. rewrite <- (triangular_T m th). rewrite RF.
  replace (normalization_factor m n * Fmn m n r * triangular_function m th) with (normalization_factor m n * triangular_function m th * Fmn m n r) by ring.
  exact N.
Qed.
Print Assumptions C57_value_error.

(** The mathematical bound |R| <= 1, which the source uses as its check of stability ("radial polynomial values shouldn't
    exceed 1.0", calc_zernike_pol.py 496), fails for the computed values, and the two digits promised there are lost, even
    with a correctly rounded power: for (0, 40) and (0, 42) (recurrence route), in every state of the caches. *)
Definition r40 : R := 9007197763011989 / 2 ^ 53.
Definition r42 : R := 4503594163683479 / 2 ^ 52.

Lemma d40 : d2r (9007197763011989, -53)%Z = r40.
Proof. unfold d2r, r40, Rdiv. cbn [fst snd]. f_equal. symmetry. apply u_val. Qed.
Lemma d42 : d2r (4503594163683479, -52)%Z = r42.
Proof.
  unfold d2r, r42, Rdiv. cbn [fst snd]. f_equal. change (bpow radix2 (-52)) with (/ IZR (Z.pow_pos 2 52)). f_equal. rewrite (pow_IZR 2 52). reflexivity.
Qed.
Lemma fl64 m e : (Z.abs m < 2 ^ 53)%Z -> (-1074 <= e)%Z -> float64 (d2r (m, e)).
Proof. intros H1 H2. apply generic_format_FLT. exists (Float radix2 m e); [reflexivity|exact H1|exact H2]. Qed.
Lemma half_k z : d2r (z, -20)%Z = IZR z / 1048576.
Proof. unfold d2r, Rdiv. cbn [fst snd]. f_equal. Qed.

Lemma v40 : valid 0 40. Proof. split; [lia|split; [lia|exists 20%Z; reflexivity]]. Qed.
Lemma v2_40 : valid 2 40. Proof. split; [lia|split; [lia|exists 19%Z; reflexivity]]. Qed.
Lemma v1_39 : valid 1 39. Proof. split; [lia|split; [lia|exists 19%Z; reflexivity]]. Qed.
Lemma v0_42 : valid 0 42. Proof. split; [lia|split; [lia|exists 21%Z; reflexivity]]. Qed.

Definition is_some_lt (lo : dy) (x : option dy) : bool := match x with Some y => dltb lo y | None => false end.

Lemma run40 : exists y, deval_dict (up_list 20 20) (9007197763011989, -53)%Z (0, 0)%Z = Some y /\ 1020 / 1000 < d2r y.
Proof.
  destruct (deval_dict (up_list 20 20) (9007197763011989, -53)%Z (0, 0)%Z) as [y|] eqn:E.
  - exists y. split; [reflexivity|].
    assert (B : is_some_lt (1069548, -20)%Z (deval_dict (up_list 20 20) (9007197763011989, -53)%Z (0, 0)%Z) = true) by (vm_compute; reflexivity).
    rewrite E in B. apply dltb_ok in B. rewrite half_k in B. lra.
  - assert (B : is_some_lt (1069548, -20)%Z (deval_dict (up_list 20 20) (9007197763011989, -53)%Z (0, 0)%Z) = true) by (vm_compute; reflexivity).
    rewrite E in B. discriminate.
Qed.

(** (0, 42) at r42 on dyadics: 2r R(1,41) - R(0,40), R(1,41) = r (R(0,40) + R(2,40)) - R(1,39) *)
Definition prog42 (r : dy) : option dy :=
  obind (deval_dict (up_list 20 20) r (0, 0)%Z) (fun a =>
  obind (deval_dict (up_list 21 19) r (0, 0)%Z) (fun b =>
  obind (deval_dict (up_list 20 19) r (0, 0)%Z) (fun c =>
  obind (rb (dadd a b)) (fun ab => obind (rb (dmul r ab)) (fun rab => obind (rb (dadd rab (dopp c))) (fun x =>
  obind (rb (dmul (2, 0)%Z r)) (fun tr => obind (rb (dmul tr x)) (fun trx => rb (dadd trx (dopp a)))))))))).

Lemma prog42_ok fuel r y : (45 <= Z.of_nat fuel)%Z -> prog42 r = Some y ->
  keeps (fradial_polynomial_coeffs b64 cpow fuel 0 42 (d2r r)) (fun v => v = Ok (d2r y)).
Proof.
  intros HF H. destruct fuel as [|[|[|f]]]; try lia. unfold prog42 in H.
  apply obind_some in H as (a & A & H). apply obind_some in H as (b & B & H). apply obind_some in H as (c & C & H).
  apply obind_some in H as (ab & AB & H). apply obind_some in H as (rab & RAB & H). apply obind_some in H as (x & X & H).
  apply obind_some in H as (tr & TR & H). apply obind_some in H as (trx & TRX & H). 
  apply rb_ok in AB, RAB, X, TR, TRX, H. rewrite ?d2r_add, ?d2r_mul, ?d2r_opp, ?d2r_int in *.
  pose proof (fcoef_dy f 0 40 r a v40 ltac:(lia) ltac:(lia) A) as KA. pose proof (fcoef_dy f 2 40 r b v2_40 ltac:(lia) ltac:(lia) B) as KB.
  pose proof (fcoef_dy f 1 39 r c v1_39 ltac:(lia) ltac:(lia) C) as KC.
  pose proof (fcoef_dy (S f) 0 40 r a v40 ltac:(lia) ltac:(lia) A) as KA'.
  assert (K1 : keeps (fradial_polynomial_coeffs b64 cpow (S (S f)) 1 41 (d2r r)) (fun v => v = Ok (d2r x))).
  { change (fradial_polynomial_coeffs b64 cpow (S (S f)) 1 41 (d2r r)) with
     (run x <- fradial_polynomial_coeffs b64 cpow (S f) 0 40 (d2r r); run y <- fradial_polynomial_coeffs b64 cpow (S f) 2 40 (d2r r);
      run z <- fradial_polynomial_coeffs b64 cpow (S f) 1 39 (d2r r); mret (b64 (b64 (d2r r * b64 (x + y)) - z))).
    eapply keeps_bind; [exact KA| |discriminate]. intros ? [= ->]. eapply keeps_bind; [exact KB| |discriminate]. intros ? [= ->].
    eapply keeps_bind; [exact KC| |discriminate]. intros ? [= ->]. apply (keeps_ret (Ok _)). rewrite AB, RAB. unfold Rminus. rewrite X. reflexivity. }
  change (fradial_polynomial_coeffs b64 cpow (S (S (S f))) 0 42 (d2r r)) with
     (run x <- fradial_polynomial_coeffs b64 cpow (S (S f)) 1 41 (d2r r); run y <- fradial_polynomial_coeffs b64 cpow (S (S f)) 0 40 (d2r r);
      mret (b64 (b64 (b64 (2 * d2r r) * x) - y))).
  eapply keeps_bind; [exact K1| |discriminate]. intros ? [= ->]. eapply keeps_bind; [exact KA'| |discriminate]. intros ? [= ->].
  apply (keeps_ret (Ok _)). rewrite TR, TRX. unfold Rminus. rewrite H. reflexivity.
Qed.
Lemma run42 : exists y, prog42 (4503594163683479, -52)%Z = Some y /\ 1050 / 1000 < d2r y.
Proof.
  assert (B : is_some_lt (1101005, -20)%Z (prog42 (4503594163683479, -52)%Z) = true) by (vm_compute; reflexivity).
  destruct (prog42 (4503594163683479, -52)%Z) as [y|]; [|discriminate].
  exists y. split; [reflexivity|]. apply dltb_ok in B. rewrite half_k in B. lra.
Qed.

Theorem C57_bounded_refuted : exists pw, power_within_ulp pw /\ float64 r40 /\ 0 <= r40 <= 1 /\ float64 r42 /\ 0 <= r42 <= 1 /\
  forall s fuel, reachable s -> (45 <= Z.of_nat fuel)%Z ->
  (exists v, snd (fzp_radial near64 pw fuel 0 40 false r40 s) = Ok v /\ 1020 / 1000 < v /\ R_nm 0 40 r40 <= 1) /\
  (exists v, snd (fzp_radial near64 pw fuel 0 42 false r42 s) = Ok v /\ 1050 / 1000 < v /\ R_nm 0 42 r42 <= 1).
Proof.
  assert (P52 : 2 ^ 52 = 4503599627370496) by (rewrite (pow_IZR 2 52); reflexivity).
  assert (P53 : 2 ^ 53 = 9007199254740992) by (rewrite (pow_IZR 2 53); reflexivity).
  assert (B40 : 0 <= r40 <= 1) by (unfold r40; rewrite P53; lra). assert (B42 : 0 <= r42 <= 1) by (unfold r42; rewrite P52; lra).
  exists cpow. split; [apply cpow_ok|]. split; [rewrite <- d40; apply fl64; lia|]. split; [exact B40|].
  split; [rewrite <- d42; apply fl64; lia|]. split; [exact B42|].
  assert (LE : forall m n r, valid m n -> 0 <= r <= 1 -> R_nm m n r <= 1).
  { intros m n r V H. rewrite R_nm_F by exact V. pose proof (Fmn_le1 r H m n V) as A. unfold Fmn in A. pose proof (Rle_abs (F (oa m n) (ob m n) r)). lra. }
  intros s fuel RS HF. change near64 with b64. split.
  - destruct run40 as (y & Y & L). exists (d2r y). split; [|split; [exact L|apply LE; [apply v40|exact B40]]].
    unfold fzp_radial. change (40 <=? 12)%Z with false. cbn iota. destruct fuel as [|f]; [lia|]. rewrite <- d40.
    apply (keeps_at _ _ s RS (fcoef_dy f 0 40 _ y v40 ltac:(lia) ltac:(lia) Y)).
  - destruct run42 as (y & Y & L). exists (d2r y). split; [|split; [exact L|apply LE; [apply v0_42|exact B42]]].
    unfold fzp_radial. change (42 <=? 12)%Z with false. cbn iota. rewrite <- d42.
    apply (keeps_at _ _ s RS (prog42_ok fuel _ y HF Y)).
Qed.
Print Assumptions C57_bounded_refuted.

(** the hypotheses are met: correctly rounded functions, r = 1/3 rounded, order (-5, 25) *)
Example C57_nonvacuous : power_within_ulp cpow /\ trig_within_ulp (fun x => near64 (cos x)) (fun x => near64 (sin x)) /\
  float64 (near64 (1 / 3)) /\ 0 <= near64 (1 / 3) <= 1 /\ valid (-5) 25 /\ reachable import_state /\ (25 + 1 < Z.of_nat 1000)%Z.
Proof.
  split; [apply cpow_ok|]. split.
  { intros x _. split; unfold near64, ulp64; (eapply Rle_trans; [apply error_le_half_ulp; apply FLT_exp_valid; reflexivity|]);
    [pose proof (ulp_ge_0 radix2 exp64 (cos x))|pose proof (ulp_ge_0 radix2 exp64 (sin x))]; lra. }
  split; [apply b64_F|]. split.
  { change near64 with b64. pose proof (b64_rel (1 / 3)) as B. rewrite (Rabs_pos_eq (1 / 3)) in B by lra. apply Rabs_le_inv in B.
    pose proof u_pos. pose proof u_small. lra. }
  split; [split; [lia|split; [lia|exists 10%Z; reflexivity]]|]. split; [constructor|lia].
Qed.
