(** Property theorems C73: compare_performances, the half pyramid and check_conformity. Arithmetic on values is exact. *)
From Coq Require Import Reals Lra Lia.
From Flocq Require Import Core.
From Verif Require Import Py SpecIndex SpecRadial M_Index L_Index M_Radial M_Coeffs SpecCoeffs L_Coeffs M_Init SpecInit L_Init M_Sum SpecSum L_Sum
  M_Crop L_Crop M_Fit L_Fit M_Polar L_Polar L_Float L_Plot M_Plot SpecPlot L_Plot2 M_Perf L_Perf.
Local Open Scope Z_scope.

(** ** compare_performances *)
(** the timed polynomials: every valid one with min_order <= n <= max_order, each once *)
Theorem C73_polynomials : forall min_order max_order, 0 <= min_order <= max_order -> max_order <= 54 ->
  exists ps, cmp_pols min_order max_order = Ok ps /\ NoDup ps /\
    (forall p, In p ps <-> exists m n, p = obj m n /\ valid m n /\ min_order <= n <= max_order) /\
    Z.of_nat (length ps) = (max_order + 1) * (max_order + 2) / 2 - min_order * (min_order + 1) / 2.
Proof.
  intros lo hi Hlo Hhi. unfold cmp_pols. set (k := Z.to_nat (hi + 1 - lo)). exists (flat_map row_objs (zrange lo k)).
  destruct (pyramid_nth k lo (proj1 Hlo)) as (LEN & NTH). replace (lo + Z.of_nat k) with (hi + 1) in * by lia.
  assert (RNG : forall o, In o (zrange lo k) <-> lo <= o <= hi) by (intros o; rewrite zrange_In; lia).
  split; [apply cmp_rows_ok; lia|]. split; [|split].
  - apply NoDup_nth_error. intros i j Hi E. destruct (NTH i Hi) as (m & n & E1 & V & _ & O1).
    assert (Hj : (j < length (flat_map row_objs (zrange lo k)))%nat) by (apply nth_error_Some; rewrite <- E, E1; discriminate).
    destruct (NTH j Hj) as (m' & n' & E2 & V' & _ & O2). rewrite E1, E2 in E. injection E as <- <-. lia.
  - intros p. rewrite in_flat_map. split.
    + intros (o & Io & Ip). apply RNG in Io. destruct (row_objs_in o p ltac:(lia) Ip) as (m & -> & V). exists m, o. split; [reflexivity|split; [exact V|exact Io]].
    + intros (m & n & -> & V & B). exists n. split; [apply RNG, B|]. unfold row_objs. apply in_map_iff. destruct V as (V0 & V1 & q & V2).
      exists (Z.to_nat ((n + m) / 2)). assert (EV : 2 * ((n + m) / 2) = n + m).
      { destruct (Z.abs_eq_or_opp m) as [A|A]; rewrite A in V2.
        - replace (n + m) with ((n - q) * 2) by lia. rewrite Z.div_mul by lia. lia.
        - replace (n + m) with (q * 2) by lia. rewrite Z.div_mul by lia. lia. }
      split; [f_equal; lia|]. apply in_seq. lia.
  - rewrite LEN. replace (hi + 1 + 1) with (hi + 2) by lia. rewrite Z2Nat.id; [reflexivity|].
    pose proof (tri_double (hi + 1)) as T1. pose proof (tri_double lo) as T2. replace (hi + 1 + 1) with (hi + 2) in T1 by lia. nia.
Qed.
Print Assumptions C73_polynomials.

(** the returned tuple, whatever was computed before: the two differences of clock readings in ms to 3 digits, a number of
    "used polynomials" that is one less than the number of polynomials that were timed, and 251 *)
Theorem C73_result : forall fuel clock min_order max_order s, reachable s -> 0 <= min_order <= max_order -> max_order <= 54 ->
  max_order + 1 < Z.of_nat fuel ->
  exists ps, cmp_pols min_order max_order = Ok ps /\
  snd (compare_performances fuel clock min_order max_order s) =
    Ok (np_round 3 (1000 * (clock 1%nat - clock 0%nat)), np_round 3 (1000 * (clock 3%nat - clock 2%nat)), Z.of_nat (length ps) - 1, 251%nat) /\
  (length ps > 0)%nat.
Proof.
  intros fuel clock lo hi s RS Hlo Hhi HF. destruct (C73_polynomials lo hi Hlo Hhi) as (ps & E & _ & IN & L). exists ps. split; [exact E|].
  assert (LP : (length ps > 0)%nat).
  { destruct ps; [|cbn [length]; lia]. exfalso. apply (in_nil (a := obj lo lo)). apply IN. exists lo, lo. split; [reflexivity|].
    split; [split; [lia|split; [lia|exists 0; lia]]|lia]. }
  split; [|exact LP].
  assert (OK : Forall (fun p => okp fuel (zp_m p, zp_n p)) ps).
  { apply Forall_forall. intros p Ip. apply IN in Ip. destruct Ip as (m & n & -> & V & B). split; [exact V|]. cbn [snd obj zp_n]. lia. }
  assert (I : isok (compare_performances fuel clock lo hi)
    (np_round 3 (1000 * (clock 1%nat - clock 0%nat)), np_round 3 (1000 * (clock 3%nat - clock 2%nat)), Z.of_nat (length ps) - 1, 251%nat)).
  { unfold compare_performances. rewrite E. eapply isok_bind; [apply isok_lift; reflexivity|].
    eapply isok_bind; [apply cmp_loop_ok, OK|]. eapply isok_bind; [apply cmp_loop_ok, OK|].
    destruct ps as [|p ps]; [cbn [length] in LP; lia|]. eapply isok_ext; [|apply isok_ret]. rewrite Z.add_0_l. reflexivity. }
  apply (I s RS).
Qed.
Print Assumptions C73_result.

(** all other arguments: an empty range of orders fails with UnboundLocalError at the end, a negative or unsupported
    radial order with ValueError before anything is timed; no table is changed in these cases *)
Theorem C73_rejects : forall fuel clock min_order max_order s,
  (max_order < min_order -> compare_performances fuel clock min_order max_order s = (s, Raise UnboundLocalError)) /\
  (min_order <= max_order -> min_order < 0 \/ 54 < max_order -> compare_performances fuel clock min_order max_order s = (s, Raise ValueError)).
Proof.
  intros fuel clock lo hi s. unfold compare_performances, cmp_pols. split.
  - intros H. replace (Z.to_nat (hi + 1 - lo)) with 0%nat by lia. reflexivity.
  - intros H1 H2. destruct (Z_lt_le_dec lo 0) as [N|N].
    + rewrite cmp_rows_neg by lia. reflexivity.
    + rewrite cmp_rows_fail by lia. reflexivity.
Qed.
Print Assumptions C73_rejects.
(** 0 <= n <= 2: six polynomials, the message says 5 *)
Example C73_message : forall fuel clock s, reachable s -> (10 <= fuel)%nat ->
  exists t1 t2, snd (compare_performances fuel clock 0 2 s) = Ok (t1, t2, 5, 251%nat).
Proof.
  intros fuel clock s RS HF. destruct (C73_result fuel clock 0 2 s RS ltac:(lia) ltac:(lia) ltac:(lia)) as (ps & E & H & _).
  destruct (C73_polynomials 0 2 ltac:(lia) ltac:(lia)) as (ps' & E' & _ & _ & L). rewrite E in E'. apply Ok_inj in E'. subst ps'.
  change ((2 + 1) * (2 + 2) / 2 - 0 * (0 + 1) / 2) with 6 in L. rewrite L in H. eexists _, _. exact H.
Qed.

Definition pair_eq_dec : forall a b : nat * nat, {a = b} + {a <> b}.
Proof. decide equality; apply Nat.eq_dec. Defined.
(** ** the half pyramid: row i of the figure shows the polynomials with n = i + 1, right-aligned in the order of m *)
Theorem C73_half_pyramid : forall rnd fuel s, rnd = idr \/ rnd = b64 -> reachable s -> (8 <= fuel)%nat ->
  exists cells, snd (plot_zernikes_half_pyramid rnd fuel s) = Ok cells /\ NoDup (map fst cells) /\
    (forall i j, In (i, j) (map fst cells) <-> (i < 6 /\ j < 7 /\ 5 <= i + j)%nat) /\
    (forall i j d, In (i, j, d) cells -> exists m, valid m (Z.of_nat i + 1) /\
       m = - (Z.of_nat i + 1) + 2 * (Z.of_nat j - (5 - Z.of_nat i)) /\ pictures d [1%R] [(m, Z.of_nat i + 1)] (1 / 30) /\ on_3d_axes d = false).
Proof.
  intros rnd fuel s HR RS HF. destruct (pyr_rows_ok rnd fuel HR HF 6 0 eq_refl s RS) as (_ & cells & E & F & Mp). exists cells.
  split; [exact E|]. split; [|split].
  - assert (D : forall l : list (nat * nat), nodup pair_eq_dec l = l -> NoDup l) by (intros l H; rewrite <- H; apply NoDup_nodup).
    rewrite Mp. apply D. reflexivity.
  - intros i j. rewrite Mp, in_flat_map. split.
    + intros (i' & I & J). apply in_seq in I. apply in_map_iff in J. destruct J as (j' & [= <- <-] & J). apply filter_In in J. destruct J as (J & L).
      apply in_seq in J. apply Nat.leb_le in L. lia.
    + intros (Hi & Hj & Hij). exists i. split; [apply in_seq; lia|]. apply in_map_iff. exists j. split; [reflexivity|]. apply filter_In.
      split; [apply in_seq; lia|apply Nat.leb_le, Hij].
  - intros i j d I. rewrite Forall_forall in F. specialize (F _ I). cbn [pyr_good] in F. cbv zeta in F. destruct F as (V & P & A).
    exists (Z.of_nat i + 2 * Z.of_nat j - 11). split; [exact V|]. split; [lia|]. split; [exact P|exact A].
Qed.
Print Assumptions C73_half_pyramid.

(** ** check_conformity: all its assertions hold, whatever was computed before *)
Theorem C73_check_conformity : forall fuel s, reachable s -> (4 <= fuel)%nat -> snd (check_conformity fuel s) = Ok (repeat true 16).
Proof.
  intros fuel s RS HF.
  assert (V1 : Z_nm 0 2 0 PI = (- sqrt 3)%R).
  { unfold Z_nm, norm_nm, T_m, R_nm. simpl. rewrite (Rmult_0_l PI), cos_0. replace (2 * (2 + 1) / (1 + 1))%R with 3%R by field. field. }
  assert (V2 : Z_nm (-1) 1 (1 / 2) (PI / 2) = 1%R).
  { unfold Z_nm, norm_nm, T_m, R_nm. simpl. replace (1 * (PI / 2))%R with (PI / 2)%R by ring. rewrite sin_PI2.
    replace (2 * (1 + 1) / (1 + 0))%R with (2 * 2)%R by field. rewrite sqrt_square by lra. field. }
  assert (I : isok (check_conformity fuel) (repeat true 16)).
  { unfold check_conformity.
    do 4 (eapply isok_bind; [apply isok_lift; reflexivity|]).
    cbv beta zeta. cbn [get_mn_orders obj zp_m zp_n].
    do 3 (eapply isok_bind; [apply isok_lift; reflexivity|]).
    eapply isok_bind with (a := true); [intros s' RS'; split; [exact RS'|reflexivity]|].
    eapply isok_bind; [apply isok_lift; reflexivity|].
    eapply isok_bind with (a := KFloat (Fin (- sqrt 3))).
    { pose proof (value_isok fuel (0, 2) (RNum (Fin 0)) (RNum (Fin PI)) [(0%R, PI)] _ (conj (ltac:(split; [lia|split; [lia|exists 1; reflexivity]]) : valid 0 2) (ltac:(cbn [snd]; lia) : 2 + 1 < Z.of_nat fuel))
        (bc_ff 0 PI)) as W. unfold Zv in W; cbn [map hd fst snd] in W. rewrite V1 in W. apply W. constructor; [unfold in_disk; cbn [fst]; lra|constructor]. }
    eapply isok_bind; [apply isok_lift; reflexivity|].
    eapply isok_bind with (a := KFloat (Fin 1)).
    { pose proof (value_isok fuel (-1, 1) (RNum (Fin (1 / 2))) (RNum (Fin (PI / 2))) [((1 / 2)%R, (PI / 2)%R)] _ (conj (ltac:(split; [lia|split; [lia|exists 0; reflexivity]]) : valid (-1) 1) (ltac:(cbn [snd]; lia) : 1 + 1 < Z.of_nat fuel))
        (bc_ff (1 / 2) (PI / 2))) as W. unfold Zv in W; cbn [map hd fst snd] in W. rewrite V2 in W. apply W. constructor; [unfold in_disk; cbn [fst]; lra|constructor]. }
    eapply isok_bind with (a := true); [intros s' RS'; split; [exact RS'|reflexivity]|].
    eapply isok_bind with (a := true).
    { intros s' RS'. unfold expect_ValueError.
      destruct (all_rejected fuel (-1, 1) false (RList [Fin (1 / 10); Fin (2 / 10); Fin (1 + 1 / 1000000000)]) (RNum (Fin PI)) s') as (_ & _ & E).
      - exact Logic.I.
      - cbn. intros [X|[X|[X|[]]]]; discriminate.
      - eexists. split; [cbn; right; right; left; reflexivity|]. cbn. right. lra.
      - change (zp_m _, zp_n _) with (-1, 1). rewrite E. split; [exact RS'|reflexivity]. }
    eapply isok_ext; [|apply isok_ret].
    assert (C : forall x, close6 (KFloat (Fin x)) x = true).
    { intros x. unfold close6. rewrite Rminus_eq_0, Rabs_R0. destruct (Rlt_dec 0 (1 / 1000000)); [reflexivity|lra]. }
    rewrite !C. reflexivity. }
  apply (I s RS).
Qed.
Print Assumptions C73_check_conformity.

Example C73_nonvacuous : reachable import_state /\ (0 <= 3 <= 54) /\ valid (-1) 1.
Proof. split; [constructor|]. split; [lia|]. split; [lia|split; [lia|exists 0; reflexivity]]. Qed.
