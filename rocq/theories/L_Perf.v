(** Lemmas for C73: compare_performances, the half pyramid, check_conformity. *)
From Coq Require Import Reals Lra Lia.
From Flocq Require Import Core.
From Verif Require Import Py SpecIndex SpecRadial M_Index L_Index M_Radial M_Coeffs SpecCoeffs L_Coeffs L_Trig L_Value M_Init SpecInit L_Init M_Sum SpecSum L_Sum
  M_Crop L_Crop M_Fit L_Fit M_Polar L_Polar L_Float L_Plot M_Plot SpecPlot L_Plot2 M_Perf.
Local Open Scope Z_scope.

(** ** the polynomials *)
Lemma init_mn m n : code_accepts m n -> zernpol_init [("m", PInt m); ("n", PInt n)]%string = Ok (obj m n).
Proof. intros A. apply init_denotes; [|exact A]. apply den_mn; simpl; auto. Qed.
Lemma accepts_step m n : 0 < n <= 54 -> (exists q, n - m = 2 * q) -> code_accepts m n.
Proof.
  intros Hn [q Hq]. split; [lia|split; [|lia]]. destruct (Z.abs_eq_or_opp m) as [E|E]; rewrite E.
  - exists q. lia. - exists (n - q). lia.
Qed.
Lemma cmp_inner_ok k : forall m n, 0 < n <= 54 \/ k = 0%nat -> (exists q, n - m = 2 * q) ->
  cmp_inner k m n = Ok (map (fun i => obj (m + 2 * Z.of_nat i) n) (seq 1 k)).
Proof.
  induction k as [|k IH]; intros m n Hn [q Hq]; [reflexivity|]. destruct Hn as [Hn|Hn]; [|discriminate].
  cbn [cmp_inner]. rewrite init_mn by (apply accepts_step; [exact Hn|exists (q - 1); lia]). cbn [bind].
  rewrite IH; [|left; exact Hn|exists (q - 1); lia]. cbn [bind seq map]. f_equal. f_equal.
  rewrite <- (seq_shift k 1), map_map. apply map_ext. intros i. f_equal. lia.
Qed.
Lemma cmp_row_ok o : 0 <= o <= 54 ->
  (do p <- zernpol_init [("m", PInt (- o)); ("n", PInt o)]%string; do row <- cmp_inner (Z.to_nat o) (- o) o; Ok (p :: row)) = Ok (row_objs o).
Proof.
  intros Ho. rewrite init_mn.
  2:{ destruct (Z.eq_dec o 0) as [-> |N]; [split; [lia|split; [exists 0; reflexivity|reflexivity]]|]. apply accepts_step; [lia|exists o; lia]. }
  cbn [bind]. rewrite cmp_inner_ok; [|destruct (Z.eq_dec o 0) as [-> |N]; [right; reflexivity|left; lia]|exists o; lia].
  cbn [bind]. unfold row_objs. replace (Z.to_nat (o + 1)) with (S (Z.to_nat o)) by lia. cbn [seq map].
  replace (- o + 2 * Z.of_nat 0) with (- o) by lia. reflexivity.
Qed.
Lemma cmp_rows_ok k : forall o, 0 <= o -> o + Z.of_nat k <= 55 -> cmp_rows k o = Ok (flat_map row_objs (zrange o k)).
Proof.
  induction k as [|k IH]; intros o Ho Hb; [reflexivity|]. cbn [cmp_rows zrange flat_map].
  pose proof (cmp_row_ok o ltac:(lia)) as E. destruct (zernpol_init _) as [p|e]; [|discriminate]. cbn [bind] in *.
  destruct (cmp_inner _ _ _) as [row|e]; [|discriminate]. cbn [bind] in *. apply Ok_inj in E. rewrite <- E, IH by lia. reflexivity.
Qed.
Lemma cmp_rows_fail k : forall o, 0 <= o -> 55 < o + Z.of_nat k -> (0 < k)%nat -> cmp_rows k o = Raise ValueError.
Proof.
  induction k as [|k IH]; intros o Ho Hb Hk; [lia|]. cbn [cmp_rows].
  destruct (Z_lt_le_dec 54 o) as [D|D].
  - assert (E : zernpol_init [("m", PInt (- o)); ("n", PInt o)]%string = Raise ValueError).
    { change (zernpol_init [("m", PInt (- o)); ("n", PInt o)]%string) with (init_orders (- o) o). unfold init_orders.
      rewrite Z.abs_opp, (Z.abs_eq o) by lia.
      repeat match goal with |- (if ?b then _ else _) = _ => destruct b eqn:?; try reflexivity end; exfalso; lia. }
    rewrite E. reflexivity.
  - pose proof (cmp_row_ok o ltac:(lia)) as E. destruct (zernpol_init _) as [p|e]; [|discriminate]. cbn [bind] in *.
    destruct (cmp_inner _ _ _) as [row|e]; [|discriminate]. cbn [bind] in *. rewrite IH by lia. reflexivity.
Qed.
Lemma cmp_rows_neg k o : o < 0 -> (0 < k)%nat -> cmp_rows k o = Raise ValueError.
Proof.
  intros Ho Hk. destruct k as [|k]; [lia|]. cbn [cmp_rows].
  assert (E : zernpol_init [("m", PInt (- o)); ("n", PInt o)]%string = Raise ValueError).
  { change (zernpol_init [("m", PInt (- o)); ("n", PInt o)]%string) with (init_orders (- o) o). unfold init_orders.
    repeat match goal with |- (if ?b then _ else _) = _ => destruct b eqn:?; try reflexivity end; exfalso; lia. }
  rewrite E. reflexivity.
Qed.

(** ** the loops *)
Lemma cmp_radii_val : cmp_radii = map (fun i => (INR i / 250)%R) (seq 0 251).
Proof.
  unfold cmp_radii, cmp_n_points. apply map_ext. intros i. change (251 - 1)%nat with 250%nat.
  assert (E : INR 250 = 250%R) by (rewrite INR_IZR_INZ; reflexivity). rewrite E. unfold np_round.
  assert (P : powerRZ 10 6 = 1000000%R) by (unfold powerRZ; simpl; ring). rewrite P.
  replace (INR i / 250 * 1000000)%R with (IZR (4000 * Z.of_nat i)) by (rewrite mult_IZR, <- INR_IZR_INZ; field).
  rewrite (Zrnd_IZR ZnearestE), mult_IZR, <- INR_IZR_INZ. field.
Qed.
Lemma cmp_radii_disk : Forall in_disk cmp_radii /\ cmp_radii <> [].
Proof.
  rewrite cmp_radii_val. split; [|discriminate]. apply Forall_forall. intros x H. apply in_map_iff in H. destruct H as (i & <- & I).
  apply in_seq in I. unfold in_disk. assert (0 <= INR i <= 250)%R; [|lra]. split; [apply pos_INR|]. rewrite INR_IZR_INZ. apply IZR_le. lia.
Qed.
Lemma radial_any fuel p e xs : okp fuel p -> Forall in_disk xs -> xs <> [] -> exists v, isok (radial fuel p e (RArr (map Fin xs))) v.
Proof.
  intros [V HF] F N. set (g := fun x => if e && (40 <? snd p) then 0%R else R_nm (fst p) (snd p) x).
  exists (KArr (map Fin (map g xs))). unfold radial.
  apply (checked_isok (zp_radial fuel (fst p) (snd p) e) g (RArr (map Fin xs)) xs (fun l => KArr (map Fin l)));
    [|apply arg_v; [constructor|exact N]|exact F].
  intros x _ s RS. split; [apply reach_radial; assumption|]. unfold g. destruct e; cbn [andb].
  - destruct (Z.ltb_spec 40 (snd p)) as [H|H].
    + apply (zp_high_exact_zero s fuel (fst p) (snd p) x 0%R H).
    + apply zp_radial_ok; try assumption; try lia.
  - apply zp_radial_ok; try assumption; try lia.
Qed.
Lemma cmp_loop_ok fuel e ps : Forall (fun p => okp fuel (zp_m p, zp_n p)) ps -> forall next i,
  isok (cmp_loop fuel e ps next i) (match ps with [] => i | _ => Some (next + Z.of_nat (length ps) - 1) end).
Proof.
  intros F. induction F as [|p ps OK F IH]; intros next i; cbn [cmp_loop]; [apply isok_ret|].
  destruct (radial_any fuel (zp_m p, zp_n p) e cmp_radii OK (proj1 cmp_radii_disk) (proj2 cmp_radii_disk)) as (v & Hv).
  eapply isok_bind; [exact Hv|]. eapply isok_ext; [|apply IH]. destruct ps; cbn [length]; f_equal; lia.
Qed.
Lemma row_objs_in o p : 0 <= o -> In p (row_objs o) -> exists m, p = obj m o /\ valid m o.
Proof.
  intros Ho H. destruct (In_nth_error _ _ H) as (i & E). assert (Hi : (i < length (row_objs o))%nat) by (apply nth_error_Some; congruence).
  rewrite row_objs_length in Hi by exact Ho. destruct (row_objs_nth o i Ho Hi) as (m & E' & V & _). exists m. split; [congruence|exact V].
Qed.

(** ** the half pyramid *)
Section Pyramid.
Variable rnd : R -> R.
Variable fuel : nat.
Hypothesis HR : rnd = idr \/ rnd = b64.
Hypothesis HF : (8 <= fuel)%nat.

Lemma pyr_mesh : exists rs ts a b, gen_polar_coordinates rnd (pyr_r_step rnd) (pyr_theta_step rnd) = Ok (rs, ts) /\ mesh_ok rs ts a b /\ (0 <= a + b + 8 * u <= 1 / 30)%R.
Proof.
  pose proof u_pos as U0. pose proof u_small as U1.
  assert (P14 : (1 / 10 ^ 14 = 1 / 100000000000000)%R) by (f_equal; ring).
  assert (G : (((rnd = idr /\ 0 < pyr_r_step rnd /\ 0 < pyr_theta_step rnd) \/
    (rnd = b64 /\ F64 (pyr_r_step rnd) /\ F64 (pyr_theta_step rnd) /\ bpow radix2 (-50) <= pyr_r_step rnd <= 1 / 2 /\ bpow radix2 (-48) <= pyr_theta_step rnd <= b64 PI)) /\
    0 <= pyr_r_step rnd <= 101 / 10000 /\ 0 <= pyr_theta_step rnd <= 176 / 10000)%R).
  { destruct HR as [-> | ->]; unfold pyr_r_step, pyr_theta_step.
    - unfold idr. split; [left; split; [reflexivity|lra]|lra].
    - pose proof (b64_rel (1 / 100)) as A. rewrite (Rabs_pos_eq (1 / 100)) in A by lra. apply Rabs_le_inv in A.
      pose proof (b64_rel (174533 / 10000000)) as B. rewrite (Rabs_pos_eq (174533 / 10000000)) in B by lra. apply Rabs_le_inv in B.
      destruct two_pi_facts as (_ & _ & T & _).
      split; [right; split; [reflexivity|]; split; [apply b64_F|]; split; [apply b64_F|]|lra].
      assert (BP : forall z, (z <= -10)%Z -> (bpow radix2 z <= 1 / 1000)%R).
      { intros z Hz. apply Rle_trans with (bpow radix2 (-10)); [apply bpow_le, Hz|simpl; lra]. }
      pose proof (BP (-50)%Z ltac:(lia)). pose proof (BP (-48)%Z ltac:(lia)). lra. }
  destruct G as (G & A & B). destruct (polar_mesh_ok rnd _ _ G) as (rs & ts & E & OK).
  exists rs, ts, (pyr_r_step rnd + 1 / 10 ^ 14)%R, (pyr_theta_step rnd + 1 / 10 ^ 14)%R. split; [exact E|]. split; [exact OK|]. lra.
Qed.
Lemma pictures_mono d cs ps g g' : (0 <= g <= g')%R -> pictures d cs ps g -> pictures d cs ps g'.
Proof.
  intros Hg [A B]. split; [exact A|]. intros x y H. destruct (B x y H) as (x' & y' & v & S' & D). exists x', y', v. split; [exact S'|].
  assert (g * g <= g' * g')%R by (apply Rmult_le_compat; lra). lra.
Qed.

(** what cell (i, j) shows *)
Definition pyr_good (c : nat * nat * drawing) : Prop :=
  let '(i, j, d) := c in let m := Z.of_nat i + 2 * Z.of_nat j - 11 in let n := Z.of_nat i + 1 in
  valid m n /\ pictures d [1%R] [(m, n)] (1 / 30) /\ on_3d_axes d = false.

Lemma pyr_draw i j k : (i < 6)%nat -> (j < 7)%nat -> 5 <= Z.of_nat i + Z.of_nat j -> let m := Z.of_nat i + 2 * Z.of_nat j - 11 in let n := Z.of_nat i + 1 in
  k = get_osa_index m n ->
  zernpol_init [("osa", PInt k)]%string = Ok (obj m n) /\
  okq (run zs <- gen_zernikes_surface rnd fuel [1%R] [Some (m, n)] (pyr_r_step rnd) (pyr_theta_step rnd) false 250; mlift (pcolormesh (zs_T zs) (zs_R zs) (zs_S zs)))
    (fun d => pyr_good (i, j, d)).
Proof.
  intros Hi Hj Hij m n Hk. assert (V : valid m n) by (unfold m, n; split; [lia|split; [lia|]]; destruct (Z.abs_eq_or_opp (Z.of_nat i + 2 * Z.of_nat j - 11)) as [E|E]; rewrite E; [exists (6 - Z.of_nat j); lia|exists (Z.of_nat i + Z.of_nat j - 5); lia]).
  split.
  - apply init_denotes; [|apply supported_accepts; split; [exact V|unfold n; lia]]. apply den_osa; [simpl; auto|exact V|cbn [as_int]; congruence].
  - destruct pyr_mesh as (rs & ts & a & b & E & MK & G).
    assert (OKS : Forall (okp fuel) [(m, n)]) by (constructor; [split; [exact V|cbn [snd]; unfold n; lia]|constructor]).
    pose proof (sum_zernikes_surface fuel [1%R] [(m, n)] rs ts ltac:(discriminate) eq_refl OKS (mk_disk _ _ _ _ MK)) as S1. cbn [map] in S1.
    unfold gen_zernikes_surface. cbn [negb]. rewrite E.
    eapply okq_bind with (P := fun zs => exists f, zs = ZSurf (SMat (length rs) (length ts) f) rs ts /\
       forall i j, (i < length rs)%nat -> (j < length ts)%nat -> f i j = Fin (zsum [1%R] [(m, n)] (nth i rs 0%R) (nth j ts 0%R))).
    + eapply isok_bindq; [apply isok_lift; reflexivity|]. cbn [fst snd]. eapply okq_bind; [exact S1|].
      intros v (f & -> & F). apply okq_ret. exists f. split; [reflexivity|exact F].
    + intros zs (f & -> & F). cbn [zs_T zs_R zs_S].
      destruct (mesh_pictures fuel [1%R] [(m, n)] rs ts f a b ""%string [] OKS MK F) as (d & DR & _ & P & AX).
      change (is_3d "") with false in *. unfold draw_2d in DR. rewrite DR. apply (okq_ret d). unfold pyr_good. fold m n.
      split; [exact V|]. split; [apply (pictures_mono d _ _ _ _ G P)|exact AX].
Qed.
Lemma pyr_index i j : (i < 6)%nat -> (j < 7)%nat -> 5 <= Z.of_nat i + Z.of_nat j ->
  get_osa_index (Z.of_nat i + 2 * Z.of_nat j - 11) (Z.of_nat i + 1) = (Z.of_nat i + 1) * (Z.of_nat i + 2) / 2 + (Z.of_nat j - (5 - Z.of_nat i)).
Proof.
  intros Hi Hj Hij. assert (V : valid (Z.of_nat i + 2 * Z.of_nat j - 11) (Z.of_nat i + 1)).
  { split; [lia|split; [lia|]]; destruct (Z.abs_eq_or_opp (Z.of_nat i + 2 * Z.of_nat j - 11)) as [E|E]; rewrite E; [exists (6 - Z.of_nat j); lia|exists (Z.of_nat i + Z.of_nat j - 5); lia]. }
  pose proof (osa_double _ _ V) as D. pose proof (tri_double (Z.of_nat i + 1)) as T.
  replace (Z.of_nat i + 1 + 1) with (Z.of_nat i + 2) in T by lia. nia.
Qed.

Lemma pyr_cols_ok i : (i < 6)%nat -> forall t j, (j + t = 7)%nat ->
  okq (pyr_cols rnd fuel t i j (5 - Z.of_nat i) ((Z.of_nat i + 1) * (Z.of_nat i + 2) / 2 + Z.max 0 (Z.of_nat j - (5 - Z.of_nat i))))
    (fun r => Forall pyr_good (fst r) /\ map fst (fst r) = map (fun j => (i, j)) (filter (fun j => (5 <=? i + j)%nat) (seq j t)) /\
       snd r = (Z.of_nat i + 1) * (Z.of_nat i + 2) / 2 + (Z.of_nat i + 2)).
Proof.
  intros Hi. induction t as [|t IH]; intros j Hj; cbn [pyr_cols seq filter].
  - apply okq_ret. cbn [fst snd map]. split; [constructor|split; [reflexivity|lia]].
  - destruct (Z.ltb_spec (5 - Z.of_nat i - 1) (Z.of_nat j)) as [L|L].
    + replace (5 <=? i + j)%nat with true by (symmetry; apply Nat.leb_le; lia).
      destruct (pyr_draw i j _ Hi ltac:(lia) ltac:(lia) (eq_sym (pyr_index i j Hi ltac:(lia) ltac:(lia)))) as (E & D).
      rewrite Z.max_r by lia. rewrite E. eapply isok_bindq; [apply isok_lift; reflexivity|].
      intros s RS. unfold okq, kr in D. specialize (D s RS). revert D. cbn [zp_m zp_n obj].
      assert (ASSOC : forall (A B C : Type) (x : M A) (f : A -> M B) (g : B -> M C), mbind x (fun a => mbind (f a) g) s = mbind (mbind x f) g s).
      { intros A B C x f g. unfold mbind. destruct (x s) as (s', [a|e]); reflexivity. }
      rewrite ASSOC. set (D0 := mbind (gen_zernikes_surface _ _ _ _ _ _ _ _) _). intros (R1 & d & Ed & Gd).
      clear ASSOC. unfold mbind. destruct (D0 s) as (s', r). cbn [fst snd] in *. subst r.
      assert (K : okq (run rest <- pyr_cols rnd fuel t i (S j) (5 - Z.of_nat i) ((Z.of_nat i + 1) * (Z.of_nat i + 2) / 2 + (Z.of_nat j - (5 - Z.of_nat i)) + 1);
          mret ((i, j, d) :: fst rest, snd rest)) (fun r => Forall pyr_good (fst r) /\ map fst (fst r) = map (fun j => (i, j)) (j :: filter (fun j => (5 <=? i + j)%nat) (seq (S j) t)) /\
       snd r = (Z.of_nat i + 1) * (Z.of_nat i + 2) / 2 + (Z.of_nat i + 2))).
      { replace ((Z.of_nat i + 1) * (Z.of_nat i + 2) / 2 + (Z.of_nat j - (5 - Z.of_nat i)) + 1)
          with ((Z.of_nat i + 1) * (Z.of_nat i + 2) / 2 + Z.max 0 (Z.of_nat (S j) - (5 - Z.of_nat i))) by lia.
        eapply okq_bind; [apply IH; lia|]. intros (cells & k') (F & Mp & K). cbn [fst snd] in *. apply okq_ret. cbn [fst snd map].
        split; [constructor; assumption|]. split; [f_equal; exact Mp|exact K]. }
      apply K. exact R1.
    + replace (5 <=? i + j)%nat with false by (symmetry; apply Nat.leb_gt; lia).
      rewrite Z.max_l by lia. replace 0 with (Z.max 0 (Z.of_nat (S j) - (5 - Z.of_nat i))) by lia. apply IH. lia.
Qed.
Lemma pyr_rows_ok : forall t i, (i + t = 6)%nat ->
  okq (pyr_rows rnd fuel t i 7 (5 - Z.of_nat i) ((Z.of_nat i + 1) * (Z.of_nat i + 2) / 2))
    (fun cells => Forall pyr_good cells /\ map fst cells = flat_map (fun i => map (fun j => (i, j)) (filter (fun j => (5 <=? i + j)%nat) (seq 0 7))) (seq i t)).
Proof.
  induction t as [|t IH]; intros i Hi; cbn [pyr_rows]; [apply okq_ret; split; [constructor|reflexivity]|].
  change (flat_map (fun i => map (fun j => (i, j)) (filter (fun j => (5 <=? i + j)%nat) (seq 0 7))) (seq i (S t)))
    with (map (fun j => (i, j)) (filter (fun j => (5 <=? i + j)%nat) (seq 0 7)) ++ flat_map (fun i => map (fun j => (i, j)) (filter (fun j => (5 <=? i + j)%nat) (seq 0 7))) (seq (S i) t))%list.
  pose proof (pyr_cols_ok i ltac:(lia) 7%nat 0%nat eq_refl) as P. rewrite Z.max_l, Z.add_0_r in P by lia.
  eapply okq_bind; [exact P|]. intros (row & k') (F & Mp & K). cbn [fst snd] in F, Mp, K. cbn [fst snd]. subst k'.
  pose proof (tri_double (Z.of_nat i + 1)) as T1. pose proof (tri_double (Z.of_nat i + 2)) as T2.
  replace (5 - Z.of_nat i - 1) with (5 - Z.of_nat (S i)) by lia.
  replace ((Z.of_nat i + 1) * (Z.of_nat i + 2) / 2 + (Z.of_nat i + 2)) with ((Z.of_nat (S i) + 1) * (Z.of_nat (S i) + 2) / 2).
  2:{ replace (Z.of_nat (S i) + 1) with (Z.of_nat i + 2) by lia. replace (Z.of_nat (S i) + 2) with (Z.of_nat i + 2 + 1) by lia.
      replace (Z.of_nat i + 1 + 1) with (Z.of_nat i + 2) in T1 by lia. nia. }
  eapply okq_bind; [apply IH; lia|]. intros cells (F' & Mp'). apply okq_ret. split; [apply Forall_app; split; assumption|].
  transitivity (map fst row ++ map fst cells)%list; [apply map_app|]. f_equal; [exact Mp|exact Mp'].
Qed.
End Pyramid.
