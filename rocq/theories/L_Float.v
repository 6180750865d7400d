(** Rounding-error analysis of the floating-point model (helper lemmas for C57). *)
From Coq Require Import Reals Lra Lia Arith Psatz.
From Flocq Require Import Core Relative.
From Verif Require Import Py SpecIndex SpecRadial RadialMath M_Radial M_Coeffs L_Dict L_Coeffs L_Cache L_Radial L_Bound L_Value L_CoeffVal
  L_Polar SpecFloat M_Float.
Local Open Scope R_scope.

(** ** without rounding the model is the one of M_Radial.v / M_Coeffs.v *)
Definition idR (x : R) : R := x.
Notation evalR := (feval idR powerRZ).

Lemma radial_src_table m n r : radial_table m n r = option_map (fun e => evalR e r) (radial_src m n).
Proof.
  unfold radial_table, radial_src.
  repeat match goal with |- (if ?b then _ else _) = _ => destruct b; [cbn [option_map feval]; unfold idR; f_equal;
     try reflexivity; cbn [powerRZ Pos.to_nat Pos.iter_op Nat.add]; try reflexivity; ring|] end.
  reflexivity.
Qed.

Lemma fradial_exact fuel : forall m n r, fradial_polynomial idR powerRZ fuel m n r = radial_polynomial fuel m n r.
Proof.
  induction fuel as [|f IH]; intros m n r; [reflexivity|]. cbn [fradial_polynomial radial_polynomial].
  rewrite radial_src_table. destruct (radial_src m n); [reflexivity|]. cbn [option_map].
  rewrite !IH. reflexivity.
Qed.
Lemma feq_loop_exact ks : forall m n r v, feq_loop idR powerRZ ks m n r v = eq_loop ks m n r v.
Proof.
  induction ks as [|k tl IH]; intros m n r v; [reflexivity|]. cbn [feq_loop eq_loop]. cbv zeta.
  destruct (py_factorial (n - k)); [|reflexivity]. cbn [bind].
  destruct (py_factorial k); [|reflexivity]. cbn [bind].
  destruct (py_factorial ((n + m) / 2 - k)); [|reflexivity]. cbn [bind].
  destruct (py_factorial ((n - m) / 2 - k)); [|reflexivity]. cbn [bind]. apply IH.
Qed.
Lemma feval_dict_exact d r : forall acc, feval_dict idR powerRZ d r acc = eval_dict d r acc.
Proof. induction d as [|[k v] tl IH]; intros acc; [reflexivity|]. cbn [feval_dict eval_dict]. rewrite IH. reflexivity. Qed.
Lemma fcoeffs_exact fuel : forall m n r s, fradial_polynomial_coeffs idR powerRZ fuel m n r s = radial_polynomial_coeffs fuel m n r s.
Proof.
  induction fuel as [|f IH]; intros m n r s; [reflexivity|]. cbn [fradial_polynomial_coeffs radial_polynomial_coeffs].
  destruct (n <=? MAX_RADIAL_ORDER_COEFFS)%Z.
  { unfold mbind. destruct (find_coeffs_orders f NoFlag m n s) as [s' [d|e]]; [|reflexivity]. rewrite feval_dict_exact. reflexivity. }
  destruct (Z.abs m =? n)%Z; [reflexivity|].
  destruct (m =? 0)%Z.
  { unfold mbind. rewrite IH. destruct (radial_polynomial_coeffs f 1 (n - 1) r s) as [s' [d|e]]; [|reflexivity].
    rewrite IH. destruct (radial_polynomial_coeffs f 0 (n - 2) r s') as [s2 [d'|e]]; reflexivity. }
  destruct (Z.abs m =? n - 2)%Z; [reflexivity|].
  unfold mbind. rewrite IH. destruct (radial_polynomial_coeffs f _ (n - 1) r s) as [s' [d|e]]; [|reflexivity].
  rewrite IH. destruct (radial_polynomial_coeffs f _ (n - 1) r s') as [s2 [d'|e]]; [|reflexivity].
  rewrite IH. destruct (radial_polynomial_coeffs f _ (n - 2) r s2) as [s3 [d3|e]]; reflexivity.
Qed.
Lemma fzp_radial_exact fuel m n e r s : fzp_radial idR powerRZ fuel m n e r s = zp_radial fuel m n e r s.
Proof.
  unfold fzp_radial, zp_radial, fradial_polynomial_eq, radial_polynomial_eq.
  rewrite fradial_exact, feq_loop_exact. destruct e; [reflexivity|]. destruct (n <=? 12)%Z; [reflexivity|]. apply fcoeffs_exact.
Qed.
Lemma fzp_value_exact fuel m n e r th s : fzp_polynomial_value idR powerRZ cos sin fuel m n e r th s = zp_polynomial_value fuel m n e r th s.
Proof.
  unfold fzp_polynomial_value, zp_polynomial_value. destruct (e && _)%bool; [reflexivity|].
  unfold mbind. rewrite fzp_radial_exact. destruct (zp_radial fuel m n e r s) as [s' [v|x]]; [|reflexivity].
  unfold mret. do 2 f_equal.
Qed.

(** ** one rounding *)
Definition u : R := / 2 ^ 53.
Lemma u_val : u = bpow radix2 (-53).
Proof. unfold u. change (bpow radix2 (-53)) with (/ IZR (Z.pow_pos 2 53)). f_equal. rewrite (pow_IZR 2 53). reflexivity. Qed.
Lemma u_pos : 0 < u. Proof. rewrite u_val. apply bpow_gt_0. Qed.
Lemma u_small : u <= 1 / 1000000000000.
Proof. unfold u. assert (1000000000000 <= 2 ^ 53) by (rewrite (pow_IZR 2 53); apply IZR_le; lia).
  unfold Rdiv. rewrite Rmult_1_l. apply Rinv_le; lra. Qed.

Lemma b64_rel x : Rabs (b64 x - x) <= u * Rabs x + u / 2.
Proof.
  destruct (error_N_FLT radix2 (-1074) 53 ltac:(reflexivity) (fun z => negb (Z.even z)) x) as (eps & eta & He & Ht & _ & E).
  fold ZnearestE in E. unfold b64. rewrite E.
  replace (x * (1 + eps) + eta - x) with (eps * x + eta) by ring.
  eapply Rle_trans; [apply Rabs_triang|]. rewrite Rabs_mult. apply Rplus_le_compat.
  - apply Rmult_le_compat_r; [apply Rabs_pos|]. eapply Rle_trans; [exact He|].
    rewrite u_val. change (-53)%Z with (- (53))%Z. replace (/ 2) with (bpow radix2 (-1)) by reflexivity. rewrite <- bpow_plus. apply bpow_le. lia.
  - eapply Rle_trans; [exact Ht|]. rewrite u_val. unfold Rdiv. rewrite Rmult_comm. apply Rmult_le_compat_r; [lra|].
    apply bpow_le. lia.
Qed.
(** rounding an approximation: the exact value is at most M, the approximation is within d *)
Lemma b64_step x y M d : Rabs x <= M -> Rabs (y - x) <= d -> Rabs (b64 y - x) <= d * (1 + u) + u * M + u / 2.
Proof.
  intros HM Hd. pose proof u_pos as U. pose proof (b64_rel y) as B.
  assert (Ry : Rabs y <= M + d). { replace y with (x + (y - x)) by ring. eapply Rle_trans; [apply Rabs_triang|]. lra. }
  replace (b64 y - x) with ((b64 y - y) + (y - x)) by ring. eapply Rle_trans; [apply Rabs_triang|].
  assert (u * Rabs y <= u * (M + d)) by (apply Rmult_le_compat_l; lra). lra.
Qed.

(** ** power *)
Lemma powerRZ01 r k : 0 <= r <= 1 -> (0 <= k)%Z -> 0 <= powerRZ r k <= 1.
Proof.
  intros H K. rewrite <- (Z2Nat.id k K), <- pow_powerRZ. split; [apply pow_le; lra|].
  rewrite <- (pow1 (Z.to_nat k)). apply pow_incr. exact H.
Qed.
Lemma ulp1 x : Rabs x <= 1 -> ulp64 x <= 2 * u.
Proof.
  intros H. replace (2 * u) with (ulp64 1).
  - unfold ulp64. apply ulp_le; [apply FLT_exp_valid; reflexivity|apply FLT_exp_monotone|]. rewrite (Rabs_pos_eq 1) by lra. exact H.
  - unfold ulp64. rewrite u_val. change 1 with (bpow radix2 0) at 1. rewrite ulp_bpow. unfold exp64, FLT_exp.
    change 2 with (bpow radix2 1). rewrite <- bpow_plus. f_equal.
Qed.
Lemma pw_err pw r k : power_within_ulp pw -> F64 r -> 0 <= r <= 1 -> (0 <= k)%Z -> Rabs (pw r k - powerRZ r k) <= 2 * u.
Proof.
  intros P F H K. destruct (P r k F H K) as [_ E]. eapply Rle_trans; [exact E|]. apply ulp1.
  pose proof (powerRZ01 r k H K). rewrite Rabs_pos_eq; lra.
Qed.

(** ** the table: a static analysis of the expressions *)
Fixpoint mag (e : expr) : Z :=
  match e with
  | Num z => Z.abs z | Rad => 1 | Pow _ => 1
  | Add a b | Sub a b => (mag a + mag b)%Z
  | Mul a b => (mag a * mag b)%Z
  end.
Definition up (k : Z) : Z := (k / 2 ^ 53 + 1)%Z.
Fixpoint kerr (e : expr) : Z :=
  match e with
  | Num _ => 0 | Rad => 0 | Pow _ => 2
  | Add a b | Sub a b => (kerr a + kerr b + up (kerr a + kerr b) + (mag a + mag b) + 1)%Z
  | Mul a b => (let k := mag a * kerr b + mag b * kerr a + up (kerr a * kerr b) in k + up k + mag a * mag b + 1)%Z
  end.
Fixpoint wfe (e : expr) : bool :=
  match e with Num _ | Rad => true | Pow k => (0 <=? k)%Z | Add a b | Sub a b | Mul a b => wfe a && wfe b end.

Lemma up_ok k : (0 <= k)%Z -> IZR k * u <= IZR (up k).
Proof.
  intros H. unfold up. pose proof (Z.div_mod k (2 ^ 53) ltac:(lia)) as E. pose proof (Z.mod_pos_bound k (2 ^ 53) ltac:(lia)) as B.
  assert (L : IZR k <= IZR (2 ^ 53) * IZR (k / 2 ^ 53 + 1)) by (rewrite <- mult_IZR; apply IZR_le; lia).
  replace (IZR (2 ^ 53)) with (/ u) in L.
  2:{ unfold u. rewrite Rinv_inv. rewrite (pow_IZR 2 53). reflexivity. }
  pose proof u_pos. apply Rmult_le_reg_l with (/ u); [apply Rinv_0_lt_compat; lra|].
  replace (/ u * (IZR k * u)) with (IZR k) by (field; lra). exact L.
Qed.
Lemma up_nonneg k : (0 <= k)%Z -> (0 <= up k)%Z.
Proof. intros H. unfold up. pose proof (Z.div_pos k (2 ^ 53) H ltac:(lia)). lia. Qed.

Lemma mag_kerr_nonneg e : (0 <= mag e /\ 0 <= kerr e)%Z.
Proof.
  induction e as [z| |k|a [Ma Ka] b [Mb Kb]|a [Ma Ka] b [Mb Kb]|a [Ma Ka] b [Mb Kb]]; cbn [mag kerr]; try lia.
  - pose proof (up_nonneg (kerr a + kerr b) ltac:(lia)). lia.
  - pose proof (up_nonneg (kerr a + kerr b) ltac:(lia)). lia.
  - pose proof (up_nonneg (kerr a * kerr b) ltac:(nia)).
    pose proof (up_nonneg (mag a * kerr b + mag b * kerr a + up (kerr a * kerr b)) ltac:(nia)). nia.
Qed.

(** a rounding step in units of u *)
Lemma b64_stepK x y M K : (0 <= M)%Z -> (0 <= K)%Z -> Rabs x <= IZR M -> Rabs (y - x) <= IZR K * u ->
  Rabs (b64 y - x) <= IZR (K + up K + M + 1) * u.
Proof.
  intros HM HK H1 H2. pose proof (b64_step x y _ _ H1 H2) as S. pose proof u_pos as U. pose proof (up_ok K HK) as P.
  eapply Rle_trans; [exact S|]. rewrite !plus_IZR.
  assert (IZR K * u * u <= IZR (up K) * u) by (apply Rmult_le_compat_r; lra). nra.
Qed.

Section Analysis.
Variable pw : R -> Z -> R.
Hypothesis PW : power_within_ulp pw.
Variable r : R.
Hypothesis Fr : F64 r.
Hypothesis Hr : 0 <= r <= 1.

Lemma feval_err e : wfe e = true -> Rabs (evalR e r) <= IZR (mag e) /\ Rabs (feval b64 pw e r - evalR e r) <= IZR (kerr e) * u.
Proof.
  pose proof u_pos as U.
  induction e as [z| |k|a IHa b IHb|a IHa b IHb|a IHa b IHb]; intros W; cbn [wfe] in W.
  - cbn [feval mag kerr]. rewrite <- abs_IZR. split; [lra|]. rewrite Rminus_diag_eq, Rabs_R0 by reflexivity. lra.
  - cbn [feval mag kerr]. rewrite Rminus_diag_eq, Rabs_R0 by reflexivity. rewrite Rabs_pos_eq by lra. lra.
  - cbn [feval mag kerr]. pose proof (powerRZ01 r k Hr ltac:(lia)). split; [rewrite Rabs_pos_eq; lra|].
    apply pw_err; auto. lia.
  - apply andb_prop in W as [Wa Wb]. destruct (IHa Wa) as [Ma Ea]. destruct (IHb Wb) as [Mb Eb]. clear IHa IHb.
    pose proof (mag_kerr_nonneg a). pose proof (mag_kerr_nonneg b). cbn [feval]. change (idR (evalR a r + evalR b r)) with (evalR a r + evalR b r).
    assert (MX : Rabs (evalR a r + evalR b r) <= IZR (mag a + mag b)).
    { eapply Rle_trans; [apply Rabs_triang|]. rewrite plus_IZR. lra. }
    split; [exact MX|]. cbn [kerr].
    apply b64_stepK; [lia|lia|exact MX|]. rewrite plus_IZR.
    replace (feval b64 pw a r + feval b64 pw b r - (evalR a r + evalR b r)) with ((feval b64 pw a r - evalR a r) + (feval b64 pw b r - evalR b r)) by ring.
    eapply Rle_trans; [apply Rabs_triang|]. lra.
  - apply andb_prop in W as [Wa Wb]. destruct (IHa Wa) as [Ma Ea]. destruct (IHb Wb) as [Mb Eb]. clear IHa IHb.
    pose proof (mag_kerr_nonneg a). pose proof (mag_kerr_nonneg b). cbn [feval]. change (idR (evalR a r - evalR b r)) with (evalR a r - evalR b r).
    assert (MX : Rabs (evalR a r - evalR b r) <= IZR (mag a + mag b)).
    { unfold Rminus. eapply Rle_trans; [apply Rabs_triang|]. rewrite Rabs_Ropp, plus_IZR. lra. }
    split; [exact MX|]. cbn [kerr].
    apply b64_stepK; [lia|lia|exact MX|]. rewrite plus_IZR.
    replace (feval b64 pw a r - feval b64 pw b r - (evalR a r - evalR b r)) with ((feval b64 pw a r - evalR a r) + - (feval b64 pw b r - evalR b r)) by ring.
    eapply Rle_trans; [apply Rabs_triang|]. rewrite Rabs_Ropp. lra.
  - apply andb_prop in W as [Wa Wb]. destruct (IHa Wa) as [Ma Ea]. destruct (IHb Wb) as [Mb Eb]. clear IHa IHb.
    pose proof (mag_kerr_nonneg a) as [Na Pa]. pose proof (mag_kerr_nonneg b) as [Nb Pb]. cbn [feval]. change (idR (evalR a r * evalR b r)) with (evalR a r * evalR b r).
    assert (MX : Rabs (evalR a r * evalR b r) <= IZR (mag a * mag b)).
    { rewrite Rabs_mult, mult_IZR. apply Rmult_le_compat; try apply Rabs_pos; assumption. }
    split; [exact MX|]. cbn [kerr]. cbv zeta.
    pose proof (up_nonneg (kerr a * kerr b) ltac:(nia)) as UP.
    apply b64_stepK; [nia|nia|exact MX|].
    set (A := evalR a r) in *. set (B := evalR b r) in *. set (A' := feval b64 pw a r) in *. set (B' := feval b64 pw b r) in *.
    replace (A' * B' - A * B) with (A * (B' - B) + B * (A' - A) + (A' - A) * (B' - B)) by ring.
    eapply Rle_trans; [apply Rabs_triang|]. eapply Rle_trans; [apply Rplus_le_compat_r, Rabs_triang|].
    rewrite !Rabs_mult, !plus_IZR, !mult_IZR.
    assert (T1 : Rabs A * Rabs (B' - B) <= IZR (mag a) * (IZR (kerr b) * u)) by (apply Rmult_le_compat; try apply Rabs_pos; assumption).
    assert (T2 : Rabs B * Rabs (A' - A) <= IZR (mag b) * (IZR (kerr a) * u)) by (apply Rmult_le_compat; try apply Rabs_pos; assumption).
    assert (T3 : Rabs (A' - A) * Rabs (B' - B) <= IZR (kerr a) * u * (IZR (kerr b) * u)) by (apply Rmult_le_compat; try apply Rabs_pos; assumption).
    pose proof (up_ok (kerr a * kerr b) ltac:(nia)) as P. rewrite mult_IZR in P.
    assert (T4 : IZR (kerr a) * IZR (kerr b) * u * u <= IZR (up (kerr a * kerr b)) * u) by (apply Rmult_le_compat_r; lra). lra.
Qed.

(** ** sums over a dictionary: [M], [K] bound the partial sum and its error in units of u *)
Fixpoint kdict (d : dict) (M K : Z) : Z :=
  match d with
  | [] => K
  | (_, v) :: tl =>
      if (0 <? Z.abs v)%Z then
        let c := Z.abs v in
        let t := (2 * c + up (2 * c) + c + 1)%Z in
        kdict tl (M + c) (K + t + up (K + t) + (M + c) + 1)
      else kdict tl M K
  end.
Definition wfd (d : dict) : bool := forallb (fun kv => (0 <=? fst kv)%Z && (Z.abs (snd kv) <=? 2 ^ 53)%Z) d.

Lemma feval_dict_err d : wfd d = true -> forall acc acc' M K, (0 <= M)%Z -> (0 <= K)%Z -> Rabs acc <= IZR M -> Rabs (acc' - acc) <= IZR K * u ->
  Rabs (feval_dict b64 pw d r acc' - eval_dict d r acc) <= IZR (kdict d M K) * u.
Proof.
  pose proof u_pos as U.
  induction d as [|[k v] tl IH]; intros W acc acc' M K HM HK H1 H2; [exact H2|].
  cbn [wfd forallb fst snd] in W. apply andb_prop in W as [W Wt]. apply andb_prop in W as [Wk Wv].
  cbn [feval_dict eval_dict kdict]. destruct (0 <? Z.abs v)%Z eqn:NZ; [|apply IH; assumption]. cbv zeta.
  set (c := Z.abs v). set (t := (2 * c + up (2 * c) + c + 1)%Z).
  assert (Hc : (0 <= c)%Z) by (unfold c; lia). pose proof (up_nonneg (2 * c) ltac:(lia)) as Uc.
  assert (Ht : (0 <= t)%Z) by (unfold t; lia).
  rewrite (b64_IZR v) by lia.
  pose proof (powerRZ01 r k Hr ltac:(lia)) as P01.
  assert (MT : Rabs (IZR v * powerRZ r k) <= IZR c).
  { rewrite Rabs_mult, <- abs_IZR. fold c. rewrite (Rabs_pos_eq (powerRZ r k)) by lra.
    assert (0 <= IZR c) by (apply IZR_le; lia). nra. }
  assert (ET : Rabs (b64 (IZR v * pw r k) - IZR v * powerRZ r k) <= IZR t * u).
  { unfold t. replace (2 * c + up (2 * c) + c + 1)%Z with (2 * c + up (2 * c) + c + 1)%Z by reflexivity.
    apply b64_stepK; [lia|lia|exact MT|].
    replace (IZR v * pw r k - IZR v * powerRZ r k) with (IZR v * (pw r k - powerRZ r k)) by ring.
    rewrite Rabs_mult, <- abs_IZR. fold c. pose proof (pw_err pw r k PW Fr Hr ltac:(lia)) as E.
    assert (0 <= IZR c) by (apply IZR_le; lia). rewrite mult_IZR.
    replace (2 * IZR c * u) with (IZR c * (2 * u)) by ring. apply Rmult_le_compat_l; assumption. }
  pose proof (up_nonneg (K + t) ltac:(lia)) as Ukt.
  assert (MX : Rabs (acc + IZR v * powerRZ r k) <= IZR (M + c)).
  { eapply Rle_trans; [apply Rabs_triang|]. rewrite plus_IZR. lra. }
  apply IH; [exact Wt|lia|lia|exact MX|].
  apply b64_stepK; [lia|lia|exact MX|].
  replace (acc' + b64 (IZR v * pw r k) - (acc + IZR v * powerRZ r k)) with ((acc' - acc) + (b64 (IZR v * pw r k) - IZR v * powerRZ r k)) by ring.
  eapply Rle_trans; [apply Rabs_triang|]. rewrite plus_IZR. lra.
Qed.
End Analysis.
