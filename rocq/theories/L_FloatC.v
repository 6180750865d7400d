(** Concrete binary64 computations with correctly rounded operations (helper for the counterexamples of C57). *)
From Coq Require Import Reals Lra Lia Arith ZArith.
From Flocq Require Import Core IEEE754.BinarySingleNaN.
From Verif Require Import Py SpecIndex SpecRadial RadialMath M_Radial M_Coeffs SpecCoeffs L_Dict L_Coeffs L_Cache L_Radial L_Value L_CoeffVal
  L_Polar SpecFloat M_Float L_Float L_Float2 L_Float3.
Local Open Scope R_scope.

(** dyadic numbers (m, e) = m * 2^e *)
Definition dy : Type := (Z * Z)%type.
Definition d2r (x : dy) : R := IZR (fst x) * bpow radix2 (snd x).
Definition dmul (x y : dy) : dy := (fst x * fst y, snd x + snd y)%Z.
Definition dopp (x : dy) : dy := (- fst x, snd x)%Z.
Definition dadd (x y : dy) : dy :=
  let e := Z.min (snd x) (snd y) in (fst x * 2 ^ (snd x - e) + fst y * 2 ^ (snd y - e), e)%Z.
Definition dpow (x : dy) (k : Z) : dy := (fst x ^ k, snd x * k)%Z.

Lemma d2r_mul x y : d2r (dmul x y) = d2r x * d2r y.
Proof. unfold d2r, dmul. cbn [fst snd]. rewrite mult_IZR, bpow_plus. ring. Qed.
Lemma d2r_opp x : d2r (dopp x) = - d2r x.
Proof. unfold d2r, dopp. cbn [fst snd]. rewrite opp_IZR. ring. Qed.
Lemma shift_ok m e e' : (e' <= e)%Z -> IZR (m * 2 ^ (e - e')) * bpow radix2 e' = IZR m * bpow radix2 e.
Proof.
  intros H. rewrite mult_IZR. replace (IZR (2 ^ (e - e'))) with (bpow radix2 (e - e')) by (rewrite <- IZR_Zpower by lia; reflexivity).
  rewrite Rmult_assoc, <- bpow_plus. do 2 f_equal. lia.
Qed.
Lemma d2r_add x y : d2r (dadd x y) = d2r x + d2r y.
Proof.
  unfold d2r, dadd. cbn [fst snd]. cbv zeta. rewrite plus_IZR, Rmult_plus_distr_r, !shift_ok by lia. reflexivity.
Qed.
Lemma d2r_pow x k : (0 <= k)%Z -> d2r (dpow x k) = powerRZ (d2r x) k.
Proof.
  intros H. rewrite <- (Z2Nat.id k H). generalize (Z.to_nat k) as j. clear k H. intros j. rewrite <- pow_powerRZ.
  induction j as [|j IH].
  - unfold d2r, dpow. cbn [fst snd pow]. change (Z.of_nat 0) with 0%Z. rewrite Z.pow_0_r, Z.mul_0_r. cbn. lra.
  - cbn [pow]. rewrite <- IH. rewrite <- d2r_mul. f_equal. unfold dmul, dpow. cbn [fst snd]. f_equal.
    + rewrite Nat2Z.inj_succ, Z.pow_succ_r by lia. reflexivity.
    + lia.
Qed.

(** correct rounding, computed by Flocq *)
Definition normz (m e : Z) : binary_float 53 1024 := binary_normalize 53 1024 eq_refl eq_refl mode_NE m e false.
Definition rb (x : dy) : option dy :=
  match normz (fst x) (snd x) with
  | B754_zero _ => Some (0, 0)%Z
  | B754_finite s m e _ => Some (if s then Z.neg m else Z.pos m, e)
  | _ => None
  end.
Lemma rb_ok x y : rb x = Some y -> b64 (d2r x) = d2r y.
Proof.
  unfold rb, normz. pose proof (binary_normalize_correct 53 1024 eq_refl eq_refl mode_NE (fst x) (snd x) false) as C. cbv zeta in C.
  change (F2R (Float radix2 (fst x) (snd x))) with (d2r x) in C.
  change (round radix2 (SpecFloat.fexp 53 1024) (round_mode mode_NE) (d2r x)) with (b64 (d2r x)) in C.
  destruct (Rlt_bool _ _).
  - destruct C as (C & _ & _). destruct (binary_normalize _ _ _ _ _ _ _ _) as [s|s| |s m e B]; cbn [B2R] in C; try discriminate.
    + intros [= <-]. rewrite <- C. unfold d2r. cbn [fst snd]. lra.
    + intros [= <-]. rewrite <- C. unfold F2R, d2r. cbn [fst snd Fnum Fexp cond_Zopp]. destruct s; reflexivity.
  - destruct (binary_normalize _ _ _ _ _ _ _ _) as [s|s| |s m e B]; discriminate.
Qed.

Local Instance vexp : Valid_exp exp64.
Proof. apply FLT_exp_valid. reflexivity. Qed.

(** the correctly rounded power *)
Definition cpow (x : R) (k : Z) : R := b64 (powerRZ x k).
Lemma cpow_ok : power_within_ulp cpow.
Proof.
  intros x k _ _ _. split; [apply b64_F|]. unfold cpow, ulp64.
  pose proof (error_le_half_ulp radix2 exp64 (fun z => negb (Z.even z)) (powerRZ x k)) as E. fold ZnearestE in E.
  change (round radix2 exp64 ZnearestE (powerRZ x k)) with (b64 (powerRZ x k)) in E.
  pose proof (ulp_ge_0 radix2 exp64 (powerRZ x k)). eapply Rle_trans; [apply E|]. lra.
Qed.

Definition obind {A B} (x : option A) (f : A -> option B) : option B := match x with Some a => f a | None => None end.
Fixpoint deval_dict (d : dict) (r acc : dy) : option dy :=
  match d with
  | [] => Some acc
  | (k, v) :: tl =>
      if (0 <? Z.abs v)%Z then
        if (0 <=? k)%Z then
        obind (rb (v, 0%Z)) (fun c => obind (rb (dpow r k)) (fun p => obind (rb (dmul c p)) (fun t => obind (rb (dadd acc t)) (deval_dict tl r))))
        else None
      else deval_dict tl r acc
  end.
Lemma obind_some {A B} (x : option A) (f : A -> option B) y : obind x f = Some y -> exists a, x = Some a /\ f a = Some y.
Proof. destruct x as [a|]; cbn; [eauto|discriminate]. Qed.
Lemma d2r_int v : d2r (v, 0%Z) = IZR v.
Proof. unfold d2r. cbn [fst snd bpow]. ring. Qed.
Lemma deval_dict_ok d r : forall acc y, deval_dict d r acc = Some y -> feval_dict b64 cpow d (d2r r) (d2r acc) = d2r y.
Proof.
  induction d as [|[k v] tl IH]; intros acc y; cbn [deval_dict feval_dict]; [intros [= ->]; reflexivity|].
  destruct (0 <? Z.abs v)%Z; [|apply IH]. destruct (0 <=? k)%Z eqn:K; [|discriminate].
  intros H. apply obind_some in H as (c & C & H). apply obind_some in H as (p & P & H). apply obind_some in H as (t & T & H).
  apply obind_some in H as (a & A & H). apply rb_ok in C, P, T, A.
  rewrite d2r_int in C. rewrite d2r_pow in P by lia. rewrite d2r_mul in T. rewrite d2r_add in A.
  unfold cpow. rewrite C, P, T, A. apply IH, H.
Qed.
(** exact value *)
Fixpoint dexact (d : dict) (r acc : dy) : dy :=
  match d with
  | [] => acc
  | (k, v) :: tl => dexact tl r (if (0 <? Z.abs v)%Z then dadd acc (dmul (v, 0%Z) (dpow r k)) else acc)
  end.
Lemma dexact_ok d r : wfd d = true -> forall acc, d2r (dexact d r acc) = eval_dict d (d2r r) (d2r acc).
Proof.
  induction d as [|[k v] tl IH]; intros W acc; [reflexivity|]. cbn [wfd forallb fst snd] in W. apply andb_prop in W as [W Wt]. apply andb_prop in W as [Wk Wv].
  cbn [dexact eval_dict]. rewrite IH by exact Wt. destruct (0 <? Z.abs v)%Z; [|reflexivity].
  rewrite d2r_add, d2r_mul, d2r_int, d2r_pow by lia. reflexivity.
Qed.
(** comparing dyadics *)
Definition dltb (x y : dy) : bool := let e := Z.min (snd x) (snd y) in (fst x * 2 ^ (snd x - e) <? fst y * 2 ^ (snd y - e))%Z.
Lemma dltb_ok x y : dltb x y = true -> d2r x < d2r y.
Proof.
  unfold dltb. cbv zeta. intros H. apply Z.ltb_lt in H. apply IZR_lt in H. unfold d2r.
  rewrite <- (shift_ok (fst x) (snd x) (Z.min (snd x) (snd y))), <- (shift_ok (fst y) (snd y) (Z.min (snd x) (snd y))) by lia.
  apply Rmult_lt_compat_r; [apply bpow_gt_0|exact H].
Qed.

Lemma cdict_up m n : valid m n -> cdict m n = up_list (oa m n) (ob m n).
Proof.
  intros V. destruct (oab m n V) as (H1 & H2 & H3). unfold cdict, up_list.
  replace (Z.to_nat (n + 1)) with (S (oa m n + ob m n)) by lia. unfold can. apply map_ext. intros p. rewrite coeff_ok. reflexivity.
Qed.
(** exact value as a dyadic *)
Lemma R_dyadic m n r : valid m n -> wfd (up_list (oa m n) (ob m n)) = true -> R_nm m n (d2r r) = d2r (dexact (up_list (oa m n) (ob m n)) r (0, 0)%Z).
Proof.
  intros V W. rewrite dexact_ok by exact W. rewrite d2r_int, <- cdict_up, eval_dict_acc, cdict_value by exact V. rewrite R_nm_F by exact V. unfold Fmn. ring.
Qed.
(** the value returned by the coefficient route *)
Lemma fcoef_dict fuel m n r : valid m n -> (n <= 40)%Z -> (n < Z.of_nat fuel)%Z ->
  keeps (fradial_polynomial_coeffs b64 cpow (S fuel) m n r) (fun x => x = Ok (feval_dict b64 cpow (cdict m n) r 0)).
Proof.
  intros V H HF. cbn [fradial_polynomial_coeffs]. replace (n <=? MAX_RADIAL_ORDER_COEFFS)%Z with true by (symmetry; apply Z.leb_le; exact H).
  eapply keeps_bind; [apply (find_ok fuel NoFlag m n V)| |].
  - intros d [[= ->]|[[=] _]]. apply (keeps_ret (Ok _)). reflexivity.
  - intros e [[=]|[_ ?]]. lia.
Qed.
Lemma fcoef_dy fuel m n r y : valid m n -> (n <= 40)%Z -> (n < Z.of_nat fuel)%Z -> deval_dict (up_list (oa m n) (ob m n)) r (0, 0)%Z = Some y ->
  keeps (fradial_polynomial_coeffs b64 cpow (S fuel) m n (d2r r)) (fun x => x = Ok (d2r y)).
Proof.
  intros V H HF E. eapply keeps_weaken; [apply fcoef_dict; assumption|]. intros x ->. f_equal.
  apply deval_dict_ok in E. rewrite d2r_int in E. rewrite cdict_up by exact V. exact E.
Qed.
