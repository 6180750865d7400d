(** Polynomials in one and two variables: roots, and the Zernike polynomials in Cartesian coordinates. Used to show that the pixels of an image determine the coefficients (C62). *)
From Coq Require Import Reals Lra Lia List.
From Verif Require Import Py SpecIndex SpecRadial M_Sum SpecSum SpecFit L_LinAlg L_Indep.
Local Open Scope R_scope.

Fixpoint peval (l : list R) (x : R) : R := match l with [] => 0 | a :: l' => a + x * peval l' x end.
(** [f] is a polynomial with [n] coefficients *)
Definition isP (n : nat) (f : R -> R) : Prop := exists l, length l = n /\ forall x, f x = peval l x.

Lemma isP_ext n f g : (forall x, f x = g x) -> isP n f -> isP n g.
Proof. intros E (l & L & H). exists l. split; [exact L|]. intros x. rewrite <- E. apply H. Qed.
Lemma peval_zeros n x : peval (repeat 0 n) x = 0.
Proof. induction n as [|n IH]; cbn; [reflexivity|]. rewrite IH. ring. Qed.
Lemma isP_zero n : isP n (fun _ => 0).
Proof. exists (repeat 0 n). split; [apply repeat_length|]. intros x. symmetry. apply peval_zeros. Qed.
Lemma isP_up n m f : isP n f -> (n <= m)%nat -> isP m f.
Proof.
  intros (l & L & H) LE. exists (l ++ repeat 0 (m - n)). split; [rewrite app_length, repeat_length; lia|].
  intros x. rewrite H. clear. induction l as [|a l IH]; cbn [app peval]; [symmetry; apply peval_zeros|]. rewrite IH. reflexivity.
Qed.
Lemma isP_const n c : isP (S n) (fun _ => c).
Proof. apply isP_up with 1%nat; [|lia]. exists [c]. split; [reflexivity|]. intros x. cbn. ring. Qed.
Lemma isP_add n f g : isP n f -> isP n g -> isP n (fun x => f x + g x).
Proof.
  revert f g. induction n as [|n IH]; intros f g (l & L & H) (k & K & G).
  - destruct l, k; try discriminate. exists []. split; [reflexivity|]. intros x. rewrite H, G. cbn. ring.
  - destruct l as [|a l], k as [|b k]; try discriminate. injection L as L. injection K as K.
    destruct (IH (peval l) (peval k)) as (w & W & E); [exists l; auto|exists k; auto|].
    exists ((a + b) :: w). split; [cbn; congruence|]. intros x. rewrite H, G. cbn [peval]. rewrite <- E. ring.
Qed.
Lemma isP_scale n c f : isP n f -> isP n (fun x => c * f x).
Proof.
  intros (l & L & H). exists (map (Rmult c) l). split; [rewrite map_length; exact L|]. intros x. rewrite H. clear.
  induction l as [|a l IH]; cbn; [ring|]. rewrite <- IH. ring.
Qed.
Lemma isP_mulx n f : isP n f -> isP (S n) (fun x => x * f x).
Proof. intros (l & L & H). exists (0 :: l). split; [cbn; congruence|]. intros x. cbn. rewrite H. ring. Qed.
Lemma isP_mul n m f g : isP n f -> isP (S m) g -> isP (n + m) (fun x => f x * g x).
Proof.
  revert f. induction n as [|n IH]; intros f (l & L & H) G.
  - destruct l; [|discriminate]. apply (isP_ext _ (fun _ => 0)); [intros x; rewrite H; cbn; ring|apply isP_zero].
  - destruct l as [|a l]; [discriminate|]. injection L as L.
    apply (isP_ext _ (fun x => a * g x + x * (peval l x * g x))); [intros x; rewrite H; cbn [peval]; ring|].
    apply isP_add; [apply isP_scale, isP_up with (S m); [exact G|lia]|]. apply (isP_mulx (n + m)), IH; [exists l; auto|exact G].
Qed.

Lemma divide l a : exists l', length l' = pred (length l) /\ forall x, peval l x = peval l a + (x - a) * peval l' x.
Proof.
  induction l as [|b l (l' & L & H)]; [exists []; split; [reflexivity|intros; cbn; ring]|].
  destruct l as [|c l]; [exists []; split; [reflexivity|intros; cbn; ring]|].
  exists (peval (c :: l) a :: l'). split; [cbn in *; congruence|]. intros x.
  change (peval (b :: c :: l) x) with (b + x * peval (c :: l) x). change (peval (b :: c :: l) a) with (b + a * peval (c :: l) a).
  change (peval (?h :: l') x) with (h + x * peval l' x). rewrite H. cbn [peval]. ring.
Qed.
Lemma roots n : forall f rs, isP n f -> NoDup rs -> length rs = n -> (forall r, In r rs -> f r = 0) -> forall x, f x = 0.
Proof.
  induction n as [|n IH]; intros f rs (l & L & H) ND LR Z x.
  - destruct l; [|discriminate]. rewrite H. reflexivity.
  - destruct rs as [|a rs]; [discriminate|]. inversion ND as [|? ? NI ND']; subst. injection LR as LR.
    destruct (divide l a) as (l' & L' & E). assert (Fa : peval l a = 0) by (rewrite <- H; apply Z; left; reflexivity).
    assert (G : forall y, peval l' y = 0).
    { apply (IH _ rs); [exists l'; split; [rewrite L', L; reflexivity|reflexivity]|exact ND'|exact LR|].
      intros r Hr. assert (Fr : peval l r = 0) by (rewrite <- H; apply Z; right; exact Hr). rewrite E, Fa in Fr.
      assert (N : r - a <> 0) by (intros C; apply NI; replace a with r by lra; exact Hr).
      assert (P : (r - a) * peval l' r = 0) by lra. apply Rmult_integral in P. tauto. }
    rewrite H, E, Fa, G. ring.
Qed.

(** ** two variables: polynomial along every line *)
Definition biP (d : nat) (F : R -> R -> R) : Prop := forall x0 x1 y0 y1, isP (S d) (fun s => F (x0 + s * x1) (y0 + s * y1)).
Lemma biP_ext d F G : (forall x y, F x y = G x y) -> biP d F -> biP d G.
Proof. intros E H x0 x1 y0 y1. eapply isP_ext; [|apply (H x0 x1 y0 y1)]. intros s. apply E. Qed.
Lemma biP_up d e F : biP d F -> (d <= e)%nat -> biP e F.
Proof. intros H L x0 x1 y0 y1. apply isP_up with (S d); [apply H|lia]. Qed.
Lemma biP_const c : biP 0 (fun _ _ => c).
Proof. intros x0 x1 y0 y1. apply isP_const. Qed.
Lemma affine a b : isP 2 (fun s => a + s * b).
Proof. exists [a; b]. split; [reflexivity|]. intros x. cbn. ring. Qed.
Lemma biP_x : biP 1 (fun x _ => x).
Proof. intros x0 x1 y0 y1. apply affine. Qed.
Lemma biP_y : biP 1 (fun _ y => y).
Proof. intros x0 x1 y0 y1. apply affine. Qed.
Lemma biP_add d F G : biP d F -> biP d G -> biP d (fun x y => F x y + G x y).
Proof. intros H K x0 x1 y0 y1. apply (isP_add (S d) (fun s => F (x0 + s * x1) (y0 + s * y1))); auto. Qed.
Lemma biP_mul d e F G : biP d F -> biP e G -> biP (d + e) (fun x y => F x y * G x y).
Proof. intros H K x0 x1 y0 y1. apply (isP_mul (S d) e (fun s => F (x0 + s * x1) (y0 + s * y1)) (fun s => G (x0 + s * x1) (y0 + s * y1))); auto. Qed.
Lemma biP_scale d c F : biP d F -> biP d (fun x y => c * F x y).
Proof. intros H. apply (biP_mul 0 d (fun _ _ => c) F); [apply biP_const|exact H]. Qed.
Lemma biP_pow d F k : biP d F -> biP (k * d) (fun x y => F x y ^ k).
Proof. intros H. induction k as [|k IH]; [exact (biP_const 1)|]. apply (biP_mul d (k * d) F); assumption. Qed.
Lemma biP_sum d F b : (forall k, (k <= b)%nat -> biP d (F k)) -> biP d (fun x y => sum_f_R0 (fun k => F k x y) b).
Proof.
  induction b as [|b IH]; intros H; [apply H; lia|]. cbn [sum_f_R0]. apply (biP_add d (fun x y => sum_f_R0 (fun k => F k x y) b)); [apply IH; intros; apply H; lia|apply H; lia].
Qed.

(** a polynomial of degree n that vanishes at n+1 points of n+1 lines through the origin is zero *)
Lemma grid_zero n F ks : biP n F -> NoDup ks -> length ks = S n ->
  (forall k, In k ks -> exists ss, NoDup ss /\ length ss = S n /\ forall s, In s ss -> F s (k * s) = 0) -> forall x y, F x y = 0.
Proof.
  intros P ND L H.
  assert (A : forall k, In k ks -> forall s, F s (k * s) = 0).
  { intros k Hk. destruct (H k Hk) as (ss & N & LS & Z). apply (roots (S n) _ ss); try assumption.
    eapply isP_ext; [|apply (P 0 1 0 k)]. intros s. cbv beta. f_equal; ring. }
  assert (B : forall x k, F x (x * k) = 0).
  { intros x. apply (roots (S n) _ ks); try assumption.
    - eapply isP_ext; [|apply (P x 0 0 x)]. intros s. cbv beta. f_equal; ring.
    - intros k Hk. rewrite Rmult_comm. apply A, Hk. }
  assert (C : forall x y, x <> 0 -> F x y = 0) by (intros x y N; replace y with (x * (y / x)) by (field; exact N); apply B).
  intros x y. apply (roots (S n) (fun x => F x y) (map INR (seq 1 (S n)))).
  - eapply isP_ext; [|apply (P 0 1 y 0)]. intros s. cbv beta. f_equal; ring.
  - apply FinFun.Injective_map_NoDup; [intros a b; apply INR_eq|apply seq_NoDup].
  - rewrite map_length, seq_length. reflexivity.
  - intros r Hr. apply in_map_iff in Hr. destruct Hr as (k & <- & Hk). apply in_seq in Hk. apply C. apply not_0_INR. lia.
Qed.

(** ** real and imaginary part of (x + i y)^k *)
Fixpoint cre (k : nat) (x y : R) : R := match k with 0%nat => 1 | S k => x * cre k x y - y * cim k x y end
with cim (k : nat) (x y : R) : R := match k with 0%nat => 0 | S k => x * cim k x y + y * cre k x y end.
Lemma cpow_polar k r t : cre k (r * cos t) (r * sin t) = r ^ k * cos (INR k * t) /\ cim k (r * cos t) (r * sin t) = r ^ k * sin (INR k * t).
Proof.
  induction k as [|k [A B]].
  - cbn. rewrite Rmult_0_l, cos_0, sin_0. split; ring.
  - cbn [cre cim]. rewrite A, B, S_INR. replace ((INR k + 1) * t) with (INR k * t + t) by ring. rewrite cos_plus, sin_plus. cbn [pow]. split; ring.
Qed.
Lemma biP_cpow k : biP k (cre k) /\ biP k (cim k).
Proof.
  induction k as [|k [A B]]; [split; apply biP_const|]. split.
  - apply (biP_ext _ (fun x y => x * cre k x y + (-1) * (y * cim k x y))); [intros; cbn; ring|].
    apply (biP_add (S k) (fun x y => x * cre k x y)); [apply (biP_mul 1 k (fun x _ => x)); [apply biP_x|exact A]|].
    apply biP_scale. apply (biP_mul 1 k (fun _ y => y)); [apply biP_y|exact B].
  - apply (biP_ext _ (fun x y => x * cim k x y + y * cre k x y)); [intros; cbn; ring|].
    apply (biP_add (S k) (fun x y => x * cim k x y)); [apply (biP_mul 1 k (fun x _ => x)); [apply biP_x|exact B]|].
    apply (biP_mul 1 k (fun _ y => y)); [apply biP_y|exact A].
Qed.

(** the Zernike polynomial in Cartesian coordinates *)
Definition zcart (p : Z * Z) (x y : R) : R :=
  let '(m, n) := p in
  let a := Z.to_nat ((n + Z.abs m) / 2) in let b := Z.to_nat ((n - Z.abs m) / 2) in let N := Z.to_nat n in
  norm_nm m n * (sum_f_R0 (fun k => (-1) ^ k * INR (fact (N - k)) / (INR (fact k) * INR (fact (a - k)) * INR (fact (b - k))) * (x * x + y * y) ^ (b - k)) b *
                 (if (0 <=? m)%Z then cre (Z.to_nat (Z.abs m)) x y else cim (Z.to_nat (Z.abs m)) x y)).
Lemma zcart_polar m n r t : valid m n -> zcart (m, n) (r * cos t) (r * sin t) = Z_nm m n r t.
Proof.
  intros (N0 & MN & k & K). unfold zcart, Z_nm, R_nm. set (a := Z.to_nat ((n + Z.abs m) / 2)). set (b := Z.to_nat ((n - Z.abs m) / 2)).
  rewrite (Rmult_assoc (norm_nm m n)). f_equal.
  assert (SQ : r * cos t * (r * cos t) + r * sin t * (r * sin t) = r * r).
  { transitivity (r * r * (Rsqr (sin t) + Rsqr (cos t))); [unfold Rsqr; ring|]. rewrite sin2_cos2. ring. }
  set (M := Z.to_nat (Z.abs m)).
  assert (T : (if (0 <=? m)%Z then cre M (r * cos t) (r * sin t) else cim M (r * cos t) (r * sin t)) = r ^ M * T_m m t).
  { assert (EM : INR M = IZR (Z.abs m)) by (unfold M; rewrite INR_IZR_INZ, Z2Nat.id by lia; reflexivity).
    unfold T_m. destruct (cpow_polar M r t) as [A B]. rewrite EM in A, B. destruct (0 <=? m)%Z eqn:E; [rewrite A|rewrite B; reflexivity].
    rewrite Z.abs_eq by lia. reflexivity. }
  rewrite T, <- Rmult_assoc. f_equal. rewrite (Rmult_comm _ (r ^ M)), scal_sum. apply sum_eq. intros i Hi.
  rewrite SQ, Rmult_assoc. f_equal. clear T. assert (D : ((n - Z.abs m) / 2 = k)%Z) by (rewrite K, Z.mul_comm; apply Z.div_mul; lia).
  replace (Z.to_nat n - 2 * i)%nat with (M + 2 * (b - i))%nat by (unfold M, b in *; rewrite D in *; lia).
  rewrite pow_add, pow_mult. cbn [pow]. rewrite Rmult_1_r. ring.
Qed.
Lemma zcart_biP m n : valid m n -> biP (Z.to_nat n) (zcart (m, n)).
Proof.
  intros (N0 & MN & k & K). unfold zcart. set (a := Z.to_nat ((n + Z.abs m) / 2)). set (b := Z.to_nat ((n - Z.abs m) / 2)). set (M := Z.to_nat (Z.abs m)).
  assert (D : ((n - Z.abs m) / 2 = k)%Z) by (rewrite K, Z.mul_comm; apply Z.div_mul; lia).
  apply biP_scale. replace (Z.to_nat n) with (2 * b + M)%nat at 1 by (unfold M, b; rewrite D; lia).
  apply (biP_mul (2 * b) M (fun x y => sum_f_R0 _ b) (fun x y => if (0 <=? m)%Z then cre M x y else cim M x y)).
  - apply (biP_sum (2 * b) (fun k x y => (-1) ^ k * INR (fact (Z.to_nat n - k)) / (INR (fact k) * INR (fact (a - k)) * INR (fact (b - k))) * (x * x + y * y) ^ (b - k))).
    intros i Hi. apply biP_scale. apply biP_up with ((b - i) * 2)%nat; [|lia]. apply (biP_pow 2 (fun x y => x * x + y * y)).
    apply (biP_add 2 (fun x _ => x * x)); [apply (biP_mul 1 1 (fun x _ => x)); apply biP_x|apply (biP_mul 1 1 (fun _ y => y)); apply biP_y].
  - destruct (biP_cpow M). destruct (0 <=? m)%Z; assumption.
Qed.
Fixpoint csum (cs : list R) (ps : list (Z * Z)) (x y : R) : R :=
  match cs, ps with c :: cs', p :: ps' => c * zcart p x y + csum cs' ps' x y | _, _ => 0 end.
Lemma csum_polar ps : Forall validp ps -> forall cs r t, csum cs ps (r * cos t) (r * sin t) = zsum cs ps r t.
Proof.
  induction 1 as [|[m n] ps V F IH]; intros [|c cs] r t; try reflexivity. cbn [csum zsum]. rewrite zcart_polar by exact V. rewrite IH. reflexivity.
Qed.
Lemma csum_biP N ps : Forall validp ps -> Forall (fun p => snd p <= N)%Z ps -> forall cs, biP (Z.to_nat N) (csum cs ps).
Proof.
  induction 1 as [|[m n] ps V F IH]; intros B [|c cs]; try (apply biP_up with 0%nat; [apply biP_const|lia]).
  inversion B as [|? ? B1 B2]; subst. cbn [snd] in B1. cbn [csum]. apply (biP_add (Z.to_nat N) (fun x y => c * zcart (m, n) x y)); [|apply IH, B2].
  apply biP_scale. apply biP_up with (Z.to_nat n); [apply zcart_biP, V|]. lia.
Qed.

(** a combination of distinct polynomials of order at most N that vanishes at N+1 points of N+1 lines has zero coefficients *)
Lemma lines_determine N ps cs ks : Forall validp ps -> NoDup ps -> Forall (fun p => snd p <= N)%Z ps -> length cs = length ps ->
  NoDup ks -> length ks = S (Z.to_nat N) ->
  (forall k, In k ks -> exists ss, NoDup ss /\ length ss = S (Z.to_nat N) /\ forall s, In s ss -> csum cs ps s (k * s) = 0) ->
  cs = repeat 0 (length ps).
Proof.
  intros F ND B L NK LK H. assert (Z := grid_zero _ _ ks (csum_biP N ps F B cs) NK LK H).
  apply zsum_zero; try assumption. intros r t _. rewrite <- csum_polar by exact F. apply Z.
Qed.
