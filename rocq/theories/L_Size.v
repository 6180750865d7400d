(** Lemmas for C80: the estimated size of the kernel. *)
From Coq Require Import Reals Lra Lia List Psatz.
From Flocq Require Import Core.
From Verif Require Import Py SpecIndex SpecRadial M_Radial M_Coeffs SpecCoeffs M_Sum SpecSum M_Psf SpecPsf L_PsfKernel SpecInit M_PsfClass SpecPsfClass L_PsfClass L_PsfSet SpecSize.
Import ListNotations.
Local Open Scope R_scope.

Lemma nearest_rounds x : rounds_to x (ZnearestE x).
Proof.
  split; [apply Znearest_half|]. intros H. unfold Znearest in *. pose proof (Zfloor_lb x) as F1. pose proof (Zfloor_ub x) as F2.
  destruct (Rcompare_spec (x - IZR (Zfloor x)) (/ 2)) as [C|C|C].
  - rewrite Rabs_pos_eq in H by lra. lra.
  - rewrite negb_involutive || idtac. destruct (Z.even (Zfloor x)) eqn:E; cbn [negb] in *; [exact E|].
    rewrite Zceil_floor_neq by (intros E2; rewrite E2 in C; lra). rewrite Z.even_add, E. reflexivity.
  - rewrite Zceil_floor_neq in H by (intros E2; rewrite E2 in C; lra). rewrite plus_IZR in H. rewrite Rabs_left1 in H by lra. lra.
Qed.
Lemma rounds_unique x k k' : rounds_to x k -> rounds_to x k' -> k = k'.
Proof.
  intros (A1 & A2) (B1 & B2). destruct (Z.eq_dec k k') as [E|E]; [exact E|exfalso].
  apply Rabs_le_inv in A1. apply Rabs_le_inv in B1.
  assert (D : (Z.abs (k - k') = 1)%Z).
  { assert (H1 : IZR (k - k') <= 1) by (rewrite minus_IZR; lra). assert (H2 : -1 <= IZR (k - k')) by (rewrite minus_IZR; lra). apply le_IZR in H1. apply le_IZR in H2. lia. }
  assert (C : (k = k' + 1 \/ k' = k + 1)%Z) by lia. destruct C as [-> | ->]; rewrite plus_IZR in *.
  - assert (E1 : Z.even k' = true) by (apply B2; rewrite Rabs_pos_eq; lra). assert (E2 : Z.even (k' + 1) = true) by (apply A2; rewrite Rabs_left1; lra).
    rewrite Z.even_add, E1 in E2. discriminate.
  - assert (E1 : Z.even k = true) by (apply A2; rewrite Rabs_pos_eq; lra). assert (E2 : Z.even (k + 1) = true) by (apply B2; rewrite Rabs_left1; lra).
    rewrite Z.even_add, E1 in E2. discriminate.
Qed.
Lemma rounds_mono x y k l : x <= y -> rounds_to x k -> rounds_to y l -> (k <= l)%Z.
Proof.
  intros H A B. rewrite (rounds_unique x k (ZnearestE x) A (nearest_rounds x)), (rounds_unique y l (ZnearestE y) B (nearest_rounds y)).
  apply (Zrnd_le ZnearestE). exact H.
Qed.
Lemma odd_next z : next_odd z (if (z mod 2 =? 0)%Z then (z + 1)%Z else z).
Proof.
  split; [apply odd_size_odd|]. destruct (z mod 2 =? 0)%Z; lia.
Qed.
Lemma next_mono z z' s s' : (z <= z')%Z -> next_odd z s -> next_odd z' s' -> (s <= s')%Z.
Proof.
  intros H (O1 & B1) (O2 & B2). destruct (Z_le_gt_dec s s') as [|G]; [assumption|exfalso]. assert (E : (s = s' + 1)%Z) by lia. subst s. rewrite Z.odd_add in O1. rewrite O2 in O1. discriminate.
Qed.
Lemma next_unique z s s' : next_odd z s -> next_odd z s' -> s = s'.
Proof. intros A B. apply Z.le_antisymm; eapply next_mono; try eassumption; lia. Qed.
Lemma azimuthal_unique m n e e' : azimuthal_pixels m n e -> azimuthal_pixels m n e' -> e = e'.
Proof. unfold azimuthal_pixels. destruct (_ || _)%bool; [congruence|]. intros A B. assert (H := rounds_unique _ _ _ A B). lia. Qed.
Lemma estimated_unique m n px amp wl NA s s' : estimated m n px amp wl NA s -> estimated m n px amp wl NA s' -> s = s'.
Proof.
  intros (k & e & K & E & N) (k' & e' & K' & E' & N'). rewrite (rounds_unique _ _ _ K' K), (azimuthal_unique _ _ _ _ E' E) in N'. exact (next_unique _ _ _ N N').
Qed.
Lemma azimuthal_model m n : valid m n -> n <> 0%Z -> azimuthal_pixels m n (pol_size_ext m n).
Proof.
  intros V N. unfold azimuthal_pixels, pol_size_ext. replace (n =? 0)%Z with false by lia. cbn [orb].
  destruct (Z.leb_spec (n - Z.abs m) ((n + 1) / 2)) as [H|H].
  - replace (n + 1 <? 2 * (n - Z.abs m))%Z with false by (symmetry; apply Z.ltb_ge; pose proof (Z.mul_div_le (n + 1) 2); lia).
    replace (ZnearestE (sqrt (IZR (n + Z.abs m))) + 1 - 1)%Z with (ZnearestE (sqrt (IZR (n + Z.abs m)))) by lia. apply nearest_rounds.
  - replace (n + 1 <? 2 * (n - Z.abs m))%Z with true by (symmetry; apply Z.ltb_lt; pose proof (Z.mul_succ_div_gt (n + 1) 2); lia). reflexivity.
Qed.
Lemma factor_model m n na : valid m n -> n <> 0%Z -> pol_multiplier m n = factor m n na.
Proof.
  intros V N. unfold pol_multiplier, factor. replace (n =? 0)%Z with false by lia. destruct (Z.eqb_spec m 0) as [->|M0].
  - change (Z.abs 0) with 0%Z. cbn [Z.ltb Z.compare andb]. lra.
  - replace (0 <? Z.abs m)%Z with true by (symmetry; apply Z.ltb_lt; lia). cbn [andb]. rewrite Zmod_odd. destruct (Z.odd n); cbn [Z.eqb negb]; lra.
Qed.
Lemma airy_model na : 0 < na -> airy_multiplier na = Ok (factor 0 0 na).
Proof.
  intros A. unfold airy_multiplier, factor. cbn [Z.eqb]. unfold Rltb. replace (25 / 100) with (1 / 4) by lra.
  assert (Q : (do q <- pydiv 1 na; do s <- pysqrt q; Ok (45 / 10 + 25 / 10 * s)) = Ok (9 / 2 + 5 / 2 * sqrt (/ na))).
  { rewrite pydiv_ok by lra. cbn [bind]. assert (0 < 1 / na) by (apply Rdiv_lt_0_compat; lra). rewrite pysqrt_ok by lra. cbn [bind]. unfold Rdiv. rewrite Rmult_1_l. f_equal. lra. }
  destruct (Rlt_dec (1 / 4) na); cbn [andb]; [destruct (Rlt_dec na 1)|]; [f_equal; lra|exact Q|exact Q].
Qed.
Lemma size_model m n px a wl na : valid m n -> 0 < px -> 0 < na -> exists s, get_kernel_size (m, n) px a wl na = Ok s /\ estimated m n px a wl na s.
Proof.
  intros V PX A. unfold get_kernel_size.
  assert (ME : exists ext, (if ((m =? 0) && (n =? 0))%Z then do mu <- airy_multiplier na; Ok (mu, 0%Z) else Ok (pol_multiplier m n, pol_size_ext m n)) = Ok (factor m n na, ext) /\ azimuthal_pixels m n ext).
  { destruct (Z.eqb_spec n 0) as [->|N].
    - assert (m = 0%Z) by (destruct V as (_ & V & _); lia). subst m. cbn [Z.eqb andb]. rewrite airy_model by exact A. cbn [bind]. exists 0%Z. split; [reflexivity|]. reflexivity.
    - rewrite andb_false_r. exists (pol_size_ext m n). split; [rewrite (factor_model m n na V N); reflexivity|apply azimuthal_model; assumption]. }
  destruct ME as (ext & -> & AZ). cbn [bind].
  assert (Q : (if Rleb (5 / 10) (Rabs a) then (factor m n na * sqrt (25 / 10 * Rabs a), (ext + 2)%Z)
                    else if Rleb (25 / 100) (Rabs a) then (factor m n na * sqrt (425 / 100 * Rabs a), (ext + 1)%Z) else (factor m n na, ext)) = (factor m n na * enlarge a, (ext + extra_pixels a)%Z)).
  { unfold enlarge, extra_pixels, Rleb. replace (25 / 10) with (5 / 2) by lra. replace (425 / 100) with (17 / 4) by lra. replace (5 / 10) with (1 / 2) by lra. replace (25 / 100) with (1 / 4) by lra.
    destruct (Rle_dec (1 / 2) (Rabs a)); destruct (Rlt_dec (Rabs a) (1 / 4)); try lra; destruct (Rlt_dec (Rabs a) (1 / 2)); try lra; destruct (Rle_dec (1 / 4) (Rabs a)); try lra; try reflexivity.
    f_equal; [ring|lia]. }
  rewrite Q, pydiv_ok by lra. cbn [bind]. eexists. split; [reflexivity|].
  exists (ZnearestE (factor m n na * enlarge a * wl / px)), ext. split; [apply nearest_rounds|]. split; [exact AZ|].
  rewrite Z.add_assoc. apply odd_next.
Qed.

(** ** several polynomials *)
Lemma max_model px wl na : 0 < px -> 0 < na -> forall ps amps mx ma, length amps = length ps -> Forall (fun p => valid (fst p) (snd p)) ps ->
  exists sizes mx' ma', max_sizes ps amps px wl na mx ma = Ok (mx', ma') /\ length sizes = length ps /\
    (forall i, (i < length ps)%nat -> estimated (fst (nth i ps (0, 0)%Z)) (snd (nth i ps (0, 0)%Z)) px (nth i amps 0) wl na (nth i sizes 0%Z)) /\
    (mx <= mx')%Z /\ (forall s, In s sizes -> (s <= mx')%Z) /\ (mx' = mx \/ In mx' sizes) /\
    ma <= ma' /\ (forall a, In a amps -> Rabs a <= ma') /\ (ma' = ma \/ exists a, In a amps /\ ma' = Rabs a).
Proof.
  intros PX A. induction ps as [|(m, n) ps IH]; intros [|a amps] mx ma L V; try discriminate.
  - exists [], mx, ma. split; [reflexivity|]. split; [reflexivity|]. split; [intros i Hi; cbn in Hi; lia|]. split; [lia|]. split; [intros s []|]. split; [left; reflexivity|]. split; [lra|]. split; [intros b []|left; reflexivity].
  - inversion_clear V as [|? ? Vm Vp]. cbn [fst snd] in Vm. cbn [max_sizes]. destruct (size_model m n px a wl na Vm PX A) as (ks & -> & ES). cbn [bind].
    set (mx1 := if (mx <? ks)%Z then ks else mx). set (ma1 := if Rltb ma (Rabs a) then Rabs a else ma).
    destruct (IH amps mx1 ma1 ltac:(injection L; auto) Vp) as (sizes & mx' & ma' & E & LS & H1 & H2 & H3 & H4 & H5 & H6 & H7).
    assert (X1 : (mx <= mx1 /\ ks <= mx1 /\ (mx1 = mx \/ mx1 = ks))%Z) by (unfold mx1; destruct (Z.ltb_spec mx ks); lia).
    assert (X2 : ma <= ma1 /\ Rabs a <= ma1 /\ (ma1 = ma \/ ma1 = Rabs a)).
    { unfold ma1, Rltb. destruct (Rlt_dec ma (Rabs a)); [split; [lra|split; [lra|right; reflexivity]]|split; [lra|split; [lra|left; reflexivity]]]. }
    exists (ks :: sizes), mx', ma'. split; [exact E|]. split; [cbn [length]; rewrite LS; reflexivity|]. split.
    { intros [|i] Hi; cbn [nth fst snd]; [exact ES|]. apply H1. cbn [length] in Hi. lia. }
    split; [lia|]. split; [intros s [<-|Hs]; [lia|apply H3, Hs]|]. split.
    { destruct H4 as [->|H4]; [|right; right; exact H4]. destruct X1 as (_ & _ & [->| ->]); [left; reflexivity|right; left; reflexivity]. }
    split; [lra|]. split; [intros b [<-|Hb]; [lra|apply H6, Hb]|].
    destruct H7 as [->|(b & Hb & ->)]; [|right; exists b; split; [right; exact Hb|reflexivity]].
    destruct X2 as (_ & _ & [->| ->]); [left; reflexivity|right; exists a; split; [left; reflexivity|reflexivity]].
Qed.
Lemma several_model mx ma c : 0 <= ma -> exists inc, rounds_to (per_polynomial ma * INR c) inc /\ next_odd (mx + inc) (several_size mx ma c).
Proof.
  intros M0. unfold several_size, per_polynomial, Rleb, Rltb. replace (25 / 100) with (1 / 4) by lra. replace (5 / 10) with (1 / 2) by lra. replace (75 / 100) with (3 / 4) by lra.
  replace (6 / 10) with (3 / 5) by lra. replace (14 / 10) with (7 / 5) by lra.
  assert (Z0 : rounds_to (0 * INR c) 0) by (rewrite Rmult_0_l; split; [rewrite Rminus_0_r, Rabs_R0; lra|intros _; reflexivity]).
  destruct (Rle_dec (1 / 4) ma), (Rlt_dec ma (1 / 4)); try lra; destruct (Rlt_dec ma (1 / 2)); try lra; destruct (Rle_dec (1 / 2) ma); try lra; cbn [andb]; try (eexists; split; [apply nearest_rounds|apply odd_next]);
    destruct (Rlt_dec ma (3 / 4)); try lra; destruct (Rle_dec (3 / 4) ma); try lra; cbn [andb]; try (eexists; split; [apply nearest_rounds|apply odd_next]).
  all: exists 0%Z; split; [exact Z0|]; rewrite Z.add_0_r; apply odd_next.
Qed.
