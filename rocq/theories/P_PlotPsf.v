(** Property theorems C77: the figures of ZernPSF. *)
From Coq Require Import Reals Lra Lia List.
From Flocq Require Import Core.
From Verif Require Import Py SpecIndex M_Index M_Init M_Radial M_Coeffs M_Sum SpecSum M_Fit L_Fit L_Crop M_Psf SpecPsf P_Psf M_PsfClass SpecPsfClass L_PsfObj L_PsfSet SpecPsfEnd P_PsfEnd M_Img SpecImg L_Img P_Img P_Bump M_Alias P_Alias SpecWeak M_PlotPsf SpecPlotPsf.
Import ListNotations.
Local Open Scope R_scope.

Lemma draw_drawn t K fs : drawn t K fs (draw t K fs).
Proof.
  unfold drawn. induction fs as [|[t' ks] fs [IH1 IH2]]; cbn [draw pictures].
  - split; [destruct (title_eq_dec t t); [reflexivity|contradiction]|]. intros t' N. destruct (title_eq_dec t' t); [contradiction|reflexivity].
  - destruct (title_eq_dec t t') as [<-|N].
    + cbn [pictures]. split; [destruct (title_eq_dec t t); [reflexivity|contradiction]|]. intros t2 N2. destruct (title_eq_dec t2 t); [contradiction|reflexivity].
    + cbn [pictures]. destruct (title_eq_dec t t') as [|_]; [contradiction|]. split; [exact IH1|].
      intros t2 N2. destruct (title_eq_dec t2 t') as [->|N3]; [reflexivity|]. apply IH2, N2.
Qed.
(** plot_kernel draws the kernel the object has, on the figure with its title, and touches no other figure *)
Theorem C77_kernel : forall id o fs, drawn (kernel_title id o) (kern o) fs (plot_kernel id o fs).
Proof. intros. apply draw_drawn. Qed.
Print Assumptions C77_kernel.
(** after a calculation the figure shows the kernel that was returned, whatever options were used and whatever happened before *)
Theorem C77_after_calculation : forall rnd jv1 fuel suppress normalized accelerated installed o s s' o' K id fs,
  calculate_psf_kernel rnd jv1 fuel suppress normalized accelerated installed o s = (s', (o', Ok K)) ->
  drawn (kernel_title id o) K fs (plot_kernel id o' fs).
Proof.
  intros rnd jv1 fuel su nm ac inst o s s' o' K id fs E.
  assert (Q := sa_calculate rnd jv1 fuel su nm ac inst s o). rewrite E in Q. cbn [fst snd] in Q. destruct Q as ((Z1 & Z2 & Z3) & _ & _ & _ & Z4 & _).
  assert (KE : kern o' = K).
  { unfold calculate_psf_kernel in E. cbv zeta in E. match type of E with (let '(_, _) := ?x in _) = _ => destruct x as (s1 & r) end.
    destruct r as [K'|e]; [|discriminate]. injection E as _ <- <-. destruct (_ && _); reflexivity. }
  assert (TE : kernel_title id o' = kernel_title id o) by (unfold kernel_title; rewrite Z1, Z2, Z3, Z4; reflexivity).
  rewrite <- TE, <- KE. apply C77_kernel.
Qed.
Print Assumptions C77_after_calculation.

(** two objects share a figure only if the identifiers agree, both have the same polynomial with nearly the same coefficient, both
    are Airy patterns, or both have the same list of polynomials *)
Lemma round2_near x y : np_round 2 x = np_round 2 y -> Rabs (x - y) <= / 100.
Proof.
  intros E. pose proof (np_round_err 2 x) as A. pose proof (np_round_err 2 y) as B. rewrite E in A.
  assert (P : powerRZ 10 (- (2)) = / 100) by (change (powerRZ 10 (- (2))) with (/ (10 * (10 * 1))); f_equal; lra). rewrite P in A, B.
  apply Rabs_le_inv in A, B. apply Rabs_le. lra.
Qed.
Theorem C77_titles : forall o o' id id', kernel_title id o = kernel_title id' o' -> id = id' /\
  match zpol o, zpol o' with
  | Some p, Some p' => airy o = airy o' /\ (airy o = false -> p = p') /\ Rabs (expansion_coeff o - expansion_coeff o') <= / 100
  | None, None => polynomials o = polynomials o'
  | _, _ => False
  end.
Proof.
  intros o o' id id' E. unfold kernel_title in E.
  destruct (zpol o) as [p|], (zpol o') as [p'|].
  - destruct (airy o), (airy o'); try discriminate.
    + injection E as E1 ->. split; [reflexivity|]. split; [reflexivity|]. split; [discriminate|]. apply round2_near, E1.
    + injection E as -> _ E1 ->. split; [reflexivity|]. split; [reflexivity|]. split; [reflexivity|]. apply round2_near, E1.
  - destruct (airy o); discriminate.
  - destruct (airy o'); discriminate.
  - injection E as _ -> ->. split; reflexivity.
Qed.
Print Assumptions C77_titles.

(** the title of a composed kernel does not name the coefficients: kernels of different aberrations are drawn over each other *)
Theorem C77_composed_titles : exists o o', object o /\ object o' /\ configured o /\ configured o' /\ coefficients o = Some [1; 1] /\ coefficients o' = Some [1; 2] /\
  forall id fs, kernel_title id o = kernel_title id o' /\ pictures (kernel_title id o) (plot_kernel id o' (plot_kernel id o fs)) = kern o' :: kern o :: pictures (kernel_title id o) fs.
Proof.
  assert (O2 : object two) by (apply fresh_object, two_fresh). assert (I := object_inv two O2).
  assert (IR : in_range 1 1 (1 / 10)) by (unfold in_range; lra).
  assert (FT : forall l, length l = 2%nat -> fits (KSeq l) two) by (intros l L; split; [intros ->; discriminate|left; exact L]).
  destruct (physical_ok 1 1 (KSeq [1; 1]) (1 / 10) two I IR (FT [1; 1] eq_refl)) as (k1 & _ & E1).
  destruct (physical_ok 1 1 (KSeq [1; 2]) (1 / 10) two I IR (FT [1; 2] eq_refl)) as (k2 & _ & E2).
  set (o := final 1 1 (KSeq [1; 1]) (1 / 10) k1 two) in *. set (o' := final 1 1 (KSeq [1; 2]) (1 / 10) k2 two) in *.
  assert (T : forall id, kernel_title id o = kernel_title id o') by reflexivity.
  exists o, o'. split; [|split; [|split; [|split; [|split; [reflexivity|split; [reflexivity|]]]]]].
  - assert (X := o_physical 1 1 (KSeq [1; 1]) (1 / 10) two O2). rewrite E1 in X. exact X.
  - assert (X := o_physical 1 1 (KSeq [1; 2]) (1 / 10) two O2). rewrite E2 in X. exact X.
  - split; [exact IR|]. intros _. exists [1; 1]. split; reflexivity.
  - split; [exact IR|]. intros _. exists [1; 2]. split; reflexivity.
  - intros id fs. split; [apply T|]. rewrite T. rewrite (proj1 (C77_kernel id o' _)). f_equal. rewrite <- T. apply (proj1 (C77_kernel id o fs)).
Qed.
Print Assumptions C77_composed_titles.

(** ** visualize_convolution *)
Definition fv (x : fl) : R := match x with Fin v => v | _ => 0 end.
Lemma finite_row_ok l : (forall x, In x l -> x = Fin (fv x)) -> finite_row l = Some (map fv l).
Proof.
  induction l as [|x l IH]; intros H; cbn [finite_row map]; [reflexivity|]. rewrite (H x (or_introl eq_refl)) at 1. rewrite IH by (intros; apply H; right; assumption). reflexivity.
Qed.
Lemma finite_kernel_ok K : (forall r x, In r K -> In x r -> x = Fin (fv x)) -> finite_kernel K = Some (map (map fv) K).
Proof.
  induction K as [|r K IH]; intros H; cbn [finite_kernel map]; [reflexivity|].
  rewrite finite_row_ok by (intros x X; apply (H r); [left; reflexivity|exact X]). rewrite IH by (intros r' x' A B; apply (H r'); [right; exact A|exact B]). reflexivity.
Qed.
Lemma entry_map {A B} (f : A -> B) K i j : entry (map (map f) K) i j = option_map f (entry K i j).
Proof. unfold entry. rewrite nth_error_map. destruct (nth_error K _); [|reflexivity]. cbn [option_map]. apply nth_error_map. Qed.
Lemma map_array {A B} (f : A -> B) I h w v : is_array I h w v -> is_array (map (map f) I) h w (fun i j => f (v i j)).
Proof.
  intros (H & W & (L & F) & E). split; [exact H|]. split; [exact W|]. split.
  - split; [rewrite map_length; exact L|]. rewrite Forall_map. eapply Forall_impl; [|exact F]. intros r Q. cbv beta. rewrite map_length. exact Q.
  - intros i j Hi Hj. rewrite entry_map, (E i j Hi Hj). reflexivity.
Qed.
(** the values of a proper kernel *)
Lemma proper_values K size : (1 <= size)%Z -> proper K size -> exists k, finite_kernel K = Some (map (map fv) K) /\ is_array (map (map fv) K) size size k /\
  (forall i j, (0 <= i < size)%Z -> (0 <= j < size)%Z -> entry K i j = Some (Fin (k i j)) /\ 0 <= k i j <= 1) /\
  exists a b, (0 <= a < size)%Z /\ (0 <= b < size)%Z /\ k a b = 1.
Proof.
  intros S ((L & F) & E & a & b & Ha & Hb & M).
  set (k := fun i j => match entry K i j with Some x => fv x | None => 0 end).
  assert (EK : forall i j, (0 <= i < size)%Z -> (0 <= j < size)%Z -> entry K i j = Some (Fin (k i j)) /\ 0 <= k i j <= 1).
  { intros i j Hi Hj. destruct (E i j Hi Hj) as (x & X & B). unfold k. rewrite X. split; [reflexivity|exact B]. }
  exists k. split; [|split; [|split]].
  - apply finite_kernel_ok. intros r x IR IX. apply In_nth_error in IR, IX. destruct IR as (i & IR). destruct IX as (j & IX).
    assert (LI : (i < length K)%nat) by (apply nth_error_Some; congruence). assert (LJ : (j < length r)%nat) by (apply nth_error_Some; congruence).
    assert (LR : Z.of_nat (length r) = size) by (rewrite Forall_forall in F; apply F; eapply nth_error_In; exact IR).
    destruct (E (Z.of_nat i) (Z.of_nat j) ltac:(lia) ltac:(lia)) as (y & Y & _). unfold entry in Y. rewrite !Nat2Z.id, IR, IX in Y. injection Y as ->. reflexivity.
  - split; [exact S|]. split; [exact S|]. split; [split; [rewrite map_length; exact L|rewrite Forall_map; eapply Forall_impl; [|exact F]; intros r Q; cbv beta; rewrite map_length; exact Q]|].
    intros i j Hi Hj. rewrite entry_map, (proj1 (EK i j Hi Hj)). reflexivity.
  - exact EK.
  - exists a, b. split; [exact Ha|]. split; [exact Hb|]. unfold k. rewrite M. reflexivity.
Qed.
(** every window of n pixels of the mirrored image contains the middle pixel *)
Lemma middle_seen n c f s : (1 <= n)%Z -> (n = 2 * c + 1)%Z -> mirrors n f -> exists i, (0 <= i < n)%Z /\ f (i + s)%Z = c.
Proof.
  intros N C F. exists ((c - s) mod n)%Z. split; [apply Z.mod_pos_bound; lia|].
  rewrite (mirrors_unique n f N F). set (q := ((c - s) / n)%Z). assert (E : ((c - s) mod n = c - s - n * q)%Z) by (unfold q; pose proof (Z.div_mod (c - s) n ltac:(lia)); lia).
  rewrite E. replace (c - s - n * q + s)%Z with (c - n * q)%Z by lia. unfold reflect. cbv zeta.
  destruct (Z.Even_or_Odd q) as [(t & ->)|(t & ->)].
  - replace (c - n * (2 * t))%Z with (c + (- t) * (2 * n))%Z by lia. rewrite Z.mod_add, Z.mod_small by lia. destruct (Z.ltb_spec c n); lia.
  - replace (c - n * (2 * t + 1))%Z with (c + n + (- t - 1) * (2 * n))%Z by lia. rewrite Z.mod_add, Z.mod_small by lia. destruct (Z.ltb_spec (c + n) n); lia.
Qed.
Lemma noticed_heavy eps k a b : noticed eps k a b = heavy eps k a b.
Proof. unfold noticed, heavy, Rltb. destruct (Rlt_dec _ _); reflexivity. Qed.
(** a term of a sum *)
Lemma rsum_ge_term {A} (l : list A) f x : (forall y, In y l -> 0 <= f y) -> In x l -> f x <= rsum l f.
Proof.
  unfold rsum. induction l as [|y l IH]; intros P I; [contradiction|]. cbn [map fold_right].
  assert (S0 : 0 <= fold_right Rplus 0 (map f l)).
  { clear IH I. assert (P' : forall z, In z l -> 0 <= f z) by (intros; apply P; right; assumption). clear P. induction l as [|z l IH]; cbn [map fold_right]; [lra|].
    pose proof (P' z (or_introl eq_refl)). assert (0 <= fold_right Rplus 0 (map f l)) by (apply IH; intros; apply P'; right; assumption). lra. }
  pose proof (P y (or_introl eq_refl)). destruct I as [->|I]; [lra|]. pose proof (IH ltac:(intros; apply P; right; assumption) I). lra.
Qed.
Lemma sum2_ge_term kh kw g a b : (forall i j, (0 <= i < kh)%Z -> (0 <= j < kw)%Z -> 0 <= g i j) -> (0 <= a < kh)%Z -> (0 <= b < kw)%Z -> g a b <= sum2 kh kw g.
Proof.
  intros P Ha Hb. unfold sum2. eapply Rle_trans; [|apply (rsum_ge_term _ _ a); [|apply zrange_In; lia]].
  - cbv beta. apply (rsum_ge_term (zrange 0 (Z.to_nat kw)) (fun j => g a j) b); [|apply zrange_In; lia]. intros j J. apply zrange_In in J. apply P; lia.
  - intros i I. apply zrange_In in I. cbv beta.
    assert (Q : forall l, (forall j, In j l -> 0 <= g i j) -> 0 <= rsum l (fun j => g i j)).
    { intros l. unfold rsum. induction l as [|x l IH]; intros H; cbn [map fold_right]; [lra|]. pose proof (H x (or_introl eq_refl)). assert (0 <= fold_right Rplus 0 (map (fun j => g i j) l)) by (apply IH; intros; apply H; right; assumption). lra. }
    apply Q. intros j J. apply zrange_In in J. apply P; lia.
Qed.

Theorem C77_visualize : forall eps cast radius m o fs size, 0 <= eps < 1 -> (1 <= m <= 65535)%Z -> (1 <= size)%Z -> proper (kern o) size ->
  exists fs' n p q disk blur img k, visualize_convolution (fun x => x) eps cast radius m o fs = Some (fs', Ok Datatypes.tt) /\
    pictures TDisk fs' = disk :: pictures TDisk fs /\ pictures TConvolved fs' = blur :: pictures TConvolved fs /\
    (forall t, t <> TDisk -> t <> TConvolved -> pictures t fs' = pictures t fs) /\
    get_bumped_circle radius m = Ok img /\ is_array img n n p /\ (forall i j, (0 <= p i j <= m)%Z) /\ is_array disk n n (fun i j => Fin (IZR (p i j))) /\
    is_array blur n n (fun i j => Fin (IZR (q i j))) /\
    (forall i j, (0 <= i < size)%Z -> (0 <= j < size)%Z -> entry (kern o) i j = Some (Fin (k i j))) /\
    (forall i j, (0 <= i < n)%Z -> (0 <= j < n)%Z -> (0 <= q i j <= m)%Z) /\ (exists i j, (0 <= i < n)%Z /\ (0 <= j < n)%Z /\ q i j = m) /\
    forall f, mirrors n f -> let conv := convolution f f size size (noticed eps k) (fun i j => IZR (p i j)) in
      exists B, max2 n n conv B /\ IZR m <= B /\
        forall i j, (0 <= i < n)%Z -> (0 <= j < n)%Z -> IZR (q i j) <= conv i j * (IZR m / B) < IZR (q i j) + 1.
Proof.
  intros eps cast radius m o fs size HE HM S PR.
  destruct (C47_image radius m ltac:(lia)) as (r & n & c & p & img & _ & _ & N5 & NC & EI & AI & PB & PC & _).
  rewrite Z.max_r in PB, PC by lia.
  destruct (proper_values _ _ S PR) as (k & FK & AK & KE & a1 & b1 & Ha1 & Hb1 & K1). set (Km := map (map fv) (kern o)) in *.
  set (disk := map (map Fin) (map (map IZR) img)). assert (AD : is_array (map (map IZR) img) n n (fun i j => IZR (p i j))) by (apply (map_array IZR), AI).
  assert (AD2 : is_array disk n n (fun i j => Fin (IZR (p i j)))) by (apply (map_array Fin _ _ _ (fun i j => IZR (p i j))), AD).
  set (F := reflect n). assert (MF : mirrors n F) by (apply reflect_mirrors; lia).
  set (v := fun i j => IZR (p i j)). set (cv := convolution F F size size (noticed eps k) v).
  assert (RAW : exists s, 0 < s /\ forall i j, raw F F eps size size k v i j = cv i j / s).
  { assert (SP : 0 < sum2 size size k).
    { eapply Rlt_le_trans; [|apply (sum2_ge_term size size k a1 b1); [intros i j Hi Hj; apply KE; assumption|exact Ha1|exact Hb1]]. rewrite K1. lra. }
    exists (sum2 size size k). split; [exact SP|]. intros i j. unfold raw. cbv zeta. rewrite (proj2 (Rltb_true' _ _) SP). f_equal.
    unfold cv, convolution. apply sum2_ext. intros. rewrite noticed_heavy. reflexivity. }
  destruct RAW as (s & S0 & RAW).
  assert (NN : forall a b, (0 <= a < size)%Z -> (0 <= b < size)%Z -> 0 <= noticed eps k a b).
  { intros a b Ha Hb. unfold noticed. destruct (Rlt_dec _ _); [apply KE; assumption|lra]. }
  assert (V0 : forall i j, 0 <= v i j <= IZR m) by (intros; unfold v; split; apply IZR_le, PB).
  assert (C0 : forall i j, 0 <= cv i j).
  { intros i j. unfold cv, convolution. apply sum2_pos. intros a b Ha Hb. apply Rmult_le_pos; [apply NN; assumption|apply V0]. }
  set (B := np_max (table2 cv n n)). assert (MB : max2 n n cv B) by (apply max_table2; lia).
  assert (BM : IZR m <= B).
  { destruct (middle_seen n c F (size / 2 - a1)%Z ltac:(lia) NC MF) as (i & Hi & Ei). destruct (middle_seen n c F (size / 2 - b1)%Z ltac:(lia) NC MF) as (j & Hj & Ej).
    eapply Rle_trans; [|apply (proj1 MB i j Hi Hj)]. unfold cv, convolution.
    eapply Rle_trans; [|apply (sum2_ge_term size size (fun a b => noticed eps k a b * v (F (i + size / 2 - a)%Z) (F (j + size / 2 - b)%Z)) a1 b1); [|exact Ha1|exact Hb1]].
    - cbv beta. replace (i + size / 2 - a1)%Z with (i + (size / 2 - a1))%Z by lia. replace (j + size / 2 - b1)%Z with (j + (size / 2 - b1))%Z by lia. rewrite Ei, Ej.
      unfold noticed. rewrite K1, Rabs_R1. destruct (Rlt_dec eps 1); [|lra]. unfold v. rewrite PC. lra.
    - intros a b Ha Hb. apply Rmult_le_pos; [apply NN; assumption|apply V0]. }
  assert (M1 : 1 <= IZR m) by (apply IZR_le; lia).
  assert (MR : max2 n n (raw F F eps size size k v) (B / s)).
  { split; [intros i j Hi Hj; rewrite RAW; apply Rmult_le_compat_r; [apply Rlt_le, Rinv_0_lt_compat, S0|apply MB; assumption]|].
    destruct MB as [_ (i & j & Hi & Hj & X)]. exists i, j. rewrite RAW, X. repeat split; assumption || lia. }
  assert (MV : max2 n n v (IZR m)) by (split; [intros; apply V0|exists c, c; unfold v; rewrite PC; repeat split; lia]).
  set (x := fun i j => cv i j * (IZR m / B)).
  assert (XB : forall i j, (0 <= i < n)%Z -> (0 <= j < n)%Z -> 0 <= x i j <= IZR m).
  { intros i j Hi Hj. unfold x. assert (Q0 : 0 <= IZR m / B) by (apply Rmult_le_pos; [lra|apply Rlt_le, Rinv_0_lt_compat; lra]). split; [apply Rmult_le_pos; [apply C0|exact Q0]|].
    replace (IZR m) with (B * (IZR m / B)) at 2 by (field; lra). apply Rmult_le_compat_r; [exact Q0|apply MB; assumption]. }
  set (q := fun i j => Zfloor (x i j)).
  assert (QB : forall i j, (0 <= i < n)%Z -> (0 <= j < n)%Z -> (0 <= q i j <= m)%Z).
  { intros i j Hi Hj. destruct (XB i j Hi Hj) as [X0 X1]. split; [apply Zfloor_lub; exact X0|]. apply le_IZR. eapply Rle_trans; [apply Zfloor_lb|exact X1]. }
  set (blur := convolute_img_psf (fun x => x) eps cast (DUint (bump_bits m)) (map (map IZR) img) Km true).
  assert (MBITS : (m < 2 ^ bump_bits m)%Z) by (unfold bump_bits; destruct (Z.leb_spec m 255); [change (2 ^ 8)%Z with 256%Z|change (2 ^ 16)%Z with 65536%Z]; lia).
  assert (EB : blur = table2 (fun i j => Fin (IZR (q i j))) n n).
  { unfold blur. change (fun x : R => x) with idr. rewrite (conv_result F F eps cast _ _ _ true n n v size size k AD AK MF MF).
    apply table2_ext. intros i j Hi Hj. rewrite (max2_unique n n v _ (IZR m) (max_table2 v n n ltac:(lia) ltac:(lia)) MV).
    rewrite (max2_unique n n _ _ (B / s) (max_table2 (raw F F eps size size k v) n n ltac:(lia) ltac:(lia)) MR).
    assert (BS : 0 < B / s) by (apply Rdiv_lt_0_compat; lra).
    unfold np_div. destruct (Req_EM_T (B / s) 0); [lra|]. cbn [np_mul]. unfold idr. rewrite RAW.
    replace (cv i j / s * (IZR m / (B / s))) with (x i j) by (unfold x; field; split; lra).
    destruct (XB i j Hi Hj) as [X0 X1]. destruct (QB i j Hi Hj) as [Q0 Q1]. cbn [astype]. rewrite Ztrunc_floor by exact X0. cbv zeta. fold (q i j).
    rewrite (proj2 (Z.leb_le _ _) Q0), (proj2 (Z.ltb_lt _ _)) by lia. reflexivity. }
  exists (draw TConvolved blur (draw TDisk disk fs)), n, p, q, disk, blur, img, k.
  destruct (draw_drawn TDisk disk fs) as [D1 D2]. destruct (draw_drawn TConvolved blur (draw TDisk disk fs)) as [E1 E2].
  split; [unfold visualize_convolution; rewrite EI, FK; reflexivity|].
  split; [rewrite E2 by discriminate; exact D1|]. split; [rewrite E1, D2 by discriminate; reflexivity|].
  split; [intros t N1 N2; rewrite E2, D2 by assumption; reflexivity|].
  split; [exact EI|]. split; [exact AI|]. split; [exact PB|]. split; [exact AD2|]. split; [rewrite EB; apply table2_array; lia|].
  split; [intros; apply KE; assumption|]. split; [exact QB|]. split.
  - destruct MB as [_ (i & j & Hi & Hj & X)]. exists i, j. split; [exact Hi|]. split; [exact Hj|]. unfold q, x. rewrite X. replace (B * (IZR m / B)) with (IZR m) by (field; lra). apply Zfloor_IZR.
  - intros f MF'. cbv zeta. assert (EF : forall i j, convolution f f size size (noticed eps k) v i j = cv i j).
    { intros i j. unfold cv, convolution. apply sum2_ext. intros a b _ _. rewrite !(mirrors_unique n f ltac:(lia) MF'). reflexivity. }
    exists B. split; [apply (max2_ext n n cv); [intros; symmetry; apply EF|exact MB]|]. split; [exact BM|].
    intros i j Hi Hj. fold v. rewrite EF. fold (x i j). unfold q. split; [apply Zfloor_lb|apply Zfloor_ub].
Qed.
Print Assumptions C77_visualize.

(** before any calculation the kernel is [[1.0]]: the second figure shows the disk itself *)
Theorem C77_visualize_new : forall eps cast radius m a o fs, proper_arg a -> zernpsf_init a = Ok o -> 0 <= eps < 1 -> (1 <= m <= 65535)%Z ->
  exists fs' disk, visualize_convolution (fun x => x) eps cast radius m o fs = Some (fs', Ok Datatypes.tt) /\
    pictures TDisk fs' = disk :: pictures TDisk fs /\ pictures TConvolved fs' = disk :: pictures TConvolved fs.
Proof.
  intros eps cast radius m a o fs PA EI HE HM.
  assert (KO : kern o = [[Fin 1]]).
  { destruct a as [[p|]|l].
    - injection EI as <-. reflexivity.
    - injection EI as <-. reflexivity.
    - unfold zernpsf_init in EI. repeat match type of EI with
        | context [match ?x with _ => _ end] => destruct x; try discriminate
        end; injection EI as <-; reflexivity. }
  assert (PR : proper (kern o) 1).
  { rewrite KO. split; [split; [reflexivity|constructor; [reflexivity|constructor]]|]. split.
    - intros i j Hi Hj. assert (i = 0 /\ j = 0)%Z as (-> & ->) by lia. exists 1. split; [reflexivity|lra].
    - exists 0%Z, 0%Z. split; [lia|]. split; [lia|reflexivity]. }
  destruct (C77_visualize eps cast radius m o fs 1 HE HM ltac:(lia) PR) as (fs' & n & p & q & disk & blur & img & k & EV & D & C & _ & _ & AI & PB & AD & AB & EK & QB & (i0 & j0 & Hi0 & Hj0 & Q0) & CV).
  assert (N1 : (1 <= n)%Z) by apply AI.
  assert (K1 : k 0%Z 0%Z = 1). { specialize (EK 0%Z 0%Z ltac:(lia) ltac:(lia)). rewrite KO in EK. cbn in EK. injection EK as <-. reflexivity. }
  destruct (CV (reflect n) (reflect_mirrors n N1)) as (B & MB & BM & X). cbv zeta in MB, X.
  assert (EC : forall i j, (0 <= i < n)%Z -> (0 <= j < n)%Z -> convolution (reflect n) (reflect n) 1 1 (noticed eps k) (fun i j => IZR (p i j)) i j = IZR (p i j)).
  { intros i j Hi Hj. unfold convolution. rewrite (sum2_single 0 0 1 1) by (lia || intros; exfalso; match goal with H : _ <> _ |- _ => apply H; f_equal; lia end). change (1 / 2)%Z with 0%Z.
    replace (i + 0 - 0)%Z with i by lia. replace (j + 0 - 0)%Z with j by lia. destruct (reflect_mirrors n N1) as (RM & _). rewrite !RM by assumption. unfold noticed. rewrite K1, Rabs_R1. destruct (Rlt_dec eps 1); [|lra]. ring. }
  assert (M1 : 1 <= IZR m) by (apply IZR_le; lia).
  assert (BE : B = IZR m).
  { apply Rle_antisym; [|exact BM]. destruct MB as [_ (i & j & Hi & Hj & E)]. rewrite <- E, EC by assumption. apply IZR_le, PB. }
  exists fs', disk. split; [exact EV|]. split; [exact D|]. rewrite C. f_equal. rewrite (array_eq _ _ _ _ AD), (array_eq _ _ _ _ AB).
  apply table2_ext. intros i j Hi Hj. do 2 f_equal. destruct (X i j Hi Hj) as [X1 X2]. rewrite EC, BE in X1, X2 by assumption.
  replace (IZR (p i j) * (IZR m / IZR m)) with (IZR (p i j)) in X1, X2 by (field; lra).
  apply le_IZR in X1. rewrite <- (plus_IZR _ 1) in X2. apply lt_IZR in X2. lia.
Qed.
Print Assumptions C77_visualize_new.
(** too bright a disk: OverflowError, and no figure is opened *)
Theorem C77_overflow : forall eps cast radius m o fs, (65535 < m)%Z ->
  visualize_convolution (fun x => x) eps cast radius m o fs = Some (fs, Raise OverflowError).
Proof. intros eps cast radius m o fs H. unfold visualize_convolution. rewrite C47_overflow by exact H. reflexivity. Qed.
Print Assumptions C77_overflow.
(** a disk without light (max_intensity <= 0): the scaling divides 0 by 0, and the second figure shows converted NaN everywhere *)
Theorem C77_dark : forall eps cast radius m o fs size, (m <= 0)%Z -> (1 <= size)%Z -> proper (kern o) size ->
  exists fs' n blur, visualize_convolution (fun x => x) eps cast radius m o fs = Some (fs', Ok Datatypes.tt) /\
    pictures TConvolved fs' = blur :: pictures TConvolved fs /\ is_array blur n n (fun _ _ => Fin (IZR (cast NaN))).
Proof.
  intros eps cast radius m o fs size HM S PR.
  destruct (C47_image radius m ltac:(lia)) as (r & n & c & p & img & _ & _ & N5 & NC & EI & AI & PB & _). rewrite Z.max_l in PB by lia.
  destruct (proper_values _ _ S PR) as (k & FK & AK & _). set (Km := map (map fv) (kern o)) in *.
  assert (AD : is_array (map (map IZR) img) n n (fun i j => IZR (p i j))) by (apply (map_array IZR), AI).
  set (blur := convolute_img_psf (fun x => x) eps cast (DUint (bump_bits m)) (map (map IZR) img) Km true).
  set (disk := map (map Fin) (map (map IZR) img)).
  exists (draw TConvolved blur (draw TDisk disk fs)), n, blur.
  destruct (draw_drawn TDisk disk fs) as [D1 D2]. destruct (draw_drawn TConvolved blur (draw TDisk disk fs)) as [E1 E2].
  split; [unfold visualize_convolution; rewrite EI, FK; reflexivity|].
  split; [rewrite E1, D2 by discriminate; reflexivity|].
  split; [lia|]. split; [lia|]. split; [apply (C44_shape _ _ _ _ _ _ _ n n _ size size k AD AK)|].
  intros i j Hi Hj. unfold blur. rewrite (C44_black_scaled_refuted eps cast _ _ _ n n _ size size k i j AD AK); [reflexivity| |exact Hi|exact Hj].
  intros a b _ _. assert (p a b = 0)%Z as -> by (specialize (PB a b); lia). reflexivity.
Qed.
Print Assumptions C77_dark.
