From Coq Require Import Reals Lra Psatz Permutation.
From Flocq Require Import Core.
From Verif Require Import Py SpecIndex SpecRadial M_Radial M_Coeffs SpecCoeffs M_Sum SpecSum L_Sum M_Geo SpecGeo L_Geo M_Fit L_Fit M_Psf SpecPsf L_Phases M_Polar L_Polar.
Local Open Scope R_scope.

(** ** sums *)
Lemma rsum_cons {A} (a : A) l f : rsum (a :: l) f = f a + rsum l f. Proof. reflexivity. Qed.
Lemma rsum_plus {A} (l : list A) f g : rsum l (fun x => f x + g x) = rsum l f + rsum l g.
Proof. induction l as [|a l IH]; [cbn; ring|]. rewrite !rsum_cons, IH. ring. Qed.
Lemma rsum_scal {A} (l : list A) c f : rsum l (fun x => c * f x) = c * rsum l f.
Proof. induction l as [|a l IH]; [cbn; ring|]. rewrite !rsum_cons, IH. ring. Qed.
Lemma rsum_ext {A} (l : list A) f g : (forall x, In x l -> f x = g x) -> rsum l f = rsum l g.
Proof. induction l as [|a l IH]; intros H; [reflexivity|]. rewrite !rsum_cons, IH by (intros; apply H; right; assumption). rewrite (H a) by (left; reflexivity). reflexivity. Qed.
Lemma rsum_const {A} (l : list A) c : rsum l (fun _ => c) = INR (length l) * c.
Proof. induction l as [|a l IH]; [cbn; ring|]. rewrite rsum_cons, IH. cbn [length]. rewrite S_INR. ring. Qed.
Lemma rsum_map {A B} (l : list A) (h : A -> B) f : rsum (map h l) f = rsum l (fun x => f (h x)).
Proof. unfold rsum. rewrite map_map. reflexivity. Qed.
Lemma rsum_nonneg {A} (l : list A) f : (forall x, In x l -> 0 <= f x) -> 0 <= rsum l f.
Proof. induction l as [|a l IH]; intros H; [cbn; lra|]. rewrite rsum_cons. assert (0 <= f a) by (apply H; left; reflexivity). assert (0 <= rsum l f) by (apply IH; intros; apply H; right; assumption). lra. Qed.
Lemma rsum_le {A} (l : list A) f g : (forall x, In x l -> f x <= g x) -> rsum l f <= rsum l g.
Proof. induction l as [|a l IH]; intros H; [cbn; lra|]. rewrite !rsum_cons. assert (f a <= g a) by (apply H; left; reflexivity). assert (rsum l f <= rsum l g) by (apply IH; intros; apply H; right; assumption). lra. Qed.
Lemma rsum_app {A} (l l' : list A) f : rsum (l ++ l') f = rsum l f + rsum l' f.
Proof. induction l as [|a l IH]; [change (rsum l' f = 0 + rsum l' f); ring|]. cbn [app]. rewrite !rsum_cons, IH. ring. Qed.

Lemma csum_fst l : fst (csum l) = rsum l fst.
Proof. induction l as [|a l IH]; [reflexivity|]. cbn [csum fold_right cadd fst]. fold (csum l). rewrite IH. reflexivity. Qed.
Lemma csum_snd l : snd (csum l) = rsum l snd.
Proof. induction l as [|a l IH]; [reflexivity|]. cbn [csum fold_right cadd snd]. fold (csum l). rewrite IH. reflexivity. Qed.
Lemma cabs_sq a : cabs a * cabs a = fst a * fst a + snd a * snd a.
Proof. unfold cabs. apply sqrt_sqrt. nra. Qed.

(** the ranges of the code are the even and odd numbers of the specification *)
Lemma range2_filter (a b : Z) (par : Z -> bool) : (forall z, par (a + 2 * z)%Z = true) -> (forall z, par (a + 2 * z + 1)%Z = false) ->
  forall k, (b <= a + Z.of_nat k)%Z ->
  range2 a b = filter (fun i => par i && (i <? b)%Z)%bool (zrange a k).
Proof.
  intros PT PF k. revert a PT PF.
  induction k as [k IH] using (well_founded_induction Wf_nat.lt_wf); intros a PT PF K.
  destruct (Z.leb_spec b a) as [L|L].
  - assert (E : range2 a b = []). { unfold range2. replace (Z.to_nat ((b - a + 1) / 2)) with 0%nat; [reflexivity|].
      assert ((b - a + 1) / 2 < 1)%Z by (apply Z.div_lt_upper_bound; lia). lia. }
    rewrite E. symmetry. assert (G : forall x j, (b <= x)%Z -> filter (fun i => par i && (i <? b)%Z)%bool (zrange x j) = []).
    { intros x j; revert x; induction j as [|j IHj]; intros x Hx; cbn [zrange filter]; [reflexivity|].
      replace (x <? b)%Z with false by (symmetry; apply Z.ltb_ge; lia). rewrite andb_false_r. apply IHj. lia. }
    apply G, L.
  - destruct k as [|k]; [lia|]. cbn [zrange filter].
    assert (P0 : par a = true) by (rewrite <- (PT 0%Z); f_equal; lia). rewrite P0.
    replace (a <? b)%Z with true by (symmetry; apply Z.ltb_lt; lia). cbn [andb].
    assert (E : range2 a b = a :: range2 (a + 2) b).
    { unfold range2. replace (Z.to_nat ((b - a + 1) / 2)) with (S (Z.to_nat ((b - (a + 2) + 1) / 2))).
      - cbn [zrange map]. f_equal; [lia|]. assert (G : forall j x, map (fun q => (a + 2 * q)%Z) (zrange (x + 1) j) = map (fun q => (a + 2 + 2 * q)%Z) (zrange x j)).
        { induction j as [|j IHj]; intros x; cbn [zrange map]; [reflexivity|]. f_equal; [lia|apply IHj]. }
        apply (G _ 0%Z).
      - replace (b - a + 1)%Z with (b - (a + 2) + 1 + 1 * 2)%Z by lia. rewrite Z.div_add by lia.
        assert (0 <= (b - (a + 2) + 1) / 2)%Z by (apply Z.div_pos; lia). lia. }
    rewrite E. f_equal. destruct k as [|k].
    + cbn. assert (b = a + 1)%Z by lia. subst b. unfold range2. replace (Z.to_nat ((a + 1 - (a + 2) + 1) / 2)) with 0%nat; [reflexivity|].
      replace (a + 1 - (a + 2) + 1)%Z with 0%Z by lia. reflexivity.
    + cbn [zrange filter]. assert (P1 : par (a + 1)%Z = false) by (rewrite <- (PF 0%Z); f_equal; lia). rewrite P1. cbn [andb].
      replace (a + 1 + 1)%Z with (a + 2)%Z by lia. apply IH; [lia| | |lia].
      * intros z. rewrite <- (PT (z + 1)%Z). f_equal. lia.
      * intros z. rewrite <- (PF (z + 1)%Z). f_equal. lia.
Qed.
Lemma range_evens n : range2 2 (n - 2) = evens n.
Proof.
  unfold evens. destruct (Z.leb_spec n 0) as [L|L].
  - replace (Z.to_nat n) with 0%nat by lia. cbn. unfold range2. replace (Z.to_nat ((n - 2 - 2 + 1) / 2)) with 0%nat; [reflexivity|].
    assert ((n - 2 - 2 + 1) / 2 <= 0)%Z by (apply Z.div_le_upper_bound; lia). lia.
  - apply range2_filter; [intros z|intros z|lia].
    + rewrite Z.even_add, Z.even_mul. reflexivity.
    + rewrite !Z.even_add, Z.even_mul. reflexivity.
Qed.
Lemma range_odds n : range2 1 (n - 1) = odds n.
Proof.
  unfold odds. destruct (Z.leb_spec n 0) as [L|L].
  - replace (Z.to_nat n) with 0%nat by lia. cbn. unfold range2. replace (Z.to_nat ((n - 1 - 1 + 1) / 2)) with 0%nat; [reflexivity|].
    assert ((n - 1 - 1 + 1) / 2 <= 0)%Z by (apply Z.div_le_upper_bound; lia). lia.
  - apply range2_filter; [intros z|intros z|lia].
    + rewrite Z.odd_add, Z.odd_mul. reflexivity.
    + rewrite !Z.odd_add, Z.odd_mul. reflexivity.
Qed.
Lemma range2_len a b : length (range2 a b) = Z.to_nat ((b - a + 1) / 2).
Proof. unfold range2. rewrite map_length. apply zrange_len. Qed.

(** ** the model computes the formula *)
Definition computes_gen (ph : phase) (Phi : R -> R -> R) : Prop :=
  forall r t pts sh, broadcast r t pts sh -> Forall (fun q => in_disk (fst q)) pts ->
    isok (ph r t) (sh (map (fun q => Phi (fst q) (snd q)) pts)).

(** the two kinds of arguments the quadrature uses: a radius, and an array of radii *)
Definition computes (ph : phase) (Phi : R -> R -> R) : Prop :=
  (forall x phi, in_disk x -> isok (ph (RNum (Fin x)) (RNum (Fin phi))) (KFloat (Fin (Phi x phi)))) /\
  (forall xs phi, Forall in_disk xs -> xs <> [] -> isok (ph (RArr (map Fin xs)) (RNum (Fin phi))) (KArr (map Fin (map (fun x => Phi x phi) xs)))).
Lemma computes_of ph Phi : computes_gen ph Phi -> computes ph Phi.
Proof.
  intros H. split.
  - intros x phi D. apply (H _ _ [(x, phi)] (fun l => KFloat (Fin (hd 0 l)))); [constructor|]. constructor; [exact D|constructor].
  - intros xs phi D N.
    assert (G := H (RArr (map Fin xs)) (RNum (Fin phi)) (map (fun x => (x, phi)) xs) (fun l => KArr (map Fin l)) (bc_vf _ _ _ (vec_arr xs) N)).
    rewrite Forall_map in G. specialize (G D). cbv beta in G. rewrite !map_map in G. rewrite map_map. exact G.
Qed.

Lemma phase_pol_computes fuel p alpha : okp fuel p -> computes (phase_pol fuel p alpha) (fun x phi => alpha * Zv p x phi).
Proof.
  intros OK. apply computes_of. intros r t pts sh B F. unfold phase_pol. eapply isok_bind; [apply value_isok; eassumption|]. cbv beta.
  eapply isok_ext; [|apply isok_ret]. rewrite (shape_scale r t pts sh); [rewrite map_map; reflexivity|exact B|apply map_length].
Qed.

Lemma phase_tl_ok fuel r t pts sh : broadcast r t pts sh -> Forall (fun q => in_disk (fst q)) pts ->
  forall ps amps w, length amps = length ps -> Forall (okp fuel) ps ->
  isok (phase_pols_tl fuel ps amps r t (sh (map (fun q => w (fst q) (snd q)) pts)))
       (sh (map (fun q => w (fst q) (snd q) + zsum amps ps (fst q) (snd q)) pts)).
Proof.
  intros B F. induction ps as [|[m n] ps IH]; intros [|a amps] w L OK; try discriminate.
  - cbn [phase_pols_tl]. eapply isok_ext; [|apply isok_ret]. f_equal. apply map_ext. intros q. cbn. ring.
  - cbn [phase_pols_tl]. inversion OK as [|? ? O1 OK']; subst. eapply isok_bind; [apply value_isok; eassumption|]. cbv beta.
    eapply isok_bind.
    { apply isok_lift. rewrite (shape_scale r t pts sh) by (try exact B; apply map_length).
      rewrite (shape_add r t pts sh) by (try exact B; rewrite !map_length; reflexivity). rewrite map_map, map2_map. reflexivity. }
    cbv beta. eapply isok_ext; [|apply (IH amps (fun x y => w x y + a * Zv (m, n) x y)); [injection L; auto|exact OK']].
    f_equal. apply map_ext. intros q. cbn [zsum]. unfold Zv. cbn [fst snd]. ring.
Qed.
Lemma phase_pols_computes fuel ps amps : ps <> [] -> length amps = length ps -> Forall (okp fuel) ps ->
  computes (phase_pols fuel ps amps) (fun x phi => zsum amps ps x phi).
Proof.
  intros N L OK. apply computes_of. intros r t pts sh B F. destruct ps as [|[m n] ps]; [elim N; reflexivity|]. destruct amps as [|a amps]; [discriminate|].
  inversion OK as [|? ? O1 OK']; subst. unfold phase_pols. eapply isok_bind; [apply value_isok; eassumption|]. cbv beta.
  rewrite (shape_scale r t pts sh) by (try exact B; apply map_length). rewrite map_map.
  eapply isok_ext; [|apply (phase_tl_ok fuel r t pts sh B F ps amps (fun x y => a * Zv (m, n) x y)); [injection L; auto|exact OK']].
  reflexivity.
Qed.

Section Compute.
Variables (ph : phase) (Phi : R -> R -> R).
Hypothesis HC : computes ph Phi.

Lemma diff_num phi theta r x : in_disk x ->
  isok (diffraction ph phi theta r (RNum (Fin x)) [x]) [field phi theta r x (Phi x phi)].
Proof.
  intros D. unfold diffraction. eapply isok_bind; [apply HC, D|].
  cbv beta. cbn [map hd fst snd cv_list]. eapply isok_bind; [apply isok_lift; reflexivity|apply isok_ret].
Qed.
Lemma diff_arr phi theta r xs : Forall in_disk xs -> xs <> [] ->
  isok (diffraction ph phi theta r (RArr (map Fin xs)) xs) (map (fun x => field phi theta r x (Phi x phi)) xs).
Proof.
  intros D N. unfold diffraction. eapply isok_bind; [apply HC; assumption|].
  cbv beta. cbn [fst snd cv_list]. eapply isok_bind; [apply isok_lift, finite_Fin|]. cbv beta.
  eapply isok_ext; [|apply isok_ret]. rewrite combine_id_map, map_map. reflexivity.
Qed.

Definition re_psi r theta phi p := p * cos (Phi p phi - r * p * cos (phi - theta)).
Definition im_psi r theta phi p := p * sin (Phi p phi - r * p * cos (phi - theta)).
Definition tr rnd n g := trapezoid (rnd (1 / IZR n)) (r_nodes rnd (rnd (1 / IZR n))) g.

Lemma radial_isok rnd n r theta phi : (n <> 0)%Z -> Forall in_disk (r_nodes rnd (rnd (1 / IZR n))) -> r_nodes rnd (rnd (1 / IZR n)) <> [] ->
  isok (radial_integral rnd ph n r theta phi) (tr rnd n (re_psi r theta phi), tr rnd n (im_psi r theta phi)).
Proof.
  intros N D NE. unfold radial_integral. replace (n =? 0)%Z with false by (symmetry; apply Z.eqb_neq; exact N).
  unfold tr. set (h := rnd (1 / IZR n)) in *. set (p := r_nodes rnd h) in *.
  eapply isok_bind; [apply diff_num; unfold in_disk; lra|]. eapply isok_bind; [apply diff_num; unfold in_disk; lra|].
  eapply isok_bind; [apply diff_arr; assumption|]. cbv beta. eapply isok_ext; [|apply isok_ret].
  unfold trapezoid, cscale, cadd. cbn [fst snd csum fold_right cadd field].
  rewrite csum_fst, csum_snd, !rsum_map. unfold re_psi, im_psi. f_equal; f_equal; cbn [field fst snd]; lra.
Qed.

Variables (rnd : R -> R) (n : Z).
Hypothesis Hn : (n <> 0)%Z.
Hypothesis HD : Forall in_disk (r_nodes rnd (rnd (1 / IZR n))).
Hypothesis HN : r_nodes rnd (rnd (1 / IZR n)) <> [].

Lemma accumulate_isok (f : Z -> M cplx) g l : (forall i, In i l -> isok (f i) (g i)) -> forall acc, isok (accumulate f l acc) (cadd acc (csum (map g l))).
Proof.
  induction l as [|i l IH]; intros H acc; cbn [accumulate map csum fold_right].
  - eapply isok_ext; [|apply isok_ret]. unfold cadd. destruct acc. cbn. f_equal; ring.
  - eapply isok_bind; [apply H; left; reflexivity|]. cbv beta. eapply isok_ext; [|apply IH; intros; apply H; right; assumption].
    fold (csum (map g l)). unfold cadd. cbn [fst snd]. f_equal; ring.
Qed.

Lemma simpson_isok nphi r theta ev od :
  ev = csum (map (fun i => (tr rnd n (re_psi r theta (IZR i * (2 * PI / IZR nphi))), tr rnd n (im_psi r theta (IZR i * (2 * PI / IZR nphi))))) (range2 2 (nphi - 2))) ->
  od = csum (map (fun i => (tr rnd n (re_psi r theta (IZR i * (2 * PI / IZR nphi))), tr rnd n (im_psi r theta (IZR i * (2 * PI / IZR nphi))))) (range2 1 (nphi - 1))) ->
  isok (simpson_end rnd ph n r theta (2 * PI / IZR nphi) ev od) (psf_on (rnd (1 / IZR n)) (r_nodes rnd (rnd (1 / IZR n))) nphi Phi r theta).
Proof.
  intros -> ->. unfold simpson_end. eapply isok_bind; [apply radial_isok; assumption|]. eapply isok_bind; [apply radial_isok; assumption|].
  cbv beta. eapply isok_ext; [|apply isok_ret]. rewrite cabs_sq. rewrite range_evens, range_odds. unfold psf_on, angular.
  unfold cscale, cadd. cbn [fst snd]. rewrite !csum_fst, !csum_snd, !rsum_map. cbn [fst snd]. unfold tr, re_psi, im_psi.
  set (h := 2 * PI / IZR nphi). field. apply PI_neq0.
Qed.
Lemma loop_isok nphi r theta : (nphi <> 0)%Z ->
  isok (psf_point_loop rnd ph n nphi r theta) (psf_on (rnd (1 / IZR n)) (r_nodes rnd (rnd (1 / IZR n))) nphi Phi r theta).
Proof.
  intros N. unfold psf_point_loop. replace (nphi =? 0)%Z with false by (symmetry; apply Z.eqb_neq; exact N).
  eapply isok_bind; [apply accumulate_isok; intros i _; apply radial_isok; assumption|].
  eapply isok_bind; [apply accumulate_isok; intros i _; apply radial_isok; assumption|]. cbv beta.
  apply simpson_isok; unfold cadd; cbn [fst snd]; rewrite !Rplus_0_l; symmetry; apply surjective_pairing.
Qed.
Lemma vec_isok nphi r theta ji pj : (nphi <> 0)%Z -> ~ (ji = true /\ pj = OtherJobs) ->
  isok (psf_point_vec rnd ph n nphi r theta ji pj) (psf_on (rnd (1 / IZR n)) (r_nodes rnd (rnd (1 / IZR n))) nphi Phi r theta).
Proof.
  intros N J. unfold psf_point_vec. replace (nphi =? 0)%Z with false by (symmetry; apply Z.eqb_neq; exact N).
  assert (G : isok (run evens <- mapM (fun i => radial_integral rnd ph n r theta (IZR i * (2 * PI / IZR nphi))) (range2 2 (nphi - 2));
        run odds <- mapM (fun i => radial_integral rnd ph n r theta (IZR i * (2 * PI / IZR nphi))) (range2 1 (nphi - 1));
        simpson_end rnd ph n r theta (2 * PI / IZR nphi) (csum evens) (csum odds))
        (psf_on (rnd (1 / IZR n)) (r_nodes rnd (rnd (1 / IZR n))) nphi Phi r theta)).
  { eapply isok_bind; [apply mapM_isok; intros i _; apply radial_isok; assumption|].
    eapply isok_bind; [apply mapM_isok; intros i _; apply radial_isok; assumption|]. cbv beta. apply simpson_isok; reflexivity. }
  destruct ji, pj; try exact G. elim J. split; reflexivity.
Qed.
Lemma by_isok mt nphi r theta : (nphi <> 0)%Z ->
  isok (point_by mt rnd ph n nphi r theta) (psf_on (rnd (1 / IZR n)) (r_nodes rnd (rnd (1 / IZR n))) nphi Phi r theta).
Proof. intros N. destruct mt; cbn [point_by]; [apply loop_isok, N| |]; (apply vec_isok; [exact N|intros [_ H]; discriminate]). Qed.
End Compute.

(** ** exact arithmetic: equidistant nodes *)
Lemma nodes_exact n : (2 <= n)%Z -> r_nodes idr (idr (1 / IZR n)) = inner_nodes n.
Proof.
  intros N. unfold r_nodes, inner_nodes, idr. assert (P : 0 < IZR n) by (apply IZR_lt; lia).
  assert (E : Zceil ((1 - 1 / IZR n) / (1 / IZR n)) = (n - 1)%Z).
  { replace ((1 - 1 / IZR n) / (1 / IZR n)) with (IZR (n - 1)) by (rewrite minus_IZR; field; lra). apply Zceil_IZR. }
  rewrite E. clear E. set (k := Z.to_nat (n - 1)). clearbody k.
  assert (G : forall k s, map (fun i => 1 / IZR n + INR i * (1 / IZR n + 1 / IZR n - 1 / IZR n)) (seq s k) = map (fun i => IZR i / IZR n) (zrange (Z.of_nat s + 1) k)).
  { clear -P. induction k as [|k IH]; intros s; [reflexivity|]. cbn [seq zrange map]. f_equal.
    - rewrite INR_IZR_INZ, plus_IZR. field. lra.
    - rewrite IH. do 2 f_equal. lia. }
  apply (G k 0%nat).
Qed.
Lemma inner_disk n : (2 <= n)%Z -> Forall in_disk (inner_nodes n) /\ inner_nodes n <> [].
Proof.
  intros N. unfold inner_nodes. split.
  - rewrite Forall_map. apply Forall_forall. intros i Hi. unfold in_disk. assert (P : 0 < IZR n) by (apply IZR_lt; lia).
    assert (B : (1 <= i <= n)%Z).
    { assert (G : forall k a x, In x (zrange a k) -> (a <= x < a + Z.of_nat k)%Z).
      { clear. induction k as [|k IH]; intros a x H; [destruct H|]. cbn [zrange In] in H. destruct H as [<-|H]; [lia|]. apply IH in H. lia. }
      apply G in Hi. lia. }
    split; [apply Rmult_le_pos; [apply IZR_le; lia|apply Rlt_le, Rinv_0_lt_compat, P]|].
    apply (Rmult_le_reg_r (IZR n)); [exact P|]. unfold Rdiv. rewrite Rmult_assoc, Rinv_l, Rmult_1_r, Rmult_1_l by lra. apply IZR_le. lia.
  - intros H. apply (f_equal (@length R)) in H. rewrite map_length, zrange_len in H. cbn in H. lia.
Qed.

(** ** weights *)
Definition nonneg_w (h : R) (nodes : list R) (n : Z) : Prop := 0 <= h /\ Forall (fun x => 0 <= x) nodes /\ (0 < n)%Z.

Lemma trapezoid_ext h l f g : f 0 = g 0 -> f 1 = g 1 -> (forall x, In x l -> f x = g x) -> trapezoid h l f = trapezoid h l g.
Proof. intros A B C. unfold trapezoid. rewrite (rsum_ext l f g C), A, B. reflexivity. Qed.
Lemma trapezoid_lin h l a b f g : trapezoid h l (fun x => a * f x + b * g x) = a * trapezoid h l f + b * trapezoid h l g.
Proof. unfold trapezoid. rewrite rsum_plus, !rsum_scal. field. Qed.
Lemma angular_lin n a b f g : angular n (fun x => a * f x + b * g x) = a * angular n f + b * angular n g.
Proof. unfold angular. rewrite !rsum_plus, !rsum_scal. set (h := 2 * PI / IZR n). field. Qed.
Lemma angular_ext n f g : (forall x, f x = g x) -> angular n f = angular n g.
Proof. intros H. unfold angular. rewrite (H 0), (H (2 * PI)), (rsum_ext _ _ (fun i => g (IZR i * (2 * PI / IZR n)))), (rsum_ext (odds n) _ (fun i => g (IZR i * (2 * PI / IZR n)))) by (intros; apply H). reflexivity. Qed.
Lemma trapezoid_le h l f g : 0 <= h -> f 0 <= g 0 -> f 1 <= g 1 -> (forall x, In x l -> f x <= g x) -> trapezoid h l f <= trapezoid h l g.
Proof. intros H A B C. unfold trapezoid. apply Rmult_le_compat_l; [exact H|]. assert (D := rsum_le l f g C). lra. Qed.
Lemma angular_le n f g : (0 < n)%Z -> (forall x, f x <= g x) -> angular n f <= angular n g.
Proof.
  intros N H. unfold angular. assert (P : 0 < IZR n) by (apply IZR_lt; lia). assert (P' := PI_RGT_0).
  set (h := 2 * PI / IZR n). assert (Hh : 0 < h) by (unfold h; apply Rdiv_lt_0_compat; lra).
  apply Rmult_le_compat_l; [lra|].
  assert (A := rsum_le (evens n) (fun i => f (IZR i * h)) (fun i => g (IZR i * h)) (fun i _ => H _)).
  assert (B := rsum_le (odds n) (fun i => f (IZR i * h)) (fun i => g (IZR i * h)) (fun i _ => H _)).
  assert (C := H 0). assert (D := H (2 * PI)). lra.
Qed.

(** total weight of the angular rule *)
Lemma angular_weight n : (3 <= n)%Z -> angular n (fun _ => 1) = 2 * PI * (IZR (if Z.even n then n - 2 else n - 1) / IZR n).
Proof.
  intros N. unfold angular. rewrite !rsum_const. rewrite <- range_evens, <- range_odds, !range2_len, !INR_IZR_INZ, !Z2Nat.id.
  2:{ apply Z.div_pos; lia. } 2:{ apply Z.div_pos; lia. }
  assert (P : 0 < IZR n) by (apply IZR_lt; lia).
  destruct (Z.even n) eqn:E.
  - apply Z.even_spec in E. destruct E as [k ->].
    replace ((2 * k - 2 - 2 + 1) / 2)%Z with (k - 2)%Z by (apply (Z.div_unique _ _ _ 1); lia).
    replace ((2 * k - 1 - 1 + 1) / 2)%Z with (k - 1)%Z by (apply (Z.div_unique _ _ _ 1); lia).
    rewrite !minus_IZR, !mult_IZR in *. field. lra.
  - assert (O : Z.odd n = true) by (rewrite <- Z.negb_even, E; reflexivity). apply Z.odd_spec in O. destruct O as [k ->].
    replace ((2 * k + 1 - 2 - 2 + 1) / 2)%Z with (k - 1)%Z by (apply (Z.div_unique _ _ _ 0); lia).
    replace ((2 * k + 1 - 1 - 1 + 1) / 2)%Z with k by (apply (Z.div_unique _ _ _ 0); lia).
    rewrite !minus_IZR, !plus_IZR, !mult_IZR in *. field. lra.
Qed.
(** the trapezoidal rule integrates p exactly *)
Lemma sum_range (n : Z) k : rsum (zrange 1 k) (fun i => IZR i) = INR k * (INR k + 1) / 2.
Proof.
  assert (G : forall k a, rsum (zrange a k) (fun i => IZR i) = INR k * IZR a + INR k * (INR k - 1) / 2).
  { clear. induction k as [|k IH]; intros a; [cbn; field|]. cbn [zrange]. rewrite rsum_cons, IH, S_INR, plus_IZR. field. }
  rewrite G. field.
Qed.
Lemma trapezoid_p n : (1 <= n)%Z -> trapezoid (1 / IZR n) (inner_nodes n) (fun p => p) = 1 / 2.
Proof.
  intros N. assert (P : 0 < IZR n) by (apply IZR_lt; lia). unfold trapezoid, inner_nodes. rewrite rsum_map.
  rewrite (rsum_ext _ _ (fun i => / IZR n * IZR i)) by (intros; unfold Rdiv; ring). rewrite rsum_scal, (sum_range n).
  rewrite INR_IZR_INZ, Z2Nat.id by lia. rewrite minus_IZR. field. lra.
Qed.

(** ** |sum w e^{i psi}| <= sum w *)
Lemma unit_bound a b : exists c s, c * c + s * s = 1 /\ sqrt (a * a + b * b) = c * a + s * b.
Proof.
  destruct (Req_dec (a * a + b * b) 0) as [E|E].
  - exists 1, 0. rewrite E, sqrt_0. split; [ring|]. assert (a = 0) by nra. subst. ring.
  - assert (P : 0 < a * a + b * b) by nra. set (q := sqrt (a * a + b * b)). assert (Q : 0 < q) by (apply sqrt_lt_R0, P).
    assert (QQ : q * q = a * a + b * b) by (apply sqrt_sqrt; lra).
    exists (a / q), (b / q). split.
    + apply (Rmult_eq_reg_r (q * q)); [|nra]. field_simplify; [|lra]. simpl. lra.
    + apply (Rmult_eq_reg_r q); [|lra]. field_simplify; [|lra]. simpl. lra.
Qed.

Section Bound.
Variables (h : R) (nodes : list R) (nphi : Z).
Hypothesis W : nonneg_w h nodes nphi.
Definition total := angular nphi (fun _ => trapezoid h nodes (fun p => p)).

Lemma quad_bound (f : R -> R -> R) (c s : R) psi : c * c + s * s = 1 ->
  c * angular nphi (fun phi => trapezoid h nodes (fun p => p * cos (psi p phi))) +
  s * angular nphi (fun phi => trapezoid h nodes (fun p => p * sin (psi p phi))) <= total.
Proof.
  intros CS. destruct W as (Hh & HN & Hn). rewrite <- angular_lin. unfold total. apply angular_le; [exact Hn|]. intros phi.
  rewrite <- trapezoid_lin.
  assert (K : forall x, 0 <= x -> c * (x * cos (psi x phi)) + s * (x * sin (psi x phi)) <= x).
  { intros x Hx. assert (E := sin2_cos2 (psi x phi)). unfold Rsqr in E. set (u := cos _) in *. set (v := sin _) in *.
    assert (B : c * u + s * v <= 1).
    { assert (Q : (c * u + s * v) * (c * u + s * v) <= 1).
      { pose proof (Rle_0_sqr (c * v - s * u)) as DD. unfold Rsqr in DD.
        assert (EE : (c * u + s * v) * (c * u + s * v) + (c * v - s * u) * (c * v - s * u) = (c * c + s * s) * (v * v + u * u)) by ring.
        rewrite CS, E in EE. lra. }
      nra. }
    nra. }
  apply trapezoid_le; [exact Hh|apply K; lra|apply K; lra|]. intros x Hx. apply K. rewrite Forall_forall in HN. apply HN, Hx.
Qed.
Lemma psf_on_bound Phi r theta : 0 <= psf_on h nodes nphi Phi r theta <= (total / PI) * (total / PI).
Proof.
  unfold psf_on. cbv zeta. set (psi := fun p phi => Phi p phi - r * p * cos (phi - theta)).
  set (a := angular nphi (fun phi => trapezoid h nodes (fun p => p * cos (Phi p phi - r * p * cos (phi - theta))))).
  set (b := angular nphi (fun phi => trapezoid h nodes (fun p => p * sin (Phi p phi - r * p * cos (phi - theta))))).
  assert (PP := PI_RGT_0). assert (PP2 : 0 < PI * PI) by nra. split.
  - apply Rmult_le_pos; [nra|apply Rlt_le, Rinv_0_lt_compat, PP2].
  - destruct (unit_bound a b) as (c & s & CS & E). assert (B := quad_bound (fun _ _ => 0) c s psi CS). change (c * a + s * b <= total) in B. rewrite <- E in B.
    assert (Q : sqrt (a * a + b * b) * sqrt (a * a + b * b) = a * a + b * b) by (apply sqrt_sqrt; nra).
    assert (Q0 := sqrt_pos (a * a + b * b)).
    replace (total / PI * (total / PI)) with (total * total / (PI * PI)) by (field; lra).
    apply Rmult_le_compat_r; [apply Rlt_le, Rinv_0_lt_compat, PP2|]. nra.
Qed.
(** the bound is attained when the phase vanishes *)
Lemma psf_on_focus Phi theta : (forall p phi, Phi p phi = 0) -> psf_on h nodes nphi Phi 0 theta = (total / PI) * (total / PI).
Proof.
  intros Z. unfold psf_on.
  rewrite (angular_ext nphi _ (fun _ => trapezoid h nodes (fun p => p))).
  2:{ intros phi. apply trapezoid_ext; intros; rewrite ?Z; replace (0 - 0 * _ * _) with 0 by ring; rewrite cos_0; ring. }
  rewrite (angular_ext nphi (fun phi => trapezoid h nodes (fun p => p * sin _)) (fun _ => 0 * 0 + 0 * 0)).
  2:{ intros phi. transitivity (trapezoid h nodes (fun p => 0 * p + 0 * p)); [|rewrite trapezoid_lin; ring].
      apply trapezoid_ext; intros; rewrite ?Z; replace (0 - 0 * _ * _) with 0 by ring; rewrite sin_0; ring. }
  rewrite angular_lin. fold total. field. apply PI_neq0.
Qed.
End Bound.
Lemma total_exact n nphi : (1 <= n)%Z -> (3 <= nphi)%Z ->
  total (1 / IZR n) (inner_nodes n) nphi / PI = IZR (if Z.even nphi then nphi - 2 else nphi - 1) / IZR nphi.
Proof.
  intros N NP. unfold total. rewrite trapezoid_p by exact N.
  rewrite (angular_ext nphi _ (fun _ => 1 / 2 * 1 + 0 * 1)) by (intros; ring). rewrite angular_lin, angular_weight by exact NP.
  assert (P : 0 < IZR nphi) by (apply IZR_lt; lia). field. split; [lra|apply PI_neq0].
Qed.

(** ** symmetries *)
Lemma angular_rot n c s (f g : R -> R) (u v : R -> R) : c * c + s * s = 1 ->
  (forall x, u x = c * f x + - s * g x) -> (forall x, v x = s * f x + c * g x) ->
  angular n u * angular n u + angular n v * angular n v = angular n f * angular n f + angular n g * angular n g.
Proof.
  intros CS U V. rewrite (angular_ext n u _ U), (angular_ext n v _ V), !angular_lin.
  replace (angular n f * angular n f + angular n g * angular n g) with ((c * c + s * s) * (angular n f * angular n f + angular n g * angular n g)) by (rewrite CS; ring). ring.
Qed.
Lemma psf_on_shift h nodes n Phi Phi' c r theta : (forall p phi, Phi' p phi = Phi p phi + c) ->
  psf_on h nodes n Phi' r theta = psf_on h nodes n Phi r theta.
Proof.
  intros H. unfold psf_on. f_equal. apply (angular_rot n (cos c) (sin c)).
  - assert (E := sin2_cos2 c). unfold Rsqr in E. lra.
  - intros phi. rewrite <- trapezoid_lin.
    assert (K : forall x, x * cos (Phi' x phi - r * x * cos (phi - theta)) = cos c * (x * cos (Phi x phi - r * x * cos (phi - theta))) + - sin c * (x * sin (Phi x phi - r * x * cos (phi - theta)))).
    { intros x. rewrite H. replace (Phi x phi + c - r * x * cos (phi - theta)) with ((Phi x phi - r * x * cos (phi - theta)) + c) by ring. rewrite cos_plus. ring. }
    apply trapezoid_ext; intros; apply K.
  - intros phi. rewrite <- trapezoid_lin.
    assert (K : forall x, x * sin (Phi' x phi - r * x * cos (phi - theta)) = sin c * (x * cos (Phi x phi - r * x * cos (phi - theta))) + cos c * (x * sin (Phi x phi - r * x * cos (phi - theta)))).
    { intros x. rewrite H. replace (Phi x phi + c - r * x * cos (phi - theta)) with ((Phi x phi - r * x * cos (phi - theta)) + c) by ring. rewrite sin_plus. ring. }
    apply trapezoid_ext; intros; apply K.
Qed.
Lemma psf_on_ext h nodes n Phi Phi' r theta theta' : (forall p phi, Phi' p phi = Phi p phi) ->
  (forall phi, r * cos (phi - theta') = r * cos (phi - theta)) -> psf_on h nodes n Phi' r theta' = psf_on h nodes n Phi r theta.
Proof.
  intros H C. unfold psf_on.
  assert (K : forall phi x, Phi' x phi - r * x * cos (phi - theta') = Phi x phi - r * x * cos (phi - theta)).
  { intros phi x. rewrite H. assert (E := C phi). replace (r * x * cos (phi - theta')) with (x * (r * cos (phi - theta'))) by ring. rewrite E. ring. }
  f_equal. f_equal; f_equal; apply angular_ext; intros phi; apply trapezoid_ext; intros; rewrite K; reflexivity.
Qed.
Lemma psf_on_neg h nodes n Phi Phi' r theta theta' : (forall p phi, Phi' p phi = - Phi p phi) ->
  (forall phi, r * cos (phi - theta') = - (r * cos (phi - theta))) -> psf_on h nodes n Phi' r theta' = psf_on h nodes n Phi r theta.
Proof.
  intros H C. unfold psf_on.
  assert (K : forall phi x, Phi' x phi - r * x * cos (phi - theta') = - (Phi x phi - r * x * cos (phi - theta))).
  { intros phi x. rewrite H. assert (E := C phi). replace (r * x * cos (phi - theta')) with (x * (r * cos (phi - theta'))) by ring. rewrite E. ring. }
  f_equal.
  assert (A : angular n (fun phi => trapezoid h nodes (fun p => p * cos (Phi' p phi - r * p * cos (phi - theta')))) =
              angular n (fun phi => trapezoid h nodes (fun p => p * cos (Phi p phi - r * p * cos (phi - theta))))).
  { apply angular_ext. intros phi. apply trapezoid_ext; intros; rewrite K, cos_neg; reflexivity. }
  assert (B : angular n (fun phi => trapezoid h nodes (fun p => p * sin (Phi' p phi - r * p * cos (phi - theta')))) =
              - angular n (fun phi => trapezoid h nodes (fun p => p * sin (Phi p phi - r * p * cos (phi - theta))))).
  { transitivity (-1 * angular n (fun phi => trapezoid h nodes (fun p => p * sin (Phi p phi - r * p * cos (phi - theta)))) + 0 * angular n (fun phi => 0)); [|ring].
    rewrite <- angular_lin. apply angular_ext. intros phi.
    transitivity (-1 * trapezoid h nodes (fun p => p * sin (Phi p phi - r * p * cos (phi - theta))) + 0 * trapezoid h nodes (fun p => 0)); [|ring].
    rewrite <- trapezoid_lin. apply trapezoid_ext; intros; rewrite K, sin_neg; ring. }
  rewrite A, B. ring.
Qed.
