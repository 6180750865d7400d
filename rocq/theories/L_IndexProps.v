(** Final forms of the index and constructor properties (C01-C10, C25, C48). *)
From Verif Require Import Py SpecIndex M_Index L_Index SpecInit M_Init L_Init.
Local Open Scope string_scope.
Local Open Scope Z_scope.
Ltac Zify.zify_post_hook ::= Z.div_mod_to_equations.

Lemma i2o_osa v z : as_int v = Some z -> 0 <= z <= 1595 ->
  exists m n, valid m n /\ n <= 55 /\ get_osa_index m n = z /\ index2orders [("osa_index", v)] = Ok (m, n).
Proof.
  intros Hv Hz. destruct (osa_surj z ltac:(lia)) as (m & n & V & E).
  assert (n < 56).
  { apply (osa_range m n 56 V ltac:(lia)). replace (56 * (56 + 1) / 2) with 1596 by reflexivity. lia. }
  exists m, n. split; [exact V|split; [lia|split; [exact E|]]].
  apply (index2orders_hit OSA v z m n Hv V); [simpl; lia|exact E].
Qed.

Lemma i2o_noll v z : as_int v = Some z -> 1 <= z <= 1596 ->
  exists m n, valid m n /\ n <= 55 /\ get_noll_index m n = z /\ index2orders [("noll_index", v)] = Ok (m, n).
Proof.
  intros Hv Hz. destruct (noll_surj z ltac:(lia)) as (m & n & V & E).
  assert (n < 56).
  { apply (noll_range m n 56 V ltac:(lia)). replace (56 * (56 + 1) / 2) with 1596 by reflexivity. lia. }
  exists m, n. split; [exact V|split; [lia|split; [exact E|]]].
  apply (index2orders_hit NOLL v z m n Hv V); [simpl; lia|exact E].
Qed.

Lemma i2o_fringe v m n : valid m n -> n <= 249 -> as_int v = Some (get_fringe_index m n) ->
  index2orders [("fringe_index", v)] = Ok (m, n).
Proof.
  intros V B Hv. apply (index2orders_hit FRINGE v _ m n Hv V); [simpl; lia|reflexivity].
Qed.

(** all fringe indices up to 15876 = (1+125)^2 have n <= 249 *)
Lemma fringe_low m n : valid m n -> get_fringe_index m n <= 15876 -> n <= 249 \/ (n = 250 /\ m = 0).
Proof.
  intros V B. destruct (fringe_split m n V) as (a & Ha & La & E). rewrite E, Z.pow_2_r in B.
  destruct V as (Hn & Hm & _).
  destruct (Z.le_gt_cases n 249); [auto|]. right.
  destruct (Z.eqb_spec m 0), (Z.ltb_spec 0 m); nia.
Qed.

(** the fall-through value of the search *)
Lemma i2o_osa_miss v z : as_int v = Some z -> z < 0 \/ 1595 < z ->
  index2orders [("osa_index", v)] = Ok (57, 55).
Proof.
  intros Hv Hz. apply (index2orders_miss OSA v z Hv). simpl. intros m n V B E.
  pose proof (osa_nonneg _ _ V).
  pose proof (proj1 (osa_range m n 56 V ltac:(lia)) B) as R.
  replace (56 * (56 + 1) / 2) with 1596 in R by reflexivity. lia.
Qed.
Lemma i2o_noll_miss v z : as_int v = Some z -> z < 1 \/ 1596 < z ->
  index2orders [("noll_index", v)] = Ok (57, 55).
Proof.
  intros Hv Hz. apply (index2orders_miss NOLL v z Hv). simpl. intros m n V B E.
  pose proof (noll_pos _ _ V).
  pose proof (proj1 (noll_range m n 56 V ltac:(lia)) B) as R.
  replace (56 * (56 + 1) / 2) with 1596 in R by reflexivity. lia.
Qed.
Lemma i2o_fringe_miss v z : as_int v = Some z ->
  (forall m n, valid m n -> n <= 249 -> get_fringe_index m n <> z) ->
  index2orders [("fringe_index", v)] = Ok (251, 249).
Proof.
  intros Hv HN. apply (index2orders_miss FRINGE v z Hv). simpl. intros m n V B E.
  apply (HN m n V); [lia|exact E].
Qed.

(** conversions *)
Lemma osa2noll_ok m n : valid m n -> n <= 55 ->
  osa2noll (PInt (get_osa_index m n)) = Ok (PInt (get_noll_index m n)).
Proof.
  intros V B. unfold osa2noll. cbn [as_int]. destruct (Z.leb_spec 0 (get_osa_index m n)).
  - change "osa_index" with (conv_key OSA).
    rewrite (index2orders_hit OSA (PInt (get_osa_index m n)) (get_osa_index m n) m n eq_refl V); [reflexivity|simpl; lia|reflexivity].
  - pose proof (osa_nonneg _ _ V). lia.
Qed.
Lemma noll2osa_ok m n : valid m n -> n <= 55 ->
  noll2osa (PInt (get_noll_index m n)) = Ok (PInt (get_osa_index m n)).
Proof.
  intros V B. unfold noll2osa. cbn [as_int]. destruct (Z.leb_spec 1 (get_noll_index m n)).
  - change "noll_index" with (conv_key NOLL).
    rewrite (index2orders_hit NOLL (PInt (get_noll_index m n)) (get_noll_index m n) m n eq_refl V); [reflexivity|simpl; lia|reflexivity].
  - pose proof (noll_pos _ _ V). lia.
Qed.
Lemma osa2fringe_ok m n : valid m n -> n <= 55 ->
  osa2fringe (PInt (get_osa_index m n)) = Ok (PNpInt (get_fringe_index m n)).
Proof.
  intros V B. unfold osa2fringe. cbn [as_int]. destruct (Z.leb_spec 0 (get_osa_index m n)).
  - change "osa_index" with (conv_key OSA).
    rewrite (index2orders_hit OSA (PInt (get_osa_index m n)) (get_osa_index m n) m n eq_refl V); [reflexivity|simpl; lia|reflexivity].
  - pose proof (osa_nonneg _ _ V). lia.
Qed.
Lemma fringe2osa_ok m n : valid m n -> n <= 249 ->
  fringe2osa (PInt (get_fringe_index m n)) = Ok (PInt (get_osa_index m n)).
Proof.
  intros V B. unfold fringe2osa. cbn [as_int]. destruct (Z.leb_spec 1 (get_fringe_index m n)).
  - change "fringe_index" with (conv_key FRINGE).
    rewrite (index2orders_hit FRINGE (PInt (get_fringe_index m n)) (get_fringe_index m n) m n eq_refl V); [reflexivity|simpl; lia|reflexivity].
  - pose proof (fringe_pos _ _ V). lia.
Qed.

Lemma osa_noll_osa j : 0 <= j <= 1595 ->
  (do x <- osa2noll (PInt j); noll2osa x) = Ok (PInt j).
Proof.
  intros H. destruct (i2o_osa (PInt j) j eq_refl H) as (m & n & V & B & E & _).
  rewrite <- E, osa2noll_ok by assumption. cbn [bind]. apply noll2osa_ok; assumption.
Qed.
Lemma noll_osa_noll j : 1 <= j <= 1596 ->
  (do x <- noll2osa (PInt j); osa2noll x) = Ok (PInt j).
Proof.
  intros H. destruct (i2o_noll (PInt j) j eq_refl H) as (m & n & V & B & E & _).
  rewrite <- E, noll2osa_ok by assumption. cbn [bind]. apply osa2noll_ok; assumption.
Qed.

Lemma osa_fringe_osa j : 0 <= j <= 1595 ->
  (do x <- osa2fringe (PInt j); fringe2osa (py_int x)) = Ok (PInt j).
Proof.
  intros H. destruct (i2o_osa (PInt j) j eq_refl H) as (m & n & V & B & E & _).
  rewrite <- E, osa2fringe_ok by assumption. cbn [bind py_int]. apply fringe2osa_ok; [assumption|lia].
Qed.
Lemma fringe_osa_fringe m n : valid m n -> n <= 55 ->
  (do x <- fringe2osa (PInt (get_fringe_index m n)); osa2fringe x) = Ok (PNpInt (get_fringe_index m n)).
Proof.
  intros V B. rewrite fringe2osa_ok by (assumption || lia). cbn [bind]. apply osa2fringe_ok; assumption.
Qed.
Lemma osa_fringe_literal v : (do x <- osa2fringe v; fringe2osa x) = Raise ValueError.
Proof.
  unfold osa2fringe. destruct (as_int v) as [z|] eqn:E; [|reflexivity].
  destruct (0 <=? z); [|reflexivity].
  destruct (index2orders_total OSA v z E) as [(m & n & _ & _ & _ & R)|[_ R]];
  cbn [conv_key] in R; rewrite R; reflexivity.
Qed.

(** wrong answers beyond the search range *)
Lemma osa2noll_beyond j : 1596 <= j -> osa2noll (PInt j) = Ok (PInt (get_noll_index 57 55)).
Proof.
  intros H. unfold osa2noll. cbn [as_int]. destruct (Z.leb_spec 0 j); [|lia].
  rewrite (i2o_osa_miss (PInt j) j) by (reflexivity || lia). reflexivity.
Qed.
Lemma noll2osa_beyond j : 1597 <= j -> noll2osa (PInt j) = Ok (PInt (get_osa_index 57 55)).
Proof.
  intros H. unfold noll2osa. cbn [as_int]. destruct (Z.leb_spec 1 j); [|lia].
  rewrite (i2o_noll_miss (PInt j) j) by (reflexivity || lia). reflexivity.
Qed.
Lemma osa2fringe_beyond j : 1596 <= j -> osa2fringe (PInt j) = Ok (PNpInt (get_fringe_index 57 55)).
Proof.
  intros H. unfold osa2fringe. cbn [as_int]. destruct (Z.leb_spec 0 j); [|lia].
  rewrite (i2o_osa_miss (PInt j) j) by (reflexivity || lia). reflexivity.
Qed.

(** constructor *)
Lemma init_accepts_iff kw :
  ((exists p, zernpol_init kw = Ok p) <-> (exists m n, denotes kw m n /\ code_accepts m n)) /\
  (forall e, zernpol_init kw = Raise e -> e = ValueError).
Proof.
  destruct (init_char kw) as [(m & n & D & A & R)|[HN R]]; rewrite R; split.
  - split; intros _; eauto.
  - discriminate.
  - split; [intros [p [=]]|]. intros (m & n & D & A). exfalso. apply (HN m n D A).
  - intros e [= <-]. reflexivity.
Qed.

Lemma accepts_supported m n : code_accepts m n -> Z.abs m <= n -> supported m n.
Proof. intros (A & B & C) D. split; [split; [lia|split; [lia|exact B]]|lia]. Qed.

Lemma init_full_when_bounded kw :
  (forall m n, denotes kw m n -> Z.abs m <= n) ->
  ((exists p, zernpol_init kw = Ok p) <-> (exists m n, denotes kw m n /\ supported m n)).
Proof.
  intros HB. rewrite (proj1 (init_accepts_iff kw)). split; intros (m & n & D & A); exists m, n; split; auto.
  - apply accepts_supported; auto.
  - apply supported_accepts; auto.
Qed.

Lemma init_same kw m n : denotes kw m n -> supported m n ->
  exists p, zernpol_init kw = Ok p /\ get_mn_orders p = (m, n) /\
    get_indices p = ((m, n), get_osa_index m n, get_noll_index m n, get_fringe_index m n).
Proof.
  intros D S. exists (obj m n). split; [apply init_denotes; [exact D|apply supported_accepts, S]|].
  split; reflexivity.
Qed.

Lemma good_obj p : good p -> p = obj (zp_m p) (zp_n p) /\ supported (zp_m p) (zp_n p).
Proof.
  intros [[kw H] V]. destruct (init_ok_inv _ _ H) as (m & n & D & A & ->).
  split; [reflexivity|]. split; [exact V|apply A].
Qed.

Lemma eq_iff a b : (exists kw, zernpol_init kw = Ok a) -> (exists kw, zernpol_init kw = Ok b) ->
  (zp_eq a (Some b) = Ok true <-> get_mn_orders a = get_mn_orders b).
Proof.
  intros [ka Ha] [kb Hb].
  destruct (init_ok_inv _ _ Ha) as (m & n & _ & _ & ->).
  destruct (init_ok_inv _ _ Hb) as (m' & n' & _ & _ & ->).
  unfold zp_eq, get_mn_orders, obj; cbn [zp_m zp_n zp_osa zp_noll zp_fringe]. split.
  - intros [= E]. repeat (apply andb_true_iff in E; destruct E as [E ?]).
    f_equal; lia.
  - intros [= -> ->]. rewrite !Z.eqb_refl. reflexivity.
Qed.

Lemma trichotomy a b : good a -> good b ->
  (zp_lt a b = Ok true /\ zp_eq a (Some b) = Ok false /\ zp_gt a (Some b) = Ok false) \/
  (zp_lt a b = Ok false /\ zp_eq a (Some b) = Ok true /\ zp_gt a (Some b) = Ok false) \/
  (zp_lt a b = Ok false /\ zp_eq a (Some b) = Ok false /\ zp_gt a (Some b) = Ok true).
Proof.
  intros Ga Gb. pose proof (eq_iff a b (proj1 Ga) (proj1 Gb)) as EQ.
  destruct (good_obj a Ga) as [Ea Sa]. destruct (good_obj b Gb) as [Eb Sb].
  assert (OE : zp_osa a = zp_osa b -> get_mn_orders a = get_mn_orders b).
  { rewrite Ea, Eb. unfold obj, get_mn_orders. cbn [zp_m zp_n zp_osa]. intros E.
    destruct (proj1 (proj2 osa_numbering) _ _ _ _ (proj1 Sa) (proj1 Sb) E) as [-> ->]. reflexivity. }
  assert (EE : exists x, zp_eq a (Some b) = Ok x) by (eexists; reflexivity).
  destruct EE as [x EE].
  unfold zp_lt, zp_gt in *. destruct (Z.lt_total (zp_osa a) (zp_osa b)) as [L|[L|L]].
  - left. split; [f_equal; lia|]. split; [|f_equal; lia]. rewrite EE in *. destruct x; [|reflexivity].
    exfalso. assert (F : get_mn_orders a = get_mn_orders b) by (apply EQ; reflexivity).
    rewrite Ea, Eb in F, L. unfold obj, get_mn_orders in F, L. cbn [zp_m zp_n zp_osa] in F, L.
    inversion F as [[F1 F2]]. rewrite F1, F2 in L. lia.
  - right; left. split; [f_equal; lia|]. split; [|f_equal; lia]. apply EQ, OE, L.
  - right; right. split; [f_equal; lia|]. split; [|f_equal; lia]. rewrite EE in *. destruct x; [|reflexivity].
    exfalso. assert (F : get_mn_orders a = get_mn_orders b) by (apply EQ; reflexivity).
    rewrite Ea, Eb in F, L. unfold obj, get_mn_orders in F, L. cbn [zp_m zp_n zp_osa] in F, L.
    inversion F as [[F1 F2]]. rewrite F1, F2 in L. lia.
Qed.

Lemma lt_trans a b c : zp_lt a b = Ok true -> zp_lt b c = Ok true -> zp_lt a c = Ok true.
Proof. unfold zp_lt, zp_gt. intros [= A] [= B]. f_equal. lia. Qed.

(** generate_polynomials *)
Lemma gen_pols_spec N : 0 <= N <= 54 ->
  exists l, generate_polynomials N = Ok l /\
    2 * Z.of_nat (length l) = (N + 1) * (N + 2) /\
    (forall i, (i < length l)%nat -> exists p, nth_error l i = Some p /\ zp_osa p = Z.of_nat i /\
        valid (zp_m p) (zp_n p) /\ zp_n p <= N /\ get_osa_index (zp_m p) (zp_n p) = Z.of_nat i) /\
    (forall m n, valid m n -> n <= N -> exists i, nth_error l i = Some (obj m n)).
Proof.
  intros H. exists (flat_map row_objs (zrange 0 (Z.to_nat (N + 1)))). split; [apply gen_pols_ok, H|].
  destruct (pyramid_nth (Z.to_nat (N + 1)) 0 ltac:(lia)) as [L A].
  set (l := flat_map row_objs (zrange 0 (Z.to_nat (N + 1)))) in *. clearbody l.
  replace (0 + Z.of_nat (Z.to_nat (N + 1))) with (N + 1) in * by lia.
  change (0 * (0 + 1) / 2) with 0 in *.
  pose proof (tri_double (N + 1)) as T. assert (0 <= (N + 1) * (N + 1 + 1) / 2) by nia.
  assert (LL : Z.of_nat (length l) = (N + 1) * (N + 1 + 1) / 2) by lia.
  split; [lia|]. split.
  - intros i Hi. destruct (A i Hi) as (m & n & E & V & B & O). exists (obj m n).
    cbn [obj zp_m zp_n zp_osa]. split; [exact E|]. split; [lia|split; [exact V|split; lia]].
  - intros m n V B. pose proof (osa_nonneg _ _ V).
    pose proof (proj1 (osa_range m n (N + 1) V ltac:(lia)) ltac:(lia)).
    exists (Z.to_nat (get_osa_index m n)).
    destruct (A (Z.to_nat (get_osa_index m n)) ltac:(lia)) as (m' & n' & E & V' & B' & O).
    rewrite E. do 2 f_equal; destruct (proj1 (proj2 osa_numbering) m' n' m n V' V); lia.
Qed.

(** names *)
Lemma names_inj short m n m' n' p p' :
  p = obj m n -> p' = obj m' n' ->
  get_polynomial_name p short = get_polynomial_name p' short ->
  get_polynomial_name p short <> "" -> m = m' /\ n = n'.
Proof.
  intros -> ->. unfold get_polynomial_name, obj. cbn [zp_m zp_n].
  set (tbl := if short then short_polynomial_names else polynomial_names).
  assert (U : forall a b a' b' s, name_lookup tbl a b = Some s -> name_lookup tbl a' b' = Some s -> a = a' /\ b = b').
  { assert (LK : forall t a b s, name_lookup t a b = Some s -> In ((a, b), s) t).
    { induction t as [|[[x y] s'] t IH]; simpl; [discriminate|]. intros a b s.
      destruct ((x =? a) && (y =? b)) eqn:E; [|auto]. intros [= <-]. left.
      apply andb_true_iff in E. f_equal. f_equal; lia. }
    assert (ND : forall x y, In x tbl -> In y tbl -> snd x = snd y -> x = y).
    { assert (CK : forallb (fun x => forallb (fun y => negb (String.eqb (snd x) (snd y)) ||
           ((fst (fst x) =? fst (fst y)) && (snd (fst x) =? snd (fst y)))) tbl) tbl = true)
        by (subst tbl; destruct short; vm_compute; reflexivity).
      intros x y Hx Hy E. rewrite forallb_forall in CK. specialize (CK x Hx).
      rewrite forallb_forall in CK. specialize (CK y Hy). rewrite E, String.eqb_refl in CK. cbn [negb orb] in CK.
      apply andb_true_iff in CK. destruct x as [[x1 x2] s], y as [[y1 y2] s']. simpl in *. f_equal; [|exact E]. f_equal; lia. }
    intros a b a' b' s H1 H2. apply LK in H1, H2. specialize (ND _ _ H1 H2 eq_refl). inv ND. auto. }
  intros E NE. destruct (name_lookup tbl m n) as [s|] eqn:L1; [|congruence].
  destruct (name_lookup tbl m' n') as [s'|] eqn:L2; [subst s'; eapply U; eauto|congruence].
Qed.

Lemma names_present short m n : valid m n ->
  (get_polynomial_name (obj m n) short <> "" <-> n <= 7).
Proof.
  intros V. unfold get_polynomial_name, obj. cbn [zp_m zp_n].
  split.
  - assert (LK : forall t a b s, name_lookup t a b = Some s -> In ((a, b), s) t).
    { induction t as [|[[x y] s'] t IH]; simpl; [discriminate|]. intros a b s.
      destruct ((x =? a) && (y =? b)) eqn:E; [|auto]. intros [= <-]. left.
      apply andb_true_iff in E. f_equal. f_equal; lia. }
    destruct (name_lookup _ m n) as [s|] eqn:L; [|congruence]. intros _. apply LK in L.
    assert (CK : forallb (fun x => snd (fst x) <=? 7) (if short then short_polynomial_names else polynomial_names) = true)
      by (destruct short; vm_compute; reflexivity).
    rewrite forallb_forall in CK. specialize (CK _ L). simpl in CK. lia.
  - intros B.
    assert (R : (exists i, (i < Z.to_nat (n + 1))%nat /\ m = - n + 2 * Z.of_nat i)) by (apply row_pos; [apply V|exact V]).
    destruct R as (i & Hi & ->).
    assert (C : n = 0 \/ n = 1 \/ n = 2 \/ n = 3 \/ n = 4 \/ n = 5 \/ n = 6 \/ n = 7) by (destruct V; lia).
    destruct C as [->|[->|[->|[->|[->|[->|[->| ->]]]]]]];
    do 8 (destruct i as [|i]; [first [exfalso; clear -Hi; lia | destruct short; intros X; vm_compute in X; discriminate X]|]); lia.
Qed.

(** witnesses of the refuted properties *)
Lemma invented_orders :
  exists z m n, index2orders [("osa_index", PInt z)] = Ok (m, n)
    /\ ~ valid m n /\ get_osa_index m n <> z.
Proof.
  exists 1597, 57, 55. split; [apply (i2o_osa_miss (PInt 1597) 1597); [reflexivity|lia]|].
  split; [intros (_ & A & _); simpl in A; lia|vm_compute; discriminate].
Qed.

Lemma init_accepts_too_much :
  ~ (forall kw, (exists p, zernpol_init kw = Ok p) <-> (exists m n, denotes kw m n /\ supported m n)).
Proof.
  intros H. destruct (proj1 (H [("m", PInt 4); ("n", PInt 2)])) as (m & n & D & (V1 & V2 & _) & _).
  - eexists. reflexivity.
  - assert (D' : denotes [("m", PInt 4); ("n", PInt 2)] 4 2) by (apply den_mn; simpl; auto).
    destruct (denotes_fun _ _ _ _ _ D D') as [-> ->]. simpl in V2. lia.
Qed.

Lemma str_not_distinguishing (show : Z -> string) :
  zp_str show (obj (-8) 8) = zp_str show (obj 0 10) /\ obj (-8) 8 <> obj 0 10.
Proof. split; [reflexivity|]. intros H. apply (f_equal zp_n) in H. cbn in H. discriminate. Qed.
