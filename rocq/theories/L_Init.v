(** Proofs about the constructor, comparison and enumeration of ZernPol. *)
From Verif Require Import Py SpecIndex M_Index L_Index SpecInit M_Init.
Local Open Scope string_scope.
Local Open Scope Z_scope.

Ltac Zify.zify_post_hook ::= Z.div_mod_to_equations.

Lemma supported_accepts m n : supported m n -> code_accepts m n.
Proof. intros [(Hn & Hm & Hk) H]. split; [lia|split; [exact Hk|lia]]. Qed.

Lemma init_orders_spec m n :
  (code_accepts m n /\ init_orders m n = Ok (obj m n)) \/
  (~ code_accepts m n /\ init_orders m n = Raise ValueError).
Proof.
  unfold init_orders, code_accepts.
  destruct (Z.eqb_spec ((n - Z.abs m) mod 2) 0) as [E|E]; cbn [negb].
  2: { right. split; [|reflexivity]. intros (_ & (k & Hk) & _). lia. }
  destruct (Z.ltb_spec n 0); [right; split; [lia|reflexivity]|].
  destruct ((n =? 0) && negb (m =? 0)) eqn:Z0; [right; split; [lia|reflexivity]|].
  destruct (Z.ltb_spec 54 n); [right; split; [lia|reflexivity]|].
  left. split; [|reflexivity]. split; [lia|split; [|lia]].
  exists ((n - Z.abs m) / 2). lia.
Qed.

(** keys: membership in the key lists as seen by [first_key] *)
Lemma kw_get1 k k' v : kw_get k [(k', v)] = if String.eqb k k' then Some v else None.
Proof. reflexivity. Qed.

Lemma first_key_in keys kw v : first_key keys kw = Some v -> exists k, In k keys /\ In (k, v) kw.
Proof.
  induction keys as [|k keys IH]; simpl; [discriminate|].
  destruct (kw_get k kw) eqn:G.
  - intros [= ->]. exists k. split; [auto|]. clear IH. revert G.
    induction kw as [|[k' v'] kw IHk]; simpl; [discriminate|].
    destruct (String.eqb_spec k k') as [<-|]; [intros [= ->]; auto|auto].
  - intros H. destruct (IH H) as (k' & A & B). exists k'. auto.
Qed.

Lemma first_key_single keys k v : In k keys -> first_key keys [(k, v)] = Some v.
Proof.
  induction keys as [|k' keys IH]; simpl; [tauto|]. intros [->|H].
  - rewrite String.eqb_refl. reflexivity.
  - destruct (String.eqb k' k); auto.
Qed.

Lemma first_key_none keys k v : ~ In k keys -> first_key keys [(k, v)] = None.
Proof.
  induction keys as [|k' keys IH]; simpl; [reflexivity|]. intros H.
  destruct (String.eqb_spec k' k); [exfalso; auto|auto].
Qed.

Lemma first_key_single_inv keys k v v' : first_key keys [(k, v)] = Some v' -> v' = v /\ In k keys.
Proof.
  intros H. destruct (first_key_in _ _ _ H) as (k' & A & [B|[]]). inv B. auto.
Qed.

(** the single-index constructors *)
Lemma init_index c (k : string) v z (names := match c with OSA => osa_names | NOLL => noll_names | FRINGE => fringe_names end) :
  In k names -> as_int v = Some z ->
  (exists m n, supported m n /\ conv_f c m n = z /\ zernpol_init [(k, v)] = Ok (obj m n)) \/
  ((forall m n, supported m n -> conv_f c m n <> z) /\ zernpol_init [(k, v)] = Raise ValueError).
Proof.
  intros Hk Hv. unfold zernpol_init. cbn [length].
  pose proof (index2orders_total c v z Hv) as T.
  destruct c; cbn [conv_key conv_f conv_high] in T; subst names.
  - rewrite (first_key_single osa_keys k v Hk), Hv.
    destruct (Z.ltb_spec z 0) as [L|L].
    { right. split; [|reflexivity]. intros m n [V _] E. simpl in E. pose proof (osa_nonneg _ _ V). lia. }
    destruct (Z.ltb_spec 1539 z) as [L'|L'].
    { right. split; [|reflexivity]. intros m n [V B] E. simpl in E.
      pose proof (proj1 (osa_range m n 55 V ltac:(lia)) ltac:(lia)) as R.
      replace (55 * (55 + 1) / 2) with 1540 in R by reflexivity. lia. }
    destruct T as [(m & n & V & B & E & ->)|[HN _]].
    + left. exists m, n. cbn [bind]. split; [split; [exact V|]|split; [exact E|]].
      * pose proof (proj2 (osa_range m n 55 V ltac:(lia))) as R.
        replace (55 * (55 + 1) / 2) with 1540 in R by reflexivity. lia.
      * unfold obj. rewrite E. reflexivity.
    + exfalso. destruct (osa_surj z L) as (m & n & V & E).
      pose proof (proj2 (osa_range m n 55 V ltac:(lia))) as R.
      replace (55 * (55 + 1) / 2) with 1540 in R by reflexivity.
      apply (HN m n V); lia.
  - rewrite (first_key_none osa_keys k v).
    2:{ intros F. simpl in F, Hk. intuition (subst; discriminate). }
    rewrite (first_key_single noll_keys k v Hk), Hv.
    destruct (Z.ltb_spec z 1) as [L|L].
    { right. split; [|reflexivity]. intros m n [V _] E. simpl in E. pose proof (noll_pos _ _ V). lia. }
    destruct (Z.ltb_spec 1540 z) as [L'|L'].
    { right. split; [|reflexivity]. intros m n [V B] E. simpl in E.
      pose proof (proj1 (noll_range m n 55 V ltac:(lia)) ltac:(lia)) as R.
      replace (55 * (55 + 1) / 2) with 1540 in R by reflexivity. lia. }
    destruct T as [(m & n & V & B & E & ->)|[HN _]].
    + left. exists m, n. cbn [bind]. split; [split; [exact V|]|split; [exact E|]].
      * pose proof (proj2 (noll_range m n 55 V ltac:(lia))) as R.
        replace (55 * (55 + 1) / 2) with 1540 in R by reflexivity. lia.
      * unfold obj. rewrite E. reflexivity.
    + exfalso. destruct (noll_surj z L) as (m & n & V & E).
      pose proof (proj2 (noll_range m n 55 V ltac:(lia))) as R.
      replace (55 * (55 + 1) / 2) with 1540 in R by reflexivity.
      apply (HN m n V); lia.
  - rewrite (first_key_none osa_keys k v).
    2:{ intros F. simpl in F, Hk. intuition (subst; discriminate). }
    rewrite (first_key_none noll_keys k v).
    2:{ intros F. simpl in F, Hk. intuition (subst; discriminate). }
    rewrite (first_key_single fringe_keys k v Hk), Hv.
    destruct (Z.ltb_spec z 1) as [L|L].
    { right. split; [|reflexivity]. intros m n [V _] E. simpl in E. pose proof (fringe_pos _ _ V). lia. }
    destruct T as [(m & n & V & B & E & ->)|[HN ->]]; cbn [bind].
    + destruct (Z.ltb_spec 54 n) as [G|G].
      * right. split; [|reflexivity]. intros m' n' [V' B'] E'. simpl in E'.
        destruct (fringe_inj m n m' n' V V'); lia.
      * left. exists m, n. split; [split; [exact V|lia]|split; [exact E|]].
        unfold obj. rewrite E. reflexivity.
    + right. split; [|reflexivity]. intros m' n' [V' B'] E'. apply (HN m' n' V'); [simpl; lia|exact E'].
Qed.

Lemma init_two kn km vn vm kw : In kn radial_names -> In km azimuthal_names ->
  kw = [(kn, vn); (km, vm)] \/ kw = [(km, vm); (kn, vn)] ->
  first_key n_keys kw = Some vn /\ first_key m_keys kw = Some vm /\ length kw = 2%nat.
Proof.
  intros A B C. simpl in A, B.
  destruct A as [<-|[<-|[]]], B as [<-|[<-|[<-|[<-|[]]]]], C as [-> | ->]; repeat split.
Qed.

(** the full behaviour of the constructor *)
Lemma init_char kw :
  (exists m n, denotes kw m n /\ code_accepts m n /\ zernpol_init kw = Ok (obj m n)) \/
  ((forall m n, denotes kw m n -> ~ code_accepts m n) /\ zernpol_init kw = Raise ValueError).
Proof.
  destruct kw as [|[k1 v1] [|[k2 v2] [|x kw]]].
  - right. split; [|reflexivity]. intros m n D. inv D.
  - (* one keyword *)
    destruct (in_dec string_dec k1 osa_names) as [I|NI1].
    { destruct (as_int v1) as [z|] eqn:Ev.
      - destruct (init_index OSA k1 v1 z I Ev) as [(m & n & S & E & R)|[HN R]].
        + left. exists m, n. split; [|split; [apply supported_accepts, S|exact R]].
          apply den_osa; [exact I|apply S|]. simpl in E. rewrite E. exact Ev.
        + right. split; [|exact R]. intros m n D A. inv D.
          * apply (HN m n); [split; [assumption|apply A]|]. simpl. congruence.
          * simpl in I, H1. intuition (subst; discriminate).
          * simpl in I, H1. intuition (subst; discriminate).
      - right. split.
        + intros m n D _. inv D; congruence.
        + unfold zernpol_init. cbn [length]. rewrite (first_key_single osa_keys k1 v1 I), Ev. reflexivity. }
    destruct (in_dec string_dec k1 noll_names) as [I|NI2].
    { destruct (as_int v1) as [z|] eqn:Ev.
      - destruct (init_index NOLL k1 v1 z I Ev) as [(m & n & S & E & R)|[HN R]].
        + left. exists m, n. split; [|split; [apply supported_accepts, S|exact R]].
          apply den_noll; [exact I|apply S|]. simpl in E. rewrite E. exact Ev.
        + right. split; [|exact R]. intros m n D A. inv D.
          * contradiction.
          * apply (HN m n); [split; [assumption|apply A]|]. simpl. congruence.
          * simpl in I, H1. intuition (subst; discriminate).
      - right. split.
        + intros m n D _. inv D; congruence.
        + unfold zernpol_init. cbn [length]. rewrite (first_key_none osa_keys k1 v1 NI1), (first_key_single noll_keys k1 v1 I), Ev. reflexivity. }
    destruct (in_dec string_dec k1 fringe_names) as [I|NI3].
    { destruct (as_int v1) as [z|] eqn:Ev.
      - destruct (init_index FRINGE k1 v1 z I Ev) as [(m & n & S & E & R)|[HN R]].
        + left. exists m, n. split; [|split; [apply supported_accepts, S|exact R]].
          apply den_fringe; [exact I|apply S|]. simpl in E. rewrite E. exact Ev.
        + right. split; [|exact R]. intros m n D A. inv D; try contradiction.
          apply (HN m n); [split; [assumption|apply A]|]. simpl. congruence.
      - right. split.
        + intros m n D _. inv D; congruence.
        + unfold zernpol_init. cbn [length]. rewrite (first_key_none osa_keys k1 v1 NI1), (first_key_none noll_keys k1 v1 NI2), (first_key_single fringe_keys k1 v1 I), Ev. reflexivity. }
    right. split; [intros m n D; inv D; contradiction|].
    unfold zernpol_init. cbn [length].
    rewrite (first_key_none osa_keys k1 v1 NI1), (first_key_none noll_keys k1 v1 NI2), (first_key_none fringe_keys k1 v1 NI3). reflexivity.
  - (* two keywords *)
    set (kw := [(k1, v1); (k2, v2)]).
    assert (DN : forall m n, denotes kw m n -> exists kn km vn vm,
       In kn radial_names /\ In km azimuthal_names /\ as_int vn = Some n /\ as_int vm = Some m /\
       (kw = [(kn, vn); (km, vm)] \/ kw = [(km, vm); (kn, vn)])).
    { intros m n D. inv D.
      - exists k1, k2, v1, v2. auto 10.
      - exists k2, k1, v2, v1. auto 10. }
    destruct (first_key n_keys kw) as [vn|] eqn:FN.
    2:{ right. split.
        - intros m n D _. destruct (DN _ _ D) as (kn & km & vn & vm & A & B & _ & _ & C).
          destruct (init_two kn km vn vm kw A B C) as (E & _). congruence.
        - unfold zernpol_init, kw. cbn [length]. fold kw. rewrite FN. reflexivity. }
    destruct (first_key m_keys kw) as [vm|] eqn:FM.
    2:{ right. split.
        - intros m n D _. destruct (DN _ _ D) as (kn & km & vn' & vm' & A & B & _ & _ & C).
          destruct (init_two kn km vn' vm' kw A B C) as (E & E' & _). congruence.
        - unfold zernpol_init, kw. cbn [length]. fold kw. rewrite FN, FM. destruct (as_int vn); reflexivity. }
    destruct (as_int vn) as [n|] eqn:An.
    2:{ right. split.
        - intros m n D _. destruct (DN _ _ D) as (kn & km & vn' & vm' & A & B & A1 & A2 & C).
          destruct (init_two kn km vn' vm' kw A B C) as (E & E' & _). congruence.
        - unfold zernpol_init, kw. cbn [length]. fold kw. rewrite FN, An. reflexivity. }
    destruct (as_int vm) as [m|] eqn:Am.
    2:{ right. split.
        - intros m n' D _. destruct (DN _ _ D) as (kn & km & vn' & vm' & A & B & A1 & A2 & C).
          destruct (init_two kn km vn' vm' kw A B C) as (E & E' & _). congruence.
        - unfold zernpol_init, kw. cbn [length]. fold kw. rewrite FN, An, FM, Am. reflexivity. }
    assert (RES : zernpol_init kw = init_orders m n).
    { unfold zernpol_init, kw. cbn [length]. fold kw. rewrite FN, An, FM, Am. reflexivity. }
    assert (D : denotes kw m n).
    { destruct (first_key_in _ _ _ FN) as (kn & In1 & Kn).
      destruct (first_key_in _ _ _ FM) as (km & In2 & Km).
      assert (kn <> km). { intros ->. simpl in In1, In2. intuition (subst; discriminate). }
      destruct Kn as [Kn|[Kn|[]]], Km as [Km|[Km|[]]].
      - inv Kn. inv Km. congruence.
      - inv Kn. inv Km. apply den_nm; assumption.
      - inv Kn. inv Km. apply den_mn; assumption.
      - inv Kn. inv Km. congruence. }
    destruct (init_orders_spec m n) as [[A R]|[A R]].
    + left. exists m, n. split; [exact D|]. split; [exact A|]. rewrite RES. exact R.
    + right. split; [|rewrite RES; exact R]. intros m' n' D' A'.
      destruct (DN _ _ D') as (kn & km & vn' & vm' & B1 & B2 & A1 & A2 & C).
      destruct (init_two kn km vn' vm' kw B1 B2 C) as (E & E' & _).
      assert (m' = m /\ n' = n) by (split; congruence). destruct H as [-> ->]. contradiction.
  - right. split; [|reflexivity]. intros m n D. inv D.
Qed.

Lemma denotes_fun kw m n m' n' : denotes kw m n -> denotes kw m' n' ->
  m = m' /\ n = n'.
Proof.
  intros D D'.
  inversion D; subst; clear D; inversion D'; subst; clear D'; simpl in *;
  repeat match goal with
       | E : as_int ?v = Some ?x, E' : as_int ?v = Some ?y |- _ =>
           assert (x = y) by congruence; clear E'
       end;
  try (split; congruence);
  try (exfalso; intuition (subst; discriminate)).
  - apply osa_numbering; congruence.
  - apply noll_numbering; congruence.
  - apply fringe_numbering; congruence.
Qed.

Lemma init_denotes kw m n : denotes kw m n -> code_accepts m n -> zernpol_init kw = Ok (obj m n).
Proof.
  intros D A. destruct (init_char kw) as [(m' & n' & D' & A' & R)|[HN _]].
  - destruct (denotes_fun _ _ _ _ _ D D') as [-> ->]. exact R.
  - exfalso. apply (HN m n D A).
Qed.

Lemma init_ok_inv kw p : zernpol_init kw = Ok p ->
  exists m n, denotes kw m n /\ code_accepts m n /\ p = obj m n.
Proof.
  intros H. destruct (init_char kw) as [(m & n & D & A & R)|[_ R]]; [|congruence].
  exists m, n. split; [exact D|split; [exact A|congruence]].
Qed.

(** ** generate_polynomials *)
Lemma init_azrad m n : code_accepts m n ->
  zernpol_init [("azimuthal_order", PInt m); ("radial_order", PInt n)] = Ok (obj m n).
Proof. intros A. apply init_denotes; [|exact A]. apply den_mn; simpl; auto. Qed.

Lemma gen_row_ok k : forall m n, 0 < n <= 54 -> (exists q, n - m = 2 * q) ->
  gen_row k m n = Ok (map (fun i => obj (m + 2 * Z.of_nat i) n) (seq 0 k)).
Proof.
  induction k as [|k IH]; intros m n Hn [q Hq]; [reflexivity|].
  cbn [gen_row]. rewrite init_azrad.
  - cbn [bind]. rewrite IH; [|exact Hn|exists (q - 1); lia]. cbn [bind seq map].
    replace (m + 2 * Z.of_nat 0) with m by lia. do 2 f_equal.
    rewrite <- seq_shift, map_map. apply map_ext. intros i. f_equal. lia.
  - split; [lia|split; [|lia]]. destruct (Z.abs_eq_or_opp m) as [E|E]; rewrite E.
    + exists q. lia. + exists (n - q). lia.
Qed.

Definition row_objs (n : Z) : list zernpol :=
  map (fun i => obj (- n + 2 * Z.of_nat i) n) (seq 0 (Z.to_nat (n + 1))).

Lemma gen_rows_ok k : forall order, 0 < order -> order + Z.of_nat k <= 55 ->
  gen_rows k order = Ok (flat_map row_objs (zrange order k)).
Proof.
  induction k as [|k IH]; intros o Ho Hb; [reflexivity|].
  cbn [gen_rows zrange flat_map]. rewrite gen_row_ok; [|lia|exists o; lia]. cbn [bind].
  rewrite IH by lia. reflexivity.
Qed.

Lemma gen_rows_fail k : forall order, 0 < order -> 55 < order + Z.of_nat k -> order <= 55 ->
  gen_rows k order = Raise ValueError.
Proof.
  induction k as [|k IH]; intros o Ho Hb Hle; [lia|]. cbn [gen_rows].
  destruct (Z.eq_dec o 55) as [->|D].
  - reflexivity.
  - rewrite gen_row_ok; [|lia|exists o; lia]. cbn [bind]. rewrite IH by lia. reflexivity.
Qed.

(** i-th object of the pyramid is the one with OSA index i *)
Lemma row_objs_length n : 0 <= n -> length (row_objs n) = Z.to_nat (n + 1).
Proof. intros. unfold row_objs. rewrite map_length, seq_length. reflexivity. Qed.

Lemma row_objs_nth n i : 0 <= n -> (i < Z.to_nat (n + 1))%nat ->
  exists m, nth_error (row_objs n) i = Some (obj m n) /\ valid m n /\
            get_osa_index m n = n * (n + 1) / 2 + Z.of_nat i.
Proof.
  intros Hn Hi. exists (- n + 2 * Z.of_nat i).
  assert (V : valid (- n + 2 * Z.of_nat i) n) by (apply row_pos; eauto).
  split; [|split; [exact V|]].
  - unfold row_objs. rewrite nth_error_map, nth_error_nth' with (d := 0%nat) by (rewrite seq_length; exact Hi).
    rewrite seq_nth by exact Hi. reflexivity.
  - pose proof (osa_double _ _ V). pose proof (tri_double n). lia.
Qed.

Lemma pyramid_nth k : forall o, 0 <= o ->
  length (flat_map row_objs (zrange o k)) =
    Z.to_nat ((o + Z.of_nat k) * (o + Z.of_nat k + 1) / 2 - o * (o + 1) / 2) /\
  forall i, (i < length (flat_map row_objs (zrange o k)))%nat ->
  exists m n, nth_error (flat_map row_objs (zrange o k)) i = Some (obj m n) /\
    valid m n /\ o <= n < o + Z.of_nat k /\ get_osa_index m n = o * (o + 1) / 2 + Z.of_nat i.
Proof.
  induction k as [|k IH]; intros o Ho; cbn [zrange flat_map].
  - split; [simpl; replace (o + 0) with o by lia; lia|simpl; lia].
  - destruct (IH (o + 1) ltac:(lia)) as [L N].
    pose proof (tri_double o) as T1. pose proof (tri_double (o + 1)) as T2.
    pose proof (tri_double (o + Z.of_nat (S k))) as T3.
    replace (o + 1 + Z.of_nat k) with (o + Z.of_nat (S k)) in * by lia.
    assert (T12 : (o + 1) * (o + 1 + 1) / 2 = o * (o + 1) / 2 + (o + 1)) by nia.
    assert ((o + 1) * (o + 1 + 1) / 2 <= (o + Z.of_nat (S k)) * (o + Z.of_nat (S k) + 1) / 2) by nia.
    split.
    + rewrite app_length, row_objs_length, L by exact Ho. lia.
    + intros i Hi. rewrite app_length, row_objs_length in Hi by exact Ho.
      destruct (lt_dec i (Z.to_nat (o + 1))) as [Lt|Ge].
      * destruct (row_objs_nth o i Ho Lt) as (m & E & V & O).
        exists m, o. rewrite nth_error_app1 by (rewrite row_objs_length by exact Ho; exact Lt).
        split; [exact E|split; [exact V|split; [lia|exact O]]].
      * destruct (N (i - Z.to_nat (o + 1))%nat ltac:(lia)) as (m & n & E & V & B & O).
        exists m, n. rewrite nth_error_app2 by (rewrite row_objs_length by exact Ho; lia).
        rewrite row_objs_length by exact Ho.
        split; [exact E|split; [exact V|split; [lia|]]]. rewrite O, T12. lia.
Qed.

Lemma gen_pols_ok N : 0 <= N <= 54 ->
  generate_polynomials N = Ok (flat_map row_objs (zrange 0 (Z.to_nat (N + 1)))).
Proof.
  intros H. unfold generate_polynomials.
  destruct (Z.ltb_spec N 0); [lia|].
  change (zernpol_init [("m", PInt 0); ("n", PInt 0)]) with (Ok (obj 0 0)). cbn [bind].
  rewrite gen_rows_ok by lia. cbn [bind].
  replace (Z.to_nat (N + 1)) with (S (Z.to_nat N)) by lia. reflexivity.
Qed.

Lemma gen_pols_fail N : N < 0 \/ 54 < N -> generate_polynomials N = Raise ValueError.
Proof.
  intros H. unfold generate_polynomials. destruct (Z.ltb_spec N 0); [reflexivity|].
  change (zernpol_init [("m", PInt 0); ("n", PInt 0)]) with (Ok (obj 0 0)). cbn [bind].
  rewrite gen_rows_fail by lia. reflexivity.
Qed.
