(** Property theorems C01-C10, C25, C48. *)
From Verif Require Import Py SpecIndex M_Index L_Index SpecInit M_Init L_Init L_IndexProps.
Local Open Scope string_scope.
Local Open Scope Z_scope.

(** ** C01 *)
Theorem C01_osa_bijection : numbering 0 get_osa_index.
Proof. exact osa_numbering. Qed.
Print Assumptions C01_osa_bijection.

Theorem C01_osa_ordered : forall m n m' n', valid m n -> valid m' n' ->
  osa_before m n m' n' -> get_osa_index m n < get_osa_index m' n'.
Proof. exact osa_mono. Qed.
Print Assumptions C01_osa_ordered.
Example C01_nonvacuous : valid (-4) 10 /\ valid 2 12 /\ osa_before (-4) 10 2 12 /\ get_osa_index (-4) 10 = 58.
Proof. repeat split; try (simpl; lia); [exists 3|exists 5|left]; reflexivity || lia. Qed.

(** ** C02 *)
Theorem C02_noll_bijection : numbering 1 get_noll_index.
Proof. exact noll_numbering. Qed.
Print Assumptions C02_noll_bijection.

Theorem C02_noll_ordered : forall m n m' n', valid m n -> valid m' n' ->
  noll_before m n m' n' -> get_noll_index m n < get_noll_index m' n'.
Proof. exact noll_before_mono. Qed.
Print Assumptions C02_noll_ordered.

Theorem C02_noll_even_is_cosine : forall m n, valid m n -> m <> 0 ->
  (Z.even (get_noll_index m n) = true <-> 0 < m).
Proof. exact noll_parity. Qed.
Print Assumptions C02_noll_even_is_cosine.
Example C02_nonvacuous : valid (-5) 7 /\ get_noll_index (-5) 7 = 33 /\ get_noll_index 5 7 = 34.
Proof. repeat split; try (simpl; lia). exists 1; reflexivity. Qed.

(** ** C03 *)
Theorem C03_fringe_bijection : numbering 1 get_fringe_index.
Proof. exact fringe_numbering. Qed.
Print Assumptions C03_fringe_bijection.

Theorem C03_fringe_ordered : forall m n m' n', valid m n -> valid m' n' ->
  fringe_before m n m' n' -> get_fringe_index m n < get_fringe_index m' n'.
Proof. exact fringe_mono. Qed.
Print Assumptions C03_fringe_ordered.
Example C03_nonvacuous : valid (-2) 4 /\ get_fringe_index (-2) 4 = 13 /\ get_fringe_index 2 4 = 12.
Proof. repeat split; try (simpl; lia). exists 1; reflexivity. Qed.

(** ** C04: within the search range the search returns the polynomial with this index
    (unique by C01-C03). [as_int v = Some z] : the argument is a Python int (or bool) of value z. *)
Theorem C04_index2orders_osa : forall v z, as_int v = Some z -> 0 <= z <= 1595 ->
  exists m n, valid m n /\ n <= 55 /\ get_osa_index m n = z /\
    index2orders [("osa_index", v)] = Ok (m, n).
Proof. exact i2o_osa. Qed.
Print Assumptions C04_index2orders_osa.

Theorem C04_index2orders_noll : forall v z, as_int v = Some z -> 1 <= z <= 1596 ->
  exists m n, valid m n /\ n <= 55 /\ get_noll_index m n = z /\
    index2orders [("noll_index", v)] = Ok (m, n).
Proof. exact i2o_noll. Qed.
Print Assumptions C04_index2orders_noll.

Theorem C04_index2orders_fringe : forall v m n, valid m n -> n <= 249 ->
  as_int v = Some (get_fringe_index m n) -> index2orders [("fringe_index", v)] = Ok (m, n).
Proof. exact i2o_fringe. Qed.
Print Assumptions C04_index2orders_fringe.

(** the fringe range in terms of the index alone: everything below 15876 is found *)
Theorem C04_fringe_range : forall m n, valid m n -> get_fringe_index m n <= 15876 ->
  n <= 249 \/ (n = 250 /\ m = 0).
Proof. exact fringe_low. Qed.
Print Assumptions C04_fringe_range.
Example C04_nonvacuous : index2orders [("osa_index", PInt 1595)] = Ok (55, 55)
  /\ index2orders [("noll_index", PInt 17)] = Ok (-1, 5)
  /\ index2orders [("fringe_index", PInt 13)] = Ok (-2, 4).
Proof. repeat split; vm_compute; reflexivity. Qed.

(** ** C05: refuted. Integers without a supported polynomial are answered with (57, 55)
    (or (251, 249)), which are not even orders of a Zernike polynomial. *)
Theorem C05_no_invented_orders_refuted :
  exists z m n, index2orders [("osa_index", PInt z)] = Ok (m, n)
    /\ ~ valid m n /\ get_osa_index m n <> z.
Proof. exact invented_orders. Qed.
Print Assumptions C05_no_invented_orders_refuted.

Theorem C05_osa_out_of_range : forall v z, as_int v = Some z -> z < 0 \/ 1595 < z ->
  index2orders [("osa_index", v)] = Ok (57, 55).
Proof. exact i2o_osa_miss. Qed.
Print Assumptions C05_osa_out_of_range.
Theorem C05_noll_out_of_range : forall v z, as_int v = Some z -> z < 1 \/ 1596 < z ->
  index2orders [("noll_index", v)] = Ok (57, 55).
Proof. exact i2o_noll_miss. Qed.
Print Assumptions C05_noll_out_of_range.
Theorem C05_fringe_out_of_range : forall v z, as_int v = Some z ->
  (forall m n, valid m n -> n <= 249 -> get_fringe_index m n <> z) ->
  index2orders [("fringe_index", v)] = Ok (251, 249).
Proof. exact i2o_fringe_miss. Qed.
Print Assumptions C05_fringe_out_of_range.
Example C05_nonvacuous : index2orders [("noll_index", PInt 0)] = Ok (57, 55)
  /\ index2orders [("osa", PInt 3)] = Ok (57, 55).
Proof. split; vm_compute; reflexivity. Qed.

(** ** C06 *)
Theorem C06_osa_noll_osa : forall j, 0 <= j <= 1595 ->
  (do x <- osa2noll (PInt j); noll2osa x) = Ok (PInt j).
Proof. exact osa_noll_osa. Qed.
Print Assumptions C06_osa_noll_osa.
Theorem C06_noll_osa_noll : forall j, 1 <= j <= 1596 ->
  (do x <- noll2osa (PInt j); osa2noll x) = Ok (PInt j).
Proof. exact noll_osa_noll. Qed.
Print Assumptions C06_noll_osa_noll.
Theorem C06_same_polynomial : forall m n, valid m n -> n <= 55 ->
  osa2noll (PInt (get_osa_index m n)) = Ok (PInt (get_noll_index m n)).
Proof. exact osa2noll_ok. Qed.
Print Assumptions C06_same_polynomial.
(** beyond the range every index is converted to the same wrong number *)
Theorem C06_beyond_range_refuted : forall j, 1596 <= j -> osa2noll (PInt j) = Ok (PInt 1598).
Proof. exact osa2noll_beyond. Qed.
Print Assumptions C06_beyond_range_refuted.
Example C06_nonvacuous : osa2noll (PInt 12) = Ok (PInt 11) /\ noll2osa (PInt 11) = Ok (PInt 12)
  /\ osa2noll (PInt 1600) = Ok (PInt 1598).
Proof. repeat split; vm_compute; reflexivity. Qed.

(** ** C07: the conversions are inverse on the integers, but the literal composition always
    raises, because [osa2fringe] returns a numpy integer that [fringe2osa] does not accept. *)
Theorem C07_osa_fringe_osa : forall j, 0 <= j <= 1595 ->
  (do x <- osa2fringe (PInt j); fringe2osa (py_int x)) = Ok (PInt j).
Proof. exact osa_fringe_osa. Qed.
Print Assumptions C07_osa_fringe_osa.
Theorem C07_fringe_osa_fringe : forall m n, valid m n -> n <= 55 ->
  (do x <- fringe2osa (PInt (get_fringe_index m n)); osa2fringe x) = Ok (PNpInt (get_fringe_index m n)).
Proof. exact fringe_osa_fringe. Qed.
Print Assumptions C07_fringe_osa_fringe.
Theorem C07_literal_roundtrip_refuted : forall v, (do x <- osa2fringe v; fringe2osa x) = Raise ValueError.
Proof. exact osa_fringe_literal. Qed.
Print Assumptions C07_literal_roundtrip_refuted.
Example C07_nonvacuous : osa2fringe (PInt 12) = Ok (PNpInt 9) /\ fringe2osa (PInt 9) = Ok (PInt 12)
  /\ fringe2osa (PNpInt 9) = Raise ValueError.
Proof. repeat split; vm_compute; reflexivity. Qed.

(** ** C08. Full statement:
      forall kw, (exists p, zernpol_init kw = Ok p) <-> (exists m n, denotes kw m n /\ supported m n)
      and every failure is ValueError.
    It is false: orders with |m| > n > 0 are accepted. *)
Theorem C08_accepts_exactly_valid_refuted :
  ~ (forall kw, (exists p, zernpol_init kw = Ok p) <-> (exists m n, denotes kw m n /\ supported m n)).
Proof. exact init_accepts_too_much. Qed.
Print Assumptions C08_accepts_exactly_valid_refuted.

(** what holds: acceptance is exactly [code_accepts], every rejection is a ValueError *)
Theorem C08_accepts_exactly_partial : forall kw,
  ((exists p, zernpol_init kw = Ok p) <-> (exists m n, denotes kw m n /\ code_accepts m n)) /\
  (forall e, zernpol_init kw = Raise e -> e = ValueError).
Proof. exact init_accepts_iff. Qed.
Print Assumptions C08_accepts_exactly_partial.

(** and the full property whenever the keywords do not denote |m| > n *)
Theorem C08_accepts_exactly_when_m_le_n_partial : forall kw,
  (forall m n, denotes kw m n -> Z.abs m <= n) ->
  ((exists p, zernpol_init kw = Ok p) <-> (exists m n, denotes kw m n /\ supported m n)).
Proof. exact init_full_when_bounded. Qed.
Print Assumptions C08_accepts_exactly_when_m_le_n_partial.
Example C08_nonvacuous : denotes [("radial_order", PInt 7); ("l", PInt (-3))] (-3) 7 /\ supported (-3) 7
  /\ zernpol_init [("noll", PInt 1541)] = Raise ValueError
  /\ zernpol_init [("n", PFloat (QArith_base.Qmake 2 1)); ("m", PInt 0)] = Raise ValueError
  /\ zernpol_init [("n", PInt 2); ("osa", PInt 0)] = Raise ValueError
  /\ (exists p, zernpol_init [("fringe", PInt 2917)] = Ok p /\ zp_n p = 54).
Proof.
  split; [apply den_nm; simpl; auto|]. split.
  { split; [|lia]. split; [lia|split; [simpl; lia|exists 2; reflexivity]]. }
  split; [vm_compute; reflexivity|]. split; [reflexivity|]. split; [reflexivity|].
  eexists. split; vm_compute; reflexivity.
Qed.

(** ** C09 *)
Theorem C09_all_spellings_agree : forall kw m n, denotes kw m n -> supported m n ->
  exists p, zernpol_init kw = Ok p /\ get_mn_orders p = (m, n) /\
    get_indices p = ((m, n), get_osa_index m n, get_noll_index m n, get_fringe_index m n).
Proof. exact init_same. Qed.
Print Assumptions C09_all_spellings_agree.
Example C09_nonvacuous : zernpol_init [("osa", PInt 12)] = zernpol_init [("fringe", PInt 9)] /\
  zernpol_init [("osa", PInt 12)] = zernpol_init [("angular_frequency", PBool false); ("n", PInt 4)].
Proof. split; vm_compute; reflexivity. Qed.

(** ** C10: laws on constructible objects with valid orders; [a <= b], [a >= b] and hashing
    raise TypeError in the code (not part of the proved order). *)
Theorem C10_eq_iff_same_orders : forall a b,
  (exists kw, zernpol_init kw = Ok a) -> (exists kw, zernpol_init kw = Ok b) ->
  (zp_eq a (Some b) = Ok true <-> get_mn_orders a = get_mn_orders b).
Proof. exact eq_iff. Qed.
Print Assumptions C10_eq_iff_same_orders.
Theorem C10_trichotomy_partial : forall a b, good a -> good b ->
  (zp_lt a b = Ok true /\ zp_eq a (Some b) = Ok false /\ zp_gt a (Some b) = Ok false) \/
  (zp_lt a b = Ok false /\ zp_eq a (Some b) = Ok true /\ zp_gt a (Some b) = Ok false) \/
  (zp_lt a b = Ok false /\ zp_eq a (Some b) = Ok false /\ zp_gt a (Some b) = Ok true).
Proof. exact trichotomy. Qed.
Print Assumptions C10_trichotomy_partial.
Theorem C10_lt_transitive : forall a b c,
  zp_lt a b = Ok true -> zp_lt b c = Ok true -> zp_lt a c = Ok true.
Proof. exact lt_trans. Qed.
Print Assumptions C10_lt_transitive.
(** trichotomy fails for accepted objects with |m| > n *)
Theorem C10_trichotomy_refuted : exists a b,
  (exists kw, zernpol_init kw = Ok a) /\ (exists kw, zernpol_init kw = Ok b) /\
  zp_lt a b = Ok false /\ zp_eq a (Some b) = Ok false /\ zp_gt a (Some b) = Ok false.
Proof.
  exact (ex_intro _ (obj 4 2) (ex_intro _ (obj (-3) 3)
    (conj (ex_intro _ [("m", PInt 4); ("n", PInt 2)] eq_refl)
    (conj (ex_intro _ [("m", PInt (-3)); ("n", PInt 3)] eq_refl)
    (conj eq_refl (conj eq_refl eq_refl)))))).
Qed.
Print Assumptions C10_trichotomy_refuted.
Example C10_nonvacuous : good (obj (-3) 3) /\ good (obj 1 5) /\ zp_lt (obj (-3) 3) (obj 1 5) = Ok true.
Proof.
  split; [|split; [|reflexivity]].
  - split; [exists [("osa", PInt 6)]; vm_compute; reflexivity|].
    split; [simpl; lia|split; [simpl; lia|exists 0; reflexivity]].
  - split; [exists [("m", PInt 1); ("n", PInt 5)]; vm_compute; reflexivity|].
    split; [simpl; lia|split; [simpl; lia|exists 2; reflexivity]].
Qed.

(** ** C25 *)
Theorem C25_generate_polynomials : forall N, 0 <= N <= 54 ->
  exists l, generate_polynomials N = Ok l /\
    2 * Z.of_nat (length l) = (N + 1) * (N + 2) /\
    (forall i, (i < length l)%nat -> exists p, nth_error l i = Some p /\ zp_osa p = Z.of_nat i /\
        valid (zp_m p) (zp_n p) /\ zp_n p <= N /\ get_osa_index (zp_m p) (zp_n p) = Z.of_nat i) /\
    (forall m n, valid m n -> n <= N -> exists i, nth_error l i = Some (obj m n)).
Proof. exact gen_pols_spec. Qed.
Print Assumptions C25_generate_polynomials.
Theorem C25_generate_polynomials_rejects : forall N, N < 0 \/ 54 < N ->
  generate_polynomials N = Raise ValueError.
Proof. exact gen_pols_fail. Qed.
Print Assumptions C25_generate_polynomials_rejects.
Example C25_nonvacuous : exists l, generate_polynomials 54 = Ok l /\ length l = Z.to_nat 1540.
Proof. eexists. split; vm_compute; reflexivity. Qed.

(** ** C48: names. The second part of the property (the textual representation shows the
    orders) is false for n > 7, where str() is the constant "Zernike polynomial". *)
Theorem C48_names_injective : forall short m n m' n' p p', p = obj m n -> p' = obj m' n' ->
  get_polynomial_name p short = get_polynomial_name p' short ->
  get_polynomial_name p short <> "" -> m = m' /\ n = n'.
Proof. exact names_inj. Qed.
Print Assumptions C48_names_injective.
Theorem C48_names_present : forall short m n, valid m n ->
  (get_polynomial_name (obj m n) short <> "" <-> n <= 7).
Proof. exact names_present. Qed.
Print Assumptions C48_names_present.
Theorem C48_str_distinguishes_refuted : forall show : Z -> string,
  zp_str show (obj (-8) 8) = zp_str show (obj 0 10) /\ obj (-8) 8 <> obj 0 10.
Proof. exact str_not_distinguishing. Qed.
Print Assumptions C48_str_distinguishes_refuted.
Example C48_nonvacuous : get_polynomial_name (obj 0 2) true = "Defocus".
Proof. reflexivity. Qed.
