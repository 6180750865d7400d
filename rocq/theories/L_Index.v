(** Proofs about the index functions. *)
From Verif Require Import Py SpecIndex M_Index.
From Coq Require Import Psatz.

Ltac Zify.zify_post_hook ::= Z.div_mod_to_equations.

(** ** Half formulas without division *)
Lemma osa_double m n : valid m n -> 2 * get_osa_index m n = n * (n + 2) + m.
Proof.
  intros (Hn & Hm & k & Hk). unfold get_osa_index.
  assert (exists h, n * (n + 2) + m = 2 * h) as [h Hh].
  { destruct (Z.Even_or_Odd n) as [[a Ha]|[a Ha]]; subst n;
    destruct (Z.abs_eq_or_opp m) as [E|E]; rewrite E in Hk.
    - exists (2 * a * a + 2 * a + (a - k)). nia.
    - exists (2 * a * a + 2 * a - (a - k)). nia.
    - exists (2 * a * a + 5 * a + 2 - k). nia.
    - exists (2 * a * a + 3 * a + 1 + k). nia. }
  rewrite Hh, (Z.mul_comm 2 h), Z.div_mul by lia. lia.
Qed.

Lemma tri_double n : 2 * (n * (n + 1) / 2) = n * (n + 1).
Proof.
  assert (exists h, n * (n + 1) = 2 * h) as [h Hh].
  { destruct (Z.Even_or_Odd n) as [[a Ha]|[a Ha]]; subst n.
    - exists (a * (2 * a + 1)). nia.
    - exists ((2 * a + 1) * (a + 1)). nia. }
  rewrite Hh, (Z.mul_comm 2 h), Z.div_mul by lia. lia.
Qed.

(** ** OSA *)
Lemma osa_mono m n m' n' : valid m n -> valid m' n' ->
  osa_before m n m' n' -> get_osa_index m n < get_osa_index m' n'.
Proof.
  intros V V' B. pose proof (osa_double _ _ V). pose proof (osa_double _ _ V').
  destruct V as (Hn & Hm & k & Hk), V' as (Hn' & Hm' & k' & Hk').
  destruct B as [B|[-> B]]; [|lia].
  assert (n * (n + 2) + n + 2 <= n' * (n' + 2) - n') by nia. lia.
Qed.

Lemma osa_total m n m' n' : osa_before m n m' n' \/ osa_before m' n' m n \/ (m = m' /\ n = n').
Proof. unfold osa_before. lia. Qed.

(** every natural number lies in exactly one interval [n(n+1)/2, n(n+1)/2+n] *)
Lemma triangle_row j : 0 <= j -> exists n, 0 <= n /\ n * (n + 1) / 2 <= j <= n * (n + 1) / 2 + n.
Proof.
  intros Hj. pattern j. apply natlike_ind; [| |exact Hj].
  - exists 0. simpl. lia.
  - intros x Hx (n & Hn & L & U).
    destruct (Z.eq_dec x (n * (n + 1) / 2 + n)) as [E|E].
    + exists (n + 1). pose proof (tri_double n). pose proof (tri_double (n + 1)). nia.
    + exists n. lia.
Qed.

Lemma osa_surj j : 0 <= j -> exists m n, valid m n /\ get_osa_index m n = j.
Proof.
  intros Hj. destruct (triangle_row j Hj) as (n & Hn & HL & HU).
  set (i := j - n * (n + 1) / 2). exists (2 * i - n), n.
  assert (0 <= i <= n) by (unfold i; lia).
  assert (V : valid (2 * i - n) n).
  { split; [lia|split; [lia|]]. destruct (Z.le_ge_cases 0 (2 * i - n)).
    - exists (n - i). lia.
    - exists i. lia. }
  split; [exact V|]. pose proof (osa_double _ _ V). pose proof (tri_double n).
  assert (j = i + n * (n + 1) / 2) by (unfold i; lia). nia.
Qed.

Lemma osa_nonneg m n : valid m n -> 0 <= get_osa_index m n.
Proof. intros V. pose proof (osa_double _ _ V). destruct V as (? & ? & _). nia. Qed.

Lemma osa_numbering : numbering 0 get_osa_index.
Proof.
  split; [exact osa_nonneg|split; [|exact osa_surj]].
  intros m n m' n' V V' E.
  destruct (osa_total m n m' n') as [B|[B|B]]; [| |exact B];
  [pose proof (osa_mono _ _ _ _ V V' B)|pose proof (osa_mono _ _ _ _ V' V B)]; lia.
Qed.

Lemma osa_row m n : valid m n -> n * (n + 1) / 2 <= get_osa_index m n <= n * (n + 1) / 2 + n.
Proof.
  intros V. pose proof (osa_double _ _ V). pose proof (tri_double n).
  destruct V as (? & ? & _). nia.
Qed.

(** ** Noll *)
Definition noll_add (m n : Z) : Z := get_noll_index m n - n * (n + 1) / 2 - Z.abs m.

Lemma noll_add_01 m n : 0 <= noll_add m n <= 1.
Proof.
  unfold noll_add, get_noll_index.
  destruct (0 <? m), (m <? 0), (n mod 4 =? 0), ((n - 1) mod 4 =? 0), ((n - 2) mod 4 =? 0), ((n - 3) mod 4 =? 0); lia.
Qed.

Lemma noll_add_0 n : noll_add 0 n = 1.
Proof. unfold noll_add, get_noll_index. simpl. lia. Qed.

Lemma noll_split m n : get_noll_index m n = n * (n + 1) / 2 + Z.abs m + noll_add m n.
Proof. unfold noll_add. lia. Qed.

Lemma noll_before_mono m n m' n' : valid m n -> valid m' n' ->
  noll_before m n m' n' -> get_noll_index m n < get_noll_index m' n'.
Proof.
  intros (Hn & Hm & k & Hk) (Hn' & Hm' & k' & Hk') B. rewrite !noll_split.
  pose proof (noll_add_01 m n). pose proof (noll_add_01 m' n').
  pose proof (tri_double n). pose proof (tri_double n').
  destruct B as [B|[<- B]].
  - destruct (Z.eq_dec m' 0) as [->|Hm0]; [rewrite noll_add_0|]; nia.
  - lia.
Qed.

Lemma noll_parity m n : valid m n -> m <> 0 -> (Z.even (get_noll_index m n) = true <-> 0 < m).
Proof.
  intros (Hn & Hm & k & Hk) H0.
  assert (EP : (Z.even (get_noll_index m n) = true) <-> exists e, get_noll_index m n = 2 * e).
  { rewrite Z.even_spec. reflexivity. }
  rewrite EP. clear EP.
  assert (P : exists q, n = 4 * q \/ n = 4 * q + 1 \/ n = 4 * q + 2 \/ n = 4 * q + 3).
  { exists (n / 4). lia. }
  assert (X : exists t, get_noll_index m n = 2 * t + (if 0 <? m then 0 else 1)).
  { destruct P as [q P]. pose proof (tri_double n) as TD.
    set (T := n * (n + 1) / 2) in *.
    assert (HT : exists t, T = 2 * t + (if (n =? 4 * q) then 0 else if (n =? 4 * q + 3) then 0 else 1)).
    { destruct P as [P|[P|[P|P]]]; rewrite P in *.
      - rewrite Z.eqb_refl. exists (q * (4 * q + 1)). nia.
      - replace (4 * q + 1 =? 4 * q) with false by lia. replace (4 * q + 1 =? 4 * q + 3) with false by lia.
        exists (4 * q * q + 3 * q). nia.
      - replace (4 * q + 2 =? 4 * q) with false by lia. replace (4 * q + 2 =? 4 * q + 3) with false by lia.
        exists (4 * q * q + 5 * q + 1). nia.
      - replace (4 * q + 3 =? 4 * q) with false by lia. rewrite Z.eqb_refl.
        exists (4 * q * q + 7 * q + 3). nia. }
    destruct HT as [t HT]. clear TD.
    assert (E : exists a, get_noll_index m n = T + Z.abs m + a /\
        a = (if 0 <? m then if (n =? 4 * q) then 0 else if (n =? 4 * q + 1) then 0 else 1
             else if (n =? 4 * q + 2) then 0 else if (n =? 4 * q + 3) then 0 else 1)).
    { eexists. split; [unfold get_noll_index; fold T; reflexivity|].
      destruct (Z.ltb_spec 0 m), (Z.ltb_spec m 0); try lia; clearbody T; clear HT;
      destruct P as [P|[P|[P|P]]]; rewrite P; 
      repeat match goal with |- context [?a =? ?b] => destruct (Z.eqb_spec a b) end; lia. }
    destruct E as (a & -> & Ha). clearbody T.
    exists ((T + Z.abs m + a) / 2).
    destruct (Z.ltb_spec 0 m); destruct P as [P|[P|[P|P]]]; rewrite P in HT, Ha;
    repeat match type of Ha with context [?a =? ?b] => destruct (Z.eqb_spec a b) end;
    repeat match type of HT with context [?a =? ?b] => destruct (Z.eqb_spec a b) end; lia. }
  destruct X as [t ->]. destruct (Z.ltb_spec 0 m); split; intros; try lia.
  - exists t. lia.
  - destruct H1; lia.
Qed.

Lemma noll_inj m n m' n' : valid m n -> valid m' n' ->
  get_noll_index m n = get_noll_index m' n' -> m = m' /\ n = n'.
Proof.
  intros V V' E.
  destruct (Z.lt_total n n') as [L|[L|L]].
  - pose proof (noll_before_mono m n m' n' V V' (or_introl L)). lia.
  - subst n'. destruct (Z.lt_total (Z.abs m) (Z.abs m')) as [A|[A|A]].
    + pose proof (noll_before_mono m n m' n V V' (or_intror (conj eq_refl A))). lia.
    + destruct (Z.eq_dec m m') as [|D]; [auto|]. exfalso.
      assert (m <> 0) by lia. assert (m' <> 0) by lia.
      pose proof (noll_parity _ _ V H). pose proof (noll_parity _ _ V' H0).
      rewrite E in H1. rewrite H1 in H2. lia.
    + pose proof (noll_before_mono m' n m n V' V (or_intror (conj eq_refl A))). lia.
  - pose proof (noll_before_mono m' n' m n V' V (or_introl L)). lia.
Qed.

Lemma noll_pos m n : valid m n -> 1 <= get_noll_index m n.
Proof.
  intros (Hn & Hm & _). rewrite noll_split. pose proof (noll_add_01 m n). pose proof (tri_double n).
  destruct (Z.eq_dec m 0) as [->|]; [rewrite noll_add_0|]; nia.
Qed.

Lemma noll_row m n : valid m n -> n * (n + 1) / 2 + 1 <= get_noll_index m n <= n * (n + 1) / 2 + n + 1.
Proof.
  intros (Hn & Hm & _). rewrite noll_split. pose proof (noll_add_01 m n).
  set (T := n * (n + 1) / 2). clearbody T.
  destruct (Z.eq_dec m 0) as [->|NZ]; [rewrite noll_add_0; lia|].
  destruct (Z.eq_dec (Z.abs m) n) as [E|E]; lia.
Qed.

(** the partner with the opposite sign takes the other of the two numbers *)
Lemma noll_partner m n : 0 < m -> (n mod 4 = 0 \/ n mod 4 = 1 \/ n mod 4 = 2 \/ n mod 4 = 3) ->
  noll_add m n + noll_add (- m) n = 1.
Proof.
  intros Hm M. unfold noll_add, get_noll_index.
  destruct (Z.ltb_spec 0 m), (Z.ltb_spec 0 (- m)), (Z.ltb_spec (- m) 0); try lia.
  destruct (Z.eqb_spec (n mod 4) 0), (Z.eqb_spec ((n - 1) mod 4) 0),
     (Z.eqb_spec ((n - 2) mod 4) 0), (Z.eqb_spec ((n - 3) mod 4) 0); lia.
Qed.

Lemma noll_surj j : 1 <= j -> exists m n, valid m n /\ get_noll_index m n = j.
Proof.
  intros Hj. destruct (triangle_row (j - 1)) as (n & Hn & HL & HU); [lia|].
  set (i := j - 1 - n * (n + 1) / 2).
  assert (Hi : 0 <= i <= n) by (unfold i; lia).
  assert (Ej : j = i + 1 + n * (n + 1) / 2) by (unfold i; lia). clearbody i.
  assert (n4 : n mod 4 = 0 \/ n mod 4 = 1 \/ n mod 4 = 2 \/ n mod 4 = 3) by lia.
  (* |m| = i if i has the parity of n, else i+1; add = 1 resp. 0 *)
  destruct (Z.Even_or_Odd (n - i)) as [[a Ha]|[a Ha]].
  - destruct (Z.eq_dec i 0) as [->|Hi0].
    { exists 0, n. split; [split; [lia|split; [lia|exists a; lia]]|].
      rewrite noll_split, noll_add_0. lia. }
    assert (V : forall s, s = i \/ s = - i -> valid s n).
    { intros s Hs. split; [lia|split; [lia|exists a; lia]]. }
    pose proof (noll_partner i n ltac:(lia) n4) as PA.
    pose proof (noll_add_01 i n). pose proof (noll_add_01 (- i) n).
    destruct (Z.eq_dec (noll_add i n) 1) as [E|E].
    + exists i, n. split; [apply V; auto|]. rewrite noll_split. lia.
    + exists (- i), n. split; [apply V; auto|]. rewrite noll_split. lia.
  - assert (V : forall s, s = i + 1 \/ s = - (i + 1) -> valid s n).
    { intros s Hs. split; [lia|split; [lia|exists a; lia]]. }
    pose proof (noll_partner (i + 1) n ltac:(lia) n4) as PA.
    pose proof (noll_add_01 (i + 1) n). pose proof (noll_add_01 (- (i + 1)) n).
    destruct (Z.eq_dec (noll_add (i + 1) n) 0) as [E|E].
    + exists (i + 1), n. split; [apply V; auto|]. rewrite noll_split. lia.
    + exists (- (i + 1)), n. split; [apply V; auto|]. rewrite noll_split. lia.
Qed.

Lemma noll_numbering : numbering 1 get_noll_index.
Proof. split; [exact noll_pos|split; [exact noll_inj|exact noll_surj]]. Qed.

(** ** Fringe *)
Lemma fringe_split m n : valid m n -> exists a, n + Z.abs m = 2 * a /\ Z.abs m <= a /\
  get_fringe_index m n = (1 + a) ^ 2 - 2 * Z.abs m + (if m =? 0 then 0 else if 0 <? m then 0 else 1).
Proof.
  intros (Hn & Hm & k & Hk). exists (k + Z.abs m). split; [lia|split; [lia|]].
  unfold get_fringe_index.
  replace ((n + Z.abs m) / 2) with (k + Z.abs m) by lia.
  destruct (Z.eqb_spec m 0), (Z.ltb_spec 0 m); try lia.
Qed.

Lemma fringe_mono m n m' n' : valid m n -> valid m' n' ->
  fringe_before m n m' n' -> get_fringe_index m n < get_fringe_index m' n'.
Proof.
  intros V V' B.
  destruct (fringe_split _ _ V) as (a & Ha & La & ->).
  destruct (fringe_split _ _ V') as (a' & Ha' & La' & ->).
  destruct V as (Hn & Hm & _), V' as (Hn' & Hm' & _).
  rewrite !Z.pow_2_r.
  destruct B as [B|[B1 [B2|[B2 B3]]]].
  - destruct (Z.eqb_spec m 0), (Z.ltb_spec 0 m), (Z.eqb_spec m' 0), (Z.ltb_spec 0 m'); try lia; nia.
  - assert (a = a') by lia. subst a'.
    destruct (Z.eqb_spec m 0), (Z.ltb_spec 0 m), (Z.eqb_spec m' 0), (Z.ltb_spec 0 m'); try lia.
  - assert (a = a') by lia. subst a'.
    destruct (Z.eqb_spec m 0), (Z.ltb_spec 0 m), (Z.eqb_spec m' 0), (Z.ltb_spec 0 m'); try lia.
Qed.

Lemma fringe_total m n m' n' : fringe_before m n m' n' \/ fringe_before m' n' m n \/ (m = m' /\ n = n').
Proof. unfold fringe_before. lia. Qed.

Lemma fringe_inj m n m' n' : valid m n -> valid m' n' ->
  get_fringe_index m n = get_fringe_index m' n' -> m = m' /\ n = n'.
Proof.
  intros V V' E.
  destruct (fringe_total m n m' n') as [B|[B|B]]; [| |exact B];
  [pose proof (fringe_mono _ _ _ _ V V' B)|pose proof (fringe_mono _ _ _ _ V' V B)]; lia.
Qed.

Lemma fringe_pos m n : valid m n -> 1 <= get_fringe_index m n.
Proof.
  intros V. destruct (fringe_split _ _ V) as (a & Ha & La & ->). rewrite Z.pow_2_r.
  destruct V as (Hn & Hm & _). destruct (m =? 0), (0 <? m); nia.
Qed.

Lemma fringe_surj j : 1 <= j -> exists m n, valid m n /\ get_fringe_index m n = j.
Proof.
  intros Hj. set (a := Z.sqrt (j - 1)).
  assert (Ha : 0 <= a) by apply Z.sqrt_nonneg.
  assert (HS : a * a <= j - 1 < (a + 1) * (a + 1)).
  { pose proof (Z.sqrt_spec (j - 1) ltac:(lia)) as SS. cbv zeta in SS. fold a in SS. unfold Z.succ in SS. exact SS. }
  clearbody a.
  (* d = (a+1)^2 - j in [0, 2a];  |m| = (d+1)/2, sign by parity *)
  set (d := (a + 1) * (a + 1) - j). assert (Hd : 0 <= d <= 2 * a) by (unfold d; nia).
  assert (Ej : j = (a + 1) * (a + 1) - d) by (unfold d; lia). clearbody d.
  destruct (Z.Even_or_Odd d) as [[q Hq]|[q Hq]].
  - exists q, (2 * a - q).
    assert (V : valid q (2 * a - q)) by (split; [lia|split; [lia|exists (a - q); lia]]).
    split; [exact V|]. destruct (fringe_split _ _ V) as (a' & Ha' & La' & ->).
    assert (a' = a) by lia. subst a'. rewrite Z.pow_2_r.
    destruct (Z.eqb_spec q 0), (Z.ltb_spec 0 q); lia.
  - exists (- (q + 1)), (2 * a - (q + 1)).
    assert (V : valid (- (q + 1)) (2 * a - (q + 1))) by (split; [lia|split; [lia|exists (a - q - 1); lia]]).
    split; [exact V|]. destruct (fringe_split _ _ V) as (a' & Ha' & La' & ->).
    assert (a' = a) by lia. subst a'. rewrite Z.pow_2_r.
    destruct (Z.eqb_spec (- (q + 1)) 0), (Z.ltb_spec 0 (- (q + 1))); lia.
Qed.

Lemma fringe_numbering : numbering 1 get_fringe_index.
Proof. split; [exact fringe_pos|split; [exact fringe_inj|exact fringe_surj]]. Qed.

(** ** The search loops *)
Lemma search_row_found test n k : forall m m', search_row test n k m = (true, m') ->
  test m' n = true /\ exists i, (i < k)%nat /\ m' = m + 2 * Z.of_nat i.
Proof.
  induction k as [|k IH]; cbn [search_row]; intros m m' H; [discriminate|].
  destruct (test m n) eqn:T.
  - inv H. split; [exact T|]. exists 0%nat. lia.
  - destruct (IH _ _ H) as (T' & i & Hi & ->). split; [exact T'|]. exists (S i). lia.
Qed.

Lemma search_row_missed test n k : forall m m', search_row test n k m = (false, m') ->
  m' = m + 2 * Z.of_nat k /\ forall i, (i < k)%nat -> test (m + 2 * Z.of_nat i) n = false.
Proof.
  induction k as [|k IH]; cbn [search_row]; intros m m' H.
  - inv H. split; [lia|]. lia.
  - destruct (test m n) eqn:T; [discriminate|].
    destruct (IH _ _ H) as (-> & HI). split; [lia|]. intros [|i] Hi.
    + replace (m + 2 * Z.of_nat 0) with m by lia. exact T.
    + replace (m + 2 * Z.of_nat (S i)) with (m + 2 + 2 * Z.of_nat i) by lia. apply HI. lia.
Qed.

Lemma row_pos m n : 0 <= n -> (exists i, (i < Z.to_nat (n + 1))%nat /\ m = - n + 2 * Z.of_nat i) <-> valid m n.
Proof.
  intros Hn. split.
  - intros (i & Hi & ->). split; [exact Hn|split; [lia|]].
    destruct (Z.le_ge_cases 0 (- n + 2 * Z.of_nat i)).
    + exists (n - Z.of_nat i). lia.
    + exists (Z.of_nat i). lia.
  - intros (_ & Hm & k & Hk). destruct (Z.le_ge_cases 0 m).
    + exists (Z.to_nat (n - k)). lia.
    + exists (Z.to_nat k). lia.
Qed.

(** Either the search stops at valid orders passing the test, or no valid orders in
    the searched range pass it and the loop variables keep their last values. *)
Lemma search_spec test k : forall order mn, 0 <= order ->
  (exists m n, search test k order mn = (m, n) /\ valid m n /\ order <= n < order + Z.of_nat k /\ test m n = true)
  \/ ((forall m n, valid m n -> order <= n < order + Z.of_nat k -> test m n = false) /\
      search test k order mn =
        (if (k =? 0)%nat then mn else (order + Z.of_nat k + 1, order + Z.of_nat k - 1))).
Proof.
  induction k as [|k IH]; intros order mn Ho; cbn [search].
  - right. split; [lia|reflexivity].
  - destruct (search_row test order (Z.to_nat (order + 1)) (- order)) as [[|] m] eqn:R.
    + left. destruct (search_row_found _ _ _ _ _ R) as (T & HI).
      exists m, order. split; [reflexivity|]. split; [apply row_pos; [exact Ho|exact HI]|]. split; [lia|exact T].
    + destruct (search_row_missed _ _ _ _ _ R) as (-> & HI).
      destruct (IH (order + 1) (- order + 2 * Z.of_nat (Z.to_nat (order + 1)), order) ltac:(lia))
        as [(m & n & E & V & B & T)|[HN E]].
      * left. exists m, n. repeat split; try assumption; try apply V; lia.
      * right. split.
        -- intros m n V B. destruct (Z.eq_dec n order) as [->|D]; [|apply HN; [exact V|lia]].
           apply row_pos in V; [|exact Ho]. destruct V as (i & Hi & ->). apply HI, Hi.
        -- rewrite E. destruct k; cbn [Nat.eqb]; f_equal; lia.
Qed.

Lemma search_hit first f k m n (z : Z) : numbering first f ->
  valid m n -> n < Z.of_nat k -> f m n = z ->
  search (fun m n => z =? f m n) k 0 (-1, -1) = (m, n).
Proof.
  intros (_ & INJ & _) V B E.
  destruct (search_spec (fun m n => z =? f m n) k 0 (-1, -1) ltac:(lia)) as [(m' & n' & -> & V' & _ & T)|[HN _]].
  - apply Z.eqb_eq in T. destruct (INJ m n m' n' V V') as [-> ->]; [lia|reflexivity].
  - exfalso. specialize (HN m n V ltac:(destruct V; lia)). apply Z.eqb_neq in HN. lia.
Qed.

Lemma search_miss f k (z : Z) : (forall m n, valid m n -> n < Z.of_nat (S k) -> f m n <> z) ->
  search (fun m n => z =? f m n) (S k) 0 (-1, -1) = (Z.of_nat k + 2, Z.of_nat k).
Proof.
  intros HN.
  destruct (search_spec (fun m n => z =? f m n) (S k) 0 (-1, -1) ltac:(lia)) as [(m' & n' & E & V' & B & T)|[_ E]].
  - apply Z.eqb_eq in T. exfalso. apply (HN m' n' V'); lia.
  - rewrite E. simpl Nat.eqb. cbv iota. f_equal; lia.
Qed.

Lemma search_ext t t' k : (forall m n, t m n = t' m n) -> forall o mn, search t k o mn = search t' k o mn.
Proof.
  intros HT. assert (R : forall n k m, search_row t n k m = search_row t' n k m).
  { intros n k0. induction k0 as [|k0 IH]; simpl; intros; [reflexivity|]. rewrite HT. destruct (t' m n); auto. }
  induction k as [|k IH]; intros; cbn [search]; [reflexivity|]. rewrite R.
  destruct (search_row t' o _ _) as [[|] m]; auto.
Qed.

(** index keywords *)
Inductive conv := OSA | NOLL | FRINGE.
Definition conv_key c := match c with OSA => "osa_index" | NOLL => "noll_index" | FRINGE => "fringe_index" end%string.
Definition conv_f c := match c with OSA => get_osa_index | NOLL => get_noll_index | FRINGE => get_fringe_index end.
Definition conv_first c := match c with OSA => 0 | NOLL => 1 | FRINGE => 1 end.
Definition conv_high c : nat := match c with FRINGE => 250 | _ => 56 end.

Lemma conv_numbering c : numbering (conv_first c) (conv_f c).
Proof. destruct c; [apply osa_numbering|apply noll_numbering|apply fringe_numbering]. Qed.

Lemma index2orders_conv c v : index2orders [(conv_key c, v)] = index2orders_v v (conv_f c) (conv_high c).
Proof. destruct c; reflexivity. Qed.

Lemma as_int_value v z : as_int v = Some z -> py_ge0 v = Ok (0 <=? z) /\ forall x, py_eqZ v x = (z =? x).
Proof.
  destruct v; simpl; intros H; inv H; auto. destruct b; auto.
Qed.

Lemma index2orders_int c v z : as_int v = Some z ->
  index2orders [(conv_key c, v)] =
  Ok (search (fun m n => if 0 <=? z then z =? conv_f c m n else false) (conv_high c) 0 (-1, -1)).
Proof.
  intros H. rewrite index2orders_conv. unfold index2orders_v.
  destruct (as_int_value _ _ H) as [-> E]. cbn [bind]. f_equal. apply search_ext.
  intros m n. rewrite E. reflexivity.
Qed.

Lemma index2orders_hit c v z m n : as_int v = Some z ->
  valid m n -> n < Z.of_nat (conv_high c) -> conv_f c m n = z ->
  index2orders [(conv_key c, v)] = Ok (m, n).
Proof.
  intros H V B E. rewrite (index2orders_int _ _ _ H). f_equal.
  assert (0 <= z). { destruct (conv_numbering c) as (P & _). specialize (P m n V). destruct c; simpl in *; lia. }
  rewrite (search_ext _ (fun m n => z =? conv_f c m n)).
  - eapply search_hit; eauto using conv_numbering.
  - intros. destruct (Z.leb_spec 0 z); [reflexivity|lia].
Qed.

Lemma index2orders_miss c v z : as_int v = Some z ->
  (forall m n, valid m n -> n < Z.of_nat (conv_high c) -> conv_f c m n <> z) ->
  index2orders [(conv_key c, v)] = Ok (Z.of_nat (conv_high c) + 1, Z.of_nat (conv_high c) - 1).
Proof.
  intros H HN. rewrite (index2orders_int _ _ _ H). f_equal.
  destruct (search_spec (fun m n => if 0 <=? z then z =? conv_f c m n else false) (conv_high c) 0 (-1, -1) ltac:(lia))
    as [(m & n & E & V & B & T)|[_ E]].
  - exfalso. destruct (0 <=? z); [|discriminate]. apply Z.eqb_eq in T. apply (HN m n V); lia.
  - rewrite E. destruct c; simpl Nat.eqb; cbv iota; f_equal; lia.
Qed.

Lemma index2orders_total c v z : as_int v = Some z ->
  (exists m n, valid m n /\ n < Z.of_nat (conv_high c) /\ conv_f c m n = z
               /\ index2orders [(conv_key c, v)] = Ok (m, n))
  \/ ((forall m n, valid m n -> n < Z.of_nat (conv_high c) -> conv_f c m n <> z)
      /\ index2orders [(conv_key c, v)] = Ok (Z.of_nat (conv_high c) + 1, Z.of_nat (conv_high c) - 1)).
Proof.
  intros H. destruct (Z_le_gt_dec (conv_first c) z) as [L|G].
  - destruct (conv_numbering c) as (P & INJ & SURJ). destruct (SURJ z L) as (m & n & V & E).
    destruct (Z_lt_ge_dec n (Z.of_nat (conv_high c))) as [B|B].
    + left. exists m, n. split; [exact V|split; [exact B|split; [exact E|]]]. eapply index2orders_hit; eauto.
    + right. split; [|apply (index2orders_miss _ _ _ H)]; intros m' n' V' B' E';
      destruct (INJ m n m' n' V V') as [-> ->]; lia.
  - right. destruct (conv_numbering c) as (P & _ & _).
    split; [|apply (index2orders_miss _ _ _ H)]; intros m' n' V' B' E'; specialize (P m' n' V'); lia.
Qed.

(** ranges: which indices belong to n < highest *)
Lemma osa_range m n N : valid m n -> 0 <= N -> (n < N <-> get_osa_index m n < N * (N + 1) / 2).
Proof.
  intros V HN. pose proof (osa_row _ _ V). pose proof (tri_double n). pose proof (tri_double N).
  destruct V as (Hn & _). nia.
Qed.
Lemma noll_range m n N : valid m n -> 0 <= N -> (n < N <-> get_noll_index m n <= N * (N + 1) / 2).
Proof.
  intros V HN. pose proof (noll_row _ _ V). pose proof (tri_double n). pose proof (tri_double N).
  destruct V as (Hn & _). nia.
Qed.
