(** Lemmas for C60: what the methods do to kernel, coefficients and polynomials, and the simulation. *)
From Coq Require Import Reals Lra Lia List Bool.
From Verif Require Import Py M_Index M_Init M_Radial M_Coeffs M_Sum M_Geo M_Fit M_Psf M_Numba M_PsfClass M_Img M_Alias SpecAlias.
Import ListNotations.
Local Open Scope R_scope.

Lemma coeff_keeps c o : kern (fst (set_coeff c o)) = kern o /\ polynomials (fst (set_coeff c o)) = polynomials o /\
  coefficients (fst (set_coeff c o)) = match c with KSeq l => if (length l =? length (polynomials o))%nat then Some l else coefficients o | _ => coefficients o end.
Proof.
  unfold set_coeff. destruct c as [a|l|e].
  - destruct (zpol o); [repeat split|]. destruct (polynomials o) as [|x [|y t]] eqn:E; repeat split; cbn; rewrite ?E; reflexivity.
  - destruct (_ =? _)%nat; [destruct l; repeat split|]. destruct l as [|x [|y l]]; [repeat split| |repeat split]. destruct (polynomials o) eqn:E; repeat split; cbn; rewrite ?E; reflexivity.
  - destruct (zpol o); [repeat split|]. destruct (polynomials o) as [|x [|y t]] eqn:E; repeat split; cbn; rewrite ?E; reflexivity.
Qed.
Lemma estimate_keeps o : kern (fst (estimate_size o)) = kern o /\ polynomials (fst (estimate_size o)) = polynomials o /\ coefficients (fst (estimate_size o)) = coefficients o.
Proof.
  unfold estimate_size. destruct (zpol o); [destruct (get_kernel_size _ _ _ _ _); repeat split|]. destruct (polynomials o) as [|x t] eqn:EP; destruct (amplitudes o); try (split; [|split]; reflexivity || assumption);
    destruct (max_sizes _ _ _ _ _ _ _) as [[mx ma]|e]; repeat split; cbn; rewrite ?EP; reflexivity.
Qed.
Lemma physical_keeps na wl c px o :
  kern (fst (set_physical_props na wl c px o)) = kern o /\ polynomials (fst (set_physical_props na wl c px o)) = polynomials o /\
  coefficients (fst (set_physical_props na wl c px o)) = if stores_coeffs na wl c px o then match c with KSeq l => Some l | _ => coefficients o end else coefficients o.
Proof.
  unfold set_physical_props, stores_coeffs. destruct (_ || _); [repeat split|]. destruct (Rleb wl 0); [repeat split|]. cbv zeta. destruct (pydiv _ _) as [nyq|e]; [|repeat split]. destruct (Rleb px 0); [repeat split|]. destruct (Rltb nyq px); [repeat split|].
  match goal with |- context [set_coeff c ?x] => set (o1 := x); assert (S1 : kern o1 = kern o /\ polynomials o1 = polynomials o /\ coefficients o1 = coefficients o) by repeat split end.
  destruct S1 as (S1 & S2 & S3). destruct (coeff_keeps c o1) as (T1 & T2 & T3). destruct (set_coeff c o1) as [o2 [u|e]]; cbn [fst] in *.
  - destruct (estimate_keeps o2) as (U1 & U2 & U3). rewrite U1, U2, U3, T1, T2, T3, S1, S2, S3. repeat split. destruct c; reflexivity.
  - rewrite T1, T2, T3, S1, S2, S3. repeat split. destruct c; reflexivity.
Qed.
Lemma calculation_keeps ks nr nphi o : kern (fst (set_calculation_props ks nr nphi o)) = kern o /\ polynomials (fst (set_calculation_props ks nr nphi o)) = polynomials o /\
  coefficients (fst (set_calculation_props ks nr nphi o)) = coefficients o.
Proof. unfold set_calculation_props. destruct (ks <? 3)%Z; [repeat split|]. cbv zeta. destruct (nr <? 20)%Z; [repeat split|]. destruct (nphi <? 36)%Z; repeat split. Qed.
Lemma calculate_keeps rnd jv1 fuel su nm ac inst o s : let x := calculate_psf_kernel rnd jv1 fuel su nm ac inst o s in
  polynomials (fst (snd x)) = polynomials o /\ coefficients (fst (snd x)) = coefficients o /\
  kern (fst (snd x)) = match snd (snd x) with Ok K => K | Raise _ => kern o end /\
  (zpol o = None -> polynomials o = [] -> kern (fst (snd x)) = kern o).
Proof.
  unfold calculate_psf_kernel. cbv zeta. set (o1 := if negb (props_set o) && negb su then with_kernel_size 19 o else o).
  assert (E1 : polynomials o1 = polynomials o /\ coefficients o1 = coefficients o /\ kern o1 = kern o /\ zpol o1 = zpol o) by (unfold o1; destruct (_ && _); repeat split).
  destruct E1 as (E1 & E2 & E3 & E4).
  match goal with |- context [match ?x with (_, _) => _ end] => match type of x with (_ * res kernel)%type => destruct x as [s' [K|e]] eqn:EX end end; cbn [fst snd].
  - repeat split; try assumption. intros Z0 P0. cbn [kern with_kern]. rewrite E4, Z0, E1, P0 in EX. unfold mret in EX. congruence.
  - repeat split; try assumption. intros _ _. exact E3.
Qed.
Lemma parallel_keeps rnd fuel w nm o s : let x := get_kernel_parallel rnd fuel w nm o s in
  polynomials (fst (snd x)) = polynomials o /\ coefficients (fst (snd x)) = coefficients o /\
  kern (fst (snd x)) = match snd (snd x) with Ok K => K | Raise _ => kern o end.
Proof.
  unfold get_kernel_parallel. destruct (zpol o) eqn:EZ; [|repeat split]. destruct (_ <? 3)%Z; [repeat split|]. destruct (fill_kernel _ _ _ _ _ s) as [s' [l|]]; repeat split.
Qed.
Lemma crop_keeps part o : polynomials (fst (crop_kernel part o)) = polynomials o /\ coefficients (fst (crop_kernel part o)) = coefficients o /\
  kern (fst (crop_kernel part o)) = match crop_slice part o with Some s => take (kern o) s | None => kern o end.
Proof.
  unfold crop_kernel, crop_slice. destruct (_ <=? 3)%Z; [repeat split|]. destruct (Rleb part 0); [repeat split|]. destruct (Rleb (5 / 10) part); [repeat split|]. cbv zeta. destruct (0 <? _)%Z; repeat split.
Qed.
Lemma read_pols_keeps j o : kern (fst (read_pols j o)) = kern o /\ coefficients (fst (read_pols j o)) = coefficients o /\
  (reads_pols j = false -> polynomials (fst (read_pols j o)) = polynomials o) /\ (reads_pols j = true -> snd (read_pols j o) = Ok tt).
Proof.
  unfold read_pols, reads_pols. destruct (j_pol j) as [i|].
  - destruct (pol_of_osa i) as [q|q]; [|repeat split; discriminate]. destruct (j_pols j) as [[|a [|b l]]|]; cbn [andb]; try (repeat split; discriminate || reflexivity).
    + destruct (pol_of_osa a); repeat split; discriminate.
    + destruct (mapR pol_of_osa (a :: b :: l)); repeat split; discriminate.
  - destruct (j_pols j) as [[|a [|b l]]|]; cbn [andb]; try (repeat split; discriminate || reflexivity).
    + destruct (pol_of_osa a); repeat split; discriminate.
    + destruct (mapR pol_of_osa (a :: b :: l)); repeat split; discriminate.
Qed.
Lemma read_keeps j o : let o1 := opt (j_nphi j) with_n_int_phi (opt (j_nr j) with_n_int_r (opt (j_size j) with_kernel_size (opt (j_kernel j) with_kern o))) in
  kern (fst (read_json j o)) = match j_kernel j with Some K => K | None => kern o end /\
  (reads_pols j = false -> polynomials (fst (read_json j o)) = polynomials o) /\
  coefficients (fst (read_json j o)) =
    (if match snd (read_pols j o1), j_na j, j_wl j, j_px j, j_coeff j, j_amps j with
        | Ok _, Some na, Some wl, Some px, None, Some l =>
            is_some (j_kernel j) && is_some (j_size j) && is_some (j_nr j) && is_some (j_nphi j) && stores_coeffs na wl (KSeq l) px (fst (read_pols j o1))
        | _, _, _, _, _, _ => false
        end then match j_amps j with Some l => Some l | None => coefficients o end else coefficients o).
Proof.
  intros o1. unfold read_json. cbv zeta. fold o1.
  assert (E1 : kern o1 = match j_kernel j with Some K => K | None => kern o end /\ polynomials o1 = polynomials o /\ coefficients o1 = coefficients o)
    by (unfold o1; destruct (j_nphi j), (j_nr j), (j_size j), (j_kernel j); repeat split).
  destruct E1 as (E1 & E2 & E3). destruct (read_pols_keeps j o1) as (R1 & R2 & R3 & R4). rewrite E1 in R1. rewrite E3 in R2. rewrite E2 in R3.
  destruct (read_pols j o1) as [o2 [u|e]]; cbn [fst snd] in *; [|repeat split; assumption].
  destruct (j_na j) as [na|]; [|repeat split; assumption]. destruct (j_wl j) as [wl|]; [|repeat split; assumption]. destruct (j_px j) as [px|]; [|repeat split; assumption].
  destruct (j_coeff j) as [a|]; destruct (j_amps j) as [l|]; try (repeat split; assumption).
  - destruct (is_some _ && _ && _ && _); [|repeat split; assumption]. destruct (physical_keeps na wl (KNum a) px o2) as (P1 & P2 & P3). rewrite P1, P2. repeat split; try assumption. rewrite P3. destruct (stores_coeffs _ _ _ _ _); assumption.
  - destruct (is_some _ && _ && _ && _); cbn [andb]; [|repeat split; assumption]. destruct (physical_keeps na wl (KSeq l) px o2) as (P1 & P2 & P3). rewrite P1, P2. repeat split; try assumption. rewrite P3. destruct (stores_coeffs _ _ _ _ _); [reflexivity|assumption].
Qed.
Lemma init_keeps a v : zernpsf_init a = Ok v -> kern v = [[Fin 1]] /\ coefficients v = None /\
  (zpol v = None -> exists ps, a = CSeq (map IPol ps) /\ polynomials v = ps /\ ps <> []) /\ (zpol v <> None -> polynomials v = []).
Proof.
  destruct a as [[p|]|l]; cbn [zernpsf_init].
  - intros [= <-]. repeat split. discriminate.
  - intros [= <-]. repeat split. discriminate.
  - assert (H : forall l, match all_pols l with None => Raise ValueError | Some ps => if distinct_Z (map (fun p => get_osa_index (fst p) (snd p)) ps)
          then Ok (with_airy (existsb is_piston ps) (with_polynomials ps (with_zpol None defaults))) else Raise ValueError end = Ok v -> l <> [] -> kern v = [[Fin 1]] /\ coefficients v = None /\
       (zpol v = None -> exists ps, CSeq l = CSeq (map IPol ps) /\ polynomials v = ps /\ ps <> []) /\ (zpol v <> None -> polynomials v = [])).
    { clear l. intros l H NE. destruct (all_pols l) as [ps|] eqn:E; [|discriminate]. assert (EL : l = map IPol ps).
      { clear H NE. revert ps E. induction l as [|[p|] l IH]; intros ps E; cbn [all_pols] in E; [injection E as <-; reflexivity| |discriminate].
        destruct (all_pols l) as [qs|]; [|discriminate]. injection E as <-. cbn [map]. f_equal. apply IH. reflexivity. }
      destruct (distinct_Z _); [|discriminate]. injection H as <-. repeat split; [|intros X; cbn in X; congruence]. intros _. exists ps. repeat split; [f_equal; exact EL|]. intros ->. apply NE. exact EL. }
    destruct l as [|[p|] [|y t]]; try discriminate.
    + intros [= <-]. repeat split. discriminate.
    + intros E. apply H; [exact E|discriminate].
Qed.

(** references *)
Lemma deref_is st v k c p : kern v = read_view (bufs st) k -> coefficients v = coeffs_of (arrays st) c -> polynomials v = pols_of (lists st) p -> deref st (HObj v k c p) = v.
Proof. unfold deref. cbn [base o_kernel o_coeffs o_pols]. intros <- <- <-. destruct v. reflexivity. Qed.
Definition ref_ok (st : hstate) (o : hobj) : Prop :=
  (v_buf (o_kernel o) < length (bufs st))%nat /\ match o_coeffs o with CShared a => (a < length (arrays st))%nat | _ => True end /\
  match o_pols o with PShared p => (p < length (lists st))%nat | _ => True end.
Lemma upd_length {A} n (x : A) l : length (upd n x l) = length l.
Proof. revert n. induction l as [|y l IH]; intros [|n]; cbn; congruence. Qed.
Lemma nth_upd_other {A} n m (x d : A) l : n <> m -> nth m (upd n x l) d = nth m l d.
Proof. revert n m. induction l as [|y l IH]; intros [|n] [|m] H; cbn; try reflexivity; try congruence. apply IH. congruence. Qed.
Lemma nth_upd_same {A} n (x d : A) l : (n < length l)%nat -> nth n (upd n x l) d = x.
Proof. revert n. induction l as [|y l IH]; intros [|n] H; cbn in *; try lia; try reflexivity. apply IH. lia. Qed.
Lemma Forall2_upd {A B} (P : A -> B -> Prop) : forall l l' i x y, Forall2 P l l' -> P x y -> Forall2 P (upd i x l) (upd i y l').
Proof. intros l l' i x y H. revert i. induction H as [|a b l l' H1 H2 IH]; intros [|i] Q; cbn [upd]; constructor; auto. Qed.
Lemma Forall2_nth {A B} (P : A -> B -> Prop) l l' : Forall2 P l l' -> forall i, match nth_error l i, nth_error l' i with Some x, Some y => P x y | None, None => True | _, _ => False end.
Proof. induction 1 as [|a b l l' H1 H2 IH]; intros [|i]; cbn; auto. apply IH. Qed.
Lemma Forall2_impl' {A B} (P Q : A -> B -> Prop) l l' : (forall x y, In x l -> P x y -> Q x y) -> Forall2 P l l' -> Forall2 Q l l'.
Proof. intros H F. induction F as [|a b l l' H1 H2 IH]; constructor; [apply H; [left; reflexivity|exact H1]|apply IH; intros; apply H; [right|]; assumption]. Qed.

(** adding arrays, lists, buffers *)
Definition grows (st st' : hstate) : Prop :=
  (exists x, bufs st' = bufs st ++ x) /\ (exists x, arrays st' = arrays st ++ x) /\ (exists x, lists st' = lists st ++ x).
Lemma deref_grows st st' o : grows st st' -> ref_ok st o -> deref st' o = deref st o /\ ref_ok st' o.
Proof.
  intros ((x & E1) & (y & E2) & (z & E3)) (B1 & B2 & B3). unfold deref, ref_ok, read_view. rewrite E1, E2, E3, !app_length. rewrite app_nth1 by exact B1. split; [|split; [lia|]].
  - f_equal. f_equal; [destruct (o_coeffs o); cbn; try reflexivity; rewrite app_nth1 by assumption; reflexivity|]. f_equal. destruct (o_pols o); cbn; [rewrite app_nth1 by assumption; reflexivity|reflexivity].
  - split; [destruct (o_coeffs o); lia|destruct (o_pols o); lia].
Qed.
Lemma grows_refl st : grows st st.
Proof. repeat split; exists []; rewrite app_nil_r; reflexivity. Qed.

(** each object with its value *)
Definition rel1 (st : hstate) (o : hobj) (v : zernpsf) : Prop := deref st o = v /\ ref_ok st o.
Lemma rel1_is st v k c p : kern v = read_view (bufs st) k -> coefficients v = coeffs_of (arrays st) c -> polynomials v = pols_of (lists st) p ->
  ref_ok st (HObj v k c p) -> rel1 st (HObj v k c p) v.
Proof. intros. split; [apply deref_is; assumption|assumption]. Qed.
Lemma rel1_fields st o v : rel1 st o v -> kern v = read_view (bufs st) (o_kernel o) /\ coefficients v = coeffs_of (arrays st) (o_coeffs o) /\ polynomials v = pols_of (lists st) (o_pols o).
Proof. intros [<- _]. repeat split. Qed.

Lemma stores_seq na wl c px o : stores_coeffs na wl c px o = true -> exists l, c = KSeq l.
Proof.
  unfold stores_coeffs. destruct c as [a|l|e]; [|exists l; reflexivity|]; repeat match goal with |- (if ?b then _ else _) = _ -> _ => destruct b end; try discriminate;
    (destruct (pydiv _ _); [|discriminate]); repeat match goal with |- (if ?b then _ else _) = _ -> _ => destruct b end; discriminate.
Qed.
Lemma sim_physical st o v na wl c px : rel1 st o v -> coeff_made (arrays st) c = true ->
  let x := h_physical na wl c px o st in let y := set_physical_props na wl (hcoeff_value (arrays st) c) px v in snd x = snd y /\ rel1 st (fst x) (fst y).
Proof.
  intros RL MD. destruct (rel1_fields _ _ _ RL) as (F1 & F2 & F3). destruct RL as [<- (B1 & B2 & B3)]. cbv zeta. unfold h_physical. cbv zeta.
  assert (Q := physical_keeps na wl (hcoeff_value (arrays st) c) px (deref st o)). destruct (set_physical_props _ _ _ _ (deref st o)) as [v' r]. cbn [fst snd] in *. destruct Q as (K1 & K2 & K3). split; [reflexivity|].
  apply rel1_is; [congruence| |congruence|].
  - rewrite K3. destruct (stores_coeffs na wl (hcoeff_value (arrays st) c) px (deref st o)) eqn:SC; [|exact F2].
    apply stores_seq in SC. destruct SC as [l SC]. rewrite SC. destruct c; cbn in SC |- *; try discriminate; congruence.
  - split; [exact B1|]. split; [|exact B3]. cbn [o_coeffs]. destruct (stores_coeffs _ _ _ _ _); [|exact B2]. destruct c; cbn in MD |- *; try exact Logic.I. apply PeanoNat.Nat.ltb_lt, MD.
Qed.
Lemma sim_calculation st o v ks nr nphi : rel1 st o v ->
  let x := h_calculation ks nr nphi o st in let y := set_calculation_props ks nr nphi v in snd x = snd y /\ rel1 st (fst x) (fst y).
Proof.
  intros RL. destruct (rel1_fields _ _ _ RL) as (F1 & F2 & F3). destruct RL as [<- (B1 & B2 & B3)]. cbv zeta. unfold h_calculation.
  assert (Q := calculation_keeps ks nr nphi (deref st o)). destruct (set_calculation_props _ _ _ (deref st o)) as [v' r]. cbn [fst snd] in *. destruct Q as (K1 & K2 & K3). split; [reflexivity|].
  apply rel1_is; try congruence. split; [exact B1|]. split; [exact B2|exact B3].
Qed.
Lemma sim_crop st o v part : rel1 st o v ->
  let x := h_crop part o st in let y := crop_kernel part v in snd x = snd y /\ rel1 st (fst x) (fst y).
Proof.
  intros RL. destruct (rel1_fields _ _ _ RL) as (F1 & F2 & F3). destruct RL as [<- (B1 & B2 & B3)]. cbv zeta. unfold h_crop. cbv zeta.
  assert (Q := crop_keeps part (deref st o)). destruct (crop_kernel part (deref st o)) as [v' r]. cbn [fst snd] in *. destruct Q as (K1 & K2 & K3). split; [reflexivity|].
  apply rel1_is; try congruence.
  - rewrite K3. destruct (crop_slice part (deref st o)) as [s|]; [|exact F1]. unfold read_view. cbn [v_buf v_slices]. rewrite fold_left_app. cbn [fold_left]. f_equal.
  - split; [destruct (crop_slice _ _); exact B1|]. split; [exact B2|exact B3].
Qed.
Lemma new_buf_grows K st : grows st (snd (new_buf K st)).
Proof. repeat split; cbn; [exists [K]; reflexivity|exists []; rewrite app_nil_r; reflexivity|exists []; rewrite app_nil_r; reflexivity]. Qed.
Lemma read_new K st : read_view (bufs st ++ [K]) (View (length (bufs st)) []) = K.
Proof. unfold read_view. cbn [v_buf v_slices fold_left]. rewrite app_nth2 by lia. rewrite PeanoNat.Nat.sub_diag. reflexivity. Qed.
Lemma sim_calculate rnd jv1 fuel su nm ac inst st o v : rel1 st o v ->
  let x := h_calculate rnd jv1 fuel su nm ac inst o st in let y := calculate_psf_kernel rnd jv1 fuel su nm ac inst v (caches st) in
  snd (fst x) = snd (snd y) /\ rel1 (snd x) (fst (fst x)) (fst (snd y)) /\ grows st (snd x) /\ objs (snd x) = objs st /\ arrays (snd x) = arrays st /\ lists (snd x) = lists st /\ caches (snd x) = fst y.
Proof.
  intros RL. destruct (rel1_fields _ _ _ RL) as (F1 & F2 & F3). destruct RL as [<- (B1 & B2 & B3)]. cbv zeta. unfold h_calculate. cbv zeta.
  assert (Q := calculate_keeps rnd jv1 fuel su nm ac inst (deref st o) (caches st)). cbv zeta in Q. destruct (calculate_psf_kernel _ _ _ _ _ _ _ (deref st o) _) as [s' [v' r]]. cbn [fst snd] in *. destruct Q as (K1 & K2 & K3 & K4).
  assert (NEW : forall K, kern v' = K -> let st1 := snd (new_buf K (with_caches s' st)) in
     rel1 st1 (HObj v' (View (length (bufs (with_caches s' st))) []) (o_coeffs o) (o_pols o)) v' /\ grows st st1 /\ objs st1 = objs st /\ arrays st1 = arrays st /\ lists st1 = lists st /\ caches st1 = s').
  { intros K EK. cbv zeta. cbn [snd new_buf]. split; [|repeat split; cbn; [exists [K]; reflexivity|exists []; rewrite app_nil_r; reflexivity|exists []; rewrite app_nil_r; reflexivity]].
    apply rel1_is; try (cbn; congruence).
    - rewrite EK. symmetry. apply read_new.
    - split; [cbn; rewrite app_length; cbn; lia|]. split; [exact B2|exact B3]. }
  assert (OLD : kern v' = kern (deref st o) -> rel1 (with_caches s' st) (HObj v' (o_kernel o) (o_coeffs o) (o_pols o)) v' /\ grows st (with_caches s' st)).
  { intros EK. split; [|exact (grows_refl st)]. apply rel1_is; try (cbn in *; congruence). split; [exact B1|]. split; [exact B2|exact B3]. }
  destruct r as [K|e].
  - destruct (zpol (deref st o)) as [p|] eqn:EZ; [destruct (polynomials (deref st o)); (split; [reflexivity|]); exact (NEW K K3)|].
    destruct (polynomials (deref st o)) eqn:EP; (split; [reflexivity|]); [|exact (NEW K K3)]. destruct (OLD (K4 eq_refl eq_refl)). split; [assumption|]. split; [assumption|]. repeat split.
  - split; [reflexivity|]. destruct (OLD K3). split; [assumption|]. split; [assumption|]. repeat split.
Qed.
Lemma sim_parallel rnd fuel w nm st o v : rel1 st o v ->
  let x := h_parallel rnd fuel w nm o st in let y := get_kernel_parallel rnd fuel w nm v (caches st) in
  snd (fst x) = snd (snd y) /\ rel1 (snd x) (fst (fst x)) (fst (snd y)) /\ grows st (snd x) /\ objs (snd x) = objs st /\ arrays (snd x) = arrays st /\ lists (snd x) = lists st /\ caches (snd x) = fst y.
Proof.
  intros RL. destruct (rel1_fields _ _ _ RL) as (F1 & F2 & F3). destruct RL as [<- (B1 & B2 & B3)]. cbv zeta. unfold h_parallel.
  assert (Q := parallel_keeps rnd fuel w nm (deref st o) (caches st)). cbv zeta in Q. destruct (get_kernel_parallel _ _ _ _ (deref st o) _) as [s' [v' r]]. cbn [fst snd] in *. destruct Q as (K1 & K2 & K3).
  destruct r as [K|e].
  - assert (EU : upd (length (bufs st)) K (bufs st ++ [zeros K]) = bufs st ++ [K]) by (generalize (bufs st); induction l as [|x l IH]; cbn; [reflexivity|rewrite IH; reflexivity]).
    unfold new_buf, write_buf, with_bufs, with_caches. cbn [fst snd bufs arrays lists objs caches]. rewrite EU. split; [reflexivity|]. split; [|repeat split; cbn; [exists [K]; reflexivity|exists []; rewrite app_nil_r; reflexivity|exists []; rewrite app_nil_r; reflexivity]].
    apply rel1_is; try (cbn; congruence).
    + rewrite K3. symmetry. apply read_new.
    + split; [cbn; rewrite app_length; cbn; lia|]. split; [exact B2|exact B3].
  - split; [reflexivity|]. split; [|split; [exact (grows_refl st)|repeat split]]. apply rel1_is; try (cbn in *; congruence). split; [exact B1|]. split; [exact B2|exact B3].
Qed.
Lemma sim_read j st o v : rel1 st o v ->
  let x := h_read j o st in let y := read_json j v in
  snd (fst x) = snd y /\ rel1 (snd x) (fst (fst x)) (fst y) /\ grows st (snd x) /\ objs (snd x) = objs st /\ arrays (snd x) = arrays st /\ lists (snd x) = lists st /\ caches (snd x) = caches st.
Proof.
  intros RL. destruct (rel1_fields _ _ _ RL) as (F1 & F2 & F3). destruct RL as [<- (B1 & B2 & B3)]. cbv zeta. unfold h_read. cbv zeta.
  assert (Q := read_keeps j (deref st o)). cbv zeta in Q. destruct Q as (K1 & K2 & K3).
  match type of K3 with _ = if ?b then _ else _ => set (sb := b) in * end.
  destruct (read_json j (deref st o)) as [v' r]. cbn [fst snd] in *.
  assert (COMMON : forall st1 kv, grows st st1 -> arrays st1 = arrays st -> lists st1 = lists st -> read_view (bufs st1) kv = kern v' -> (v_buf kv < length (bufs st1))%nat ->
    rel1 st1 (HObj v' kv (if sb then match j_amps j with Some l => COwn l | None => o_coeffs o end else o_coeffs o) (if reads_pols j then POwn (polynomials v') else o_pols o)) v').
  { intros st1 kv G EA EL RV BV. apply rel1_is; [congruence|rewrite K3, EA|rewrite EL|].
    - destruct sb; [destruct (j_amps j); [reflexivity|exact F2]|exact F2].
    - destruct (reads_pols j) eqn:ER; [reflexivity|]. rewrite (K2 eq_refl). exact F3.
    - split; [exact BV|]. cbn [o_coeffs o_pols]. rewrite EA, EL. split; [destruct sb; [destruct (j_amps j); [exact Logic.I|exact B2]|exact B2]|destruct (reads_pols j); [exact Logic.I|exact B3]]. }
  destruct (j_kernel j) as [K|] eqn:EJ.
  - cbn [new_buf fst snd]. split; [reflexivity|]. assert (G : grows st (with_bufs (bufs st ++ [K]) st)) by exact (new_buf_grows K st). split; [|split; [exact G|repeat split]].
    apply COMMON; [exact G|reflexivity|reflexivity|cbn; rewrite K1; apply read_new|cbn; rewrite app_length; cbn; lia].
  - cbn [fst snd]. split; [reflexivity|]. split; [|split; [apply grows_refl|repeat split]]. apply COMMON; [apply grows_refl|reflexivity|reflexivity|congruence|exact B1].
Qed.

(** ** simulation of whole programs *)
Record rel (st : hstate) (vs : vstate) : Prop := {
  r_arrays : v_arrays vs = arrays st; r_lists : v_lists vs = lists st; r_caches : v_caches vs = caches st; r_objs : Forall2 (rel1 st) (objs st) (v_objs vs);
  r_default : nth_error (bufs st) 0 = Some [[Fin 1]] }.
Lemma rel1_grows st st' o v : grows st st' -> rel1 st o v -> rel1 st' o v.
Proof. intros G [E B]. destruct (deref_grows st st' o G B) as [E' B']. split; [congruence|exact B']. Qed.
Lemma rels_grow st st' l l' : grows st st' -> Forall2 (rel1 st) l l' -> Forall2 (rel1 st') l l'.
Proof. intros G. apply Forall2_impl'. intros x y _. apply rel1_grows, G. Qed.
Lemma default_grows st st' : grows st st' -> nth_error (bufs st) 0 = Some [[Fin 1]] -> nth_error (bufs st') 0 = Some [[Fin 1]].
Proof. intros ((x & ->) & _) H. destruct (bufs st); [discriminate|exact H]. Qed.
Lemma rel_put st st' vs i o v ar li s' : rel st vs -> grows st st' -> objs st' = objs st -> arrays st' = ar -> lists st' = li -> caches st' = s' -> v_arrays vs = ar -> v_lists vs = li -> rel1 st' o v ->
  rel (with_objs (upd i o (objs st')) st') (VState ar li (upd i v (v_objs vs)) s').
Proof.
  intros [H1 H2 H3 H4 H5] G EO EA EL EC EVA EVL R1. constructor; cbn; try congruence.
  - rewrite EO. apply Forall2_upd; [|exact R1]. exact (rels_grow st st' _ _ G H4).
  - exact (default_grows st st' G H5).
Qed.
Lemma sim_step rnd jv1 fuel c st vs : rel st vs -> careful_step c st ->
  fst (hstep rnd jv1 fuel c st) = fst (vstep rnd jv1 fuel c vs) /\ rel (snd (hstep rnd jv1 fuel c st)) (snd (vstep rnd jv1 fuel c vs)).
Proof.
  intros RL CF. assert (RL' := RL). destruct RL' as [H1 H2 H3 H4 H5]. destruct vs as [ar li ob s]. cbn in H1, H2, H3, H4. subst ar li s. assert (NTH := Forall2_nth _ _ _ H4).
  assert (KEEP : forall i o, nth_error (objs st) i = Some o -> exists v, nth_error ob i = Some v /\ rel1 st o v).
  { intros i o E. specialize (NTH i). rewrite E in NTH. destruct (nth_error ob i) as [v|]; [exists v; split; [reflexivity|exact NTH]|contradiction]. }
  assert (NONE : forall i, nth_error (objs st) i = None -> nth_error ob i = None).
  { intros i E. specialize (NTH i). rewrite E in NTH. destruct (nth_error ob i); [contradiction|reflexivity]. }
  destruct c as [l|l|b K|a l|p l|a|i na wl c px|i ks nr nphi|i su nm ac inst|i w nm|i part|i|i j|i|i eps cast t img sc]; cbn [hstep vstep fst snd].
  - split; [reflexivity|]. assert (G : grows st (with_arrays (arrays st ++ [l]) st)) by (repeat split; cbn; [exists []; rewrite app_nil_r; reflexivity|exists [l]; reflexivity|exists []; rewrite app_nil_r; reflexivity]).
    constructor; cbn; try reflexivity; [exact (rels_grow _ _ _ _ G H4)|exact H5].
  - split; [reflexivity|]. assert (G : grows st (with_lists (lists st ++ [l]) st)) by (repeat split; cbn; [exists []; rewrite app_nil_r; reflexivity|exists []; rewrite app_nil_r; reflexivity|exists [l]; reflexivity]).
    constructor; cbn; try reflexivity; [exact (rels_grow _ _ _ _ G H4)|exact H5].
  - split; [reflexivity|]. destruct CF as [B0 CF]. rewrite Forall_forall in CF. constructor; cbn; try reflexivity.
    + revert H4. apply Forall2_impl'. intros o v IN [<- (B1 & B2 & B3)]. split.
      * unfold deref, read_view. cbn. rewrite nth_upd_other by (apply not_eq_sym, CF, IN). reflexivity.
      * split; [cbn; rewrite upd_length; exact B1|]. split; [exact B2|exact B3].
    + destruct b as [|b]; [congruence|]. destruct (bufs st); [discriminate|exact H5].
  - split; [reflexivity|]. cbn in CF. rewrite Forall_forall in CF. constructor; cbn; try reflexivity; [|exact H5].
    revert H4. apply Forall2_impl'. intros o v IN [<- (B1 & B2 & B3)]. specialize (CF o IN). split.
    + unfold deref. cbn. f_equal. f_equal. destruct (o_coeffs o) as [|a'|]; cbn; try reflexivity. rewrite nth_upd_other by congruence. reflexivity.
    + split; [exact B1|]. split; [|exact B3]. cbn. rewrite upd_length. exact B2.
  - split; [reflexivity|]. cbn in CF. rewrite Forall_forall in CF. constructor; cbn; try reflexivity; [|exact H5].
    revert H4. apply Forall2_impl'. intros o v IN [<- (B1 & B2 & B3)]. specialize (CF o IN). split.
    + unfold deref. cbn. f_equal. f_equal. f_equal. destruct (o_pols o) as [p'|]; cbn; try reflexivity. rewrite nth_upd_other by congruence. reflexivity.
    + split; [exact B1|]. split; [exact B2|]. cbn. rewrite upd_length. exact B3.
  - destruct (arg_made (lists st) a) eqn:AM; [|split; [reflexivity|exact RL]]. unfold h_new. destruct (zernpsf_init (harg_value (lists st) a)) as [v|e] eqn:EI; cbn [bind]; [|split; [reflexivity|exact RL]].
    split; [reflexivity|]. destruct (init_keeps _ _ EI) as (I1 & I2 & I3 & I4).
    assert (E0 : read_view (bufs st) (View 0 []) = [[Fin 1]]) by (unfold read_view; cbn; destruct (bufs st); [discriminate|injection H5 as ->; reflexivity]).
    constructor; cbn [arrays lists caches objs bufs v_arrays v_lists v_objs v_caches snd with_objs]; try reflexivity; [|exact H5]. apply Forall2_app; [exact H4|]. constructor; [|constructor].
    apply rel1_is; [rewrite I1; symmetry; exact E0|exact I2| |].
    + destruct a as [x|l|p]; [reflexivity|reflexivity|]. destruct (zpol v) eqn:EZ; [reflexivity|]. destruct (I3 eq_refl) as (ps & EP & -> & _). cbn in EP |- *. injection EP as EP.
      revert EP. generalize (nth p (lists st) []). clear. intros l. revert ps. induction l as [|x l IH]; intros [|y ps] E; try discriminate; [reflexivity|]. cbn in E. injection E as -> E. f_equal. apply IH, E.
    + split; [cbn; destruct (bufs st); [discriminate|cbn; lia]|]. split; [exact Logic.I|]. destruct a as [x|l|p]; cbn; [exact Logic.I|exact Logic.I|]. destruct (zpol v); [exact Logic.I|]. apply PeanoNat.Nat.ltb_lt. exact AM.
  - destruct (coeff_made (arrays st) c) eqn:CM; [|split; [reflexivity|exact RL]]. destruct (nth_error (objs st) i) as [o|] eqn:EO; [|rewrite (NONE _ EO); split; [reflexivity|exact RL]].
    destruct (KEEP _ _ EO) as (v & -> & R1). destruct (sim_physical st o v na wl c px R1 CM) as [E1 E2]. destruct (h_physical na wl c px o st) as [o' r], (set_physical_props na wl (hcoeff_value (arrays st) c) px v) as [v' r']. cbn [fst snd] in *. subst r'.
    split; [reflexivity|]. apply (rel_put st st _ i o' v' _ _ _ RL (grows_refl st)); try reflexivity. exact E2.
  - destruct (nth_error (objs st) i) as [o|] eqn:EO; [|rewrite (NONE _ EO); split; [reflexivity|exact RL]].
    destruct (KEEP _ _ EO) as (v & -> & R1). destruct (sim_calculation st o v ks nr nphi R1) as [E1 E2]. destruct (h_calculation ks nr nphi o st) as [o' r], (set_calculation_props ks nr nphi v) as [v' r']. cbn [fst snd] in *. subst r'.
    split; [reflexivity|]. apply (rel_put st st _ i o' v' _ _ _ RL (grows_refl st)); try reflexivity. exact E2.
  - destruct (nth_error (objs st) i) as [o|] eqn:EO; [|rewrite (NONE _ EO); split; [reflexivity|exact RL]].
    destruct (KEEP _ _ EO) as (v & -> & R1). destruct (sim_calculate rnd jv1 fuel su nm ac inst st o v R1) as (E1 & E2 & E3 & E4 & E5 & E6 & E7).
    destruct (h_calculate rnd jv1 fuel su nm ac inst o st) as [[o' r] st'], (calculate_psf_kernel rnd jv1 fuel su nm ac inst v (caches st)) as [s' [v' r']]. cbn [fst snd] in *. subst r' s'.
    split; [reflexivity|]. apply (rel_put st st' _ i o' v' _ _ _ RL E3); try assumption; reflexivity.
  - destruct (nth_error (objs st) i) as [o|] eqn:EO; [|rewrite (NONE _ EO); split; [reflexivity|exact RL]].
    destruct (KEEP _ _ EO) as (v & -> & R1). destruct (sim_parallel rnd fuel w nm st o v R1) as (E1 & E2 & E3 & E4 & E5 & E6 & E7).
    destruct (h_parallel rnd fuel w nm o st) as [[o' r] st'], (get_kernel_parallel rnd fuel w nm v (caches st)) as [s' [v' r']]. cbn [fst snd] in *. subst r' s'.
    split; [reflexivity|]. apply (rel_put st st' _ i o' v' _ _ _ RL E3); try assumption; reflexivity.
  - destruct (nth_error (objs st) i) as [o|] eqn:EO; [|rewrite (NONE _ EO); split; [reflexivity|exact RL]].
    destruct (KEEP _ _ EO) as (v & -> & R1). destruct (sim_crop st o v part R1) as [E1 E2]. destruct (h_crop part o st) as [o' r], (crop_kernel part v) as [v' r']. cbn [fst snd] in *. subst r'.
    split; [reflexivity|]. apply (rel_put st st _ i o' v' _ _ _ RL (grows_refl st)); try reflexivity. exact E2.
  - destruct (nth_error (objs st) i) as [o|] eqn:EO; [|rewrite (NONE _ EO); split; [reflexivity|exact RL]]. destruct (KEEP _ _ EO) as (v & -> & [-> _]). split; [reflexivity|exact RL].
  - destruct (nth_error (objs st) i) as [o|] eqn:EO; [|rewrite (NONE _ EO); split; [reflexivity|exact RL]].
    destruct (KEEP _ _ EO) as (v & -> & R1). destruct (sim_read j st o v R1) as (E1 & E2 & E3 & E4 & E5 & E6 & E7).
    destruct (h_read j o st) as [[o' r] st'], (read_json j v) as [v' r']. cbn [fst snd] in *. subst r'.
    split; [reflexivity|]. apply (rel_put st st' _ i o' v' _ _ _ RL E3); try assumption; reflexivity.
  - destruct (nth_error (objs st) i) as [o|] eqn:EO; [|rewrite (NONE _ EO); split; [reflexivity|exact RL]]. destruct (KEEP _ _ EO) as (v & -> & [-> _]). split; [reflexivity|exact RL].
  - destruct (nth_error (objs st) i) as [o|] eqn:EO; [|rewrite (NONE _ EO); split; [reflexivity|exact RL]]. destruct (KEEP _ _ EO) as (v & -> & [-> _]). split; [reflexivity|exact RL].
Qed.
Lemma sim_run rnd jv1 fuel prog : forall st vs, rel st vs -> careful rnd jv1 fuel prog st ->
  fst (hrun rnd jv1 fuel prog st) = fst (vrun rnd jv1 fuel prog vs) /\ rel (snd (hrun rnd jv1 fuel prog st)) (snd (vrun rnd jv1 fuel prog vs)).
Proof.
  induction prog as [|c tl IH]; intros st vs RL CF; [split; [reflexivity|exact RL]|]. destruct CF as [C1 C2]. cbn [hrun vrun]. destruct (sim_step rnd jv1 fuel c st vs RL C1) as [E1 E2].
  destruct (hstep rnd jv1 fuel c st) as [x st1], (vstep rnd jv1 fuel c vs) as [y vs1]. cbn [fst snd] in *. subst y. destruct (IH st1 vs1 E2 C2) as [E3 E4].
  destruct (hrun rnd jv1 fuel tl st1) as [xs st2], (vrun rnd jv1 fuel tl vs1) as [ys vs2]. cbn [fst snd] in *. subst ys. split; [reflexivity|exact E4].
Qed.
Lemma rel_start s : rel (hstart s) (vstart s).
Proof. constructor; try reflexivity. constructor. Qed.

(** ** the package writes into no container *)
Definition keeps_all (c : op) (st st' : hstate) : Prop :=
  (forall b K, nth_error (bufs st) b = Some K -> (forall K', c <> WriteKernel b K') -> nth_error (bufs st') b = Some K) /\
  (forall a l, nth_error (arrays st) a = Some l -> (forall l', c <> WriteArray a l') -> nth_error (arrays st') a = Some l) /\
  (forall p l, nth_error (lists st) p = Some l -> (forall l', c <> WriteList p l') -> nth_error (lists st') p = Some l).
Lemma nth_error_app_some {A} (l l' : list A) n x : nth_error l n = Some x -> nth_error (l ++ l') n = Some x.
Proof. intros H. rewrite nth_error_app1; [exact H|]. apply nth_error_Some. congruence. Qed.
Lemma grows_keeps c st st' : grows st st' -> keeps_all c st st'.
Proof. intros ((x & E1) & (y & E2) & (z & E3)). unfold keeps_all. rewrite E1, E2, E3. repeat split; intros; apply nth_error_app_some; assumption. Qed.
Lemma nth_error_upd {A} n m (x : A) l : n <> m -> nth_error (upd n x l) m = nth_error l m.
Proof. revert n m. induction l as [|y l IH]; intros [|n] [|m] H; cbn; try reflexivity; try congruence. apply IH. congruence. Qed.
Lemma grows_put st st' o : grows st st' -> grows st (with_objs o st').
Proof. intros H. exact H. Qed.
Lemma calculate_grows rnd jv1 fuel su nm ac inst o st : grows st (snd (h_calculate rnd jv1 fuel su nm ac inst o st)).
Proof.
  unfold h_calculate. cbv zeta. destruct (calculate_psf_kernel _ _ _ _ _ _ _ _ _) as [s' [v' [K|e]]]; [|exact (grows_refl st)].
  destruct (zpol _); [exact (new_buf_grows K (with_caches s' st))|]. destruct (polynomials _); [exact (grows_refl st)|exact (new_buf_grows K (with_caches s' st))].
Qed.
Lemma parallel_grows rnd fuel w nm o st : grows st (snd (h_parallel rnd fuel w nm o st)).
Proof.
  unfold h_parallel. destruct (get_kernel_parallel _ _ _ _ _ _) as [s' [v' [K|e]]]; [|exact (grows_refl st)].
  assert (EU : upd (length (bufs st)) K (bufs st ++ [zeros K]) = bufs st ++ [K]) by (generalize (bufs st); induction l as [|x l IH]; cbn; [reflexivity|rewrite IH; reflexivity]).
  unfold new_buf, write_buf, with_bufs, with_caches. cbn [fst snd bufs arrays lists objs caches]. rewrite EU. exact (new_buf_grows K (with_caches s' st)).
Qed.
Lemma read_grows j o st : grows st (snd (h_read j o st)).
Proof. unfold h_read. cbv zeta. destruct (read_json _ _) as [v' r]. destruct (j_kernel j) as [K|]; [exact (new_buf_grows K st)|exact (grows_refl st)]. Qed.
Lemma step_keeps rnd jv1 fuel c st : keeps_all c st (snd (hstep rnd jv1 fuel c st)).
Proof.
  assert (R0 := grows_keeps c st st (grows_refl st)).
  destruct c as [l|l|b K|a l|p l|a|i na wl c px|i ks nr nphi|i su nm ac inst|i w nm|i part|i|i j|i|i eps cast t img sc]; cbn [hstep].
  - apply grows_keeps. repeat split; cbn; [exists []; rewrite app_nil_r; reflexivity|exists [l]; reflexivity|exists []; rewrite app_nil_r; reflexivity].
  - apply grows_keeps. repeat split; cbn; [exists []; rewrite app_nil_r; reflexivity|exists []; rewrite app_nil_r; reflexivity|exists [l]; reflexivity].
  - repeat split; cbn; try tauto. intros b' K' H N. rewrite nth_error_upd; [exact H|]. intros ->. apply (N K). reflexivity.
  - repeat split; cbn; try tauto. intros b' K' H N. rewrite nth_error_upd; [exact H|]. intros ->. apply (N l). reflexivity.
  - repeat split; cbn; try tauto. intros b' K' H N. rewrite nth_error_upd; [exact H|]. intros ->. apply (N l). reflexivity.
  - destruct (arg_made _ a); [|exact R0]. destruct (h_new a st); exact R0.
  - destruct (coeff_made _ c); [|exact R0]. destruct (nth_error (objs st) i) as [o|]; [|exact R0]. destruct (h_physical na wl c px o st). exact R0.
  - destruct (nth_error (objs st) i) as [o|]; [|exact R0]. destruct (h_calculation ks nr nphi o st). exact R0.
  - destruct (nth_error (objs st) i) as [o|]; [|exact R0]. assert (G := calculate_grows rnd jv1 fuel su nm ac inst o st). destruct (h_calculate _ _ _ _ _ _ _ o st) as [[o' r] st']. apply grows_keeps. exact G.
  - destruct (nth_error (objs st) i) as [o|]; [|exact R0]. assert (G := parallel_grows rnd fuel w nm o st). destruct (h_parallel _ _ _ _ o st) as [[o' r] st']. apply grows_keeps. exact G.
  - destruct (nth_error (objs st) i) as [o|]; [|exact R0]. destruct (h_crop part o st). exact R0.
  - destruct (nth_error (objs st) i) as [o|]; exact R0.
  - destruct (nth_error (objs st) i) as [o|]; [|exact R0]. assert (G := read_grows j o st). destruct (h_read j o st) as [[o' r] st']. apply grows_keeps. exact G.
  - destruct (nth_error (objs st) i) as [o|]; exact R0.
  - destruct (nth_error (objs st) i) as [o|]; exact R0.
Qed.
Lemma run_keeps rnd jv1 fuel prog : forall st,
  (forall b K, nth_error (bufs st) b = Some K -> (forall K', ~ In (WriteKernel b K') prog) -> nth_error (bufs (snd (hrun rnd jv1 fuel prog st))) b = Some K) /\
  (forall a l, nth_error (arrays st) a = Some l -> (forall l', ~ In (WriteArray a l') prog) -> nth_error (arrays (snd (hrun rnd jv1 fuel prog st))) a = Some l) /\
  (forall p l, nth_error (lists st) p = Some l -> (forall l', ~ In (WriteList p l') prog) -> nth_error (lists (snd (hrun rnd jv1 fuel prog st))) p = Some l).
Proof.
  induction prog as [|c tl IH]; intros st; [repeat split; intros; assumption|]. cbn [hrun]. destruct (step_keeps rnd jv1 fuel c st) as (S1 & S2 & S3). destruct (hstep rnd jv1 fuel c st) as [x st1]. cbn [snd] in *.
  destruct (IH st1) as (T1 & T2 & T3). destruct (hrun rnd jv1 fuel tl st1) as [xs st2]. cbn [snd] in *. repeat split; intros n y H N.
  - apply T1; [apply S1; [exact H|]|]; intros K' E; apply (N K'); [left; exact E|right; exact E].
  - apply T2; [apply S2; [exact H|]|]; intros K' E; apply (N K'); [left; exact E|right; exact E].
  - apply T3; [apply S3; [exact H|]|]; intros K' E; apply (N K'); [left; exact E|right; exact E].
Qed.
