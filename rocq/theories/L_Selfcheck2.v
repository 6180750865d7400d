(** Lemmas for C76: check_equal_coeffs, and the tables of find_pols_coeffs.py only grow. *)
From Coq Require Import Lia Permutation.
From Verif Require Import Py SpecIndex RadialMath L_Index M_Coeffs SpecCoeffs L_Dict L_Coeffs L_Cache L_CoeffVal L_Value L_RadialProps M_Selfcheck.
From Verif Require Import M_Radial.
Local Open Scope Z_scope.

(** ** check_equal_coeffs *)
Lemma dget_In k v d : dget k d = Some v -> In (k, v) d.
Proof.
  induction d as [|[a b] d IH]; cbn [dget In]; [discriminate|]. destruct (Z.eqb_spec k a) as [->|N]; [intros [= ->]; left; reflexivity|intros H; right; auto].
Qed.
Lemma dget_NoDup k v d : NoDup (map fst d) -> In (k, v) d -> dget k d = Some v.
Proof.
  induction d as [|[a b] d IH]; cbn [map fst]; intros ND; [intros []|]. inversion ND as [|? ? NI ND']; subst. cbn [dget In].
  intros [[= -> ->]|H]; [rewrite Z.eqb_refl; reflexivity|]. destruct (Z.eqb_spec k a) as [->|N]; [|auto].
  elim NI. apply (in_map fst) in H. exact H.
Qed.
Lemma dget_None k d : dget k d = None <-> ~ In k (map fst d).
Proof.
  induction d as [|[a b] d IH]; cbn [dget map fst In]; [tauto|]. destruct (Z.eqb_spec k a) as [->|N]; [split; [discriminate|intros H; elim H; auto]|].
  rewrite IH. split; [intros H [E|E]; [congruence|contradiction]|tauto].
Qed.
Lemma equal_loop_true items c2 : equal_loop items c2 = Ok true <-> forall k v, In (k, v) items -> dget k c2 = Some v.
Proof.
  induction items as [|[k v] tl IH]; cbn [equal_loop In]; [split; [intros _ k v []|reflexivity]|].
  destruct (dget k c2) as [w|] eqn:E.
  - destruct (Z.eqb_spec v w) as [->|N].
    + rewrite IH. split; [intros H k' v' [[= <- <-]|X]; auto|auto].
    + split; [discriminate|]. intros H. specialize (H k v (or_introl eq_refl)). congruence.
  - split; [discriminate|]. intros H. specialize (H k v (or_introl eq_refl)). congruence.
Qed.
Lemma equal_loop_raise items c2 e : equal_loop items c2 = Raise e -> e = KeyError /\ exists k, In k (map fst items) /\ dget k c2 = None.
Proof.
  induction items as [|[k v] tl IH]; cbn [equal_loop map fst In]; [discriminate|].
  destruct (dget k c2) as [w|] eqn:E; [|intros [= <-]; split; [reflexivity|exists k; auto]].
  destruct (v =? w); [|discriminate]. intros H. destruct (IH H) as (A & k' & B & C). split; [exact A|exists k'; auto].
Qed.
Lemma check_equal_spec c1 c2 : NoDup (map fst c1) -> NoDup (map fst c2) ->
  (check_equal_coeffs c1 c2 = Ok true <-> forall k, dget k c1 = dget k c2).
Proof.
  intros N1 N2. unfold check_equal_coeffs. destruct (Nat.eqb_spec (length c1) (length c2)) as [L|L].
  - rewrite equal_loop_true. split.
    + intros H k. destruct (dget k c1) as [v|] eqn:E; [symmetry; apply H, dget_In, E|]. symmetry. apply dget_None. intros X. apply dget_None in E. apply E.
      assert (I : incl (map fst c1) (map fst c2)).
      { intros a A. apply in_map_iff in A. destruct A as ((a' & v) & <- & A). apply H in A. apply dget_In in A. apply (in_map fst) in A. exact A. }
      assert (J : incl (map fst c2) (map fst c1)) by (apply NoDup_length_incl; [exact N1|rewrite !map_length; lia|exact I]). apply J, X.
    + intros H k v X. rewrite <- H. apply dget_NoDup; assumption.
  - split; [discriminate|]. intros H. elim L.
    assert (I : forall a b, (forall k, dget k a = dget k b) -> incl (map fst a) (map fst b)).
    { intros a b AB k X. destruct (in_dec Z.eq_dec k (map fst b)) as [Y|Y]; [exact Y|]. apply dget_None in Y. rewrite <- AB in Y. apply dget_None in Y. contradiction. }
    pose proof (NoDup_incl_length N1 (I c1 c2 H)) as A. pose proof (NoDup_incl_length N2 (I c2 c1 (fun k => eq_sym (H k)))) as B. rewrite !map_length in A, B. lia.
Qed.
Lemma check_equal_refl c : NoDup (map fst c) -> check_equal_coeffs c c = Ok true.
Proof. intros H. apply check_equal_spec; auto. Qed.
Lemma zrange_NoDup' k : forall a, NoDup (zrange a k).
Proof.
  induction k as [|k IH]; intros a; cbn [zrange]; constructor; auto. intros H.
  assert (G : forall k a x, In x (zrange a k) -> a <= x). { clear. induction k as [|k IH]; intros a x; cbn [zrange In]; [intros []|intros [->|H]; [lia|apply IH in H; lia]]. }
  apply G in H. lia.
Qed.
Lemma can_NoDup s f k : NoDup (map fst (can s f k)).
Proof. unfold can. rewrite map_map. cbn [fst]. rewrite map_id. apply zrange_NoDup'. Qed.

(** ** the tables only grow *)
Definition grows (s s' : cstate) : Prop := forall t k,
  (tget k (pre s t) <> None -> tget k (pre s' t) <> None) /\ (tget k (pre_dr s t) <> None -> tget k (pre_dr s' t) <> None).
Definition growing {A} (x : M A) : Prop := forall s, grows s (fst (x s)).
Lemma grows_refl s : grows s s.
Proof. intros t k. auto. Qed.
Lemma grows_trans a b c : grows a b -> grows b c -> grows a c.
Proof. intros H1 H2 t k. destruct (H1 t k), (H2 t k). auto. Qed.
Lemma growing_lift {A} (x : res A) : growing (mlift x).
Proof. intros s. apply grows_refl. Qed.
Lemma growing_ret {A} (x : A) : growing (mret x).
Proof. intros s. apply grows_refl. Qed.
Lemma growing_bind {A B} (x : M A) (f : A -> M B) : growing x -> (forall a, growing (f a)) -> growing (mbind x f).
Proof.
  intros Hx Hf s. specialize (Hx s). unfold mbind. destruct (x s) as [s' r]. cbn [fst] in Hx. destruct r as [a|e]; [|exact Hx].
  eapply grows_trans; [exact Hx|apply Hf].
Qed.
Lemma grows_set_pre s t k d : grows s (set_pre s t k d).
Proof.
  intros t' k'. unfold set_pre. cbn [pre pre_dr]. split; [|auto]. destruct (Bool.eqb t' t) eqn:E; [|auto]. apply eqb_prop in E. subst. apply tput_get.
Qed.
Lemma grows_set_pre_dr s t k d : grows s (set_pre_dr s t k d).
Proof.
  intros t' k'. unfold set_pre_dr. cbn [pre pre_dr]. split; [auto|]. destruct (Bool.eqb t' t) eqn:E; [|auto]. apply eqb_prop in E. subst. apply tput_get.
Qed.
Lemma growing_cached get put k body : (forall s l, grows s (put s l)) -> growing body -> growing (cached get put k body).
Proof.
  intros P H s. unfold cached. destruct (assoc _ _ _); [apply P|]. specialize (H s). destruct (body s) as [s' r]. cbn [fst] in H.
  destruct r; cbn [fst]; [|exact H]. eapply grows_trans; [exact H|apply P].
Qed.
Lemma growing_mod f : (forall s, grows s (f s)) -> growing (mmod f).
Proof. intros H s. apply H. Qed.
Lemma find_grows fuel : forall fl m n, growing (find_coeffs_orders fuel fl m n).
Proof.
  induction fuel as [|f IH]; intros fl m n; cbn [find_coeffs_orders]; [apply growing_lift|].
  apply growing_cached; [intros s l t k; auto|]. intros s. cbv zeta. destruct (tget (m, n) (pre s (flag_value fl))); [apply grows_refl|].
  destruct (check_special_orders m n) as [[d|]|e]; [apply grows_set_pre| |apply grows_refl].
  revert s. change (growing (run a <- find_coeffs_orders f (Pos (flag_value fl)) (Z.abs (m - 1)) (n - 1);
           run b <- find_coeffs_orders f (Pos (flag_value fl)) (m + 1) (n - 1);
           run a' <- mlift (increase_order_coeffs a);
           run b' <- mlift (increase_order_coeffs b);
           run c <- find_coeffs_orders f (Pos (flag_value fl)) m (n - 2);
           run c' <- mlift (make_orders_coeffs c (n - 2) true);
           run d <- mlift (sum_orders_coeffs n [a'; b'; c']);
           run _ <- mmod (fun s => set_pre s (flag_value fl) (Z.abs (m - 1), n - 1) a);
           run _ <- mmod (fun s => set_pre s (flag_value fl) (m + 1, n - 1) b);
           mret d)).
  repeat first [apply growing_lift | apply growing_ret | apply IH | apply growing_mod; intros s; apply grows_set_pre | apply growing_bind; [|intros ?]].
Qed.
Lemma find_dr_grows fuel : forall fl m n, growing (find_coeffs_orders_dr fuel fl m n).
Proof.
  induction fuel as [|f IH]; intros fl m n; cbn [find_coeffs_orders_dr]; [apply growing_lift|].
  apply growing_cached; [intros s l t k; auto|]. intros s. cbv zeta. destruct (tget (m, n) (pre_dr s (flag_value fl))); [apply grows_refl|].
  destruct (check_special_orders_dr m n) as [[d|]|e]; [apply grows_set_pre_dr| |apply grows_refl].
  match goal with |- grows s (fst (?x s)) => assert (G : growing x); [|apply G] end.
  repeat first [apply growing_lift | apply growing_ret | apply IH | apply find_grows | apply growing_mod; intros ?; apply grows_set_pre
    | apply growing_mod; intros ?; apply grows_set_pre_dr | apply growing_bind; [|intros ?]].
Qed.
Lemma rpc_grows fuel : forall m n r, growing (radial_polynomial_coeffs fuel m n r).
Proof.
  induction fuel as [|f IH]; intros m n r; cbn [radial_polynomial_coeffs]; [apply growing_lift|].
  repeat match goal with |- growing (if ?b then _ else _) => destruct b end;
  repeat first [apply growing_lift | apply growing_ret | apply IH | apply find_grows | apply growing_bind; [|intros ?]].
Qed.
Lemma rpcd_grows fuel : forall m n r, growing (radial_polynomial_coeffs_dr fuel m n r).
Proof.
  induction fuel as [|f IH]; intros m n r; cbn [radial_polynomial_coeffs_dr]; [apply growing_lift|].
  repeat match goal with |- growing (if ?b then _ else _) => destruct b end;
  repeat first [apply growing_lift | apply growing_ret | apply IH | apply rpc_grows | apply find_dr_grows | apply growing_bind; [|intros ?]].
Qed.
Lemma zp_grows fuel m n e r : growing (zp_radial fuel m n e r).
Proof. unfold zp_radial. repeat match goal with |- growing (if ?b then _ else _) => destruct b end; first [apply growing_ret|apply growing_lift|apply rpc_grows]. Qed.
Lemma reachable_grows s : reachable s -> grows import_state s.
Proof.
  induction 1 as [|s fuel fl m n _ IH V|s fuel fl m n _ IH V|s fuel m n e r _ IH V|s fuel m n e r _ IH V|s fuel m n e r th _ IH V];
    [apply grows_refl|eapply grows_trans; [exact IH|]..].
  - apply find_grows.
  - apply find_dr_grows.
  - apply zp_grows.
  - unfold zp_radial_dr. repeat match goal with |- context[if ?b then _ else _] => destruct b end; first [apply growing_ret|apply growing_lift|apply rpcd_grows].
  - revert s IH. intros s _. revert s. unfold zp_polynomial_value. destruct (_ && _)%bool; [apply growing_ret|]. apply growing_bind; [apply zp_grows|intros; apply growing_ret].
Qed.

(** ** the test functions *)
Lemma check_line_ok fuel m n s : reachable s -> valid m n -> n < Z.of_nat fuel -> tget (m, n) (pre import_state false) <> None ->
  reachable (fst (check_line fuel (m, n) s)) /\ snd (check_line fuel (m, n) s) = Ok true.
Proof.
  intros RS V HF HT. unfold check_line. cbn [fst snd]. pose proof (keeps_at _ _ s RS (find_ok fuel (Kw true) m n V)) as E.
  pose proof (reach_find s fuel (Kw true) m n RS V) as RS'. unfold mbind. destruct (find_coeffs_orders fuel (Kw true) m n s) as [s' r]. cbn [fst snd] in *.
  destruct E as [->|[_ E]]; [|lia].
  destruct (reachable_grows s' RS' false (m, n)) as [G _]. specialize (G HT).
  destruct (tget (m, n) (pre s' false)) as [d'|] eqn:T; [|elim G; reflexivity].
  destruct (reachable_Inv s' RS') as [(IA & _) _]. apply tget_in in T. destruct (IA false m n d' T) as [_ ->].
  cbn [fst snd]. split; [exact RS'|apply check_equal_refl, can_NoDup].
Qed.
Lemma check_line_dr_ok fuel m n s : reachable s -> valid m n -> n < Z.of_nat fuel -> 7 <= n -> tget (m, n) (pre_dr import_state false) <> None ->
  reachable (fst (check_line_dr fuel (m, n) s)) /\ snd (check_line_dr fuel (m, n) s) = Ok true.
Proof.
  intros RS V HF H7 HT. unfold check_line_dr. cbn [fst snd]. pose proof (keeps_at _ _ s RS (find_dr_ok fuel (Kw true) m n V)) as E.
  pose proof (reach_find_dr s fuel (Kw true) m n RS V) as RS'. unfold mbind. destruct (find_coeffs_orders_dr fuel (Kw true) m n s) as [s' r]. cbn [fst snd] in *.
  destruct E as [[_ ->]|[[E _]|[_ E]]]; [|elim E; right; cbn; lia|lia].
  destruct (reachable_grows s' RS' false (m, n)) as [_ G]. specialize (G HT).
  destruct (tget (m, n) (pre_dr s' false)) as [d'|] eqn:T; [|elim G; reflexivity].
  destruct (reachable_Inv s' RS') as [(_ & IB & _) _]. apply tget_in in T. destruct (IB false m n d' T) as (_ & _ & ->).
  cbn [fst snd]. split; [exact RS'|apply check_equal_refl, can_NoDup].
Qed.
Lemma check_lines_ok line l : (forall o s, In o l -> reachable s -> reachable (fst (line o s)) /\ snd (line o s) = Ok true) ->
  forall s, reachable s -> reachable (fst (check_lines line l s)) /\ snd (check_lines line l s) = Ok true.
Proof.
  induction l as [|o l IH]; intros H s RS; cbn [check_lines]; [split; [exact RS|reflexivity]|].
  destruct (H o s (or_introl eq_refl) RS) as [R1 E]. unfold mbind. destruct (line o s) as [s' r]. cbn [fst snd] in *. subst r. cbv iota.
  apply IH; [intros o' s'' O; apply H; right; exact O|exact R1].
Qed.
Lemma test_coeffs_ok fuel s : reachable s -> 10 < Z.of_nat fuel -> snd (test_coeffs_calc fuel s) = Ok true.
Proof.
  intros RS HF. unfold test_coeffs_calc. apply check_lines_ok; [|exact RS]. intros (m, n) s' O RS'.
  assert (B : forallb (fun o => validb (fst o) (snd o) && (snd o <=? 10) && match tget o (pre import_state false) with Some _ => true | None => false end)
    [(-9, 9); (-7, 9); (-5, 9); (-3, 9); (-1, 9); (1, 9); (5, 9); (0, 10); (2, 10); (4, 10); (-6, 10); (7, 9)] = true) by (vm_compute; reflexivity).
  rewrite forallb_forall in B. specialize (B (m, n) O). cbn [fst snd] in B. apply andb_prop in B as [B B3]. apply andb_prop in B as [B1 B2].
  apply check_line_ok; [exact RS'|apply validb_ok, B1|lia|]. destruct (tget (m, n) (pre import_state false)); discriminate.
Qed.
Lemma test_coeffs_dr_ok fuel s : reachable s -> 10 < Z.of_nat fuel -> snd (test_coeffs_dr_calc fuel s) = Ok true.
Proof.
  intros RS HF. unfold test_coeffs_dr_calc. apply check_lines_ok; [|exact RS]. intros (m, n) s' O RS'.
  assert (B : forallb (fun o => validb (fst o) (snd o) && (snd o <=? 10) && (7 <=? snd o) && match tget o (pre_dr import_state false) with Some _ => true | None => false end)
    [(-9, 9); (-7, 9); (-5, 9); (-1, 9); (1, 9); (3, 9); (-6, 10); (-2, 10); (0, 10); (4, 10)] = true) by (vm_compute; reflexivity).
  rewrite forallb_forall in B. specialize (B (m, n) O). cbn [fst snd] in B. apply andb_prop in B as [B B3]. apply andb_prop in B as [B B4]. apply andb_prop in B as [B1 B2].
  apply check_line_dr_ok; [exact RS'|apply validb_ok, B1|lia|lia|]. destruct (tget (m, n) (pre_dr import_state false)); discriminate.
Qed.
