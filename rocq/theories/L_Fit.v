From Coq Require Import Reals Lra Psatz Permutation.
From Flocq Require Import Core.
From Verif Require Import Py SpecIndex SpecRadial M_Radial M_Coeffs SpecCoeffs M_Sum SpecSum L_Sum SpecFit L_LinAlg M_Crop M_Fit SpecCrop L_Crop L_Phases.
Local Open Scope R_scope.

Lemma gs_contract : lstsq_contract gs_lstsq.
Proof. intros cols b W. apply gs_lstsq_ok, W. Qed.

Lemma repeated_iff l : repeated l = true <-> ~ NoDup l.
Proof.
  unfold repeated. rewrite negb_true_iff, Nat.eqb_neq. split.
  - intros H N. apply H. rewrite nodup_fixed_point by exact N. reflexivity.
  - intros N E. apply N. assert (I : incl (nodup zz_dec l) l) by (intros x Hx; apply nodup_In in Hx; exact Hx).
    apply (@NoDup_incl_NoDup _ (nodup zz_dec l) l); [apply NoDup_nodup|lia|exact I].
Qed.
Lemma repeated_false l : NoDup l -> repeated l = false.
Proof. intros N. destruct (repeated l) eqn:E; [|reflexivity]. apply repeated_iff in E. contradiction. Qed.
Lemma all_orders_some ps : all_orders (map Some ps) = Ok ps.
Proof. induction ps as [|p ps IH]; [reflexivity|]. cbn. rewrite IH. reflexivity. Qed.
Lemma all_orders_none ps : In None ps -> all_orders ps = Raise AttributeError.
Proof. induction ps as [|[p|] ps IH]; intros H; [destruct H| |reflexivity]. destruct H as [[=]|H]. cbn. rewrite (IH H). reflexivity. Qed.

Lemma finite_Fin l : finite (map Fin l) = Ok l.
Proof. induction l as [|x l IH]; [reflexivity|]. cbn. rewrite IH. reflexivity. Qed.
Lemma finite_all_Fin l : finite_all (map (map Fin) l) = Ok l.
Proof. induction l as [|x l IH]; [reflexivity|]. cbn. rewrite finite_Fin. cbn. rewrite IH. reflexivity. Qed.

Lemma assign_at pre old post v : length v = length old ->
  assign_slice (pre ++ old ++ post) (length pre) (length pre + length old) v = Ok (pre ++ v ++ post).
Proof.
  intros L. unfold assign_slice. rewrite !app_length.
  replace (Nat.min (length pre) (length pre + (length old + length post))) with (length pre) by lia.
  replace (Nat.max (length pre) (Nat.min (length pre + length old) (length pre + (length old + length post)))) with (length pre + length old)%nat by lia.
  replace (length pre + length old - length pre)%nat with (length v) by lia. rewrite Nat.eqb_refl.
  rewrite firstn_app, Nat.sub_diag, firstn_all, firstn_O, app_nil_r. do 3 f_equal.
  rewrite app_assoc, <- app_length, skipn_app, skipn_all, Nat.sub_diag. reflexivity.
Qed.

Lemma isok_lift {A} (x : res A) a : x = Ok a -> isok (mlift x) a.
Proof. intros ->. apply isok_ret. Qed.

Lemma fill_mesh_isok fuel p ts : okp fuel p -> ts <> [] -> forall rs i done, Forall in_disk rs -> length done = (i * length ts)%nat ->
  isok (fill_mesh fuel p (map Fin ts) i (map Fin rs) (done ++ repeat (Fin 0) (length rs * length ts)))
       (done ++ map Fin (map (fun q => Zv p (fst q) (snd q)) (list_prod rs ts))).
Proof.
  intros OK NT. induction rs as [|x rs IH]; intros i done F L.
  { cbn. apply isok_ret. }
  inversion F; subst. cbn [fill_mesh map]. eapply isok_bind.
  { apply (value_isok fuel p _ _ (map (fun y => (x, y)) ts) (fun l => KArr (map Fin l))); [exact OK|apply bc_fv; [constructor|exact NT]|].
    apply Forall_forall. intros q Hq. apply in_map_iff in Hq. destruct Hq as (y & <- & _). assumption. }
  cbv beta. set (v := map (fun q => Zv p (fst q) (snd q)) (map (fun y => (x, y)) ts)). cbn [cv_list].
  eapply isok_bind.
  { apply isok_lift. rewrite map_length. cbn [length]. rewrite Nat.mul_succ_l, (Nat.add_comm _ (length ts)), repeat_app.
    replace ((i + 1) * length ts)%nat with (length done + length (repeat (Fin 0) (length ts)))%nat by (rewrite repeat_length; lia).
    rewrite <- L. apply assign_at. rewrite map_length, repeat_length. unfold v. rewrite !map_length. reflexivity. }
  cbv beta. rewrite app_assoc. cbn [list_prod]. rewrite !map_app. fold v. rewrite app_assoc. apply IH; [assumption|].
  rewrite app_length, map_length. unfold v. rewrite !map_length. lia.
Qed.

Lemma column_isok fuel rs ts p : okp fuel p -> rs <> [] -> ts <> [] -> Forall in_disk rs ->
  isok (column fuel (length (sample_points rs ts)) (map Fin rs) (map Fin ts) p)
       (map Fin (map (fun q => Zv p (fst q) (snd q)) (sample_points rs ts))).
Proof.
  intros OK NR NT F. unfold column. rewrite !map_length. unfold sample_points. destruct (Nat.eqb_spec (length rs) (length ts)) as [E|E].
  - eapply isok_bind.
    { apply (value_isok fuel p _ _ (combine rs ts) (fun l => KArr (map Fin l))); [exact OK|apply bc_vv; [constructor|constructor|exact NR|exact E]|].
      apply Forall_forall. intros [a b] Hq. apply in_combine_l in Hq. rewrite Forall_forall in F. apply F, Hq. }
    cbv beta. cbn [cv_list]. apply isok_lift.
    assert (Q := assign_at [] (repeat (Fin 0) (length (combine rs ts))) [] (map Fin (map (fun q => Zv p (fst q) (snd q)) (combine rs ts)))).
    rewrite !app_nil_r, !app_nil_l, repeat_length in Q. apply Q. rewrite !map_length. reflexivity.
  - assert (Q := fill_mesh_isok fuel p ts OK NT rs 0 [] F eq_refl). rewrite !app_nil_l in Q.
    rewrite prod_length. exact Q.
Qed.

Lemma design_wf pts ps : wf (length pts) (design pts ps).
Proof. unfold wf, design. apply Forall_forall. intros c H. apply in_map_iff in H. destruct H as (p & <- & _). apply map_length. Qed.

Lemma fit_isok lstsq fuel phases rs ts ps : Forall (okp fuel) ps -> NoDup ps -> ps <> [] -> rs <> [] -> ts <> [] -> Forall in_disk rs ->
  length phases = length (sample_points rs ts) ->
  isok (fit_zernikes lstsq fuel phases (map Fin rs) (map Fin ts) (map Some ps)) (lstsq (design (sample_points rs ts) ps) phases).
Proof.
  intros OK ND NP NR NT F L. unfold fit_zernikes. destruct (map Some ps) as [|o l] eqn:E; [destruct ps; [elim NP; reflexivity|discriminate]|].
  rewrite <- E. clear E o l. eapply isok_bind; [apply isok_lift, all_orders_some|]. cbv beta. rewrite (repeated_false ps ND).
  eapply isok_bind.
  { apply mapM_isok with (g := fun p => map Fin (map (fun q => Zv p (fst q) (snd q)) (sample_points rs ts))).
    intros p Hp. rewrite L. apply column_isok; try assumption. rewrite Forall_forall in OK. apply OK, Hp. }
  cbv beta. eapply isok_bind; [|apply isok_ret]. apply isok_lift. unfold design.
  rewrite <- finite_all_Fin. rewrite map_map. reflexivity.
Qed.

Lemma zsum_design pts ps : forall a, length a = length ps -> map (fun q => zsum a ps (fst q) (snd q)) pts = mulmv (length pts) (design pts ps) a.
Proof.
  induction ps as [|[m n] ps IH]; intros [|c a] L; try discriminate.
  - cbn. induction pts; cbn; [reflexivity|]. f_equal. assumption.
  - unfold design. cbn [map mulmv]. fold (design pts ps). rewrite <- IH by (injection L; auto).
    clear. induction pts as [|q pts IH]; [reflexivity|]. cbn [map]. rewrite vscale_cons, vadd_cons, IH. reflexivity.
Qed.

Lemma powerRZ10_pos d : 0 < powerRZ 10 d.
Proof. apply powerRZ_lt. lra. Qed.
Lemma np_round_err d x : Rabs (np_round d x - x) <= / 2 * powerRZ 10 (- d).
Proof.
  unfold np_round. assert (P := powerRZ10_pos d).
  assert (H := Znearest_half (fun z => negb (Z.even z)) (x * powerRZ 10 d)). fold (ZnearestE (x * powerRZ 10 d)) in H.
  set (k := ZnearestE _) in *. rewrite powerRZ_neg' by lra. set (q := powerRZ 10 d) in *.
  replace (IZR k / q - x) with (- (x * q - IZR k) * / q) by (field; lra).
  rewrite Rabs_mult, Rabs_Ropp, (Rabs_right (/ q)) by (apply Rle_ge, Rlt_le, Rinv_0_lt_compat, P).
  apply Rmult_le_compat_r; [apply Rlt_le, Rinv_0_lt_compat, P|exact H].
Qed.

Lemma vectors_isok lstsq fuel phases rs ts ps d : Forall (okp fuel) ps -> NoDup ps -> ps <> [] -> rs <> [] -> ts <> [] -> Forall in_disk rs ->
  length phases = length (sample_points rs ts) ->
  isok (fit_polynomials_vectors lstsq fuel (map Some ps) (Arr1 phases) (Arr1 (map Fin rs)) (Arr1 (map Fin ts)) d)
       (map (np_round d) (lstsq (design (sample_points rs ts) ps) phases)).
Proof.
  intros. unfold fit_polynomials_vectors. cbn [ndim Nat.ltb Nat.leb orb].
  eapply isok_bind; [apply fit_isok; assumption|apply isok_ret].
Qed.

Lemma image_isok rnd lstsq fuel rows cols f ps x strict d rc mask phases radii thetas : Forall (okp fuel) ps -> NoDup ps -> ps <> [] ->
  crop_phases_img rnd (Img rows cols f) (RadNum x) strict = Ok (mask, (phases, radii, thetas)) ->
  Forall in_disk radii -> radii <> [] -> length phases = length radii -> length thetas = length radii ->
  isok (fit_polynomials rnd lstsq fuel (Img rows cols f) (map Some ps) (RadNum x) strict d rc)
       (map (np_round d) (lstsq (design (combine radii thetas) ps) phases),
        if rc then Some (fun i j => IZR (mask i j) * f i j) else None).
Proof.
  intros OK ND NP EC F NR L1 L2. unfold fit_polynomials. eapply isok_bind; [apply isok_lift, EC|]. cbv beta iota.
  assert (S : sample_points radii thetas = combine radii thetas) by (unfold sample_points; rewrite L2, Nat.eqb_refl; reflexivity).
  eapply isok_bind; [apply fit_isok; try assumption|].
  - intros ->. destruct radii; [elim NR; reflexivity|discriminate].
  - rewrite S, combine_length, L1, L2. symmetry. apply Nat.min_id.
  - cbv beta. rewrite S. apply isok_ret.
Qed.
