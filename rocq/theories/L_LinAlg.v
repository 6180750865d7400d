(** Least squares: characterisation, uniqueness, existence, linearity, permutation of columns. *)
From Coq Require Import Reals Lra Psatz Permutation.
From Verif Require Import Py SpecFit.
Local Open Scope R_scope.

Definition wf (n : nat) (cols : list (list R)) : Prop := Forall (fun c => length c = n) cols.
Definition zeros (n : nat) : list R := repeat 0 n.

Lemma vadd_len u v : length u = length v -> length (vadd u v) = length u.
Proof. intros H. unfold vadd. rewrite map_length, combine_length, H. apply Nat.min_id. Qed.
Lemma vscale_len a u : length (vscale a u) = length u.
Proof. apply map_length. Qed.
Lemma vsub_len u v : length u = length v -> length (vsub u v) = length u.
Proof. intros H. apply vadd_len. rewrite vscale_len. exact H. Qed.
Lemma vadd_cons a u b v : vadd (a :: u) (b :: v) = (a + b) :: vadd u v. Proof. reflexivity. Qed.
Lemma vscale_cons a b v : vscale a (b :: v) = (a * b) :: vscale a v. Proof. reflexivity. Qed.

Lemma dot_comm u : forall v, dot u v = dot v u.
Proof. induction u as [|a u IH]; intros [|b v]; cbn; try reflexivity. rewrite IH. ring. Qed.
Lemma dot_add_l u : forall v w, length u = length v -> dot (vadd u v) w = dot u w + dot v w.
Proof.
  induction u as [|a u IH]; intros [|b v] w H; try discriminate; [cbn; ring|].
  rewrite vadd_cons. destruct w as [|c w]; cbn [dot]; [ring|]. rewrite IH by (injection H; auto). ring.
Qed.
Lemma dot_scale_l a u : forall w, dot (vscale a u) w = a * dot u w.
Proof. induction u as [|b u IH]; intros [|c w]; cbn [dot vscale map]; try ring. fold (vscale a u). rewrite IH. ring. Qed.
Lemma dot_add_r u v w : length u = length v -> dot w (vadd u v) = dot w u + dot w v.
Proof. intros H. rewrite dot_comm, dot_add_l by exact H. rewrite (dot_comm u), (dot_comm v). reflexivity. Qed.
Lemma dot_scale_r a u w : dot w (vscale a u) = a * dot w u.
Proof. rewrite dot_comm, dot_scale_l, dot_comm. reflexivity. Qed.
Lemma dot_sub_l u v w : length u = length v -> dot (vsub u v) w = dot u w - dot v w.
Proof. intros H. unfold vsub. rewrite dot_add_l by (rewrite vscale_len; exact H). rewrite dot_scale_l. ring. Qed.
Lemma dot_sub_r u v w : length u = length v -> dot w (vsub u v) = dot w u - dot w v.
Proof. intros H. rewrite dot_comm, dot_sub_l by exact H. rewrite (dot_comm u), (dot_comm v). reflexivity. Qed.
Lemma dot_zeros n w : dot (zeros n) w = 0.
Proof. revert w; induction n; intros [|b w]; cbn; try reflexivity. fold (zeros n). rewrite IHn. ring. Qed.
Lemma normsq_nonneg u : 0 <= normsq u.
Proof. unfold normsq. induction u as [|a u IH]; cbn; [lra|]. nra. Qed.
Lemma normsq_zero u : normsq u = 0 -> u = zeros (length u).
Proof.
  unfold normsq, zeros. induction u as [|a u IH]; cbn; intros H; [reflexivity|].
  assert (P := normsq_nonneg u). unfold normsq in P.
  assert (A : a = 0) by nra. subst. f_equal. apply IH. nra.
Qed.
Lemma normsq_add u v : length u = length v -> normsq (vadd u v) = normsq u + 2 * dot u v + normsq v.
Proof. intros H. unfold normsq. rewrite dot_add_l, !dot_add_r by exact H. rewrite (dot_comm v u). ring. Qed.
Lemma normsq_scale a u : normsq (vscale a u) = a * a * normsq u.
Proof. unfold normsq. rewrite dot_scale_l, dot_scale_r. ring. Qed.

(** vector identities, proved elementwise *)
Lemma vadd_comm u : forall v, vadd u v = vadd v u.
Proof. induction u as [|a u IH]; intros [|b v]; try reflexivity. rewrite !vadd_cons, IH. f_equal. ring. Qed.
Lemma vadd_assoc u : forall v w, vadd u (vadd v w) = vadd (vadd u v) w.
Proof. induction u as [|a u IH]; intros [|b v] [|c w]; try reflexivity. rewrite !vadd_cons, IH. f_equal. ring. Qed.
Lemma vscale_add a u : forall v, vscale a (vadd u v) = vadd (vscale a u) (vscale a v).
Proof. induction u as [|x u IH]; intros [|b v]; try reflexivity. rewrite !vadd_cons, !vscale_cons, vadd_cons, IH. f_equal. ring. Qed.
Lemma vscale_vscale a b u : vscale a (vscale b u) = vscale (a * b) u.
Proof. unfold vscale. rewrite map_map. apply map_ext. intros. ring. Qed.
Lemma vscale_1 u : vscale 1 u = u.
Proof. unfold vscale. rewrite <- (map_id u) at 2. apply map_ext. intros. ring. Qed.
Lemma vscale_plus a b u : vscale (a + b) u = vadd (vscale a u) (vscale b u).
Proof. induction u as [|x u IH]; [reflexivity|]. rewrite !vscale_cons, vadd_cons, IH. f_equal. ring. Qed.
Lemma vscale_0 u : vscale 0 u = zeros (length u).
Proof. unfold zeros. induction u as [|x u IH]; [reflexivity|]. rewrite vscale_cons, IH. cbn. f_equal. ring. Qed.
Lemma vscale_zeros a n : vscale a (zeros n) = zeros n.
Proof. unfold zeros. induction n; [reflexivity|]. cbn [repeat]. rewrite vscale_cons, IHn. f_equal. ring. Qed.
Lemma vadd_zeros_r u n : length u = n -> vadd u (zeros n) = u.
Proof. intros <-. unfold zeros. induction u as [|x u IH]; [reflexivity|]. cbn [length repeat]. rewrite vadd_cons, IH. f_equal. ring. Qed.
Lemma vadd_zeros_l u n : length u = n -> vadd (zeros n) u = u.
Proof. intros H. rewrite vadd_comm. apply vadd_zeros_r, H. Qed.
Lemma vsub_diag u : vsub u u = zeros (length u).
Proof. unfold vsub, zeros. induction u as [|x u IH]; [reflexivity|]. rewrite vscale_cons, vadd_cons, IH. cbn. f_equal. ring. Qed.
Lemma vsub_zero_eq u : forall v, length u = length v -> vsub u v = zeros (length u) -> u = v.
Proof.
  unfold vsub, zeros. induction u as [|x u IH]; intros [|y v] L H; try discriminate; [reflexivity|].
  rewrite vscale_cons, vadd_cons in H. cbn [length repeat] in H. injection H as H1 H2.
  rewrite (IH v) by (try exact H2; injection L; auto). f_equal. lra.
Qed.
Lemma vadd_sub u : forall v, length u = length v -> vadd v (vsub u v) = u.
Proof.
  unfold vsub. induction u as [|x u IH]; intros [|y v] L; try discriminate; [reflexivity|].
  rewrite vscale_cons, !vadd_cons, IH by (injection L; auto). f_equal. ring.
Qed.
Lemma vsub_add_r u : forall v w, length u = length v -> length v = length w -> vsub u (vadd v w) = vsub (vsub u v) w.
Proof.
  unfold vsub. induction u as [|x u IH]; intros [|y v] [|z w] L L'; try discriminate; [reflexivity|].
  rewrite vadd_cons, !vscale_cons, !vadd_cons, IH by (injection L; injection L'; auto). f_equal. ring.
Qed.
Lemma zeros_len n : length (zeros n) = n. Proof. apply repeat_length. Qed.

(** matrix times vector *)
Lemma mulmv_len n cols : forall x, wf n cols -> length (mulmv n cols x) = n.
Proof.
  induction cols as [|c cols IH]; intros [|a x] W; cbn [mulmv]; try apply repeat_length.
  inv W. rewrite vadd_len; rewrite vscale_len; [reflexivity|]. rewrite IH by assumption. reflexivity.
Qed.
Lemma mulmv_add n cols : forall x y, wf n cols -> length x = length y ->
  mulmv n cols (vadd x y) = vadd (mulmv n cols x) (mulmv n cols y).
Proof.
  induction cols as [|c cols IH]; intros [|a x] [|b y] W L; try discriminate; try (symmetry; apply vadd_zeros_r, repeat_length).
  rewrite vadd_cons. cbn [mulmv]. inv W. rewrite IH by (try assumption; injection L; auto).
  rewrite vscale_plus. rewrite !vadd_assoc. f_equal. rewrite <- !vadd_assoc. f_equal. apply vadd_comm.
Qed.
Lemma mulmv_scale n cols a : forall x, mulmv n cols (vscale a x) = vscale a (mulmv n cols x).
Proof.
  induction cols as [|c cols IH]; intros [|b x]; try (symmetry; apply vscale_zeros).
  rewrite vscale_cons. cbn [mulmv]. rewrite IH, vscale_add, vscale_vscale. reflexivity.
Qed.
Lemma mulmv_sub n cols x y : wf n cols -> length x = length y -> mulmv n cols (vsub x y) = vsub (mulmv n cols x) (mulmv n cols y).
Proof. intros W L. unfold vsub. rewrite mulmv_add; [rewrite mulmv_scale; reflexivity|exact W|rewrite vscale_len; exact L]. Qed.
Lemma mulmv_zeros n cols k : wf n cols -> mulmv n cols (zeros k) = zeros n.
Proof.
  revert k. induction cols as [|c cols IH]; intros [|k] W; cbn [mulmv zeros repeat]; try reflexivity.
  fold (zeros k). inv W. rewrite IH by assumption. rewrite vscale_0. apply vadd_zeros_r, zeros_len.
Qed.
(** w . (A x) = x . (A^T w) *)
Lemma dot_mulmv n cols w : forall x, wf n cols -> dot w (mulmv n cols x) = dot x (map (dot w) cols).
Proof.
  induction cols as [|c cols IH]; intros [|a x] W; cbn [mulmv dot map]; try (rewrite dot_comm; apply dot_zeros).
  inv W. rewrite dot_add_r by (rewrite vscale_len, mulmv_len by assumption; reflexivity).
  rewrite dot_scale_r, IH by assumption. ring.
Qed.

(** characterisation by orthogonality *)
Definition normal_eq (cols : list (list R)) (b x : list R) : Prop :=
  length x = length cols /\
  (forall h, length h = length cols -> dot (vsub b (mulmv (length b) cols x)) (mulmv (length b) cols h) = 0) /\
  (forall h, length h = length cols -> mulmv (length b) cols h = zeros (length b) -> dot x h = 0).

Lemma quad_zero p q : (forall t, 0 <= 2 * t * p + t * t * q) -> p = 0.
Proof.
  intros H. assert (Q : 0 <= q \/ q < 0) by lra. destruct Q as [Q|Q].
  - assert (H1 := H (- p / (q + 1))). assert (P : 0 < q + 1) by lra.
    assert (E : 2 * (- p / (q + 1)) * p + - p / (q + 1) * (- p / (q + 1)) * q = - (p * p * (q + 2)) / ((q + 1) * (q + 1))) by (field; lra).
    rewrite E in H1. assert (B : 0 < (q + 1) * (q + 1)) by nra.
    assert (C : 0 <= - (p * p * (q + 2)) / ((q + 1) * (q + 1)) * ((q + 1) * (q + 1))) by (apply Rmult_le_pos; lra).
    replace (- (p * p * (q + 2)) / ((q + 1) * (q + 1)) * ((q + 1) * (q + 1))) with (- (p * p * (q + 2))) in C by (field; lra). nra.
  - assert (H1 := H 1). assert (H2 := H (-1)). lra.
Qed.

Lemma err_shift cols b x h : wf (length b) cols -> length x = length cols -> length h = length cols ->
  normsq (vsub b (mulmv (length b) cols (vadd x h))) =
  normsq (vsub b (mulmv (length b) cols x)) - 2 * dot (vsub b (mulmv (length b) cols x)) (mulmv (length b) cols h) + normsq (mulmv (length b) cols h).
Proof.
  intros W Lx Lh. rewrite mulmv_add by (try assumption; congruence).
  rewrite vsub_add_r by (rewrite !mulmv_len; auto). set (r := vsub b _). set (q := mulmv _ _ h).
  assert (L : length r = length q) by (unfold r, q; rewrite vsub_len; rewrite !mulmv_len; auto).
  unfold vsub at 1. rewrite normsq_add by (rewrite vscale_len; exact L). rewrite dot_scale_r, normsq_scale. ring.
Qed.

Lemma lstsq_normal cols b x : wf (length b) cols -> (lstsq_solution cols b x <-> normal_eq cols b x).
Proof.
  intros W. split.
  - intros (Lx & H). split; [exact Lx|].
    assert (M : forall h, length h = length cols -> dot (vsub b (mulmv (length b) cols x)) (mulmv (length b) cols h) = 0).
    { intros h Lh. assert (Q : - dot (vsub b (mulmv (length b) cols x)) (mulmv (length b) cols h) = 0); [|lra].
      apply quad_zero with (q := normsq (mulmv (length b) cols h)). intros t.
      assert (Ly : length (vadd x (vscale t h)) = length cols) by (rewrite vadd_len; [exact Lx|rewrite vscale_len; congruence]).
      destruct (H _ Ly) as [H1 _]. cbn zeta in H1.
      rewrite (err_shift cols b x (vscale t h) W Lx) in H1 by (rewrite vscale_len; exact Lh).
      rewrite mulmv_scale, dot_scale_r, normsq_scale in H1. lra. }
    split; [exact M|]. intros h Lh K. apply quad_zero with (q := normsq h). intros t.
    assert (Ly : length (vadd x (vscale t h)) = length cols) by (rewrite vadd_len; [exact Lx|rewrite vscale_len; congruence]).
    destruct (H _ Ly) as [_ H2]. cbn zeta in H2.
    rewrite (err_shift cols b x (vscale t h) W Lx) in H2 by (rewrite vscale_len; exact Lh).
    rewrite mulmv_scale, K, vscale_zeros in H2. assert (N0 : normsq (zeros (length b)) = 0) by (unfold normsq; apply dot_zeros). rewrite N0, (dot_comm _ (zeros (length b))), dot_zeros in H2.
    rewrite normsq_add in H2 by (rewrite vscale_len; congruence). rewrite dot_scale_r, normsq_scale in H2.
    assert (G : normsq x <= normsq x + 2 * (t * dot x h) + t * t * normsq h) by (apply H2; ring). lra.
  - intros (Lx & M & K). split; [exact Lx|]. intros y Ly. cbn zeta.
    assert (E : y = vadd x (vsub y x)) by (symmetry; apply vadd_sub; congruence).
    set (h := vsub y x) in *. assert (Lh : length h = length cols) by (unfold h; rewrite vsub_len; congruence).
    rewrite E. rewrite (err_shift cols b x h W Lx Lh), (M h Lh). assert (P := normsq_nonneg (mulmv (length b) cols h)).
    split; [lra|]. intros Q.
    assert (Z : normsq (mulmv (length b) cols h) = 0) by lra. apply normsq_zero in Z. rewrite mulmv_len in Z by exact W.
    rewrite normsq_add by congruence. rewrite (K h Lh Z). assert (P' := normsq_nonneg h). lra.
Qed.

Lemma lstsq_unique cols b x y : wf (length b) cols -> lstsq_solution cols b x -> lstsq_solution cols b y -> x = y.
Proof.
  intros W Hx Hy. apply lstsq_normal in Hx, Hy; try exact W. destruct Hx as (Lx & Mx & Kx), Hy as (Ly & My & Ky).
  set (h := vsub x y). assert (Lh : length h = length cols) by (unfold h; rewrite vsub_len; congruence).
  set (n := length b) in *. set (q := mulmv n cols h).
  assert (Z : q = zeros n).
  { rewrite <- (mulmv_len n cols h W). apply normsq_zero. unfold normsq. fold q.
    assert (E : q = vsub (mulmv n cols x) (mulmv n cols y)) by (apply mulmv_sub; [exact W|congruence]).
    rewrite E at 1. rewrite dot_sub_l by (rewrite !mulmv_len; auto).
    assert (A := Mx h Lh). assert (B := My h Lh). fold q in A, B.
    rewrite dot_sub_l in A, B by (rewrite mulmv_len; auto). lra. }
  assert (D : normsq h = 0).
  { unfold normsq. unfold h at 1. rewrite dot_sub_l by congruence. rewrite (Kx h Lh Z), (Ky h Lh Z). ring. }
  apply normsq_zero in D. apply vsub_zero_eq; [congruence|]. fold h. rewrite D. f_equal. congruence.
Qed.

(** exact data and independent columns: the coefficients are recovered *)
Lemma lstsq_exact cols a x n : wf n cols -> independent n cols -> length a = length cols ->
  lstsq_solution cols (mulmv n cols a) x -> x = a.
Proof.
  intros W I La H. assert (Lb := mulmv_len n cols a W). apply (lstsq_unique cols (mulmv n cols a)); [rewrite Lb; exact W|exact H|].
  split; [exact La|]. intros y Ly. cbn zeta. rewrite Lb, vsub_diag.
  assert (Z : normsq (zeros (length (mulmv n cols a))) = 0) by (unfold normsq; apply dot_zeros).
  rewrite Z. split; [apply normsq_nonneg|]. intros E. symmetry in E. apply normsq_zero in E.
  rewrite vsub_len in E by (rewrite !mulmv_len; auto).
  assert (V : mulmv n cols (vsub a y) = zeros n).
  { rewrite mulmv_sub by (try assumption; congruence). rewrite <- Lb at 3. exact E. }
  apply I in V; [|rewrite vsub_len; congruence].
  assert (Q : a = y) by (apply vsub_zero_eq; [congruence|rewrite V; unfold zeros; f_equal; congruence]). subst. lra.
Qed.

(** linearity in the data *)
Lemma lstsq_linear cols b1 b2 x1 x2 s t : length b1 = length b2 -> wf (length b1) cols ->
  lstsq_solution cols b1 x1 -> lstsq_solution cols b2 x2 ->
  lstsq_solution cols (vadd (vscale s b1) (vscale t b2)) (vadd (vscale s x1) (vscale t x2)).
Proof.
  intros L W H1 H2. assert (W2 : wf (length b2) cols) by (rewrite <- L; exact W).
  apply lstsq_normal in H1, H2; try assumption. destruct H1 as (L1 & M1 & K1), H2 as (L2 & M2 & K2).
  assert (Lb : length (vadd (vscale s b1) (vscale t b2)) = length b1) by (rewrite vadd_len; rewrite !vscale_len; auto).
  apply lstsq_normal; [rewrite Lb; exact W|]. split; [rewrite vadd_len; rewrite !vscale_len; congruence|]. rewrite Lb.
  rewrite <- L in M2, K2. set (n := length b1) in *. split.
  - intros h Lh. rewrite mulmv_add by (try assumption; rewrite !vscale_len; congruence). rewrite !mulmv_scale.
    assert (A := M1 h Lh). assert (B := M2 h Lh). rewrite dot_sub_l in A, B by (rewrite mulmv_len; auto).
    rewrite dot_sub_l by (rewrite !vadd_len; rewrite ?vscale_len, ?mulmv_len; auto).
    rewrite !dot_add_l by (rewrite ?vscale_len, ?mulmv_len; auto). rewrite !dot_scale_l.
    replace (dot b1 (mulmv n cols h)) with (dot (mulmv n cols x1) (mulmv n cols h)) by lra.
    replace (dot b2 (mulmv n cols h)) with (dot (mulmv n cols x2) (mulmv n cols h)) by lra. ring.
  - intros h Lh Z. rewrite dot_add_l by (rewrite !vscale_len; congruence). rewrite !dot_scale_l, K1, K2 by assumption. ring.
Qed.

(** permutation of the columns *)
Definition pmul (n : nat) (l : list (list R * R)) : list R := mulmv n (map fst l) (map snd l).
Lemma pmul_perm n l l' : Permutation l l' -> wf n (map fst l) -> pmul n l = pmul n l'.
Proof.
  intros P. induction P as [|[c a] l l' P IH|[c a] [d e] l|l l' l'' P1 IH1 P2 IH2]; intros W.
  - reflexivity.
  - inv W. unfold pmul in *. cbn [map fst snd mulmv]. rewrite IH by assumption. reflexivity.
  - unfold pmul. cbn [map fst snd mulmv]. rewrite !vadd_assoc. f_equal. apply vadd_comm.
  - rewrite IH1 by exact W. apply IH2. unfold wf in *. eapply Permutation_Forall; [|exact W]. apply Permutation_map, P1.
Qed.
Definition pdot (l : list (R * R)) : R := dot (map fst l) (map snd l).
Lemma pdot_perm l l' : Permutation l l' -> pdot l = pdot l'.
Proof.
  intros P. induction P as [|[c a] l l' P IH|[c a] [d e] l|l l' l'' P1 IH1 P2 IH2]; unfold pdot in *; cbn; try congruence; ring.
Qed.
Lemma split_list {A B} (l : list (A * B)) : l = combine (map fst l) (map snd l).
Proof. induction l as [|[a b] l IH]; cbn; [reflexivity|]. f_equal. exact IH. Qed.
Lemma map_fst_combine {A B} (u : list A) : forall v : list B, length u = length v -> map fst (combine u v) = u.
Proof. induction u as [|a u IH]; intros [|b v] L; try discriminate; [reflexivity|]. cbn. f_equal. apply IH. injection L; auto. Qed.
Lemma map_snd_combine {A B} (u : list A) : forall v : list B, length u = length v -> map snd (combine u v) = v.
Proof. induction u as [|a u IH]; intros [|b v] L; try discriminate; [reflexivity|]. cbn. f_equal. apply IH. injection L; auto. Qed.

Lemma lstsq_perm b l l' : Permutation l l' -> wf (length b) (map fst l) ->
  lstsq_solution (map fst l) b (map snd l) -> lstsq_solution (map fst l') b (map snd l').
Proof.
  intros P W H. assert (W' : wf (length b) (map fst l')) by (unfold wf in *; eapply Permutation_Forall; [|exact W]; apply Permutation_map, P).
  apply lstsq_normal in H; [|exact W]. apply lstsq_normal; [exact W'|]. destruct H as (L & M & K).
  split; [rewrite !map_length; reflexivity|]. set (n := length b) in *.
  assert (T : forall h', length h' = length (map fst l') -> exists h, length h = length (map fst l) /\
    mulmv n (map fst l) h = mulmv n (map fst l') h' /\ dot (map snd l) h = dot (map snd l') h').
  { intros h' Lh'. rewrite map_length in Lh'.
    assert (E' : l' = map fst (combine l' h')) by (symmetry; apply map_fst_combine; congruence).
    rewrite E' in P. destruct (Permutation_map_inv _ _ P) as (t & Et & Pt).
    exists (map snd t). split; [rewrite Et, !map_length; reflexivity|].
    assert (P3 : Permutation t (combine l' h')) by (symmetry; exact Pt). split.
    - assert (Q := pmul_perm n (map (fun q => (fst (fst q), snd q)) t) (map (fun q => (fst (fst q), snd q)) (combine l' h'))
        (Permutation_map _ P3)). unfold pmul in Q. rewrite !map_map in Q. cbn [fst snd] in Q.
      rewrite <- (map_map fst fst t), <- (map_map fst fst (combine l' h')), <- Et, <- E' in Q.
      change (fun x : list R * R * R => snd x) with (@snd (list R * R) R) in Q.
      rewrite (map_snd_combine l' h') in Q by congruence. apply Q. exact W.
    - assert (Q := pdot_perm (map (fun q => (snd (fst q), snd q)) t) (map (fun q => (snd (fst q), snd q)) (combine l' h'))
        (Permutation_map _ P3)). unfold pdot in Q. rewrite !map_map in Q. cbn [fst snd] in Q.
      rewrite <- (map_map fst snd t), <- (map_map fst snd (combine l' h')), <- Et, <- E' in Q.
      change (fun x : list R * R * R => snd x) with (@snd (list R * R) R) in Q.
      rewrite (map_snd_combine l' h') in Q by congruence. exact Q. }
  assert (E : mulmv n (map fst l') (map snd l') = mulmv n (map fst l) (map snd l)) by (symmetry; apply (pmul_perm n l l' P W)).
  split.
  - intros h' Lh'. destruct (T h' Lh') as (h & Lh & A & B). rewrite E, <- A. apply M, Lh.
  - intros h' Lh' Z. destruct (T h' Lh') as (h & Lh & A & B). rewrite <- B. apply K; [exact Lh|congruence].
Qed.

(** existence: orthogonal projection, column by column *)
Fixpoint project (n : nat) (cols : list (list R)) (b : list R) : list R :=
  match cols with
  | [] => []
  | c :: cols' =>
      let y := project n cols' c in
      let z := project n cols' b in
      let c' := vsub c (mulmv n cols' y) in
      let t := if Req_EM_T (normsq c') 0 then 0 else dot b c' / normsq c' in
      t :: vsub z (vscale t y)
  end.
Lemma project_len n cols : forall b, length (project n cols b) = length cols.
Proof. induction cols as [|c cols IH]; intros b; cbn [project length]; [reflexivity|]. rewrite vsub_len; rewrite ?vscale_len, !IH; reflexivity. Qed.
Lemma project_orth n cols : forall b, wf n cols -> length b = n ->
  forall h, dot (vsub b (mulmv n cols (project n cols b))) (mulmv n cols h) = 0.
Proof.
  induction cols as [|c cols IH]; intros b W Lb h.
  { cbn [mulmv]. rewrite dot_comm. apply dot_zeros. }
  destruct h as [|a h]; [cbn [mulmv]; rewrite dot_comm; apply dot_zeros|].
  inversion W as [|c0 cols0 Lc W']; subst c0 cols0. cbn [project]. set (y := project n cols c). set (z := project n cols b).
  set (c' := vsub c (mulmv n cols y)). set (t := if Req_EM_T (normsq c') 0 then 0 else dot b c' / normsq c').
  cbn [mulmv]. set (q := mulmv n cols h).
  assert (Ly : length y = length cols) by apply project_len. assert (Lz : length z = length cols) by apply project_len.
  assert (LM : forall v, length (mulmv n cols v) = n) by (intros; apply mulmv_len, W').
  rewrite mulmv_sub by (try assumption; rewrite vscale_len; congruence). rewrite mulmv_scale.
  set (My := mulmv n cols y) in *. set (Mz := mulmv n cols z).
  assert (Lc' : length c' = n) by (unfold c', My; rewrite vsub_len; rewrite ?LM; auto).
  assert (O1 : forall g, dot c' (mulmv n cols g) = 0) by (intros; apply (IH c W' Lc)).
  assert (O2 : forall g, dot (vsub b Mz) (mulmv n cols g) = 0) by (intros; apply (IH b W' Lb)).
  assert (O1y : dot c' My = 0) by apply O1. assert (O1z : dot c' Mz = 0) by apply O1. assert (O1q : dot c' q = 0) by apply O1.
  assert (O2y : dot (vsub b Mz) My = 0) by apply O2. assert (O2q : dot (vsub b Mz) q = 0) by apply O2.
  assert (Ot : dot b c' - t * dot c c' = 0).
  { assert (E : dot c c' = normsq c').
    { unfold normsq. unfold c' at 2. rewrite dot_sub_l by (unfold My; rewrite LM; auto). rewrite (dot_comm My), O1y. ring. }
    rewrite E. unfold t. destruct (Req_EM_T (normsq c') 0) as [Z|Z]; [|field; exact Z].
    rewrite Z. apply normsq_zero in Z. rewrite Z, (dot_comm b), dot_zeros. ring. }
  assert (LMy : length My = n) by apply LM. assert (LMz : length Mz = n) by apply LM. assert (Lq : length q = n) by apply LM.
  assert (EX : forall w, dot (vsub b (vadd (vscale t c) (vsub Mz (vscale t My)))) w = dot (vsub b Mz) w - t * dot c' w).
  { intros w. unfold c'. rewrite !dot_sub_l, dot_add_l, dot_sub_l, !dot_scale_l; repeat (rewrite ?vscale_len; first [ring | congruence | rewrite vadd_len | rewrite vsub_len]). }
  rewrite EX, !dot_add_r by (rewrite vscale_len; congruence). rewrite !dot_scale_r. rewrite O2q, O1q.
  assert (E2 : dot (vsub b Mz) c = dot (vsub b Mz) c').
  { unfold c' at 1. rewrite dot_sub_r by congruence. rewrite O2y. ring. }
  rewrite E2, dot_sub_l by congruence. rewrite (dot_comm Mz c'). rewrite O1z.
  rewrite (dot_comm c' c).
  replace (dot b c') with (t * dot c c') by lra. ring.
Qed.

(** rows of the matrix *)
Definition row (cols : list (list R)) (i : nat) : list R := map (fun c => nth i c 0) cols.
Lemma nth_vadd u : forall v i, length u = length v -> nth i (vadd u v) 0 = nth i u 0 + nth i v 0.
Proof. induction u as [|a u IH]; intros [|b v] [|i] L; try discriminate; try (cbn; ring). rewrite vadd_cons. cbn. apply IH. injection L; auto. Qed.
Lemma nth_vscale a u i : nth i (vscale a u) 0 = a * nth i u 0.
Proof. revert i. induction u as [|b u IH]; intros [|i]; cbn; try ring. apply IH. Qed.
Lemma nth_zeros n i : nth i (zeros n) 0 = 0.
Proof. revert i. unfold zeros. induction n; intros [|i]; cbn; auto. Qed.
Lemma nth_mulmv n cols : forall x i, wf n cols -> nth i (mulmv n cols x) 0 = dot (row cols i) x.
Proof.
  induction cols as [|c cols IH]; intros [|a x] i W; cbn [mulmv row map dot]; try apply nth_zeros.
  inv W. rewrite nth_vadd by (rewrite vscale_len, mulmv_len by assumption; reflexivity).
  rewrite nth_vscale, IH by assumption. unfold row. ring.
Qed.

(** the least-squares solution of minimal norm *)
Definition gs_lstsq (cols : list (list R)) (b : list R) : list R :=
  let n := length b in let k := length cols in
  let rows := map (row cols) (seq 0 n) in
  mulmv k rows (project k rows (project n cols b)).
Lemma gs_lstsq_ok cols b : wf (length b) cols -> lstsq_solution cols b (gs_lstsq cols b).
Proof.
  intros W. apply lstsq_normal; [exact W|]. set (n := length b) in *. set (k := length cols).
  assert (WR : wf k (map (row cols) (seq 0 n))).
  { unfold wf. apply Forall_forall. intros r H. apply in_map_iff in H. destruct H as (i & <- & _). unfold row. apply map_length. }
  unfold gs_lstsq. fold n k. set (rows := map (row cols) (seq 0 n)) in *.
  set (x0 := project n cols b). assert (L0 : length x0 = k) by apply project_len.
  set (p := mulmv k rows (project k rows x0)). assert (Lp : length p = k) by (apply mulmv_len, WR).
  assert (O := project_orth k rows x0 WR L0). fold p in O.
  (* kernel of A = orthogonal complement of the rows *)
  assert (KR : forall h, length h = k -> mulmv n cols h = zeros n -> forall g, dot (mulmv k rows g) h = 0).
  { intros h Lh Z g. rewrite dot_comm, (dot_mulmv k rows h g WR).
    assert (E : map (dot h) rows = zeros n).
    { unfold rows. rewrite map_map. rewrite <- (seq_length n 0) at 2. unfold zeros. clear -Z W.
      assert (Q : forall i, dot h (row cols i) = 0) by (intros i; rewrite dot_comm, <- (nth_mulmv n cols h i W), Z; apply nth_zeros).
      induction (seq 0 n) as [|i l IH]; cbn; [reflexivity|]. rewrite Q, IH. reflexivity. }
    rewrite E, dot_comm. apply dot_zeros. }
  assert (KD : mulmv n cols (vsub x0 p) = zeros n).
  { apply nth_ext with (d := 0) (d' := 0); [rewrite mulmv_len, zeros_len by exact W; reflexivity|].
    intros i Hi. rewrite mulmv_len in Hi by exact W. rewrite nth_zeros, (nth_mulmv n cols _ i W).
    (* row i = rows . e_i *)
    assert (G : forall (m : nat) s l, (s <= i < s + m)%nat -> l = map (row cols) (seq s m) ->
      mulmv k l (map (fun j => if Nat.eqb j i then 1 else 0) (seq s m)) = row cols i).
    { assert (Z0 : forall m s, (i < s)%nat -> mulmv k (map (row cols) (seq s m)) (map (fun j => if Nat.eqb j i then 1 else 0) (seq s m)) = zeros k).
      { induction m; intros s Hs; cbn [seq map mulmv]; [reflexivity|]. rewrite IHm by lia.
        replace (Nat.eqb s i) with false by (symmetry; apply Nat.eqb_neq; lia). rewrite vscale_0, vadd_zeros_r; [unfold row, k; rewrite map_length; reflexivity|apply zeros_len || (rewrite zeros_len; unfold row, k; apply map_length)]. }
      induction m; intros s l Hs ->; [lia|]. cbn [seq map mulmv].
      destruct (Nat.eqb_spec s i) as [->|N].
      - rewrite Z0 by lia. rewrite vscale_1. apply vadd_zeros_r. unfold row, k. apply map_length.
      - rewrite (IHm (S s) _) by (try reflexivity; lia). rewrite vscale_0. apply vadd_zeros_l. unfold row. rewrite !map_length. reflexivity. }
    rewrite <- (G n 0%nat rows) by (try reflexivity; lia). rewrite dot_comm. apply O. }
  assert (EA : mulmv n cols p = mulmv n cols x0).
  { rewrite mulmv_sub in KD by (try assumption; congruence). symmetry. apply vsub_zero_eq; rewrite ?mulmv_len by exact W; [reflexivity|exact KD]. }
  split; [exact Lp|]. fold n. split.
  - intros h Lh. rewrite EA. apply (project_orth n cols b W eq_refl).
  - intros h Lh Z. apply KR; [exact Lh|exact Z].
Qed.
