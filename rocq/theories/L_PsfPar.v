(** Lemmas on the worker processes of ZernPSF (C55). *)
From Coq Require Import Reals Lra Lia List.
From Verif Require Import Py SpecIndex SpecRadial M_Radial M_Coeffs SpecCoeffs M_Sum SpecSum L_Sum M_Geo M_Psf SpecPsf L_Psf L_PsfKernel L_Fit L_Phases M_PsfClass SpecPsfClass L_PsfClass L_PsfObj P_PsfIO
  M_Disp SpecDisp SpecDispM L_DispM M_PsfPar SpecPsfPar.
Local Open Scope R_scope.

(** the value of a job *)
Definition job_value (rnd : R -> R) (p : Z * Z) (alpha : R) (n : Z) (r theta phi : R) : cplx :=
  (tr rnd n (re_psi (fun x phi => alpha * Zv p x phi) r theta phi), tr rnd n (im_psi (fun x phi => alpha * Zv p x phi) r theta phi)).

Section Par.
Variables (rnd : R -> R) (fuel : nat) (f : pval -> option pval).
Hypothesis WF : worker_function rnd fuel f.

Lemma job_ok phi p r theta alpha n : okp fuel p -> good rnd n -> f (VJob phi p r theta alpha n) = Some (VNumber (job_value rnd p alpha n r theta phi)).
Proof.
  intros OK (G1 & G2 & G3). destruct (WF (VJob phi p r theta alpha n)) as (ws & RS & ->). cbn [radial_integral_s].
  destruct (radial_isok (phase_pol fuel p alpha) _ (phase_pol_computes fuel p alpha OK) rnd n r theta phi G1 G2 G3 ws RS) as [_ E]. rewrite E. reflexivity.
Qed.
Lemma numbers_jobs p alpha n nphi r theta l : okp fuel p -> good rnd n ->
  numbers (map f (map (fun i => VJob (IZR i * (2 * PI / IZR nphi)) p r theta alpha n) l)) = Some (map (fun i => job_value rnd p alpha n r theta (IZR i * (2 * PI / IZR nphi))) l).
Proof. intros OK G. induction l as [|i l IH]; [reflexivity|]. cbn [map numbers]. rewrite job_ok by assumption. rewrite IH. reflexivity. Qed.

(** what the workers say to the jobs *)
Definition right_answer (ps : list pval) : outcome pval := OResult (map f ps).
Lemma point_isok p alpha n nphi r theta : okp fuel p -> good rnd n -> (nphi <> 0)%Z ->
  isok (point_told rnd fuel p alpha n nphi r theta (right_answer (jobs_even p alpha n nphi r theta)) (right_answer (jobs_odd p alpha n nphi r theta)))
       (psf_rnd rnd n nphi (fun x phi => alpha * Zv p x phi) r theta).
Proof.
  intros OK G N. unfold point_told. replace (nphi =? 0)%Z with false by (symmetry; apply Z.eqb_neq; exact N).
  eapply isok_bind; [apply isok_lift; unfold right_answer, jobs_even, sum_results; rewrite numbers_jobs by assumption; reflexivity|].
  eapply isok_bind; [apply isok_lift; unfold right_answer, jobs_odd, sum_results; rewrite numbers_jobs by assumption; reflexivity|]. cbv beta.
  destruct G as (G1 & G2 & G3). apply (simpson_isok _ _ (phase_pol_computes fuel p alpha OK) rnd n G1 G2 G3 nphi r theta); reflexivity.
Qed.
Lemma row_isok (point : R -> R -> outcome pval -> outcome pval -> M R) v (jobs : R * R -> list (list pval)) pts rest :
  (forall pt, exists je jo, jobs pt = [je; jo] /\ isok (point (fst pt) (snd pt) (right_answer je) (right_answer jo)) (v pt)) ->
  isok (row_told point pts (map right_answer (flat_map jobs pts) ++ rest)) (Some (map v pts, rest)).
Proof.
  intros H. induction pts as [|pt pts IH]; [apply isok_ret|]. cbn [flat_map row_told map]. destruct (H pt) as (je & jo & -> & OK). cbn [app map].
  eapply isok_bind; [exact OK|]. eapply isok_bind; [exact IH|]. cbv beta. apply isok_ret.
Qed.
Lemma rows_isok (point : R -> R -> outcome pval -> outcome pval -> M R) v (jobs : R * R -> list (list pval)) rows rest :
  (forall pt, exists je jo, jobs pt = [je; jo] /\ isok (point (fst pt) (snd pt) (right_answer je) (right_answer jo)) (v pt)) ->
  isok (rows_told point rows (map right_answer (flat_map jobs (concat rows)) ++ rest)) (Some (map (map v) rows)).
Proof.
  intros H. revert rest. induction rows as [|r rows IH]; intros rest; [apply isok_ret|]. cbn [concat rows_told map]. rewrite flat_map_app, map_app, <- app_assoc.
  eapply isok_bind; [apply row_isok, H|]. cbv beta iota. eapply isok_bind; [apply IH|]. cbv beta. apply isok_ret.
Qed.

Definition kernel_value (normalize : bool) (o : zernpsf) (p : Z * Z) : kernel :=
  finish normalize (table (fun i j => psf_rnd rnd (n_int_r o) (n_int_phi o) (fun x phi => alpha o * Zv p x phi) (k o * NA o * pixel_size o * pix_d (kernel_size o) i j) (pix_t (kernel_size o) i j)) (kernel_size o)).
Lemma parallel_isok normalize o p s : object o -> zpol o = Some p -> okp fuel p -> good rnd (n_int_r o) -> (3 <= kernel_size o)%Z -> reachable s ->
  snd (snd (get_kernel_parallel rnd fuel true normalize o s)) = Ok (kernel_value normalize o p).
Proof.
  intros O EZ OK G K3 RS. assert (IV := object_inv o O). assert (N := i_nphi o IV). unfold get_kernel_parallel. rewrite EZ. replace (kernel_size o <? 3)%Z with false by lia. destruct (G) as (G1 & G2 & G3).
  assert (F := fill_isok (point_parallel rnd fuel true p (alpha o) (n_int_r o) (n_int_phi o)) (fun d t => psf_rnd rnd (n_int_r o) (n_int_phi o) (fun x phi => alpha o * Zv p x phi) d t) (k o) (NA o) (pixel_size o) (kernel_size o)).
  destruct (F) with (s := s) as [_ E]; [|exact RS|].
  - intros d t s1 RS1. rewrite (parallel_vec rnd fuel p (alpha o)). apply (vec_isok _ _ (phase_pol_computes fuel p (alpha o) OK) rnd _ G1 G2 G3); [lia|intros [_ X]; discriminate|exact RS1].
  - destruct (fill_kernel _ _ _ _ _ s) as [s' [l|e]]; cbn in E; [|discriminate]. injection E as ->. reflexivity.
Qed.
Lemma kernel_told_isok normalize o p rest s : object o -> zpol o = Some p -> okp fuel p -> good rnd (n_int_r o) -> (3 <= kernel_size o)%Z -> reachable s ->
  snd (kernel_told rnd fuel normalize o (map right_answer (kernel_jobs o) ++ rest) s) = Ok (Some (kernel_value normalize o p)).
Proof.
  intros O EZ OK G K3 RS. assert (IV := object_inv o O). assert (N := i_nphi o IV). unfold kernel_told, kernel_jobs. rewrite EZ. replace (kernel_size o <? 3)%Z with false by lia.
  assert (R := rows_isok (point_told rnd fuel p (alpha o) (n_int_r o) (n_int_phi o)) (fun pt => psf_rnd rnd (n_int_r o) (n_int_phi o) (fun x phi => alpha o * Zv p x phi) (fst pt) (snd pt))
    (fun pt => [jobs_even p (alpha o) (n_int_r o) (n_int_phi o) (fst pt) (snd pt); jobs_odd p (alpha o) (n_int_r o) (n_int_phi o) (fst pt) (snd pt)]) (kernel_points o) rest).
  assert (R2 : isok (run x <- rows_told (point_told rnd fuel p (alpha o) (n_int_r o) (n_int_phi o)) (kernel_points o)
      (map right_answer (flat_map (fun pt => [jobs_even p (alpha o) (n_int_r o) (n_int_phi o) (fst pt) (snd pt); jobs_odd p (alpha o) (n_int_r o) (n_int_phi o) (fst pt) (snd pt)]) (concat (kernel_points o))) ++ rest);
      mret (option_map (finish normalize) x)) (Some (kernel_value normalize o p))).
  { eapply isok_bind; [apply R; intros pt; eexists _, _; split; [reflexivity|]; apply point_isok; [exact OK|exact G|lia]|]. cbv beta.
    eapply isok_ext; [|apply isok_ret]. cbn [option_map]. unfold kernel_value. f_equal. f_equal. unfold kernel_points, table. rewrite map_map. apply map_ext. intros i. rewrite map_map. reflexivity. }
  apply (R2 s RS).
Qed.

(** ** the answers of a session *)
Lemma wn4 cpu : (workers_number cpu (Some 4%nat) <= 4)%nat.
Proof.
  unfold workers_number. change (2 <=? 4)%nat with true. cbn [andb]. destruct (Nat.leb_spec 4 cpu) as [L|L]; [lia|]. assert (cpu / 2 <= 3 / 2)%nat by (apply Nat.div_le_mono; lia). change (3 / 2)%nat with 1%nat in H. lia.
Qed.
Lemma jobs_len p a n nphi r t : (length (jobs_even p a n nphi r t) = Z.to_nat ((nphi - 3) / 2) /\ length (jobs_odd p a n nphi r t) = Z.to_nat ((nphi - 1) / 2))%nat.
Proof. unfold jobs_even, jobs_odd. rewrite !map_length, !range2_len. split; f_equal; f_equal; lia. Qed.
Lemma jobs_sizes o ps : (36 <= n_int_phi o)%Z -> In ps (kernel_jobs o) -> (Z.to_nat ((n_int_phi o - 3) / 2) <= length ps)%nat.
Proof.
  intros N I. unfold kernel_jobs in I. destruct (zpol o) as [p|]; [|destruct I]. apply in_flat_map in I. destruct I as (pt & _ & [<-|[<-|[]]]).
  - destruct (jobs_len p (alpha o) (n_int_r o) (n_int_phi o) (fst pt) (snd pt)) as [-> _]. lia.
  - destruct (jobs_len p (alpha o) (n_int_r o) (n_int_phi o) (fst pt) (snd pt)) as [_ ->]. assert ((n_int_phi o - 3) / 2 <= (n_int_phi o - 1) / 2)%Z by (apply Z.div_le_mono; lia). lia.
Qed.
Lemma jobs_total o p ps : zpol o = Some p -> okp fuel p -> good rnd (n_int_r o) -> In ps (kernel_jobs o) -> forall v, In v ps -> f v <> None.
Proof.
  intros EZ OK G I v IV. unfold kernel_jobs in I. rewrite EZ in I. apply in_flat_map in I.
  destruct I as (pt & _ & [<-|[<-|[]]]); unfold jobs_even, jobs_odd in IV; apply in_map_iff in IV; destruct IV as (i & <- & _); rewrite job_ok by assumption; discriminate.
Qed.
Lemma nth_at {A} (g : A -> A) d : forall (l : list A) k, (k < length l)%nat -> nth k (at_nth g k l) d = g (nth k l d).
Proof. induction l as [|x l IH]; intros [|k] L; cbn in *; try lia; [reflexivity|]. apply IH. lia. Qed.
Lemma at_len {A} (g : A -> A) : forall (l : list A) k, length (at_nth g k l) = length l.
Proof. induction l as [|x l IH]; intros [|k]; cbn; try reflexivity. rewrite IH. reflexivity. Qed.

(** every manager in the list is usable and has n workers *)
Definition usable (n : nat) (ms : list (list pval * bool * nat)) : Prop := Forall (fun m => snd (fst m) = true /\ snd m = n) ms.
Lemma usable_at n qs ms k : usable n ms -> usable n (at_nth (replace_params qs) k ms).
Proof.
  intros U. unfold usable in *. rewrite Forall_forall in *. intros x I. destruct (at_nth_In _ _ _ _ I) as [Z|(y & Z & ->)]; [apply U, Z|]. destruct (U y Z) as [U1 U2]. split; [exact U1|exact U2].
Qed.
Lemma jobs_answers cpu n pool k l : forall ms rest, usable n ms -> (k < length ms)%nat ->
  (forall ps, In ps l -> (1 <= length ps)%nat /\ (n <= length ps)%nat /\ (pool <= length ps)%nat /\ total_on f ps = true) ->
  exists ms', usable n ms' /\ length ms' = length ms /\
    answers_shared f cpu pool ms (flat_map (fun ps => [MUpdate k ps; MCompute k]) l ++ rest) =
      (map right_answer l ++ fst (answers_shared f cpu pool ms' rest), snd (answers_shared f cpu pool ms' rest)).
Proof.
  induction l as [|ps l IH]; intros ms rest U L H.
  - exists ms. split; [exact U|]. split; [reflexivity|]. cbn [flat_map map app]. apply surjective_pairing.
  - destruct (H ps) as (L1 & L2 & L3 & T); [left; reflexivity|].
    destruct (IH (at_nth (replace_params ps) k ms) rest) as (ms' & U' & LL & E); [apply usable_at, U|rewrite at_len; exact L|intros qs I; apply H; right; exact I|].
    exists ms'. split; [exact U'|]. split; [rewrite LL; apply at_len|]. cbn [flat_map app]. cbn [answers_shared].
    assert (US := proj1 (Forall_forall _ _) U _ (nth_In ms ([], false, 0%nat) L)). destruct (nth k ms ([], false, 0%nat)) as [[qs b] n0] eqn:EN. cbn in US. destruct US as [-> ->].
    destruct (Nat.eqb_spec (length ps) 0); [lia|]. destruct (Nat.ltb_spec (length ps) n); [lia|].
    rewrite nth_at by exact L. rewrite EN. unfold replace_params at 1. cbn [fst snd]. destruct (Nat.ltb_spec (length ps) pool); [lia|]. rewrite T, E. reflexivity.
Qed.

(** sessions: how many managers are made, and what every part of it is told *)
Definition told_to (c : pcall) : list (outcome pval) := match c with PInit _ => [] | PKernel _ o => map right_answer (kernel_jobs o) end.
Lemma session_answers cpu total : let n := workers_number cpu (Some 4%nat) in forall l ms, usable n ms -> (length ms + inits l <= total)%nat -> proper_from (length ms) l ->
  (forall k o, In (PKernel k o) l -> fine rnd fuel total o) ->
  answers_shared f cpu (n * length ms) ms (session_calls l) = (flat_map told_to l, true).
Proof.
  intros n. assert (N4 := wn4 cpu). fold n in N4. induction l as [|c l IH]; intros ms U L P H; [reflexivity|].
  destruct c as [o|k o]; cbn [session_calls flat_map pcall_calls told_to].
  - unfold init_calls. cbn [negb andb]. cbn [proper_from] in P. unfold inits in L. cbn [filter] in L. destruct (airy o) eqn:EA; cbn [negb app] in *.
    + apply IH; [exact U|exact L|exact P|]. intros k' o' I. apply (H k' o'). right. exact I.
    + cbn [answers_shared]. fold n. change (length placeholders) with 10%nat. cbn [Nat.eqb]. destruct (Nat.ltb_spec 10 n); [lia|].
      assert (E : (n * length ms + n = n * length (ms ++ [(placeholders, true, n)]))%nat) by (rewrite app_length; cbn [length]; lia). rewrite E. cbn [length] in L.
      change (flat_map pcall_calls l) with (session_calls l). apply IH.
      * apply Forall_app. split; [exact U|]. constructor; [split; reflexivity|constructor].
      * rewrite app_length. cbn [length]. unfold inits. lia.
      * rewrite app_length. cbn [length]. replace (length ms + 1)%nat with (S (length ms)) by lia. exact P.
      * intros k' o' I. apply (H k' o'). right. exact I.
  - destruct P as [PK P]. destruct (H k o) as (O & (p & EZ & OK & G & K3) & NB); [left; reflexivity|]. assert (N36 := i_nphi o (object_inv o O)).
    change (flat_map pcall_calls l) with (session_calls l). unfold kernel_calls.
    destruct (jobs_answers cpu n (n * length ms) k (kernel_jobs o) ms (session_calls l) U PK) as (ms' & U' & LL & E).
    + intros ps I. assert (S := jobs_sizes o ps N36 I). unfold inits in L. cbn [filter] in L.
      assert (Z.to_nat ((8 * Z.of_nat total + 3 - 3) / 2) <= Z.to_nat ((n_int_phi o - 3) / 2))%nat. { apply Z2Nat.inj_le; try (apply Z.div_pos; lia). apply Z.div_le_mono; lia. }
      replace (8 * Z.of_nat total + 3 - 3)%Z with (4 * Z.of_nat total * 2)%Z in H0 by ring. rewrite Z.div_mul in H0 by lia. rewrite Z2Nat.inj_mul, Nat2Z.id in H0 by lia. change (Z.to_nat 4) with 4%nat in H0.
      assert (T : total_on f ps = true). { unfold total_on. apply forallb_forall. intros v IV. assert (X := jobs_total o p ps EZ OK G I v IV). destruct (f v); [reflexivity|congruence]. }
      split; [nia|]. split; [nia|]. split; [nia|exact T].
    + rewrite E. rewrite <- LL in L, P |- *. rewrite IH; [reflexivity|exact U'|exact L|exact P|]. intros k' o' I. apply (H k' o'). right. exact I.
Qed.

(** ** while answers are missing the kernel waits *)
Lemma row_waits (point : R -> R -> outcome pval -> outcome pval -> M R) v (jobs : R * R -> list (list pval)) : forall pts q,
  (forall pt, exists je jo, jobs pt = [je; jo] /\ isok (point (fst pt) (snd pt) (right_answer je) (right_answer jo)) (v pt) /\ exists c, sum_results (right_answer je) = Ok c) ->
  (q < 2 * length pts)%nat -> isok (row_told point pts (firstn q (map right_answer (flat_map jobs pts)))) None.
Proof.
  induction pts as [|pt pts IH]; intros q H L; [cbn in L; lia|]. cbn [flat_map row_told map]. destruct (H pt) as (je & jo & -> & OK & c & EC). cbn [app map].
  destruct q as [|[|q]]; cbn [firstn].
  - apply isok_ret.
  - rewrite EC. apply isok_ret.
  - eapply isok_bind; [exact OK|]. eapply isok_bind; [apply IH; [exact H|cbn [length] in L; lia]|]. cbv beta. apply isok_ret.
Qed.
Lemma flat2_len {A B} (g : A -> list B) l : (forall x, length (g x) = 2%nat) -> length (flat_map g l) = (2 * length l)%nat.
Proof. intros H. induction l as [|x l IH]; [reflexivity|]. cbn [flat_map length]. rewrite app_length, IH, H. lia. Qed.
Lemma rows_wait (point : R -> R -> outcome pval -> outcome pval -> M R) v (jobs : R * R -> list (list pval)) : forall rows q,
  (forall pt, exists je jo, jobs pt = [je; jo] /\ isok (point (fst pt) (snd pt) (right_answer je) (right_answer jo)) (v pt) /\ exists c, sum_results (right_answer je) = Ok c) ->
  (q < 2 * length (concat rows))%nat -> isok (rows_told point rows (firstn q (map right_answer (flat_map jobs (concat rows))))) None.
Proof.
  induction rows as [|r rows IH]; intros q H L; [cbn in L; lia|]. cbn [concat rows_told] in *. rewrite flat_map_app, map_app, firstn_app, map_length.
  assert (J : forall pt, length (jobs pt) = 2%nat) by (intros pt; destruct (H pt) as (je & jo & -> & _); reflexivity).
  rewrite (flat2_len jobs r J). rewrite app_length in L. destruct (Nat.ltb_spec q (2 * length r)) as [Q|Q].
  - replace (q - 2 * length r)%nat with 0%nat by lia. cbn [firstn]. rewrite app_nil_r. eapply isok_bind; [apply (row_waits point v jobs r q H Q)|]. cbv beta iota. apply isok_ret.
  - rewrite (firstn_all2 (n := q)) by (rewrite map_length, flat2_len by exact J; lia).
    eapply isok_bind; [apply row_isok; intros pt; destruct (H pt) as (je & jo & E & OK & _); exists je, jo; split; [exact E|exact OK]|]. cbv beta iota.
    eapply isok_bind; [apply IH; [exact H|lia]|]. cbv beta. apply isok_ret.
Qed.
Lemma rows_concat {A B} (h : A -> list B) n l : (forall x, length (h x) = n) -> length (concat (map h l)) = (length l * n)%nat.
Proof. intros H. induction l as [|x l IH]; [reflexivity|]. cbn [map concat length]. rewrite app_length, IH, H. lia. Qed.
Lemma points_len o : length (concat (kernel_points o)) = (Z.to_nat (kernel_size o) * Z.to_nat (kernel_size o))%nat.
Proof.
  unfold kernel_points. cbv zeta. rewrite (rows_concat _ (Z.to_nat (kernel_size o))); [rewrite zrange_len; reflexivity|]. intros i. rewrite map_length, zrange_len. reflexivity.
Qed.
Lemma jobs_count o p : zpol o = Some p -> length (kernel_jobs o) = (2 * (Z.to_nat (kernel_size o) * Z.to_nat (kernel_size o)))%nat.
Proof. intros E. unfold kernel_jobs. rewrite E, flat2_len by (intros; reflexivity). rewrite points_len. reflexivity. Qed.
Lemma kernel_waits normalize o p q s : object o -> zpol o = Some p -> okp fuel p -> good rnd (n_int_r o) -> (3 <= kernel_size o)%Z -> reachable s ->
  (q < length (kernel_jobs o))%nat -> snd (kernel_told rnd fuel normalize o (firstn q (map right_answer (kernel_jobs o))) s) = Ok None.
Proof.
  intros O EZ OK G K3 RS Q. rewrite (jobs_count o p EZ) in Q. assert (IV := object_inv o O). assert (N := i_nphi o IV). unfold kernel_told, kernel_jobs. rewrite EZ. replace (kernel_size o <? 3)%Z with false by lia.
  set (jobs := fun pt : R * R => [jobs_even p (alpha o) (n_int_r o) (n_int_phi o) (fst pt) (snd pt); jobs_odd p (alpha o) (n_int_r o) (n_int_phi o) (fst pt) (snd pt)]).
  assert (R2 : isok (run x <- rows_told (point_told rnd fuel p (alpha o) (n_int_r o) (n_int_phi o)) (kernel_points o) (firstn q (map right_answer (flat_map jobs (concat (kernel_points o)))));
      mret (option_map (finish normalize) x)) None).
  { eapply isok_bind; [apply (rows_wait _ (fun pt => psf_rnd rnd (n_int_r o) (n_int_phi o) (fun x phi => alpha o * Zv p x phi) (fst pt) (snd pt)) jobs); [|rewrite points_len; exact Q]|cbv beta; apply isok_ret].
    intros pt. eexists _, _. split; [reflexivity|]. split; [apply point_isok; [exact OK|exact G|lia]|]. unfold right_answer, jobs_even, sum_results. rewrite numbers_jobs by assumption. eexists. reflexivity. }
  apply (R2 s RS).
Qed.
End Par.
