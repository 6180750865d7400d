(** Property theorems C20, C21, C24 (exact arithmetic on finite values). *)
From Coq Require Import Reals Lra Permutation.
From Verif Require Import Py SpecIndex SpecRadial M_Radial M_Coeffs SpecCoeffs M_Sum SpecSum L_Sum.
Local Open Scope R_scope.

(** ** C20: at the points denoted by (r, theta) - number/number, vector/number, number/vector or two
    vectors of equal length - the result is the weighted sum of the polynomials, in the same order. *)
Theorem C20_sum_at_points : forall fuel cs ps r theta pts shape s, reachable s -> cs <> [] -> length cs = length ps ->
  Forall (okp fuel) ps -> broadcast r theta pts shape -> Forall (fun q => in_disk (fst q)) pts ->
  snd (sum_zernikes fuel cs (map Some ps) r theta false s) = Ok (SVal (shape (map (fun q => zsum cs ps (fst q) (snd q)) pts))).
Proof. intros fuel cs ps r theta pts shape s RS N L OK B F. apply (sum_zernikes_points fuel cs ps r theta pts shape N L OK B F s RS). Qed.
Print Assumptions C20_sum_at_points.

Theorem C20_surface : forall fuel cs ps rs ts s, reachable s -> cs <> [] -> length cs = length ps ->
  Forall (okp fuel) ps -> Forall in_disk rs ->
  exists f, snd (sum_zernikes fuel cs (map Some ps) (RArr (map Fin rs)) (RArr (map Fin ts)) true s) = Ok (SMat (length rs) (length ts) f) /\
    forall i j, (i < length rs)%nat -> (j < length ts)%nat -> f i j = Fin (zsum cs ps (nth i rs 0) (nth j ts 0)).
Proof.
  intros fuel cs ps rs ts s RS N L OK F. destruct (sum_zernikes_surface fuel cs ps rs ts N L OK F s RS) as (_ & v & E & f & -> & H).
  exists f. split; assumption.
Qed.
Print Assumptions C20_surface.

(** the mesh-grid variant computes the same surface *)
Theorem C20_meshgrid_surface : forall fuel cs ps rs ts s, reachable s -> length cs = length ps ->
  Forall (okp fuel) ps -> Forall in_disk rs -> rs <> [] -> ts <> [] ->
  exists f, snd (sum_zernikes_meshgrid fuel cs (map Some ps) (map Fin rs) (map Fin ts) s) = Ok (SMat (length rs) (length ts) f) /\
    forall i j, (i < length rs)%nat -> (j < length ts)%nat -> f i j = Fin (zsum cs ps (nth i rs 0) (nth j ts 0)).
Proof.
  intros fuel cs ps rs ts s RS L OK F NR NT. destruct (sum_meshgrid_ok fuel cs ps rs ts L OK F NR NT s RS) as (_ & v & E & f & -> & H).
  exists f. split; assumption.
Qed.
Print Assumptions C20_meshgrid_surface.

Theorem C20_rejects_lengths : forall fuel cs ps r theta sf s, length cs <> length ps \/ cs = [] ->
  length cs <> length ps \/ ps = [] -> sum_zernikes fuel cs ps r theta sf s = (s, Raise ValueError).
Proof.
  intros fuel cs ps r theta sf s [H|H] [H'|H']; try (apply sum_length_error; assumption). subst. apply sum_empty_error.
Qed.
Print Assumptions C20_rejects_lengths.
Example C20_nonvacuous : okp 1000 ((-3), 5)%Z /\ okp 1000 (0, 40)%Z /\
  broadcast (RList (map Fin [0; 1/2; 1])) (RArr (map Fin [0; 1; 7])) (combine [0; 1/2; 1] [0; 1; 7]) (fun l => KArr (map Fin l)) /\
  Forall (fun q => in_disk (fst q)) (combine [0; 1/2; 1] [0; 1; 7]).
Proof.
  unfold okp, valid. cbn [fst snd]. split; [split; [split; [lia|split; [lia|exists 1%Z; lia]]|lia]|].
  split; [split; [split; [lia|split; [lia|exists 20%Z; lia]]|lia]|].
  split; [apply bc_vv; [constructor|constructor|discriminate|reflexivity]|].
  repeat (apply Forall_cons; [cbn; unfold in_disk; lra|]). apply Forall_nil.
Qed.

(** ** C21: linearity, order independence, zero coefficients; stated for the results of the calls *)
Definition result_at (fuel : nat) (l : list (R * (Z * Z))) (x y : R) (s : cstate) : res sumval :=
  snd (sum_zernikes fuel (map fst l) (map Some (map snd l)) (RNum (Fin x)) (RNum (Fin y)) false s).
Definition okl (fuel : nat) (l : list (R * (Z * Z))) : Prop := l <> [] /\ Forall (okp fuel) (map snd l).

Lemma result_at_ok fuel l x y s : reachable s -> okl fuel l -> in_disk x -> result_at fuel l x y s = Ok (SVal (KFloat (Fin (psum l x y)))).
Proof.
  intros RS [N F] D. unfold result_at.
  apply (C20_sum_at_points fuel (map fst l) (map snd l) _ _ [(x, y)] (fun l => KFloat (Fin (hd 0 l))) s RS);
    [destruct l; [elim N; reflexivity|discriminate]|rewrite !map_length; reflexivity|exact F|constructor|].
  apply Forall_cons; [exact D|apply Forall_nil].
Qed.

Theorem C21_order_independent : forall fuel l l' x y s s', reachable s -> reachable s' -> okl fuel l -> in_disk x ->
  Permutation l l' -> result_at fuel l x y s = result_at fuel l' x y s'.
Proof.
  intros fuel l l' x y s s' RS RS' [N F] D P. rewrite !result_at_ok; try assumption; [rewrite (psum_perm _ _ x y P); reflexivity| |split; assumption].
  split; [intros ->; apply Permutation_sym, Permutation_nil in P; contradiction|].
  eapply Permutation_Forall; [|exact F]. apply Permutation_map, P.
Qed.
Print Assumptions C21_order_independent.

Theorem C21_zero_coefficients_dropped : forall fuel l x y s s', reachable s -> reachable s' -> okl fuel l -> in_disk x ->
  (exists cp, In cp l /\ fst cp <> 0) ->
  result_at fuel (filter (fun cp => if Req_EM_T (fst cp) 0 then false else true) l) x y s = result_at fuel l x y s'.
Proof.
  intros fuel l x y s s' RS RS' [N F] D (cp & I & NZ). rewrite !result_at_ok; try assumption.
  - change (fun cp => if Req_EM_T (fst cp) 0 then false else true) with (fun cp : R * (Z * Z) => nonzero (fst cp)).
    rewrite psum_filter. reflexivity.
  - split; assumption.
  - set (g := fun _ => _). assert (I' : In cp (filter g l)) by (apply filter_In; split; [exact I|unfold g; destruct (Req_EM_T (fst cp) 0); [contradiction|reflexivity]]).
    split; [intros E; rewrite E in I'; destruct I'|].
    rewrite Forall_forall in *. intros p Hp. apply F. apply in_map_iff in Hp. destruct Hp as (q & <- & Hq).
    apply filter_In in Hq. apply in_map. tauto.
Qed.
Print Assumptions C21_zero_coefficients_dropped.

Theorem C21_linear : forall fuel cs ds ps a b x y s1 s2 s3, reachable s1 -> reachable s2 -> reachable s3 ->
  cs <> [] -> length cs = length ps -> length ds = length ps -> Forall (okp fuel) ps -> in_disk x ->
  exists u v, 
    snd (sum_zernikes fuel cs (map Some ps) (RNum (Fin x)) (RNum (Fin y)) false s1) = Ok (SVal (KFloat (Fin u))) /\
    snd (sum_zernikes fuel ds (map Some ps) (RNum (Fin x)) (RNum (Fin y)) false s2) = Ok (SVal (KFloat (Fin v))) /\
    snd (sum_zernikes fuel (map (fun cd => fst cd + snd cd) (combine (map (Rmult a) cs) (map (Rmult b) ds))) (map Some ps) (RNum (Fin x)) (RNum (Fin y)) false s3)
      = Ok (SVal (KFloat (Fin (a * u + b * v)))).
Proof.
  intros fuel cs ds ps a b x y s1 s2 s3 R1 R2 R3 N L L' F D.
  assert (G : forall es s, reachable s -> length es = length ps ->
    snd (sum_zernikes fuel es (map Some ps) (RNum (Fin x)) (RNum (Fin y)) false s) = Ok (SVal (KFloat (Fin (zsum es ps x y))))).
  { intros es s RS LE.
    apply (C20_sum_at_points fuel es ps _ _ [(x, y)] (fun l => KFloat (Fin (hd 0 l))) s RS); try assumption; [|constructor|].
    - intros ->. destruct cs; [elim N; reflexivity|]. rewrite <- L in LE. discriminate.
    - apply Forall_cons; [exact D|apply Forall_nil]. }
  exists (zsum cs ps x y), (zsum ds ps x y). rewrite !G; try assumption.
  - split; [reflexivity|]. split; [reflexivity|]. rewrite zsum_add by (rewrite !map_length; congruence). rewrite !zsum_scale. reflexivity.
  - rewrite map_length, combine_length, !map_length, L, L'. apply Nat.min_id.
Qed.
Print Assumptions C21_linear.
Example C21_nonvacuous : okl 1000 [(2, (1, 1)%Z); (0, (0, 2)%Z); (-3, ((-2), 2)%Z)] /\ in_disk (1/3) /\
  Permutation [(2, (1, 1)%Z); (-3, ((-2), 2)%Z)] [(-3, ((-2), 2)%Z); (2, (1, 1)%Z)].
Proof.
  split; [|split; [unfold in_disk; lra|constructor]]. split; [discriminate|].
  unfold okp, valid. repeat (apply Forall_cons; [cbn [fst snd map]|]); [| | |apply Forall_nil];
  (split; [split; [lia|split; [lia|]]|lia]); [exists 0%Z|exists 1%Z|exists 0%Z]; lia.
Qed.

(** ** C24: for arrays, lists, tuples and numbers without NaN: ValueError exactly when some radius is outside *)
Theorem C24_outside_rejected : forall fuel p use_exact_eq v theta s, supported_container v -> ~ In NaN (elements v) ->
  (exists x, In x (elements v) /\ outside x) ->
  radial fuel p use_exact_eq v s = (s, Raise ValueError) /\
  radial_dr fuel p use_exact_eq v s = (s, Raise ValueError) /\
  polynomial_value fuel p v theta s = (s, Raise ValueError).
Proof. exact all_rejected. Qed.
Print Assumptions C24_outside_rejected.

Theorem C24_inside_radial : forall fuel p v xs shape s, reachable s -> okp fuel p -> arg1 v xs shape -> Forall in_disk xs ->
  snd (radial fuel p false v s) = Ok (shape (map (R_nm (fst p) (snd p)) xs)).
Proof. intros fuel p v xs shape s RS OK A F. apply (radial_accepts fuel p v xs shape OK A F s RS). Qed.
Print Assumptions C24_inside_radial.

Theorem C24_inside_radial_dr : forall fuel p v xs shape, okp fuel p -> (snd p - Z.abs (fst p) <= 38)%Z -> arg1 v xs shape -> Forall in_disk xs ->
  exists ds, (forall s, reachable s -> snd (radial_dr fuel p false v s) = Ok (shape ds)) /\ length ds = length xs /\
    forall i, (i < length xs)%nat -> derivable_pt_lim (R_nm (fst p) (snd p)) (nth i xs 0) (nth i ds 0).
Proof.
  intros fuel p v xs shape OK HB A F. destruct (radial_dr_accepts fuel p v xs shape OK HB A F) as (ds & I & H).
  exists ds. split; [|exact H]. intros s RS. apply (I s RS).
Qed.
Print Assumptions C24_inside_radial_dr.

Theorem C24_inside_polynomial_value : forall fuel p r theta pts shape s, reachable s -> okp fuel p -> broadcast r theta pts shape ->
  Forall (fun q => in_disk (fst q)) pts ->
  snd (polynomial_value fuel p r theta s) = Ok (shape (map (fun q => Z_nm (fst p) (snd p) (fst q) (snd q)) pts)).
Proof. intros fuel p r theta pts shape s RS OK B F. apply (value_isok fuel p r theta pts shape OK B F s RS). Qed.
Print Assumptions C24_inside_polynomial_value.

Theorem C24_empty_rejected : forall fuel p use_exact_eq v theta s, supported_container v -> elements v = [] ->
  radial fuel p use_exact_eq v s = (s, Raise ValueError) /\
  radial_dr fuel p use_exact_eq v s = (s, Raise ValueError) /\
  polynomial_value fuel p v theta s = (s, Raise ValueError).
Proof. exact empty_rejected. Qed.
Print Assumptions C24_empty_rejected.

(** ... and it is false with NaN among the radii, and for sets (documented as accepted) *)
Theorem C24_nan_refuted : forall fuel p s, okp fuel p -> reachable s ->
  snd (radial fuel p false (RArr [NaN; Fin 5]) s) = Ok (KArr [NaN; Fin (R_nm (fst p) (snd p) 5)]).
Proof. exact nan_accepted. Qed.
Print Assumptions C24_nan_refuted.
Theorem C24_set_refuted : forall fuel p use_exact_eq l theta s,
  radial fuel p use_exact_eq (RSet l) s = (s, Raise TypeError) /\
  radial_dr fuel p use_exact_eq (RSet l) s = (s, Raise TypeError) /\
  polynomial_value fuel p (RSet l) theta s = (s, Raise TypeError).
Proof. exact set_rejected. Qed.
Print Assumptions C24_set_refuted.
(** a surface of polynomials with zero coefficients is returned for any radii *)
Theorem C24_zero_surface_unchecked : forall fuel cs ps rs ts s, cs <> [] -> length cs = length ps -> Forall (fun c => c = 0) cs ->
  sum_zernikes fuel cs (map Some ps) (RArr rs) (RArr ts) true s = (s, Ok (SMat (length rs) (length ts) (fun _ _ => Fin 0))).
Proof. exact surface_zero_unchecked. Qed.
Print Assumptions C24_zero_surface_unchecked.
Example C24_nonvacuous : let v := RTuple [Fin (1/2); Fin (-1)] in
  supported_container v /\ ~ In NaN (elements v) /\ (exists x, In x (elements v) /\ outside x) /\
  arg1 (RList (map Fin [0; 1])) [0; 1] (fun l => KArr (map Fin l)) /\ Forall in_disk [0; 1].
Proof.
  cbn. split; [exact I|]. split; [intros [H|[H|[]]]; discriminate|]. split; [exists (Fin (-1)); split; [tauto|cbn; lra]|].
  split; [apply arg_v; [apply (vec_list [0; 1])|discriminate]|]. repeat (apply Forall_cons; [unfold in_disk; lra|]). apply Forall_nil.
Qed.
