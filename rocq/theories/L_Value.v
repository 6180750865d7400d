(** ZernPol.radial, radial_dr, polynomial_value in every reachable cache state. *)
From Coq Require Import Reals Lra Arith.
From Verif Require Import Py SpecIndex SpecRadial RadialMath L_Index M_Radial M_Coeffs SpecCoeffs L_Dict L_Coeffs L_Cache L_Radial L_RadialD L_CoeffVal.
Local Open Scope R_scope.

(** the result is [v], unless the recursion limit is too small for radial order n *)
Definition res_v {A} (fuel : nat) (n : Z) (v : res A) (x : res A) : Prop :=
  x = v \/ (x = Raise RecursionError /\ (Z.of_nat fuel <= n + 1)%Z).

Tactic Notation "kbind" uconstr(H) := eapply keeps_bind; [apply H| |
  try (intros ?e [[=]|[[= ->] ?]]; right; (split; [reflexivity|lia]))].

Lemma rpc_ok fuel : forall m n r, valid m n ->
  keeps (radial_polynomial_coeffs fuel m n r) (res_v fuel n (Ok (Fmn m n r))).
Proof.
  induction fuel as [|f IH]; intros m n r V; pose proof V as (Hn & Hm & _).
  { apply keeps_ret. right. split; [reflexivity|lia]. }
  cbn [radial_polynomial_coeffs]. destruct (n <=? MAX_RADIAL_ORDER_COEFFS)%Z eqn:L.
  { kbind (find_ok f NoFlag m n V).
    intros d [[= ->]|[[=] _]]. apply (keeps_ret (Ok _)). left. f_equal.
    rewrite eval_dict_acc, cdict_value by exact V. ring. }
  unfold MAX_RADIAL_ORDER_COEFFS in L.
  destruct (Z.eqb_spec (Z.abs m) n) as [E|NE].
  { apply (keeps_ret (Ok _)). left. rewrite (Fmn_diag m n r V E). reflexivity. }
  assert (LT : (Z.abs m < n)%Z) by lia.
  pose proof (valid_pred_l m n V LT) as V1. pose proof (valid_pred_r m n V LT) as V2. pose proof (valid_pred2 m n V LT) as V3.
  destruct (Z.eqb_spec m 0) as [->|NZ].
  { change (Z.abs (0 - 1)) with 1%Z in V1.
    kbind (IH 1%Z (n - 1)%Z r V1). intros x [[= ->]|[[=] _]].
    kbind (IH 0%Z (n - 2)%Z r V3). intros y [[= ->]|[[=] _]].
    apply (keeps_ret (Ok _)). left. rewrite (Fmn_rec0 n r) by (assumption || lia). reflexivity. }
  destruct (Z.eqb_spec (Z.abs m) (n - 2)) as [E|NE2].
  { apply (keeps_ret (Ok _)). left. rewrite (Fmn_sub m n r) by (assumption || lia). reflexivity. }
  kbind (IH _ _ r V1). intros x [[= ->]|[[=] _]].
  kbind (IH _ _ r V2). intros y [[= ->]|[[=] _]].
  kbind (IH _ _ r V3). intros z [[= ->]|[[=] _]].
  apply (keeps_ret (Ok _)). left. rewrite (Fmn_rec m n r) by assumption. reflexivity.
Qed.

(** orders for which the coefficient route of the derivative is right *)
Definition dr_good (m n : Z) : Prop := (9 <= n /\ n - Z.abs m <= 38)%Z.

(** the derivative value *)
Definition Dmn (m n : Z) (r : R) : R := dF (oa m n) (ob m n) r.
Lemma Dmn_ok m n r : derivable_pt_lim (Fmn m n) r (Dmn m n r).
Proof. apply dF_ok. Qed.
Lemma Dmn_eq m n r d : derivable_pt_lim (Fmn m n) r d -> d = Dmn m n r.
Proof. apply dFmn_uniq. Qed.

Lemma rpcd_ok fuel : forall m n r, valid m n -> dr_good m n ->
  keeps (radial_polynomial_coeffs_dr fuel m n r) (res_v fuel n (Ok (Dmn m n r))).
Proof.
  induction fuel as [|f IH]; intros m n r V (Hn & Hg); pose proof V as (_ & Hm & k & Hk).
  { apply keeps_ret. right. split; [reflexivity|lia]. }
  cbn [radial_polynomial_coeffs_dr]. destruct (n <=? MAX_RADIAL_ORDER_COEFFS_dR)%Z eqn:L.
  { kbind (find_dr_ok f NoFlag m n V).
    2:{ intros e [[_ [=]]|[[X _]|[[= ->] ?]]]; [elim X; right; cbn; lia|]. right. split; [reflexivity|lia]. }
    intros d [[_ [= ->]]|[[_ [=]]|[[=] _]]]. apply (keeps_ret (Ok _)). left. f_equal.
    rewrite eval_dict_acc, Rplus_0_l. apply Dmn_eq, ddict_value; [exact V|lia]. }
  unfold MAX_RADIAL_ORDER_COEFFS_dR in L.
  destruct (Z.eqb_spec (Z.abs m) n) as [E|NE].
  { apply (keeps_ret (Ok _)). left. f_equal. apply Dmn_eq, d_diag; (assumption || lia). }
  assert (LT : (Z.abs m < n)%Z) by lia.
  pose proof (valid_pred_l m n V LT) as V1. pose proof (valid_pred_r m n V LT) as V2. pose proof (valid_pred2 m n V LT) as V3.
  destruct (Z.eqb_spec m 0) as [->|NZ]; [cbn in Hg; lia|].
  destruct (Z.eqb_spec (Z.abs m) (n - 2)) as [E|NE2].
  { apply (keeps_ret (Ok _)). left. f_equal. apply Dmn_eq, d_sub; (assumption || lia). }
  kbind (rpc_ok f _ _ r V1). intros p [[= ->]|[[=] _]].
  kbind (rpc_ok f _ _ r V2). intros q [[= ->]|[[=] _]].
  eapply keeps_bind; [apply (IH _ _ r V1); split; lia| |intros ?e [[=]|[[= ->] ?]]; right; (split; [reflexivity|lia])]. intros x [[= ->]|[[=] _]].
  eapply keeps_bind; [apply (IH _ _ r V2); split; lia| |intros ?e [[=]|[[= ->] ?]]; right; (split; [reflexivity|lia])]. intros y [[= ->]|[[=] _]].
  eapply keeps_bind; [apply (IH _ _ r V3); split; lia| |intros ?e [[=]|[[= ->] ?]]; right; (split; [reflexivity|lia])]. intros z [[= ->]|[[=] _]].
  apply (keeps_ret (Ok _)). left. f_equal. apply Dmn_eq. apply d_rec; [assumption|assumption| | |]; apply Dmn_ok.
Qed.

(** whatever the state: the outcome is determined by the arguments *)
Lemma rpcd_det r : forall N m n, valid m n -> (Z.to_nat n <= N)%nat ->
  exists v, forall fuel, keeps (radial_polynomial_coeffs_dr fuel m n r) (res_v fuel n v).
Proof.
  induction N as [N IH] using lt_wf_ind. intros m n V HN. pose proof V as (Hn & Hm & k & Hk).
  destruct (n <=? MAX_RADIAL_ORDER_COEFFS_dR)%Z eqn:L.
  { destruct (drdom_b false m n) eqn:DB.
    - assert (D : drdom false m n). { unfold drdom_b, drdom in *. destruct (special_dr m n); cbn in *; lia. }
      exists (Ok (eval_dict (ddict m n) r 0)). intros [|f]; [apply keeps_ret; right; split; [reflexivity|lia]|].
      cbn [radial_polynomial_coeffs_dr]. rewrite L. kbind (find_dr_ok f NoFlag m n V).
      2:{ intros e [[_ [=]]|[[X _]|[[= ->] ?]]]; [elim X; exact D|]. right. split; [reflexivity|lia]. }
      intros d [[_ [= ->]]|[[_ [=]]|[[=] _]]]. apply (keeps_ret (Ok _)). left. reflexivity.
    - assert (D : ~ drdom false m n). { unfold drdom_b, drdom in *. destruct (special_dr m n); cbn in *; lia. }
      exists (Raise ValueError). intros [|f]; [apply keeps_ret; right; split; [reflexivity|lia]|].
      cbn [radial_polynomial_coeffs_dr]. rewrite L. kbind (find_dr_ok f NoFlag m n V).
      2:{ intros e [[_ [=]]|[[X [= ->]]|[[= ->] ?]]]; [left; reflexivity|]. right. split; [reflexivity|lia]. }
      intros d [[X _]|[[_ [=]]|[[=] _]]]. elim D. exact X. }
  pose proof L as L'. unfold MAX_RADIAL_ORDER_COEFFS_dR in L'.
  destruct (Z.eqb_spec (Z.abs m) n) as [E|NE].
  { eexists. intros [|f]; [apply keeps_ret; right; split; [reflexivity|lia]|].
    cbn [radial_polynomial_coeffs_dr]. rewrite L. destruct (Z.eqb_spec (Z.abs m) n) as [_|X]; [|contradiction].
    apply (keeps_ret (Ok _)). left. reflexivity. }
  assert (LT : (Z.abs m < n)%Z) by lia.
  pose proof (valid_pred_l m n V LT) as V1. pose proof (valid_pred_r m n V LT) as V2. pose proof (valid_pred2 m n V LT) as V3.
  destruct (IH (Z.to_nat (n - 1)) ltac:(lia) _ _ V1 ltac:(lia)) as (v1 & H1).
  destruct (IH (Z.to_nat (n - 1)) ltac:(lia) _ _ V2 ltac:(lia)) as (v2 & H2).
  destruct (IH (Z.to_nat (n - 2)) ltac:(lia) _ _ V3 ltac:(lia)) as (v3 & H3).
  assert (UNI : forall f, keeps (radial_polynomial_coeffs_dr f (Z.abs (m - 1)) (n - 1) r) (res_v f (n - 1) v1)) by exact H1.
  destruct (Z.eqb_spec m 0) as [->|NZ].
  { change (Z.abs (0 - 1)) with 1%Z in *.
    exists (do p <- v1; do x <- v1; do y <- v3; Ok (2 * (p + r * x) - y)).
    intros [|f]; [apply keeps_ret; right; split; [reflexivity|lia]|].
    cbn [radial_polynomial_coeffs_dr]. rewrite L. destruct (Z.eqb_spec (Z.abs 0) n) as [X|_]; [contradiction|].
    change (0 =? 0)%Z with true. cbv iota.
    eapply keeps_bind; [apply (H1 f)| |].
    2:{ intros e [<-|[[= ->] ?]]; [left; reflexivity|right; split; [reflexivity|lia]]. }
    intros p [<-|[[=] _]]. cbn [bind].
    eapply keeps_bind; [apply (H1 f)| |].
    2:{ intros e [[=]|[[= ->] ?]]. right; split; [reflexivity|lia]. }
    intros x [[= <-]|[[=] _]].
    eapply keeps_bind; [apply (H3 f)| |].
    2:{ intros e [<-|[[= ->] ?]]; [left; reflexivity|right; split; [reflexivity|lia]]. }
    intros y [<-|[[=] _]]. cbn [bind]. apply (keeps_ret (Ok _)). left. reflexivity. }
  destruct (Z.eqb_spec (Z.abs m) (n - 2)) as [E|NE2].
  { eexists. intros [|f]; [apply keeps_ret; right; split; [reflexivity|lia]|].
    cbn [radial_polynomial_coeffs_dr]. rewrite L. destruct (Z.eqb_spec (Z.abs m) n) as [X|_]; [contradiction|].
    destruct (Z.eqb_spec m 0) as [X|_]; [contradiction|].
    destruct (Z.eqb_spec (Z.abs m) (n - 2)) as [_|X]; [|contradiction].
    apply (keeps_ret (Ok _)). left. reflexivity. }
  exists (do x <- v1; do y <- v2; do z <- v3;
     Ok ((Fmn (Z.abs (m - 1)) (n - 1) r + Fmn (m + 1) (n - 1) r) + r * (x + y) - z)).
  intros [|f]; [apply keeps_ret; right; split; [reflexivity|lia]|].
  cbn [radial_polynomial_coeffs_dr]. rewrite L. destruct (Z.eqb_spec (Z.abs m) n) as [X|_]; [contradiction|].
  destruct (Z.eqb_spec m 0) as [X|_]; [contradiction|].
  destruct (Z.eqb_spec (Z.abs m) (n - 2)) as [X|_]; [contradiction|].
  kbind (rpc_ok f _ _ r V1). intros p [[= ->]|[[=] _]].
  kbind (rpc_ok f _ _ r V2). intros q [[= ->]|[[=] _]].
  eapply keeps_bind; [apply (H1 f)| |].
  2:{ intros e [<-|[[= ->] ?]]; [left; reflexivity|right; split; [reflexivity|lia]]. }
  intros x [<-|[[=] _]]. cbn [bind].
  eapply keeps_bind; [apply (H2 f)| |].
  2:{ intros e [<-|[[= ->] ?]]; [left; reflexivity|right; split; [reflexivity|lia]]. }
  intros y [<-|[[=] _]]. cbn [bind].
  eapply keeps_bind; [apply (H3 f)| |].
  2:{ intros e [<-|[[= ->] ?]]; [left; reflexivity|right; split; [reflexivity|lia]]. }
  intros z [<-|[[=] _]]. cbn [bind]. apply (keeps_ret (Ok _)). left. reflexivity.
Qed.

(** ** reachable states *)
Lemma zp_radial_keeps fuel m n e r : valid m n -> keeps (zp_radial fuel m n e r) (fun _ => True).
Proof.
  intros V. unfold zp_radial. destruct e; [destruct (_ <? _)%Z; apply keeps_ret; exact I|].
  destruct (_ <=? _)%Z; [apply keeps_ret; exact I|]. eapply keeps_weaken; [apply rpc_ok, V|auto].
Qed.
Lemma zp_radial_dr_keeps fuel m n e r : valid m n -> keeps (zp_radial_dr fuel m n e r) (fun _ => True).
Proof.
  intros V. unfold zp_radial_dr. destruct e; [destruct (_ <? _)%Z; apply keeps_ret; exact I|].
  destruct (_ <=? _)%Z; [apply keeps_ret; exact I|].
  destruct (rpcd_det r (Z.to_nat n) m n V (le_n _)) as (v & H). eapply keeps_weaken; [apply H|auto].
Qed.
Lemma zp_value_keeps fuel m n e r th : valid m n -> keeps (zp_polynomial_value fuel m n e r th) (fun _ => True).
Proof.
  intros V. unfold zp_polynomial_value. destruct (_ && _); [apply keeps_ret; exact I|].
  eapply keeps_bind; [apply zp_radial_keeps, V| |auto]. intros a _. apply keeps_ret. exact I.
Qed.
Lemma reachable_Inv s : reachable s -> Inv s /\ has_rows s.
Proof.
  induction 1 as [|s fuel fl m n _ [IA IB] V|s fuel fl m n _ [IA IB] V|s fuel m n e r _ [IA IB] V|s fuel m n e r _ [IA IB] V|s fuel m n e r th _ [IA IB] V].
  - split; [apply import_Inv|apply import_rows].
  - destruct (find_ok fuel fl m n V s IA IB) as (X & Y & _). auto.
  - destruct (find_dr_ok fuel fl m n V s IA IB) as (X & Y & _). auto.
  - destruct (zp_radial_keeps fuel m n e r V s IA IB) as (X & Y & _). auto.
  - destruct (zp_radial_dr_keeps fuel m n e r V s IA IB) as (X & Y & _). auto.
  - destruct (zp_value_keeps fuel m n e r th V s IA IB) as (X & Y & _). auto.
Qed.

(** ** results in any reachable state *)
Lemma keeps_at {A} (x : M A) Q s : reachable s -> keeps x Q -> Q (snd (x s)).
Proof. intros R H. destruct (reachable_Inv s R) as [IA IB]. apply (H s IA IB). Qed.

Lemma zp_radial_ok s fuel m n e r : reachable s -> valid m n -> (n + 1 < Z.of_nat fuel)%Z ->
  (e = true -> n <= 40)%Z -> snd (zp_radial fuel m n e r s) = Ok (R_nm m n r).
Proof.
  intros RS V HF HE. rewrite R_nm_F by exact V. fold (Fmn m n r). pose proof V as (Hn & _). unfold zp_radial. destruct e.
  - unfold MAX_RADIAL_ORDER_COEFFS. replace (40 <? n)%Z with false by (specialize (HE eq_refl); lia).
    cbn. apply radial_polynomial_eq_F, V.
  - destruct (n <=? 12)%Z.
    + cbn. apply radial_polynomial_F; [exact V|lia].
    + pose proof (keeps_at _ _ s RS (rpc_ok fuel m n r V)) as [H|[_ H]]; [exact H|lia].
Qed.
Lemma zp_radial_dr_ok s fuel m n (e : bool) r : reachable s -> valid m n -> (n + 1 < Z.of_nat fuel)%Z ->
  (if e then (n <= 38)%Z else (n - Z.abs m <= 38)%Z) ->
  exists d, snd (zp_radial_dr fuel m n e r s) = Ok d /\ derivable_pt_lim (R_nm m n) r d.
Proof.
  intros RS V HF HE. pose proof V as (Hn & Hm & _).
  assert (EXT : forall d, derivable_pt_lim (Fmn m n) r d -> derivable_pt_lim (R_nm m n) r d).
  { intros d. apply dlim_ext. intros y. symmetry. apply R_nm_F, V. }
  unfold zp_radial_dr. destruct e.
  - unfold MAX_RADIAL_ORDER_COEFFS_dR. replace (38 <? n)%Z with false by lia.
    destruct (radial_derivative_eq_ok m n r V) as (d & E & D). exists d. split; [exact E|apply EXT, D].
  - destruct (Z.leb_spec n 12).
    + destruct (radial_derivative_ok fuel m n r V ltac:(lia)) as (d & E & D). exists d. split; [exact E|apply EXT, D].
    + exists (Dmn m n r). split; [|apply EXT, Dmn_ok].
      assert (DG : dr_good m n) by (split; lia).
      pose proof (keeps_at _ _ s RS (rpcd_ok fuel m n r V DG)) as [H'|[_ H']]; [exact H'|lia].
Qed.
