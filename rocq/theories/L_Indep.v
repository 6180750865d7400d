(** Distinct Zernike polynomials are linearly independent on the unit disk, hence on suitable finite sets of points. *)
From Coq Require Import Reals Lra Psatz Classical.
From Coquelicot Require Import Coquelicot.
From Verif Require Import Py SpecIndex SpecRadial M_Sum SpecSum L_Ortho SpecFit L_LinAlg M_Fit L_Fit.
Local Open Scope R_scope.

Definition validp (p : Z * Z) : Prop := valid (fst p) (snd p).
Fixpoint delta (a : list R) (ps : list (Z * Z)) (q : Z * Z) : R :=
  match a, ps with c :: a', p :: ps' => (if zz_dec p q then c * PI else 0) + delta a' ps' q | _, _ => 0 end.

Lemma zsum_ortho q : validp q -> forall ps a, Forall validp ps -> length a = length ps ->
  (forall r, ex_RInt (fun t => zsum a ps r t * Z_nm (fst q) (snd q) r t * r) 0 (2 * PI)) /\
  is_RInt (fun r => RInt (fun t => zsum a ps r t * Z_nm (fst q) (snd q) r t * r) 0 (2 * PI)) 0 1 (delta a ps q).
Proof.
  intros V. induction ps as [|[m n] ps IH]; intros [|c a] F L; try discriminate.
  - cbn [zsum delta]. assert (E : forall r, is_RInt (fun t => 0 * Z_nm (fst q) (snd q) r t * r) 0 (2 * PI) 0).
    { intros r. apply (is_RInt_ext (fun _ => 0)); [intros; rewrite !Rmult_0_l; reflexivity|]. evar_last; [apply is_RInt_const|]. unfold scal; simpl. unfold mult; simpl. ring. }
    split; [intros r; exists 0; apply E|]. apply (is_RInt_ext (fun _ => 0)).
    + intros r _. symmetry. apply is_RInt_unique, E.
    + evar_last; [apply is_RInt_const|]. unfold scal; simpl. unfold mult; simpl. ring.
  - inversion F as [|? ? V1 F']; subst. destruct (IH a F' ltac:(injection L; auto)) as [I1 I2]. clear IH.
    unfold validp in V1, V. cbn [fst snd] in V1. destruct (disk_ortho m n (fst q) (snd q) V1 V) as [J1 J2].
    set (P := fun r t => Z_nm m n r t * Z_nm (fst q) (snd q) r t * r) in *.
    set (S := fun r t => zsum a ps r t * Z_nm (fst q) (snd q) r t * r) in *.
    assert (E : forall r, is_RInt (fun t => zsum (c :: a) ((m, n) :: ps) r t * Z_nm (fst q) (snd q) r t * r) 0 (2 * PI)
       (c * RInt (P r) 0 (2 * PI) + RInt (S r) 0 (2 * PI))).
    { intros r. apply (is_RInt_ext (fun t => plus (scal c (P r t)) (S r t))).
      - intros t _. unfold plus, scal, P, S; simpl. unfold mult; simpl. cbn [zsum]. ring.
      - apply (is_RInt_plus (fun t => scal c (P r t)) (S r)); [apply (is_RInt_scal (P r))|]; apply (RInt_correct (V:=R_CompleteNormedModule)); [apply J1|apply I1]. }
    split; [intros r; eexists; apply E|].
    apply (is_RInt_ext (fun r => plus (scal c (RInt (P r) 0 (2 * PI))) (RInt (S r) 0 (2 * PI)))).
    + intros r _. symmetry. apply is_RInt_unique, E.
    + evar_last; [apply (is_RInt_plus (fun r => scal c (RInt (P r) 0 (2 * PI))) (fun r => RInt (S r) 0 (2 * PI))); [apply (is_RInt_scal (fun r => RInt (P r) 0 (2 * PI))); exact J2|exact I2]|].
      cbn [delta]. set (dd := delta a ps q). clearbody dd. clear. destruct q as [m' n']. cbn [fst snd].
      destruct (zz_dec (m, n) (m', n')) as [D|D]; destruct (Z.eq_dec m m'); destruct (Z.eq_dec n n'); try congruence; try (inversion D; congruence);
      unfold plus, scal; simpl; unfold mult; simpl; ring.
Qed.

Lemma delta_notin ps q : ~ In q ps -> forall a, delta a ps q = 0.
Proof.
  induction ps as [|p ps IH]; intros N [|c a]; cbn; try reflexivity.
  destruct (zz_dec p q) as [->|D]; [elim N; left; reflexivity|]. rewrite IH; [ring|]. intros H. apply N. right. exact H.
Qed.

(** a combination that vanishes on the disk has zero coefficients *)
Lemma zsum_zero ps : Forall validp ps -> NoDup ps -> forall a, length a = length ps ->
  (forall r t, 0 <= r <= 1 -> zsum a ps r t = 0) -> a = repeat 0 (length ps).
Proof.
  intros F ND a L Z.
  assert (D : forall q, In q ps -> delta a ps q = 0).
  { intros q Hq. assert (Vq : validp q) by (rewrite Forall_forall in F; apply F, Hq).
    destruct (zsum_ortho q Vq ps a F L) as [_ I]. apply is_RInt_unique in I. rewrite <- I.
    rewrite (RInt_ext _ (fun _ => 0)); [rewrite RInt_const; unfold scal; simpl; unfold mult; simpl; ring|].
    intros r Hr. rewrite Rmin_left, Rmax_right in Hr by lra.
    rewrite (RInt_ext _ (fun _ => 0)); [rewrite RInt_const; unfold scal; simpl; unfold mult; simpl; ring|].
    intros t _. rewrite Z by lra. rewrite !Rmult_0_l. reflexivity. }
  clear Z F. revert a L D. induction ND as [|p ps N ND IH]; intros [|c a] L D; try discriminate; [reflexivity|].
  assert (C : c = 0).
  { assert (H := D p (or_introl eq_refl)). cbn [delta] in H. rewrite (delta_notin ps p N) in H.
    destruct (zz_dec p p); [|congruence]. assert (P := PI_RGT_0). nra. }
  subst c. cbn [length repeat]. f_equal. apply IH; [injection L; auto|].
  intros q Hq. assert (H := D q (or_intror Hq)). cbn [delta] in H. destruct (zz_dec p q) as [->|_]; [contradiction|]. lra.
Qed.

Lemma zsum_sub ps : forall x y r t, length x = length y -> zsum (vsub x y) ps r t = zsum x ps r t - zsum y ps r t.
Proof.
  induction ps as [|[m n] ps IH]; intros [|a x] [|b y] r t L; try discriminate; try (cbn; ring).
  unfold vsub. rewrite vscale_cons, vadd_cons. cbn [zsum]. fold (vsub x y). rewrite IH by (injection L; auto). ring.
Qed.
Lemma zsum_vscale ps c : forall x r t, zsum (vscale c x) ps r t = c * zsum x ps r t.
Proof. induction ps as [|[m n] ps IH]; intros [|a x] r t; try (cbn; ring). rewrite vscale_cons. cbn [zsum]. rewrite IH. ring. Qed.

Definition vanishes (a : list R) (ps : list (Z * Z)) (pts : list (R * R)) : Prop :=
  forall q, In q pts -> zsum a ps (fst q) (snd q) = 0.
Lemma vanishes_mul a ps pts : length a = length ps -> (vanishes a ps pts <-> mulmv (length pts) (design pts ps) a = repeat 0 (length pts)).
Proof.
  intros L. rewrite <- zsum_design by exact L. unfold vanishes. split.
  - induction pts as [|q pts IH]; intros H; [reflexivity|]. cbn. rewrite (H q) by (left; reflexivity). f_equal. apply IH. intros; apply H; right; assumption.
  - induction pts as [|q pts IH]; intros H p [].
    + subst. cbn in H. injection H; auto.
    + apply IH; [cbn in H; injection H; auto|assumption].
Qed.

(** there are sampling points in the disk at which the polynomials are independent *)
Lemma points_exist ps : Forall validp ps -> NoDup ps -> exists pts, Forall (fun q => 0 <= fst q <= 1) pts /\ independent (length pts) (design pts ps).
Proof.
  intros F ND. induction ps as [|[m n] ps IH].
  { exists []. split; [constructor|]. intros x L _. destruct x; [reflexivity|discriminate]. }
  inversion F as [|? ? V1 F']; subst. inversion ND as [|? ? NI ND']; subst. destruct (IH F' ND') as (pts & D & I). clear IH.
  assert (IV : forall a, length a = length ps -> vanishes a ps pts -> a = repeat 0 (length ps)).
  { intros a L H. apply vanishes_mul in H; [|exact L]. apply I in H; [|unfold design; rewrite map_length; exact L].
    unfold design in H. rewrite map_length in H. exact H. }
  assert (OK : forall pts', (forall a, length a = S (length ps) -> vanishes a ((m, n) :: ps) pts' -> a = repeat 0 (S (length ps))) ->
     independent (length pts') (design pts' ((m, n) :: ps))).
  { intros pts' H x L E. unfold design in L. rewrite map_length in L. cbn [length] in L. unfold design at 1. rewrite map_length. cbn [length].
    apply H; [exact L|]. apply vanishes_mul; [exact L|exact E]. }
  destruct (classic (exists a, length a = length ps /\ vanishes (1 :: a) ((m, n) :: ps) pts)) as [(a & La & Va)|NE].
  - (* the first polynomial is a combination of the others on pts: separate with one more point *)
    destruct (classic (exists r t, 0 <= r <= 1 /\ zsum (1 :: a) ((m, n) :: ps) r t <> 0)) as [(r & t & Hr & Nz)|NZ].
    + exists ((r, t) :: pts). split; [constructor; assumption|]. apply OK. intros [|c x] Lx Vx; [discriminate|].
      assert (Vx' : vanishes (c :: x) ((m, n) :: ps) pts) by (intros q Hq; apply Vx; right; exact Hq).
      assert (Lx' : length x = length ps) by (injection Lx; auto).
      (* (c :: x) - c (1 :: a) vanishes on pts and has first coefficient 0 *)
      assert (E : vsub x (vscale c a) = repeat 0 (length ps)).
      { apply IV; [rewrite vsub_len; rewrite ?vscale_len; congruence|]. intros q Hq.
        rewrite zsum_sub by (rewrite vscale_len; congruence). rewrite zsum_vscale.
        assert (A := Vx' q Hq). assert (B := Va q Hq). cbn [zsum] in A, B. nra. }
      assert (EX : x = vscale c a) by (apply vsub_zero_eq; [rewrite vscale_len; congruence|rewrite E, Lx'; reflexivity]).
      assert (Z := Vx (r, t) (or_introl eq_refl)). cbn [fst snd] in Z. cbn [zsum] in Z, Nz. rewrite EX, zsum_vscale in Z.
      assert (C : c = 0). { assert (G : c * (1 * Z_nm m n r t + zsum a ps r t) = 0) by lra. apply Rmult_integral in G. destruct G; [assumption|contradiction]. }
      subst c. cbn [repeat]. f_equal. rewrite EX, vscale_0. unfold zeros. f_equal. exact La.
    + exfalso. assert (Z : 1 :: a = repeat 0 (length ((m, n) :: ps))).
      { apply (zsum_zero ((m, n) :: ps) F ND); [cbn; congruence|]. intros r t Hr.
        destruct (Req_dec (zsum (1 :: a) ((m, n) :: ps) r t) 0) as [|N]; [assumption|]. exfalso. apply NZ. exists r, t. split; assumption. }
      cbn in Z. injection Z as Z _. lra.
  - exists pts. split; [exact D|]. apply OK. intros [|c x] Lx Vx; [discriminate|].
    assert (Lx' : length x = length ps) by (injection Lx; auto).
    destruct (Req_dec c 0) as [->|Nc].
    + cbn [repeat]. f_equal. apply IV; [exact Lx'|]. intros q Hq. assert (H := Vx q Hq). cbn [zsum] in H. lra.
    + exfalso. apply NE. exists (vscale (/ c) x). split; [rewrite vscale_len; exact Lx'|]. intros q Hq.
      assert (H := Vx q Hq). cbn [zsum] in *. rewrite zsum_vscale.
      assert (G : / c * (c * Z_nm m n (fst q) (snd q) + zsum x ps (fst q) (snd q)) = 0) by (rewrite H; ring).
      rewrite Rmult_plus_distr_l, <- Rmult_assoc, Rinv_l in G by exact Nc. lra.
Qed.
