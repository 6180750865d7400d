From Coq Require Import Reals Lra Permutation.
From Verif Require Import Py SpecIndex SpecRadial M_Radial M_Coeffs SpecCoeffs M_Sum SpecSum L_Value L_Trig L_RadialProps.
Local Open Scope R_scope.

(** ** C24 *)
Lemma Rltb_true x y : Rltb x y = true <-> x < y.
Proof. unfold Rltb. destruct (Rlt_dec x y); split; auto; discriminate. Qed.
Lemma Rltb_false x y : Rltb x y = false <-> y <= x.
Proof. unfold Rltb. destruct (Rlt_dec x y); split; intros; try lra; try discriminate; auto. Qed.

Definition notnan (x : fl) : Prop := x <> NaN.
Lemma fmin_lt a b z : notnan a -> notnan b -> fltb (fmin a b) (Fin z) = fltb a (Fin z) || fltb b (Fin z).
Proof.
  intros A B. destruct a as [x| |na]; [|elim A; reflexivity|]; (destruct b as [y| |nb]; [|elim B; reflexivity|]); cbn.
  - destruct (Rltb y x) eqn:E; cbn; destruct (Rltb x z) eqn:Ex; destruct (Rltb y z) eqn:Ey; try reflexivity; exfalso;
    rewrite ?Rltb_true, ?Rltb_false in *; lra.
  - destruct nb; cbn; [rewrite orb_true_r|rewrite orb_false_r]; reflexivity.
  - destruct na; cbn; reflexivity.
  - destruct na, nb; reflexivity.
Qed.
Lemma fmax_gt a b z : notnan a -> notnan b -> fltb (Fin z) (fmax a b) = fltb (Fin z) a || fltb (Fin z) b.
Proof.
  intros A B. destruct a as [x| |na]; [|elim A; reflexivity|]; (destruct b as [y| |nb]; [|elim B; reflexivity|]); cbn.
  - destruct (Rltb x y) eqn:E; cbn; destruct (Rltb z x) eqn:Ex; destruct (Rltb z y) eqn:Ey; try reflexivity; exfalso;
    rewrite ?Rltb_true, ?Rltb_false in *; lra.
  - destruct nb; cbn; [rewrite orb_false_r|rewrite orb_true_r]; reflexivity.
  - destruct na; cbn; reflexivity.
  - destruct na, nb; reflexivity.
Qed.
Lemma fmin_nn a b : notnan a -> notnan b -> notnan (fmin a b).
Proof. unfold notnan. intros A B. destruct a, b; cbn; try congruence; match goal with |- (if ?c then _ else _) <> _ => destruct c end; congruence. Qed.
Lemma fmax_nn a b : notnan a -> notnan b -> notnan (fmax a b).
Proof. unfold notnan. intros A B. destruct a, b; cbn; try congruence; match goal with |- (if ?c then _ else _) <> _ => destruct c end; congruence. Qed.

Lemma fold_min l z : forall a, notnan a -> Forall notnan l ->
  fltb (fold_left fmin l a) (Fin z) = fltb a (Fin z) || existsb (fun x => fltb x (Fin z)) l.
Proof.
  induction l as [|b l IH]; intros a A F; cbn [fold_left existsb]; [rewrite orb_false_r; reflexivity|].
  inversion F as [|? ? B F']; subst. rewrite IH by (assumption || apply fmin_nn; assumption).
  rewrite fmin_lt by assumption. rewrite orb_assoc. reflexivity.
Qed.
Lemma fold_max l z : forall a, notnan a -> Forall notnan l ->
  fltb (Fin z) (fold_left fmax l a) = fltb (Fin z) a || existsb (fun x => fltb (Fin z) x) l.
Proof.
  induction l as [|b l IH]; intros a A F; cbn [fold_left existsb]; [rewrite orb_false_r; reflexivity|].
  inversion F as [|? ? B F']; subst. rewrite IH by (assumption || apply fmax_nn; assumption).
  rewrite fmax_gt by assumption. rewrite orb_assoc. reflexivity.
Qed.

Definition outb (x : fl) : bool := fltb x (Fin 0) || fltb (Fin 1) x.
Lemma outb_ok x : outb x = true <-> outside x.
Proof.
  unfold outb, outside. destruct x as [x| |n]; cbn; [|intuition discriminate|destruct n; cbn; intuition].
  rewrite orb_true_iff, !Rltb_true. reflexivity.
Qed.

Lemma check_arr l : l <> [] -> Forall notnan l ->
  (do lo <- np_min l; if fltb lo (Fin 0) then Raise ValueError
      else do hi <- np_max l; if fltb (Fin 1) hi then Raise ValueError else Ok (KArr l))
  = if existsb outb l then Raise ValueError else Ok (KArr l).
Proof.
  intros N F. destruct l as [|a l]; [elim N; reflexivity|]. inversion F as [|? ? A F']; subst.
  cbn [np_min np_max bind]. rewrite fold_min, fold_max by assumption. cbn [existsb]. unfold outb at 1.
  set (p := fun x => fltb x (Fin 0)). set (q := fun x => fltb (Fin 1) x).
  change (fltb a (Fin 0)) with (p a). change (fltb (Fin 1) a) with (q a).
  change (fun x => fltb x (Fin 0)) with p. 
  assert (E : existsb outb l = existsb p l || existsb q l).
  { clear. induction l as [|x l IH]; [reflexivity|]. cbn [existsb]. rewrite IH. unfold outb. fold p q. change (fltb x (Fin 0)) with (p x). change (fltb (Fin 1) x) with (q x).
    destruct (p x), (q x), (existsb p l); reflexivity. }
  rewrite E. change (existsb (fun x => fltb (Fin 1) x) l) with (existsb q l).
  destruct (p a), (q a), (existsb p l), (existsb q l); reflexivity.
Qed.


Lemma check_radii_iff v : supported_container v -> elements v <> [] -> ~ In NaN (elements v) ->
  ((exists x, In x (elements v) /\ outside x) -> check_radii v = Raise ValueError) /\
  ((forall x, In x (elements v) -> ~ outside x) -> exists k, check_radii v = Ok k /\ convert v = Ok k).
Proof.
  intros S N F.
  assert (NN : forall l, ~ In NaN l -> Forall notnan l).
  { intros l H. apply Forall_forall. intros x Hx ->. exact (H Hx). }
  assert (G : forall l, ((exists x, In x l /\ outside x) -> existsb outb l = true) /\
                        ((forall x, In x l -> ~ outside x) -> existsb outb l = false)).
  { intros l. split.
    - intros (x & Hx & O). apply existsb_exists. exists x. split; [exact Hx|apply outb_ok, O].
    - intros H. destruct (existsb outb l) eqn:E; [|reflexivity]. apply existsb_exists in E. destruct E as (x & Hx & O).
      elim (H x Hx). apply outb_ok, O. }
  destruct v as [l|l|l|l|x|e]; try destruct S; unfold check_radii; cbn [convert bind elements] in *;
  try (rewrite check_arr by auto; destruct (G l) as [G1 G2]; split; [intros H; rewrite (G1 H); reflexivity|intros H; rewrite (G2 H); eauto]).
  destruct (G [x]) as [G1 G2]. cbn [existsb] in *. rewrite orb_false_r in *. unfold outb in *. rewrite orb_comm in G1, G2.
  split; [intros H; rewrite (G1 H); reflexivity|intros H; rewrite (G2 H); eauto].
Qed.

Lemma check_radii_empty v : elements v = [] -> supported_container v -> check_radii v = Raise ValueError.
Proof. destruct v as [l|l|l|l|x|e]; cbn; intros E S; try contradiction; try subst l; try reflexivity; discriminate. Qed.
Lemma check_radii_set l : check_radii (RSet l) = Raise TypeError.
Proof. reflexivity. Qed.
Lemma check_radii_nan : exists v, check_radii (RArr v) = Ok (KArr v) /\ exists x, In x v /\ outside x.
Proof.
  exists [NaN; Fin 5]. split; [reflexivity|]. exists (Fin 5). split; [right; left; reflexivity|]. right. lra.
Qed.

Lemma rejected {A} (body : cv -> M A) v s : supported_container v -> ~ In NaN (elements v) ->
  (exists x, In x (elements v) /\ outside x) -> checked_call body v s = (s, Raise ValueError).
Proof.
  intros S N E. unfold checked_call. assert (NE : elements v <> []) by (destruct E as (x & H & _); destruct (elements v); [destruct H|discriminate]).
  destruct (check_radii_iff v S NE N) as [H _]. rewrite (H E). reflexivity.
Qed.
Lemma rejected2 {A} (body : cv -> cv -> M A) v t s : supported_container v -> ~ In NaN (elements v) ->
  (exists x, In x (elements v) /\ outside x) -> checked_call2 body v t s = (s, Raise ValueError).
Proof.
  intros S N E. unfold checked_call2. assert (NE : elements v <> []) by (destruct E as (x & H & _); destruct (elements v); [destruct H|discriminate]).
  destruct (check_radii_iff v S NE N) as [H _]. rewrite (H E). reflexivity.
Qed.

(** ** evaluation keeps the state reachable *)
Definition kr {A} (x : M A) (Q : res A -> Prop) : Prop := forall s, reachable s -> reachable (fst (x s)) /\ Q (snd (x s)).
Lemma kr_ret {A} (a : res A) (Q : res A -> Prop) : Q a -> kr (mlift a) Q.
Proof. intros H s RS. split; [exact RS|exact H]. Qed.
Lemma kr_bind {A B} (x : M A) (f : A -> M B) a (Q : res B -> Prop) :
  kr x (fun r => r = Ok a) -> kr (f a) Q -> kr (mbind x f) Q.
Proof.
  intros Hx Hf s RS. destruct (Hx s RS) as [R1 E]. unfold mbind. destruct (x s) as [s' r]. cbn in *. subst r. apply Hf, R1.
Qed.
Definition isok {A} (x : M A) (a : A) : Prop := kr x (fun r => r = Ok a).
Lemma isok_ret {A} (a : A) : isok (mret a) a.
Proof. apply (kr_ret (Ok a)). reflexivity. Qed.
Lemma isok_bind {A B} (x : M A) (f : A -> M B) a b : isok x a -> isok (f a) b -> isok (mbind x f) b.
Proof. intros. eapply kr_bind; eassumption. Qed.
Lemma isok_ext {A} (x : M A) a b : a = b -> isok x a -> isok x b.
Proof. intros ->; auto. Qed.

Definition Zv (p : Z * Z) (x y : R) : R := Z_nm (fst p) (snd p) x y.

Lemma pt_isok fuel p x y : okp fuel p -> isok (pt_value fuel p (Fin x) (Fin y)) (Fin (Zv p x y)).
Proof.
  intros [V HF]. unfold pt_value. eapply isok_bind; [|apply isok_ret].
  intros s RS. split; [apply reach_value; assumption|]. apply zp_value_ok; try assumption. discriminate.
Qed.
Lemma mapM_isok {A B} (f : A -> M B) g l : (forall x, In x l -> isok (f x) (g x)) -> isok (mapM f l) (map g l).
Proof.
  induction l as [|x l IH]; intros H; [apply isok_ret|]. cbn [mapM map].
  eapply isok_bind; [apply H; left; reflexivity|]. eapply isok_bind; [apply IH; intros; apply H; right; assumption|]. apply isok_ret.
Qed.

Lemma vec_check v xs : vec v xs -> xs <> [] -> Forall in_disk xs -> check_radii v = Ok (KArr (map Fin xs)).
Proof.
  intros V N F. assert (E : elements v = map Fin xs) by (destruct V; reflexivity).
  assert (C : convert v = Ok (KArr (map Fin xs))) by (destruct V; reflexivity).
  destruct (check_radii_iff v) as [_ H].
  - destruct V; exact I.
  - rewrite E. destruct xs; [elim N; reflexivity|discriminate].
  - rewrite E. intros H. apply in_map_iff in H. destruct H as (x & [=] & _).
  - destruct H as (k & H1 & H2).
    + intros x Hx. rewrite E in Hx. apply in_map_iff in Hx. destruct Hx as (y & <- & Hy). rewrite Forall_forall in F. apply F in Hy.
      unfold in_disk in Hy. cbn. lra.
    + rewrite H1. congruence.
Qed.
Lemma num_check x : in_disk x -> check_radii (RNum (Fin x)) = Ok (KFloat (Fin x)).
Proof.
  intros [A B]. unfold check_radii. cbn [convert bind fltb]. apply Rltb_false in A, B. rewrite A, B. reflexivity.
Qed.
Lemma vec_angles v xs : vec v xs -> xs <> [] -> check_angles v = Ok (KArr (map Fin xs)).
Proof. intros V N. destruct V as [xs|xs|xs]; unfold check_angles; (destruct xs; [elim N; reflexivity|reflexivity]). Qed.

Lemma combine_map_Fin xs ys : combine (map Fin xs) (map Fin ys) = map (fun p => (Fin (fst p), Fin (snd p))) (combine xs ys).
Proof. revert ys. induction xs as [|x xs IH]; intros [|y ys]; try reflexivity. cbn. rewrite IH. reflexivity. Qed.

Lemma value_isok fuel p r t pts sh : okp fuel p -> broadcast r t pts sh -> Forall (fun q => in_disk (fst q)) pts ->
  isok (polynomial_value fuel p r t) (sh (map (fun q => Zv p (fst q) (snd q)) pts)).
Proof.
  intros OK B F. unfold polynomial_value, checked_call2. destruct B as [x y|v xs y V N|x v ys V N|v w xs ys V W N L].
  - inversion F; subst. rewrite num_check by assumption. eapply isok_bind; [apply isok_ret|].
    eapply isok_bind; [apply isok_ret|]. cbv beta iota. unfold value_body. eapply isok_bind; [apply pt_isok, OK|]. apply isok_ret.
  - rewrite (vec_check v xs); [|assumption|assumption|]. 2:{ rewrite Forall_map in F. exact F. }
    eapply isok_bind; [apply isok_ret|]. eapply isok_bind; [apply isok_ret|]. cbv beta iota. unfold value_body.
    eapply isok_bind; [apply (mapM_isok _ (fun x => match x with Fin x => Fin (Zv p x y) | _ => NaN end))|].
    + intros x Hx. apply in_map_iff in Hx. destruct Hx as (z & <- & Hz). apply pt_isok, OK.
    + eapply isok_ext; [|apply isok_ret]. rewrite !map_map. reflexivity.
  - rewrite num_check. 2:{ destruct ys; [elim N; reflexivity|]. inversion F; subst. assumption. }
    eapply isok_bind; [apply isok_ret|]. rewrite (vec_angles v ys) by assumption. eapply isok_bind; [apply isok_ret|]. cbv beta iota. unfold value_body.
    eapply isok_bind; [apply (mapM_isok _ (fun y => match y with Fin y => Fin (Zv p x y) | _ => NaN end))|].
    + intros y Hy. apply in_map_iff in Hy. destruct Hy as (z & <- & Hz). apply pt_isok, OK.
    + eapply isok_ext; [|apply isok_ret]. rewrite !map_map. reflexivity.
  - assert (N' : ys <> []) by (intros ->; destruct xs; [apply N; reflexivity|discriminate]).
    rewrite (vec_check v xs); [|assumption|assumption|].
    2:{ clear -F L. revert ys F L. induction xs as [|x xs IH]; intros [|y ys] F L; try discriminate; constructor.
        - inversion F; subst. assumption.
        - apply (IH ys); [inversion F; assumption|]. cbn in L. congruence. }
    eapply isok_bind; [apply isok_ret|]. rewrite (vec_angles w ys) by assumption. eapply isok_bind; [apply isok_ret|]. cbv beta iota.
    rewrite !map_length, L, Nat.eqb_refl. unfold value_body. rewrite combine_map_Fin.
    eapply isok_bind; [apply (mapM_isok _ (fun q => match q with (Fin x, Fin y) => Fin (Zv p x y) | _ => NaN end))|].
    + intros q Hq. apply in_map_iff in Hq. destruct Hq as ((x & y) & <- & _). apply pt_isok, OK.
    + eapply isok_ext; [|apply isok_ret]. rewrite !map_map. reflexivity.
Qed.

Lemma shape_scale r t pts sh c l : broadcast r t pts sh -> length l = length pts -> cv_scale c (sh l) = sh (map (Rmult c) l).
Proof.
  intros B L. destruct B; cbn.
  - destruct l as [|a [|]]; try discriminate. reflexivity.
  - rewrite !map_map. reflexivity.
  - rewrite !map_map. reflexivity.
  - rewrite !map_map. reflexivity.
Qed.
Lemma map_combine_plus a b : map (fun xy => fadd (fst xy) (snd xy)) (combine (map Fin a) (map Fin b)) = map Fin (map (fun xy => fst xy + snd xy) (combine a b)).
Proof. rewrite combine_map_Fin, !map_map. reflexivity. Qed.
Lemma shape_add r t pts sh l l' : broadcast r t pts sh -> length l = length pts -> length l' = length pts ->
  cv_add (sh l) (sh l') = Ok (sh (map (fun xy => fst xy + snd xy) (combine l l'))).
Proof.
  intros B L L'. destruct B; cbn.
  - destruct l as [|a [|]]; try discriminate. destruct l' as [|a' [|]]; try discriminate. reflexivity.
  - rewrite !map_length, L, L', Nat.eqb_refl, map_combine_plus. reflexivity.
  - rewrite !map_length, L, L', Nat.eqb_refl, map_combine_plus. reflexivity.
  - rewrite !map_length, L, L', Nat.eqb_refl, map_combine_plus. reflexivity.
Qed.
Lemma map2_map {A} (f g : A -> R) l : map (fun xy => fst xy + snd xy) (combine (map f l) (map g l)) = map (fun a => f a + g a) l.
Proof. induction l as [|a l IH]; [reflexivity|]. cbn. rewrite IH. reflexivity. Qed.

Lemma nonzero_true c : nonzero c = true <-> c <> 0.
Proof. unfold nonzero. destruct (Req_EM_T c 0); split; intros; congruence. Qed.
Lemma nonzero_false c : nonzero c = false -> c = 0.
Proof. unfold nonzero. destruct (Req_EM_T c 0); congruence. Qed.

Lemma sum_points_isok fuel r t pts sh : broadcast r t pts sh -> Forall (fun q => in_disk (fst q)) pts ->
  forall cs ps (f : R * R -> R), length cs = length ps -> Forall (okp fuel) ps ->
  isok (sum_points fuel cs (map Some ps) r t (sh (map f pts))) (sh (map (fun q => f q + zsum cs ps (fst q) (snd q)) pts)).
Proof.
  intros B F. induction cs as [|c cs IH]; intros [|p ps] f L OK; try discriminate; cbn [sum_points map zsum].
  - eapply isok_ext; [|apply isok_ret]. f_equal. apply map_ext. intros q. ring.
  - inversion OK as [|? ? OP OK']; subst. destruct p as [m n]. destruct (nonzero c) eqn:C.
    + eapply isok_bind; [apply value_isok; eassumption|].
      rewrite (shape_scale _ _ _ _ c _ B) by (apply map_length). rewrite map_map.
      eapply isok_bind.
      * rewrite (shape_add _ _ _ _ _ _ B) by apply map_length. apply isok_ret.
      * rewrite map2_map. eapply isok_ext; [|apply (IH ps _); [cbn in L; congruence|exact OK']]. f_equal. apply map_ext. intros q.
        unfold Zv. cbn [fst snd]. ring.
    + apply nonzero_false in C. subst c. eapply isok_ext; [|apply (IH ps f); [cbn in L; congruence|exact OK']]. f_equal. apply map_ext. intros q. ring.
Qed.

Lemma broadcast_nosurf sf r t pts sh (A : Type) (x : list fl -> list fl -> A) y : broadcast r t pts sh ->
  sf = false -> (match sf, r, t with true, RArr lr, RArr lt => x lr lt | _, _, _ => y end) = y.
Proof. intros _ ->. reflexivity. Qed.

Lemma sum_zernikes_points fuel cs ps r t pts sh : cs <> [] -> length cs = length ps -> Forall (okp fuel) ps ->
  broadcast r t pts sh -> Forall (fun q => in_disk (fst q)) pts ->
  isok (sum_zernikes fuel cs (map Some ps) r t false) (SVal (sh (map (fun q => zsum cs ps (fst q) (snd q)) pts))).
Proof.
  intros N L OK B F. unfold sum_zernikes. rewrite map_length, L, Nat.eqb_refl. cbn [negb].
  destruct cs as [|c cs]; [elim N; reflexivity|]. destruct ps as [|[m n] ps]; [discriminate|]. cbn [map].
  inversion OK as [|? ? OP OK']; subst.
  eapply isok_bind; [apply value_isok; eassumption|]. rewrite (shape_scale _ _ _ _ c _ B) by apply map_length. rewrite map_map.
  eapply isok_bind; [apply (sum_points_isok fuel r t pts sh B F cs ps); [cbn in L; congruence|exact OK']|].
  eapply isok_ext; [|apply isok_ret]. reflexivity.
Qed.
(** a surface request with a float coordinate falls back to the pointwise sum *)
Lemma sum_zernikes_surf_scalar fuel cs ps r t sf pts sh : cs <> [] -> length cs = length ps -> Forall (okp fuel) ps ->
  broadcast r t pts sh -> Forall (fun q => in_disk (fst q)) pts -> (sf = true -> (exists x, r = RNum x) \/ (exists x, t = RNum x)) ->
  isok (sum_zernikes fuel cs (map Some ps) r t sf) (SVal (sh (map (fun q => zsum cs ps (fst q) (snd q)) pts))).
Proof.
  intros N L OK B F H. destruct sf; [|apply sum_zernikes_points; assumption].
  pose proof (sum_zernikes_points fuel cs ps r t pts sh N L OK B F) as G. unfold sum_zernikes in *.
  destruct (negb _); [exact G|]. destruct cs as [|c cs]; [exact G|]. destruct ps as [|p ps]; [exact G|]. cbn [map] in *.
  destruct (H eq_refl) as [[x ->]|[x ->]]; [exact G|]. destruct r; exact G.
Qed.

(** ** surfaces *)
Definition okq {A} (x : M A) (P : A -> Prop) : Prop := kr x (fun r => exists a, r = Ok a /\ P a).
Lemma okq_bind {A B} (x : M A) (f : A -> M B) (P : A -> Prop) (Q : B -> Prop) :
  okq x P -> (forall a, P a -> okq (f a) Q) -> okq (mbind x f) Q.
Proof.
  intros Hx Hf s RS. destruct (Hx s RS) as [R1 (a & E & Pa)]. unfold mbind. destruct (x s) as [s' r]. cbn in *. subst r. apply (Hf a Pa), R1.
Qed.
Lemma okq_ret {A} (a : A) (P : A -> Prop) : P a -> okq (mret a) P.
Proof. intros H. apply (kr_ret (Ok a)). eauto. Qed.
Lemma isok_bindq {A B} (x : M A) (f : A -> M B) a (Q : B -> Prop) : isok x a -> okq (f a) Q -> okq (mbind x f) Q.
Proof. intros. eapply kr_bind; eassumption. Qed.
Lemma okq_weak {A} (x : M A) (P Q : A -> Prop) : (forall a, P a -> Q a) -> okq x P -> okq x Q.
Proof. intros H X s RS. destruct (X s RS) as [A1 (a & E & Pa)]. split; [exact A1|]. eauto. Qed.

Lemma nth_map_Fin l b (f : R -> R) : (b < length l)%nat -> nth b (map (fun x => Fin (f x)) l) NaN = Fin (f (nth b l 0)).
Proof.
  intros H. rewrite (nth_indep _ NaN ((fun x => Fin (f x)) 0)) by (rewrite map_length; exact H).
  rewrite (map_nth (fun x => Fin (f x))). reflexivity.
Qed.

Lemma add_rows_ok fuel c p theta : okp fuel p -> theta <> [] -> forall rs j W, Forall in_disk rs ->
  okq (add_rows fuel c p (map Fin rs) j (map Fin theta) W)
    (fun f => forall a b, (b < length theta)%nat -> f a b =
       if (Nat.leb j a && Nat.ltb a (j + length rs))%bool then fadd (W a b) (Fin (c * Zv p (nth (a - j) rs 0) (nth b theta 0))) else W a b).
Proof.
  intros OK N. induction rs as [|x rs IH]; intros j W F; cbn [add_rows map].
  - apply okq_ret. intros a b Hb. cbn [length]. replace (_ && _)%bool with false; [reflexivity|].
    destruct (Nat.leb_spec j a), (Nat.ltb_spec a (j + 0)); try reflexivity; lia.
  - inversion F as [|? ? Fx F']; subst. eapply isok_bindq.
    { apply (value_isok fuel p (RNum (Fin x)) (RArr (map Fin theta)) (map (fun y => (x, y)) theta) (fun l => KArr (map Fin l)) OK).
      - apply bc_fv; [constructor|exact N].
      - rewrite Forall_map. apply Forall_forall. intros; exact Fx. }
    cbv beta iota. rewrite !map_map. cbn [fst snd]. eapply okq_weak; [|apply IH; exact F'].
    intros f H a b Hb. rewrite (H a b Hb). cbn [length].
    destruct (Nat.eqb_spec a j) as [->|Nj].
    + replace (Nat.leb (S j) j && _)%bool with false by (destruct (Nat.leb_spec (S j) j); [lia|reflexivity]).
      replace (Nat.leb j j && Nat.ltb j (j + S (length rs)))%bool with true by (destruct (Nat.leb_spec j j), (Nat.ltb_spec j (j + S (length rs))); try reflexivity; lia).
      rewrite Nat.sub_diag. cbn [nth]. rewrite (nth_map_Fin theta b (fun y => Zv p x y)) by exact Hb. reflexivity.
    + destruct (Nat.leb_spec (S j) a), (Nat.leb_spec j a), (Nat.ltb_spec a (S j + length rs)), (Nat.ltb_spec a (j + S (length rs)));
      try lia; try reflexivity. cbn [andb]. replace (a - j)%nat with (S (a - S j)) by lia. reflexivity.
Qed.
Lemma add_cols_ok fuel c p rs : okp fuel p -> Forall in_disk rs -> forall ts j W, (ts <> [] -> rs <> []) ->
  okq (add_cols fuel c p (map Fin rs) (map Fin ts) j W)
    (fun f => forall a b, (a < length rs)%nat -> f a b =
       if (Nat.leb j b && Nat.ltb b (j + length ts))%bool then fadd (W a b) (Fin (c * Zv p (nth a rs 0) (nth (b - j) ts 0))) else W a b).
Proof.
  intros OK F. induction ts as [|x ts IH]; intros j W N; cbn [add_cols map].
  - apply okq_ret. intros a b Hb. cbn [length]. replace (_ && _)%bool with false; [reflexivity|].
    destruct (Nat.leb_spec j b), (Nat.ltb_spec b (j + 0)); try reflexivity; lia.
  - assert (NR : rs <> []) by (apply N; discriminate). eapply isok_bindq.
    { apply (value_isok fuel p (RArr (map Fin rs)) (RNum (Fin x)) (map (fun y => (y, x)) rs) (fun l => KArr (map Fin l)) OK).
      - apply bc_vf; [constructor|exact NR].
      - rewrite Forall_map. exact F. }
    cbv beta iota. rewrite !map_map. cbn [fst snd]. eapply okq_weak; [|apply IH; intros _; exact NR].
    intros f H a b Hb. rewrite (H a b Hb). cbn [length].
    destruct (Nat.eqb_spec b j) as [->|Nj].
    + replace (Nat.leb (S j) j && _)%bool with false by (destruct (Nat.leb_spec (S j) j); [lia|reflexivity]).
      replace (Nat.leb j j && Nat.ltb j (j + S (length ts)))%bool with true by (destruct (Nat.leb_spec j j), (Nat.ltb_spec j (j + S (length ts))); try reflexivity; lia).
      rewrite Nat.sub_diag. cbn [nth]. rewrite (nth_map_Fin rs a (fun y => Zv p y x)) by exact Hb. reflexivity.
    + destruct (Nat.leb_spec (S j) b), (Nat.leb_spec j b), (Nat.ltb_spec b (S j + length ts)), (Nat.ltb_spec b (j + S (length ts)));
      try lia; try reflexivity. cbn [andb]. replace (b - j)%nat with (S (b - S j)) by lia. reflexivity.
Qed.

Lemma sum_surface_ok fuel rs ts : Forall in_disk rs -> forall cs ps (W : nat -> nat -> fl) w, length cs = length ps -> Forall (okp fuel) ps ->
  (forall a b, (a < length rs)%nat -> (b < length ts)%nat -> W a b = Fin (w a b)) ->
  okq (sum_surface fuel cs (map Some ps) (map Fin rs) (map Fin ts) W)
    (fun f => forall a b, (a < length rs)%nat -> (b < length ts)%nat -> f a b = Fin (w a b + zsum cs ps (nth a rs 0) (nth b ts 0))).
Proof.
  intros F. induction cs as [|c cs IH]; intros [|[m n] ps] W w L OK HW; try discriminate; cbn [sum_surface map zsum].
  - apply okq_ret. intros a b Ha Hb. rewrite HW by assumption. f_equal. ring.
  - inversion OK as [|? ? OP OK']; subst. cbn in L. destruct (nonzero c) eqn:C.
    + rewrite !map_length.
      apply okq_bind with (P := fun f => forall a b, (a < length rs)%nat -> (b < length ts)%nat ->
         f a b = Fin (w a b + c * Z_nm m n (nth a rs 0) (nth b ts 0))).
      * destruct (Nat.ltb_spec (length rs) (length ts)) as [LT|GE].
        -- eapply okq_weak; [|apply (add_rows_ok fuel c (m, n) ts OP); [intros ->; cbn in LT; lia|exact F]].
           intros f H a b Ha Hb. rewrite H by exact Hb. cbn [Nat.leb plus andb].
           replace (Nat.ltb a (length rs)) with true by (symmetry; apply Nat.ltb_lt; exact Ha). rewrite HW by assumption.
           rewrite Nat.sub_0_r. reflexivity.
        -- eapply okq_weak; [|apply (add_cols_ok fuel c (m, n) rs OP F)].
           2:{ intros H ->. destruct ts; [apply H; reflexivity|cbn in GE; lia]. }
           intros f H a b Ha Hb. rewrite H by exact Ha. cbn [Nat.leb plus andb].
           replace (Nat.ltb b (length ts)) with true by (symmetry; apply Nat.ltb_lt; exact Hb). rewrite HW by assumption.
           rewrite Nat.sub_0_r. reflexivity.
      * intros f Hf. eapply okq_weak; [|apply (IH ps f (fun a b => w a b + c * Z_nm m n (nth a rs 0) (nth b ts 0))); [congruence|exact OK'|exact Hf]].
        intros g Hg a b Ha Hb. rewrite Hg by assumption. f_equal. ring.
    + apply nonzero_false in C. subst c. eapply okq_weak; [|apply (IH ps W w); [congruence|exact OK'|exact HW]].
      intros g Hg a b Ha Hb. rewrite Hg by assumption. f_equal. ring.
Qed.

Lemma sum_zernikes_surface fuel cs ps rs ts : cs <> [] -> length cs = length ps -> Forall (okp fuel) ps -> Forall in_disk rs ->
  okq (sum_zernikes fuel cs (map Some ps) (RArr (map Fin rs)) (RArr (map Fin ts)) true)
    (fun v => exists f, v = SMat (length rs) (length ts) f /\
       forall i j, (i < length rs)%nat -> (j < length ts)%nat -> f i j = Fin (zsum cs ps (nth i rs 0) (nth j ts 0))).
Proof.
  intros N L OK F. unfold sum_zernikes. rewrite map_length, L, Nat.eqb_refl. cbn [negb].
  destruct cs as [|c cs]; [elim N; reflexivity|]. destruct ps as [|p ps]; [discriminate|].
  change (match map Some (p :: ps) with [] => mlift (Raise ValueError) | _ :: _ => ?x end) with x.
  eapply okq_bind; [apply (sum_surface_ok fuel rs ts F (c :: cs) (p :: ps) _ (fun _ _ => 0) L OK); reflexivity|].
  intros f Hf. apply okq_ret. exists f. rewrite !map_length. split; [reflexivity|]. intros i j Hi Hj. rewrite Hf by assumption. f_equal. ring.
Qed.

(** ** the mesh version *)
Lemma mesh_nth rs ts : forall a b, (a < length rs)%nat -> (b < length ts)%nat ->
  nth (a * length ts + b) (flat_map (fun x => map (fun t => (x, t)) ts) rs) (0, 0) = (nth a rs 0, nth b ts 0).
Proof.
  induction rs as [|x rs IH]; intros a b Ha Hb; [cbn in Ha; lia|]. cbn [flat_map]. destruct a as [|a].
  - cbn [Nat.mul plus nth]. rewrite app_nth1 by (rewrite map_length; exact Hb).
    rewrite (nth_indep _ (0, 0) ((fun t => (x, t)) 0)) by (rewrite map_length; exact Hb).
    apply (map_nth (fun t => (x, t)) ts 0).
  - rewrite app_nth2 by (rewrite map_length; lia). rewrite map_length. replace (S a * length ts + b - length ts)%nat with (a * length ts + b)%nat by lia.
    cbn [nth]. apply IH; [cbn in Ha; lia|exact Hb].
Qed.
Lemma mesh_Fin rs ts : mesh (map Fin rs) (map Fin ts) = map (fun q => (Fin (fst q), Fin (snd q))) (flat_map (fun x => map (fun t => (x, t)) ts) rs).
Proof.
  unfold mesh. induction rs as [|x rs IH]; [reflexivity|]. cbn [map flat_map]. rewrite IH, map_app, !map_map. reflexivity.
Qed.
Lemma mesh_len rs ts : length (flat_map (fun x => map (fun t : R => (x : R, t)) ts) rs) = (length rs * length ts)%nat.
Proof. induction rs as [|x rs IH]; [reflexivity|]. cbn. rewrite app_length, map_length, IH. reflexivity. Qed.
Lemma combine_fst_snd {A B} (l : list (A * B)) : combine (map fst l) (map snd l) = l.
Proof. induction l as [|[x y] l IH]; [reflexivity|]. cbn. rewrite IH. reflexivity. Qed.

Lemma sum_mesh_ok fuel rs ts : Forall in_disk rs -> rs <> [] -> ts <> [] ->
  forall cs ps (W : nat -> nat -> fl) w, length cs = length ps -> Forall (okp fuel) ps ->
  (forall a b, (a < length rs)%nat -> (b < length ts)%nat -> W a b = Fin (w a b)) ->
  okq (sum_mesh_loop fuel cs (map Some ps) (map Fin rs) (map Fin ts) W)
    (fun f => forall a b, (a < length rs)%nat -> (b < length ts)%nat -> f a b = Fin (w a b + zsum cs ps (nth a rs 0) (nth b ts 0))).
Proof.
  intros F NR NT. set (pts := flat_map (fun x => map (fun t : R => (x : R, t)) ts) rs).
  assert (B : broadcast (RArr (map fst (mesh (map Fin rs) (map Fin ts)))) (RArr (map snd (mesh (map Fin rs) (map Fin ts)))) pts (fun l => KArr (map Fin l))).
  { rewrite mesh_Fin. fold pts. rewrite !map_map. cbn [fst snd].
    rewrite <- (map_map fst Fin pts), <- (map_map snd Fin pts). rewrite <- (combine_fst_snd pts) at 3.
    apply bc_vv; try constructor; [|rewrite !map_length; reflexivity]. unfold pts. destruct rs; [elim NR; reflexivity|]. destruct ts; [elim NT; reflexivity|]. discriminate. }
  assert (FP : Forall (fun q => in_disk (fst q)) pts).
  { unfold pts. clear -F. induction F as [|x rs Fx F IH]; [constructor|]. cbn. apply Forall_app. split; [|exact IH]. rewrite Forall_map. apply Forall_forall. intros; exact Fx. }
  induction cs as [|c cs IH]; intros [|[m n] ps] W w L OK HW; try discriminate; cbn [sum_mesh_loop map zsum].
  - apply okq_ret. intros a b Ha Hb. rewrite HW by assumption. f_equal. ring.
  - inversion OK as [|? ? OP OK']; subst. cbn in L. destruct (nonzero c) eqn:C.
    + eapply isok_bindq; [apply (value_isok fuel (m, n) _ _ pts _ OP B FP)|]. cbv beta iota.
      eapply okq_weak; [|apply (IH ps _ (fun a b => w a b + c * Z_nm m n (nth a rs 0) (nth b ts 0))); [congruence|exact OK'|]].
      * intros g Hg a b Ha Hb. rewrite Hg by assumption. f_equal. ring.
      * intros a b Ha Hb. rewrite HW by assumption. rewrite map_length, map_map.
        assert (LT : (a * length ts + b < length pts)%nat) by (unfold pts; rewrite mesh_len; nia).
        rewrite (nth_indep _ NaN ((fun q => Fin (Zv (m, n) (fst q) (snd q))) (0, 0))) by (rewrite map_length; exact LT).
        rewrite (map_nth (fun q => Fin (Zv (m, n) (fst q) (snd q)))). unfold pts. rewrite mesh_nth by assumption. reflexivity.
    + apply nonzero_false in C. subst c. eapply okq_weak; [|apply (IH ps W w); [congruence|exact OK'|exact HW]].
      intros g Hg a b Ha Hb. rewrite Hg by assumption. f_equal. ring.
Qed.

Lemma sum_meshgrid_ok fuel cs ps rs ts : length cs = length ps -> Forall (okp fuel) ps -> Forall in_disk rs -> rs <> [] -> ts <> [] ->
  okq (sum_zernikes_meshgrid fuel cs (map Some ps) (map Fin rs) (map Fin ts))
    (fun v => exists f, v = SMat (length rs) (length ts) f /\
       forall i j, (i < length rs)%nat -> (j < length ts)%nat -> f i j = Fin (zsum cs ps (nth i rs 0) (nth j ts 0))).
Proof.
  intros L OK F NR NT. unfold sum_zernikes_meshgrid. rewrite map_length, L, Nat.eqb_refl. cbn [negb].
  eapply okq_bind; [apply (sum_mesh_ok fuel rs ts F NR NT cs ps _ (fun _ _ => 0) L OK); reflexivity|].
  intros f Hf. apply okq_ret. exists f. rewrite !map_length. split; [reflexivity|]. intros i j Hi Hj. rewrite Hf by assumption. f_equal. ring.
Qed.

(** ** errors *)
Lemma sum_length_error fuel cs ps r t sf s : length cs <> length ps -> sum_zernikes fuel cs ps r t sf s = (s, Raise ValueError).
Proof. intros H. unfold sum_zernikes. replace (Nat.eqb _ _) with false by (symmetry; apply Nat.eqb_neq; exact H). reflexivity. Qed.
Lemma sum_empty_error fuel r t sf s : sum_zernikes fuel [] [] r t sf s = (s, Raise ValueError).
Proof. reflexivity. Qed.

(** ** C21 *)
Lemma zsum_scale a cs ps r t : zsum (map (Rmult a) cs) ps r t = a * zsum cs ps r t.
Proof. revert ps. induction cs as [|c cs IH]; intros [|[m n] ps]; cbn; try ring. rewrite IH. ring. Qed.
Lemma zsum_add cs : forall ds ps r t, length cs = length ds ->
  zsum (map (fun xy => fst xy + snd xy) (combine cs ds)) ps r t = zsum cs ps r t + zsum ds ps r t.
Proof.
  induction cs as [|c cs IH]; intros [|d ds] ps r t L; try discriminate; [cbn; ring|].
  destruct ps as [|[m n] ps]; cbn; [ring|]. cbn in L. rewrite IH by congruence. ring.
Qed.
Definition psum (l : list (R * (Z * Z))) r t := zsum (map fst l) (map snd l) r t.
Lemma psum_perm l l' r t : Permutation l l' -> psum l r t = psum l' r t.
Proof.
  unfold psum. induction 1 as [|[c [m n]] l l' H IH|[c [m n]] [c' [m' n']] l|l l' l'' H1 IH1 H2 IH2]; cbn.
  - reflexivity.
  - rewrite IH. reflexivity.
  - ring.
  - congruence.
Qed.
Lemma psum_filter l r t : psum (filter (fun cp => nonzero (fst cp)) l) r t = psum l r t.
Proof.
  unfold psum. induction l as [|[c [m n]] l IH]; [reflexivity|]. cbn [filter fst].
  destruct (nonzero c) eqn:C; cbn; rewrite IH; [reflexivity|]. apply nonzero_false in C. subst c. ring.
Qed.

(** ** C24 for the methods *)

Lemma checked_isok f g r xs sh : (forall x, In x xs -> isok (f x) (g x)) -> arg1 r xs sh -> Forall in_disk xs ->
  isok (checked_call (body1 f) r) (sh (map g xs)).
Proof.
  intros H A F. unfold checked_call. destruct A as [x|v xs V N].
  - inversion F; subst. rewrite num_check by assumption. eapply isok_bind; [apply isok_ret|]. cbn [body1 pt1].
    eapply isok_bind; [|apply isok_ret]. eapply isok_bind; [apply H; left; reflexivity|]. apply isok_ret.
  - rewrite (vec_check v xs) by assumption. eapply isok_bind; [apply isok_ret|]. cbn [body1].
    eapply isok_bind; [|apply isok_ret]. clear -H. induction xs as [|x xs IH]; cbn [map mapM]; [apply isok_ret|].
    eapply isok_bind; [cbn [pt1]; eapply isok_bind; [apply H; left; reflexivity|apply isok_ret]|].
    eapply isok_bind; [apply IH; intros y Hy; apply H; right; exact Hy|]. apply isok_ret.
Qed.

Lemma radial_accepts fuel p r xs sh : okp fuel p -> arg1 r xs sh -> Forall in_disk xs ->
  isok (radial fuel p false r) (sh (map (R_nm (fst p) (snd p)) xs)).
Proof.
  intros [V HF] A F. apply checked_isok; try assumption. intros x _ s RS. split; [apply reach_radial; assumption|].
  apply zp_radial_ok; try assumption. discriminate.
Qed.
Lemma dr_pick fuel p : okp fuel p -> (snd p - Z.abs (fst p) <= 38)%Z ->
  forall x, exists d, isok (zp_radial_dr fuel (fst p) (snd p) false x) d /\ derivable_pt_lim (R_nm (fst p) (snd p)) x d.
Proof.
  intros [V HF] HB x. destruct (zp_radial_dr_ok import_state fuel (fst p) (snd p) false x) as (d & E & D); try assumption; [constructor|].
  exists d. split; [|exact D]. intros s RS. split; [apply reach_radial_dr; assumption|].
  destruct (zp_radial_dr_ok s fuel (fst p) (snd p) false x) as (d' & E' & D'); try assumption.
  rewrite E'. f_equal. eapply uniqueness_limite; eassumption.
Qed.
Lemma radial_dr_accepts fuel p r xs sh : okp fuel p -> (snd p - Z.abs (fst p) <= 38)%Z -> arg1 r xs sh -> Forall in_disk xs ->
  exists ds, isok (radial_dr fuel p false r) (sh ds) /\ length ds = length xs /\
    forall i, (i < length xs)%nat -> derivable_pt_lim (R_nm (fst p) (snd p)) (nth i xs 0) (nth i ds 0).
Proof.
  intros OK HB A F. assert (G : exists g, forall x, In x xs -> isok (zp_radial_dr fuel (fst p) (snd p) false x) (g x) /\ derivable_pt_lim (R_nm (fst p) (snd p)) x (g x)).
  { clear A F. induction xs as [|x xs (g & IH)]; [exists (fun x => x); intros x []|].
    destruct (dr_pick fuel p OK HB x) as (d & D). exists (fun y => if Req_EM_T y x then d else g y).
    intros y Hy. destruct (Req_EM_T y x) as [->|NE]; [exact D|]. apply IH. destruct Hy; [congruence|assumption]. }
  destruct G as (g & G). exists (map g xs). split; [|split; [apply map_length|]].
  - apply checked_isok; try assumption. intros x Hx. apply G, Hx.
  - intros i Hi. rewrite (nth_indep (map g xs) 0 (g 0)) by (rewrite map_length; exact Hi). rewrite map_nth. apply G, nth_In, Hi.
Qed.

Lemma all_rejected fuel p e v t s : supported_container v -> ~ In NaN (elements v) ->
  (exists x, In x (elements v) /\ outside x) ->
  radial fuel p e v s = (s, Raise ValueError) /\ radial_dr fuel p e v s = (s, Raise ValueError) /\ polynomial_value fuel p v t s = (s, Raise ValueError).
Proof. intros S N E. split; [|split]; [apply rejected|apply rejected|apply rejected2]; assumption. Qed.

Lemma empty_rejected fuel p e v t s : supported_container v -> elements v = [] ->
  radial fuel p e v s = (s, Raise ValueError) /\ radial_dr fuel p e v s = (s, Raise ValueError) /\ polynomial_value fuel p v t s = (s, Raise ValueError).
Proof.
  intros S E. unfold radial, radial_dr, polynomial_value, checked_call, checked_call2. rewrite check_radii_empty by assumption. repeat split; reflexivity.
Qed.
Lemma set_rejected fuel p e l t s :
  radial fuel p e (RSet l) s = (s, Raise TypeError) /\ radial_dr fuel p e (RSet l) s = (s, Raise TypeError) /\ polynomial_value fuel p (RSet l) t s = (s, Raise TypeError).
Proof. repeat split; reflexivity. Qed.
(** NaN in the array switches the check off: the value for radius 5 is computed *)
Lemma nan_accepted fuel p s : okp fuel p -> reachable s ->
  snd (radial fuel p false (RArr [NaN; Fin 5]) s) = Ok (KArr [NaN; Fin (R_nm (fst p) (snd p) 5)]).
Proof.
  intros [V HF] RS. assert (I : isok (radial fuel p false (RArr [NaN; Fin 5])) (KArr [NaN; Fin (R_nm (fst p) (snd p) 5)])).
  { unfold radial, checked_call. change (check_radii (RArr [NaN; Fin 5])) with (Ok (KArr [NaN; Fin 5])). eapply isok_bind; [apply isok_ret|].
    cbn [body1]. eapply isok_bind; [|apply isok_ret]. cbn [mapM pt1]. eapply isok_bind; [apply isok_ret|]. eapply isok_bind; [|apply isok_ret].
    eapply isok_bind; [|eapply isok_bind; [apply isok_ret|apply isok_ret]]. eapply isok_bind; [|apply isok_ret].
    intros s' RS'. split; [apply reach_radial; assumption|]. apply zp_radial_ok; try assumption. discriminate. }
  apply I, RS.
Qed.

(** surfaces: the radii are not even checked when every coefficient is zero *)
Lemma surface_zero_unchecked fuel cs ps rs ts s : cs <> [] -> length cs = length ps -> Forall (fun c => c = 0) cs ->
  sum_zernikes fuel cs (map Some ps) (RArr rs) (RArr ts) true s = (s, Ok (SMat (length rs) (length ts) (fun _ _ => Fin 0))).
Proof.
  intros N L F. unfold sum_zernikes. rewrite map_length, L, Nat.eqb_refl. cbn [negb].
  assert (G : forall cs ps, length cs = length ps -> Forall (fun c => c = 0) cs -> sum_surface fuel cs (map Some ps) rs ts (fun _ _ => Fin 0) s = (s, Ok (fun _ _ => Fin 0))).
  { clear. induction cs as [|c cs IH]; intros [|p ps] L F; try discriminate; [reflexivity|]. cbn [sum_surface map].
    inversion F; subst. unfold nonzero. destruct (Req_EM_T 0 0); [|congruence]. apply IH; [cbn in L; congruence|assumption]. }
  destruct cs as [|c cs]; [elim N; reflexivity|]. destruct ps as [|p ps]; [discriminate|]. cbn [map].
  unfold mbind. change (Some p :: map Some ps) with (map Some (p :: ps)). rewrite G by assumption. reflexivity.
Qed.
