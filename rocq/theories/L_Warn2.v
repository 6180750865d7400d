(** The warnings of the setters and of the calculation; the border of the Airy pattern. *)
From Coq Require Import Reals Lra Psatz.
From Verif Require Import Py SpecIndex M_Coeffs M_Sum M_Geo M_Fit M_Psf SpecPsf L_Psf L_PsfKernel M_Numba M_PsfClass SpecPsfClass L_PsfClass SpecCropK L_CropK L_PsfObj L_PsfSet M_Warn SpecWarn L_Warn.
Local Open Scope R_scope.

(** ** the largest coefficient *)
Lemma fold_min l : forall x, (forall y, In y (x :: l) -> fold_left Rmin l x <= y) /\ In (fold_left Rmin l x) (x :: l).
Proof.
  induction l as [|a l IH]; intros x; cbn [fold_left].
  - split; [intros y [<-|[]]; lra|left; reflexivity].
  - destruct (IH (Rmin x a)) as [U I]. split.
    + intros y [<-|[<-|H]].
      * eapply Rle_trans; [apply U; left; reflexivity|apply Rmin_l].
      * eapply Rle_trans; [apply U; left; reflexivity|apply Rmin_r].
      * apply U. right. exact H.
    + destruct I as [E|I]; [|right; right; exact I]. rewrite <- E. unfold Rmin. destruct (Rle_dec x a); [left; reflexivity|right; left; reflexivity].
Qed.
Lemma max_module l t : l <> [] -> t < Rabs (Rmax (rmax_list l) (Rabs (rmin_list l))) <-> exists c, In c l /\ t < Rabs c.
Proof.
  intros N. destruct l as [|x l]; [contradiction|]. cbn [rmax_list rmin_list]. destruct (fold_max l x) as [U1 I1], (fold_min l x) as [U2 I2].
  set (a := fold_left Rmax l x) in *. set (b := fold_left Rmin l x) in *. assert (P := Rabs_pos b). split.
  - intros H. unfold Rmax in H. destruct (Rle_dec a (Rabs b)).
    + exists b. split; [exact I2|]. rewrite Rabs_Rabsolu in H. exact H.
    + exists a. split; [exact I1|exact H].
  - intros (c & IC & H). eapply Rlt_le_trans; [exact H|]. apply U1 in IC as C1. apply U2 in IC as C2. eapply Rle_trans; [|apply Rle_abs].
    assert (M1 := Rmax_l a (Rabs b)). assert (M2 := Rmax_r a (Rabs b)). unfold Rabs at 1. destruct (Rcase_abs c); [|lra]. assert (B := Rle_abs (- b)). rewrite Rabs_Ropp in B. lra.
Qed.
Lemma sanity_spec x f : (length (sanity_check x f) <= 1)%nat /\ (sanity_check x f <> [] <-> 10 < x).
Proof.
  unfold sanity_check, Rltb. destruct (Rlt_dec 10 x); cbn [length]; (split; [lia|]); (split; [intros; try contradiction; assumption|intros; try discriminate; try lra]).
Qed.
Lemma over_ten x wl : 0 < wl -> 10 < x / wl <-> 10 * wl < x.
Proof.
  intros W. split; intros H.
  - apply (Rmult_lt_compat_r wl) in H; [|exact W]. unfold Rdiv in H. rewrite Rmult_assoc, Rinv_l in H by lra. lra.
  - apply (Rmult_lt_reg_r wl); [exact W|]. unfold Rdiv. rewrite Rmult_assoc, Rinv_l by lra. lra.
Qed.
(** the coefficients of the argument *)
Definition given (c : coeff_arg) : list R := match c with KNum a => [a] | KSeq l => l | KBad _ => [] end.
Lemma set_coeff_warns c o : 0 < wavelength o -> snd (set_coeff c o) = Ok Datatypes.tt ->
  let ws := fst (snd (set_coeff_w c o)) in (length ws <= 1)%nat /\ (ws <> [] <-> exists a, In a (given c) /\ 10 * wavelength o < Rabs a).
Proof.
  intros W. assert (ONE : forall a f, let ws := sanity_check (Rabs a / wavelength o) f in (length ws <= 1)%nat /\ (ws <> [] <-> exists b, In b [a] /\ 10 * wavelength o < Rabs b)).
  { intros a f. cbv zeta. destruct (sanity_spec (Rabs a / wavelength o) f) as [H1 H2]. split; [exact H1|]. rewrite H2, over_ten by exact W.
    split; [intros H; exists a; split; [left; reflexivity|exact H]|intros (b & [<-|[]] & H); exact H]. }
  destruct c as [a|l|e]; cbn [set_coeff set_coeff_w given].
  - destruct (zpol o), (polynomials o) as [|? [|]]; cbn [fst snd]; intros E; try discriminate; apply ONE.
  - destruct (length l =? length (polynomials o))%nat.
    + destruct l as [|x l]; [discriminate|]. intros _. cbn [fst snd]. cbn [wavelength with_coefficients].
      destruct (sanity_spec (Rabs (Rmax (rmax_list (x :: l)) (Rabs (rmin_list (x :: l)))) / wavelength o) true) as [H1 H2]. split; [exact H1|].
      rewrite H2, over_ten by exact W. apply max_module. discriminate.
    + destruct l as [|a [|]], (polynomials o); cbn [fst snd]; intros E; try discriminate. apply ONE.
  - destruct (zpol o), (polynomials o) as [|? [|]]; discriminate.
Qed.
Lemma set_coeff_silent c o e : snd (set_coeff c o) = Raise e -> fst (snd (set_coeff_w c o)) = [].
Proof.
  destruct c as [a|l|e']; cbn [set_coeff set_coeff_w].
  - destruct (zpol o), (polynomials o) as [|? [|]]; cbn [fst snd]; intros E; try discriminate; reflexivity.
  - destruct (length l =? length (polynomials o))%nat; [destruct l; [reflexivity|discriminate]|]. destruct l as [|a [|]], (polynomials o); cbn [fst snd]; intros E; try discriminate; reflexivity.
  - destruct (zpol o), (polynomials o) as [|? [|]]; reflexivity.
Qed.
Lemma base_reached_w na wl c px o : in_range na wl px ->
  set_physical_props_w na wl c px o = match set_coeff_w c (base na wl px o) with (o, (w, Raise e)) => (o, (w, Raise e)) | (o, (w, Ok _)) => let '(o, r) := estimate_size o in (o, (w, r)) end.
Proof.
  intros (A & W & P). unfold set_physical_props_w. rewrite (Rltb_false na 0), (Rltb_false (17 / 10) na), (Rleb_false wl 0) by lra. cbn [orb]. cbv zeta.
  rewrite pydiv_ok by lra. rewrite (Rleb_false px 0) by lra. rewrite (Rltb_false _ px) by (rewrite nyq_eq by lra; lra). reflexivity.
Qed.

(** ** the calculation *)
Section Calc.
  Variables (sup : bool) (px wl na : R).
  Definition pixel_part : list warn := if Rltb (5 / 10 * (61 / 100) * wl / na) px && negb sup then [PixelTooLarge] else [].
  Definition border_part (K : kernel) : list warn := if border_is_bright K && negb sup then [BrightBorder] else [].
  Definition shown (pre ws : list warn) (r : res kernel) : Prop :=
    match r with Ok K => ws = pre ++ pixel_part ++ border_part K | Raise _ => ws = [] \/ ws = pre \/ ws = pre ++ pixel_part end.
  Lemma tail_shown pre (x : M (list (list R))) nz s : na <> 0 ->
    let '(s', (ws, r)) := wbind (check_pixel sup px wl na) (fun _ => wbind (quiet x) (fun l => check_border sup (finish nz l))) s in shown pre (pre ++ ws) r.
  Proof.
    intros N. unfold check_pixel, check_border, wbind, quiet, show, mlift, mret. rewrite pydiv_ok by exact N. cbn [app]. destruct (x s) as [s' [l|e]]; unfold shown, pixel_part, border_part.
    - rewrite !app_nil_r. reflexivity.
    - right. right. rewrite app_nil_r. reflexivity.
  Qed.
  Lemma tail_failed pre (x : M (list (list R))) nz s : na = 0 ->
    let '(s', (ws, r)) := wbind (check_pixel sup px wl na) (fun _ => wbind (quiet x) (fun l => check_border sup (finish nz l))) s in shown pre (pre ++ ws) r.
  Proof.
    intros N. unfold check_pixel, wbind, quiet, mlift, pydiv. destruct (Req_EM_T na 0); [|contradiction]. cbn [app]. unfold shown. right. left. apply app_nil_r.
  Qed.
  Lemma tail pre (x : M (list (list R))) nz s :
    let '(s', (ws, r)) := wbind (check_pixel sup px wl na) (fun _ => wbind (quiet x) (fun l => check_border sup (finish nz l))) s in shown pre (pre ++ ws) r.
  Proof. destruct (Req_dec na 0); [apply tail_failed|apply tail_shown]; assumption. Qed.
End Calc.
Lemma single_shown rnd jv1 fuel p px a wl na nr nphi nz ai ks mt sup s :
  let '(s', (ws, r)) := get_psf_kernel_w rnd jv1 fuel p px a wl na nr nphi nz ai ks mt sup s in shown sup px wl na [] ws r.
Proof.
  unfold get_psf_kernel_w. unfold wbind at 1, quiet at 1, mlift at 1. destruct (pydiv a wl) as [al|]; [|left; reflexivity]. unfold wbind at 1, quiet at 1, mlift at 1.
  destruct (pydiv (2 * PI) wl) as [k0|]; [|left; reflexivity]. unfold wbind at 1, quiet at 1, mlift at 1.
  destruct (if (ks <? 3)%Z then get_kernel_size p px al wl na else Ok ks) as [size|]; [|left; reflexivity]. cbv zeta. destruct (odd_size size <? 0)%Z; [left; reflexivity|].
  match goal with |- context [wbind (check_pixel _ _ _ _) (fun _ => wbind (quiet ?x) _) s] => pose proof (tail sup px wl na [] x nz s) as H end.
  destruct (wbind (check_pixel _ _ _ _) _ s) as (s1 & w & r). exact H.
Qed.
Lemma zerns_shown rnd fuel ps amps px wl na ks nr nphi nz sup s :
  let '(s', (ws, r)) := get_psf_kernel_zerns_w rnd fuel ps amps px wl na ks nr nphi nz sup s in shown sup px wl na [] ws r.
Proof.
  unfold get_psf_kernel_zerns_w. unfold wbind at 1, quiet at 1, mlift at 1.
  destruct (pydiv (2 * PI) wl) as [k0|]; [|left; reflexivity]. cbv zeta. destruct (odd_size ks <? 0)%Z; [left; reflexivity|].
  match goal with |- context [wbind (check_pixel _ _ _ _) (fun _ => wbind (quiet ?x) _) s] => pose proof (tail sup px wl na [] x nz s) as H end.
  destruct (wbind (check_pixel _ _ _ _) _ s) as (s1 & w & r). exact H.
Qed.
Definition long_part (sup : bool) (ks : Z) : list warn := if (85 <? odd_size ks)%Z && negb sup then [LongCalculation] else [].
Lemma comp_shown rnd tg px al wl na nr nphi nz ks sup s :
  let '(s', (ws, r)) := get_psf_kernel_comp_w rnd tg px al wl na nr nphi nz ks sup s in shown sup px wl na (long_part sup ks) ws r.
Proof.
  unfold get_psf_kernel_comp_w. unfold wbind at 1, quiet at 1, mlift at 1.
  destruct (pydiv (2 * PI) wl) as [k0|]; [|left; reflexivity]. cbv zeta. unfold wbind at 1, show at 1. destruct (odd_size ks <? 0)%Z.
  { unfold quiet, mlift. cbn [app]. right. left. apply app_nil_r. }
  unfold wbind at 1, quiet at 1, mlift at 1.
  match goal with |- context [match (match tg with Single p => _ | Several ps => _ end) with _ => _ end] => destruct (match tg with Single p => _ | Several ps => _ end) as [ph|] end; [|cbn [app]; right; left; apply app_nil_r].
  match goal with |- context [wbind (check_pixel _ _ _ _) (fun _ => wbind (quiet ?x) _) s] => pose proof (tail sup px wl na (long_part sup ks) x nz s) as H end.
  destruct (wbind (check_pixel _ _ _ _) _ s) as (s1 & w & r). exact H.
Qed.
(** the whole list *)
Definition first_part (sup : bool) (acc : option bool) (inst : bool) (o : zernpsf) : list warn :=
  (if negb (props_set o) && negb sup then [DefaultsUsed] else []) ++
  (if (match acc with None => inst | Some b => b end) && negb inst && negb sup then [NoNumbaHere] else []).
Definition used_size (sup : bool) (o : zernpsf) : Z := if negb (props_set o) && negb sup then 19%Z else kernel_size o.
Lemma calculate_shown rnd jv1 fuel sup nz acc inst o s : (zpol o = None -> polynomials o <> []) ->
  let '(s', (ws, (o', r))) := calculate_psf_kernel_w rnd jv1 fuel sup nz acc inst o s in
  exists ws', ws = first_part sup acc inst o ++ ws' /\
    (shown sup (pixel_size o) (wavelength o) (NA o) (if use_numba acc inst then long_part sup (used_size sup o) else []) ws' r \/ exists e, ws' = [] /\ r = Raise e).
Proof.
  intros NE. unfold calculate_psf_kernel_w. cbv zeta. unfold first_part, used_size.
  set (o1 := if negb (props_set o) && negb sup then with_kernel_size 19 o else o).
  assert (E1 : zpol o1 = zpol o) by (unfold o1; destruct (_ && _)%bool; reflexivity). assert (E2 : polynomials o1 = polynomials o) by (unfold o1; destruct (_ && _)%bool; reflexivity).
  assert (E3 : pixel_size o1 = pixel_size o) by (unfold o1; destruct (_ && _)%bool; reflexivity). assert (E4 : wavelength o1 = wavelength o) by (unfold o1; destruct (_ && _)%bool; reflexivity).
  assert (E5 : NA o1 = NA o) by (unfold o1; destruct (_ && _)%bool; reflexivity).
  assert (E6 : kernel_size o1 = if negb (props_set o) && negb sup then 19%Z else kernel_size o) by (unfold o1; destruct (_ && _)%bool; reflexivity).
  rewrite <- E6, <- E3, <- E4, <- E5. rewrite <- E1, <- E2 in NE. clearbody o1.
  destruct (zpol o1) as [p|].
  - destruct (use_numba acc inst).
    + match goal with |- context [get_psf_kernel_comp_w ?a ?b ?c ?d ?e ?f ?g ?h ?i ?j ?k s] => pose proof (comp_shown a b c d e f g h i j k s) as H; destruct (get_psf_kernel_comp_w a b c d e f g h i j k s) as (s1 & w & [K|e1]) end;
        (exists w; split; [apply app_assoc|left; exact H]).
    + match goal with |- context [get_psf_kernel_w ?a ?b ?c ?d ?e ?f ?g ?h ?i ?j ?k ?l ?m ?n ?o s] => pose proof (single_shown a b c d e f g h i j k l m n o s) as H; destruct (get_psf_kernel_w a b c d e f g h i j k l m n o s) as (s1 & w & [K|e1]) end;
        (exists w; split; [apply app_assoc|left; exact H]).
  - destruct (polynomials o1) as [|p ps]; [exfalso; apply NE; reflexivity|]. destruct (amplitudes o1) as [amps|].
    + destruct (use_numba acc inst).
      * match goal with |- context [get_psf_kernel_comp_w ?a ?b ?c ?d ?e ?f ?g ?h ?i ?j ?k s] => pose proof (comp_shown a b c d e f g h i j k s) as H; destruct (get_psf_kernel_comp_w a b c d e f g h i j k s) as (s1 & w & [K|e1]) end;
          (exists w; split; [apply app_assoc|left; exact H]).
      * match goal with |- context [get_psf_kernel_zerns_w ?a ?b ?c ?d ?e ?f ?g ?h ?i ?j ?k ?l s] => pose proof (zerns_shown a b c d e f g h i j k l s) as H; destruct (get_psf_kernel_zerns_w a b c d e f g h i j k l s) as (s1 & w & [K|e1]) end;
          (exists w; split; [apply app_assoc|left; exact H]).
    + unfold no_amplitudes, quiet, mlift. exists []. split; [apply app_assoc|]. right. exists TypeError. split; reflexivity.
Qed.
