(** C54: the JSON files of ZernPSF as text, with a crash at any point of the writing. *)
From Coq Require Import Reals Lra Ascii.
From Flocq Require Import Core.
From Verif Require Import Py SpecIndex M_Sum M_Psf L_Polar M_PsfClass SpecPsfClass P_PsfClass P_PsfIO M_Json SpecJson L_Json.
Local Open Scope Z_scope.

Lemma fields_read K n nr nphi na wl px vna vwl vpx : is_num vna na -> is_num vwl wl -> is_num vpx px -> forall a va p, is_num va a ->
  record_of (JObj ((txt "PSF Kernel", rows_of K) :: (txt "NA", vna) :: (txt "Wavelength", vwl) :: (txt "Pixel Size", vpx) :: (txt "Kernel Size", JInt n) ::
              (txt "# of integration points R", JInt nr) :: (txt "# of integration points angle", JInt nphi) :: [(txt "Expansion Coefficient", va); (txt "Polynomial", JInt p)]))
  = Some (JSON (Some K) (Some n) (Some nr) (Some nphi) (Some na) (Some wl) (Some px) (Some a) None (Some p) None).
Proof.
  intros H1 H2 H3 a va p H4. unfold record_of, field.
  assert (RK : as_list (as_list as_fl) (rows_of K) = Some K).
  { unfold rows_of. cbn [as_list]. apply (all_some_map (fun r => JArr (map JFloat r)) (as_list as_fl)). intros r. cbn [as_list]. apply (all_some_map JFloat as_fl). reflexivity. }
  repeat match goal with |- context [lookup (txt ?k) ?l] => 
    match l with context [(txt k, ?v)] => change (lookup (txt k) l) with (Some v) | _ => change (lookup (txt k) l) with (@None jval) end end.
  cbv beta iota. rewrite RK, (num_read _ _ H1), (num_read _ _ H2), (num_read _ _ H3), (num_read _ _ H4). reflexivity.
Qed.
Lemma fields_read_several K n nr nphi na wl px vna vwl vpx : is_num vna na -> is_num vwl wl -> is_num vpx px -> forall (l : list R) ps,
  record_of (JObj ((txt "PSF Kernel", rows_of K) :: (txt "NA", vna) :: (txt "Wavelength", vwl) :: (txt "Pixel Size", vpx) :: (txt "Kernel Size", JInt n) ::
              (txt "# of integration points R", JInt nr) :: (txt "# of integration points angle", JInt nphi) ::
              [(txt "Amplitudes", JArr (map (fun x => JFloat (Fin x)) l)); (txt "Polynomials", JArr (map JInt ps))]))
  = Some (JSON (Some K) (Some n) (Some nr) (Some nphi) (Some na) (Some wl) (Some px) None (Some l) None (Some ps)).
Proof.
  intros H1 H2 H3 l0 ps. unfold record_of, field.
  assert (RK : as_list (as_list as_fl) (rows_of K) = Some K).
  { unfold rows_of. cbn [as_list]. apply (all_some_map (fun r => JArr (map JFloat r)) (as_list as_fl)). intros r. cbn [as_list]. apply (all_some_map JFloat as_fl). reflexivity. }
  assert (RA : as_list as_num (JArr (map (fun x => JFloat (Fin x)) l0)) = Some l0) by (cbn [as_list]; apply (all_some_map (fun x => JFloat (Fin x)) as_num); reflexivity).
  assert (RP : as_list as_Z (JArr (map JInt ps)) = Some ps) by (cbn [as_list]; apply (all_some_map JInt as_Z); reflexivity).
  repeat match goal with |- context [lookup (txt ?k) ?l] =>
    match l with context [(txt k, ?v)] => change (lookup (txt k) l) with (Some v) | _ => change (lookup (txt k) l) with (@None jval) end end.
  cbv beta iota. rewrite RK, RA, RP, (num_read _ _ H1), (num_read _ _ H2), (num_read _ _ H3). reflexivity.
Qed.
Lemma dict_record j d : dict_of j d -> record_of d = Some j.
Proof.
  intros (K & n & nr & nphi & na & wl & px & vna & vwl & vpx & tail & E1 & E2 & E3 & E4 & E5 & E6 & E7 & N1 & N2 & N3 & -> & [T|T]); destruct j as [x1 x2 x3 x4 x5 x6 x7 x8 x9 x10 x11]; cbn [j_kernel j_size j_nr j_nphi j_na j_wl j_px j_coeff j_amps j_pol j_pols] in *; subst.
  - destruct T as (a & va & p & -> & -> & -> & -> & NA & ->). apply fields_read; assumption.
  - destruct T as (l & ps & -> & -> & -> & -> & ->). apply fields_read_several; assumption.
Qed.
Lemma dict_object j d : dict_of j d -> exists l, d = JObj l.
Proof. intros (K & n & nr & nphi & na & wl & px & vna & vwl & vpx & tail & E1 & E2 & E3 & E4 & E5 & E6 & E7 & N1 & N2 & N3 & -> & _). eexists; reflexivity. Qed.
(** whatever save_psf has to write is such a dictionary *)
Lemma dict_exists o j : saved_data o = Ok (Some j) -> exists d, dict_of j d.
Proof.
  intros E. unfold saved_data in E. assert (N : forall x, is_num (JFloat (Fin x)) x) by (intros; left; reflexivity). destruct (zpol o) as [p|].
  - injection E as <-. eexists. do 11 eexists. repeat (split; [first [reflexivity | apply N]|]). left. do 3 eexists. repeat (split; [first [reflexivity | apply N]|]). reflexivity.
  - destruct (polynomials o) as [|p ps]; [discriminate|]. destruct (coefficients o) as [l|]; [|discriminate]. injection E as <-.
    eexists. do 11 eexists. repeat (split; [first [reflexivity | apply N]|]). right. do 2 eexists. repeat (split; [first [reflexivity | apply N]|]). reflexivity.
Qed.

(** json.dump followed by json.load is the identity *)
Theorem C54_text_round_trip : forall fr v, printable fr v -> load (dump fr v) = Ok v.
Proof. exact load_dump. Qed.
Print Assumptions C54_text_round_trip.
(** save_json that is not interrupted, then read_json by any object: as in C43, now through the text of the file *)
Theorem C54_save_read : forall fr n overwrite fs o1 o j d, object o1 -> configured o1 -> object o -> saved_data o1 = Ok (Some j) -> dict_of j d -> printable fr d ->
  overwrite = true \/ fs n = None ->
  exists o', read_text n (save_text fr n overwrite d (Some (length (dump fr d))) fs) o = Some (o', Ok Datatypes.tt) /\
    kern o' = kern o1 /\ NA o' = NA o1 /\ wavelength o' = wavelength o1 /\ pixel_size o' = pixel_size o1 /\ n_int_r o' = n_int_r o1 /\ n_int_phi o' = n_int_phi o1 /\ zpol o' = zpol o1 /\
    (forall p, zpol o1 = Some p -> expansion_coeff o' = expansion_coeff o1) /\ (zpol o1 = None -> polynomials o' = polynomials o1 /\ coefficients o' = coefficients o1).
Proof.
  intros fr n overwrite fs o1 o j d O1 C O E D P W. destruct (C43_round_trip_partial o1 o O1 C O) as (j' & o' & E' & ER & H1 & H2 & H3 & H4 & _ & H6 & H7 & _ & H9 & H10 & H11).
  rewrite E in E'. injection E' as <-. exists o'. split.
  - unfold read_text, save_text. rewrite firstn_all.
    assert (X : (match fs n, overwrite with Some _, false => fs | _, _ => twrite fs n (dump fr d) end) n = Some (dump fr d)).
    { assert (Y : twrite fs n (dump fr d) n = Some (dump fr d)) by (unfold twrite; destruct (fname_eq_dec n n); [reflexivity|contradiction]).
      destruct W as [-> | ->]; [destruct (fs n); exact Y|exact Y]. }
    rewrite X, (load_dump fr d P), (dict_record j d D), ER. reflexivity.
  - repeat (split; [assumption|]). split; [intros p EP; apply (H10 p EP)|]. intros EZ. destruct (H11 EZ) as (A & B & _). split; assumption.
Qed.
Print Assumptions C54_save_read.
(** a crash (or an exception of json.dump) after any number of characters: no other file is touched; either the file is as it was before the call, or reading it raises
    and leaves the reader unchanged, or it is complete. Never does a file load with other data. *)
Theorem C54_crash : forall fr n overwrite fs o1 o j d stage, object o1 -> saved_data o1 = Ok (Some j) -> dict_of j d -> printable fr d ->
  let fs' := save_text fr n overwrite d stage fs in
  (forall n', n' <> n -> fs' n' = fs n') /\
  (fs' n = fs n \/ read_text n fs' o = Some (o, Raise ValueError) \/ (fs' n = Some (dump fr d) /\ read_text n fs' o = Some (read_json j o))).
Proof.
  intros fr n overwrite fs o1 o j d stage O1 E D P fs'. assert (T : forall s n', n' <> n -> twrite fs n s n' = fs n') by (intros s n' N; unfold twrite; destruct (fname_eq_dec n' n); [contradiction|reflexivity]).
  assert (T0 : forall s, twrite fs n s n = Some s) by (intros s; unfold twrite; destruct (fname_eq_dec n n); [reflexivity|contradiction]).
  assert (G : forall k, let f := twrite fs n (firstn k (dump fr d)) in read_text n f o = Some (o, Raise ValueError) \/ (f n = Some (dump fr d) /\ read_text n f o = Some (read_json j o))).
  { intros k f. unfold read_text, f. rewrite T0. destruct (le_lt_dec (length (dump fr d)) k) as [L|L].
    - right. rewrite (firstn_all2 _ L). split; [reflexivity|]. rewrite (load_dump fr d P), (dict_record j d D). reflexivity.
    - left. rewrite (prefix_fails fr d k P (or_introl (dict_object j d D)) L). reflexivity. }
  unfold fs', save_text. destruct stage as [k|].
  - destruct (fs n) eqn:EF; destruct overwrite; (split; [first [apply T | reflexivity]|]); first [right; apply G | left; exact EF].
  - destruct (fs n) eqn:EF; destruct overwrite; (split; [reflexivity|left; exact EF]).
Qed.
Print Assumptions C54_crash.
(** the text is not complete before the last character is written *)
Theorem C54_prefix_unreadable : forall fr n overwrite fs o1 o j d k, saved_data o1 = Ok (Some j) -> dict_of j d -> printable fr d -> overwrite = true \/ fs n = None ->
  (k < length (dump fr d))%nat -> read_text n (save_text fr n overwrite d (Some k) fs) o = Some (o, Raise ValueError).
Proof.
  intros fr n overwrite fs o1 o j d k E D P W L. unfold read_text, save_text.
  assert (X : (match fs n, overwrite with Some _, false => fs | _, _ => twrite fs n (firstn k (dump fr d)) end) n = Some (firstn k (dump fr d))).
  { assert (Y : twrite fs n (firstn k (dump fr d)) n = Some (firstn k (dump fr d))) by (unfold twrite; destruct (fname_eq_dec n n); [reflexivity|contradiction]).
    destruct W as [-> | ->]; [destruct (fs n); exact Y|exact Y]. }
  rewrite X, (prefix_fails fr d k P (or_introl (dict_object j d D)) L). reflexivity.
Qed.
Print Assumptions C54_prefix_unreadable.
(** refuted: the saving is not atomic. With overwrite=True a crash before the last character destroys the file that could be read before; *)
Theorem C54_atomic_refuted : forall fr n fs o1 o j d d0 j0 k, saved_data o1 = Ok (Some j) -> dict_of j d -> printable fr d -> dict_of j0 d0 -> printable fr d0 ->
  fs n = Some (dump fr d0) -> (k < length (dump fr d))%nat ->
  read_text n fs o = Some (read_json j0 o) /\ read_text n (save_text fr n true d (Some k) fs) o = Some (o, Raise ValueError).
Proof.
  intros fr n fs o1 o j d d0 j0 k E D P D0 P0 F L. split; [unfold read_text; rewrite F, (load_dump fr d0 P0), (dict_record j0 d0 D0); reflexivity|].
  apply (C54_prefix_unreadable fr n true fs o1 o j d k E D P (or_introl eq_refl) L).
Qed.
Print Assumptions C54_atomic_refuted.
(** a file that holds the text of a saved kernel and something else behind it (say, the tail of a longer, overwritten file): blanks (space,
    tab, line feed, carriage return) are ignored, anything else makes read_json raise and leaves the object as it was *)
Definition blank (c : ascii) : Prop := In (nat_of_ascii c) [32; 9; 10; 13]%nat.
Theorem C54_trailing : forall fr n fs o1 o j d t, saved_data o1 = Ok (Some j) -> dict_of j d -> printable fr d -> fs n = Some (dump fr d ++ t) ->
  (Forall blank t -> read_text n fs o = Some (read_json j o)) /\ (~ Forall blank t -> read_text n fs o = Some (o, Raise ValueError)).
Proof.
  intros fr n fs o1 o j d t E D P F. unfold read_text. rewrite F, (load_trailing fr d t P (or_introl (dict_object j d D))).
  assert (B : Forall blank t <-> ws t = []).
  { rewrite ws_nil, !Forall_forall. split; intros H c I; specialize (H c I); clear I.
    - unfold blank in H. destruct c as [[] [] [] [] [] [] [] []]; (reflexivity || (exfalso; vm_compute in H; intuition discriminate)).
    - unfold blank. destruct c as [[] [] [] [] [] [] [] []]; ((vm_compute in H; discriminate) || (vm_compute; tauto)). }
  split; intros H.
  - apply B in H. rewrite H, (dict_record j d D). reflexivity.
  - destruct (ws t); [elim H; apply B; reflexivity|reflexivity].
Qed.
Print Assumptions C54_trailing.
(** refuted: the broken file is replaced by the next save_json. With the default overwrite=False it stays, whatever is saved; overwrite=True repairs it. *)
Theorem C54_repair_refuted : forall fr n fs o1 o j d d' stage k, saved_data o1 = Ok (Some j) -> dict_of j d -> printable fr d -> fs n = None -> (k < length (dump fr d))%nat ->
  let broken := save_text fr n false d (Some k) fs in
  save_text fr n false d' stage broken = broken /\ read_text n (save_text fr n false d' stage broken) o = Some (o, Raise ValueError) /\
  read_text n (save_text fr n true d (Some (length (dump fr d))) broken) o = Some (read_json j o).
Proof.
  intros fr n fs o1 o j d d' stage k E D P F L broken. pose proof (C54_prefix_unreadable fr n false fs o1 o j d k E D P (or_intror F) L) as R. fold broken in R.
  assert (B : exists s, broken n = Some s).
  { unfold broken, save_text. rewrite F. exists (firstn k (dump fr d)). unfold twrite. destruct (fname_eq_dec n n); [reflexivity|contradiction]. }
  destruct B as (s & B). assert (S1 : save_text fr n false d' stage broken = broken) by (unfold save_text; rewrite B; reflexivity).
  split; [exact S1|]. split; [rewrite S1; exact R|]. unfold read_text, save_text. rewrite B, firstn_all.
  assert (Y : twrite broken n (dump fr d) n = Some (dump fr d)) by (unfold twrite; destruct (fname_eq_dec n n); [reflexivity|contradiction]).
  rewrite Y, (load_dump fr d P), (dict_record j d D). reflexivity.
Qed.
Print Assumptions C54_repair_refuted.
(** every binary64 number has a printed form of the required kind; the dictionary of every object exists; a concrete text *)
Example C54_nonvacuous : (exists fr, forall x, F64 x -> float_text (fr x) x) /\ (forall o j, saved_data o = Ok (Some j) -> exists d, dict_of j d) /\
  dump (fun _ => []) (JObj [(txt "Polynomials", JArr [JInt 4; JInt (-12); JFloat NaN])]) = txt "{" ++ show_str (txt "Polynomials") ++ txt ": [4, -12, NaN]}" /\
  load (txt " [0, 105 ,-7]") = Ok (JArr [JInt 0; JInt 105; JInt (-7)]) /\ load (txt "[0, 105") = Raise ValueError /\ load (txt "[01]") = Raise ValueError /\
  (exists j d, saved_data tilt = Ok (Some j) /\ dict_of j d).
Proof.
  split; [exists exact_repr; exact float_text_exists|]. split; [exact dict_exists|]. split; [reflexivity|]. split; [reflexivity|]. split; [reflexivity|]. split; [reflexivity|].
  assert (E : exists j, saved_data tilt = Ok (Some j)) by (eexists; reflexivity). destruct E as (j & E). destruct (dict_exists tilt j E) as (d & D). exists j, d. split; assumption.
Qed.
