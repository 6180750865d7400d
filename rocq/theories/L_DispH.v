(** Whole histories of managers: what a program sees, call by call, under every interleaving. *)
From Coq Require Import Permutation.
From Verif Require Import Py M_Disp L_Disp L_DispC.
Open Scope nat_scope.

Section Hist.
Context {val : Type}.
Variable started : val.
Variable cpu : nat.
Implicit Types s : world val.

(** between two calls: the workers (function, manager, live) and the managers (parameters, usable, number of workers) *)
Record abs := mkA { aw : list ((val -> option val) * nat * bool); am : list (list val * bool * nat) }.
Definition fb (x : (val -> option val) * nat * bool) := (fst (fst x), snd x).
Definition a_man (a : abs) k := nth k (am a) ([], false, 0).
Definition a_on (a : abs) k : bool := snd (fst (a_man a k)).
Definition kill k (x : (val -> option val) * nat * bool) := if snd (fst x) =? k then (fst x, false) else x.

(** what a call may return, and what is left behind; None: jobs or triggers are left behind in workers, nothing is claimed from there on *)
Inductive astep (a : abs) : op val -> list (outcome val) -> option abs -> Prop :=
  | s_new_bad f nw ps e : bad_list (workers_number cpu nw) ps = Some e ->
      astep a (New f nw ps) [OError e] (Some (mkA (aw a) (am a ++ [(ps, false, workers_number cpu nw)])))
  | s_new f nw ps : bad_list (workers_number cpu nw) ps = None ->
      astep a (New f nw ps) [] (Some (mkA (aw a ++ repeat (f, length (am a), true) (workers_number cpu nw)) (am a ++ [(ps, true, workers_number cpu nw)])))
  | s_compute k ps n r : a_man a k = (ps, true, n) -> length (aw a) <= length ps -> completed ps (map fb (aw a)) r -> astep a (Compute k) [OResult r] (Some a)
  | s_compute_bad k ps n : a_man a k = (ps, true, n) -> length ps < length (aw a) -> astep a (Compute k) [OError IndexError] None
  | s_compute_off k : a_on a k = false -> astep a (Compute k) [ONone] (Some a)
  | s_update_bad k ps n qs e : a_man a k = (ps, true, n) -> bad_list n qs = Some e -> astep a (Update k qs) [OError e] (Some a)
  | s_update k ps n qs : a_man a k = (ps, true, n) -> bad_list n qs = None -> astep a (Update k qs) [] (Some (mkA (aw a) (upd (am a) k (fun x => (qs, snd (fst x), snd x)))))
  | s_update_off k qs : a_on a k = false -> astep a (Update k qs) [] (Some a)
  | s_close k : a_on a k = true -> (forall f k', In (f, k', true) (aw a) -> k' = k) -> astep a (Close k) [] (Some (mkA (map (kill k) (aw a)) (upd (am a) k (fun x => ([], false, snd x)))))
  | s_close_others k f k' : a_on a k = true -> In (f, k', true) (aw a) -> k' <> k -> astep a (Close k) [] None
  | s_close_off k : a_on a k = false -> astep a (Close k) [] (Some (mkA (aw a) (upd (am a) k (fun x => ([], false, snd x))))).

Definition wst (w : worker val) := (wfun w, wman w, keep w).
Definition mst (m : manager val) := (params m, inited m, n_work m).
Definition mok (m : manager val) : Prop := inited m = true -> own m = None /\ length (results m) = length (params m).
Definition calm s : Prop := forall i w, nth_error (heap s) i = Some w -> chan CI w.
Definition resting (a : abs) (ops : list (op val)) s : Prop :=
  main s = Ready /\ todo s = ops /\ pool s = seq 0 (length (aw a)) /\ map wst (heap s) = aw a /\ map mst (mans s) = am a /\ Forall mok (mans s) /\ calm s.
Definition computing (a : abs) (ops : list (op val)) s : Prop :=
  exists k ps n, ops = Compute k :: todo s /\ pool s = seq 0 (length (aw a)) /\ map wst (heap s) = aw a /\ map mst (mans s) = am a /\ Forall mok (mans s) /\
    a_man a k = (ps, true, n) /\ Inv k ps (map fb (aw a)) s.
Definition newborn (w : worker val) : Prop :=
  keep w = true /\ trig w = false /\ mbuf w = [] /\ ((pc w = WBegin /\ pipe w = [] /\ wbuf w = []) \/ (waiting w /\ pipe w ++ wbuf w = [started])).
Definition starting (a : abs) (ops : list (op val)) s : Prop :=
  exists f nw ps ops' ms d, ops = New f nw ps :: ops' /\ bad_list (workers_number cpu nw) ps = None /\ todo s = ops /\
    mans s = ms ++ [mkM None ps (map (fun _ => None) ps) false (workers_number cpu nw)] /\ map mst ms = am a /\ Forall mok ms /\
    map wst (heap s) = aw a ++ repeat (f, length (am a), true) d /\
    ((exists lft, main s = Spawn (length (am a)) lft /\ d + lft = workers_number cpu nw /\ pool s = seq 0 (length (heap s)) /\ calm s) \/
     (exists lft i w, main s = Confirm (length (am a)) lft i /\ d + lft = workers_number cpu nw /\ length (heap s) = S i /\ pool s = seq 0 i /\ nth_error (heap s) i = Some w /\ newborn w /\
        forall j w', j < i -> nth_error (heap s) j = Some w' -> chan CI w')).
Definition closing (a : abs) (ops : list (op val)) s : Prop :=
  exists k, ops = Close k :: todo s /\ a_on a k = true /\ (forall f k', In (f, k', true) (aw a) -> k' = k) /\ pool s = seq 0 (length (aw a)) /\ map mst (mans s) = am a /\ Forall mok (mans s) /\ calm s /\
    ((main s = CKeep k /\ map wst (heap s) = aw a) \/ (exists i, main s = CTrig k i /\ map wst (heap s) = map (kill k) (aw a))).
Definition phase (A : option abs) (ops : list (op val)) (outs : list (outcome val)) s : Prop :=
  match A with
  | None => exists more, out s = outs ++ more
  | Some a => out s = outs /\ (resting a ops s \/ computing a ops s \/ starting a ops s \/ closing a ops s)
  end.

(** what was said is never taken back *)
Lemma out_main s : exists more, out (main_step cpu s) = out s ++ more.
Proof.
  assert (X : forall o, exists more : list (outcome val), out s ++ [o] = out s ++ more) by (intros o; exists [o]; reflexivity).
  assert (Y : exists more : list (outcome val), out s = out s ++ more) by (exists []; rewrite app_nil_r; reflexivity).
  unfold main_step. destruct (main s) as [|? ?|? ? ?|k' i|k' i|k' i|k' i|k' i|k' i|?|? ?].
  - destruct (todo s) as [|[f nw ps|k|k ps|k] l]; [exact Y|..]; unfold begin.
    + destruct (bad_list _ ps); cbn; auto.
    + destruct (inited _); cbn; auto.
    + destruct (inited _); [destruct (bad_list _ ps)|]; cbn; auto.
    + destruct (inited _); cbn; auto.
  - destruct lft as [|l]; [exact Y|]. destruct (todo s) as [|[| | |] ?]; exact Y.
  - destruct (nth_error _ _) as [w|]; [destruct (pipe w)|]; exact Y.
  - destruct (nth_error _ _) as [w|]; [|exact Y]. destruct (nth_error _ i); cbn; auto.
  - cbn. destruct (nth_error _ _); exact Y.
  - destruct (nth_error (workers_of s k') i) as [wi|]; [|destruct (_ <? _); cbn; auto]. destruct (nth_error (heap s) wi) as [w|]; [|exact Y]. destruct (nth_error _ _) as [[|]|]; try exact Y. destruct (trig w); exact Y.
  - destruct (nth_error (workers_of s k') i) as [wi|]; [|exact Y]. destruct (nth_error (slots (loc s)) i) as [[|]|]; try exact Y. destruct (nth_error (heap s) wi) as [w|]; [|exact Y]. destruct (pipe w); exact Y.
  - destruct (nth_error (workers_of s k') i) as [wi|]; [|exact Y]. destruct (rest (loc s)) as [|j r]; [exact Y|]. destruct (nth_error _ j); cbn; auto.
  - cbn. destruct (nth_error _ _); exact Y.
  - exact Y.
  - destruct (nth_error _ _); exact Y.
Qed.
Lemma out_act b s : exists more, out (act started cpu b s) = out s ++ more.
Proof. destruct b; [apply out_main| | |]; exists []; cbn; rewrite app_nil_r; reflexivity. Qed.

(** the steps of the others *)
Lemma wst_other b s : b <> Main -> map wst (heap (act started cpu b s)) = map wst (heap s).
Proof.
  intros NM. destruct b as [|i|i|i]; [congruence| | |]; cbn; apply upd_map; intros w _; unfold wst.
  - destruct (stat_worker started w) as (-> & -> & ->). reflexivity.
  - destruct (stat_feed_m w) as (-> & -> & ->). reflexivity.
  - destruct (stat_feed_w w) as (-> & -> & ->). reflexivity.
Qed.
Lemma heap_other b s : b <> Main -> exists i g, act started cpu b s = on_worker i g s /\ (forall c w, chan c w -> chan c (g w)) /\ (forall w, newborn w -> newborn (g w)).
Proof.
  intros NM. destruct b as [|i|i|i]; [congruence| | |]; cbn; exists i.
  - exists (worker_step started). split; [reflexivity|]. split; [intros; apply chan_worker; assumption|].
    intros [f m k t mb pi wb q] (K & T & E & X). cbn in *. subst. destruct X as [(-> & -> & ->)|([W|W] & X)]; cbn in *; subst; cbn; unfold newborn, waiting; cbn; intuition.
  - exists feed_m. split; [reflexivity|]. split; [intros; apply chan_feed_m; assumption|].
    intros w N. unfold feed_m. destruct (mbuf w) eqn:E; [exact N|]. destruct N as (_ & _ & X & _). congruence.
  - exists feed_w. split; [reflexivity|]. split; [intros; apply chan_feed_w; assumption|].
    intros w N. unfold feed_w. destruct (wbuf w) as [|x q] eqn:E; [exact N|]. destruct N as (K & T & EM & [(_ & _ & X)|(W & X)]); [congruence|].
    split; [exact K|]. split; [exact T|]. split; [exact EM|]. right. split; [exact W|]. cbn. rewrite <- app_assoc. rewrite E in X. exact X.
Qed.
Lemma nth_upd_some {A} (l : list A) i j g x : nth_error (upd l i g) j = Some x -> nth_error l j = Some x \/ exists y, nth_error l j = Some y /\ x = g y.
Proof.
  destruct (Nat.eq_dec i j) as [->|NE]; [rewrite upd_same|rewrite upd_other by exact NE; auto]. destruct (nth_error l j) as [y|] eqn:E; [|discriminate].
  intros X. injection X as <-. right. exists y. auto.
Qed.
Lemma calm_upd s i g : (forall c w, chan c w -> chan c (g w)) -> calm s -> calm (on_worker i g s).
Proof. intros G C j w E. cbn in E. destruct (nth_upd_some _ _ _ _ _ E) as [X|(y & X & ->)]; [apply (C j), X|apply G, (C j), X]. Qed.

Lemma resting_other a ops s b : b <> Main -> resting a ops s -> resting a ops (act started cpu b s).
Proof.
  intros NM P. assert (W := wst_other b s NM). destruct (heap_other b s NM) as (i & g & EA & GC & GN).
  destruct P as (P1 & P2 & P3 & P4 & P5 & P6 & P7). rewrite <- W in P4. rewrite EA in *. repeat (split; [assumption|]). apply calm_upd; assumption.
Qed.
Lemma computing_other a ops s b : b <> Main -> computing a ops s -> computing a ops (act started cpu b s).
Proof.
  intros NM P. assert (W := wst_other b s NM). destruct (heap_other b s NM) as (i & g & EA & GC & GN).
  destruct P as (k & ps & n & P1 & P2 & P3 & P4 & P5 & P6 & P7). exists k, ps, n. rewrite <- W in P3. assert (I := inv_other started cpu k ps _ s b NM P7). rewrite EA in *. repeat (split; [assumption|]). exact I.
Qed.
Lemma starting_other a ops s b : b <> Main -> starting a ops s -> starting a ops (act started cpu b s).
Proof.
  intros NM P. assert (W := wst_other b s NM). destruct (heap_other b s NM) as (i & g & EA & GC & GN).
  destruct P as (f & nw & ps & ops' & ms & d & P1 & P2 & P3 & P4 & P5 & P6 & P7 & P8). exists f, nw, ps, ops', ms, d. rewrite <- W in P7. assert (LH : length (heap (act started cpu b s)) = length (heap s)) by (rewrite EA; apply upd_length). rewrite EA in *.
  repeat (split; [assumption|]). destruct P8 as [(lft & Q1 & Q2 & Q3 & Q4)|(lft & i' & w & Q1 & Q2 & Q3 & Q4 & Q5 & Q6 & Q7)].
  - left. exists lft. split; [exact Q1|]. split; [exact Q2|]. split; [rewrite LH; exact Q3|]. apply calm_upd; assumption.
  - right. destruct (Nat.eq_dec i i') as [->|NE].
    + exists lft, i', (g w). split; [exact Q1|]. split; [exact Q2|]. split; [rewrite LH; exact Q3|]. split; [exact Q4|]. split; [cbn; rewrite upd_same, Q5; reflexivity|]. split; [apply GN, Q6|].
      intros j w' LJ E. cbn in E. rewrite upd_other in E by lia. apply (Q7 j); assumption.
    + exists lft, i', w. split; [exact Q1|]. split; [exact Q2|]. split; [rewrite LH; exact Q3|]. split; [exact Q4|]. split; [cbn; rewrite upd_other by exact NE; exact Q5|]. split; [exact Q6|].
      intros j w' LJ E. cbn in E. destruct (nth_upd_some _ _ _ _ _ E) as [X|(y & X & ->)]; [apply (Q7 j); assumption|apply GC, (Q7 j); assumption].
Qed.
Lemma closing_other a ops s b : b <> Main -> closing a ops s -> closing a ops (act started cpu b s).
Proof.
  intros NM P. assert (W := wst_other b s NM). destruct (heap_other b s NM) as (i & g & EA & GC & GN).
  destruct P as (k & P1 & P2 & P3 & P4 & P5 & P6 & P7 & P8). exists k. rewrite <- W in P8. rewrite EA in *. repeat (split; [assumption|]). split; [apply calm_upd; assumption|exact P8].
Qed.
Lemma out_other s b : b <> Main -> out (act started cpu b s) = out s.
Proof. intros NM. destruct b; [congruence|reflexivity..]. Qed.
Lemma phase_other A ops outs s b : b <> Main -> phase A ops outs s -> phase A ops outs (act started cpu b s).
Proof.
  intros NM P. destruct A as [a|].
  2:{ destruct P as [m E]. destruct (out_act b s) as [m' E']. exists (m ++ m'). rewrite E', E, app_assoc. reflexivity. }
  destruct P as [EO P]. split; [rewrite (out_other s b NM); exact EO|]. destruct P as [P|[P|[P|P]]].
  - left. apply resting_other; assumption.
  - right; left. apply computing_other; assumption.
  - right; right; left. apply starting_other; assumption.
  - right; right; right. apply closing_other; assumption.
Qed.

(** the steps of the main process *)
Lemma man_mst a s k : map mst (mans s) = am a -> mst (man s k) = a_man a k.
Proof. intros E. unfold a_man, man. rewrite <- E. change ([], false, 0) with (mst no_manager). symmetry. apply map_nth. Qed.
Lemma on_lt s k : inited (man s k) = true -> k < length (mans s).
Proof. intros E. destruct (Nat.lt_ge_cases k (length (mans s))) as [L|G]; [exact L|]. unfold man in E. rewrite nth_overflow in E by exact G. discriminate. Qed.
Lemma mok_man s k : Forall mok (mans s) -> mok (man s k).
Proof.
  intros F. unfold man. destruct (Nat.lt_ge_cases k (length (mans s))) as [L|G]; [|rewrite nth_overflow by exact G; intros E; discriminate].
  rewrite Forall_forall in F. apply F, nth_In, L.
Qed.
Lemma abs_mst m m' : abs_m m = abs_m m' -> mst m = mst m' /\ (mok m -> mok m').
Proof. unfold abs_m, mst, mok. intros E. injection E as E1 E2 E3 E4 E5. rewrite E1, E2, E3, E4, E5. auto. Qed.
Lemma abs_list (l l' : list (manager val)) : map abs_m l' = map abs_m l -> map mst l' = map mst l /\ (Forall mok l -> Forall mok l').
Proof.
  revert l'. induction l as [|m l IH]; intros [|m' l'] E; try discriminate; [split; auto|]. cbn in E. assert (E1 : abs_m m' = abs_m m) by (apply (f_equal (hd (abs_m m))) in E; exact E). apply (f_equal (@tl _)) in E. cbn [tl] in E.
  destruct (IH l' E) as [A B]. destruct (abs_mst m' m E1) as [A1 _]. destruct (abs_mst m m' (eq_sym E1)) as [_ B1]. split; [cbn; congruence|].
  intros F. inversion F; subst. constructor; auto.
Qed.
Lemma wman_main s : (match main s with IPut _ _ | ISet _ _ | Poll _ _ | Get _ _ | NPut _ _ | NSet _ _ => True | _ => False end) -> map (@wman val) (heap (main_step cpu s)) = map (@wman val) (heap s).
Proof.
  intros P. unfold main_step. destruct (main s) as [|? ?|? ? ?|k' i|k' i|k' i|k' i|k' i|k' i|?|? ?]; try contradiction.
  - destruct (nth_error _ _) as [w|]; [|reflexivity]. destruct (nth_error _ i); cbn; [|reflexivity]. apply upd_map. reflexivity.
  - cbn. destruct (nth_error _ _); cbn; [|reflexivity]. apply upd_map. reflexivity.
  - destruct (nth_error (workers_of s k') i) as [wi|]; [|destruct (_ <? _); reflexivity]. destruct (nth_error (heap s) wi) as [w|]; [|reflexivity]. destruct (nth_error _ _) as [[|]|]; try reflexivity. destruct (trig w); reflexivity.
  - destruct (nth_error (workers_of s k') i) as [wi|]; [|reflexivity]. destruct (nth_error (slots (loc s)) i) as [[|]|]; try reflexivity. destruct (nth_error (heap s) wi) as [w|]; [|reflexivity]. destruct (pipe w); [reflexivity|]. cbn. apply upd_map. reflexivity.
  - destruct (nth_error (workers_of s k') i) as [wi|]; [|reflexivity]. destruct (rest (loc s)) as [|j r]; [reflexivity|]. destruct (nth_error _ j); cbn; [|reflexivity]. apply upd_map. reflexivity.
  - cbn. destruct (nth_error _ _); cbn; [|reflexivity]. apply upd_map. reflexivity.
Qed.
Lemma wst_split (l l' : list (worker val)) : map stat l' = map stat l -> map (@wman val) l' = map (@wman val) l -> map wst l' = map wst l.
Proof.
  revert l'. induction l as [|w l IH]; intros [|w' l'] E E'; try discriminate; [reflexivity|]. cbn in *. unfold stat in *. injection E as E1 E2 E. injection E' as E3 E'. f_equal; [unfold wst; congruence|auto].
Qed.
Lemma stat_wst (l : list (worker val)) : map stat l = map fb (map wst l).
Proof. rewrite map_map. reflexivity. Qed.

Definition next (a : abs) (ops : list (op val)) outs s : Prop :=
  exists o ops' os A', ops = o :: ops' /\ astep a o os A' /\ phase A' ops' (outs ++ os) s /\ (forall a', A' = Some a' -> resting a' ops' s).
Definition moved (X : abs -> list (op val) -> world val -> Prop) (a : abs) (ops : list (op val)) outs s : Prop := (out s = outs /\ X a ops s) \/ next a ops outs s.
Definition somewhere a ops s : Prop := resting a ops s \/ computing a ops s \/ starting a ops s \/ closing a ops s.
Lemma moved_next X a o ops' os a' outs s : astep a o os (Some a') -> out s = outs ++ os -> resting a' ops' s -> moved X a (o :: ops') outs s.
Proof. intros A E R. right. exists o, ops', os, (Some a'). split; [reflexivity|]. split; [exact A|]. split; [split; [exact E|left; exact R]|]. intros a1 E1. injection E1 as <-. exact R. Qed.
Lemma moved_broken X a o ops' os outs s more : astep a o os None -> out s = (outs ++ os) ++ more -> moved X a (o :: ops') outs s.
Proof. intros A E. right. exists o, ops', os, None. split; [reflexivity|]. split; [exact A|]. split; [exists more; exact E|discriminate]. Qed.
Lemma map_none x n : map (fun _ : nat => @None nat) (seq x n) = repeat None n.
Proof. revert x. induction n as [|n IH]; intros x; [reflexivity|]. cbn. f_equal. apply IH. Qed.
Lemma rest_main a ops outs s : out s = outs -> resting a ops s -> moved somewhere a ops outs (main_step cpu s).
Proof.
  intros EO R. destruct (R) as (P1 & P2 & P3 & P4 & P5 & P6 & P7). unfold main_step. rewrite P1, P2. destruct ops as [|o ops'].
  { left. split; [exact EO|]. left. exact R. }
  assert (LM : length (mans s) = length (am a)) by (rewrite <- P5, map_length; reflexivity). assert (LH : length (heap s) = length (aw a)) by (rewrite <- P4, map_length; reflexivity).
  destruct o as [f nw ps|k|k qs|k]; unfold begin; cbn [man mans with_todo todo]; rewrite ?P2; cbn [tl].
  - destruct (bad_list (workers_number cpu nw) ps) as [e|] eqn:EB.
    + apply (moved_next _ a _ ops' _ _ outs _ (s_new_bad a f nw ps e EB)); [cbn; rewrite EO; reflexivity|]. repeat split; cbn; try assumption.
      * rewrite P2. reflexivity.
      * rewrite map_app, P5. reflexivity.
      * apply Forall_app. split; [exact P6|]. constructor; [intros X; discriminate|constructor].
    + left. split; [exact EO|]. right; right; left. exists f, nw, ps, ops', (mans s), 0. cbn [repeat]. rewrite app_nil_r. repeat (split; [solve [reflexivity|assumption]|]). left. exists (workers_number cpu nw).
      split; [cbn; rewrite app_length; cbn; rewrite LM; f_equal; lia|]. split; [reflexivity|]. split; [cbn; rewrite LH; exact P3|exact P7].
  - change (man (with_todo ops' s) k) with (man s k). assert (EA := man_mst a s k P5). unfold mst in EA. destruct (inited (man s k)) eqn:EI.
    + left. split; [exact EO|]. right; left. exists k, (params (man s k)), (n_work (man s k)). assert (MO := mok_man s k P6 EI). destruct MO as [MO1 MO2].
      split; [reflexivity|]. repeat (split; [assumption|]). split; [symmetry; exact EA|].
      assert (WO : workers_of s k = seq 0 (length (map fb (aw a)))) by (unfold workers_of; rewrite MO1, map_length; exact P3).
      assert (W2 : workers_of (with_todo ops' s) k = workers_of s k) by reflexivity. rewrite W2, WO.
      split; cbn.
      * exact WO.
      * rewrite stat_wst, P4. reflexivity.
      * apply on_lt, EI.
      * reflexivity.
      * exact MO2.
      * rewrite map_length, seq_length. reflexivity.
      * intros i w E. unfold slot_c. rewrite nth_error_map. destruct (nth_error (seq 0 _) i); cbn; apply (P7 i), E.
      * unfold at_main. cbn. split; [reflexivity|]. split; [lia|]. split; [lia|]. unfold phase1. cbn. split; [reflexivity|]. split; [rewrite Nat.sub_0_r; reflexivity|].
        rewrite Nat.sub_0_r. apply map_none.
    + assert (OFF : a_on a k = false) by (unfold a_on; rewrite <- EA; reflexivity). apply (moved_next _ a _ ops' _ _ outs _ (s_compute_off a k OFF)); [cbn; rewrite EO; reflexivity|]. repeat split; assumption.
  - change (man (with_todo ops' s) k) with (man s k). assert (EA := man_mst a s k P5). unfold mst in EA. destruct (inited (man s k)) eqn:EI.
    + destruct (bad_list (n_work (man s k)) qs) as [e|] eqn:EB.
      * apply (moved_next _ a _ ops' _ _ outs _ (s_update_bad a k _ _ qs e (eq_sym EA) EB)); [cbn; rewrite EO; reflexivity|]. repeat split; assumption.
      * apply (moved_next _ a _ ops' _ _ outs _ (s_update a k _ _ qs (eq_sym EA) EB)); [cbn; rewrite EO, app_nil_r; reflexivity|]. repeat split; cbn; try assumption.
        -- rewrite <- P5. clear. unfold upd. revert k. induction (mans s) as [|m l IH]; intros [|k]; try reflexivity. cbn. f_equal. apply IH.
        -- apply Forall_forall. intros m IN. apply In_nth_error in IN. destruct IN as [j E]. rewrite Forall_forall in P6. destruct (nth_upd_some _ _ _ _ _ E) as [X|(y & X & ->)]; [apply P6, nth_error_In with j, X|].
           assert (MY := P6 y (nth_error_In _ _ X)). intros Z. cbn in Z. destruct (MY Z) as [MY1 _]. split; [exact MY1|]. cbn. apply map_length.
    + assert (OFF : a_on a k = false) by (unfold a_on; rewrite <- EA; reflexivity). apply (moved_next _ a _ ops' _ _ outs _ (s_update_off a k qs OFF)); [cbn; rewrite EO, app_nil_r; reflexivity|]. repeat split; assumption.
  - change (man (with_todo ops' s) k) with (man s k). assert (EA := man_mst a s k P5). unfold mst in EA. destruct (inited (man s k)) eqn:EI.
    + assert (ON : a_on a k = true) by (unfold a_on; rewrite <- EA; reflexivity).
      destruct (existsb (fun x => andb (snd x) (negb (snd (fst x) =? k))) (aw a)) eqn:EX.
      * apply existsb_exists in EX. destruct EX as ([[f k'] b] & IN & C). cbn in C. apply andb_prop in C. destruct C as [-> C]. apply negb_true_iff, Nat.eqb_neq in C.
        apply (moved_broken _ a _ ops' [] outs _ [] (s_close_others a k f k' ON IN C)). cbn. rewrite !app_nil_r. exact EO.
      * left. split; [exact EO|]. right; right; right. exists k. split; [reflexivity|]. split; [exact ON|]. split.
        -- intros f k' IN. destruct (Nat.eq_dec k' k) as [E|NE]; [exact E|]. exfalso. assert (X : existsb (fun x => andb (snd x) (negb (snd (fst x) =? k))) (aw a) = true).
           { apply existsb_exists. exists (f, k', true). split; [exact IN|]. cbn. apply negb_true_iff, Nat.eqb_neq. exact NE. }
           congruence.
        -- repeat (split; [assumption|]). left. split; [reflexivity|exact P4].
    + assert (OFF : a_on a k = false) by (unfold a_on; rewrite <- EA; reflexivity). apply (moved_next _ a _ ops' _ _ outs _ (s_close_off a k OFF)); [cbn; rewrite EO, app_nil_r; reflexivity|]. repeat split; cbn; try assumption.
      * rewrite <- P5. clear. unfold upd. revert k. induction (mans s) as [|m l IH]; intros [|k]; try reflexivity. cbn. f_equal. apply IH.
      * apply Forall_forall. intros m IN. apply In_nth_error in IN. destruct IN as [j E]. rewrite Forall_forall in P6. destruct (nth_upd_some _ _ _ _ _ E) as [X|(y & X & ->)]; [apply P6, nth_error_In with j, X|].
        intros Z. discriminate.
Qed.
Lemma computing_main a ops outs s : out s = outs -> computing a ops s -> moved computing a ops outs (main_step cpu s).
Proof.
  intros EO (k & ps & n & P1 & P2 & P3 & P4 & P5 & P6 & I). assert (LH : length (heap s) = length (aw a)) by (rewrite <- P3, map_length; reflexivity).
  assert (WM : map (@wman val) (heap (main_step cpu s)) = map (@wman val) (heap s)).
  { apply wman_main. assert (X := iv_main _ _ _ _ I). unfold at_main in X. destruct (main s); try contradiction; exact Logic.I. }
  destruct (inv_main_step cpu k ps _ s I) as [[I' (F1 & F2 & F3 & F4)]|(M1 & M2 & M3 & M4 & M5)].
  - left. split; [congruence|]. exists k, ps, n. destruct (abs_list _ _ F4) as [X1 X2]. rewrite F2, F3, X1. split; [exact P1|]. split; [exact P2|].
    split; [|split; [exact P4|split; [apply X2, P5|split; [exact P6|exact I']]]]. rewrite <- P3. apply wst_split; [|exact WM]. rewrite (iv_stat _ _ _ _ I'), (iv_stat _ _ _ _ I). reflexivity.
  - rewrite P1. destruct M5 as [(LE & [Q1 Q2] & r & R1 & R2)|(LT & R1)]; rewrite map_length in *.
    + apply (moved_next _ a _ _ [OResult r] a outs); [apply (s_compute a k ps n r); assumption|congruence|]. destruct (abs_list _ _ M4) as [X1 X2].
      split; [exact M1|]. split; [exact M2|]. split; [rewrite M3; exact P2|]. split; [rewrite <- P3; apply wst_split; [rewrite Q1, (iv_stat _ _ _ _ I); reflexivity|exact WM]|].
      split; [rewrite X1; exact P4|]. split; [apply X2, P5|exact Q2].
    + apply (moved_broken _ a _ _ [OError IndexError] outs _ []); [apply (s_compute_bad a k ps n); assumption|]. rewrite app_nil_r. congruence.
Qed.
Lemma map_const_len {A B} (l : list A) (b : B) : length (map (fun _ => b) l) = length l.
Proof. apply map_length. Qed.
Lemma starting_main a ops outs s : out s = outs -> starting a ops s -> moved starting a ops outs (main_step cpu s).
Proof.
  intros EO (f & nw & ps & ops' & ms & d & P1 & P2 & P3 & P4 & P5 & P6 & P7 & P8). assert (LM : length ms = length (am a)) by (rewrite <- P5, map_length; reflexivity).
  unfold main_step. destruct P8 as [(lft & Q1 & Q2 & Q3 & Q4)|(lft & i & w & Q1 & Q2 & Q3 & Q4 & Q5 & Q6 & Q7)]; rewrite Q1.
  - rewrite P3. destruct lft as [|lft].
    + rewrite P1. apply (moved_next _ a _ ops' [] _ outs _ (s_new a f nw ps P2)); [cbn; rewrite EO, app_nil_r; reflexivity|].
      assert (d = workers_number cpu nw) by lia. subst d. assert (LH : length (heap s) = length (aw a ++ repeat (f, length (am a), true) (workers_number cpu nw))) by (rewrite <- P7, map_length; reflexivity).
      assert (EU : upd (mans s) (length (am a)) set_inited = ms ++ [mkM None ps (map (fun _ => None) ps) true (workers_number cpu nw)]).
      { rewrite P4. unfold upd. rewrite <- LM, firstn_app, Nat.sub_diag, firstn_all, skipn_app, Nat.sub_diag, skipn_all. cbn [firstn skipn app]. rewrite app_nil_r. reflexivity. }
      repeat split; cbn [main todo pool heap mans goto with_todo on_man with_mans aw am tl].
      * rewrite Q3, LH. reflexivity.
      * exact P7.
      * rewrite EU, map_app, P5. reflexivity.
      * rewrite EU. apply Forall_app. split; [exact P6|]. constructor; [|constructor]. intros _. cbn. split; [reflexivity|apply map_length].
      * exact Q4.
    + rewrite P1. left. split; [exact EO|]. exists f, nw, ps, ops', ms, (S d). split; [reflexivity|]. split; [exact P2|]. split; [cbn; congruence|]. split; [exact P4|]. split; [exact P5|]. split; [exact P6|].
      split; [cbn; rewrite map_app, P7; cbn; rewrite <- app_assoc; f_equal; clear; induction d as [|d IH]; [reflexivity|cbn; f_equal; exact IH]|].
      right. exists lft, (length (heap s)), (new_worker f (length (am a))). split; [reflexivity|]. split; [lia|]. split; [cbn; rewrite app_length; cbn; lia|]. split; [exact Q3|].
      split; [cbn; rewrite nth_error_app2, Nat.sub_diag by lia; reflexivity|]. split; [repeat split; left; repeat split|]. intros j w' LJ E. cbn in E. rewrite nth_error_app1 in E by exact LJ. apply (Q4 j), E.
  - rewrite Q5. destruct (pipe w) as [|x q] eqn:EQ.
    + left. split; [exact EO|]. exists f, nw, ps, ops', ms, d. repeat (split; [assumption|]). right. exists lft, i, w. repeat (split; [assumption|]). exact Q7.
    + left. split; [exact EO|]. exists f, nw, ps, ops', ms, d. repeat (split; [assumption|]).
      split; [cbn; rewrite upd_map; [exact P7|reflexivity]|]. left. exists lft. split; [reflexivity|]. split; [exact Q2|]. split; [cbn; rewrite upd_length, Q3, Q4, seq_S; reflexivity|].
      intros j w' E. cbn in E. destruct (Nat.eq_dec i j) as [->|NE].
      * rewrite upd_same, Q5 in E. injection E as <-. destruct Q6 as (K & T & EMB & [(_ & X & _)|(W & X)]); [congruence|]. rewrite EQ in X. injection X as -> X. apply app_eq_nil in X. destruct X as [-> X].
        unfold chan. cbn. rewrite K. split; [exact T|]. split; [split; [exact EMB|split; [reflexivity|exact X]]|]. exact W.
      * rewrite upd_other in E by exact NE. apply (Q7 j); [|exact E]. assert (j < length (heap s)) by (apply nth_error_Some; congruence). lia.
Qed.
Lemma closing_main a ops outs s : out s = outs -> closing a ops s -> moved closing a ops outs (main_step cpu s).
Proof.
  intros EO (k & P1 & P2 & P3 & P4 & P5 & P6 & P7 & P8). assert (EA := man_mst a s k P5). assert (EI : inited (man s k) = true) by (unfold a_on in P2; rewrite <- EA in P2; exact P2).
  assert (WO : workers_of s k = seq 0 (length (aw a))) by (unfold workers_of; rewrite (proj1 (mok_man s k P6 EI)); exact P4).
  unfold main_step. destruct P8 as [[Q1 Q2]|(i & Q1 & Q2)]; rewrite Q1.
  - left. split; [exact EO|]. exists k. repeat (split; [assumption|]). split; [|right; exists 0; split; [reflexivity|]].
    + intros j w' E. cbn in E. rewrite nth_error_map in E. destruct (nth_error (heap s) j) as [w|] eqn:EW; [|discriminate]. injection E as <-. assert (C := P7 j w EW). destruct (wman w =? k); [|exact C].
      unfold chan in *. cbn. destruct (keep w); [|exact C]. destruct C as (_ & (C1 & C2 & C3) & C4). split; [left; exact C4|]. auto.
    + cbn. rewrite <- Q2, !map_map. apply map_ext. intros w. unfold kill, wst. cbn. destruct (wman w =? k); reflexivity.
  - rewrite WO. destruct (nth_error (seq 0 (length (aw a))) i) as [wi|] eqn:EW.
    + left. split; [exact EO|]. exists k. repeat (split; [assumption|]). split; [|right; exists (S i); split; [reflexivity|cbn; rewrite upd_map; [exact Q2|reflexivity]]].
      intros j w' E. cbn in E. destruct (nth_upd_some _ _ _ _ _ E) as [X|(y & X & ->)]; [apply (P7 j), X|]. assert (C := P7 j y X). assert (KF : keep y = false).
      { destruct (keep y) eqn:K; [|reflexivity]. exfalso. assert (IN : In (wst y) (map (kill k) (aw a))) by (rewrite <- Q2; apply in_map, nth_error_In with j, X).
        apply in_map_iff in IN. destruct IN as ([[f k'] b] & IE & IN). unfold kill in IE. cbn in IE. unfold wst in IE. rewrite K in IE.
        destruct (Nat.eqb_spec k' k) as [->|NE]; [discriminate|]. injection IE as -> -> ->. apply NE, (P3 _ _ IN). }
      unfold chan in *. cbn. rewrite KF in *. exact C.
    + rewrite P1. apply (moved_next _ a _ _ [] _ outs _ (s_close a k P2 P3)); [cbn; rewrite EO, app_nil_r; reflexivity|]. repeat split; cbn [main todo pool heap mans goto on_man with_mans aw am]; try assumption.
      * rewrite map_length. exact P4.
      * rewrite <- P5. clear. unfold upd. revert k. induction (mans s) as [|m l IH]; intros [|k]; try reflexivity. cbn. f_equal. apply IH.
      * apply Forall_forall. intros m IN. apply In_nth_error in IN. destruct IN as [j E]. rewrite Forall_forall in P6. destruct (nth_upd_some _ _ _ _ _ E) as [X|(y & X & ->)]; [apply P6, nth_error_In with j, X|].
        intros Z. discriminate.
Qed.
Theorem phase_step a ops outs s b : phase (Some a) ops outs s -> moved somewhere a ops outs (act started cpu b s).
Proof.
  intros P. destruct b as [|i|i|i]; [|left; refine (phase_other (Some a) ops outs s _ _ P); discriminate..]. destruct P as [EO P]. cbn [act]. unfold moved, somewhere. destruct P as [P|[P|[P|P]]].
  - apply rest_main; assumption.
  - destruct (computing_main a ops outs s EO P) as [X|X]; tauto.
  - destruct (starting_main a ops outs s EO P) as [X|X]; tauto.
  - destruct (closing_main a ops outs s EO P) as [X|X]; tauto.
Qed.
(** all of it *)
Inductive reach (ops0 : list (op val)) : option abs -> list (op val) -> list (outcome val) -> Prop :=
  | reach_0 : reach ops0 (Some (mkA [] [])) ops0 []
  | reach_S a o ops outs os A : reach ops0 (Some a) (o :: ops) outs -> astep a o os A -> reach ops0 A ops (outs ++ os).
Theorem run_phase sch ops0 t : exists A ops outs, reach ops0 A ops outs /\ phase A ops outs (run started cpu sch ops0 t).
Proof.
  induction t as [|t (A & ops & outs & R & P)].
  - exists (Some (mkA [] [])), ops0, []. split; [constructor|]. split; [reflexivity|]. left. repeat split; try constructor. intros i w E. destruct i; discriminate.
  - cbn [run]. destruct A as [a|].
    + destruct (phase_step a ops outs _ (sch t) P) as [P'|(o & ops' & os & A' & -> & AS & P' & _)]; [exists (Some a), ops, outs; split; assumption|].
      exists A', ops', (outs ++ os). split; [apply (reach_S ops0 a o); assumption|exact P'].
    + exists None, ops, outs. split; [exact R|]. destruct P as [m E]. destruct (out_act (sch t) (run started cpu sch ops0 t)) as [m' E']. exists (m ++ m'). rewrite E', E, app_assoc. reflexivity.
Qed.
End Hist.
