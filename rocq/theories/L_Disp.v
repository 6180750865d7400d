(** Lemmas on the dispenser: channel invariants, the compute() phase. *)
From Coq Require Import Permutation.
From Verif Require Import Py M_Disp.
Open Scope nat_scope.

(** lists *)
Lemma upd_length {A} (l : list A) i g : length (upd l i g) = length l.
Proof. unfold upd. rewrite <- (firstn_skipn i l) at 3. rewrite !app_length. destruct (skipn i l); reflexivity. Qed.
Lemma upd_same {A} (l : list A) i g : nth_error (upd l i g) i = option_map g (nth_error l i).
Proof.
  unfold upd. revert i. induction l as [|a l IH]; intros [|i]; try reflexivity. cbn [firstn skipn nth_error app]. apply IH.
Qed.
Lemma upd_other {A} (l : list A) i j g : i <> j -> nth_error (upd l i g) j = nth_error l j.
Proof.
  unfold upd. revert i j. induction l as [|a l IH]; intros [|i] [|j] H; try reflexivity; try congruence. cbn [firstn skipn nth_error app]. apply IH. congruence.
Qed.
Lemma upd_map {A B} (h : A -> B) (l : list A) i g : (forall x, nth_error l i = Some x -> h (g x) = h x) -> map h (upd l i g) = map h l.
Proof.
  unfold upd. revert i. induction l as [|a l IH]; intros [|i] H; try reflexivity; cbn in *; [rewrite H; reflexivity|]. f_equal. apply IH. exact H.
Qed.
Lemma upd_nth {A} (l : list A) i g d : i < length l -> nth i (upd l i g) d = g (nth i l d).
Proof. intros H. destruct (nth_error l i) as [x|] eqn:E; [|apply nth_error_None in E; lia]. rewrite (nth_error_nth _ _ _ E). apply nth_error_nth. rewrite upd_same, E. reflexivity. Qed.
Lemma nth_ne {A} (l : list A) j d : nth j l d = match nth_error l j with Some x => x | None => d end.
Proof. revert j. induction l as [|a l IH]; intros [|j]; try reflexivity. cbn. apply IH. Qed.
Lemma upd_nth_other {A} (l : list A) i j g d : i <> j -> nth j (upd l i g) d = nth j l d.
Proof. intros H. rewrite !nth_ne, upd_other by exact H. reflexivity. Qed.
Lemma upd_id {A} (l : list A) i g : (forall x, nth_error l i = Some x -> g x = x) -> upd l i g = l.
Proof. intros H. assert (E := upd_map (fun x => x) l i g H). rewrite !map_id in E. exact E. Qed.
Lemma upd_ge {A} (l : list A) i g : length l <= i -> upd l i g = l.
Proof. intros H. apply upd_id. intros x E. apply nth_error_None in H. congruence. Qed.

Section Chan.
Context {val : Type}.
Variable started : val.
Implicit Types (w : worker val) (p v : val).

(** what the main process knows about a channel: no job; job p put, trigger not yet set; job p under way *)
Inductive cst := CI | CP (p : val) | CB (p : val).
Definition empty3 w : Prop := mbuf w = [] /\ pipe w = [] /\ wbuf w = [].
Definition waiting w : Prop := pc w = WLoop \/ pc w = WWait.
Definition chan (c : cst) w : Prop :=
  if keep w then
    match c with
    | CI => trig w = false /\ empty3 w /\ waiting w
    | CP p => trig w = false /\ mbuf w ++ pipe w = [p] /\ wbuf w = [] /\ waiting w
    | CB p =>
        (trig w = true /\ mbuf w ++ pipe w = [p] /\ wbuf w = [] /\ (waiting w \/ pc w = WCheck \/ pc w = WGet)) \/
        (trig w = true /\ empty3 w /\ (pc w = WRun p \/ exists v, wfun w p = Some v /\ pc w = WPut v)) \/
        (exists v, wfun w p = Some v /\ mbuf w = [] /\ pipe w ++ wbuf w = [v] /\ ((trig w = true /\ pc w = WClear) \/ (trig w = false /\ waiting w))) \/
        (wfun w p = None /\ pc w = WDead /\ trig w = true /\ empty3 w)
    end
  else (waiting w \/ pc w = WCheck \/ pc w = WDead) /\ wbuf w = [] /\ match c with CI => mbuf w = [] /\ pipe w = [] | CP p | CB p => mbuf w ++ pipe w = [p] end.
Definition good w p v : Prop := if keep w then wfun w p = Some v else v = p.

Lemma single {A} (a b : list A) x : a ++ b = [x] -> (a = [x] /\ b = []) \/ (a = [] /\ b = [x]).
Proof. destruct a as [|y a]; cbn; intros H; [right; auto|]. injection H as -> E. apply app_eq_nil in E. destruct E; subst. left; auto. Qed.

Lemma chan_worker c w : chan c w -> chan c (worker_step started w).
Proof.
  unfold chan, empty3, waiting. destruct w as [f m k t mb pi wb q]. cbn. destruct k.
  - destruct c as [|p|p]; cbn.
    + intros (T & E & [W|W]); cbn in *; subst; cbn; unfold empty3, waiting in *; cbn; intuition.
    + intros (T & E & E' & [W|W]); cbn in *; subst; cbn; unfold empty3, waiting in *; cbn; intuition.
    + intros [(T & E & E' & W)|[(T & (E1 & E2 & E3) & [W|(v & F & W)])|[(v & F & E1 & E2 & [[T W]|[T W]])|(F & W & T & E)]]]; cbn in *; subst.
      * destruct W as [[W|W]|[W|W]]; subst; cbn; try (left; cbn; unfold waiting; cbn; intuition; fail).
        destruct (single _ _ _ E) as [[-> ->]|[-> ->]]; cbn; [left; cbn; intuition|]. right; left. cbn. unfold empty3. cbn. intuition.
      * cbn. destruct (f p) as [v|] eqn:F; cbn; [right; left; unfold empty3; cbn; intuition; right; exists v; intuition|]. right; right; right. cbn. unfold empty3; cbn. intuition.
      * cbn. right; right; left. exists v. cbn. intuition.
      * cbn. right; right; left. exists v. unfold waiting. cbn. intuition.
      * destruct W as [W|W]; cbn in W; subst; cbn; right; right; left; exists v; unfold waiting; cbn; intuition.
      * cbn. right; right; right. cbn. intuition.
  - intros ([[W|W]|[W|W]] & E & R); cbn in *; subst; cbn; unfold waiting; cbn; try (destruct t; cbn); rewrite ?andb_false_r; cbn; intuition.
Qed.
Lemma chan_feed_m c w : chan c w -> chan c (feed_m w).
Proof.
  unfold feed_m. destruct (mbuf w) as [|x q] eqn:EM; [auto|]. unfold chan. destruct w as [f m k t mb pi wb pcc]. cbn in *. subst mb. destruct k.
  - destruct c as [|p|p]; cbn; unfold empty3, waiting; cbn.
    + intros (_ & (A & _) & _). discriminate.
    + intros (T & E & E' & W). injection E as -> E. apply app_eq_nil in E. destruct E; subst. cbn. auto.
    + intros [(T & E & E' & W)|[(T & (E1 & _) & _)|[(v & F & E1 & _)|(F & W & T & (E & _))]]]; try discriminate. left. injection E as -> E. apply app_eq_nil in E. destruct E; subst. cbn. auto.
  - cbn. intros (W & E & R). split; [exact W|]. split; [exact E|]. destruct c; [destruct R; discriminate| |]; injection R as -> R; apply app_eq_nil in R; destruct R; subst; reflexivity.
Qed.
Lemma chan_feed_w c w : chan c w -> chan c (feed_w w).
Proof.
  unfold feed_w. destruct (wbuf w) as [|x q] eqn:EM; [auto|]. unfold chan. destruct w as [f m k t mb pi wb pcc]. cbn in *. subst wb. destruct k.
  - destruct c as [|p|p]; cbn; unfold empty3, waiting; cbn.
    + intros (_ & (_ & _ & A) & _). discriminate.
    + intros (T & E & E' & W). discriminate.
    + intros [(T & E & E' & W)|[(T & (_ & _ & E1) & _)|[(v & F & E1 & E2 & W)|(F & W & T & (_ & _ & E))]]]; try discriminate. right; right; left. exists v.
      split; [exact F|]. split; [exact E1|]. split; [rewrite <- app_assoc; exact E2|exact W].
  - cbn. intros (W & E & R). discriminate.
Qed.
Lemma chan_put p w : chan CI w -> chan (CP p) (set_mbuf (mbuf w ++ [p]) w).
Proof.
  unfold chan. destruct w as [f m k t mb pi wb q]. cbn. destruct k; cbn; unfold empty3, waiting; cbn.
  - intros (T & (-> & -> & ->) & W). cbn. auto.
  - intros (W & -> & (-> & ->)). cbn. auto.
Qed.
Lemma chan_set p w : chan (CP p) w -> chan (CB p) (set_trig true w).
Proof.
  unfold chan. destruct w as [f m k t mb pi wb q]. cbn. destruct k; cbn; unfold empty3, waiting; cbn; [|auto].
  intros (T & E & -> & W). left. auto.
Qed.
Lemma chan_get p w v q : chan (CB p) w -> trig w = false -> pipe w = v :: q -> chan CI (set_pipe q w) /\ good w p v.
Proof.
  unfold chan, good. destruct w as [f m k t mb pi wb pcc]. cbn. intros C T P. subst t pi. destruct k; cbn; unfold empty3, waiting in *; cbn in *.
  - destruct C as [(T & _)|[(T & _)|[(v' & F & E1 & E2 & W)|(F & W & T & _)]]]; try discriminate. injection E2 as -> E2. apply app_eq_nil in E2. destruct E2; subst.
    split; [|exact F]. destruct W as [[W _]|[_ W]]; [discriminate|]. auto.
  - destruct C as (W & -> & E). destruct (single _ _ _ E) as [[_ X]|[-> X]]; [discriminate|]. injection X as -> ->. auto.
Qed.
Lemma stat_worker w : wfun (worker_step started w) = wfun w /\ keep (worker_step started w) = keep w /\ wman (worker_step started w) = wman w.
Proof. destruct w as [f m k t mb pi wb q]. unfold worker_step. cbn. destruct q; cbn; try destruct k; try destruct t; try destruct pi; try destruct (f p); cbn; auto. Qed.
Lemma stat_feed_m w : wfun (feed_m w) = wfun w /\ keep (feed_m w) = keep w /\ wman (feed_m w) = wman w.
Proof. unfold feed_m. destruct (mbuf w); auto. Qed.
Lemma stat_feed_w w : wfun (feed_w w) = wfun w /\ keep (feed_w w) = keep w /\ wman (feed_w w) = wman w.
Proof. unfold feed_w. destruct (wbuf w); auto. Qed.
End Chan.
