(** json.dump and json.load are inverse, and no strict prefix of a dumped object loads (C54). *)
From Coq Require Import Reals Lra Ascii.
From Flocq Require Import Core.
From Verif Require Import Py M_Sum L_Polar M_Json SpecJson.
Local Open Scope Z_scope.

(** ** digits *)
Lemma digit_cases z : 0 <= z < 10 -> z = 0 \/ z = 1 \/ z = 2 \/ z = 3 \/ z = 4 \/ z = 5 \/ z = 6 \/ z = 7 \/ z = 8 \/ z = 9.
Proof. lia. Qed.
Lemma to_digit_ok z : 0 <= z < 10 -> is_digit (to_digit z) = true /\ digit (to_digit z) = z /\ (z <> 0 -> to_digit z <> "0"%char).
Proof. intros H. destruct (digit_cases z H) as [E|[E|[E|[E|[E|[E|[E|[E|[E|E]]]]]]]]]; subst z; (split; [reflexivity|split; [reflexivity|intros X Y; try discriminate; lia]]). Qed.
Lemma dec_acc ds : forall a, fold_left (fun a c => 10 * a + digit c) ds a = a * 10 ^ Z.of_nat (length ds) + dec ds.
Proof.
  unfold dec. induction ds as [|c tl IH]; intros a; cbn [fold_left length]; [change (Z.of_nat 0) with 0; lia|].
  rewrite (IH (10 * a + digit c)), (IH (10 * 0 + digit c)). rewrite Nat2Z.inj_succ, Z.pow_succ_r by lia. lia.
Qed.
Lemma dec_app a b : dec (a ++ b) = dec a * 10 ^ Z.of_nat (length b) + dec b.
Proof. unfold dec at 1. rewrite fold_left_app. apply dec_acc. Qed.
Lemma dec_cons c b : dec (c :: b) = digit c * 10 ^ Z.of_nat (length b) + dec b.
Proof. change (c :: b) with ([c] ++ b). rewrite dec_app. f_equal. Qed.
Lemma show_digits_ok fuel : forall z acc, 0 <= z < 2 ^ Z.of_nat fuel ->
  exists ds, show_digits fuel z acc = ds ++ acc /\ all_digits ds /\ dec ds = z /\ (fuel <> O -> plain_nat ds).
Proof.
  induction fuel as [|f IH]; intros z acc H.
  - exists []. cbn in H. replace z with 0 by lia. repeat split; [constructor|intros X; contradiction].
  - cbn [show_digits]. destruct (Z.ltb_spec z 10) as [L|L].
    + destruct (to_digit_ok z) as (A & B & C); [lia|]. exists [to_digit z]. split; [reflexivity|]. split; [constructor; [exact A|constructor]|]. split; [unfold dec; cbn [fold_left]; lia|].
      intros _. destruct (Z.eq_dec z 0) as [->|N]; [left; reflexivity|]. right. exists (to_digit z), []. split; [reflexivity|]. split; [apply C, N|]. split; [exact A|constructor].
    + assert (P : 2 ^ Z.of_nat (S f) = 2 * 2 ^ Z.of_nat f) by (rewrite Nat2Z.inj_succ, Z.pow_succ_r by lia; reflexivity).
      assert (D : 0 <= z / 10 < 2 ^ Z.of_nat f) by (split; [apply Z.div_pos; lia|apply Z.div_lt_upper_bound; lia]).
      destruct (IH (z / 10) (to_digit (z mod 10) :: acc) D) as (ds & E & A & V & PN). assert (M10 := Z.mod_pos_bound z 10 ltac:(lia)).
      destruct (to_digit_ok (z mod 10) M10) as (A1 & B1 & _). exists (ds ++ [to_digit (z mod 10)]). rewrite E. split; [rewrite <- app_assoc; reflexivity|].
      split; [apply Forall_app; split; [exact A|constructor; [exact A1|constructor]]|].
      split; [rewrite dec_app, V; unfold dec; cbn [fold_left length]; rewrite B1; change (10 ^ Z.of_nat 1) with 10; rewrite (Z_div_mod_eq_full z 10) at 3; lia|].
      intros _. destruct f as [|f]; [cbn in D; assert (0 < z / 10) by (apply Z.div_str_pos; lia); lia|]. specialize (PN ltac:(discriminate)).
      destruct PN as [->|(c & r & -> & N0 & DC & DR)].
      * exfalso. assert (0 < z / 10) by (apply Z.div_str_pos; lia). cbn in V. lia.
      * right. exists c, (r ++ [to_digit (z mod 10)]). split; [reflexivity|]. split; [exact N0|]. split; [exact DC|]. apply Forall_app. split; [exact DR|constructor; [exact A1|constructor]].
Qed.
Lemma show_nat_ok z : 0 <= z -> all_digits (show_nat z) /\ dec (show_nat z) = z /\ plain_nat (show_nat z).
Proof.
  intros H. unfold show_nat. destruct (show_digits_ok (S (Z.to_nat (Z.log2 z))) z []) as (ds & E & A & V & P).
  - split; [exact H|]. rewrite Nat2Z.inj_succ, Z2Nat.id by apply Z.log2_nonneg. destruct (Z.eq_dec z 0) as [->|N]; [cbn; lia|]. apply Z.log2_spec. lia.
  - rewrite E, app_nil_r. split; [exact A|split; [exact V|apply P; discriminate]].
Qed.

(** ** delimiters *)
Definition delim (c : ascii) : bool := is_ws c || Ascii.eqb c "," || Ascii.eqb c "]" || Ascii.eqb c "}".
Definition stops (r : text) : Prop := match r with [] => True | c :: _ => delim c = true end.
Lemma delim_cases c : delim c = true -> is_digit c = false /\ Ascii.eqb c "." = false /\ Ascii.eqb c "e" = false /\ Ascii.eqb c "E" = false.
Proof. destruct c as [[] [] [] [] [] [] [] []]; cbn; intros H; try discriminate; repeat split; reflexivity. Qed.
Lemma digit_chars c : is_digit c = true -> Ascii.eqb c "-" = false /\ Ascii.eqb c "+" = false /\ Ascii.eqb c "." = false /\ Ascii.eqb c "e" = false /\ Ascii.eqb c "E" = false /\
  Ascii.eqb c quote = false /\ Ascii.eqb c "[" = false /\ Ascii.eqb c "{" = false /\ Ascii.eqb c "]" = false /\ Ascii.eqb c "}" = false /\ is_ws c = false /\ Ascii.eqb "I" c = false.
Proof. destruct c as [[] [] [] [] [] [] [] []]; cbn; intros H; try discriminate; repeat split; reflexivity. Qed.

(** ** lexing the printed forms *)
Lemma span_app f ds rest : Forall (fun c => f c = true) ds -> (match rest with [] => True | c :: _ => f c = false end) -> span f (ds ++ rest) = (ds, rest).
Proof.
  intros D R. induction D as [|c tl H _ IH]; cbn [app span].
  - destruct rest as [|c r]; [reflexivity|]. cbn [span]. rewrite R. reflexivity.
  - rewrite H, IH. reflexivity.
Qed.
Definition no_digit (r : text) : Prop := match r with [] => True | c :: _ => is_digit c = false end.
Lemma stops_no_digit r : stops r -> no_digit r.
Proof. destruct r as [|c r]; [trivial|]. cbn. intros H. apply delim_cases in H. apply H. Qed.
Lemma lex_nat_plain ip rest : plain_nat ip -> no_digit rest -> lex_nat (ip ++ rest) = Some (ip, rest).
Proof.
  intros [->|(c & r & -> & N0 & D & A)] R; [reflexivity|]. cbn [app lex_nat]. replace (Ascii.eqb c "0") with false by (symmetry; apply Ascii.eqb_neq; exact N0).
  rewrite D, (span_app is_digit r rest A R). reflexivity.
Qed.
Lemma lex_frac_ok fp rest : all_digits fp -> no_digit rest -> (fp = [] -> match rest with [] => True | c :: _ => Ascii.eqb c "." = false end) ->
  lex_frac ((match fp with [] => [] | _ => txt "." ++ fp end) ++ rest) = (fp, rest).
Proof.
  intros A R H. destruct fp as [|c fp].
  - cbn [app]. destruct rest as [|c r]; [reflexivity|]. cbn [lex_frac]. rewrite (H eq_refl). reflexivity.
  - cbn [txt list_ascii_of_string app lex_frac]. change (Ascii.eqb "." ".") with true. cbv iota.
    change (c :: fp ++ rest) with ((c :: fp) ++ rest). rewrite (span_app is_digit (c :: fp) rest A R). reflexivity.
Qed.
Lemma exponent_head et e rest : exponent et e -> stops rest -> no_digit (et ++ rest) /\ match et ++ rest with [] => True | c :: _ => Ascii.eqb c "." = false end.
Proof.
  intros E S. destruct E as [|m sg ds e M N D X].
  - cbn [app]. split; [apply stops_no_digit, S|]. destruct rest as [|c r]; [trivial|]. cbn in S. apply delim_cases in S. apply S.
  - cbn [app no_digit]. destruct M as [-> | ->]; split; reflexivity.
Qed.
Lemma lex_exp_ok et e rest : exponent et e -> stops rest ->
  lex_exp (et ++ rest) = (match et with [] => None | _ => Some e end, rest) /\ (et = [] -> e = 0).
Proof.
  intros E S. destruct E as [|m sg ds e M N D X].
  - split; [|reflexivity]. cbn [app]. destruct rest as [|c r]; [reflexivity|]. cbn [lex_exp]. cbn in S. destruct (delim_cases c S) as (_ & _ & -> & ->). reflexivity.
  - split; [|discriminate]. cbn [app lex_exp]. replace (Ascii.eqb m "e" || Ascii.eqb m "E") with true by (destruct M as [-> | ->]; reflexivity).
    rewrite <- app_assoc. pose proof (stops_no_digit rest S) as ND. destruct ds as [|d ds]; [contradiction|].
    assert (DH : is_digit d = true) by (inversion D; assumption). destruct (digit_chars d DH) as (D1 & D2 & _).
    destruct X as [[-> ->]|[[-> ->]|[-> ->]]]; cbn [txt list_ascii_of_string app lex_sign].
    + rewrite D1, D2. change (d :: ds ++ rest) with ((d :: ds) ++ rest). rewrite (span_app is_digit (d :: ds) rest D ND). reflexivity.
    + change (Ascii.eqb "+" "-") with false. change (Ascii.eqb "+" "+") with true. cbv iota. change (d :: ds ++ rest) with ((d :: ds) ++ rest). rewrite (span_app is_digit (d :: ds) rest D ND). reflexivity.
    + change (Ascii.eqb "-" "-") with true. cbv iota. change (d :: ds ++ rest) with ((d :: ds) ++ rest). rewrite (span_app is_digit (d :: ds) rest D ND). reflexivity.
Qed.
Lemma lex_float neg ip fp et e rest : plain_nat ip -> all_digits fp -> exponent et e -> (fp <> [] \/ et <> []) -> stops rest ->
  lex_number neg (ip ++ (match fp with [] => [] | _ => txt "." ++ fp end) ++ et ++ rest) = Some (JFloat (Fin (b64 (decimal neg ip fp e))), rest).
Proof.
  intros P A E NE S. destruct (exponent_head et e rest E S) as (H1 & H2). destruct (lex_exp_ok et e rest E S) as (X & X0). unfold lex_number.
  rewrite lex_nat_plain; [|exact P|].
  - rewrite lex_frac_ok; [|exact A|exact H1|intros _; exact H2]. rewrite X. destruct fp as [|c fp].
    + destruct et as [|m et]; [destruct NE; contradiction|]. reflexivity.
    + destruct et as [|m et]; [rewrite (X0 eq_refl); reflexivity|reflexivity].
  - destruct fp as [|c fp]; [cbn [app]; exact H1|reflexivity].
Qed.
Lemma lex_int neg ip rest : plain_nat ip -> stops rest -> lex_number neg (ip ++ rest) = Some (JInt (signed neg (dec ip)), rest).
Proof.
  intros P S. unfold lex_number. rewrite (lex_nat_plain ip rest P (stops_no_digit rest S)).
  pose proof (lex_frac_ok [] rest ltac:(constructor) (stops_no_digit rest S)) as F. cbn [app] in F. rewrite F.
  - destruct (lex_exp_ok [] 0 rest exp_none S) as (X & _). cbn [app] in X. rewrite X. reflexivity.
  - intros _. destruct rest as [|c r]; [trivial|]. apply (delim_cases c S).
Qed.
Lemma plain_head ip : plain_nat ip -> exists c r, ip = c :: r /\ is_digit c = true.
Proof. intros [->|(c & r & -> & _ & D & _)]; eexists; eexists; (split; [reflexivity|]); [reflexivity|exact D]. Qed.
Lemma scalar_number neg ip t v r : plain_nat ip -> lex_number neg (ip ++ t) = Some (v, r) -> lex_scalar ((if neg then txt "-" else []) ++ ip ++ t) = Some (v, r).
Proof.
  intros P L. destruct (plain_head ip P) as (c & r0 & -> & D). destruct (digit_chars c D) as (D1 & _ & _ & _ & _ & _ & _ & _ & _ & _ & _ & DI). destruct neg.
  - cbn [txt list_ascii_of_string app lex_scalar]. change (Ascii.eqb "-" "-") with true. cbv iota. cbn [strip]. rewrite DI. exact L.
  - cbn [app lex_scalar]. rewrite D1, D. exact L.
Qed.
(** a scalar, not a string: parse hands it to lex_scalar *)
Lemma parse_scalar f s v r : lex_scalar s = Some (v, r) -> match s with [] => False | c :: _ => Ascii.eqb c quote = false /\ Ascii.eqb c "[" = false /\ Ascii.eqb c "{" = false end ->
  (1 <= f)%nat -> parse f s = Some (v, r).
Proof. intros L H F. destruct s as [|c s]; [contradiction|]. destruct H as (H1 & H2 & H3). destruct f as [|f]; [lia|]. cbn [parse]. rewrite H1, H2, H3. exact L. Qed.
Lemma number_head (neg : bool) ip t : plain_nat ip -> match (if neg then txt "-" else []) ++ ip ++ t with [] => False | c :: _ => Ascii.eqb c quote = false /\ Ascii.eqb c "[" = false /\ Ascii.eqb c "{" = false end.
Proof.
  intros P. destruct (plain_head ip P) as (c & r0 & -> & D). destruct (digit_chars c D) as (_ & _ & _ & _ & _ & Q & B & C & _).
  destruct neg; cbn [txt list_ascii_of_string app]; [repeat split; reflexivity|repeat split; assumption].
Qed.
Lemma parse_int f z rest : stops rest -> (1 <= f)%nat -> parse f (show_int z ++ rest) = Some (JInt z, rest).
Proof.
  intros S F. assert (X : exists (neg : bool) (ip : text), show_int z = (if neg then txt "-" else []) ++ ip /\ plain_nat ip /\ signed neg (dec ip) = z).
  { unfold show_int. destruct (Z.ltb_spec z 0) as [L|L].
    - destruct (show_nat_ok (- z)) as (_ & V & P); [lia|]. exists true, (show_nat (- z)). split; [reflexivity|]. split; [exact P|]. unfold signed. lia.
    - destruct (show_nat_ok z) as (_ & V & P); [lia|]. exists false, (show_nat z). split; [reflexivity|]. split; [exact P|]. unfold signed. lia. }
  destruct X as (neg & ip & -> & P & <-). rewrite <- app_assoc. apply parse_scalar; [|apply number_head, P|exact F]. apply scalar_number; [exact P|]. apply lex_int; assumption.
Qed.
Lemma parse_float f s x rest : float_text s x -> stops rest -> (1 <= f)%nat -> parse f (s ++ rest) = Some (JFloat (Fin x), rest).
Proof.
  intros (neg & ip & fp & et & e & -> & P & A & E & NE & ->) S F. rewrite <- !app_assoc. apply parse_scalar; [|apply number_head, P|exact F].
  apply scalar_number; [exact P|]. apply lex_float; assumption.
Qed.
Lemma scan_str_plain k rest : Forall plain_char k -> scan_str (k ++ quote :: rest) = Some (k, rest).
Proof.
  intros P. induction P as [|c tl (N & G & B) _ IH]; [reflexivity|]. cbn [app scan_str]. replace (Ascii.eqb c quote) with false by (symmetry; apply Ascii.eqb_neq; exact N).
  replace ((code c <? 32) || (code c =? 92)) with false by lia. rewrite IH. reflexivity.
Qed.

(** ** round trip *)
Fixpoint vsize (v : jval) : nat :=
  match v with
  | JArr l => S ((fix go l := match l with [] => O | x :: tl => S (vsize x + go tl) end) l)
  | JObj l => S ((fix go l := match l with [] => O | (_, x) :: tl => S (vsize x + go tl) end) l)
  | _ => 1
  end%nat.
Definition vsizes (l : list jval) : nat := (fix go l := match l with [] => O | x :: tl => S (vsize x + go tl) end) l.
Definition msizes (l : list (text * jval)) : nat := (fix go l := match l with [] => O | (_, x) :: tl => S (vsize x + go tl) end) l.
Definition printables (fr : R -> text) (l : list jval) : Prop := (fix all l := match l with [] => True | x :: tl => printable fr x /\ all tl end) l.
Definition mprintables (fr : R -> text) (l : list (text * jval)) : Prop :=
  (fix all l := match l with [] => True | (k, x) :: tl => (Forall plain_char k /\ printable fr x) /\ all tl end) l.
Definition good_head (s : text) : Prop := match s with [] => False | c :: _ => is_ws c = false /\ Ascii.eqb c "]" = false /\ Ascii.eqb c "}" = false end.
Lemma show_int_head z t : good_head (show_int z ++ t).
Proof.
  unfold show_int. destruct (Z.ltb_spec z 0) as [L|L]; [repeat split; reflexivity|]. destruct (show_nat_ok z L) as (_ & _ & P). destruct (plain_head _ P) as (c & r & -> & D).
  destruct (digit_chars c D) as (_ & _ & _ & _ & _ & _ & _ & _ & X & Y & W & _). cbn. auto.
Qed.
Lemma dump_head fr v t : printable fr v -> good_head (dump fr v ++ t).
Proof.
  intros P. destruct v as [z|x|s|l|l| |b]; try (repeat split; reflexivity).
  - apply show_int_head.
  - destruct x as [x| |n]; [|repeat split; reflexivity|destruct n; repeat split; reflexivity]. destruct P as (neg & ip & fp & et & e & E & P & _). cbn [dump show_float]. rewrite E. rewrite <- !app_assoc.
    destruct (plain_head ip P) as (c & r & -> & D). destruct (digit_chars c D) as (_ & _ & _ & _ & _ & _ & _ & _ & X & Y & W & _). destruct neg; cbn; auto.
  - destruct b; repeat split; reflexivity.
Qed.
Lemma ws_good s : good_head s -> ws s = s.
Proof. destruct s as [|c s]; [contradiction|]. intros (W & _). cbn [ws]. rewrite W. reflexivity. Qed.
Lemma join_cons x y tl : join (x :: y :: tl) = x ++ txt ", " ++ join (y :: tl).
Proof. reflexivity. Qed.

Lemma round_trip fr : forall f, 
  (forall v rest, (vsize v <= f)%nat -> printable fr v -> stops rest -> parse f (dump fr v ++ rest) = Some (v, rest)) /\
  (forall l rest, (vsizes l <= f)%nat -> l <> [] -> printables fr l -> elements f (join (map (dump fr) l) ++ txt "]" ++ rest) = Some (l, rest)) /\
  (forall l rest, (msizes l <= f)%nat -> l <> [] -> mprintables fr l -> members f (join (map (fun kv => show_str (fst kv) ++ txt ": " ++ dump fr (snd kv)) l) ++ txt "}" ++ rest) = Some (l, rest)).
Proof.
  induction f as [|f (IHv & IHe & IHm)].
  - split; [|split].
    + intros v rest H. destruct v; cbn in H; lia.
    + intros [|x l] rest H N; [contradiction|cbn in H; lia].
    + intros [|[k x] l] rest H N; [contradiction|cbn in H; lia].
  - split; [|split].
    + intros v rest H P S. destruct v as [z|x|s|l|l| |b].
      * apply parse_int; [exact S|lia].
      * destruct x as [x| |n]; [apply parse_float; [exact P|exact S|lia]|reflexivity|destruct n; reflexivity].
      * cbn [dump show_str app parse]. change (Ascii.eqb quote quote) with true. cbv iota. rewrite <- app_assoc. cbn [app]. rewrite (scan_str_plain s rest P). reflexivity.
      * cbn [dump]. cbn [txt list_ascii_of_string app parse]. change (Ascii.eqb "[" quote) with false. change (Ascii.eqb "[" "[") with true. cbv iota.
        destruct l as [|x l]; [reflexivity|]. set (L := x :: l) in *. rewrite <- app_assoc.
        assert (HD : good_head (join (map (dump fr) L) ++ ["]"%char] ++ rest)).
        { unfold L. cbn [map]. assert (PX : printable fr x) by apply P. destruct l as [|y l]; [cbn [map join]; apply dump_head, PX|]. cbn [map]. rewrite join_cons, <- !app_assoc. apply dump_head, PX. }
        rewrite (ws_good _ HD). destruct (join (map (dump fr) L) ++ ["]"%char] ++ rest) as [|d r'] eqn:E; [contradiction|]. destruct HD as (_ & HD & _). rewrite HD.
        rewrite <- E. change ["]"%char] with (txt "]"). rewrite IHe; [reflexivity|change (vsize (JArr L)) with (Datatypes.S (vsizes L)) in H; lia|discriminate|exact P].
      * cbn [dump]. cbn [txt list_ascii_of_string app parse]. change (Ascii.eqb "{" quote) with false. change (Ascii.eqb "{" "[") with false. change (Ascii.eqb "{" "{") with true. cbv iota.
        destruct l as [|[k x] l]; [reflexivity|]. set (L := (k, x) :: l) in *. rewrite <- app_assoc.
        set (pr := fun kv : text * jval => show_str (fst kv) ++ ":"%char :: " "%char :: dump fr (snd kv)).
        assert (HD : good_head (join (map pr L) ++ ["}"%char] ++ rest)).
        { unfold L. cbn [map]. destruct l as [|y l]; cbn [map]; [|rewrite join_cons]; repeat split; reflexivity. }
        rewrite (ws_good _ HD). destruct (join (map pr L) ++ ["}"%char] ++ rest) as [|d r'] eqn:E; [contradiction|]. destruct HD as (_ & _ & HD). rewrite HD.
        rewrite <- E. change ["}"%char] with (txt "}"). change pr with (fun kv : text * jval => show_str (fst kv) ++ txt ": " ++ dump fr (snd kv)).
        rewrite IHm; [reflexivity|change (vsize (JObj L)) with (Datatypes.S (msizes L)) in H; lia|discriminate|exact P].
      * reflexivity.
      * destruct b; reflexivity.
    + intros [|x l] rest H N P; [contradiction|]. cbn [elements map]. change (vsizes (x :: l)) with (S (vsize x + vsizes l)) in H. destruct P as [PX PL].
      destruct l as [|y l].
      * cbn [map join]. rewrite (IHv x (txt "]" ++ rest)); [reflexivity|lia|exact PX|reflexivity].
      * cbn [map]. rewrite join_cons, <- !app_assoc. rewrite (IHv x); [|lia|exact PX|reflexivity]. cbn [txt list_ascii_of_string app ws]. change (is_ws ",") with false. cbv iota.
        change (Ascii.eqb "," "]") with false. change (Ascii.eqb "," ",") with true. cbv iota. cbn [ws]. change (is_ws " ") with true. cbv iota.
        assert (HD : good_head (join (dump fr y :: map (dump fr) l) ++ "]"%char :: rest)).
        { destruct PL as [PY _]. destruct l as [|w l]; [cbn [map join]; apply dump_head, PY|]. cbn [map]. rewrite join_cons, <- !app_assoc. apply dump_head, PY. }
        rewrite (ws_good _ HD). change (join (dump fr y :: map (dump fr) l) ++ "]"%char :: rest) with (join (map (dump fr) (y :: l)) ++ txt "]" ++ rest).
        rewrite (IHe (y :: l) rest); [reflexivity|lia|discriminate|exact PL].
    + intros [|[k x] l] rest H N P; [contradiction|]. change (msizes ((k, x) :: l)) with (S (vsize x + msizes l)) in H. destruct P as [[PK PX] PL].
      set (pr := fun kv : text * jval => show_str (fst kv) ++ txt ": " ++ dump fr (snd kv)).
      assert (G : forall t, (match ws t with d :: r' => if Ascii.eqb d "}" then Some ([(k, x)], r') else if Ascii.eqb d "," then match members f (ws r') with Some (l, r2) => Some ((k, x) :: l, r2) | None => None end else None | [] => None end)
                = Some ((k, x) :: l, rest) -> stops t -> members (S f) (pr (k, x) ++ t) = Some ((k, x) :: l, rest)).
      { intros t HT ST. unfold pr. cbn [fst snd show_str app members]. change (Ascii.eqb quote quote) with true. cbv iota. rewrite <- !app_assoc. cbn [app].
        rewrite (scan_str_plain k _ PK). cbn [txt list_ascii_of_string app ws]. change (is_ws ":") with false. cbv iota. change (Ascii.eqb ":" ":") with true. cbv iota.
        cbn [ws]. change (is_ws " ") with true. cbv iota. rewrite (ws_good (dump fr x ++ t) (dump_head fr x t PX)). rewrite (IHv x t); [exact HT|lia|exact PX|exact ST]. }
      destruct l as [|y l].
      * cbn [map join]. apply G; reflexivity.
      * cbn [map]. rewrite join_cons, <- !app_assoc. apply G; [|reflexivity]. cbn [txt list_ascii_of_string app ws]. change (is_ws ",") with false. cbv iota.
        change (Ascii.eqb "," "}") with false. change (Ascii.eqb "," ",") with true. cbv iota. cbn [ws]. change (is_ws " ") with true. cbv iota.
        assert (HD : good_head (join (pr y :: map pr l) ++ "}"%char :: rest)) by (destruct l as [|w l]; cbn [map]; [|rewrite join_cons]; repeat split; reflexivity).
        match goal with |- context [ws ?a] => change a with (join (pr y :: map pr l) ++ "}"%char :: rest) end.
        rewrite (ws_good _ HD).
        match goal with |- context [members f ?a] => replace (members f a) with (Some (y :: l, rest)) by (symmetry; apply (IHm (y :: l) rest); [lia|discriminate|exact PL]) end.
        reflexivity.
Qed.
(** the length of the text is enough fuel *)
Lemma good_len s : good_head s -> (1 <= length s)%nat.
Proof. destruct s; [contradiction|cbn; lia]. Qed.
Lemma size_len fr : forall n v, (vsize v <= n)%nat -> printable fr v -> (vsize v <= length (dump fr v))%nat.
Proof.
  induction n as [|n IH]; intros v H P; [destruct v; cbn in H; lia|].
  assert (B : (1 <= length (dump fr v))%nat) by (pose proof (dump_head fr v [] P) as G; rewrite app_nil_r in G; apply good_len, G).
  destruct v as [z|x|s|l|l| |b]; try exact B.
  - assert (L : forall l, (vsizes l <= n)%nat -> printables fr l -> (vsizes l <= length (join (map (dump fr) l)) + 1)%nat).
    { clear H P B l. induction l as [|x tl IHl]; intros H P; [cbn; lia|]. change (vsizes (x :: tl)) with (S (vsize x + vsizes tl)) in *. destruct P as [PX PT].
      pose proof (IH x ltac:(lia) PX). specialize (IHl ltac:(lia) PT). destruct tl as [|y tl]; [change (vsizes []) with O; cbn [map join]; lia|].
      cbn [map]. rewrite join_cons, !app_length. cbn [map] in IHl. change (length (txt ", ")) with 2%nat. lia. }
    change (vsize (JArr l)) with (S (vsizes l)) in *. pose proof (L l ltac:(lia) P). cbn [dump]. rewrite !app_length. change (length (txt "[")) with 1%nat. change (length (txt "]")) with 1%nat. lia.
  - set (pr := fun kv : text * jval => show_str (fst kv) ++ txt ": " ++ dump fr (snd kv)).
    assert (PRL : forall k x, (length (dump fr x) <= length (pr (k, x)))%nat) by (intros; unfold pr; cbn [fst snd]; rewrite !app_length; lia).
    assert (L : forall l, (msizes l <= n)%nat -> mprintables fr l -> (msizes l <= length (join (map pr l)) + 1)%nat).
    { clearbody pr. clear H P B l. induction l as [|[k x] tl IHl]; intros H P; [cbn; lia|]. change (msizes ((k, x) :: tl)) with (S (vsize x + msizes tl)) in *. destruct P as [[_ PX] PT].
      pose proof (IH x ltac:(lia) PX). specialize (IHl ltac:(lia) PT).
      pose proof (PRL k x).
      destruct tl as [|y tl]; [change (msizes []) with O; cbn [map join]; lia|].
      cbn [map]. rewrite join_cons, !app_length. cbn [map] in IHl. change (length (txt ", ")) with 2%nat. unfold text in *. lia. }
    change (vsize (JObj l)) with (S (msizes l)) in *. pose proof (L l ltac:(lia) P) as X. unfold pr in X. cbn [dump]. rewrite !app_length. change (length (txt "{")) with 1%nat. change (length (txt "}")) with 1%nat. lia.
Qed.
Lemma load_dump fr v : printable fr v -> load (dump fr v) = Ok v.
Proof.
  intros P. pose proof (dump_head fr v [] P) as G. rewrite app_nil_r in G. unfold load. rewrite (ws_good _ G).
  destruct (round_trip fr (length (dump fr v))) as (RT & _). specialize (RT v [] (size_len fr _ v (le_n _) P) P Logic.I). rewrite app_nil_r in RT. rewrite RT. reflexivity.
Qed.

(** ** what a successful parse says about longer texts *)
Lemma span_ext f s q : forall a b, span f s = (a, b) -> b <> [] -> span f (s ++ q) = (a, b ++ q).
Proof.
  induction s as [|c s IH]; intros a b E N; cbn [span] in E; [injection E as <- <-; contradiction|]. cbn [app span]. destruct (f c).
  - destruct (span f s) as [a' b'] eqn:ES. injection E as <- <-. rewrite (IH a' b' eq_refl N). reflexivity.
  - injection E as <- <-. reflexivity.
Qed.
Lemma ws_ext s q : forall d r, ws s = d :: r -> ws (s ++ q) = d :: r ++ q.
Proof. induction s as [|c s IH]; intros d r E; cbn [ws] in E; [discriminate|]. cbn [app ws]. destruct (is_ws c); [apply IH, E|]. injection E as <- <-. reflexivity. Qed.
Lemma ws_head s d r : ws s = d :: r -> exists c t, s = c :: t /\ (is_ws c = true \/ c = d).
Proof. destruct s as [|c s]; cbn [ws]; [discriminate|]. intros E. exists c, s. split; [reflexivity|]. destruct (is_ws c) eqn:W; [left; reflexivity|]. injection E as <- _. right; reflexivity. Qed.
Definition stopped (r : text) : Prop := match r with [] => False | c :: _ => delim c = true end.
Lemma lex_exp_ext s q e r : lex_exp s = (e, r) -> stopped r -> lex_exp (s ++ q) = (e, r ++ q).
Proof.
  intros E S. destruct s as [|c s]; cbn [lex_exp] in E; [injection E as <- <-; contradiction|]. cbn [app lex_exp].
  destruct (Ascii.eqb c "e" || Ascii.eqb c "E") eqn:EC.
  - assert (ND : delim c = false).
    { destruct (delim c) eqn:DC; [|reflexivity]. destruct (delim_cases c DC) as (_ & _ & X & Y). rewrite X, Y in EC. discriminate. }
    assert (G : forall (neg : bool) r', (match span is_digit r' with ([], _) => (None, c :: s) | (ds, b) => (Some (if neg then - dec ds else dec ds), b) end) = (e, r) ->
      (match span is_digit (r' ++ q) with ([], _) => (None, (c :: s) ++ q) | (ds, b) => (Some (if neg then - dec ds else dec ds), b) end) = (e, r ++ q)).
    { intros neg r' X. destruct (span is_digit r') as [ds b] eqn:ES. destruct ds as [|d ds]; [injection X as <- <-; cbn in S; congruence|]. injection X as <- <-.
      rewrite (span_ext is_digit r' q (d :: ds) b ES); [reflexivity|]. intros ->. contradiction. }
    destruct s as [|c1 s1].
    + cbn [lex_sign span] in E. injection E as <- <-. cbn in S. congruence.
    + cbn [app]. cbn [lex_sign] in *. destruct (Ascii.eqb c1 "-"); [apply (G true), E|]. destruct (Ascii.eqb c1 "+"); [apply (G false), E|]. apply (G false (c1 :: s1)), E.
  - injection E as <- <-. reflexivity.
Qed.
Lemma lex_exp_stopped s e r : lex_exp s = (e, r) -> stopped r -> s <> [] /\ match s with [] => True | c :: _ => Ascii.eqb c "." = false end.
Proof.
  intros E S. destruct s as [|c s]; cbn [lex_exp] in E; [injection E as <- <-; contradiction|]. split; [discriminate|].
  destruct (Ascii.eqb c ".") eqn:D; [|reflexivity]. apply Ascii.eqb_eq in D. subst c. cbn in E. injection E as <- <-. cbn in S. discriminate.
Qed.
Lemma lex_frac_ext s q fp r : lex_frac s = (fp, r) -> r <> [] -> match r with [] => True | c :: _ => Ascii.eqb c "." = false end -> lex_frac (s ++ q) = (fp, r ++ q).
Proof.
  intros E N D. destruct s as [|c s]; cbn [lex_frac] in E; [injection E as <- <-; contradiction|]. cbn [app lex_frac]. destruct (Ascii.eqb c ".") eqn:EC.
  - destruct (span is_digit s) as [ds b] eqn:ES. destruct ds as [|d ds]; [injection E as <- <-; congruence|]. injection E as <- <-. rewrite (span_ext is_digit s q (d :: ds) b ES N). reflexivity.
  - injection E as <- <-. reflexivity.
Qed.
Lemma lex_frac_suffix s fp r : lex_frac s = (fp, r) -> r <> [] -> s <> [].
Proof. intros E N ->. cbn in E. injection E as <- <-. contradiction. Qed.
Lemma lex_number_ext neg s q v r : lex_number neg s = Some (v, r) -> stopped r -> lex_number neg (s ++ q) = Some (v, r ++ q).
Proof.
  unfold lex_number. intros E S. destruct (lex_nat s) as [[ip r0]|] eqn:E0; [|discriminate]. destruct (lex_frac r0) as [fp r1] eqn:E1. destruct (lex_exp r1) as [e r2] eqn:E2.
  injection E as <- <-. destruct (lex_exp_stopped r1 e r2 E2 S) as (N1 & D1). assert (N0 := lex_frac_suffix r0 fp r1 E1 N1).
  assert (X : lex_nat (s ++ q) = Some (ip, r0 ++ q)).
  { destruct s as [|c s]; [discriminate|]. cbn [app]. cbn [lex_nat] in *. destruct (Ascii.eqb c "0"); [injection E0 as <- <-; reflexivity|]. destruct (is_digit c); [|discriminate].
    destruct (span is_digit s) as [a b] eqn:ES. injection E0 as <- <-. rewrite (span_ext is_digit s q a b ES N0). reflexivity. }
  rewrite X, (lex_frac_ext r0 q fp r1 E1 N1 D1), (lex_exp_ext r1 q e r2 E2 S). reflexivity.
Qed.
Lemma strip_some p s r : strip p s = Some r -> s = p ++ r.
Proof. revert s. induction p as [|a p IH]; intros s E; cbn [strip] in E; [injection E as <-; reflexivity|]. destruct s as [|b s]; [discriminate|]. destruct (Ascii.eqb a b) eqn:AB; [|discriminate]. apply Ascii.eqb_eq in AB. subst b. cbn [app]. f_equal. apply IH, E. Qed.
Lemma strip_app p s : strip p (p ++ s) = Some s.
Proof. induction p as [|a p IH]; [reflexivity|]. cbn [app strip]. rewrite Ascii.eqb_refl. exact IH. Qed.
Lemma lex_constant_ext s q v r : lex_constant constants s = Some (v, r) -> lex_constant constants (s ++ q) = Some (v, r ++ q).
Proof.
  unfold constants. cbn [lex_constant]. intros E.
  repeat match type of E with
  | (match strip ?t ?x with Some _ => _ | None => _ end) = _ => let ES := fresh "ES" in destruct (strip t x) eqn:ES; [injection E as <- <-; apply strip_some in ES; subst s; reflexivity|clear ES]
  end. discriminate.
Qed.
Lemma lex_scalar_ext s q v r : lex_scalar s = Some (v, r) -> stopped r -> lex_scalar (s ++ q) = Some (v, r ++ q).
Proof.
  intros E S. destruct s as [|c s]; [discriminate|]. cbn [app]. cbn [lex_scalar] in *. destruct (Ascii.eqb c "-").
  - destruct (strip (txt "Infinity") s) as [r'|] eqn:ES.
    + injection E as <- <-. apply strip_some in ES. subst s. rewrite <- app_assoc, strip_app. reflexivity.
    + assert (X : strip (txt "Infinity") (s ++ q) = None).
      { destruct s as [|d s]; [discriminate|]. unfold lex_number in E. destruct (lex_nat (d :: s)) as [[ip r0]|] eqn:E0; [|discriminate]. cbn [lex_nat] in E0.
        assert (D : is_digit d = true) by (destruct (Ascii.eqb d "0") eqn:DZ; [apply Ascii.eqb_eq in DZ; subst d; reflexivity|]; destruct (is_digit d); [reflexivity|discriminate]).
        destruct (digit_chars d D) as (_ & _ & _ & _ & _ & _ & _ & _ & _ & _ & _ & DI). cbn [txt list_ascii_of_string app strip]. rewrite DI. reflexivity. }
      rewrite X. apply lex_number_ext; assumption.
  - destruct (is_digit c); [apply (lex_number_ext false (c :: s)); assumption|]. apply (lex_constant_ext (c :: s) q v r E).
Qed.
Lemma scan_str_ext s q k r : scan_str s = Some (k, r) -> scan_str (s ++ q) = Some (k, r ++ q).
Proof.
  revert k r. induction s as [|c s IH]; intros k r E; cbn [scan_str] in E; [discriminate|]. cbn [app scan_str]. destruct (Ascii.eqb c quote); [injection E as <- <-; reflexivity|].
  destruct (_ || _); [discriminate|]. destruct (scan_str s) as [[k' r']|]; [|discriminate]. injection E as <- <-. rewrite (IH k' r' eq_refl). reflexivity.
Qed.
(** strings, lists and dictionaries announce their end *)
Definition closed_head (s : text) : Prop := match s with [] => False | c :: _ => Ascii.eqb c quote = true \/ Ascii.eqb c "[" = true \/ Ascii.eqb c "{" = true end.
Lemma after_ws r d r' : ws r = d :: r' -> delim d = true -> stopped r.
Proof. intros E D. destruct (ws_head r d r' E) as (c & t & -> & [W | ->]); cbn; [|exact D]. unfold delim. rewrite W. reflexivity. Qed.
Lemma parse_ext : forall f,
  (forall s v r q f', parse f s = Some (v, r) -> (f <= f')%nat -> closed_head s \/ stopped r -> parse f' (s ++ q) = Some (v, r ++ q)) /\
  (forall s l r q f', elements f s = Some (l, r) -> (f <= f')%nat -> elements f' (s ++ q) = Some (l, r ++ q)) /\
  (forall s l r q f', members f s = Some (l, r) -> (f <= f')%nat -> members f' (s ++ q) = Some (l, r ++ q)).
Proof.
  induction f as [|f (IHv & IHe & IHm)]; [repeat split; intros; discriminate|]. split; [|split].
  - intros s v r q f' E F C. destruct f' as [|f']; [lia|]. destruct s as [|c s]; [discriminate|]. cbn [app]. cbn [parse] in *.
    destruct (Ascii.eqb c quote) eqn:C1.
    { destruct (scan_str s) as [[k r']|] eqn:ES; [|discriminate]. injection E as <- <-. rewrite (scan_str_ext s q k r' ES). reflexivity. }
    destruct (Ascii.eqb c "[") eqn:C2.
    { destruct (ws s) as [|d r'] eqn:EW; [discriminate|]. rewrite (ws_ext s q d r' EW). destruct (Ascii.eqb d "]"); [injection E as <- <-; reflexivity|].
      destruct (elements f (d :: r')) as [[l r2]|] eqn:EE; [|discriminate]. injection E as <- <-. change (d :: r' ++ q) with ((d :: r') ++ q). rewrite (IHe _ l r2 q f' EE) by lia. reflexivity. }
    destruct (Ascii.eqb c "{") eqn:C3.
    { destruct (ws s) as [|d r'] eqn:EW; [discriminate|]. rewrite (ws_ext s q d r' EW). destruct (Ascii.eqb d "}"); [injection E as <- <-; reflexivity|].
      destruct (members f (d :: r')) as [[l r2]|] eqn:EE; [|discriminate]. injection E as <- <-. change (d :: r' ++ q) with ((d :: r') ++ q). rewrite (IHm _ l r2 q f' EE) by lia. reflexivity. }
    destruct C as [C|C]; [unfold closed_head in C; rewrite C1, C2, C3 in C; destruct C as [C|[C|C]]; discriminate|]. apply (lex_scalar_ext (c :: s) q v r E C).
  - intros s l r q f' E F. destruct f' as [|f']; [lia|]. cbn [elements] in *. destruct (parse f s) as [[v r0]|] eqn:EP; [|discriminate]. destruct (ws r0) as [|d r'] eqn:EW; [discriminate|].
    destruct (Ascii.eqb d "]") eqn:D1.
    + apply Ascii.eqb_eq in D1. subst d. injection E as <- <-. rewrite (IHv s v r0 q f' EP) by (try lia; right; apply (after_ws r0 _ r' EW); reflexivity). rewrite (ws_ext r0 q _ r' EW). reflexivity.
    + destruct (Ascii.eqb d ",") eqn:D2; [|discriminate]. pose proof D2 as D3. apply Ascii.eqb_eq in D3. subst d.
      rewrite (IHv s v r0 q f' EP) by (try lia; right; apply (after_ws r0 _ r' EW); reflexivity). rewrite (ws_ext r0 q _ r' EW), D1, D2.
      destruct (elements f (ws r')) as [[l' r2]|] eqn:EE; [|discriminate]. injection E as <- <-.
      destruct (ws r') as [|d2 r3] eqn:EW2; [destruct f as [|f]; [discriminate|cbn [elements] in EE; destruct f; discriminate]|]. rewrite (ws_ext r' q d2 r3 EW2).
      change (d2 :: r3 ++ q) with ((d2 :: r3) ++ q). rewrite (IHe _ l' r2 q f' EE) by lia. reflexivity.
  - intros s l r q f' E F. destruct f' as [|f']; [lia|]. destruct s as [|c s]; [discriminate|]. cbn [app]. cbn [members] in *. destruct (Ascii.eqb c quote); [|discriminate].
    destruct (scan_str s) as [[k r1]|] eqn:ES; [|discriminate]. rewrite (scan_str_ext s q k r1 ES). destruct (ws r1) as [|col r2] eqn:EW1; [discriminate|]. rewrite (ws_ext r1 q col r2 EW1).
    destruct (Ascii.eqb col ":"); [|discriminate]. destruct (parse f (ws r2)) as [[v r0]|] eqn:EP; [|discriminate].
    destruct (ws r2) as [|c2 r2'] eqn:EW2; [destruct f; discriminate|]. rewrite (ws_ext r2 q c2 r2' EW2). change (c2 :: r2' ++ q) with ((c2 :: r2') ++ q).
    destruct (ws r0) as [|d r'] eqn:EW; [discriminate|]. destruct (Ascii.eqb d "}") eqn:D1.
    + apply Ascii.eqb_eq in D1. subst d. injection E as <- <-. rewrite (IHv _ v r0 q f' EP) by (try lia; right; apply (after_ws r0 _ r' EW); reflexivity). rewrite (ws_ext r0 q _ r' EW). reflexivity.
    + destruct (Ascii.eqb d ",") eqn:D2; [|discriminate]. pose proof D2 as D3. apply Ascii.eqb_eq in D3. subst d.
      rewrite (IHv _ v r0 q f' EP) by (try lia; right; apply (after_ws r0 _ r' EW); reflexivity). rewrite (ws_ext r0 q _ r' EW), D1, D2.
      destruct (members f (ws r')) as [[l' r3]|] eqn:EE; [|discriminate]. injection E as <- <-.
      destruct (ws r') as [|d2 r4] eqn:EW3; [destruct f as [|f]; [discriminate|cbn [members] in EE; discriminate]|]. rewrite (ws_ext r' q d2 r4 EW3).
      change (d2 :: r4 ++ q) with ((d2 :: r4) ++ q). rewrite (IHm _ l' r3 q f' EE) by lia. reflexivity.
Qed.
(** no strict prefix of a dumped dictionary or list loads *)
Lemma prefix_fails fr v k : printable fr v -> (exists l, v = JObj l) \/ (exists l, v = JArr l) -> (k < length (dump fr v))%nat -> load (firstn k (dump fr v)) = Raise ValueError.
Proof.
  intros P C L. assert (HC : exists c t, dump fr v = c :: t /\ is_ws c = false /\ closed_head (c :: t)).
  { destruct C as [(l & ->)|(l & ->)]; eexists; eexists; (split; [reflexivity|]; split; [reflexivity|cbn; auto]). }
  destruct HC as (c & t & E & W & CH). set (s := dump fr v) in *. pose proof (firstn_skipn k s) as FS. set (p := firstn k s) in *. set (q := skipn k s) in *.
  assert (NQ : q <> []) by (intros Z0; unfold q in Z0; apply (f_equal (@length ascii)) in Z0; rewrite skipn_length in Z0; cbn in Z0; lia).
  clearbody p q. destruct p as [|c' p']; [reflexivity|]. assert (c' = c) by (rewrite E in FS; injection FS; auto). subst c'.
  unfold load. cbn [ws]. rewrite W. destruct (parse (length (c :: p')) (c :: p')) as [[w r]|] eqn:EV; [|reflexivity]. exfalso.
  destruct (parse_ext (length (c :: p'))) as (X & _). specialize (X (c :: p') w r q (length s) EV).
  assert (LE : (length (c :: p') <= length s)%nat) by (rewrite <- FS, app_length; lia). specialize (X LE (or_introl CH)). rewrite FS in X.
  destruct (round_trip fr (length s)) as (RT & _). specialize (RT v [] (size_len fr _ v (le_n _) P) P Logic.I). rewrite app_nil_r in RT. fold s in RT. rewrite RT in X. injection X as _ X.
  symmetry in X. apply app_eq_nil in X. destruct X as [_ X]. contradiction.
Qed.

(** text after a complete object or array *)
Lemma load_trailing fr v q : printable fr v -> (exists l, v = JObj l) \/ (exists l, v = JArr l) -> load (dump fr v ++ q) = match ws q with [] => Ok v | _ :: _ => Raise ValueError end.
Proof.
  intros P C. assert (HC : exists c t, dump fr v = c :: t /\ is_ws c = false /\ closed_head (c :: t)).
  { destruct C as [(l & ->)|(l & ->)]; eexists; eexists; (split; [reflexivity|]; split; [reflexivity|cbn; auto]). }
  destruct HC as (c & t & E & W & CH).
  destruct (round_trip fr (length (dump fr v))) as (RT & _). specialize (RT v [] (size_len fr _ v (le_n _) P) P Logic.I). rewrite app_nil_r, E in RT.
  destruct (parse_ext (length (c :: t))) as (X & _).
  assert (LE : (length (c :: t) <= length ((c :: t) ++ q))%nat) by (rewrite app_length; lia).
  specialize (X (c :: t) v [] q (length ((c :: t) ++ q)) RT LE (or_introl CH)).
  rewrite E. unfold load. assert (WS : ws ((c :: t) ++ q) = (c :: t) ++ q) by (cbn [app ws]; rewrite W; reflexivity).
  rewrite WS, X. reflexivity.
Qed.
Lemma ws_nil q : ws q = [] <-> Forall (fun c => is_ws c = true) q.
Proof.
  induction q as [|c q IH]; [split; [constructor|reflexivity]|]. cbn [ws]. destruct (is_ws c) eqn:E.
  - rewrite IH. split; [intros H; constructor; assumption|intros H; inversion H; assumption].
  - split; [discriminate|]. intros H. inversion H. congruence.
Qed.

(** ** every binary64 number has a printed form *)
Definition exact_repr (x : R) : text :=
  let mm := Ztrunc (scaled_mantissa radix2 fexp64 x) in let ee := cexp radix2 fexp64 x in
  let k := if 0 <=? ee then mm * 2 ^ ee else mm * 5 ^ (- ee) in let j := if 0 <=? ee then 0 else - ee in
  (if k <? 0 then txt "-" else []) ++ show_nat (Z.abs k) ++ [] ++ (txt "e-" ++ show_nat j).
Lemma float_text_exists x : F64 x -> float_text (exact_repr x) x.
Proof.
  intros FX. unfold exact_repr. cbv zeta. set (mm := Ztrunc (scaled_mantissa radix2 fexp64 x)). set (ee := cexp radix2 fexp64 x).
  set (k := if 0 <=? ee then mm * 2 ^ ee else mm * 5 ^ (- ee)). set (j := if 0 <=? ee then 0 else - ee).
  assert (X : 0 <= j /\ (x = IZR k * powerRZ 10 (- j))%R).
  { rewrite FX. unfold F2R. cbn [Fnum Fexp]. fold mm ee. unfold k, j. destruct (Z.leb_spec 0 ee) as [L|L].
    - split; [lia|]. rewrite mult_IZR, (IZR_Zpower radix2) by exact L. change (powerRZ 10 (- 0)) with 1%R. ring.
    - split; [lia|]. rewrite mult_IZR, Rmult_assoc. f_equal. rewrite Z.opp_involutive.
      assert (P5 : IZR (5 ^ (- ee)) = powerRZ 5 (- ee)) by (rewrite <- (Z2Nat.id (- ee)) by lia; rewrite <- pow_powerRZ, pow_IZR; reflexivity).
      rewrite P5, bpow_powerRZ. change (IZR radix2) with 2%R. rewrite powerRZ_neg' by lra.
      replace (powerRZ 10 ee) with (powerRZ 2 ee * powerRZ 5 ee)%R by (rewrite <- powerRZ_mult_distr; [f_equal; lra|right; lra] || (rewrite <- powerRZ_mult; f_equal; lra)).
      field. apply powerRZ_NOR. lra. }
  destruct X as (J & E). clearbody k j. destruct (show_nat_ok (Z.abs k) (Z.abs_nonneg k)) as (_ & V & P). destruct (show_nat_ok j J) as (DJ & VJ & PJ). destruct (plain_head _ PJ) as (c0 & r0 & EJ & _).
  exists (k <? 0), (show_nat (Z.abs k)), [], (txt "e-" ++ show_nat j), (- j).
  split; [reflexivity|]. split; [exact P|]. split; [constructor|]. split; [|split; [right; discriminate|]].
  - apply (exp_some "e" (txt "-") (show_nat j) (- j)); [left; reflexivity|rewrite EJ; discriminate|exact DJ|]. right. right. split; [reflexivity|rewrite VJ; reflexivity].
  - unfold decimal. rewrite app_nil_r, V. change (Z.of_nat (length (@nil ascii))) with 0. rewrite Z.sub_0_r. replace (signed (k <? 0) (Z.abs k)) with k by (unfold signed; destruct (Z.ltb_spec k 0); lia).
    rewrite <- E. symmetry. unfold b64. apply round_generic; [apply valid_rnd_N|exact FX].
Qed.

(** ** the dictionary of save_psf *)
Lemma all_some_map {A B} (f : A -> B) (g : B -> option A) l : (forall a, g (f a) = Some a) -> all_some (map g (map f l)) = Some l.
Proof. intros H. induction l as [|a l IH]; [reflexivity|]. cbn [map all_some]. rewrite H, IH. reflexivity. Qed.
Lemma num_read v x : is_num v x -> as_num v = Some x.
Proof. intros [->|(z & -> & ->)]; reflexivity. Qed.
