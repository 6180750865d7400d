(** Specification side of C54: what the printed form of a floating-point number must satisfy, and which values may be written. *)
From Coq Require Import Reals Ascii.
From Verif Require Import Py M_Sum L_Polar M_Json.
Local Open Scope Z_scope.

Definition all_digits (s : text) : Prop := Forall (fun c => is_digit c = true) s.
(** 0, or digits without a leading zero *)
Definition plain_nat (s : text) : Prop := s = txt "0" \/ exists c r, s = c :: r /\ c <> "0"%char /\ is_digit c = true /\ all_digits r.
(** exponent: nothing, or e/E, an optional sign and digits *)
Inductive exponent : text -> Z -> Prop :=
  | exp_none : exponent [] 0
  | exp_some (m : ascii) sg ds e : m = "e"%char \/ m = "E"%char -> ds <> [] -> all_digits ds ->
      (sg = [] /\ e = dec ds) \/ (sg = txt "+" /\ e = dec ds) \/ (sg = txt "-" /\ e = - dec ds) -> exponent (m :: sg ++ ds) e.
(** [s] is a decimal number with a fraction or an exponent, and [x] is the binary64 number nearest to it. Python's repr writes such an [s] for every finite float [x]. *)
Definition float_text (s : text) (x : R) : Prop :=
  exists (neg : bool) ip fp et e, s = (if neg then txt "-" else []) ++ ip ++ (match fp with [] => [] | _ => txt "." ++ fp end) ++ et /\
    plain_nat ip /\ all_digits fp /\ exponent et e /\ (fp <> [] \/ et <> []) /\ x = b64 (decimal neg ip fp e).
(** characters of the keys: no quotes, backslashes, control characters *)
Definition plain_char (c : ascii) : Prop := c <> quote /\ 32 <= code c /\ code c <> 92.
(** every float of the value has its printed form, every string is plain *)
Fixpoint printable (fr : R -> text) (v : jval) : Prop :=
  match v with
  | JFloat (Fin x) => float_text (fr x) x
  | JStr s => Forall plain_char s
  | JArr l => (fix all l := match l with [] => True | x :: tl => printable fr x /\ all tl end) l
  | JObj l => (fix all l := match l with [] => True | (k, x) :: tl => (Forall plain_char k /\ printable fr x) /\ all tl end) l
  | _ => True
  end.
