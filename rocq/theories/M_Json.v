(** Model of the JSON files of ZernPSF as text: json.dump with its default arguments and json.load of Python's standard library (called in
    calculations/calc_psfs.py 817 and 838), the dictionary that save_psf composes (803-812) and the keys that read_json looks for (zernpsf.py 611-648).
    Simplifications: characters are ASCII; strings with a backslash do not parse (save_psf writes none); a number too large for binary64 is not turned into Infinity. *)
From Coq Require Import Reals Ascii.
From Flocq Require Import Core.
From Verif Require Import Py M_Sum M_Psf M_PsfClass L_Polar.
Local Open Scope Z_scope.

Definition text := list ascii.
Definition txt (s : string) : text := list_ascii_of_string s.
Definition code (c : ascii) : Z := Z.of_N (N_of_ascii c).
Definition is_digit (c : ascii) : bool := (48 <=? code c) && (code c <=? 57).
Definition digit (c : ascii) : Z := code c - 48.
Definition to_digit (z : Z) : ascii := ascii_of_N (Z.to_N (48 + z)).

(** what json.load returns: int, float, str, list, dict (pairs in the order of the file), null, true/false *)
Inductive jval :=
  | JInt (z : Z) | JFloat (x : fl) | JStr (s : text) | JArr (l : list jval) | JObj (l : list (text * jval)) | JNull | JBool (b : bool).

(** ** json.dump *)
(** str(int) *)
Fixpoint show_digits (fuel : nat) (z : Z) (acc : text) : text :=
  match fuel with
  | O => acc
  | S f => if z <? 10 then to_digit z :: acc else show_digits f (z / 10) (to_digit (z mod 10) :: acc)
  end.
Definition show_nat (z : Z) : text := show_digits (S (Z.to_nat (Z.log2 z))) z [].
Definition show_int (z : Z) : text := if z <? 0 then "-"%char :: show_nat (- z) else show_nat z.
Definition quote : ascii := ascii_of_N 34.
(** [fr] is float.__repr__ for finite numbers *)
Definition show_float (fr : R -> text) (x : fl) : text :=
  match x with Fin v => fr v | NaN => txt "NaN" | Inf false => txt "Infinity" | Inf true => txt "-Infinity" end.
Definition show_str (s : text) : text := quote :: s ++ [quote].
Fixpoint join (l : list text) : text :=
  match l with [] => [] | [x] => x | x :: tl => x ++ txt ", " ++ join tl end.
Fixpoint dump (fr : R -> text) (v : jval) : text :=
  match v with
  | JInt z => show_int z
  | JFloat x => show_float fr x
  | JStr s => show_str s
  | JArr l => txt "[" ++ join (map (dump fr) l) ++ txt "]"
  | JObj l => txt "{" ++ join (map (fun kv => show_str (fst kv) ++ txt ": " ++ dump fr (snd kv)) l) ++ txt "}"
  | JNull => txt "null"
  | JBool true => txt "true"
  | JBool false => txt "false"
  end.

(** ** json.load *)
Definition is_ws (c : ascii) : bool := let n := code c in (n =? 32) || (n =? 9) || (n =? 10) || (n =? 13).
Fixpoint ws (s : text) : text := match s with c :: r => if is_ws c then ws r else s | [] => [] end.
Fixpoint span (f : ascii -> bool) (s : text) : text * text :=
  match s with c :: r => if f c then let '(a, b) := span f r in (c :: a, b) else ([], s) | [] => ([], []) end.
Definition dec (ds : text) : Z := fold_left (fun a c => 10 * a + digit c) ds 0.
(** the number token, json/scanner.py NUMBER_RE: -?(0|[1-9][0-9]* )(.[0-9]+)?([eE][-+]?[0-9]+)? *)
Definition lex_nat (s : text) : option (text * text) :=
  match s with
  | c :: r => if Ascii.eqb c "0" then Some ([c], r) else if is_digit c then let '(a, b) := span is_digit r in Some (c :: a, b) else None
  | [] => None
  end.
Definition lex_frac (s : text) : text * text :=
  match s with
  | c :: r => if Ascii.eqb c "." then match span is_digit r with ([], _) => ([], s) | (ds, b) => (ds, b) end else ([], s)
  | [] => ([], [])
  end.
Definition lex_sign (s : text) : bool * text :=
  match s with
  | c :: r => if Ascii.eqb c "-" then (true, r) else if Ascii.eqb c "+" then (false, r) else (false, s)
  | [] => (false, [])
  end.
Definition lex_exp (s : text) : option Z * text :=
  match s with
  | c :: r =>
      if Ascii.eqb c "e" || Ascii.eqb c "E" then
        let '(neg, r') := lex_sign r in
        match span is_digit r' with ([], _) => (None, s) | (ds, b) => (Some (if neg then - dec ds else dec ds), b) end
      else (None, s)
  | [] => (None, [])
  end.
Definition signed (neg : bool) (z : Z) : Z := if neg then - z else z.
(** the number that a float token denotes, rounded to binary64; a fraction or an exponent makes a float *)
Definition decimal (neg : bool) (ip fp : text) (e : Z) : R :=
  (IZR (signed neg (dec (ip ++ fp))) * powerRZ 10 (e - Z.of_nat (length fp)))%R.
Definition lex_number (neg : bool) (s : text) : option (jval * text) :=
  match lex_nat s with
  | None => None
  | Some (ip, r) =>
      let '(fp, r1) := lex_frac r in
      let '(e, r2) := lex_exp r1 in
      Some (match fp, e with
            | [], None => JInt (signed neg (dec ip))
            | _, _ => JFloat (Fin (b64 (decimal neg ip fp (match e with Some x => x | None => 0 end))))
            end, r2)
  end.
Fixpoint strip (p s : text) : option text :=
  match p, s with
  | [], _ => Some s
  | a :: p', b :: s' => if Ascii.eqb a b then strip p' s' else None
  | _ :: _, [] => None
  end.
(** up to the closing quote; control characters are not allowed *)
Fixpoint scan_str (s : text) : option (text * text) :=
  match s with
  | [] => None
  | c :: r =>
      if Ascii.eqb c quote then Some ([], r)
      else if (code c <? 32) || (code c =? 92) then None
      else match scan_str r with Some (k, r') => Some (c :: k, r') | None => None end
  end.
Definition constants : list (text * jval) :=
  [(txt "NaN", JFloat NaN); (txt "Infinity", JFloat (Inf false)); (txt "null", JNull); (txt "true", JBool true); (txt "false", JBool false)].
Fixpoint lex_constant (l : list (text * jval)) (s : text) : option (jval * text) :=
  match l with
  | [] => None
  | (t, v) :: l' => match strip t s with Some r => Some (v, r) | None => lex_constant l' s end
  end.
Definition lex_scalar (s : text) : option (jval * text) :=
  match s with
  | [] => None
  | c :: r =>
      if Ascii.eqb c "-" then match strip (txt "Infinity") r with Some r' => Some (JFloat (Inf true), r') | None => lex_number true r end
      else if is_digit c then lex_number false s
      else lex_constant constants s
  end.
(** json/decoder.py: scan_once, JSONArray, JSONObject *)
Fixpoint parse (fuel : nat) (s : text) : option (jval * text) :=
  match fuel, s with
  | O, _ | _, [] => None
  | S f, c :: r =>
      if Ascii.eqb c quote then match scan_str r with Some (k, r') => Some (JStr k, r') | None => None end
      else if Ascii.eqb c "[" then
        match ws r with
        | d :: r' => if Ascii.eqb d "]" then Some (JArr [], r') else match elements f (d :: r') with Some (l, r2) => Some (JArr l, r2) | None => None end
        | [] => None
        end
      else if Ascii.eqb c "{" then
        match ws r with
        | d :: r' => if Ascii.eqb d "}" then Some (JObj [], r') else match members f (d :: r') with Some (l, r2) => Some (JObj l, r2) | None => None end
        | [] => None
        end
      else lex_scalar s
  end
with elements (fuel : nat) (s : text) : option (list jval * text) :=
  match fuel with
  | O => None
  | S f =>
      match parse f s with
      | None => None
      | Some (v, r) =>
          match ws r with
          | d :: r' => if Ascii.eqb d "]" then Some ([v], r')
                       else if Ascii.eqb d "," then match elements f (ws r') with Some (l, r2) => Some (v :: l, r2) | None => None end
                       else None
          | [] => None
          end
      end
  end
with members (fuel : nat) (s : text) : option (list (text * jval) * text) :=
  match fuel with
  | O => None
  | S f =>
      match s with
      | q :: r0 =>
          if Ascii.eqb q quote then
            match scan_str r0 with
            | None => None
            | Some (k, r1) =>
                match ws r1 with
                | col :: r2 =>
                    if Ascii.eqb col ":" then
                      match parse f (ws r2) with
                      | None => None
                      | Some (v, r) =>
                          match ws r with
                          | d :: r' => if Ascii.eqb d "}" then Some ([(k, v)], r')
                                       else if Ascii.eqb d "," then match members f (ws r') with Some (l, r2) => Some ((k, v) :: l, r2) | None => None end
                                       else None
                          | [] => None
                          end
                      end
                    else None
                | [] => None
                end
            end
          else None
      | [] => None
      end
  end.
(** json.load; JSONDecodeError is a subclass of ValueError *)
Definition load (s : text) : res jval :=
  match parse (length s) (ws s) with
  | Some (v, r) => match ws r with [] => Ok v | _ :: _ => Raise ValueError end
  | None => Raise ValueError
  end.

(** ** the dictionary of save_psf *)
(** a Python number that is the real number [x]: float or int *)
Definition is_num (v : jval) (x : R) : Prop := v = JFloat (Fin x) \/ exists z, v = JInt z /\ x = IZR z.
(** 803-812; [dict_of j d]: the data [j] is written as the dictionary [d]. NA, wavelength, pixel size and the single coefficient are stored as the caller passed them. *)
Definition rows_of (K : kernel) : jval := JArr (map (fun r => JArr (map JFloat r)) K).
Definition dict_of (j : json) (d : jval) : Prop :=
  exists K n nr nphi na wl px vna vwl vpx tail,
    j_kernel j = Some K /\ j_size j = Some n /\ j_nr j = Some nr /\ j_nphi j = Some nphi /\ j_na j = Some na /\ j_wl j = Some wl /\ j_px j = Some px /\
    is_num vna na /\ is_num vwl wl /\ is_num vpx px /\
    d = JObj ((txt "PSF Kernel", rows_of K) :: (txt "NA", vna) :: (txt "Wavelength", vwl) :: (txt "Pixel Size", vpx) :: (txt "Kernel Size", JInt n) ::
              (txt "# of integration points R", JInt nr) :: (txt "# of integration points angle", JInt nphi) :: tail) /\
    ((exists a va p, j_coeff j = Some a /\ j_amps j = None /\ j_pol j = Some p /\ j_pols j = None /\ is_num va a /\
        tail = [(txt "Expansion Coefficient", va); (txt "Polynomial", JInt p)]) \/
     (exists l ps, j_coeff j = None /\ j_amps j = Some l /\ j_pol j = None /\ j_pols j = Some ps /\
        tail = [(txt "Amplitudes", JArr (map (fun x => JFloat (Fin x)) l)); (txt "Polynomials", JArr (map JInt ps))])).

(** ** the keys read by read_json, zernpsf.py 611-648. A value of a type that save_psf does not write makes [record_of] undefined. *)
Definition text_eq_dec : forall a b : text, {a = b} + {a <> b} := list_eq_dec ascii_dec.
(** a dict keeps the last value of a repeated key *)
Fixpoint lookup (k : text) (l : list (text * jval)) : option jval :=
  match l with
  | [] => None
  | (k', v) :: tl => match lookup k tl with Some w => Some w | None => if text_eq_dec k k' then Some v else None end
  end.
Fixpoint all_some {A} (l : list (option A)) : option (list A) :=
  match l with
  | [] => Some []
  | x :: tl => match x, all_some tl with Some a, Some r => Some (a :: r) | _, _ => None end
  end.
Definition as_num (v : jval) : option R := match v with JInt z => Some (IZR z) | JFloat (Fin x) => Some x | _ => None end.
Definition as_Z (v : jval) : option Z := match v with JInt z => Some z | _ => None end.
Definition as_fl (v : jval) : option fl := match v with JFloat x => Some x | _ => None end.
Definition as_list {A} (f : jval -> option A) (v : jval) : option (list A) := match v with JArr l => all_some (map f l) | _ => None end.
(** None: a wrong type; Some None: no such key *)
Definition field {A} (f : jval -> option A) (k : string) (l : list (text * jval)) : option (option A) :=
  match lookup (txt k) l with None => Some None | Some v => match f v with Some a => Some (Some a) | None => None end end.
Definition record_of (d : jval) : option json :=
  match d with
  | JObj l =>
      match field (as_list (as_list as_fl)) "PSF Kernel" l, field as_Z "Kernel Size" l, field as_Z "# of integration points R" l, field as_Z "# of integration points angle" l,
            field as_num "NA" l, field as_num "Wavelength" l, field as_num "Pixel Size" l, field as_num "Expansion Coefficient" l, field (as_list as_num) "Amplitudes" l,
            field as_Z "Polynomial" l, field (as_list as_Z) "Polynomials" l with
      | Some K, Some n, Some nr, Some nphi, Some na, Some wl, Some px, Some a, Some am, Some p, Some ps => Some (JSON K n nr nphi na wl px a am p ps)
      | _, _, _, _, _, _, _, _, _, _, _ => None
      end
  | _ => None
  end.

(** ** files of text *)
Definition tfiles := fname -> option text.
Definition twrite (fs : tfiles) (n : fname) (s : text) : tfiles := fun n' => if fname_eq_dec n' n then Some s else fs n'.
(** 813-818 up to a crash (or an exception of json.dump): open('w') makes the file empty, then the text is written piece by piece. [stage] None: before open();
    Some k: after k characters. The call ends with Some (length text). [d] is the dictionary. *)
Definition save_text (fr : R -> text) (n : fname) (overwrite : bool) (d : jval) (stage : option nat) (fs : tfiles) : tfiles :=
  match fs n, overwrite with
  | Some _, false => fs
  | _, _ => match stage with None => fs | Some k => twrite fs n (firstn k (dump fr d)) end
  end.
(** 836-839 and zernpsf.py 604-611: no file is no exception (read_json warns), text that is not JSON raises; None: outside of the model *)
Definition read_text (n : fname) (fs : tfiles) (o : zernpsf) : option (zernpsf * res unit) :=
  match fs n with
  | None => Some (o, Ok Datatypes.tt)
  | Some s =>
      match load s with
      | Raise e => Some (o, Raise e)
      | Ok d => match record_of d with Some j => Some (read_json j o) | None => None end
      end
  end.
