(** Python run-time notions shared by all model files. *)
From Coq Require Export ZArith String List Bool Lia.
From Coq Require Export ZifyBool.
From Coq Require Import QArith.
Export ListNotations.
Open Scope Z_scope.

(** Exceptions that the modelled code can raise, either explicitly
    ([raise ValueError(...)]) or through the interpreter. *)
Inductive exc :=
  | ValueError | TypeError | KeyError | IndexError | ZeroDivisionError
  | RecursionError | AttributeError | UnboundLocalError | FileError | OverflowError.

Definition exc_eq_dec : forall a b : exc, {a = b} + {a <> b}.
Proof. decide equality. Defined.

(** Outcome of a Python call: a value or an exception. *)
Inductive res (A : Type) := Ok (a : A) | Raise (e : exc).
Arguments Ok {A} a.
Arguments Raise {A} e.

Definition bind {A B} (x : res A) (f : A -> res B) : res B :=
  match x with Ok a => f a | Raise e => Raise e end.
Notation "'do' x <- a ; b" := (bind a (fun x => b))
  (at level 60, x pattern, a at level 50, b at level 60, right associativity).

(** Python values, as far as argument checking in zernpy looks at them.
    [PNpInt] is a numpy integer scalar (NOT an instance of [int]);
    [PFloat] carries the exact rational value of a finite float;
    [POther] is any object that has no ordering with integers (str, None, list ...). *)
Inductive pyval :=
  | PInt (z : Z) | PBool (b : bool) | PNpInt (z : Z)
  | PFloat (q : Q) | PInf (neg : bool) | PNan | PStr (s : string) | POther.

(** [isinstance(v, int)] with the integer denoted: [bool] is a subclass of [int],
    numpy integers are not. *)
Definition as_int (v : pyval) : option Z :=
  match v with
  | PInt z => Some z
  | PBool b => Some (if b then 1 else 0)
  | _ => None
  end.

(** [v >= 0] *)
Definition py_ge0 (v : pyval) : res bool :=
  match v with
  | PInt z | PNpInt z => Ok (0 <=? z)
  | PBool _ => Ok true
  | PFloat q => Ok (Qle_bool 0 q)
  | PInf neg => Ok (negb neg)
  | PNan => Ok false
  | PStr _ | POther => Raise TypeError
  end.

(** [v == z] for a Python integer [z] *)
Definition py_eqZ (v : pyval) (z : Z) : bool :=
  match v with
  | PInt x | PNpInt x => x =? z
  | PBool b => (if b then 1 else 0) =? z
  | PFloat q => Qeq_bool q (inject_Z z)
  | _ => false
  end.

(** [**kwargs]: an association list; Python guarantees distinct keys. *)
Definition kwargs := list (string * pyval).

Fixpoint kw_get (k : string) (kw : kwargs) : option pyval :=
  match kw with
  | [] => None
  | (k', v) :: tl => if String.eqb k k' then Some v else kw_get k tl
  end.

Definition kw_has (k : string) (kw : kwargs) : bool :=
  match kw_get k kw with Some _ => true | None => false end.

(** [range(a, a + k)] as a list *)
Fixpoint zrange (a : Z) (k : nat) : list Z :=
  match k with O => [] | S k' => a :: zrange (a + 1) k' end.

Ltac inv H := inversion H; subst; clear H.
