(** What it is to follow the causes of an error, as error reporters do. *)
From Verif Require Import Base ModelErrors ModelParser ModelSchema ModelInput ModelCause.

(** [l] is the error [e], its cause, the cause of that, and so on to the end. *)
Inductive chain (source : any_error -> option any_error) : any_error -> list any_error -> Prop :=
| chain_root : forall e, source e = None -> chain source e [e]
| chain_cause : forall e c l, source e = Some c -> chain source c l -> chain source e (e :: l).

Definition ends_in (text suffix : list byte) : Prop := exists front, text = front ++ suffix.

(** The two kinds of error whose text does not end in that of their cause: a slice
    of the wrong length, and errors of another library. *)
Definition quotes (e : any_error) : bool :=
  match e with
  | AInternal SliceCoerceFailure => false
  | AForeign _ _ => false
  | _ => true
  end.

(** The error of this library an operation raised, under what it was wrapped in. *)
Definition raised (e : parse_error) : any_error :=
  match e with
  | EWindow e => AWindow e
  | EInternal e => AInternal e
  | EToken (InvalidTag w actual _) => ATag w actual
  | EToken e => AToken e
  | EExternal (IntRangeViolation e) => ABounds false e
  | EExternal (FloatRangeViolation e) => ABounds true e
  | EExternal (WidthViolation e) => AWidth e
  | EExternal (LengthViolation e) => ALength e
  | EExternal e => AExternal e
  end.
