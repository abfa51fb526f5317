(** Errors that may only mean that the input stops too early. *)
From Verif Require Import Base ModelErrors.

(** For an input of [total] bytes: a read past its very end, a window that does not fit
    into it, a self-terminating number without its last byte, a FixSeq with too few
    elements. *)
Definition may_be_short (total : Z) (e : parse_error) : bool :=
  match e with
  | EWindow (ConsumeWouldExceedLimit _ _ limit) => limit =? total
  | EWindow (OpenWouldExceedBuffer _ _) => true
  | EToken (NonTerminating _) => true
  | EExternal (LengthViolation (WrongLength _ _)) => true
  | _ => false
  end.

(** The SliceParser does not know where in the input it is: any read that finds too little
    in its window, and any window that does not fit, may be due to the end of the input. *)
Definition slice_may_be_short (e : parse_error) : bool :=
  match e with
  | EWindow (ConsumeWouldExceedLimit _ _ _) => true
  | EWindow (OpenWouldExceedWindow _ _) => true
  | EToken (NonTerminating _) => true
  | EExternal (LengthViolation (WrongLength _ _)) => true
  | _ => false
  end.
