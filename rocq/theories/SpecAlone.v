(** Specification: a message inside another fares as it would on its own. *)
From Verif Require Import Base ModelErrors ModelParser.

(** The error of a message on its own, if the message lies [k] bytes into the input:
    positions and limits move along, amounts stay. *)
Definition moved (k : Z) (e : parse_error) : parse_error :=
  match e with
  | EWindow (ConsumeWouldExceedLimit offset requested limit) => EWindow (ConsumeWouldExceedLimit (k + offset) requested (k + limit))
  | EWindow (OpenWouldExceedWindow limit request) => EWindow (OpenWouldExceedWindow (k + limit) (k + request))
  | e => e
  end.

(** A window was to be opened that there is no room for. *)
Definition no_room (e : parse_error) : bool :=
  match e with
  | EWindow (OpenWouldExceedBuffer _ _) | EWindow (OpenWouldExceedWindow _ _) => true
  | _ => false
  end.

(** [r] is the result for a message of [len] bytes on its own, [r'] the result where it
    lies [k] bytes into a larger input.  A window that leaves the message leaves the
    input in the first case; in the second it leaves the window around the message and
    perhaps the input.  (In debug builds leaving the input by more than its length
    panics: F2.) *)
Definition as_alone {A} (m : mode) (k len : Z) (r r' : pres A) : Prop :=
  match r with
  | ROk v => r' = ROk v
  | RErr (EWindow (OpenWouldExceedBuffer _ n)) =>
      (exists left, r' = RErr (EWindow (OpenWouldExceedBuffer left n))) \/
      (exists limit target, r' = RErr (EWindow (OpenWouldExceedWindow limit target)) /\ k <= limit <= k + len /\ k + len < target)
  | RErr e => r' = RErr (moved k e)
  | RPanic => r' = RPanic \/ (m = Debug /\ exists e, r' = RErr e /\ no_room e = true)
  | RUB => r' = RUB
  | RDiv => r' = RDiv
  end.
