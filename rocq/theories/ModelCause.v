(** Model of [std::error::Error::source] of the errors, and of the [Display] texts
    that ModelDisplay leaves out: /repo/src/conv/error.rs 42-76,
    /repo/src/error.rs 57, 93, 131 and 302-309, /repo/src/parse/error.rs 77-86, 210,
    267-278, 323-330, 438-450 and 754-756, /repo/src/parse/mod.rs 645-669. *)
From Coq Require Import String.
From Verif Require Import Base ModelErrors ModelParser ModelSchema ModelHex ModelInput ModelDisplay.

(** What [&dyn Error] can be.  Of the errors of core only the text counts, and that
    they have no source; a boxed foreign error is the texts of itself and of its
    causes. *)
Inductive any_error :=
| ADecode (e : input_error)
| AInvariant (e : invariant_error)
| AParse (e : parse_error)
| AWindow (e : window_error)
| AInternal (e : internal_error)
| AExternal (e : external_error)
| AToken (e : token_error)
| ATag (w : tag_width) (actual : Z)
| ABounds (of_f64 : bool) (e : bounds_error)
| AWidth (e : width_error)
| ALength (e : length_error)
| AHex (e : hex_error)
| ACore (text : list byte)
| AForeign (text : list byte) (causes : list (list byte)).

Section Cause.
(** The name of the enum in a [TagError], [Display] of [FromUtf8Error] and of
    [TryFromSliceError], the boxed error, [Display] of [f64] and [Debug] of
    [LeftoverState]. *)
Variables (for_type utf8 slice : list byte) (boxed : list byte * list (list byte))
  (num64 : Z -> list byte) (debug_leftover : leftover -> list byte).

(** The text of core's [TryFromIntError], as in [show_bounds]. *)
Definition try_from_int_text : list byte := txt "out of range integral type conversion attempted".

Definition source_of (e : any_error) : option any_error :=
  match e with
  (* conv/error.rs 65-74 *)
  | ADecode (IConv e) => Some (AHex e)
  | ADecode (IDecode (DParse e)) => Some (AParse e)
  | ADecode (IDecode (DInvariant e)) => Some (AInvariant e)
  | ADecode (IDecode (DNonEmpty _)) => None
  (* parse/mod.rs 661-669 *)
  | AInvariant (ErrorCaseUnexpected e) => Some (AWindow e)
  | AInvariant (ErrorKindUnexpected e) => Some (AParse e)
  | AInvariant (ErrorUnexpected e) => Some (AParse e)
  (* parse/error.rs 77-86 *)
  | AParse (EWindow e) => Some (AWindow e)
  | AParse (EInternal e) => Some (AInternal e)
  | AParse (EExternal e) => Some (AExternal e)
  | AParse (EToken e) => Some (AToken e)
  (* parse/error.rs 210 *)
  | AWindow _ => None
  (* parse/error.rs 267-278 *)
  | AToken (InvalidBoolean _) => None
  | AToken (InvalidTag w actual _) => Some (ATag w actual)
  | AToken (NonTerminating _) => None
  | AToken (NonNullPaddingByte _) => None
  (* parse/error.rs 323-330 *)
  | AInternal SliceCoerceFailure => Some (ACore slice)
  | AInternal NoValidTags => None
  (* parse/error.rs 438-450 *)
  | AExternal UncoercableString => Some (ACore utf8)
  | AExternal (IntRangeViolation e) => Some (ABounds false e)
  | AExternal (FloatRangeViolation e) => Some (ABounds true e)
  | AExternal (WidthViolation e) => Some (AWidth e)
  | AExternal (LengthViolation e) => Some (ALength e)
  | AExternal GenericError => Some (AForeign (fst boxed) (snd boxed))
  (* error.rs 302-309 *)
  | ABounds _ BFailed => Some (ACore try_from_int_text)
  | ABounds _ _ => None
  (* parse/error.rs 754-756, error.rs 57, 93 and 131 *)
  | ATag _ _ | AWidth _ | ALength _ | AHex _ => None
  | ACore _ => None
  | AForeign _ (text :: causes) => Some (AForeign text causes)
  | AForeign _ [] => None
  end.

(** parse/mod.rs 645-659: [Display for InvariantError]. *)
Definition show_invariant (e : invariant_error) : list byte :=
  match e with
  | ErrorCaseUnexpected e => txt "unexpected window-error case: " ++ show_window e
  | ErrorKindUnexpected e => txt "unexpected non-window error: " ++ show_parse for_type utf8 (fst boxed) num64 e
  | ErrorUnexpected e => txt "unexpected error: " ++ show_parse for_type utf8 (fst boxed) num64 e
  end.

(** conv/error.rs 42-63: [Display for DecodeError]. *)
Definition show_decode (e : input_error) : list byte :=
  match e with
  | IConv e => txt "hex conversion encountered error: " ++ show_hex_error e
  | IDecode (DParse e) => txt "parser encountered error: " ++ show_parse for_type utf8 (fst boxed) num64 e
  | IDecode (DInvariant e) => txt "invariant failed during cleanup: " ++ show_invariant e
  | IDecode (DNonEmpty lo) =>
      txt "parser object had non-empty left-over state on cleanup: " ++ debug_leftover lo
  end.

(** [Display] of any of them. *)
Definition text_of (e : any_error) : list byte :=
  match e with
  | ADecode e => show_decode e
  | AInvariant e => show_invariant e
  | AParse e => show_parse for_type utf8 (fst boxed) num64 e
  | AWindow e => show_window e
  | AInternal e => show_internal e
  | AExternal e => show_external utf8 (fst boxed) num64 e
  | AToken e => show_token for_type e
  | ATag w actual => show_tag for_type w actual
  | ABounds f64 e => show_bounds (if f64 then num64 else show_int) e
  | AWidth e => show_width e
  | ALength e => show_length e
  | AHex e => show_hex_error e
  | ACore text => text
  | AForeign text _ => text
  end.
End Cause.
