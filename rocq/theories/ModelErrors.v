(** Model of the error values of /repo/src/parse/error.rs and /repo/src/error.rs. *)
From Verif Require Import Base.

(** parse/error.rs 104-148: [enum WindowError]. *)
Inductive window_error :=
| ConsumeWouldExceedLimit (offset requested limit : Z)
| OpenWouldExceedBuffer (bytes_left request : Z)
| OpenWouldExceedWindow (limit request : Z)
| CloseWithResidue (residual : Z)
| CloseWithoutWindow
| OffsetOverflow (excess : Z).

(** parse/error.rs 469-508: the three [TagType] widths. *)
Inductive tag_width := TagU8 | TagU16 | TagU32.

(** parse/error.rs 217-234: [enum TokenError].  The three [InvalidTagU*]
    variants are one constructor carrying the width; the type name stored in
    [TagError] (689-693) is omitted. *)
Inductive token_error :=
| InvalidBoolean (b : byte)
| InvalidTag (w : tag_width) (actual : Z) (expected : option (list Z))
| NonTerminating (buf : list byte)
| NonNullPaddingByte (padding : list byte).

(** parse/error.rs 293-296: [enum InternalError]. *)
Inductive internal_error := SliceCoerceFailure | NoValidTags.

(** error.rs 149-155: [enum BoundsError<Ext>]. *)
Inductive bounds_error :=
| BUnderflow (min val : Z)
| BOverflow (max val : Z)
| BInvalidBounds (min max : Z)
| BIllegalNegative (min val : Z)
| BFailed.

(** error.rs 23-33: [enum WidthError]. *)
Inductive width_error :=
| TooWide (limit actual : Z)
| WrongWidth (exact actual : Z)
| InvalidWidth (valid : list Z) (actual : Z).

(** error.rs 67-72: [enum LengthError]. *)
Inductive length_error :=
| TooLong (limit actual : Z)
| WrongLength (exact actual : Z).

(** parse/error.rs 350-368: [enum ExternalError]; for
    [FloatRangeViolation(BoundsError<f64>)] the numbers are bit patterns. *)
Inductive external_error :=
| UncoercableString
| IntRangeViolation (e : bounds_error)
| FloatRangeViolation (e : bounds_error)
| WidthViolation (e : width_error)
| LengthViolation (e : length_error)
| GenericError.

(** parse/error.rs 27-47: [enum ParseError]. *)
Inductive parse_error :=
| EWindow (e : window_error)
| EInternal (e : internal_error)
| EExternal (e : external_error)
| EToken (e : token_error).
