(** Model of the [Debug] texts ([{:?}]) of the errors and of what [decode] and
    [decode_memo] say when they panic: /repo/src/error.rs, /repo/src/parse/error.rs,
    /repo/src/parse/mod.rs, /repo/src/conv/error.rs, /repo/src/conv/mod.rs and
    /repo/src/prim.rs.

    Texts as in ModelDisplay.v, derived implementations as in ModelDebug.v. *)
From Coq Require Import String.
From Verif Require Import Base ModelErrors ModelParser ModelSchema ModelHex ModelInput ModelDisplay ModelDebug ModelSplitText.

(** A variant whose fields have names, given with their texts. *)
Definition variant (name : string) (fields : list (string * list byte)) : list byte :=
  debug_struct (txt name) (map (fun f => txt (fst f)) fields) (map snd fields).
(** A variant with one field without name. *)
Definition around (name : string) (d : list byte) : list byte := debug_tuple (txt name) [d].

(** parse/error.rs 103-148: derived [Debug for WindowError]. *)
Definition window_debug (e : window_error) : list byte :=
  match e with
  | ConsumeWouldExceedLimit offset requested limit =>
      variant "ConsumeWouldExceedLimit"
        [("offset"%string, show_int offset); ("requested"%string, show_int requested); ("limit"%string, show_int limit)]
  | OpenWouldExceedBuffer bytes_left request =>
      variant "OpenWouldExceedBuffer" [("bytes_left"%string, show_int bytes_left); ("request"%string, show_int request)]
  | OpenWouldExceedWindow limit request =>
      variant "OpenWouldExceedWindow" [("limit"%string, show_int limit); ("request"%string, show_int request)]
  | CloseWithResidue residual => variant "CloseWithResidue" [("residual"%string, show_int residual)]
  | CloseWithoutWindow => txt "CloseWithoutWindow"
  | OffsetOverflow excess => variant "OffsetOverflow" [("excess"%string, show_int excess)]
  end.

(** error.rs 22-33: derived [Debug for WidthError]. *)
Definition width_debug (e : width_error) : list byte :=
  match e with
  | TooWide limit actual => variant "TooWide" [("limit"%string, show_int limit); ("actual"%string, show_int actual)]
  | WrongWidth exact actual => variant "WrongWidth" [("exact"%string, show_int exact); ("actual"%string, show_int actual)]
  | InvalidWidth valid actual =>
      variant "InvalidWidth" [("valid"%string, debug_list (map show_int valid)); ("actual"%string, show_int actual)]
  end.

(** error.rs 66-72: derived [Debug for LengthError]. *)
Definition length_debug (e : length_error) : list byte :=
  match e with
  | TooLong limit actual => variant "TooLong" [("limit"%string, show_int limit); ("actual"%string, show_int actual)]
  | WrongLength exact actual => variant "WrongLength" [("exact"%string, show_int exact); ("actual"%string, show_int actual)]
  end.

(** error.rs 107-116: [Debug for HexConvError]. *)
Definition hex_debug (e : hex_error) : list byte :=
  match e with
  | OddParity s => txt "non-even length-parity for string `" ++ s ++ txt "`"
  | NonHex s => txt "non-hex character found in string `" ++ s ++ txt "`"
  end.

(** error.rs 148-155: derived [Debug for BoundsError]; core's [TryFromIntError] is a
    tuple struct around [()]. *)
Definition bounds_debug (num : Z -> list byte) (e : bounds_error) : list byte :=
  match e with
  | BUnderflow min val => variant "Underflow" [("min"%string, num min); ("val"%string, num val)]
  | BOverflow max val => variant "Overflow" [("max"%string, num max); ("val"%string, num val)]
  | BInvalidBounds min max => variant "InvalidBounds" [("min"%string, num min); ("max"%string, num max)]
  | BIllegalNegative min val => variant "IllegalNegative" [("min"%string, num min); ("val"%string, num val)]
  | BFailed => around "Failed" (txt "TryFromIntError(())")
  end.

(** parse/error.rs 292-296: derived [Debug for InternalError]; core's
    [TryFromSliceError] is a tuple struct around [()]. *)
Definition internal_debug (e : internal_error) : list byte :=
  match e with
  | SliceCoerceFailure => around "SliceCoerceFailure" (txt "TryFromSliceError(())")
  | NoValidTags => txt "NoValidTags"
  end.

Section ErrDebug.
(** [num64] and [printable] as in ModelDebug; the name in a [TagError], [Debug] of the
    [FromUtf8Error] and [Debug] of the boxed error are given. *)
Variables (num64 : Z -> list byte) (printable : Z -> bool) (for_type utf8 boxed : list byte).

(** parse/error.rs 688-693: derived [Debug for TagError]; [Tags] is [Vec] (512). *)
Definition tag_debug (actual : Z) (expected : option (list Z)) : list byte :=
  variant "TagError"
    [("actual"%string, show_int actual); ("for_type"%string, str_debug printable for_type);
     ("expected"%string, option_debug (option_map (fun l => debug_list (map show_int l)) expected))].
(** parse/error.rs 216-234: derived [Debug for TokenError]. *)
Definition token_debug (e : token_error) : list byte :=
  match e with
  | InvalidBoolean b => around "InvalidBoolean" (show_int b)
  | InvalidTag w actual expected =>
      around (match w with TagU8 => "InvalidTagU8" | TagU16 => "InvalidTagU16" | TagU32 => "InvalidTagU30" end)
        (tag_debug actual expected)
  | NonTerminating buf => around "NonTerminating" (debug_list (map show_int buf))
  | NonNullPaddingByte padding => variant "NonNullPaddingByte" [("padding"%string, debug_list (map show_int padding))]
  end.
(** parse/error.rs 349-368: derived [Debug for ExternalError]. *)
Definition external_debug (e : external_error) : list byte :=
  match e with
  | UncoercableString => around "UncoercableString" utf8
  | IntRangeViolation e => around "IntRangeViolation" (bounds_debug show_int e)
  | FloatRangeViolation e => around "FloatRangeViolation" (bounds_debug num64 e)
  | WidthViolation e => around "WidthViolation" (width_debug e)
  | LengthViolation e => around "LengthViolation" (length_debug e)
  | GenericError => around "GenericError" boxed
  end.
(** parse/error.rs 26-47: derived [Debug for ParseError]. *)
Definition parse_debug (e : parse_error) : list byte :=
  match e with
  | EWindow e => around "Window" (window_debug e)
  | EInternal e => around "Internal" (internal_debug e)
  | EExternal e => around "External" (external_debug e)
  | EToken e => around "Token" (token_debug e)
  end.
(** parse/mod.rs 625-643: [Debug for InvariantError]. *)
Definition invariant_debug (e : invariant_error) : list byte :=
  match e with
  | ErrorCaseUnexpected e => txt "unexpected WindowError variant encountered: " ++ window_debug e
  | ErrorKindUnexpected e => txt "error of unexpected kind (non-WindowError) encountered: " ++ parse_debug e
  | ErrorUnexpected e => txt "unexpected error encountered: " ++ parse_debug e
  end.
(** conv/error.rs 9-16: derived [Debug for DecodeError]; that of a leftover can panic. *)
Definition decode_debug (e : input_error) : res unit (list byte) :=
  match e with
  | IConv e => ROk (around "Conv" (hex_debug e))
  | IDecode (DParse e) => ROk (around "Parse" (parse_debug e))
  | IDecode (DInvariant e) => ROk (around "Invariant" (invariant_debug e))
  | IDecode (DNonEmpty lo) => rbind (lo_debug lo) (fun d => ROk (around "NonEmpty" d))
  end.

(** conv/mod.rs 360-366 (prim.rs 68-74 for ()): what [decode] says when it panics for
    an error; [type_name] is core's [std::any::type_name]. *)
Definition decode_says (type_name : list byte) (e : input_error) : res unit (list byte) :=
  rbind (decode_debug e) (fun d => ROk (txt "<" ++ type_name ++ txt " as Decode>::decode encountered error: " ++ d)).
End ErrDebug.

(** conv/mod.rs 333-338 (prim.rs 55-60 for ()): what [decode_memo] says. *)
Definition decode_memo_says (t : ty) (type_name : list byte) (e : input_error) : res unit (list byte) :=
  ROk (txt "<" ++ type_name ++
       match t with
       | TUnit => txt " as Decode>::decode_memo: unable to parse value (ParseError encountered)"
       | _ => txt " as Decode>::decode_memo: unable to parse value (DecodeError encountered)"
       end).
(** What a call of either says if it panics because of an error. *)
Definition panic_says (says : input_error -> res unit (list byte)) (r : res input_error val) : option (res unit (list byte)) :=
  match r with RErr e => Some (says e) | _ => None end.
