(** Specification of the [{:?}] texts of errors. *)
From Coq Require Import String.
From Verif Require Import Base ModelErrors ModelParser ModelSchema ModelHex ModelInput ModelInt ModelDisplay ModelUtf8 ModelTarget ModelText.
From Verif Require Import SpecHex SpecUtf8 SpecParser SpecCodec SpecCompare SpecDisplay SpecText SpecDebug.

Inductive window_text : window_error -> list byte -> Prop :=
| window_consume o r l so sr sl : decimal so o -> decimal sr r -> decimal sl l ->
    window_text (ConsumeWouldExceedLimit o r l)
      (txt "ConsumeWouldExceedLimit { offset: " ++ so ++ txt ", requested: " ++ sr ++ txt ", limit: " ++ sl ++ txt " }")
| window_buffer b r sb sr : decimal sb b -> decimal sr r ->
    window_text (OpenWouldExceedBuffer b r) (txt "OpenWouldExceedBuffer { bytes_left: " ++ sb ++ txt ", request: " ++ sr ++ txt " }")
| window_window l r sl sr : decimal sl l -> decimal sr r ->
    window_text (OpenWouldExceedWindow l r) (txt "OpenWouldExceedWindow { limit: " ++ sl ++ txt ", request: " ++ sr ++ txt " }")
| window_residue r sr : decimal sr r -> window_text (CloseWithResidue r) (txt "CloseWithResidue { residual: " ++ sr ++ txt " }")
| window_without : window_text CloseWithoutWindow (txt "CloseWithoutWindow")
| window_offset x sx : decimal sx x -> window_text (OffsetOverflow x) (txt "OffsetOverflow { excess: " ++ sx ++ txt " }").

Inductive width_text : width_error -> list byte -> Prop :=
| width_too l a sl sa : decimal sl l -> decimal sa a ->
    width_text (TooWide l a) (txt "TooWide { limit: " ++ sl ++ txt ", actual: " ++ sa ++ txt " }")
| width_wrong x a sx sa : decimal sx x -> decimal sa a ->
    width_text (WrongWidth x a) (txt "WrongWidth { exact: " ++ sx ++ txt ", actual: " ++ sa ++ txt " }")
| width_invalid v a sv sa : byte_list v sv -> decimal sa a ->
    width_text (InvalidWidth v a) (txt "InvalidWidth { valid: " ++ sv ++ txt ", actual: " ++ sa ++ txt " }").

Inductive length_text : length_error -> list byte -> Prop :=
| length_too l a sl sa : decimal sl l -> decimal sa a ->
    length_text (TooLong l a) (txt "TooLong { limit: " ++ sl ++ txt ", actual: " ++ sa ++ txt " }")
| length_wrong x a sx sa : decimal sx x -> decimal sa a ->
    length_text (WrongLength x a) (txt "WrongLength { exact: " ++ sx ++ txt ", actual: " ++ sa ++ txt " }").

(** [num s n]: [s] is how the number [n] is written. *)
Inductive bounds_text (num : list byte -> Z -> Prop) : bounds_error -> list byte -> Prop :=
| bounds_under m v sm sv : num sm m -> num sv v ->
    bounds_text num (BUnderflow m v) (txt "Underflow { min: " ++ sm ++ txt ", val: " ++ sv ++ txt " }")
| bounds_over m v sm sv : num sm m -> num sv v ->
    bounds_text num (BOverflow m v) (txt "Overflow { max: " ++ sm ++ txt ", val: " ++ sv ++ txt " }")
| bounds_invalid m n sm sn : num sm m -> num sn n ->
    bounds_text num (BInvalidBounds m n) (txt "InvalidBounds { min: " ++ sm ++ txt ", max: " ++ sn ++ txt " }")
| bounds_negative m v sm sv : num sm m -> num sv v ->
    bounds_text num (BIllegalNegative m v) (txt "IllegalNegative { min: " ++ sm ++ txt ", val: " ++ sv ++ txt " }")
| bounds_failed : bounds_text num BFailed (txt "Failed(TryFromIntError(()))").

Section Text.
(** [name] is the characters of the type's name in a tag error; [utf8] and [boxed] are
    the texts of foreign errors. *)
Variables (num64 : Z -> list byte) (printable : Z -> bool) (name : list Z) (utf8 boxed : list byte).

Inductive tags_text : option (list Z) -> list byte -> Prop :=
| tags_none : tags_text None (txt "None")
| tags_some l s : byte_list l s -> tags_text (Some l) (txt "Some(" ++ s ++ txt ")").
Inductive tag_text : Z -> option (list Z) -> list byte -> Prop :=
| tag_fields a l sa ss sl : decimal sa a -> Forall2 (quoted_char printable) name ss -> tags_text l sl ->
    tag_text a l (txt "TagError { actual: " ++ sa ++ txt ", for_type: " ++ ([34] ++ concat ss ++ [34]) ++ txt ", expected: " ++ sl ++ txt " }").
Inductive token_text : token_error -> list byte -> Prop :=
| token_bool b s : decimal s b -> token_text (InvalidBoolean b) (txt "InvalidBoolean(" ++ s ++ txt ")")
| token_u8 a l s : tag_text a l s -> token_text (InvalidTag TagU8 a l) (txt "InvalidTagU8(" ++ s ++ txt ")")
| token_u16 a l s : tag_text a l s -> token_text (InvalidTag TagU16 a l) (txt "InvalidTagU16(" ++ s ++ txt ")")
| token_u30 a l s : tag_text a l s -> token_text (InvalidTag TagU32 a l) (txt "InvalidTagU30(" ++ s ++ txt ")")
| token_endless bs s : byte_list bs s -> token_text (NonTerminating bs) (txt "NonTerminating(" ++ s ++ txt ")")
| token_padding bs s : byte_list bs s -> token_text (NonNullPaddingByte bs) (txt "NonNullPaddingByte { padding: " ++ s ++ txt " }").
Inductive external_text : external_error -> list byte -> Prop :=
| external_string : external_text UncoercableString (txt "UncoercableString(" ++ utf8 ++ txt ")")
| external_int e s : bounds_text decimal e s -> external_text (IntRangeViolation e) (txt "IntRangeViolation(" ++ s ++ txt ")")
| external_float e s : bounds_text (fun s z => s = num64 z) e s ->
    external_text (FloatRangeViolation e) (txt "FloatRangeViolation(" ++ s ++ txt ")")
| external_width e s : width_text e s -> external_text (WidthViolation e) (txt "WidthViolation(" ++ s ++ txt ")")
| external_length e s : length_text e s -> external_text (LengthViolation e) (txt "LengthViolation(" ++ s ++ txt ")")
| external_generic : external_text GenericError (txt "GenericError(" ++ boxed ++ txt ")").
Inductive parse_text : parse_error -> list byte -> Prop :=
| parse_window e s : window_text e s -> parse_text (EWindow e) (txt "Window(" ++ s ++ txt ")")
| parse_slice : parse_text (EInternal SliceCoerceFailure) (txt "Internal(SliceCoerceFailure(TryFromSliceError(())))")
| parse_tags : parse_text (EInternal NoValidTags) (txt "Internal(NoValidTags)")
| parse_external e s : external_text e s -> parse_text (EExternal e) (txt "External(" ++ s ++ txt ")")
| parse_token e s : token_text e s -> parse_text (EToken e) (txt "Token(" ++ s ++ txt ")").
End Text.

(** A tag error, whose text tells the type's name. *)
Definition names_type (e : parse_error) : bool :=
  match e with EToken (InvalidTag _ _ _) => true | _ => false end.
(** The floats in an error are floats, and no NaN. *)
Definition float_ok (z : Z) : bool := is_u64 z && f64_number z.
Definition floats_known (e : parse_error) : bool :=
  match e with
  | EExternal (FloatRangeViolation (BUnderflow a b | BOverflow a b | BInvalidBounds a b | BIllegalNegative a b)) => float_ok a && float_ok b
  | _ => true
  end.
Definition all_known (e : input_error) : bool :=
  match e with
  | IDecode (DParse e) | IDecode (DInvariant (ErrorKindUnexpected e | ErrorUnexpected e)) => floats_known e
  | _ => true
  end.

(** The same error; of a leftover, the same segments. *)
Definition same_error (a b : input_error) : Prop :=
  match a, b with
  | IDecode (DNonEmpty lo), IDecode (DNonEmpty lo') => lo_segments lo = lo_segments lo' /\ lo_is_empty lo = lo_is_empty lo'
  | _, _ => a = b
  end.
