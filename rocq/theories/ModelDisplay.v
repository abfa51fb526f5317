(** Model of the [Display] texts of the errors: /repo/src/error.rs,
    /repo/src/parse/error.rs and /repo/src/conv/error.rs, and of the number
    formats of /repo/src/int.rs and /repo/src/zarith.rs.

    A text is the list of its UTF-8 bytes.  Writing to a formatter does not
    fail, and no width or fill is asked of the outer formatter. *)
From Coq Require Import String Ascii.
From Verif Require Import Base ModelErrors ModelHex ModelInt.

(** The bytes of a literal of the source. *)
Definition txt (s : string) : list byte := map (fun a => Z.of_N (N_of_ascii a)) (list_ascii_of_string s).

(** core: the digits of a number that is not negative, most significant first,
    no leading zeros ([0] is one digit); [digit] is the character of a digit. *)
Fixpoint digits_loop (fuel : nat) (base : Z) (digit : Z -> byte) (n : Z) : list byte :=
  match fuel with
  | O => []
  | S fuel => if n <? base then [digit n] else digits_loop fuel base digit (n / base) ++ [digit (n mod base)]
  end.
Definition digits (base : Z) (digit : Z -> byte) (n : Z) : list byte :=
  digits_loop (Z.to_nat (Z.log2 n + 1)) base digit n.

(** The upper-case digit of a number below 16, as [UpperHex] of core writes it. *)
Definition upper_digit (n : Z) : byte := if n <? 10 then 48 + n else 55 + n.

(** core: [Display] of the integer types: '-' for a negative number, then its
    digits in base ten. *)
Definition show_int (z : Z) : list byte :=
  (if z <? 0 then [45] else []) ++ digits 10 lower_digit (Z.abs z).

(** core [Formatter::pad_integral] of a number that is not negative, with the
    flags of [{:#0width$x}]: the prefix counts for the width, and the zeros come
    after it. *)
Definition show_alt_hex (width n : Z) : list byte :=
  let ds := digits 16 lower_digit n in
  txt "0x" ++ repeat 48 (Z.to_nat (width - (2 + zlen ds))) ++ ds.

(** error.rs 35-56: [Display for WidthError]; [{valid:?}] is the list in
    brackets, separated by ", ". *)
Fixpoint show_more (l : list Z) : list byte :=
  match l with
  | [] => []
  | n :: l => txt ", " ++ show_int n ++ show_more l
  end.
Definition show_list (l : list Z) : list byte :=
  match l with
  | [] => txt "[]"
  | n :: l => txt "[" ++ show_int n ++ show_more l ++ txt "]"
  end.
Definition show_width (e : width_error) : list byte :=
  match e with
  | TooWide limit actual =>
      show_int actual ++ txt "-byte value exceeded limit of " ++ show_int limit ++ txt " bytes"
  | WrongWidth exact actual =>
      show_int actual ++ txt "-byte value violated requirement of " ++ show_int exact ++ txt " bytes"
  | InvalidWidth valid actual =>
      txt "byte-length " ++ show_int actual ++ txt " of value not in set " ++ show_list valid ++ txt " of valid lengths"
  end.

(** error.rs 74-91: [Display for LengthError]. *)
Definition show_length (e : length_error) : list byte :=
  match e with
  | TooLong limit actual =>
      show_int actual ++ txt "-element value exceeded limit of " ++ show_int limit ++ txt " elements"
  | WrongLength exact actual =>
      show_int actual ++ txt "-element value violated requirement of " ++ show_int exact ++ txt " elements"
  end.

(** error.rs 118-129: [Display for HexConvError]: the string is not shown. *)
Definition show_hex_error (e : hex_error) : list byte :=
  match e with
  | OddParity _ => txt "hex-conversion failed on odd-length string"
  | NonHex _ => txt "hex-conversion failed on non-hex character"
  end.

(** error.rs 267-300: [Display for BoundsError<Ext>]; [num] is [Display] of [Ext].
    The text after the colon is that of core's [TryFromIntError]. *)
Definition show_bounds (num : Z -> list byte) (e : bounds_error) : list byte :=
  match e with
  | BUnderflow min val =>
      txt "provided value " ++ num val ++ txt " less than minimum bound " ++ num min
  | BOverflow max val =>
      txt "provided value " ++ num val ++ txt " greater than maximum bound " ++ num max
  | BInvalidBounds min max =>
      txt "min <= max is not satisfied for the range (" ++ num min ++ txt "," ++ num max ++ txt ")"
  | BFailed =>
      txt "could not convert for bounds-checking: " ++ txt "out of range integral type conversion attempted"
  | BIllegalNegative min val =>
      txt "negative value " ++ num val ++ txt " cannot be interpreted as a positive offset from minimum bound " ++
      num min ++ txt " > 0"
  end.

(** parse/error.rs 156-204: [Display for WindowError]. *)
Definition show_window (e : window_error) : list byte :=
  match e with
  | ConsumeWouldExceedLimit offset requested limit =>
      txt "cannot increment offset by " ++ show_int requested ++ txt " bytes (currently at byte " ++
      show_int offset ++ txt " out of limit " ++ show_int limit ++ txt ")"
  | OpenWouldExceedBuffer bytes_left request =>
      if bytes_left =? 0 then
        txt "cannot open " ++ show_int request ++ txt "-byte context window: parse-buffer has been fully consumed"
      else
        txt "cannot open " ++ show_int request ++ txt "-byte context window: parse-buffer has only " ++
        show_int bytes_left ++ txt " bytes remaining"
  | OpenWouldExceedWindow limit request =>
      txt "Cannot open " ++ show_int request ++ txt "-byte context window: wider than current window (" ++
      show_int limit ++ txt " bytes)"
  | CloseWithResidue residual =>
      txt "cannot close context window with " ++ show_int residual ++ txt " residual bytes"
  | CloseWithoutWindow => txt "no context window to close"
  | OffsetOverflow excess =>
      txt "BUG: detected an offset that exceeds the current limit by " ++ show_int excess ++ txt " bytes"
  end.

(** core [std::mem::size_of] of the tag types. *)
Definition tag_size (w : tag_width) : Z := match w with TagU8 => 1 | TagU16 => 2 | TagU32 => 4 end.

(** parse/error.rs 739-754: [Display for TagError<T>]; [for_type] is the name
    stored in the error, which [token_error] leaves out. *)
Definition show_tag (for_type : list byte) (w : tag_width) (actual : Z) : list byte :=
  txt "unexpected discriminant " ++ show_alt_hex (tag_size w * 2) actual ++ txt " for enum-type " ++ for_type.

(** parse/error.rs 242-265: [Display for TokenError]. *)
Definition show_token (for_type : list byte) (e : token_error) : list byte :=
  match e with
  | InvalidBoolean b => txt "invalid boolean encoding 0x" ++ fmt_02x b
  | InvalidTag w actual _ => txt "invalid tag: " ++ show_tag for_type w actual
  | NonTerminating buf => txt "element failed to terminate: " ++ hex_of_bytes buf
  | NonNullPaddingByte padding => txt "non-null byte found in padding: " ++ hex_of_bytes padding
  end.

(** parse/error.rs 310-321: [Display for InternalError]. *)
Definition show_internal (e : internal_error) : list byte :=
  match e with
  | SliceCoerceFailure => txt "failed to coerce from byte-slice to fixed-length array"
  | NoValidTags => txt "cannot parse enum with no known-valid discriminants"
  end.

(** parse/error.rs 409-436: [Display for ExternalError]; [utf8] and [other] are the
    texts of the foreign errors, [num64] is [Display] of [f64]. *)
Definition show_external (utf8 other : list byte) (num64 : Z -> list byte) (e : external_error) : list byte :=
  match e with
  | UncoercableString => txt "parsed byte-array could not be coerced to String: " ++ utf8
  | IntRangeViolation x => show_bounds show_int x
  | FloatRangeViolation x => show_bounds num64 x
  | LengthViolation x => show_length x
  | WidthViolation x => show_width x
  | GenericError => other
  end.

(** parse/error.rs 60-69: [Display for ParseError]. *)
Definition show_parse (for_type utf8 other : list byte) (num64 : Z -> list byte) (e : parse_error) : list byte :=
  match e with
  | EWindow e => show_window e
  | EInternal e => show_internal e
  | EExternal e => show_external utf8 other num64 e
  | EToken e => show_token for_type e
  end.

(** zarith.rs 61-65, 191-195: [Display for N] and [Z], those of [BigUint] and
    [BigInt], from their documentation. *)
Definition show_zarith (z : Z) : list byte := show_int z.
(** zarith.rs 55-59 and 185-189: [Debug]: a double-struck letter and the number in
    parentheses.  In UTF-8. *)
Definition debug_n (z : Z) : list byte := [226; 132; 149; 40] ++ show_zarith z ++ [41].
Definition debug_z (z : Z) : list byte := [226; 132; 164; 40] ++ show_zarith z ++ [41].

(** int.rs 494-511: [Binary], [Octal], [LowerHex] and [UpperHex] of [RangedInt]: those
    of the [i32] it stands for, which core formats as the [u32] with the same bits. *)
Inductive radix := Bin | Oct | LHex | UHex.
Definition radix_base (r : radix) : Z := match r with Bin => 2 | Oct => 8 | LHex | UHex => 16 end.
Definition radix_digit (r : radix) : Z -> byte := match r with UHex => upper_digit | _ => lower_digit end.
Definition fmt_i32 (r : radix) (z : Z) : list byte := digits (radix_base r) (radix_digit r) (ik_wrap U32 z).
Definition ri_fmt (range_check : bool) (m : mode) (lo hi : Z) (r : radix) (v : Z) : res unit (list byte) :=
  rbind (ri_to_i32 range_check m lo hi v) (fun z => ROk (fmt_i32 r z)).
