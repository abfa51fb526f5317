(** Specification of printed numbers and of the numbers an error message should tell. *)
From Verif Require Import Base ModelErrors SpecHex.

(** [s] is the numeral of [n] in a base up to sixteen: no needless leading zero. *)
Inductive numeral (base : Z) : list byte -> Z -> Prop :=
| numeral_digit c d : hex_digit c d -> d < base -> numeral base [c] d
| numeral_more s n c d : numeral base s n -> 0 < n -> hex_digit c d -> d < base -> numeral base (s ++ [c]) (base * n + d).

(** A number in decimal, with a minus sign ('-') if it is negative. *)
Definition decimal (s : list byte) (z : Z) : Prop :=
  (0 <= z /\ numeral 10 s z) \/ (z < 0 /\ exists t, s = 45 :: t /\ numeral 10 t (- z)).

(** Digits that are not lower-case. *)
Definition upper_hex (c : byte) : Prop := 48 <= c <= 57 \/ 65 <= c <= 70.

(** Hexadecimal digits with leading zeros allowed. *)
Inductive hex_value : list byte -> Z -> Prop :=
| hex_value_nil : hex_value [] 0
| hex_value_more s n c d : hex_value s n -> hex_digit c d -> hex_value (s ++ [c]) (16 * n + d).

(** The decimal numbers a reader finds in a text, from left to right: maximal runs
    of digits, negative if a '-' stands right before them. *)
Definition is_digit (c : byte) : bool := (48 <=? c) && (c <=? 57).
Definition signed (neg : bool) (n : Z) : Z := if neg then - n else n.
Fixpoint numbers_from (neg : bool) (run : option Z) (s : list byte) : list Z :=
  match s with
  | [] => match run with Some n => [signed neg n] | None => [] end
  | c :: s =>
      if is_digit c then numbers_from neg (Some (10 * match run with Some n => n | None => 0 end + (c - 48))) s
      else match run with Some n => [signed neg n] | None => [] end ++ numbers_from (c =? 45) None s
  end.
Definition numbers : list byte -> list Z := numbers_from false None.

(** The numbers each error is about, in the order an English sentence about it
    gives them: what was attempted or found first, then the limit it met. *)
Definition window_facts (e : window_error) : list Z :=
  match e with
  | ConsumeWouldExceedLimit offset requested limit => [requested; offset; limit]
  | OpenWouldExceedBuffer bytes_left request => if bytes_left =? 0 then [request] else [request; bytes_left]
  | OpenWouldExceedWindow limit request => [request; limit]
  | CloseWithResidue residual => [residual]
  | CloseWithoutWindow => []
  | OffsetOverflow excess => [excess]
  end.
Definition width_facts (e : width_error) : list Z :=
  match e with
  | TooWide limit actual => [actual; limit]
  | WrongWidth exact actual => [actual; exact]
  | InvalidWidth valid actual => actual :: valid
  end.
Definition length_facts (e : length_error) : list Z :=
  match e with TooLong limit actual => [actual; limit] | WrongLength exact actual => [actual; exact] end.
(** The sentence about a negative value ends in "> 0". *)
Definition bounds_facts (e : bounds_error) : list Z :=
  match e with
  | BUnderflow min val => [val; min]
  | BOverflow max val => [val; max]
  | BInvalidBounds min max => [min; max]
  | BIllegalNegative min val => [val; min; 0]
  | BFailed => []
  end.

(** Errors whose whole content is in the message: not tags (the message leaves out
    the list of expected ones and the width) nor errors with foreign texts. *)
Definition self_contained (e : parse_error) : bool :=
  match e with
  | EExternal (UncoercableString | FloatRangeViolation _ | GenericError) | EToken (InvalidTag _ _ _) => false
  | _ => true
  end.
(** The bytes an error shows are bytes. *)
Definition error_bytes_ok (e : parse_error) : Prop :=
  match e with
  | EToken (InvalidBoolean b) => is_byte b
  | EToken (NonTerminating l) | EToken (NonNullPaddingByte l) => bytes_ok l
  | _ => True
  end.
