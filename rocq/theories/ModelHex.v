(** Model of /repo/src/hexstring.rs: rendering and parsing of hexadecimal.

    A [&str] is the list of its UTF-8 bytes; positions in it are byte positions. *)
From Verif Require Import Base ModelUtf8.

(** error.rs 98-105: [HexConvError]. *)
Inductive hex_error := OddParity (s : list byte) | NonHex (s : list byte).

(** Lower-case digit of a number below 16, as [LowerHex] of core writes it. *)
Definition lower_digit (n : Z) : byte := if n <? 10 then 48 + n else 87 + n.

(** core: [write!(f, "{byte:02x}")]: the digits of [byte] in base 16 without
    leading zeros, padded on the left with '0' to two characters. *)
Definition fmt_02x (b : byte) : list byte :=
  let digits := if b <? 16 then [lower_digit b] else [lower_digit (b / 16); lower_digit (b mod 16)] in
  repeat 48 (2 - length digits) ++ digits.

(** hexstring.rs 80-89: [hex_of_bytes]; 335-337: [to_hex].
    Writing to a [String] does not fail. *)
Fixpoint hex_of_bytes (bytes : list byte) : list byte :=
  match bytes with
  | [] => []
  | b :: rest => fmt_02x b ++ hex_of_bytes rest
  end.

(** core [char::to_digit(16)], of the byte taken as a character. *)
Definition to_digit16 (c : byte) : option Z :=
  if (48 <=? c) && (c <=? 57) then Some (c - 48)
  else if (97 <=? c) && (c <=? 102) then Some (c - 87)
  else if (65 <=? c) && (c <=? 70) then Some (c - 55)
  else None.

(** core [u8::from_str_radix(src, 16)]: an optional leading '+', then at least one
    digit; no overflow.  A lone '+' or '-' is invalid, and '-' is not a sign for an
    unsigned type. *)
Fixpoint radix_loop (acc : Z) (digits : list byte) : option Z :=
  match digits with
  | [] => Some acc
  | c :: rest =>
      match to_digit16 c with
      | Some d => if 255 <? acc * 16 + d then None else radix_loop (acc * 16 + d) rest
      | None => None
      end
  end.
Definition u8_from_str_radix16 (src : list byte) : option Z :=
  match src with
  | [] => None
  | [c] => if (c =? 43) || (c =? 45) then None else radix_loop 0 src
  | c :: rest => if c =? 43 then radix_loop 0 rest else radix_loop 0 src
  end.

(** core [str::is_char_boundary]. *)
Definition is_char_boundary (i : Z) (s : list byte) : bool :=
  if i =? 0 then true
  else if i <? zlen s then negb (is_cont (nth (Z.to_nat i) s 0))
  else i =? zlen s.

(** core [&s[i..j]]: panics unless both ends are character boundaries. *)
Definition str_slice {E} (i j : Z) (s : list byte) : res E (list byte) :=
  if (i <=? j) && is_char_boundary i s && is_char_boundary j s then ROk (zslice i j s) else RPanic.

(** hexstring.rs 143-148: the loop of [bytes_of_hex], [n] rounds from [ix]. *)
Fixpoint bytes_of_hex_loop (n : nat) (ix : Z) (src dst : list byte) : res hex_error (list byte) :=
  match n with
  | O => ROk dst
  | S n =>
      rbind (str_slice (ix * 2) (ix * 2 + 2) src) (fun pair =>
      match u8_from_str_radix16 pair with
      | Some word => bytes_of_hex_loop n (ix + 1) src (dst ++ [word])
      | None => RErr (NonHex src)
      end)
  end.

(** hexstring.rs 130-150: [bytes_of_hex]; 345-352: [from_hex]; 546-565: [TryFrom]
    of the string types; 589-595: [FromStr]. *)
Definition bytes_of_hex (src : list byte) : res hex_error (list byte) :=
  let ascii_len := zlen src in
  if ascii_len =? 0 then ROk []
  else if negb (ascii_len mod 2 =? 0) then RErr (OddParity src)
  else bytes_of_hex_loop (Z.to_nat (ascii_len / 2)) 0 src [].

(** hexstring.rs 173-178: the loop of [eq_hex_bytes]. *)
Fixpoint eq_hex_loop (n : nat) (ix : Z) (src tgt : list byte) : res hex_error bool :=
  match n with
  | O => ROk true
  | S n =>
      rbind (str_slice (ix * 2) (ix * 2 + 2) src) (fun pair =>
      match u8_from_str_radix16 pair, nth_error tgt (Z.to_nat ix) with
      | Some b, Some t => if b =? t then eq_hex_loop n (ix + 1) src tgt else ROk false
      | Some _, None => RPanic
      | None, _ => ROk false
      end)
  end.

(** hexstring.rs 165-180: [eq_hex_bytes]; 360-365: [eq_hex]; 597-620: [==] with the
    string types. *)
Definition eq_hex_bytes (src tgt : list byte) : res hex_error bool :=
  let ascii_len := zlen src in
  let bytes_len := zlen tgt in
  if negb (bytes_len * 2 =? ascii_len) then ROk false
  else eq_hex_loop (Z.to_nat bytes_len) 0 src tgt.
