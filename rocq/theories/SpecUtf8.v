(** What UTF-8 is: Unicode scalar values and their encoding (RFC 3629). *)
From Verif Require Import Base.

Definition scalar (c : Z) : Prop := 0 <= c < 0xd800 \/ 0xe000 <= c < 0x110000.

Definition utf8_encode (c : Z) : list byte :=
  if c <? 0x80 then [c]
  else if c <? 0x800 then [0xc0 + c / 64; 0x80 + c mod 64]
  else if c <? 0x10000 then [0xe0 + c / 4096; 0x80 + c / 64 mod 64; 0x80 + c mod 64]
  else [0xf0 + c / 262144; 0x80 + c / 4096 mod 64; 0x80 + c / 64 mod 64; 0x80 + c mod 64].

(** The bytes of a string, given as its characters. *)
Definition utf8_string (cs : list Z) : list byte := concat (map utf8_encode cs).

(** Lossy decoding (Unicode, "substitution of maximal subparts"): characters
    are kept; where no character starts, the longest run of bytes that begins
    one, or a single byte, becomes U+FFFD. *)
Definition begins_character (p : list byte) : Prop := exists c more, scalar c /\ utf8_encode c = p ++ more.
Definition no_character (l : list byte) : Prop := forall c more, scalar c -> l <> utf8_encode c ++ more.
Inductive substituted : list byte -> list Z -> Prop :=
| sub_nil : substituted [] []
| sub_char : forall c rest cs, scalar c -> substituted rest cs -> substituted (utf8_encode c ++ rest) (c :: cs)
| sub_bad : forall bad rest cs, bad <> [] -> no_character (bad ++ rest) ->
    begins_character bad \/ zlen bad = 1 ->
    (forall b rest', rest = b :: rest' -> ~ begins_character (bad ++ [b])) ->
    substituted rest cs -> substituted (bad ++ rest) (0xfffd :: cs).
