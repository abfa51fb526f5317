(** Specification of hexadecimal strings. *)
From Verif Require Import Base.

(** Value of a hexadecimal digit, of either case. *)
Inductive hex_digit : byte -> Z -> Prop :=
| digit_num c : 48 <= c <= 57 -> hex_digit c (c - 48)            (* '0'..'9' *)
| digit_lower c : 97 <= c <= 102 -> hex_digit c (10 + (c - 97))  (* 'a'..'f' *)
| digit_upper c : 65 <= c <= 70 -> hex_digit c (10 + (c - 65)).  (* 'A'..'F' *)

(** [s] writes the bytes [b], two digits for each. *)
Inductive hex_denotes : list byte -> list byte -> Prop :=
| denotes_nil : hex_denotes [] []
| denotes_cons c1 c2 h l s b :
    hex_digit c1 h -> hex_digit c2 l -> hex_denotes s b -> hex_denotes (c1 :: c2 :: s) (16 * h + l :: b).

(** Digits that are not upper-case. *)
Definition lower_hex (c : byte) : Prop := 48 <= c <= 57 \/ 97 <= c <= 102.

(** ASCII strings, and ASCII case folding ('A'..'Z' to 'a'..'z'). *)
Definition ascii (s : list byte) : Prop := Forall (fun c => 0 <= c < 128) s.
Definition fold_case (s : list byte) : list byte :=
  map (fun c => if (65 <=? c) && (c <=? 90) then c + 32 else c) s.

(** '+' *)
Definition plus_sign : byte := 43.

(** What [from_hex] accepts in addition: '+' and a digit for a byte below 16. *)
Inductive loose_denotes : list byte -> list byte -> Prop :=
| loose_nil : loose_denotes [] []
| loose_pair c1 c2 h l s b :
    hex_digit c1 h -> hex_digit c2 l -> loose_denotes s b -> loose_denotes (c1 :: c2 :: s) (16 * h + l :: b)
| loose_plus c2 l s b :
    hex_digit c2 l -> loose_denotes s b -> loose_denotes (plus_sign :: c2 :: s) (l :: b).

(** After digits for [b], a character lies across the end of the next pair: the
    byte after that pair continues a character. *)
Definition straddles (s b : list byte) : Prop :=
  exists good c1 c2 d rest, s = good ++ c1 :: c2 :: d :: rest /\ loose_denotes good b /\ 0x80 <= d < 0xc0.
