(** What the number formats mean: values of ranges, groups of seven bits. *)
From Coq Require Import ZArith.
From Verif Require Import Base ModelErrors ModelInt ModelParser ModelSchema SpecCodec.

(** The number a RangedInt stands for, given the number it stores: with a
    positive MIN the stored number is the distance from MIN. *)
Definition ranged_value (lo stored : Z) : Z := if 0 <? lo then lo + stored else stored.
Definition ranged_stored (lo x : Z) : Z := if 0 <? lo then x - lo else x.

(** The backer [I] can hold every stored number of the range. *)
Definition backer_holds (k : int_kind) (lo hi : Z) : Prop :=
  ik_min k <= ranged_stored lo lo /\ ranged_stored lo hi <= ik_max k.

(** A natural number in groups of seven bits, least significant first. *)
Fixpoint groups_value (l : list byte) : Z :=
  match l with [] => 0 | b :: l => b mod 128 + 128 * groups_value l end.
(** An integer: bit 6 of the first byte is the sign, bits 0-5 the low digits. *)
Definition signed_groups_value (l : list byte) : Z :=
  match l with
  | [] => 0
  | b :: l => (if b mod 128 <? 64 then 1 else -1) * (b mod 64 + 64 * groups_value l)
  end.

(** All bytes but the last have the high bit set; there is a last. *)
Fixpoint marked (l : list byte) : Prop :=
  match l with
  | [] => False
  | [b] => b < 128
  | b :: l => 128 <= b /\ marked l
  end.

(** No redundant final group (and no negative zero). *)
Definition natural_minimal (l : list byte) : Prop := zlen l = 1 \/ last l 0 <> 0.
Definition integer_minimal (l : list byte) : Prop :=
  match l with [b] => b <> 64 | _ => last l 0 <> 0 end.

(** Decoding ends with a parse error. *)
Definition rejects (w : which_parser) (cf : config) (D : list def) (t : ty) (input : list byte) : Prop :=
  exists e, decodes w cf D t input (RErr (DParse e)).

(** The exact value of a finite binary64 pattern, in units of 2^-1074. *)
Definition f64_finite (b : Z) : bool := negb (b / 2 ^ 52 mod 2048 =? 2047).
Definition f64_value (b : Z) : Z :=
  let e := b / 2 ^ 52 mod 2048 in
  let frac := b mod 2 ^ 52 in
  (if b <? 2 ^ 63 then 1 else -1) * (if e =? 0 then frac else (2 ^ 52 + frac) * 2 ^ (e - 1)).
