(** Model of [Hash::hash] of the codec types: the derived instances, the one
    written out for [Dynamic] (/repo/src/dynamic.rs 175-182) and the one [data!]
    emits (/repo/src/adt.rs 315-330).

    Hashing a value feeds a hasher a string of bytes; the model is that string.
    Core feeds numbers in the byte order of the machine, taken to be little-endian
    and 64-bit as everywhere here.  Nothing is fed for a floating-point number,
    which has no [Hash] (f64 and RangedFloat are excluded from the theorems), nor
    for a value that is not of the type.

    Simplification: rustc leaves out the discriminant of an enum of one variant
    when deriving [Hash]; it is always fed here. *)
From Verif Require Import Base ModelErrors ModelInt ModelSchema.

(** Core: [Hash] of an integer type; of a length ([write_length_prefix]) and of the
    discriminant of an enum without [repr] ([isize]). *)
Definition feed_int (k : int_kind) (z : Z) : list byte := rev (to_be_bytes k z).
Definition feed_word (n : Z) : list byte := feed_int U64 n.

(** num-bigint: the digits of a [BigUint], 64 bits each, the lowest first; zero
    has none.  [fuel] is more than their number. *)
Fixpoint big_digits (fuel : nat) (n : Z) : list Z :=
  match fuel with
  | O => []
  | S fuel => if n <=? 0 then [] else n mod 2 ^ 64 :: big_digits fuel (n / 2 ^ 64)
  end.
Definition digits64 (n : Z) : list Z := big_digits (Z.to_nat (Z.log2 n / 64 + 1)) n.

(** Alloc: [Hash] of a vector or slice: its length, then its elements. *)
Definition feed_slice {A} (f : A -> list byte) (l : list A) : list byte :=
  feed_word (zlen l) ++ concat (map f l).

(** num-bigint: [Hash] of [BigUint] and [BigInt] (zarith.rs 37 and 167); the sign
    is an enum of Minus, NoSign, Plus. *)
Definition feed_nat (n : Z) : list byte := feed_slice feed_word (digits64 n).
Definition feed_big (z : Z) : list byte :=
  if z <? 0 then feed_word 0 ++ feed_nat (- z)
  else if z =? 0 then feed_word 1
  else feed_word 2 ++ feed_nat z.

(** Derived [Hash] of a struct: its members in order. *)
Definition feed_fields {A T} (f : A -> T -> list byte) : list A -> list T -> list byte :=
  fix go l ts :=
    match l, ts with
    | a :: l, t :: ts => f a t ++ go l ts
    | _, _ => []
    end.

(** int.rs 134, zarith.rs 37 and 167, schema.rs 116, 247 and 363, fixed.rs 29 and
    275, seq/mod.rs 75, seq/lim.rs 48, seq/fix.rs 74, dynamic.rs 175-182 and 420,
    autobox.rs 70, adt.rs 48-49 (the discriminant, in the backing integer) and
    315-330 (the discriminant, then the payload).  Core: [String] (its bytes and
    0xff), [bool], [Option], arrays (as slices), [Box]. *)
Fixpoint feed (D : list def) (v : val) (t : ty) : list byte :=
  match t, v with
  | TUnit, VUnit => []
  | TBool, VBool b => feed_int U8 (if b then 1 else 0)
  | TInt k, VInt z | TRanged k _ _, VInt z => feed_int k z
  | TN, VInt z => feed_nat z
  | TZ, VInt z => feed_big z
  | TString, VBytes bs => bs ++ [255]
  | TBytes, VBytes bs | TFixedBytes _, VBytes bs | TFixedString _, VBytes bs => feed_slice (feed_int U8) bs
  | TOption t, v | TNullable t, v =>
      match v with
      | VNone => feed_word 0
      | VSome v => feed_word 1 ++ feed D v t
      | _ => []
      end
  | TSeq t, VSeq vs | TLim _ t, VSeq vs | TFix _ t, VSeq vs => feed_slice (fun v => feed D v t) vs
  | TDyn _ t, VWrap v | TVPad _ t, VWrap v | TPad _ t, VWrap v | TBox t, VWrap v => feed D v t
  | TNamed i, v =>
      match nth_error D i, v with
      | Some (DStruct ts), VStruct vs => feed_fields (feed D) vs ts
      | Some (DCStyle k tags), VEnum ix _ => feed_int k (nth ix tags 0)
      | Some (DData k alts), VEnum ix vs =>
          let (n, ts) := nth ix alts (0, []) in feed_int k n ++ feed_fields (feed D) vs ts
      | _, _ => []
      end
  | _, _ => []
  end.
