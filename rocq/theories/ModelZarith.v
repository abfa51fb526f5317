(** Model of /repo/src/zarith.rs.  [BigUint]/[BigInt] (num-bigint) are [Z]. *)
From Verif Require Import Base.

(** [BigUint::to_radix_le(0x80)] (num-bigint): base-128 digits, least
    significant first; [[0]] for zero.  The fuel is the number of bits, an
    upper bound on the number of digits. *)
Fixpoint radix_le_digits (fuel : nat) (z : Z) : list byte :=
  match fuel with
  | O => []
  | S fuel => if z =? 0 then [] else z mod 128 :: radix_le_digits fuel (z / 128)
  end.
Definition to_radix_le_128 (z : Z) : list byte :=
  if z =? 0 then [0] else radix_le_digits (S (Z.to_nat (Z.log2 z))) z.

(** [BigUint::from_radix_le(digits, 0x80)] (num-bigint): fails on a digit that
    is not below the radix; the empty list is zero. *)
Fixpoint digits_value (ds : list byte) : Z :=
  match ds with
  | [] => 0
  | d :: ds => d + 128 * digits_value ds
  end.
Definition from_radix_le_128 (ds : list byte) : option Z :=
  if forallb (fun d => d <? 128) ds then Some (digits_value ds) else None.

(** [BigUint::bits], [BigInt::bits] (num-bigint): bits of the magnitude. *)
Definition bits (z : Z) : Z := if z =? 0 then 0 else Z.log2 (Z.abs z) + 1.

(** [Integer::div_ceil] (num-integer) on [usize], divisor 7. *)
Definition div_ceil7 (n : Z) : Z := if n mod 7 =? 0 then n / 7 else n / 7 + 1.

(** Apply [f] to the last element ([last_mut]). *)
Fixpoint map_last {A} (f : A -> A) (l : list A) : list A :=
  match l with
  | [] => []
  | [x] => [f x]
  | x :: l => x :: map_last f l
  end.
Definition map_first {A} (f : A -> A) (l : list A) : list A :=
  match l with [] => [] | x :: l => f x :: l end.

Definition flip_high (b : byte) : byte := Z.lxor b 128.

(** zarith.rs 122-139: [N::serialize]; [unreachable!] for no digits. *)
Definition n_serialize {E} (z : Z) : res E (list byte) :=
  match to_radix_le_128 z with
  | [] => RPanic
  | ret => ROk (map flip_high (map_last flip_high ret))
  end.

(** zarith.rs 114-120: [N::deserialize]. *)
Definition n_deserialize {E} (bytes : list byte) : res E Z :=
  match from_radix_le_128 (map (fun b => Z.land b 127) bytes) with
  | Some z => ROk z
  | None => RPanic
  end.

(** zarith.rs 294-328: [Z::serialize]; the [unchecked] accesses are undefined
    behaviour on an empty digit vector. *)
Definition z_serialize {E} (z : Z) : res E (list byte) :=
  match to_radix_le_128 (Z.shiftl (Z.abs z) 1) with
  | [] => RUB
  | ret =>
      let ret := map_first (fun b =>
        let b := Z.shiftr b 1 in if z <? 0 then Z.lor b 64 else b) ret in
      ROk (map flip_high (map_last flip_high ret))
  end.

(** zarith.rs 244-268: [Z::deserialize]. *)
Definition z_deserialize {E} (bytes : list byte) : res E Z :=
  match bytes with
  | [] => RPanic
  | first :: rest =>
      let negative := negb (Z.land first 64 =? 0) in
      let bot6 := Z.land first 63 in
      match from_radix_le_128 (map (fun b => Z.land b 127) rest) with
      | Some i =>
          let i := Z.lor (Z.shiftl i 6) bot6 in
          ROk (if negative then - i else i)
      | None => RPanic
      end
  end.

(** zarith.rs 24: the terminator test given to [take_self_terminating]. *)
Definition zarith_terminal (b : byte) : bool := Z.land b 128 =? 0.

(** zarith.rs 107-110: [Estimable::unknown] of N. *)
Definition n_unknown (z : Z) : Z := div_ceil7 (bits z).

(** zarith.rs 234-240: [Estimable::unknown] of Z. *)
Definition z_unknown (z : Z) : Z :=
  let n := bits z in if n <=? 6 then 1 else 1 + div_ceil7 (n - 6).
