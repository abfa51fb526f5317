(** Model of /repo/src/float.rs and [restrict_float] in /repo/src/error.rs.

    An [f64] is its 64-bit pattern (an integer below 2^64): [to_bits] and
    [from_bits] (float.rs 325, 331) and the transmutes of float.rs 37-52 are the
    identity.  Comparison is IEEE 754 comparison as defined by Coq's
    [SpecFloat]. *)
From Coq Require Import Floats.SpecFloat.
From Verif Require Import Base ModelErrors.

(** The fields of a binary64 pattern. *)
Definition f64_sign (b : Z) : bool := 2 ^ 63 <=? b.
Definition f64_exp (b : Z) : Z := (b / 2 ^ 52) mod 2 ^ 11.
Definition f64_frac (b : Z) : Z := b mod 2 ^ 52.

(** The number a pattern stands for. *)
Definition f64_of_bits (b : Z) : spec_float :=
  if f64_exp b =? 2047 then
    if f64_frac b =? 0 then S754_infinity (f64_sign b) else S754_nan
  else if f64_exp b =? 0 then
    match f64_frac b with
    | Zpos p => S754_finite (f64_sign b) p (-1074)
    | _ => S754_zero (f64_sign b)
    end
  else
    match f64_frac b + 2 ^ 52 with
    | Zpos p => S754_finite (f64_sign b) p (f64_exp b - 1075)
    | _ => S754_nan
    end.

(** Rust [a <= b], [a < b] on f64 (false when either is NaN). *)
Definition f64_le (a b : Z) : bool := SFleb (f64_of_bits a) (f64_of_bits b).
Definition f64_lt (a b : Z) : bool := SFltb (f64_of_bits a) (f64_of_bits b).
Definition f64_is_nan (a : Z) : bool :=
  match f64_of_bits a with S754_nan => true | _ => false end.

(** error.rs 245-265: [restrict_float] ([val >= min] is [min <= val]). *)
Definition restrict_float (val min max : Z) : res bounds_error Z :=
  if f64_le min max then
    if f64_le min val then
      if f64_le val max then ROk val else RErr (BOverflow max val)
    else RErr (BUnderflow min val)
  else RErr (BInvalidBounds min max).

(** float.rs 193-197 [try_from_f64], 245-247 [prevalidate_f64], 289-291
    [get_validated]. *)
Definition rf_try_from_f64 (lo hi val : Z) : res bounds_error Z := restrict_float val lo hi.

(** float.rs 216-222: [from_f64]. *)
Definition rf_from_f64 {E} (lo hi val : Z) : res E Z :=
  rbind (rassert (f64_le lo val && f64_le val hi)) (fun _ => ROk val).

(** float.rs 146-149: [default]; [f64::clamp] (core) asserts [min <= max]. *)
Definition rf_default {E} (lo hi : Z) : res E Z :=
  rbind (rassert (f64_le lo hi)) (fun _ =>
    let x := if f64_lt 0 lo then lo else 0 in
    ROk (if f64_lt hi x then hi else x)).
