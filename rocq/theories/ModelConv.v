(** Model of conversions between values and Rust's own numbers: /repo/src/float.rs
    (single precision), /repo/src/zarith.rs (machine integers) and
    [Dynamic::length_prefix] in /repo/src/dynamic.rs. *)
From Verif Require Import Base ModelErrors ModelInt ModelFloat ModelZarith ModelSchema.

(** ** Single precision

    An [f32] is its 32-bit pattern: sign, 8 bits of exponent, 23 bits of
    fraction.  [f64::from(f32)] (core, called in error.rs 250) widens it; a
    subnormal pattern is normalised.  The payload of a widened NaN is not fixed
    by Rust; here it is shifted, as the hardware does. *)
Definition f32_exp (b : Z) : Z := (b / 2 ^ 23) mod 2 ^ 8.
Definition f32_frac (b : Z) : Z := b mod 2 ^ 23.
Definition f64_make (sign : bool) (e frac : Z) : Z :=
  (if sign then 2 ^ 63 else 0) + e * 2 ^ 52 + frac.
Definition f64_from_f32 (b : Z) : Z :=
  let sign := 2 ^ 31 <=? b in
  let e := f32_exp b in
  let frac := f32_frac b in
  if e =? 255 then f64_make sign 2047 (frac * 2 ^ 29)
  else if e =? 0 then
    if frac =? 0 then f64_make sign 0 0
    else
      let k := Z.log2 frac in
      f64_make sign (k + 874) ((frac - 2 ^ k) * 2 ^ (52 - k))
  else f64_make sign (e + 896) (frac * 2 ^ 29).

(** float.rs 260-262 [prevalidate_f32], 305-309 [TryFrom<f32>]; error.rs 245-265. *)
Definition rf_try_from_f32 (lo hi val : Z) : res bounds_error Z := restrict_float (f64_from_f32 val) lo hi.

(** float.rs 289-291: [get_validated] of a stored pattern. *)
Definition rf_get_validated (lo hi val : Z) : res bounds_error Z := restrict_float val lo hi.

(** float.rs 165-171: the constants [MIN] and [MAX], float.rs 182-184 unchecked;
    float.rs 230-232, 295-299: reading the number back. *)
Definition rf_min (lo hi : Z) : Z := lo.
Definition rf_max (lo hi : Z) : Z := hi.

(** ** Machine integers from N and Z

    zarith.rs 79-94 and 200-219: [TryFrom<N>] and [TryFrom<Z>] forward to
    num-bigint, which converts exactly the numbers the type holds. *)
Definition big_try_into (k : int_kind) (z : Z) : option Z := ik_try_from k z.
(** The targets listed in zarith.rs 91-94 and 211-219. *)
Definition nat_targets : list int_kind := [U8; U16; U32; U64].
Definition int_targets : list int_kind := [I8; I16; I32; I64; U8; U16; U32; U64].

(** ** Length prefixes

    dynamic.rs 126-144: [Dynamic::length_prefix].  [RErr None] stands for a
    payload that is not of its type. *)
Definition length_prefix (cf : config) (D : list def) (kf : nat) (s : len_pref) (v : val) (t : ty) : res (option width_error) Z :=
  match enc_len cf D kf v t with
  | ROk actual =>
      match pref_try_from cf s actual with
      | Some x => ROk x
      | None =>
          rbind (debug_assert (cf_mode cf) (pref_max s <? actual)) (fun _ =>
            RErr (Some (TooWide (pref_max s) actual)))
      end
  | RErr _ => RErr None
  | RPanic => RPanic
  | RUB => RUB
  | RDiv => RDiv
  end.
