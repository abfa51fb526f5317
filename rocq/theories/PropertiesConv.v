(** C57-C59: conversions between codec values and Rust's own numbers, and the
    length prefix a dynamic value announces. *)
From Verif Require Import Base BaseLemmas ModelErrors ModelParser ModelInt ModelFloat ModelZarith ModelSchema ModelConv
  SpecCodec SpecNum SpecConv ProofConv PropertiesNum.
From Coq Require Import ZifyBool.

(** ------------------------------------------------------------------ *)
(** * C57: single precision into RangedFloat

    Widening changes no number: the double stands for the same multiple of
    2^-149 (which is 2^925 units of 2^-1074), with the same sign bit, and is a
    NaN exactly when the single is. *)
Theorem C57_widening_exact : forall b, 0 <= b < 2 ^ 32 ->
  0 <= f64_from_f32 b < 2 ^ 64 /\ f64_finite (f64_from_f32 b) = f32_finite b /\
  (f32_finite b = true -> f64_value (f64_from_f32 b) = 2 ^ 925 * f32_value b) /\
  f64_is_nan (f64_from_f32 b) = f32_is_nan b /\ (f64_from_f32 b <? 2 ^ 63) = (b <? 2 ^ 31).
Proof. exact f32_widens. Qed.
Print Assumptions C57_widening_exact.

Theorem C57_accepted : forall lo hi b, 0 <= b < 2 ^ 32 -> 0 <= lo < 2 ^ 64 -> 0 <= hi < 2 ^ 64 ->
  f64_finite lo = true -> f64_finite hi = true -> f32_finite b = true ->
  (rf_try_from_f32 lo hi b = ROk (f64_from_f32 b) <-> f64_value lo <= 2 ^ 925 * f32_value b <= f64_value hi).
Proof. exact f32_accepted_value. Qed.
Print Assumptions C57_accepted.

Theorem C57_accepted_any_bounds : forall lo hi b y,
  rf_try_from_f32 lo hi b = ROk y <->
  y = f64_from_f32 b /\ f64_le lo (f64_from_f32 b) = true /\ f64_le (f64_from_f32 b) hi = true.
Proof. exact f32_accepted. Qed.
Print Assumptions C57_accepted_any_bounds.

Theorem C57_nan_refused : forall lo hi b, f32_is_nan b = true -> 0 <= b < 2 ^ 32 ->
  rf_try_from_f32 lo hi b = RErr (if f64_le lo hi then BUnderflow lo (f64_from_f32 b) else BInvalidBounds lo hi).
Proof. exact f32_refused. Qed.
Print Assumptions C57_nan_refused.

(** Checking a stored number again accepts exactly the numbers of the range. *)
Theorem C57_get_validated : forall lo hi b y,
  rf_get_validated lo hi b = ROk y <-> y = b /\ f64_le lo b = true /\ f64_le b hi = true.
Proof. exact get_validated_spec. Qed.
Print Assumptions C57_get_validated.

(** 1.5f32 = 0x3fc00000, 1.5f64 = 0x3ff8...; the smallest subnormal single 2^-149. *)
Example C57_meets :
  f64_from_f32 0x3fc00000 = 0x3ff8000000000000 /\ f64_from_f32 1 = 0x36a0000000000000 /\
  f64_from_f32 0x80000000 = 0x8000000000000000 /\ f64_from_f32 0xff800000 = 0xfff0000000000000 /\
  f32_value 1 = 1 /\ f32_finite 1 = true /\ f32_is_nan 0x7fc00000 = true /\
  rf_try_from_f32 0x3ff0000000000000 0x4000000000000000 0x3fc00000 = ROk 0x3ff8000000000000 /\
  rf_try_from_f32 0x3ff0000000000000 0x4000000000000000 1 = RErr (BUnderflow 0x3ff0000000000000 0x36a0000000000000).
Proof. vm_compute. repeat apply conj; reflexivity. Qed.

(** [MIN] and [MAX] of a ranged float (C20): if the bounds are in order they are
    values of the type, the least and the greatest; otherwise nothing is accepted, by
    the constructor or from the wire, not even what [MIN] and [MAX] encode to. *)
Theorem C20_extremes : forall lo hi,
  (f64_le lo hi = true ->
     rf_try_from_f64 lo hi (rf_min lo hi) = ROk (rf_min lo hi) /\ rf_try_from_f64 lo hi (rf_max lo hi) = ROk (rf_max lo hi)) /\
  (forall x y, rf_try_from_f64 lo hi x = ROk y -> f64_le (rf_min lo hi) y = true /\ f64_le y (rf_max lo hi) = true) /\
  (f64_le lo hi = false ->
     forall x, rf_try_from_f64 lo hi x = RErr (BInvalidBounds (rf_min lo hi) (rf_max lo hi))).
Proof. exact ranged_float_extremes. Qed.
Print Assumptions C20_extremes.

Theorem C20_extremes_wire : forall w cf D kf lo hi rest,
  is_u64 lo = true -> is_u64 hi = true -> bytes_ok rest -> zlen rest <= isize_max - 8 ->
  let t := TRangedF lo hi in
  to_bytes cf D kf (VInt (rf_min lo hi)) t = ROk (big_endian 8 lo) /\
  to_bytes cf D kf (VInt (rf_max lo hi)) t = ROk (big_endian 8 hi) /\
  (f64_le lo hi = true ->
     reads w cf D t (big_endian 8 lo ++ rest) (ROk (VInt (rf_min lo hi), rest)) /\
     reads w cf D t (big_endian 8 hi ++ rest) (ROk (VInt (rf_max lo hi), rest))) /\
  (f64_le lo hi = false -> forall input v r, bytes_ok input -> zlen input <= isize_max -> ~ reads w cf D t input (ROk (v, r))).
Proof. exact ranged_float_extremes_wire. Qed.
Print Assumptions C20_extremes_wire.

(** The unit interval, and its bounds swapped. *)
Example C20_extremes_ex :
  let one := 0x3ff0000000000000 in
  f64_le 0 one = true /\ f64_le one 0 = false /\ is_u64 one = true /\ is_u64 0 = true /\
  rf_try_from_f64 0 one (rf_max 0 one) = ROk one /\
  rf_try_from_f64 one 0 (rf_min one 0) = RErr (BInvalidBounds one 0).
Proof. vm_compute. repeat apply conj; reflexivity. Qed.

(** ------------------------------------------------------------------ *)
(** * C58: the length prefix of a dynamic value is announced before it is written *)
Theorem C58_length_prefix : forall cf D kf s v t bs,
  cf_est_override cf = false -> to_bytes cf D kf v t = ROk bs -> zlen bs <= isize_max ->
  length_prefix cf D kf s v t =
    if zlen bs <=? pref_max s then ROk (zlen bs) else RErr (Some (TooWide (pref_max s) (zlen bs))).
Proof. exact length_prefix_exact. Qed.
Print Assumptions C58_length_prefix.

(** In every build: what is written starts with the announced prefix, and what
    has no prefix is not written. *)
Theorem C58_prefix_written : forall cf D kf s v t out, to_bytes cf D kf (VWrap v) (TDyn s t) = ROk out ->
  exists p payload, length_prefix cf D kf s v t = ROk p /\ to_bytes cf D kf v t = ROk payload /\ out = pref_format s p ++ payload.
Proof. exact length_prefix_written. Qed.
Print Assumptions C58_prefix_written.

Theorem C58_refused_panics : forall cf D kf s v t e, length_prefix cf D kf s v t = RErr (Some e) ->
  to_bytes cf D kf (VWrap v) (TDyn s t) = RPanic.
Proof. exact length_prefix_refused. Qed.
Print Assumptions C58_refused_panics.

Example C58_meets :
  length_prefix dbg_cf [] 3 PrefU8 (VBytes (repeat 7 255)) TBytes = ROk 255 /\
  length_prefix dbg_cf [] 3 PrefU8 (VBytes (repeat 7 256)) TBytes = RErr (Some (TooWide 255 256)) /\
  length_prefix dbg_cf [] 3 PrefU16 (VBytes (repeat 7 256)) TBytes = ROk 256 /\
  to_bytes dbg_cf [] 3 (VWrap (VBytes [7; 8])) (TDyn PrefU16 TBytes) = ROk [0; 2; 7; 8] /\ cf_est_override dbg_cf = false.
Proof. vm_compute. repeat apply conj; reflexivity. Qed.

(** ------------------------------------------------------------------ *)
(** * C59: natural numbers and integers convert to machine integers *)
Theorem C59_natural : forall w cf D input v rest, bytes_ok input -> small input ->
  reads w cf D TN input (ROk (v, rest)) ->
  exists bs z, input = bs ++ rest /\ marked bs /\ v = VInt z /\ z = groups_value bs /\
    forall k, In k nat_targets -> (z < 256 ^ ik_len k -> big_try_into k z = Some z) /\ (256 ^ ik_len k <= z -> big_try_into k z = None).
Proof. exact natural_into. Qed.
Print Assumptions C59_natural.

Theorem C59_integer : forall w cf D input v rest, bytes_ok input -> small input ->
  reads w cf D TZ input (ROk (v, rest)) ->
  exists bs z, input = bs ++ rest /\ marked bs /\ v = VInt z /\ z = signed_groups_value bs /\
    forall k, In k int_targets ->
      (ik_min k <= z <= ik_max k -> big_try_into k z = Some z) /\ (~ ik_min k <= z <= ik_max k -> big_try_into k z = None).
Proof. exact integer_into. Qed.
Print Assumptions C59_integer.

(** Every machine integer type is offered for [Z], and exactly the unsigned ones for [N]. *)
Theorem C59_targets : (forall k, In k int_targets) /\ (forall k, In k nat_targets <-> ik_min k = 0).
Proof. exact conversion_targets. Qed.
Print Assumptions C59_targets.

(** A machine integer survives the trip through the codec. *)
Theorem C59_round_trip : forall w cf D k x rest, In k int_targets -> ik_in k x = true ->
  bytes_ok rest -> small (integer_format x ++ rest) ->
  exists out z, to_bytes cf D 0 (VInt x) TZ = ROk out /\ reads w cf D TZ (out ++ rest) (ROk (VInt z, rest)) /\ big_try_into k z = Some x.
Proof. exact integer_machine_round_trip. Qed.
Print Assumptions C59_round_trip.

Example C59_meets :
  big_try_into U8 (groups_value [255; 1]) = Some 255 /\ big_try_into U8 (groups_value [128; 2]) = None /\
  big_try_into I8 (signed_groups_value [192; 2]) = Some (-128) /\ big_try_into I8 (signed_groups_value [128; 2]) = None /\
  marked [255; 1] /\ In U8 nat_targets /\ ik_in I8 (-128) = true.
Proof. vm_compute. repeat apply conj; try reflexivity; try discriminate. left; reflexivity. Qed.
