(** C16, with every outcome: the value, the error with its numbers, and the panics.

    [lo] and [hi] are the type's MIN and MAX, [k] its backing integer, [rc] the feature
    invalid_range_checking; [ranged_stored lo x] is the number stored for [x]. *)
From Verif Require Import Base ModelErrors ModelInt ModelSchema SpecCodec SpecNum ProofRanged.

(** [try_from_i32].  The last line is a defect: the distance from MIN does not fit in
    an i32. *)
Theorem C16_try_from_i32_outcome : forall rc m k lo hi x, ri_sanity lo hi = true -> ik_in I32 x = true ->
  (lo <= x <= hi -> ri_try_from_i32 rc m k lo hi x =
     if ik_in k (ranged_stored lo x) then ROk (ranged_stored lo x) else RErr BFailed) /\
  (hi < x -> ri_try_from_i32 rc m k lo hi x = RErr (BOverflow (ranged_stored lo hi) (ranged_stored lo x))) /\
  (lo <= 0 -> x < lo -> ri_try_from_i32 rc m k lo hi x = RErr (BUnderflow lo x)) /\
  (0 < lo -> - 2 ^ 31 + lo <= x < lo -> ri_try_from_i32 rc m k lo hi x = RErr (BIllegalNegative lo (x - lo))) /\
  (0 < lo -> x < - 2 ^ 31 + lo -> ri_try_from_i32 rc m k lo hi x =
     match m with Debug => RPanic | Release => RErr (BOverflow (hi - lo) (x - lo + 2 ^ 32)) end).
Proof. exact try_from_i32_outcome. Qed.
Print Assumptions C16_try_from_i32_outcome.

(** [from_i32]: the same value, or a panic. *)
Theorem C16_from_i32 : forall E rc m k lo hi x, ri_sanity lo hi = true -> ik_in I32 x = true ->
  @ri_from_i32 rc m k lo hi E x =
    if (lo <=? x) && (x <=? hi) && ik_in k (ranged_stored lo x) then ROk (ranged_stored lo x) else RPanic.
Proof. exact from_i32_total. Qed.
Print Assumptions C16_from_i32.

(** [try_from_underlying], [from_underlying] and [to_underlying] take stored numbers. *)
Theorem C16_underlying : forall E rc lo hi x, ri_sanity lo hi = true ->
  let inside := lo <= ranged_value lo x <= hi in
  (inside -> ri_try_from_underlying rc lo hi x = ROk x /\ @ri_from_underlying rc lo hi E x = ROk x /\
     @ri_to_underlying rc lo hi E x = ROk x) /\
  (~ inside -> ri_try_from_underlying rc lo hi x =
      RErr (if 0 <? lo then if x <? 0 then BIllegalNegative lo x else BOverflow (hi - lo) x
            else if x <? lo then BUnderflow lo x else BOverflow hi x) /\
    @ri_from_underlying rc lo hi E x = RPanic /\ @ri_to_underlying rc lo hi E x = RPanic).
Proof. exact underlying_outcome. Qed.
Print Assumptions C16_underlying.

(** [TryFrom] of an integer type.  For MIN > 0 it treats [x] as stored when it checks
    it and as the number meant when it stores it. *)
Theorem C16_try_from_outcome : forall m k lo hi x, ri_sanity lo hi = true ->
  let top := ranged_stored lo hi in
  (lo <= 0 -> x < lo -> ri_try_from m k lo hi x = RErr (BUnderflow lo x)) /\
  (0 < lo -> x < 0 -> ri_try_from m k lo hi x = RErr (BIllegalNegative lo x)) /\
  (top < x -> ri_try_from m k lo hi x = RErr (BOverflow top x)) /\
  (Z.min 0 lo <= x <= top -> ri_try_from m k lo hi x =
     if ik_in k (ranged_stored lo x) then ROk (ranged_stored lo x) else RPanic).
Proof. exact try_from_outcome. Qed.
Print Assumptions C16_try_from_outcome.

(** [from_numeric_unchecked] checks that the number can be stored, not the range. *)
Theorem C16_numeric_unchecked : forall E m k lo x, - 2 ^ 30 <= lo < 2 ^ 30 ->
  (ik_in k (ranged_stored lo x) = true -> (0 < lo -> ik_in I32 x = true /\ ik_in I32 (x - lo) = true) ->
     @ri_from_numeric_unchecked m k lo E x = ROk (ranged_stored lo x)) /\
  (lo <= 0 -> ik_in k x = false -> @ri_from_numeric_unchecked m k lo E x = RPanic) /\
  (0 < lo -> ik_in I32 x = false -> @ri_from_numeric_unchecked m k lo E x = RPanic).
Proof. exact numeric_unchecked_outcome. Qed.
Print Assumptions C16_numeric_unchecked.

(** With invalid_range_checking, a type with senseless bounds panics on every use. *)
Theorem C16_insane_bounds : forall E m k lo hi x, ri_sanity lo hi = false ->
  ri_try_from_i32 true m k lo hi x = RPanic /\ @ri_from_i32 true m k lo hi E x = RPanic /\
  ri_try_from_underlying true lo hi x = RPanic /\ @ri_from_underlying true lo hi E x = RPanic /\
  @ri_to_underlying true lo hi E x = RPanic /\ @ri_to_i32 true m lo hi E x = RPanic.
Proof. exact insane_panics. Qed.
Print Assumptions C16_insane_bounds.

Example C16_outcome_ex :
  ri_sanity 10 20 = true /\ ik_in I32 25 = true /\
  ri_try_from_i32 true Debug U8 10 20 15 = ROk 5 /\ ri_try_from_i32 true Debug U8 10 20 25 = RErr (BOverflow 10 15) /\
  ri_try_from_i32 true Debug U8 (-10) 20 (-11) = RErr (BUnderflow (-10) (-11)) /\
  ri_try_from_i32 true Debug U8 (-10) 20 (-9) = RErr BFailed /\
  @ri_from_i32 true Debug I8 (-10) 20 unit (-11) = RPanic /\ ri_sanity 5 4 = false.
Proof. repeat split. Qed.
