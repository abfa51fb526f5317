(** Model of /repo/src/int.rs (fixed-width integers, RangedInt) and of
    [BoundsError::restrict] in /repo/src/error.rs. *)
From Verif Require Import Base ModelErrors.

(** The eight integer types transcoded by int.rs 567-574. *)
Inductive int_kind := U8 | I8 | U16 | I16 | U32 | I32 | U64 | I64.

(** conv/len.rs 98-101: [FixedLength::LEN] of the integer types. *)
Definition ik_len (k : int_kind) : Z :=
  match k with
  | U8 | I8 => 1
  | U16 | I16 => 2
  | U32 | I32 => 4
  | U64 | I64 => 8
  end.

Definition ik_signed (k : int_kind) : bool :=
  match k with I8 | I16 | I32 | I64 => true | _ => false end.

(** Number of values of the type, and its smallest and largest value. *)
Definition ik_mod (k : int_kind) : Z := 256 ^ ik_len k.
Definition ik_min (k : int_kind) : Z := if ik_signed k then - (ik_mod k / 2) else 0.
Definition ik_max (k : int_kind) : Z := if ik_signed k then ik_mod k / 2 - 1 else ik_mod k - 1.
Definition ik_in (k : int_kind) (z : Z) : bool := (ik_min k <=? z) && (z <=? ik_max k).

(** Rust [x as k]: reduction to the range of [k]. *)
Definition ik_wrap (k : int_kind) (z : Z) : Z :=
  let u := z mod ik_mod k in
  if ik_signed k && (ik_mod k / 2 <=? u) then u - ik_mod k else u.

(** [k::try_from(x)] between integers (core). *)
Definition ik_try_from (k : int_kind) (z : Z) : option Z := if ik_in k z then Some z else None.

(** [n] bytes of [z], most significant first. *)
Fixpoint be_bytes (n : nat) (z : Z) : list byte :=
  match n with
  | O => []
  | S n => (z / 256 ^ Z.of_nat n) mod 256 :: be_bytes n z
  end.

(** The unsigned number with the given bytes, most significant first. *)
Definition be_value (bs : list byte) : Z := fold_left (fun acc b => acc * 256 + b) bs 0.

(** int.rs 551: [to_be_bytes] (core), of the two's-complement bit pattern. *)
Definition to_be_bytes (k : int_kind) (z : Z) : list byte :=
  be_bytes (Z.to_nat (ik_len k)) (z mod ik_mod k).

(** int.rs 561: [from_be_bytes] (core). *)
Definition from_be_bytes (k : int_kind) (bs : list byte) : Z := ik_wrap k (be_value bs).

(** ------------------------------------------------------------------ *)
(** * BoundsError::restrict (error.rs 187-243)

    The extended type ([i64] or [i128]) holds every argument that can occur, so
    the conversions into it never fail and [max - min] never overflows. *)
Definition restrict (val min max : Z) : res bounds_error Z :=
  if 0 <? min then
    if val <? 0 then RErr (BIllegalNegative min val)
    else if max <? min then RErr (BInvalidBounds min max)
    else if max - min <? val then RErr (BOverflow (max - min) val)
    else ROk val
  else if min <=? val then
    if val <=? max then ROk val
    else if max <? min then RErr (BInvalidBounds min max)
    else RErr (BOverflow max val)
  else if max <? min then RErr (BInvalidBounds min max)
  else RErr (BUnderflow min val).

(** ------------------------------------------------------------------ *)
(** * RangedInt<I, MIN, MAX> (int.rs 136-543)

    A value of the struct is its stored number (of type [I]).  [rc] is the
    feature [invalid_range_checking]. *)
Definition min_ocaml : Z := - 2 ^ 30.
Definition max_ocaml : Z := 2 ^ 30 - 1.

(** int.rs 161-162: [SANITY]. *)
Definition ri_sanity (lo hi : Z) : bool :=
  (min_ocaml <=? lo) && (hi <=? max_ocaml) && (lo <=? hi).

Section RangedInt.
Variables (rc : bool) (m : mode) (I : int_kind) (lo hi : Z).

(** int.rs 222-228 and its repetitions: the sanity assertion. *)
Definition ri_check {E} : res E unit := if rc then rassert (ri_sanity lo hi) else ROk tt.

(** int.rs 220-231: [try_from_underlying]. *)
Definition ri_try_from_underlying (x : Z) : res bounds_error Z :=
  rbind ri_check (fun _ => restrict x lo hi).

(** int.rs 200-202: [from_underlying]. *)
Definition ri_from_underlying {E} (x : Z) : res E Z :=
  match ri_try_from_underlying x with ROk y => ROk y | _ => RPanic end.

(** Rust [i32] subtraction and addition. *)
Definition i32_checked {E} (z : Z) : res E Z :=
  if ik_in I32 z then ROk z
  else match m with Debug => RPanic | Release => ROk (ik_wrap I32 z) end.

(** int.rs 235-250: [from_numeric_unchecked]; [unwrap] panics on a failed
    conversion. *)
Definition ri_from_numeric_unchecked {E} (x : Z) : res E Z :=
  if lo <=? 0 then
    match ik_try_from I x with Some y => ROk y | None => RPanic end
  else
    match ik_try_from I32 x with
    | Some y =>
        rbind (i32_checked (y - lo)) (fun d =>
          match ik_try_from I d with Some y => ROk y | None => RPanic end)
    | None => RPanic
    end.

(** int.rs 259-276: [try_from_i32]. *)
Definition ri_try_from_i32 (x : Z) : res bounds_error Z :=
  rbind ri_check (fun _ =>
  rbind (if lo <=? 0 then ROk x else i32_checked (x - lo)) (fun underlying =>
  rbind (restrict underlying lo hi) (fun y =>
    match ik_try_from I y with Some v => ROk v | None => RErr BFailed end))).

(** int.rs 252-257: [from_i32]. *)
Definition ri_from_i32 {E} (x : Z) : res E Z :=
  match ri_try_from_i32 x with ROk y => ROk y | _ => RPanic end.

(** int.rs 456-476: [TryFrom<$src>] for any primitive source. *)
Definition ri_try_from (x : Z) : res bounds_error Z :=
  match restrict x lo hi with
  | ROk y => ri_from_numeric_unchecked y
  | RErr e => RErr e
  | _ => RPanic
  end.

(** int.rs 322-335: [to_underlying]. *)
Definition ri_to_underlying {E} (v : Z) : res E Z :=
  rbind ri_check (fun _ => match restrict v lo hi with ROk x => ROk x | _ => RPanic end).

(** int.rs 350-369: [to_i32]. *)
Definition ri_to_i32 {E} (v : Z) : res E Z :=
  rbind ri_check (fun _ =>
    match restrict v lo hi with
    | ROk x => if lo <=? 0 then ROk (ik_wrap I32 x) else i32_checked (ik_wrap I32 x + lo)
    | _ => RPanic
    end).

(** int.rs 375-385: [Default] ([clamp] panics if MIN > MAX). *)
Definition ri_default {E} : res E Z :=
  if lo <=? hi then ROk (ik_wrap I (Z.max lo (Z.min hi 0))) else RPanic.

(** int.rs 395-416: [min_val], [max_val]. *)
Definition ri_min_val : Z := ik_wrap I lo.
Definition ri_max_val : Z := ik_wrap I hi.

(** int.rs 428-439: [From<RangedInt> for $dest]. *)
Definition ri_into (dest : int_kind) (v : Z) : Z := ik_wrap dest v.

(** int.rs 441-454: [TryFrom<RangedInt> for $dest]. *)
Definition ri_try_into (dest : int_kind) (v : Z) : option Z := ik_try_from dest v.

End RangedInt.
