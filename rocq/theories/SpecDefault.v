(** Which types take part in the default value of a type. *)
From Verif Require Import Base ModelInt ModelFloat ModelSchema SpecCodec SpecNum.

(** [default_of D t u]: the default value of [t] contains the default value of [u].
    None and the empty sequence contain nothing, so Option, Nullable and the
    sequences lead nowhere. *)
Inductive default_of (D : list def) : ty -> ty -> Prop :=
| do_self t : default_of D t t
| do_pad n t u : default_of D t u -> default_of D (TPad n t) u
| do_vpad n t u : default_of D t u -> default_of D (TVPad n t) u
| do_box t u : default_of D t u -> default_of D (TBox t) u
| do_field i ts t u : nth_error D i = Some (DStruct ts) -> In t ts -> default_of D t u ->
    default_of D (TNamed i) u.

(** The integer type of a range holds its numbers, and a positive MIN itself. *)
Definition backers_hold (D : list def) (t : ty) : Prop :=
  forall k lo hi, default_of D t (TRanged k lo hi) -> backer_holds k lo hi /\ (0 < lo -> lo <= ik_max k).

(** No sequence of exactly [n > 0] elements, and no range that is above 0 and too
    small to hold twice its minimum. *)
Definition sound_default (u : ty) : Prop :=
  match u with
  | TFix n _ => n = 0
  | TRanged _ lo hi => lo <= 0 \/ lo + lo <= hi
  | _ => True
  end.

(** The types that have a default value.  Dynamic, FixedString and the enums have
    none; [core] gives arrays one up to 32 elements; the bounds of a range must be
    in order. *)
Inductive has_default (D : list def) : ty -> Prop :=
| hd_unit : has_default D TUnit
| hd_bool : has_default D TBool
| hd_int k : has_default D (TInt k)
| hd_ranged k lo hi : lo <= hi -> has_default D (TRanged k lo hi)
| hd_f64 : has_default D TF64
| hd_rangedf lo hi : f64_le lo hi = true -> has_default D (TRangedF lo hi)
| hd_n : has_default D TN
| hd_z : has_default D TZ
| hd_bytes : has_default D TBytes
| hd_string : has_default D TString
| hd_fixed n : n <= 32 -> has_default D (TFixedBytes n)
| hd_option t : has_default D (TOption t)
| hd_nullable t : has_default D (TNullable t)
| hd_seq t : has_default D (TSeq t)
| hd_lim n t : has_default D (TLim n t)
| hd_fix n t : has_default D (TFix n t)
| hd_vpad n t : has_default D t -> has_default D (TVPad n t)
| hd_pad n t : has_default D t -> has_default D (TPad n t)
| hd_box t : has_default D t -> has_default D (TBox t)
| hd_struct i ts : nth_error D i = Some (DStruct ts) -> (forall t, In t ts -> has_default D t) ->
    has_default D (TNamed i).

(** 0 is in range. *)
Definition zero_in_range (u : ty) : Prop :=
  match u with
  | TRanged _ lo hi => lo <= 0 <= hi
  | TRangedF lo hi => f64_le lo 0 = true /\ f64_le 0 hi = true
  | _ => True
  end.
