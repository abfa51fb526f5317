(** Specification of the texts of values: what a reader sees. *)
From Coq Require Import String.
From Verif Require Import Base ModelErrors ModelInt ModelSchema ModelDisplay SpecDisplay SpecCodec SpecUtf8.

(** [s] is a faithful text of a value of a type: truth values in words, numbers in
    decimal, strings as they are, fixed strings with what is not UTF-8 substituted
    ([substituted], SpecUtf8.v), wrapped values as the payload. *)
Inductive text_of : ty -> val -> list byte -> Prop :=
| text_true : text_of TBool (VBool true) (txt "true")
| text_false : text_of TBool (VBool false) (txt "false")
| text_int k z s : decimal s z -> text_of (TInt k) (VInt z) s
| text_n z s : decimal s z -> text_of TN (VInt z) s
| text_z z s : decimal s z -> text_of TZ (VInt z) s
| text_string bs : text_of TString (VBytes bs) bs
| text_fixed n bs cs : substituted bs cs -> text_of (TFixedString n) (VBytes bs) (utf8_string cs)
| text_dyn p t v s : text_of t v s -> text_of (TDyn p t) (VWrap v) s
| text_box t v s : text_of t v s -> text_of (TBox t) (VWrap v) s.

(** The type of a length prefix, by name. *)
Definition prefix_name (s : len_pref) : list byte :=
  match s with PrefU8 => txt "u8" | PrefU16 => txt "u16" | PrefU30 => txt "u30" end.

(** The types that have a text (floats aside). *)
Fixpoint textual (t : ty) : bool :=
  match t with
  | TBool | TInt _ | TN | TZ | TString | TFixedString _ => true
  | TDyn _ t | TBox t => textual t
  | _ => false
  end.

(** Every fixed string in the value is UTF-8. *)
Fixpoint utf8_within (v : val) (t : ty) : Prop :=
  match t, v with
  | TFixedString _, VBytes bs => exists cs, Forall scalar cs /\ bs = utf8_string cs
  | TDyn _ t, VWrap v | TBox t, VWrap v => utf8_within v t
  | _, _ => True
  end.
