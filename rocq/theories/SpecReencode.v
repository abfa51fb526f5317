(** Which types can be encoded again after decoding (C61). *)
From Verif Require Import Base ModelErrors ModelInt ModelSchema SpecCodec.

(** Every length prefix can hold [n]. *)
Fixpoint roomy (n : Z) (t : ty) : bool :=
  match t with
  | TDyn s t => (n <=? pref_max s) && roomy n t
  | TPad _ t | TVPad _ t | TOption t | TNullable t | TSeq t | TBox t | TLim _ t | TFix _ t => roomy n t
  | _ => true
  end.
Definition roomy_defs (n : Z) (D : list def) : bool :=
  forallb (fun d => forallb (forallb (roomy n)) (field_types d)) D.
