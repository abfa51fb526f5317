(** Specification side of hashing: values a machine can hold. *)
From Verif Require Import Base ModelErrors ModelInt ModelSchema.

(** Every length, and the number of 64-bit digits of every number, fits a [usize]. *)
Fixpoint holdable (v : val) : bool :=
  match v with
  | VInt z => Z.log2 (Z.abs z) / 64 + 1 <? usize_mod
  | VBytes bs => zlen bs <? usize_mod
  | VSome v | VWrap v => holdable v
  | VSeq vs => (zlen vs <? usize_mod) && forallb holdable vs
  | VStruct vs | VEnum _ vs => forallb holdable vs
  | VUnit | VBool _ | VNone => true
  end.
