(** Vocabulary for statements about tags. *)
From Verif Require Import Base ModelEnum.

(** [v] accepts the listed tags: an array, a slice or vector, or a set of them. *)
Definition lists (v : validator) (tags : list Z) : Prop :=
  v = tv_array tags \/ v = tv_slice tags \/ v = tv_hashset tags.
