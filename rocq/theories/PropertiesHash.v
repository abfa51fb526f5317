(** Property theorems about hashing (C73).  [feed D v t] (ModelHash.v) is the string
    of bytes that hashing the value [v] of type [t] feeds to the hasher. *)
From Verif Require Import Base ModelErrors ModelInt ModelSchema ModelCompare ModelHash.
From Verif Require Import SpecCodec SpecCompare SpecHash ProofHash PropertiesCodec.

(** *** C73: hashing agrees with equality *)
Theorem C73_equal_hash_alike : forall D, wf_defs D = true -> forallb no_float_def D = true ->
  forall v w t, no_float t = true -> well_typed D v t = true -> well_typed D w t = true ->
  val_eq D v w t = true -> feed D v t = feed D w t.
Proof. exact feed_equal. Qed.
Print Assumptions C73_equal_hash_alike.

(** Values that are not equal feed different bytes, *)
Theorem C73_unequal_differ : forall D, wf_defs D = true -> forallb no_float_def D = true ->
  forall v w t, no_float t = true -> well_typed D v t = true -> well_typed D w t = true ->
  holdable v = true -> holdable w = true ->
  feed D v t = feed D w t -> val_eq D v w t = true.
Proof. exact feed_only_equal. Qed.
Print Assumptions C73_unequal_differ.

(** and no value's bytes continue another's: whatever is fed afterwards, the first
    value can be told from the bytes.  This is what the documentation of [Hash] asks
    for, so that structs and tuples of such values do not collide either. *)
Theorem C73_prefix_free : forall D, wf_defs D = true -> forallb no_float_def D = true ->
  forall v w t r r', no_float t = true -> well_typed D v t = true -> well_typed D w t = true ->
  holdable v = true -> holdable w = true ->
  feed D v t ++ r = feed D w t ++ r' -> v = w /\ r = r'.
Proof. exact feed_prefix. Qed.
Print Assumptions C73_prefix_free.

(** A [Dynamic] hashes and compares as its payload does, whatever the prefix type,
    so that it can be looked up by its payload ([Borrow]); so do the other wrappers. *)
Theorem C73_wrappers : forall D t t' v w, payload_of t = Some t' ->
  feed D (VWrap v) t = feed D v t' /\ val_eq D (VWrap v) (VWrap w) t = val_eq D v w t' /\
  val_cmp D (VWrap v) (VWrap w) t = val_cmp D v w t'.
Proof. exact wrappers_transparent. Qed.
Print Assumptions C73_wrappers.

Example C73_sample :
  wf_defs sample_defs = true /\ forallb no_float_def sample_defs = true /\ no_float sample_ty = true /\
  well_typed sample_defs sample_val sample_ty = true /\ holdable sample_val = true /\
  feed sample_defs sample_val sample_ty =
    [2; 1;  3; 0; 0; 0; 0; 0; 0; 0;
     0;  1; 0; 0; 0; 0; 0; 0; 0;  44; 1; 0; 0; 0; 0; 0; 0;
     9;  7; 0;  0; 0; 0; 0; 0; 0; 0; 0;  0; 0; 0; 0; 0; 0; 0; 0;
     7;  195; 169; 255;  1;
     1; 0; 0; 0; 0; 0; 0; 0;  0; 0; 0; 0; 0; 0; 0; 0;  1; 0; 0; 0; 0; 0; 0; 0;  77; 0; 0; 0; 0; 0; 0; 0].
Proof. repeat split; vm_compute; reflexivity. Qed.
