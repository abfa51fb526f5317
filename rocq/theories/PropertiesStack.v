(** C82: how much stack decoding needs. *)
From Verif Require Import Base BaseLemmas ModelErrors ModelParser ModelInt ModelSchema ModelStack SpecCodec SpecStack
  ProofCodecThms ProofSettle ProofStack ProofWriteStack.

(** C82.  Every decoding makes do with some number of frames, and counting frames
    changes no answer. *)
Theorem C82_frames : forall w cf D t input out,
  decodes w cf D t input out <-> exists frames, decodes_in frames w cf D t input out.
Proof. exact in_iff. Qed.
Print Assumptions C82_frames.

(** More frames than needed do no harm. *)
Theorem C82_more_frames : forall w cf D frames more t input out, (frames <= more)%nat ->
  decodes_in frames w cf D t input out -> decodes_in more w cf D t input out.
Proof. exact in_more. Qed.
Print Assumptions C82_more_frames.

(** The full property: the number of frames that are enough depends on the type
    and not on the input.  It holds of types that are not defined in terms of
    themselves. *)
Theorem C82_not_recursive_partial : forall cf D R, not_recursive D R = true ->
  forall w t input out frames, flat_bound D R t <= Z.of_nat frames ->
  decodes w cf D t input out -> decodes_in frames w cf D t input out.
Proof. exact flat_frames. Qed.
Print Assumptions C82_not_recursive_partial.

(** A type that may contain itself needs frames in proportion to the input at most. *)
Theorem C82_linear_partial : forall w cf D I R t input out frames,
  wf_defs D = true -> wf_ty D t = true -> terminating D I R = true -> pads_ok cf D t = true ->
  bytes_ok input -> zlen input <= isize_max -> frame_bound D R t (zlen input) <= Z.of_nat frames ->
  decodes w cf D t input out -> decodes_in frames w cf D t input out.
Proof. exact linear_frames. Qed.
Print Assumptions C82_linear_partial.

(** A value cannot be decoded with fewer frames than it has levels. *)
Theorem C82_value_needs : forall frames w cf D t input v,
  decodes_in frames w cf D t input (ROk v) -> nesting v <= Z.of_nat frames.
Proof. exact frames_value. Qed.
Print Assumptions C82_value_needs.

(** And no more: what decodes to a value does so with exactly those numbers of
    frames that are at least its number of levels. *)
Theorem C82_value_exact : forall frames w cf D t input v, decodes w cf D t input (ROk v) ->
  (decodes_in frames w cf D t input (ROk v) <-> nesting v <= Z.of_nat frames).
Proof. exact frames_exact. Qed.
Print Assumptions C82_value_exact.

(** So no number of frames is enough for a type that contains itself: of the type
    [struct T { next: Option<AutoBox<T>> }], for every number there is an input of
    one byte more that decodes, but not with that many frames. *)
Theorem C82_deep_input_refuted : forall w cf, (cf_complete cf = true -> w <> WSlice) ->
  exists D I R t, wf_defs D = true /\ wf_ty D t = true /\ terminating D I R = true /\ loops_ok I t = true /\
  forall frames, Z.of_nat frames < isize_max ->
    exists input v, zlen input = Z.of_nat frames + 1 /\ bytes_ok input /\
      decodes w cf D t input (ROk v) /\ forall out, ~ decodes_in frames w cf D t input out.
Proof. exact deep_refuted. Qed.
Print Assumptions C82_deep_input_refuted.

Definition st_cf := mkConfig Release false false true false false.
(** A record with a list of records: two levels of names. *)
Definition st_D := [DStruct [TInt U8; TDyn PrefU8 (TSeq (TNamed 1))]; DStruct [TOption (TInt U16)]].
Example C82_flat_ex :
  not_recursive st_D [1; 0]%nat = true /\ flat_bound st_D [1; 0]%nat (TNamed 0) = 7 /\
  decodes WByte st_cf st_D (TNamed 0) [7; 4; 255; 1; 2; 0]
    (ROk (VStruct [VInt 7; VWrap (VSeq [VStruct [VSome (VInt 258)]; VStruct [VNone]])])) /\
  decodes_in 7 WByte st_cf st_D (TNamed 0) [7; 4; 255; 1; 2; 0]
    (ROk (VStruct [VInt 7; VWrap (VSeq [VStruct [VSome (VInt 258)]; VStruct [VNone]])])) /\
  nesting (VStruct [VInt 7; VWrap (VSeq [VStruct [VSome (VInt 258)]; VStruct [VNone]])]) = 6.
Proof.
  assert (H : decodes WByte st_cf st_D (TNamed 0) [7; 4; 255; 1; 2; 0]
    (ROk (VStruct [VInt 7; VWrap (VSeq [VStruct [VSome (VInt 258)]; VStruct [VNone]])])))
    by (eapply (decodes_at WByte) with (f := 9%nat); [vm_compute; reflexivity|discriminate]).
  repeat split; try exact H; try (apply H). apply (C82_not_recursive_partial st_cf st_D [1; 0]%nat); [reflexivity|vm_compute; discriminate|exact H].
Qed.
(** A chain of four links: 14 frames are enough, 13 are not. *)
Example C82_chain_ex :
  terminating chain_defs [mkInfo Delim true None] [O] = true /\
  pads_ok st_cf chain_defs (TNamed 0) = true /\ bytes_ok [255; 255; 255; 255; 0] /\
  frame_bound chain_defs [O] (TNamed 0) 5 = 49 /\
  decodes_in 14 WMemo st_cf chain_defs (TNamed 0) [255; 255; 255; 255; 0] (ROk (chain_val 4)) /\
  decode_in WMemo st_cf chain_defs 13 50 (TNamed 0) [255; 255; 255; 255; 0] = RDiv.
Proof.
  repeat split; try reflexivity; try discriminate; [apply bytes_ok_check; reflexivity|].
  exists 3%nat. intros f Hf. eapply (decode_in_in _ _ _ 3 14); [apply ap_in_in; [exact Hf|apply le_n]|vm_compute; reflexivity|discriminate].
Qed.
