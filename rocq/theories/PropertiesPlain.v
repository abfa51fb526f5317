(** Property theorems: types that share a wire format can be exchanged (C92).

    [plain] of SpecPlain.v takes from a schema what does not show in the bytes:
    boxes, the difference between byte strings and sequences of bytes, between a
    double and the integer of its bits, between an integer and a range that
    excludes nothing, and between [data!] and [cstyle!] enums without fields. *)
From Verif Require Import Base ModelErrors ModelParser ModelInt ModelSchema SpecCodec SpecPlain
  BaseLemmas ProofCodecThms ProofSettle ProofPlain PropertiesCodec.

(** ------------------------------------------------------------------ *)
(** * C92 *)
(** Decoding as one type and as the other: the same inputs are accepted, and the
    values correspond. *)
Theorem C92_decode : forall cf D1 D2 t1 t2 input,
  wf_defs D1 = true -> wf_defs D2 = true -> wf_ty D1 t1 = true -> wf_ty D2 t2 = true ->
  bytes_ok input -> zlen input <= isize_max ->
  plain_defs D1 = plain_defs D2 -> plain t1 = plain t2 ->
  forall w v1, decodes w cf D1 t1 input (ROk v1) ->
  exists v2, decodes w cf D2 t2 input (ROk v2) /\ plain_val D1 v1 t1 = plain_val D2 v2 t2.
Proof. exact exchange_decode. Qed.
Print Assumptions C92_decode.

(** Corresponding values have the same bytes, and panic together. *)
Theorem C92_encode : forall cf D1 D2 t1 t2 kf1 kf2 v1 v2,
  wf_defs D1 = true -> wf_defs D2 = true -> wf_ty D1 t1 = true -> wf_ty D2 t2 = true ->
  well_typed D1 v1 t1 = true -> well_typed D2 v2 t2 = true ->
  cf_est_override cf = false -> zlen (format D1 v1 t1) <= isize_max ->
  plain_defs D1 = plain_defs D2 -> plain t1 = plain t2 -> plain_val D1 v1 t1 = plain_val D2 v2 t2 ->
  to_bytes cf D1 kf1 v1 t1 = to_bytes cf D2 kf2 v2 t2.
Proof. exact exchange_encode. Qed.
Print Assumptions C92_encode.

(** Nothing is lost: a value is determined by what is left of it. *)
Theorem C92_one_to_one : forall D v v' t,
  well_typed D v t = true -> well_typed D v' t = true -> plain_val D v t = plain_val D v' t -> v = v'.
Proof. exact plain_injective. Qed.
Print Assumptions C92_one_to_one.

(** The simplest schema of the kind is one of them. *)
Theorem C92_plain_decode : forall D cf t input,
  wf_defs D = true -> wf_ty D t = true -> bytes_ok input -> zlen input <= isize_max ->
  forall w v, decodes w cf D t input (ROk v) ->
  decodes w cf (plain_defs D) (plain t) input (ROk (plain_val D v t)).
Proof. exact plain_decode. Qed.
Print Assumptions C92_plain_decode.

Theorem C92_plain_decode_back : forall D cf t input,
  wf_defs D = true -> wf_ty D t = true -> bytes_ok input -> zlen input <= isize_max ->
  forall w u, decodes w cf (plain_defs D) (plain t) input (ROk u) ->
  exists v, decodes w cf D t input (ROk v) /\ plain_val D v t = u.
Proof. exact plain_decode_back. Qed.
Print Assumptions C92_plain_decode_back.

Theorem C92_plain_encode : forall cf D kf kf' t v,
  wf_defs D = true -> wf_ty D t = true -> well_typed D v t = true ->
  cf_est_override cf = false -> zlen (format D v t) <= isize_max ->
  to_bytes cf (plain_defs D) kf' (plain_val D v t) (plain t) = to_bytes cf D kf v t.
Proof. exact plain_encode. Qed.
Print Assumptions C92_plain_encode.

(** The documentation of [Bytes] (schema.rs 357-358): "the operational semantics
    happen to coincide" with those of [Sequence<u8>]. *)
Theorem C92_bytes_are_a_sequence : forall cf D input w bs,
  wf_defs D = true -> bytes_ok input -> zlen input <= isize_max ->
  decodes w cf D TBytes input (ROk (VBytes bs)) <-> decodes w cf D (TSeq (TInt U8)) input (ROk (VSeq (map VInt bs))).
Proof. exact bytes_sequence. Qed.
Print Assumptions C92_bytes_are_a_sequence.

Theorem C92_boxes_are_invisible : forall cf D t input w v,
  wf_defs D = true -> wf_ty D t = true -> bytes_ok input -> zlen input <= isize_max ->
  decodes w cf D (TBox t) input (ROk (VWrap v)) <-> decodes w cf D t input (ROk v).
Proof. exact box_invisible. Qed.
Print Assumptions C92_boxes_are_invisible.

(** Two schemas for the same message: a recursive enum with a box, a byte string
    and a double, and one with a range, a sequence and an integer. *)
Definition boxed_defs : list def :=
  [DData U8 [(0, [TF64; TInt U8; TDyn PrefU8 TBytes]); (1, [TBox (TNamed 0); TNamed 1])]; DData U8 [(3, []); (5, [])]].
Definition flat_defs : list def :=
  [DData U8 [(0, [TInt U64; TRanged U8 0 255; TDyn PrefU8 (TSeq (TInt U8))]); (1, [TNamed 0; TBox (TNamed 1)])]; DCStyle U8 [3; 5]].
Definition boxed_val : val := VEnum 1 [VWrap (VEnum 0 [VInt 258; VInt 4; VWrap (VBytes [7; 9])]); VEnum 1 []].
Definition flat_val : val := VEnum 1 [VEnum 0 [VInt 258; VInt 4; VWrap (VSeq [VInt 7; VInt 9])]; VWrap (VEnum 1 [])].
Example C92_meets :
  wf_defs boxed_defs = true /\ wf_defs flat_defs = true /\ plain_defs boxed_defs = plain_defs flat_defs /\
  well_typed boxed_defs boxed_val (TNamed 0) = true /\ well_typed flat_defs flat_val (TBox (TNamed 0)) = false /\
  well_typed flat_defs flat_val (TNamed 0) = true /\ boxed_val <> flat_val /\
  plain_val boxed_defs boxed_val (TNamed 0) = plain_val flat_defs flat_val (TNamed 0) /\
  to_bytes debug boxed_defs 9 boxed_val (TNamed 0) = ROk [1; 0; 0; 0; 0; 0; 0; 0; 1; 2; 4; 2; 7; 9; 5].
Proof. repeat apply conj; try (vm_compute; reflexivity). unfold boxed_val, flat_val. discriminate. Qed.
Example C92_decodes :
  decodes WSlice debug boxed_defs (TNamed 0) [1; 0; 0; 0; 0; 0; 0; 0; 1; 2; 4; 2; 7; 9; 5] (ROk boxed_val) /\
  decodes WSlice debug flat_defs (TNamed 0) [1; 0; 0; 0; 0; 0; 0; 0; 1; 2; 4; 2; 7; 9; 5] (ROk flat_val).
Proof. split; eapply decodes_at with (f := 9%nat); (vm_compute; reflexivity) || discriminate. Qed.
