(** C88: how much stack encoding needs. *)
From Verif Require Import Base BaseLemmas ModelErrors ModelParser ModelInt ModelTarget ModelSchema ModelStack ModelWriteStack
  SpecCodec SpecStack ProofCodecThms ProofStack ProofWriteStack.

(** C88.  Into whatever target a value is written, two frames for each of its levels
    are enough, and the answer is then that of the unlimited encoder. *)
Theorem C88_enough : forall cf D kf frames v U (T : target U) t u, 2 * nesting v <= Z.of_nat frames ->
  write_in cf D kf frames v U T t u = write_to cf D kf v U T t u.
Proof. exact write_enough. Qed.
Print Assumptions C88_enough.

Theorem C88_to_bytes : forall cf D kf frames v t, 2 * nesting v <= Z.of_nat frames ->
  to_bytes_in cf D kf frames v t = to_bytes cf D kf v t.
Proof. exact bytes_enough. Qed.
Print Assumptions C88_to_bytes.

(** One more for the two length functions called on it. *)
Theorem C88_lengths : forall cf D kf frames v t, 2 * nesting v + 1 <= Z.of_nat frames ->
  enc_len_in cf D kf frames v t = enc_len cf D kf v t /\ estimate_in cf D kf frames v t = estimate cf D kf v t.
Proof. exact length_enough. Qed.
Print Assumptions C88_lengths.

(** Counting changes no answer: with any number of frames, either they run out or
    the answer is that of the unlimited encoder. *)
Theorem C88_same_answer : forall cf D kf frames v U (T : target U) t u, write_in cf D kf frames v U T t u <> RDiv ->
  write_in cf D kf frames v U T t u = write_to cf D kf v U T t u.
Proof. exact write_same. Qed.
Print Assumptions C88_same_answer.

(** A value cannot be encoded with fewer frames than it has levels. *)
Theorem C88_needs : forall cf D kf frames v t bs,
  to_bytes_in cf D kf frames v t = ROk bs -> nesting v <= Z.of_nat frames.
Proof. exact bytes_needs. Qed.
Print Assumptions C88_needs.

(** What was decoded with some number of frames can be encoded with twice that. *)
Theorem C88_decoded : forall w cf D kf frames more t input v,
  decodes_in frames w cf D t input (ROk v) -> (2 * frames <= more)%nat ->
  to_bytes_in cf D kf more v t = to_bytes cf D kf v t.
Proof. exact decoded_enough. Qed.
Print Assumptions C88_decoded.

(** The number of frames that decoding it took is not always enough: each Dynamic
    asks for the length of its payload before writing it.  Of the type
    [struct T { next: Dynamic<u30, Nullable<AutoBox<T>>> }], a value [n] levels deep is
    decoded with 4n+3 frames and not encoded with fewer than 5n+4. *)
Theorem C88_more_than_decoding : forall cf kf w,
  cf_est_override cf = false -> (w = WSlice -> cf_complete cf = false) ->
  exists D I t, wf_defs D = true /\ wf_ty D t = true /\ disciplined D I = true /\ decodable I t = true /\
  forall n, 4 * Z.of_nat n <= 2 ^ 30 - 1 -> exists v bs,
    to_bytes cf D kf v t = ROk bs /\ zlen bs = 4 * Z.of_nat n + 4 /\
    decodes_in (4 * n + 3) w cf D t bs (ROk v) /\
    forall frames, (frames < 5 * n + 4)%nat -> to_bytes_in cf D kf frames v t = RDiv.
Proof. exact nested_refuted. Qed.
Print Assumptions C88_more_than_decoding.

(** A record with a list of records in a Dynamic, encoded with nine frames and not
    with eight; with the estimating lengths, with eleven and not with ten. *)
Definition ws_cf := mkConfig Release false false true false false.
Definition ws_cfe := mkConfig Release false true true false false.
Definition ws_D := [DStruct [TInt U8; TDyn PrefU8 (TSeq (TNamed 1))]; DStruct [TOption (TDyn PrefU8 TBytes)]].
Definition ws_v := VStruct [VInt 7; VWrap (VSeq [VStruct [VSome (VWrap (VBytes [1; 2]))]; VStruct [VNone]])].
Example C88_ex :
  nesting ws_v = 7 /\
  to_bytes_in ws_cf ws_D 9 9 ws_v (TNamed 0) = ROk [7; 5; 255; 2; 1; 2; 0] /\
  to_bytes_in ws_cf ws_D 9 8 ws_v (TNamed 0) = RDiv /\
  to_bytes_in ws_cfe ws_D 9 11 ws_v (TNamed 0) = ROk [7; 5; 255; 2; 1; 2; 0] /\
  to_bytes_in ws_cfe ws_D 9 10 ws_v (TNamed 0) = RDiv /\
  enc_len_in ws_cf ws_D 9 9 ws_v (TNamed 0) = RDiv /\
  enc_len_in ws_cf ws_D 9 10 ws_v (TNamed 0) = ROk 7 /\
  estimate_in ws_cf ws_D 9 9 ws_v (TNamed 0) = RDiv /\
  estimate_in ws_cf ws_D 9 10 ws_v (TNamed 0) = ROk 7.
Proof. vm_compute. repeat split; reflexivity. Qed.
Example C88_decoded_ex :
  decodes_in 7 WByte ws_cf ws_D (TNamed 0) [7; 5; 255; 2; 1; 2; 0] (ROk ws_v) /\
  to_bytes_in ws_cf ws_D 9 14 ws_v (TNamed 0) = to_bytes ws_cf ws_D 9 ws_v (TNamed 0).
Proof.
  assert (H : decodes_in 7 WByte ws_cf ws_D (TNamed 0) [7; 5; 255; 2; 1; 2; 0] (ROk ws_v)).
  { apply (decodes_in_at WByte ws_cf ws_D 7 9); [vm_compute; reflexivity|discriminate]. }
  split; [exact H|]. apply (C88_decoded WByte ws_cf ws_D 9 7 14 (TNamed 0) [7; 5; 255; 2; 1; 2; 0] ws_v H). repeat constructor.
Qed.
