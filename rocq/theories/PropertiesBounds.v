(** Cases the theorems of C12, C15 and C29 in other files leave out: empty
    entries, senseless bounds and enc_len_estimable_override. *)
From Verif Require Import Base BaseLemmas ModelErrors ModelParser ModelInt ModelTarget ModelSchema ModelConv ModelScan SpecParser
  SpecCodec SpecNum SpecScan ProofCodecThms ProofBounds.

(** ------------------------------------------------------------------ *)
(** * C15 for all bounds

    [MIN] and [MAX] are any two numbers; with [invalid_range_checking] the
    library insists on OCaml's 31-bit integers and MIN <= MAX. *)
Theorem C15_decode_any_bounds : forall w cf D k lo hi input v rest, bytes_ok input -> zlen input <= isize_max ->
  (cf_range_check cf = true -> - 2 ^ 30 <= lo /\ lo <= hi /\ hi < 2 ^ 30) ->
  reads w cf D (TRanged k lo hi) input (ROk (v, rest)) <->
  exists z, v = VInt z /\ ik_in k z = true /\ input = int_format k z ++ rest /\ lo <= ranged_value lo z <= hi.
Proof. exact bounds_decode. Qed.
Print Assumptions C15_decode_any_bounds.

Theorem C15_rejects_any_bounds : forall w cf D k lo hi rest z, bytes_ok rest -> zlen (int_format k z ++ rest) <= isize_max ->
  (cf_range_check cf = true -> - 2 ^ 30 <= lo /\ lo <= hi /\ hi < 2 ^ 30) ->
  ik_in k z = true -> ~ lo <= ranged_value lo z <= hi -> rejects w cf D (TRanged k lo hi) (int_format k z ++ rest).
Proof. exact bounds_rejected. Qed.
Print Assumptions C15_rejects_any_bounds.

Theorem C15_encode_any_bounds : forall cf D k lo hi kf z,
  (ik_in k z = true -> lo <= ranged_value lo z <= hi ->
   (cf_range_check cf = true -> - 2 ^ 30 <= lo /\ lo <= hi /\ hi < 2 ^ 30) ->
   to_bytes cf D kf (VInt z) (TRanged k lo hi) = ROk (int_format k z)) /\
  (~ lo <= ranged_value lo z <= hi \/ ~ (cf_range_check cf = true -> - 2 ^ 30 <= lo /\ lo <= hi /\ hi < 2 ^ 30) ->
   to_bytes cf D kf (VInt z) (TRanged k lo hi) = RPanic).
Proof. exact bounds_encode_any. Qed.
Print Assumptions C15_encode_any_bounds.

(** With [invalid_range_checking], a type with other bounds panics on every number. *)
Theorem C15_senseless_panics : forall w cf D k lo hi rest z, zlen (int_format k z ++ rest) <= isize_max -> ik_in k z = true ->
  cf_range_check cf = true -> ~ (- 2 ^ 30 <= lo /\ lo <= hi /\ hi < 2 ^ 30) ->
  reads w cf D (TRanged k lo hi) (int_format k z ++ rest) RPanic.
Proof. exact bounds_panic. Qed.
Print Assumptions C15_senseless_panics.
Theorem C15_senseless_decode_panics : forall w cf D k lo hi rest z, zlen (int_format k z ++ rest) <= isize_max -> ik_in k z = true ->
  cf_range_check cf = true -> ~ (- 2 ^ 30 <= lo /\ lo <= hi /\ hi < 2 ^ 30) ->
  decodes w cf D (TRanged k lo hi) (int_format k z ++ rest) RPanic.
Proof. exact bounds_decode_panic. Qed.
Print Assumptions C15_senseless_decode_panics.

(** RangedInt<i32, 2000000000, 2000000001> works without the checks and panics
    with them; RangedInt<u8, 5, 4> has no values. *)
Example C15_big_bounds :
  to_bytes (mkConfig Debug false false false false false) [] 0 (VInt 1) (TRanged I32 2000000000 2000000001) = ROk [0; 0; 0; 1] /\
  to_bytes (mkConfig Debug false false false true false) [] 0 (VInt 1) (TRanged I32 2000000000 2000000001) = RPanic /\
  ranged_value 2000000000 1 = 2000000001 /\
  rejects WByte (mkConfig Debug false false false false false) [] (TRanged U8 5 4) [0].
Proof.
  split; [vm_compute; reflexivity|]. split; [vm_compute; reflexivity|]. split; [reflexivity|].
  apply (C15_rejects_any_bounds WByte (mkConfig Debug false false false false false) [] U8 5 4 [] 0);
    [constructor|discriminate|discriminate|reflexivity|]. vm_compute. intros [_ H]. apply H. reflexivity.
Qed.

(** ------------------------------------------------------------------ *)
(** * C12 with an empty key and empty values

    The search ends at once, with a value if any byte is unread. *)
Theorem C12_empty_entries_byte : forall m buf p V (f : list byte -> V) fuel,
  zlen buf <= isize_max -> reaches m (byte_h m) (bp_from_buffer buf) p ->
  run (byte_h m) (p_kv_search (S fuel) [] 0 f) p =
    (ROk (match zslice (bp_offset p) (bp_view_len p) buf with [] => None | _ => Some (f []) end), p).
Proof. exact byte_empty_entries. Qed.
Print Assumptions C12_empty_entries_byte.

Theorem C12_empty_entries_memo : forall m buf p V (f : list byte -> V) fuel,
  zlen buf <= isize_max -> reaches m (memo_h m) (mp_from_buffer buf) p ->
  exists p', run (memo_h m) (p_kv_search (S fuel) [] 0 f) p =
    (ROk (match zslice (mp_offset p) (mp_view_len p) buf with [] => None | _ => Some (f []) end), p') /\ memo_same p' p.
Proof. exact memo_empty_entries. Qed.
Print Assumptions C12_empty_entries_memo.

Example C12_empty_entries_meets :
  zlen [7; 8] <= isize_max /\ reaches Debug (byte_h Debug) (bp_from_buffer [7; 8]) (bp_from_buffer [7; 8]) /\
  run (byte_h Debug) (p_kv_search 1 [] 0 (fun v => v)) (bp_from_buffer [7; 8]) = (ROk (Some []), bp_from_buffer [7; 8]).
Proof. split; [discriminate|]. split; [exists []; split; [constructor|reflexivity]|vm_compute; reflexivity]. Qed.

(** ------------------------------------------------------------------ *)
(** * C29 with enc_len_estimable_override (F8)

    The prefix of a payload that holds the natural number 0 is too small, and
    the bytes cannot be decoded. *)
Theorem C29_override_refuted : exists cf D kf s t v p bs,
  cf_est_override cf = true /\ wf_ty D (TDyn s t) = true /\ well_typed D (VWrap v) (TDyn s t) = true /\
  to_bytes cf D kf v t = ROk p /\ zlen p <= pref_max s /\
  to_bytes cf D kf (VWrap v) (TDyn s t) = ROk bs /\ bs <> pref_format s (zlen p) ++ p /\
  forall w, exists e, decodes w cf D (TDyn s t) bs (RErr (DParse e)).
Proof. exact override_prefix_wrong. Qed.
Print Assumptions C29_override_refuted.

(** ------------------------------------------------------------------ *)
(** * C58, C28 *)

(** A payload that cannot be encoded itself has no length prefix. *)
Theorem C58_bad_payload_panics : forall cf D kf s v t,
  wf_defs D = true -> wf_ty D t = true -> well_typed D v t = true -> zlen (format D v t) <= isize_max ->
  cf_est_override cf = false -> valid D v t = false -> length_prefix cf D kf s v t = RPanic.
Proof. exact bad_payload_prefix. Qed.
Print Assumptions C58_bad_payload_panics.
Example C58_bad_payload :
  well_typed [] (VWrap (VBytes (repeat 7 256))) (TDyn PrefU8 TBytes) = true /\
  valid [] (VWrap (VBytes (repeat 7 256))) (TDyn PrefU8 TBytes) = false /\
  length_prefix (mkConfig Release false false false false false) [] 3 PrefU16 (VWrap (VBytes (repeat 7 256))) (TDyn PrefU8 TBytes) = RPanic.
Proof. vm_compute. repeat apply conj; reflexivity. Qed.

(** Padded of a type without a known length has an estimate exactly with
    relaxed_padding_invariant. *)
Theorem C28_padded_estimable : forall cf D kf n t, known cf D kf t = Some None ->
  (known cf D (S kf) (TPad n t) <> None <-> cf_relaxed_padding cf = true).
Proof. exact padded_estimable. Qed.
Print Assumptions C28_padded_estimable.
Example C28_padded :
  known (mkConfig Release false false true false false) [] 3 TBytes = Some None /\
  known (mkConfig Release false false true false false) [] 4 (TPad 2 TBytes) = Some None /\
  known (mkConfig Release false false false false false) [] 4 (TPad 2 TBytes) = None.
Proof. repeat apply conj; reflexivity. Qed.
