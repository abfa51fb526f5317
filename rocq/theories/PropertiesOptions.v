(** C51: the build profile and the options. *)
From Verif Require Import Base ModelErrors ModelParser ModelInt ModelTarget ModelSchema SpecParser SpecCodec
  SpecOver ProofCodecThms ProofOptions ProofOver PropertiesCodec.

(** An option can only turn acceptance into rejection: what a build accepts, a
    build with fewer checks (of padding, of complete consumption) accepts too,
    with the same value, in either profile. *)
Theorem C51_options_only_restrict : forall w cf1 cf2 D t input v,
  wf_defs D = true -> wf_ty D t = true -> bytes_ok input -> zlen input <= isize_max ->
  (cf_check_padding cf2 = true -> cf_check_padding cf1 = true) ->
  (cf_complete cf2 = true -> cf_complete cf1 = true) ->
  decodes w cf1 D t input (ROk v) -> decodes w cf2 D t input (ROk v).
Proof. exact stricter_accepts_less. Qed.
Print Assumptions C51_options_only_restrict.

(** The profile and the other options (invalid_range_checking,
    enc_len_estimable_override, relaxed_padding_invariant) change nothing. *)
Theorem C51_profile_irrelevant : forall w cf1 cf2 D t input v,
  wf_defs D = true -> wf_ty D t = true -> bytes_ok input -> zlen input <= isize_max ->
  cf_check_padding cf1 = cf_check_padding cf2 -> cf_complete cf1 = cf_complete cf2 ->
  decodes w cf1 D t input (ROk v) <-> decodes w cf2 D t input (ROk v).
Proof. exact profile_irrelevant. Qed.
Print Assumptions C51_profile_irrelevant.

(** Where a debug build panics the release build rejects the input... *)
Theorem C51_panics_are_rejections : forall w cf1 cf2 D t input v,
  wf_defs D = true -> wf_ty D t = true -> bytes_ok input -> zlen input <= isize_max ->
  cf_check_padding cf1 = cf_check_padding cf2 -> cf_complete cf1 = cf_complete cf2 ->
  decodes w cf1 D t input RPanic -> ~ decodes w cf2 D t input (ROk v).
Proof. exact panics_are_rejections. Qed.
Print Assumptions C51_panics_are_rejections.

(** ...by returning a parse error, for types without VPadded (F7). *)
Theorem C51_panics_are_errors : forall w cf1 cf2 D t input,
  wf_defs D = true -> wf_ty D t = true -> bytes_ok input -> zlen input <= isize_max ->
  vpad_free t = true -> vpad_free_defs D = true ->
  cf_check_padding cf1 = cf_check_padding cf2 -> cf_mode cf2 = Release ->
  decodes w cf1 D t input RPanic -> exists e, decodes w cf2 D t input (RErr (DParse e)).
Proof. exact panics_are_errors. Qed.
Print Assumptions C51_panics_are_errors.

Theorem C51_encoding_same : forall cf1 cf2 D kf1 kf2 v t,
  wf_defs D = true -> wf_ty D t = true -> well_typed D v t = true ->
  cf_est_override cf1 = false -> cf_est_override cf2 = false -> zlen (format D v t) <= isize_max ->
  to_bytes cf1 D kf1 v t = to_bytes cf2 D kf2 v t.
Proof. exact encoding_same. Qed.
Print Assumptions C51_encoding_same.

(** With enc_len_estimable_override, in any program that compiles ([sized]):
    the prefixes hold the announced lengths (SpecOver.v), one less than the
    length of the payload for every zero of type N in it; all other bytes are
    the usual ones.  A value is refused exactly when an announced length does not
    fit its prefix. *)
Theorem C51_override_wire_format : forall cf D kf v t,
  wf_defs D = true -> sized_defs cf D kf = true -> wf_ty D t = true -> sized cf D kf t = true ->
  well_typed D v t = true -> cf_est_override cf = true -> zlen (format D v t) <= isize_max ->
  to_bytes cf D kf v t = (if fits_est D v t then ROk (format_est D v t) else RPanic).
Proof. exact override_wire_thm. Qed.
Print Assumptions C51_override_wire_format.

(** So the option changes the result exactly for values with a zero of type N
    inside a Dynamic (F8), unless both ways refuse the value. *)
Theorem C51_override_same : forall cf cf0 D kf kf0 v t,
  wf_defs D = true -> sized_defs cf D kf = true -> wf_ty D t = true -> sized cf D kf t = true ->
  well_typed D v t = true -> cf_est_override cf = true -> cf_est_override cf0 = false -> zlen (format D v t) <= isize_max ->
  (to_bytes cf D kf v t = to_bytes cf0 D kf0 v t <->
   framed_zeros D v t = 0 \/ (fits_est D v t = false /\ valid D v t = false)).
Proof. exact override_same_thm. Qed.
Print Assumptions C51_override_same.

(** Without such zeros values are read back: a zero outside every Dynamic is no
    obstacle. *)
Theorem C51_override_round_trip : forall cf D I kf t v bs w,
  wf_defs D = true -> disciplined D I = true -> sized_defs cf D kf = true -> wf_ty D t = true -> decodable I t = true ->
  sized cf D kf t = true -> well_typed D v t = true -> cf_est_override cf = true -> framed_zeros D v t = 0 ->
  zlen (format D v t) <= isize_max -> to_bytes cf D kf v t = ROk bs ->
  (w = WSlice -> cf_complete cf = false) ->
  decodes w cf D t bs (ROk v).
Proof. exact override_round_trip. Qed.
Print Assumptions C51_override_round_trip.

(** The sample compiles with the option; it has no zero N.  A pair of a plain
    zero and a framed 5 is unaffected; a framed zero gets prefix 0; 256 framed
    bytes of which two are zeros get prefix 254 although they do not fit. *)
Definition pair_defs : list def := [DStruct [TN; TDyn PrefU8 TN]].
Example C51_override_ex :
  sized_defs release_override sample_defs 9 = true /\ sized release_override sample_defs 9 sample_ty = true /\
  framed_zeros sample_defs sample_val sample_ty = 0 /\ fits_est sample_defs sample_val sample_ty = true /\
  to_bytes release_override sample_defs 9 sample_val sample_ty = ROk sample_bytes /\
  sized_defs release_override pair_defs 9 = true /\ sized release_override pair_defs 9 (TNamed 0) = true /\
  framed_zeros pair_defs (VStruct [VInt 0; VWrap (VInt 5)]) (TNamed 0) = 0 /\
  to_bytes release_override pair_defs 9 (VStruct [VInt 0; VWrap (VInt 5)]) (TNamed 0) = ROk [0; 1; 5] /\
  framed_zeros pair_defs (VStruct [VInt 5; VWrap (VInt 0)]) (TNamed 0) = 1 /\
  to_bytes release_override pair_defs 9 (VStruct [VInt 5; VWrap (VInt 0)]) (TNamed 0) = ROk [5; 0; 0] /\
  (let v := VWrap (VSeq (VInt 0 :: VInt 0 :: repeat (VInt 1) 254)) in
   to_bytes release_override [] 9 v (TDyn PrefU8 (TSeq TN)) = ROk (254 :: 0 :: 0 :: repeat 1 254) /\
   to_bytes release [] 9 v (TDyn PrefU8 (TSeq TN)) = RPanic).
Proof. cbv zeta. repeat apply conj; vm_compute; reflexivity. Qed.

(** Padding that is not zero: accepted without check_padding, rejected with it;
    a prefix that promises too much: a panic in a debug build. *)
Definition plain m := mkConfig m false false false false false.
Definition strict m := mkConfig m true false false true true.
Example C51_ex :
  wf_ty [] (TPad 2 TBool) = true /\
  decode_with WByte (plain Debug) [] 9 (TPad 2 TBool) [255; 0; 7] = ROk (VWrap (VBool true)) /\
  decode_with WByte (plain Release) [] 9 (TPad 2 TBool) [255; 0; 7] = ROk (VWrap (VBool true)) /\
  (exists e, decode_with WByte (strict Release) [] 9 (TPad 2 TBool) [255; 0; 7] = RErr e) /\
  decode_with WByte (plain Debug) [] 9 (TDyn PrefU8 TBytes) [5; 1] = RPanic /\
  (exists e, decode_with WByte (plain Release) [] 9 (TDyn PrefU8 TBytes) [5; 1] = RErr (DParse e)).
Proof. repeat apply conj; try (eexists; vm_compute; reflexivity); vm_compute; reflexivity. Qed.
