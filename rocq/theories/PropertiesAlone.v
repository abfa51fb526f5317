(** A message inside another fares as it would on its own (C106). *)
From Verif Require Import Base ModelErrors ModelParser ModelInt ModelFloat ModelUtf8 ModelTarget ModelSchema
  SpecParser SpecCodec SpecAlone ProofAloneTop ProofAloneSlice ProofAlonePay ProofAloneReads ProofAloneOnly ProofAloneVPad PropertiesCodec.

(** Whatever was read before and whatever windows are open: after [set_fit n], decoding
    gives what it gives with the next [n] bytes as the whole input, and moves as far. *)
Theorem C106_window_byte : forall cf D t f buf p n p1 r q r' q',
  wf_defs D = true -> wf_ty D t = true -> pads_ok cf D t = true -> zlen buf <= isize_max ->
  reaches (cf_mode cf) (byte_h (cf_mode cf)) (bp_from_buffer buf) p -> size_fits (cf_mode cf) n ->
  byte_h (cf_mode cf) unit (OpSetFit n) p = (ROk tt, p1) ->
  run (byte_h (cf_mode cf)) (parse cf D f t) (bp_from_buffer (zslice (bp_offset p) (bp_offset p + n) buf)) = (r, q) ->
  run (byte_h (cf_mode cf)) (parse cf D f t) p1 = (r', q') ->
  as_alone (cf_mode cf) (bp_offset p) n r r' /\ (forall v, r = ROk v -> bp_offset q' = bp_offset p + bp_offset q).
Proof. exact byte_alone. Qed.
Print Assumptions C106_window_byte.

Theorem C106_window_memo : forall cf D t f buf p n p1 r q r' q',
  wf_defs D = true -> wf_ty D t = true -> pads_ok cf D t = true -> zlen buf <= isize_max ->
  reaches (cf_mode cf) (memo_h (cf_mode cf)) (mp_from_buffer buf) p -> size_fits (cf_mode cf) n ->
  memo_h (cf_mode cf) unit (OpSetFit n) p = (ROk tt, p1) ->
  run (memo_h (cf_mode cf)) (parse cf D f t) (mp_from_buffer (zslice (mp_offset p) (mp_offset p + n) buf)) = (r, q) ->
  run (memo_h (cf_mode cf)) (parse cf D f t) p1 = (r', q') ->
  as_alone (cf_mode cf) (mp_offset p) n r r' /\ (forall v, r = ROk v -> mp_offset q' = mp_offset p + mp_offset q).
Proof. exact memo_alone. Qed.
Print Assumptions C106_window_memo.

(** The SliceParser knows nothing of where it is: every result is the same, errors and
    panics included, and the views outside the window are untouched.  No condition on
    types or sizes. *)
Theorem C106_window_slice : forall cf D t f p n p1 r s,
  slice_h unit (OpSetFit n) p = (ROk tt, p1) -> p <> [] ->
  run slice_h (parse cf D f t) (sp_from_buffer (ztake n (hd [] p))) = (r, s) ->
  run slice_h (parse cf D f t) p1 = (r, s ++ zdrop n (hd [] p) :: tl p).
Proof. exact slice_alone. Qed.
Print Assumptions C106_window_slice.

(** An error three bytes into a message that lies two bytes into the input; the second
    window, inside a window. *)
Example window_error :
  let buf := [9; 9; 1; 2; 3; 4; 8] in
  let t := TDyn PrefU8 (TInt U32) in
  let p := snd (run (byte_h Debug) (p_consume 2 ;;; p_set_fit 4) (bp_from_buffer buf)) in
  let p1 := snd (byte_h Debug unit (OpSetFit 3) p) in
  after (byte_h Debug) [AnyOp (OpConsume 2); AnyOp (OpSetFit 4)] (bp_from_buffer buf) = Some p /\
  byte_h Debug unit (OpSetFit 3) p = (ROk tt, p1) /\
  fst (run (byte_h Debug) (parse debug [] 9 t) (bp_from_buffer [1; 2; 3])) = RErr (EWindow (ConsumeWouldExceedLimit 1 4 2)) /\
  fst (run (byte_h Debug) (parse debug [] 9 t) p1) = RErr (EWindow (ConsumeWouldExceedLimit 3 4 4)) /\
  moved 2 (EWindow (ConsumeWouldExceedLimit 1 4 2)) = EWindow (ConsumeWouldExceedLimit 3 4 4).
Proof. vm_compute. repeat split. Qed.

(** A window that leaves the message: alone it leaves the input, inside it leaves the
    window only. *)
Example window_kinds :
  let t := TDyn PrefU8 TBytes in
  let buf := [9; 3; 7; 7; 8; 8; 8; 8; 8] in
  let p := snd (run (byte_h Debug) (p_consume 1 ;;; p_set_fit 3) (bp_from_buffer buf)) in
  fst (run (byte_h Release) (parse release [] 9 t) (bp_from_buffer [3; 7; 7])) = RErr (EWindow (OpenWouldExceedBuffer 0 3)) /\
  fst (run (byte_h Release) (parse release [] 9 t) p) = RErr (EWindow (OpenWouldExceedWindow 4 5)) /\
  fst (run (byte_h Debug) (parse debug [] 9 t) (bp_from_buffer [4; 7; 7])) = RPanic /\
  fst (run (byte_h Debug) (parse debug [] 9 t) (snd (run (byte_h Debug) (p_consume 1 ;;; p_set_fit 3) (bp_from_buffer [9; 4; 7; 7; 8; 8; 8])))) =
    RErr (EWindow (OpenWouldExceedWindow 4 6)).
Proof. vm_compute. repeat split. Qed.

Example window_slice :
  let p := [[3; 7; 7; 8; 8]; [1]] in
  let p1 := snd (slice_h unit (OpSetFit 3) p) in
  slice_h unit (OpSetFit 3) p = (ROk tt, p1) /\
  run slice_h (parse debug [] 9 (TInt U16)) (sp_from_buffer [3; 7; 7]) = (ROk (VInt 775), [[7]]) /\
  run slice_h (parse debug [] 9 (TInt U16)) p1 = (ROk (VInt 775), [[7]; [8; 8]; [1]]).
Proof. vm_compute. repeat split. Qed.

(** ** Behind a length prefix *)

(** What cannot be decoded on its own cannot be decoded behind a length prefix, and the
    error tells the same. *)
Theorem C106_payload_error : forall w cf D s t body rest e,
  wf_defs D = true -> wf_ty D t = true -> pads_ok cf D t = true -> w <> WSlice -> zlen body <= pref_max s ->
  zlen (pref_format s (zlen body) ++ body ++ rest) <= isize_max ->
  decodes w cf D t body (RErr (DParse e)) ->
  exists e', decodes w cf D (TDyn s t) (pref_format s (zlen body) ++ body ++ rest) (RErr (DParse e')) /\
    @as_alone val (cf_mode cf) (pref_len s) (zlen body) (RErr e) (RErr e').
Proof. exact payload_error. Qed.
Print Assumptions C106_payload_error.

(** What can be decoded on its own can be decoded behind a length prefix: every accepted
    input, not only the encoding of a value. *)
Theorem C106_payload_value : forall w cf D s t body v,
  wf_defs D = true -> wf_ty D t = true -> pads_ok cf D t = true -> w <> WSlice -> zlen body <= pref_max s ->
  zlen (pref_format s (zlen body) ++ body) <= isize_max -> cf_complete cf = true ->
  decodes w cf D t body (ROk v) -> decodes w cf D (TDyn s t) (pref_format s (zlen body) ++ body) (ROk (VWrap v)).
Proof. exact payload_value. Qed.
Print Assumptions C106_payload_value.

(** Bytes left over on its own are, behind a length prefix, the residue of the window. *)
Theorem C106_payload_trailing : forall w cf D s t body rest lo,
  wf_defs D = true -> wf_ty D t = true -> pads_ok cf D t = true -> w <> WSlice -> zlen body <= pref_max s ->
  zlen (pref_format s (zlen body) ++ body ++ rest) <= isize_max ->
  decodes w cf D t body (RErr (DNonEmpty lo)) ->
  decodes w cf D (TDyn s t) (pref_format s (zlen body) ++ body ++ rest) (RErr (DParse (EWindow (CloseWithResidue (zlen (lo_bytes lo)))))) /\
  0 < zlen (lo_bytes lo).
Proof. exact payload_trailing. Qed.
Print Assumptions C106_payload_trailing.

Theorem C106_payload_slice : forall cf D s t body rest e,
  zlen body <= pref_max s -> decodes WSlice cf D t body (RErr (DParse e)) ->
  decodes WSlice cf D (TDyn s t) (pref_format s (zlen body) ++ body ++ rest) (RErr (DParse e)).
Proof. exact payload_slice. Qed.
Print Assumptions C106_payload_slice.

Example payloads :
  decode_with WByte debug [] 9 (TSeq TBool) [0; 255; 7] = RErr (DParse (EToken (InvalidBoolean 7))) /\
  decode_with WMemo debug [] 9 (TDyn PrefU30 (TSeq TBool)) (pref_format PrefU30 3 ++ [0; 255; 7] ++ [1; 2]) = RErr (DParse (EToken (InvalidBoolean 7))) /\
  decode_with WSlice debug [] 9 (TDyn PrefU30 (TSeq TBool)) (pref_format PrefU30 3 ++ [0; 255; 7] ++ [1; 2]) = RErr (DParse (EToken (InvalidBoolean 7))) /\
  decode_with WByte debug [] 9 (TInt U16) [1] = RErr (DParse (EWindow (ConsumeWouldExceedLimit 0 2 1))) /\
  decode_with WByte debug [] 9 (TDyn PrefU16 (TInt U16)) (pref_format PrefU16 1 ++ [1] ++ [5]) = RErr (DParse (EWindow (ConsumeWouldExceedLimit 2 2 3))).
Proof. vm_compute. repeat split. Qed.

Example payload_leftover :
  let cf := mkConfig Debug true false false true true in
  (exists lo, decode_with WByte cf [] 9 TBool [255; 1; 2] = RErr (DNonEmpty lo) /\ lo_bytes lo = [1; 2]) /\
  decode_with WByte cf [] 9 (TDyn PrefU8 TBool) (pref_format PrefU8 3 ++ [255; 1; 2] ++ []) = RErr (DParse (EWindow (CloseWithResidue 2))) /\
  decode_with WMemo cf [] 9 (TDyn PrefU8 TBool) (pref_format PrefU8 1 ++ [255]) = ROk (VWrap (VBool true)).
Proof. vm_compute. repeat split. eexists. split; reflexivity. Qed.

(** The same for all parsers and features, in terms of the value and the bytes left after
    it: a payload that is read to its end is read behind a length prefix, and what follows
    it is left; any other is refused, with the number of bytes that are over. *)
Theorem C106_payload_reads : forall w cf D s t body rest v,
  wf_defs D = true -> wf_ty D t = true -> w = WSlice \/ pads_ok cf D t = true -> zlen body <= pref_max s ->
  zlen (pref_format s (zlen body) ++ body ++ rest) <= isize_max ->
  reads w cf D t body (ROk (v, [])) -> reads w cf D (TDyn s t) (pref_format s (zlen body) ++ body ++ rest) (ROk (VWrap v, rest)).
Proof. exact payload_reads. Qed.
Print Assumptions C106_payload_reads.

Theorem C106_payload_residue : forall w cf D s t body rest v x,
  wf_defs D = true -> wf_ty D t = true -> w = WSlice \/ pads_ok cf D t = true -> zlen body <= pref_max s ->
  zlen (pref_format s (zlen body) ++ body ++ rest) <= isize_max -> x <> [] ->
  reads w cf D t body (ROk (v, x)) ->
  reads w cf D (TDyn s t) (pref_format s (zlen body) ++ body ++ rest) (RErr (EWindow (CloseWithResidue (zlen x)))).
Proof. exact payload_residue. Qed.
Print Assumptions C106_payload_residue.

Example payload_read :
  run_with WSlice Debug (then_rest (parse debug [] 9 (TInt U16))) [1; 2] = ROk (VInt 258, []) /\
  run_with WSlice Debug (then_rest (parse debug [] 9 (TDyn PrefU8 (TInt U16)))) (pref_format PrefU8 2 ++ [1; 2] ++ [7; 7]) = ROk (VWrap (VInt 258), [7; 7]) /\
  run_with WMemo Release (then_rest (parse release [] 9 (TInt U16))) [1; 2; 3] = ROk (VInt 258, [3]) /\
  run_with WMemo Release (then_rest (parse release [] 9 (TDyn PrefU8 (TInt U16)))) (pref_format PrefU8 3 ++ [1; 2; 3] ++ [7]) = RErr (EWindow (CloseWithResidue 1)).
Proof. vm_compute. repeat split. Qed.

(** And nothing else is read behind a length prefix. *)
Theorem C106_payload_only : forall w cf D s t body rest v' x,
  wf_defs D = true -> wf_ty D t = true -> w = WSlice \/ pads_ok cf D t = true -> zlen body <= pref_max s ->
  zlen (pref_format s (zlen body) ++ body ++ rest) <= isize_max ->
  reads w cf D (TDyn s t) (pref_format s (zlen body) ++ body ++ rest) (ROk (v', x)) ->
  x = rest /\ exists v, v' = VWrap v /\ reads w cf D t body (ROk (v, [])).
Proof. exact payload_only. Qed.
Print Assumptions C106_payload_only.

(** ** Before reserved bytes *)

(** VPadded<T, N>: what cannot be decoded on its own cannot be decoded before N reserved
    bytes, and the error tells the same; positions do not move. *)
Theorem C106_reserved_error : forall w cf D t body pad e,
  wf_defs D = true -> wf_ty D t = true -> pads_ok cf D t = true ->
  w = WByte \/ (w = WMemo /\ pads_ok cf D (TVPad (zlen pad) t) = true) -> zlen (body ++ pad) <= isize_max ->
  decodes w cf D t body (RErr (DParse e)) ->
  exists e', decodes w cf D (TVPad (zlen pad) t) (body ++ pad) (RErr (DParse e')) /\
    @as_alone val (cf_mode cf) 0 (zlen body) (RErr e) (RErr e').
Proof. exact reserved_error. Qed.
Print Assumptions C106_reserved_error.

Theorem C106_reserved_slice : forall cf D t body pad e,
  decodes WSlice cf D t body (RErr (DParse e)) ->
  decodes WSlice cf D (TVPad (zlen pad) t) (body ++ pad) (RErr (DParse e)).
Proof. exact reserved_slice. Qed.
Print Assumptions C106_reserved_slice.

Example reserved_errors :
  decode_with WByte release [] 9 (TInt U32) [1; 2] = RErr (DParse (EWindow (ConsumeWouldExceedLimit 0 4 2))) /\
  decode_with WByte release [] 9 (TVPad 3 (TInt U32)) ([1; 2] ++ [7; 7; 7]) = RErr (DParse (EWindow (ConsumeWouldExceedLimit 0 4 2))) /\
  decode_with WSlice debug [] 9 (TSeq TBool) [0; 9] = RErr (DParse (EToken (InvalidBoolean 9))) /\
  decode_with WSlice debug [] 9 (TVPad 1 (TSeq TBool)) ([0; 9] ++ [255]) = RErr (DParse (EToken (InvalidBoolean 9))).
Proof. vm_compute. repeat split. Qed.
