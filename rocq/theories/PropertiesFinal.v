(** Errors that more bytes cannot mend (C104), and the MemoParser's results (C32). *)
From Verif Require Import Base ModelErrors ModelParser ModelInt ModelFloat ModelUtf8 ModelTarget ModelSchema
  SpecCodec SpecFinal ProofFinal ProofFinalSlice ProofMemoSame PropertiesCodec.

(** ** C32 *)

(** Through the MemoParser and the ByteParser every input has the same result: value,
    error with all its details, or panic. *)
Theorem C32_memo_identical_partial : forall cf D t f input,
  wf_defs D = true -> wf_ty D t = true -> pads_ok cf D t = true -> zlen input <= isize_max ->
  decode_with WMemo cf D f t input = decode_with WByte cf D f t input.
Proof. exact memo_decode_same. Qed.
Print Assumptions C32_memo_identical_partial.

Example memo_error_same : decode_with WMemo debug sample_defs 30 sample_ty (firstn 21 sample_bytes) =
  decode_with WByte debug sample_defs 30 sample_ty (firstn 21 sample_bytes).
Proof. vm_compute. reflexivity. Qed.

(** ** C104 *)

(** What is refused for another reason than a possible lack of bytes stays refused, with
    the same error, however the input goes on. *)
Theorem C104_final : forall w cf D I t p e q,
  wf_defs D = true -> disciplined D I = true -> wf_ty D t = true -> self_delimiting I t = true ->
  w <> WSlice -> pads_ok cf D t = true -> zlen (p ++ q) <= isize_max ->
  decodes w cf D t p (RErr (DParse e)) -> may_be_short (zlen p) e = false ->
  decodes w cf D t (p ++ q) (RErr (DParse e)).
Proof. exact final_either. Qed.
Print Assumptions C104_final.

(** The ByteParser, without conditions on the definitions. *)
Theorem C104_final_byte : forall cf D I t p e q,
  disciplined D I = true -> self_delimiting I t = true -> zlen (p ++ q) <= isize_max ->
  decodes WByte cf D t p (RErr (DParse e)) -> may_be_short (zlen p) e = false ->
  decodes WByte cf D t (p ++ q) (RErr (DParse e)).
Proof. exact final_errors. Qed.
Print Assumptions C104_final_byte.

Example final_error : let p := [7] in
  decode_with WByte debug sample_defs 30 TBool p = RErr (DParse (EToken (InvalidBoolean 7))) /\
  may_be_short (zlen p) (EToken (InvalidBoolean 7)) = false /\ self_delimiting sample_info TBool = true /\
  decode_with WMemo debug sample_defs 30 TBool (p ++ [255; 1]) = RErr (DParse (EToken (InvalidBoolean 7))).
Proof. vm_compute. repeat split. Qed.

(** Every proper beginning of a message gets an error of the listed kinds (or the panic of
    a debug build, F2): waiting for more bytes then, and only then, refuses no message. *)
Theorem C104_wait : forall w cf D I kf t v p q,
  wf_defs D = true -> disciplined D I = true -> wf_ty D t = true -> self_delimiting I t = true ->
  w <> WSlice -> pads_ok cf D t = true ->
  well_typed D v t = true -> to_bytes cf D kf v t = ROk (p ++ q) -> zlen (p ++ q) <= isize_max ->
  (cf_est_override cf = true -> zeros D v t = 0) -> q <> [] ->
  exists out, decodes w cf D t p out /\
    ((exists e, out = RErr (DParse e) /\ may_be_short (zlen p) e = true) \/ (out = RPanic /\ cf_mode cf = Debug)).
Proof. exact waiting. Qed.
Print Assumptions C104_wait.

(** The four kinds do occur for beginnings of messages. *)
Example short_kinds :
  decode_with WByte debug [] 9 (TInt U16) [7] = RErr (DParse (EWindow (ConsumeWouldExceedLimit 0 2 1))) /\
  decode_with WByte release [] 9 (TDyn PrefU8 TBytes) [3; 7; 7] = RErr (DParse (EWindow (OpenWouldExceedBuffer 0 3))) /\
  decode_with WByte debug [] 9 TN [128] = RErr (DParse (EToken (NonTerminating [128]))) /\
  decode_with WByte debug [] 9 (TFix 2 TBool) [0] = RErr (DParse (EExternal (LengthViolation (WrongLength 2 1)))).
Proof. vm_compute. repeat split. Qed.

(** Through the SliceParser; with check_complete_parse it accepts nothing at all (F21). *)
Theorem C104_final_slice : forall cf D I t p e q,
  disciplined D I = true -> self_delimiting I t = true -> zlen (p ++ q) <= isize_max ->
  decodes WSlice cf D t p (RErr (DParse e)) -> slice_may_be_short e = false ->
  decodes WSlice cf D t (p ++ q) (RErr (DParse e)).
Proof. exact slice_final. Qed.
Print Assumptions C104_final_slice.

Theorem C104_wait_slice : forall cf D I kf t v p q,
  wf_defs D = true -> disciplined D I = true -> wf_ty D t = true -> self_delimiting I t = true ->
  cf_complete cf = false ->
  well_typed D v t = true -> to_bytes cf D kf v t = ROk (p ++ q) -> zlen (p ++ q) <= isize_max ->
  (cf_est_override cf = true -> zeros D v t = 0) -> q <> [] ->
  exists e, decodes WSlice cf D t p (RErr (DParse e)) /\ slice_may_be_short e = true.
Proof. exact slice_waiting. Qed.
Print Assumptions C104_wait_slice.

Example slice_kinds :
  decode_with WSlice debug [] 9 (TInt U16) [7] = RErr (DParse (EWindow (ConsumeWouldExceedLimit 0 2 1))) /\
  decode_with WSlice debug [] 9 (TDyn PrefU8 TBytes) [3; 7; 7] = RErr (DParse (EWindow (OpenWouldExceedWindow 2 3))) /\
  decode_with WSlice debug [] 9 TBool [7; 7] = RErr (DParse (EToken (InvalidBoolean 7))) /\
  slice_may_be_short (EToken (InvalidBoolean 7)) = false.
Proof. vm_compute. repeat split. Qed.

(** The error cannot say more: for some type, two inputs of the same length get the same
    error; one is the beginning of a message, no continuation of the other is one. *)
Theorem C104_no_better : forall cf, cf_mode cf = Debug -> cf_complete cf = true ->
  exists D t p p' e q v,
    zlen p = zlen p' /\
    decodes WByte cf D t p (RErr (DParse e)) /\ decodes WByte cf D t p' (RErr (DParse e)) /\
    decodes WByte cf D t (p ++ q) (ROk v) /\
    forall q' v', zlen (p' ++ q') <= isize_max -> ~ decodes WByte cf D t (p' ++ q') (ROk v').
Proof. exact no_better. Qed.
Print Assumptions C104_no_better.

(** ** C21 *)

(** The length in front of a Dynamic is a value of the unsigned type named by it, and is
    written as one. *)
Theorem C21_prefix_type : forall D s t v,
  valid D (VWrap v) (TDyn s t) = valid D v t && valid D (VInt (zlen (format D v t))) (pref_ty s) /\
  format D (VWrap v) (TDyn s t) = format D (VInt (zlen (format D v t))) (pref_ty s) ++ format D v t.
Proof. exact prefix_values. Qed.
Print Assumptions C21_prefix_type.
Example prefix_of_200 : valid [] (VWrap (VBytes (repeat 7 200))) (TDyn PrefU8 TBytes) = true /\
  valid [] (VInt 200) (pref_ty PrefU8) = true /\ valid [] (VInt 256) (pref_ty PrefU8) = false.
Proof. vm_compute. repeat split. Qed.
