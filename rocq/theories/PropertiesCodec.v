(** Property theorems about encoding and decoding composed types.

    The vocabulary is that of SpecCodec.v: [format] (the wire format),
    [well_typed] (the values of a type), [wf_ty]/[wf_defs] (types Rust and the
    generator can produce), [disciplined] (how types delimit themselves),
    [decodes w cf D t input out] ([try_decode] through parser [w] ends with
    [out]), [reads] ([parse], then fetch the rest).  [D] is the list of named
    structs and enums, which may be recursive; [kf] bounds the evaluation of
    the constant KNOWN. *)
From Verif Require Import Base ModelErrors ModelSplitVec ModelParser ModelInt ModelFloat ModelZarith ModelUtf8
  ModelTarget ModelSchema SpecParser SpecCodec ProofCodecProps ProofSettle ProofCodecThms ProofStall ProofSpillEnd.

(** ------------------------------------------------------------------ *)
(** * Samples *)
Definition debug := mkConfig Debug false false false false false.
Definition release := mkConfig Release false false false false false.
Definition debug_complete := mkConfig Debug false false false false true.
Definition release_complete := mkConfig Release true false false false true.
Definition release_override := mkConfig Release false true false false false.

(** A recursive message: struct 0 { u16, Dynamic<u8, Sequence<enum 1>>,
    Option<Z> } with enum 1 { 0: (N), 7: (Dynamic<u30, String>, bool),
    9: (AutoBox<struct 0>) }. *)
Definition sample_defs : list def :=
  [DStruct [TInt U16; TDyn PrefU8 (TSeq (TNamed 1)); TOption TZ];
   DData U8 [(0, [TN]); (7, [TDyn PrefU30 TString; TBool]); (9, [TBox (TNamed 0)])]].
Definition sample_info : list tinfo := [mkInfo Delim true None; mkInfo Delim true None].
Definition sample_ranks : list nat := [O; O].
Definition sample_ty : ty := TNamed 0.
Definition sample_val : val :=
  VStruct [VInt 258;
           VWrap (VSeq [VEnum 0 [VInt 300];
                        VEnum 2 [VWrap (VStruct [VInt 7; VWrap (VSeq []); VNone])];
                        VEnum 1 [VWrap (VBytes [195; 169]); VBool true]]);
           VSome (VInt (-77))].
Definition sample_bytes : list byte :=
  [1; 2; 16; 0; 172; 2; 9; 0; 7; 0; 0; 7; 0; 0; 0; 2; 195; 169; 255; 255; 205; 1].
Example sample_meets :
  wf_defs sample_defs = true /\ disciplined sample_defs sample_info = true /\
  wf_ty sample_defs sample_ty = true /\ decodable sample_info sample_ty = true /\
  self_delimiting sample_info sample_ty = true /\ well_typed sample_defs sample_val sample_ty = true /\
  valid sample_defs sample_val sample_ty = true /\
  terminating sample_defs sample_info sample_ranks = true /\ loops_ok sample_info sample_ty = true /\
  pads_ok debug sample_defs sample_ty = true /\ pads_ok release sample_defs sample_ty = true /\
  vpad_free_defs sample_defs = true /\ zeros sample_defs sample_val sample_ty = 0 /\
  to_bytes debug sample_defs 9 sample_val sample_ty = ROk sample_bytes /\
  format sample_defs sample_val sample_ty = sample_bytes /\
  zlen sample_bytes = 22 /\ 22 <= isize_max.
Proof. repeat apply conj; try (vm_compute; reflexivity). vm_compute. discriminate. Qed.
Example sample_bytes_ok : bytes_ok sample_bytes.
Proof. apply bytes_ok_check. reflexivity. Qed.

(** A message with virtual padding: struct { u16, VPadded<Bytes, 5>, u8, u32 },
    whose middle field takes whatever the last five bytes leave. *)
Definition vp_defs : list def := [DStruct [TInt U16; TVPad 5 TBytes; TInt U8; TInt U32]].
Definition vp_info : list tinfo := [mkInfo (Leave 0) true None].
Definition vp_val : val := VStruct [VInt 1; VWrap (VBytes [10; 20; 30]); VInt 4; VInt 5].
Example vp_meets :
  wf_defs vp_defs = true /\ disciplined vp_defs vp_info = true /\ decodable vp_info (TNamed 0) = true /\
  valid vp_defs vp_val (TNamed 0) = true /\ pads_ok debug vp_defs (TNamed 0) = true /\
  to_bytes release vp_defs 9 vp_val (TNamed 0) = ROk [0; 1; 10; 20; 30; 4; 0; 0; 0; 5].
Proof. repeat apply conj; vm_compute; reflexivity. Qed.

(** A canonical one: no N, Z, String, padding. *)
Definition canon_defs : list def :=
  [DStruct [TInt U16; TDyn PrefU8 (TLim 3 (TOption (TRanged I16 (-5) 500)));
            TFix 2 (TNamed 1); TNullable (TFixedBytes 2)];
   DCStyle U8 [3; 8; 200]].
Example canon_meets :
  wf_defs canon_defs = true /\ canonical_defs release canon_defs = true /\ canonical release (TNamed 0) = true /\
  pads_ok release canon_defs (TNamed 0) = true /\
  decode_with WSlice release canon_defs 20 (TNamed 0) [1; 0; 4; 0; 255; 1; 0; 8; 3; 65; 66] =
    ROk (VStruct [VInt 256; VWrap (VSeq [VNone; VSome (VInt 256)]); VSeq [VEnum 1 []; VEnum 0 []]; VSome (VBytes [65; 66])]) /\
  to_bytes release canon_defs 9
    (VStruct [VInt 256; VWrap (VSeq [VNone; VSome (VInt 256)]); VSeq [VEnum 1 []; VEnum 0 []]; VSome (VBytes [65; 66])]) (TNamed 0) =
    ROk [1; 0; 4; 0; 255; 1; 0; 8; 3; 65; 66].
Proof. repeat apply conj; vm_compute; reflexivity. Qed.

(** ------------------------------------------------------------------ *)
(** * C21 *)

(** Decoding what was encoded gives the value back.  Not claimed: with
    check_complete_parse the SliceParser (F21, C42_slice_refuted), and with
    enc_len_estimable_override values containing the natural number 0 (F8,
    C28_override_refuted). *)
Theorem C21_round_trip : forall cf D I kf t v bs w,
  wf_defs D = true -> disciplined D I = true -> wf_ty D t = true -> decodable I t = true ->
  well_typed D v t = true ->
  to_bytes cf D kf v t = ROk bs -> zlen bs <= isize_max ->
  (cf_est_override cf = true -> zeros D v t = 0) ->
  (w = WSlice -> cf_complete cf = false) ->
  decodes w cf D t bs (ROk v).
Proof. exact round_trip_thm. Qed.
Print Assumptions C21_round_trip.

(** What is encoded is the wire format, and exactly the values whose Dynamic
    payloads fit their prefixes can be encoded. *)
Theorem C21_wire_format : forall cf D kf t v,
  wf_defs D = true -> wf_ty D t = true -> well_typed D v t = true ->
  cf_est_override cf = false -> zlen (format D v t) <= isize_max ->
  to_bytes cf D kf v t = (if valid D v t then ROk (format D v t) else RPanic).
Proof. exact encode_is_format. Qed.
Print Assumptions C21_wire_format.

(** ------------------------------------------------------------------ *)
(** * C22 *)
Theorem C22_exact : forall cf D I kf t v bs w extra,
  wf_defs D = true -> disciplined D I = true -> wf_ty D t = true -> self_delimiting I t = true ->
  well_typed D v t = true ->
  to_bytes cf D kf v t = ROk bs -> zlen (bs ++ extra) <= isize_max ->
  (cf_est_override cf = true -> zeros D v t = 0) ->
  reads w cf D t (bs ++ extra) (ROk (v, extra)).
Proof. exact exact_thm. Qed.
Print Assumptions C22_exact.

Theorem C22_prefix_free : forall cf D I kf t v1 v2 bs1 extra,
  wf_defs D = true -> disciplined D I = true -> wf_ty D t = true -> self_delimiting I t = true ->
  well_typed D v1 t = true -> well_typed D v2 t = true ->
  to_bytes cf D kf v1 t = ROk bs1 -> to_bytes cf D kf v2 t = ROk (bs1 ++ extra) -> zlen (bs1 ++ extra) <= isize_max ->
  (cf_est_override cf = true -> zeros D v1 t = 0 /\ zeros D v2 t = 0) ->
  v1 = v2 /\ extra = [].
Proof. exact prefix_free. Qed.
Print Assumptions C22_prefix_free.

Theorem C22_injective : forall cf D I kf t v1 v2 bs,
  wf_defs D = true -> disciplined D I = true -> wf_ty D t = true -> decodable I t = true ->
  well_typed D v1 t = true -> well_typed D v2 t = true ->
  to_bytes cf D kf v1 t = ROk bs -> to_bytes cf D kf v2 t = ROk bs -> zlen bs <= isize_max ->
  (cf_est_override cf = true -> zeros D v1 t = 0 /\ zeros D v2 t = 0) ->
  v1 = v2.
Proof. exact encode_injective. Qed.
Print Assumptions C22_injective.

(** ------------------------------------------------------------------ *)
(** * C23 *)

(** Truncated input never decodes: in release builds, with the SliceParser, or
    for types without windows the result is an error; in debug builds it is an
    error or, because of F2, a panic. *)
Theorem C23_truncated : forall cf D I kf t v bs w p q,
  wf_defs D = true -> disciplined D I = true -> wf_ty D t = true -> self_delimiting I t = true ->
  well_typed D v t = true ->
  to_bytes cf D kf v t = ROk bs -> zlen bs <= isize_max ->
  (cf_est_override cf = true -> zeros D v t = 0) ->
  bs = p ++ q -> q <> [] ->
  exists out, decodes w cf D t p out /\
    ((exists e, out = RErr (DParse e)) \/
     (out = RPanic /\ cf_mode cf = Debug /\ w <> WSlice /\ window_free t && window_free_defs D = false)).
Proof. exact truncated_thm. Qed.
Print Assumptions C23_truncated.

(** ------------------------------------------------------------------ *)
(** * C24 *)
Theorem C24_valid_only : forall cf D t input w v,
  wf_defs D = true -> wf_ty D t = true ->
  bytes_ok input -> zlen input <= isize_max ->
  decodes w cf D t input (ROk v) -> well_typed D v t = true.
Proof. exact valid_only. Qed.
Print Assumptions C24_valid_only.

(** The same for [parse], which moreover only moves forward. *)
Theorem C24_parse_valid_only : forall cf D t input w v rest,
  wf_defs D = true -> wf_ty D t = true ->
  bytes_ok input -> zlen input <= isize_max ->
  reads w cf D t input (ROk (v, rest)) ->
  well_typed D v t = true /\ exists used, input = used ++ rest.
Proof. exact parse_valid_only. Qed.
Print Assumptions C24_parse_valid_only.

(** ------------------------------------------------------------------ *)
(** * C25 *)
Theorem C25_accepted_bytes : forall cf D t w input v rest kf,
  wf_defs D = true -> wf_ty D t = true -> canonical cf t = true -> canonical_defs cf D = true ->
  bytes_ok input -> zlen input <= isize_max ->
  reads w cf D t input (ROk (v, rest)) -> (cf_est_override cf = true -> to_bytes cf D kf v t <> RDiv) ->
  exists bs, input = bs ++ rest /\ to_bytes cf D kf v t = ROk bs.
Proof. exact accepted_canonical. Qed.
Print Assumptions C25_accepted_bytes.

(** ------------------------------------------------------------------ *)
(** * C26, C27 *)
Theorem C26_count : forall cf D kf v t w u n u',
  write_to cf D kf v (tg_state w) (tg_of w) t u = ROk (n, u') ->
  exists bs, tg_bytes w u' = tg_bytes w u ++ bs /\ (zlen bs < usize_mod -> n = zlen bs).
Proof. exact write_appends. Qed.
Print Assumptions C26_count.

(** The bytes appended do not depend on what was there before, nor on the
    target; success and failure do not either. *)
Theorem C26_same_bytes : forall cf D kf v t w u,
  match to_bytes cf D kf v t with
  | ROk bs => exists n u', write_to cf D kf v (tg_state w) (tg_of w) t u = ROk (n, u') /\
                           tg_bytes w u' = tg_bytes w u ++ bs
  | RErr e => write_to cf D kf v (tg_state w) (tg_of w) t u = RErr e
  | RPanic => write_to cf D kf v (tg_state w) (tg_of w) t u = RPanic
  | RUB => write_to cf D kf v (tg_state w) (tg_of w) t u = RUB
  | RDiv => write_to cf D kf v (tg_state w) (tg_of w) t u = RDiv
  end.
Proof. exact write_same. Qed.
Print Assumptions C26_same_bytes.

Theorem C27_every_target : forall cf D kf v t w,
  rmap (tg_bytes w) (encode cf D kf (tg_of w) v t) = to_bytes cf D kf v t.
Proof. exact encode_same. Qed.
Print Assumptions C27_every_target.

Theorem C27_counter : forall cf D kf v t,
  match to_bytes cf D kf v t with
  | ROk bs => exists n, write_to cf D kf v unit tg_counter t tt = ROk (n, tt) /\ (zlen bs < usize_mod -> n = zlen bs)
  | RErr e => write_to cf D kf v unit tg_counter t tt = RErr e
  | RPanic => write_to cf D kf v unit tg_counter t tt = RPanic
  | RUB => write_to cf D kf v unit tg_counter t tt = RUB
  | RDiv => write_to cf D kf v unit tg_counter t tt = RDiv
  end.
Proof. exact counter_same. Qed.
Print Assumptions C27_counter.

Example targets_work :
  rmap (tg_bytes ToMemo) (encode release sample_defs 9 (tg_of ToMemo) sample_val sample_ty) = ROk sample_bytes /\
  rmap (tg_bytes ToHex) (encode release sample_defs 9 (tg_of ToHex) sample_val sample_ty) = ROk sample_bytes /\
  write_to release sample_defs 9 sample_val unit tg_counter sample_ty tt = ROk (22, tt) /\
  rmap fst (write_to release sample_defs 9 sample_val _ tg_vec sample_ty [1; 2; 3]) = ROk 22.
Proof. repeat apply conj; vm_compute; reflexivity. Qed.

(** ------------------------------------------------------------------ *)
(** * C28, C43 *)

(** The estimate is short by one for every natural number 0 in the value (F8);
    without those it is exact. *)
Theorem C28_estimate_partial : forall cf D kf v t bs n,
  wf_defs D = true -> wf_ty D t = true -> well_typed D v t = true -> zeros D v t = 0 ->
  to_bytes cf D kf v t = ROk bs -> zlen bs <= isize_max -> estimate cf D kf v t = ROk n ->
  n = zlen bs.
Proof. exact estimate_exact_thm. Qed.
Print Assumptions C28_estimate_partial.

Theorem C28_estimate_deficit : forall cf D kf v t bs n,
  wf_defs D = true -> wf_ty D t = true -> well_typed D v t = true ->
  to_bytes cf D kf v t = ROk bs -> zlen bs <= isize_max -> estimate cf D kf v t = ROk n ->
  n = zlen bs - zeros D v t.
Proof. exact estimate_exact. Qed.
Print Assumptions C28_estimate_deficit.

(** By default the length used for prefixes and capacity is exact. *)
Theorem C28_enc_len : forall cf D kf v t bs,
  cf_est_override cf = false -> to_bytes cf D kf v t = ROk bs -> zlen bs <= isize_max ->
  enc_len cf D kf v t = ROk (zlen bs) /\ to_bytes_full cf D kf v t = ROk bs.
Proof. exact enc_len_exact. Qed.
Print Assumptions C28_enc_len.

Theorem C28_estimate_refuted : exists cf D kf v t bs n,
  wf_defs D = true /\ wf_ty D t = true /\ well_typed D v t = true /\
  to_bytes cf D kf v t = ROk bs /\ estimate cf D kf v t = ROk n /\ n <> zlen bs.
Proof. exists release, [], 9%nat, (VInt 0), TN, [0], 0. repeat apply conj; try (vm_compute; reflexivity). discriminate. Qed.
Print Assumptions C28_estimate_refuted.

(** With enc_len_estimable_override the wrong estimate becomes a wrong prefix,
    and the value does not decode. *)
Theorem C28_override_refuted : exists cf D kf v t bs,
  wf_defs D = true /\ disciplined D [] = true /\ wf_ty D t = true /\ decodable [] t = true /\ well_typed D v t = true /\
  to_bytes cf D kf v t = ROk bs /\ bs = [0; 0] /\
  forall w, exists e, decode_with w cf D 9 t bs = RErr e.
Proof.
  exists release_override, [], 9%nat, (VWrap (VInt 0)), (TDyn PrefU8 TN), [0; 0].
  repeat apply conj; try (match goal with |- _ = _ => vm_compute; reflexivity end).
  intros []; eexists; vm_compute; reflexivity.
Qed.
Print Assumptions C28_override_refuted.

Example estimate_works :
  estimate debug sample_defs 9 sample_val sample_ty = ROk 22.
Proof. vm_compute. reflexivity. Qed.

Theorem C43_fixed_length_partial : forall cf D kf v t bs n,
  wf_defs D = true -> wf_ty D t = true -> well_typed D v t = true ->
  to_bytes cf D kf v t = ROk bs -> known cf D kf t = Some (Some n) -> zlen bs = n.
Proof. exact known_exact. Qed.
Print Assumptions C43_fixed_length_partial.

Example fixed_length_works :
  known debug [DStruct [TInt U16; TFix 3 (TPad 2 TBool)]] 9 (TNamed 0) = Some (Some 11) /\
  rmap (@zlen byte) (to_bytes debug [DStruct [TInt U16; TFix 3 (TPad 2 TBool)]] 9
    (VStruct [VInt 7; VSeq [VWrap (VBool true); VWrap (VBool false); VWrap (VBool true)]]) (TNamed 0)) = ROk 11.
Proof. split; vm_compute; reflexivity. Qed.

(** A FixSeq can be built with fewer elements than N (new, try_push) and then
    encodes to fewer than LEN bytes (F9). *)
Theorem C43_fixed_length_refuted : exists cf D kf vs n t bs m,
  zlen vs <= n /\ to_bytes cf D kf (VSeq vs) (TFix n t) = ROk bs /\
  known cf D kf (TFix n t) = Some (Some m) /\ zlen bs <> m.
Proof.
  exists release, [], 9%nat, [VInt 5], 3, (TInt U8), [5], 3.
  repeat apply conj; try (vm_compute; reflexivity); discriminate.
Qed.
Print Assumptions C43_fixed_length_refuted.

(** ------------------------------------------------------------------ *)
(** * C29 *)

(** For every value, with default features: the prefix is the payload length,
    and encoding panics exactly when the payload is too long. *)
Theorem C29_encode : forall cf D kf v t s,
  cf_est_override cf = false ->
  match to_bytes cf D kf v t with
  | ROk p => zlen p <= isize_max ->
      to_bytes cf D kf (VWrap v) (TDyn s t) =
        if zlen p <=? pref_max s then ROk (pref_format s (zlen p) ++ p) else RPanic
  | bad => to_bytes cf D kf (VWrap v) (TDyn s t) = bad
  end.
Proof. exact dynamic_encode. Qed.
Print Assumptions C29_encode.

Theorem C29_decode : forall cf D s t w input v rest,
  wf_defs D = true -> wf_ty D t = true -> bytes_ok input -> zlen input <= isize_max ->
  reads w cf D (TDyn s t) input (ROk (VWrap v, rest)) <->
  exists payload, input = pref_format s (zlen payload) ++ payload ++ rest /\ zlen payload <= pref_max s /\
                  reads w cf D t payload (ROk (v, [])).
Proof. exact dynamic_decode. Qed.
Print Assumptions C29_decode.

Example dynamic_works :
  to_bytes debug [] 9 (VWrap (VBytes (repeat 1 255))) (TDyn PrefU8 TBytes) = ROk (255 :: repeat 1 255) /\
  to_bytes debug [] 9 (VWrap (VBytes (repeat 1 256))) (TDyn PrefU8 TBytes) = RPanic /\
  run_with WMemo Debug (then_rest (parse debug [] 9 (TDyn PrefU16 TBytes))) [0; 2; 5; 6; 7] = ROk (VWrap (VBytes [5; 6]), [7]).
Proof. repeat apply conj; vm_compute; reflexivity. Qed.

(** ------------------------------------------------------------------ *)
(** * C30 *)

(** Nesting and loop rounds are bounded by a linear function of the input
    length, for types whose sequence elements occupy at least one byte. *)
Theorem C30_terminates_partial : forall w cf D I R t input f,
  wf_defs D = true -> wf_ty D t = true -> terminating D I R = true -> loops_ok I t = true ->
  bytes_ok input -> zlen input <= isize_max ->
  step_bound D I R t (zlen input) <= Z.of_nat f -> decode_with w cf D f t input <> RDiv.
Proof. exact decoding_ends_all. Qed.
Print Assumptions C30_terminates_partial.

Theorem C30_answers_partial : forall w cf D I R t input,
  wf_defs D = true -> wf_ty D t = true -> terminating D I R = true -> loops_ok I t = true ->
  bytes_ok input -> zlen input <= isize_max ->
  exists out, decodes w cf D t input out.
Proof. exact decoding_answers_all. Qed.
Print Assumptions C30_answers_partial.

Example bound_is_small : step_bound sample_defs sample_info sample_ranks sample_ty 22 = 186.
Proof. reflexivity. Qed.

(** A Sequence answers exactly on the inputs on which no element, read where
    the previous one stopped, takes nothing before the end. *)
Theorem C30_sequence_exact_partial : forall w cf D t,
  wf_defs D = true -> wf_ty D t = true -> pads_ok cf D t = true ->
  forall w' input, bytes_ok input -> zlen input <= isize_max ->
  (forall pre rest, input = pre ++ rest -> exists out, reads w cf D t rest out) ->
  (exists out, decodes w' cf D (TSeq t) input out) <-> ~ gets_stuck w cf D t input.
Proof. exact seq_answers. Qed.
Print Assumptions C30_sequence_exact_partial.

Theorem C30_stuck_never_answers : forall w cf D t,
  wf_defs D = true -> wf_ty D t = true ->
  forall w' input f, bytes_ok input -> zlen input <= isize_max -> gets_stuck w cf D t input ->
  decode_with w' cf D f (TSeq t) input = RDiv.
Proof. exact stuck_diverges. Qed.
Print Assumptions C30_stuck_never_answers.

(** Bounded sequences of empty elements end; a sequence whose second element
    takes nothing does not. *)
Example rounds_are_bounded : loops_ok [] (TLim 3 TUnit) = true /\ step_bound [] [] [] (TLim 3 TUnit) 1 = 11 /\
  decode_with WByte debug [] 11 (TLim 3 TUnit) [7] = RErr (DParse (EExternal (LengthViolation (TooLong 3 4)))).
Proof. repeat apply conj; reflexivity. Qed.
Example second_is_stuck : gets_stuck WMemo debug [] (TVPad 2 TBytes) [1; 2; 3; 4; 5].
Proof.
  exists [4; 5], (VWrap (VBytes [])). split; [discriminate|]. split.
  - eapply eats_one; [|apply eats_none]. eapply (reads_at WMemo) with (f := 9%nat); [vm_compute; reflexivity|discriminate].
  - eapply (reads_at WMemo) with (f := 9%nat); [vm_compute; reflexivity|discriminate].
Qed.

(** A Sequence of zero-width elements never returns on non-empty input (F16). *)
Theorem C30_terminates_refuted : exists cf D t input,
  wf_defs D = true /\ wf_ty D t = true /\ bytes_ok input /\
  forall w f, decode_with w cf D f t input = RDiv.
Proof. exact zero_width_diverges. Qed.
Print Assumptions C30_terminates_refuted.

(** ------------------------------------------------------------------ *)
(** * C31 *)

(** Release builds and the SliceParser never panic; debug builds do not panic
    on types without windows.  VPadded of positive width is excluded (F7). *)
Theorem C31_no_panic_partial : forall w cf D t input f,
  wf_defs D = true -> wf_ty D t = true -> vpad_free t = true -> vpad_free_defs D = true ->
  (cf_mode cf = Debug -> w <> WSlice -> window_free t = true /\ window_free_defs D = true) ->
  bytes_ok input -> zlen input <= isize_max ->
  decode_with w cf D f t input <> RPanic /\ decode_with w cf D f t input <> RUB.
Proof. exact no_panic_thm. Qed.
Print Assumptions C31_no_panic_partial.

(** Memory safety, windows and panics included. *)
Theorem C31_memory_safe_partial : forall w cf D t input f,
  wf_defs D = true -> wf_ty D t = true -> pads_ok cf D t = true ->
  bytes_ok input -> zlen input <= isize_max -> decode_with w cf D f t input <> RUB.
Proof. exact no_ub_with. Qed.
Print Assumptions C31_memory_safe_partial.

(** F2: in a debug build the length-prefixed bytes [05] panic. *)
Theorem C31_debug_dynamic_refuted : exists cf D t input,
  wf_defs D = true /\ wf_ty D t = true /\ vpad_free t = true /\ bytes_ok input /\
  decodes WByte cf D t input RPanic.
Proof. exact dynamic_panics. Qed.
Print Assumptions C31_debug_dynamic_refuted.

(** F7: a VPadded wider than the input panics in a debug build and reads out of
    bounds in a release build. *)
Theorem C31_vpadded_refuted : exists D t input,
  wf_defs D = true /\ wf_ty D t = true /\ bytes_ok input /\
  decodes WByte debug D t input RPanic /\ decodes WByte release D t input RUB.
Proof. exact vpadded_panics. Qed.
Print Assumptions C31_vpadded_refuted.

(** ------------------------------------------------------------------ *)
(** * C32 *)
Theorem C32_parse_same : forall cf D t input,
  wf_defs D = true -> wf_ty D t = true -> bytes_ok input -> zlen input <= isize_max ->
  forall w w' v rest, reads w cf D t input (ROk (v, rest)) <-> reads w' cf D t input (ROk (v, rest)).
Proof. exact parsers_agree. Qed.
Print Assumptions C32_parse_same.

Theorem C32_decode_same_partial : forall cf D t input,
  wf_defs D = true -> wf_ty D t = true -> bytes_ok input -> zlen input <= isize_max ->
  forall w w' v, (cf_complete cf = true -> w <> WSlice /\ w' <> WSlice) ->
  decodes w cf D t input (ROk v) <-> decodes w' cf D t input (ROk v).
Proof. exact decoders_same. Qed.
Print Assumptions C32_decode_same_partial.

(** F21: with check_complete_parse the SliceParser accepts nothing. *)
Theorem C32_slice_refuted : exists cf D t input v,
  wf_defs D = true /\ wf_ty D t = true /\
  decodes WByte cf D t input (ROk v) /\ forall v', ~ decodes WSlice cf D t input (ROk v').
Proof. exact slice_differs. Qed.
Print Assumptions C32_slice_refuted.

(** ------------------------------------------------------------------ *)
(** * C33 *)
Theorem C33_decoded_bounds_partial : forall cf D t input,
  wf_defs D = true -> bytes_ok input -> zlen input <= isize_max ->
  forall w n t' v, wf_ty D t = true -> decodes w cf D t input (ROk v) ->
  (t = TLim n t' -> exists vs, v = VSeq vs /\ zlen vs <= n) /\
  (t = TFix n t' -> exists vs, v = VSeq vs /\ zlen vs = n).
Proof. exact decoded_bounds. Qed.
Print Assumptions C33_decoded_bounds_partial.

(** F9: a FixSeq with too few elements is encoded, and the bytes do not decode. *)
Theorem C33_underfull_refuted : exists cf D kf vs n t bs,
  zlen vs < n /\ to_bytes cf D kf (VSeq vs) (TFix n t) = ROk bs /\
  forall w, exists e, decodes w cf D (TFix n t) bs (RErr e).
Proof. exact underfull_encodes. Qed.
Print Assumptions C33_underfull_refuted.

(** ------------------------------------------------------------------ *)
(** * C41 *)
Theorem C41_padded_encode : forall cf D kf v t n p,
  0 <= n -> to_bytes cf D kf v t = ROk p -> zlen p + n <= isize_max ->
  to_bytes cf D kf (VWrap v) (TPad n t) = ROk (p ++ repeat 0 (Z.to_nat n)).
Proof. exact padded_encode. Qed.
Print Assumptions C41_padded_encode.

Theorem C41_padded_decode : forall cf D n t w input v rest,
  wf_defs D = true -> wf_ty D (TPad n t) = true -> bytes_ok input -> zlen input <= isize_max ->
  reads w cf D (TPad n t) input (ROk (VWrap v, rest)) <->
  exists padding, zlen padding = n /\ (cf_check_padding cf = true -> Forall (fun b => b = 0) padding) /\
                  reads w cf D t input (ROk (v, padding ++ rest)).
Proof. exact padded_decode. Qed.
Print Assumptions C41_padded_decode.

Theorem C41_vpadded_encode : forall cf D kf v t n,
  to_bytes cf D kf (VWrap v) (TVPad n t) = to_bytes cf D kf v t.
Proof. exact vpadded_encode. Qed.
Print Assumptions C41_vpadded_encode.

Theorem C41_vpadded_decode : forall cf D n t w input v rest,
  wf_defs D = true -> wf_ty D (TVPad n t) = true -> bytes_ok input -> zlen input <= isize_max ->
  reads w cf D (TVPad n t) input (ROk (VWrap v, rest)) <->
  exists body, input = body ++ rest /\ zlen rest = n /\ reads w cf D t body (ROk (v, [])).
Proof. exact vpadded_decode. Qed.
Print Assumptions C41_vpadded_decode.

Example padding_works :
  run_with WByte Release (then_rest (parse release_complete [] 9 (TPad 2 (TInt U8)))) [7; 0; 0; 9] = ROk (VWrap (VInt 7), [9]) /\
  (exists e, run_with WByte Release (then_rest (parse release_complete [] 9 (TPad 2 (TInt U8)))) [7; 0; 1; 9] = RErr e) /\
  run_with WSlice Release (then_rest (parse release [] 9 (TVPad 3 TBytes))) [7; 8; 1; 2; 3] = ROk (VWrap (VBytes [7; 8]), [1; 2; 3]).
Proof. repeat apply conj; try (vm_compute; reflexivity). eexists; vm_compute; reflexivity. Qed.

(** ------------------------------------------------------------------ *)
(** * C42 *)
Theorem C42_check_on_partial : forall cf D t input,
  wf_defs D = true -> wf_ty D t = true -> bytes_ok input -> zlen input <= isize_max ->
  forall w v, cf_complete cf = true -> w <> WSlice ->
  (decodes w cf D t input (ROk v) <-> reads w cf D t input (ROk (v, []))) /\
  (forall rest, rest <> [] -> reads w cf D t input (ROk (v, rest)) ->
     exists lo, decodes w cf D t input (RErr (DNonEmpty lo)) /\ lo_bytes lo = rest).
Proof. exact complete_on. Qed.
Print Assumptions C42_check_on_partial.

Theorem C42_check_off : forall cf D t input,
  wf_defs D = true -> wf_ty D t = true -> bytes_ok input -> zlen input <= isize_max ->
  forall w v, cf_complete cf = false ->
  decodes w cf D t input (ROk v) <-> exists rest, reads w cf D t input (ROk (v, rest)).
Proof. exact complete_off. Qed.
Print Assumptions C42_check_off.

(** F21: with the check on, the SliceParser rejects even what it parsed
    completely. *)
Theorem C42_slice_refuted : exists cf D t input v,
  cf_complete cf = true /\ reads WSlice cf D t input (ROk (v, [])) /\
  forall v', ~ decodes WSlice cf D t input (ROk v').
Proof. exact slice_rejects. Qed.
Print Assumptions C42_slice_refuted.
