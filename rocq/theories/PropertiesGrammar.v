(** Property theorems: decoding accepts exactly the wire grammar (C60), and what
    it accepted can be encoded again (C61).

    The grammar is [denotes checked D t bs v rest] of SpecGrammar.v: read as a
    [t], the bytes [bs] denote [v] and leave [rest]. *)
From Verif Require Import Base ModelErrors ModelParser ModelInt ModelSchema SpecCodec SpecNum SpecUtf8 SpecGrammar SpecReencode
  BaseLemmas ProofCodecThms ProofSettle ProofCodecProps ProofGrammar ProofReencode PropertiesCodec ProofSpillEnd.

(** ------------------------------------------------------------------ *)
(** * C60 *)
Theorem C60_exactly_the_grammar : forall cf D, wf_defs D = true ->
  forall w t input v rest, wf_ty D t = true -> bytes_ok input -> zlen input <= isize_max ->
  reads w cf D t input (ROk (v, rest)) <-> denotes (cf_check_padding cf) D t input v rest.
Proof. exact grammar_exact. Qed.
Print Assumptions C60_exactly_the_grammar.

(** [try_decode] moreover wants the whole input where the feature says so
    (where the SliceParser always fails, F21). *)
Theorem C60_try_decode : forall cf D t input,
  wf_defs D = true -> wf_ty D t = true -> bytes_ok input -> zlen input <= isize_max ->
  forall w v, decodes w cf D t input (ROk v) <->
  exists rest, denotes (cf_check_padding cf) D t input v rest /\
               (cf_complete cf = true -> w <> WSlice /\ rest = []).
Proof. exact grammar_decodes. Qed.
Print Assumptions C60_try_decode.

(** Bytes denote at most one value and use up at most one amount of input. *)
Theorem C60_unambiguous : forall cf D t input,
  wf_defs D = true -> wf_ty D t = true -> bytes_ok input -> zlen input <= isize_max ->
  forall v rest v' rest',
  denotes (cf_check_padding cf) D t input v rest -> denotes (cf_check_padding cf) D t input v' rest' ->
  v = v' /\ rest = rest'.
Proof. exact grammar_unambiguous. Qed.
Print Assumptions C60_unambiguous.

(** What is encoded is bytes, and they denote the value. *)
Theorem C60_encoded : forall cf D I kf t v bs,
  wf_defs D = true -> disciplined D I = true -> wf_ty D t = true -> decodable I t = true ->
  well_typed D v t = true -> to_bytes cf D kf v t = ROk bs -> zlen bs <= isize_max ->
  (cf_est_override cf = true -> zeros D v t = 0) ->
  bytes_ok bs /\ denotes (cf_check_padding cf) D t bs v [].
Proof. exact encoded_denotes. Qed.
Print Assumptions C60_encoded.

(** Bytes that denote nothing are refused, for types whose decoding ends: with an
    error, or on the inputs of C31 with a panic or undefined behaviour. *)
Theorem C60_outside_rejected : forall cf D t input,
  wf_defs D = true -> wf_ty D t = true -> bytes_ok input -> zlen input <= isize_max ->
  forall I R w, terminating D I R = true -> loops_ok I t = true ->
  (forall v rest, ~ denotes (cf_check_padding cf) D t input v rest) ->
  (exists e, decodes w cf D t input (RErr (DParse e))) \/ ((cf_mode cf = Release -> w <> WSlice) /\ decodes w cf D t input RPanic) \/
  (cf_mode cf = Release /\ w <> WSlice /\ decodes w cf D t input RUB).
Proof. exact outside_refused. Qed.
Print Assumptions C60_outside_rejected.

Example C60_sample : denotes false sample_defs sample_ty sample_bytes sample_val [].
Proof.
  apply (C60_exactly_the_grammar debug sample_defs eq_refl WByte); [reflexivity|exact sample_bytes_ok|vm_compute; discriminate|].
  eapply (reads_at WByte) with (f := 9%nat); [vm_compute; reflexivity|discriminate].
Qed.
(** Derived by hand: Dynamic<u8, Sequence<Option<u8>>>, one byte left. *)
Example C60_derived : forall checked,
  denotes checked [] (TDyn PrefU8 (TSeq (TOption (TInt U8)))) [3; 0; 255; 7; 9] (VWrap (VSeq [VNone; VSome (VInt 7)])) [9].
Proof.
  intros checked. apply (den_dyn checked [] PrefU8 _ [0; 255; 7] _ [9]); [vm_compute; discriminate|].
  apply den_seq. eapply many_more; [discriminate|apply den_none|]. eapply many_more; [discriminate| |apply many_none].
  apply den_some. apply (den_int checked [] U8 7 []). vm_compute. split; discriminate.
Qed.
(** Padding must be 0 exactly where it is checked; a boolean is 0 or 255. *)
Example C60_padding :
  denotes false [] (TPad 1 TBool) [255; 1] (VWrap (VBool true)) [] /\
  (forall v rest, ~ denotes true [] (TPad 1 TBool) [255; 1] v rest) /\
  (forall v rest, ~ denotes false [] TBool [1] v rest).
Proof.
  split; [|split].
  - apply (den_pad false [] 1 TBool [255; 1] (VBool true) [1] []); [apply den_true|reflexivity|discriminate].
  - intros v rest H. inversion H as [| | | | | | | | | | | | | | | | | | | | | |n t bs v' pad r HB HL HP| | | |]; subst.
    remember (pad ++ rest) as l eqn:El. inversion HB; match goal with E : [1] = _ |- _ => rewrite E in El || rewrite <- E in El | E : _ = [1] |- _ => rewrite E in El end.
    destruct pad as [|p pad]; [discriminate|]. cbn [app] in El. injection El as Ep _. rewrite <- Ep in HP. specialize (HP eq_refl). inversion HP; discriminate.
  - intros v rest H. inversion H.
Qed.
Example C60_outside_meets : exists e, decodes WByte debug [] TBool [1] (RErr (DParse e)).
Proof.
  destruct (C60_outside_rejected debug [] TBool [1] eq_refl eq_refl ltac:(apply bytes_ok_check; reflexivity) ltac:(vm_compute; discriminate)
    [] [] WByte eq_refl eq_refl (proj2 (proj2 C60_padding))) as [H|[[_ H]|[F _]]]; [exact H| |discriminate F].
  exfalso. destruct H as [_ [f0 H]]. specialize (H (S f0) ltac:(lia)). discriminate H.
Qed.

(** ------------------------------------------------------------------ *)
(** * C61: what was decoded can be encoded again *)

(** Without strings: always, and to no more bytes than were read. *)
Theorem C61_no_strings_partial : forall w cf D kf t input v rest,
  wf_defs D = true -> wf_ty D t = true -> bytes_ok input -> zlen input <= isize_max ->
  reads w cf D t input (ROk (v, rest)) ->
  (cf_est_override cf = true -> zeros D v t = 0 /\ to_bytes cf D kf v t <> RDiv) ->
  string_free t = true -> string_free_defs D = true ->
  exists used bs, input = used ++ rest /\ to_bytes cf D kf v t = ROk bs /\ zlen bs <= zlen used.
Proof. exact reencodes. Qed.
Print Assumptions C61_no_strings_partial.

(** With strings: when every length prefix of the type can hold three times the
    length of the input. *)
Theorem C61_strings_partial : forall w cf D kf t input v rest,
  wf_defs D = true -> wf_ty D t = true -> bytes_ok input -> zlen input <= isize_max ->
  reads w cf D t input (ROk (v, rest)) ->
  (cf_est_override cf = true -> zeros D v t = 0 /\ to_bytes cf D kf v t <> RDiv) ->
  3 * zlen input <= isize_max -> roomy (3 * zlen input) t = true -> roomy_defs (3 * zlen input) D = true ->
  exists used bs, input = used ++ rest /\ to_bytes cf D kf v t = ROk bs /\ zlen bs <= 3 * zlen used.
Proof. exact reencodes_short. Qed.
Print Assumptions C61_strings_partial.

(** The new bytes decode, through any parser, to the same value. *)
Theorem C61_stable : forall w cf D kf t input v rest,
  wf_defs D = true -> wf_ty D t = true -> bytes_ok input -> zlen input <= isize_max ->
  reads w cf D t input (ROk (v, rest)) ->
  (cf_est_override cf = true -> zeros D v t = 0 /\ to_bytes cf D kf v t <> RDiv) ->
  forall I w' bs, disciplined D I = true -> decodable I t = true -> (w' = WSlice -> cf_complete cf = false) ->
  to_bytes cf D kf v t = ROk bs -> zlen bs <= isize_max ->
  decodes w' cf D t bs (ROk v).
Proof. exact reencoding_stable. Qed.
Print Assumptions C61_stable.

(** F20: 86 stray bytes become 258 bytes of replacement characters, too long
    for the one-byte prefix they came from. *)
Theorem C61_strings_refuted : exists cf D t input v rest,
  wf_defs D = true /\ wf_ty D t = true /\ bytes_ok input /\ cf_est_override cf = false /\
  reads WByte cf D t input (ROk (v, rest)) /\ forall kf, to_bytes cf D kf v t = RPanic.
Proof. exact reencoding_panics. Qed.
Print Assumptions C61_strings_refuted.

(** A redundant N: three bytes are read, one is written.  The sample with its
    string is short enough for all its prefixes. *)
Example C61_meets :
  string_free (TDyn PrefU30 TN) = true /\
  run_with WByte Debug (then_rest (parse debug [] 9 (TDyn PrefU8 TN))) [3; 133; 128; 0; 9] = ROk (VWrap (VInt 5), [9]) /\
  to_bytes debug [] 9 (VWrap (VInt 5)) (TDyn PrefU8 TN) = ROk [1; 5] /\
  roomy (3 * zlen sample_bytes) sample_ty = true /\ roomy_defs (3 * zlen sample_bytes) sample_defs = true.
Proof. vm_compute. repeat apply conj; reflexivity. Qed.
