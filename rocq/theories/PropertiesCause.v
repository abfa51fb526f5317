(** Property theorems: the causes of errors (C80).

    The parameters of [source_of] and [text_of] are what the errors hold that
    the model leaves out (ModelCause.v); the theorems hold whatever they are. *)
From Coq Require Import String.
From Verif Require Import Base ModelErrors ModelParser ModelSchema ModelHex ModelInput ModelDisplay ModelCause ModelInt
  SpecCodec SpecError SpecCause ProofCause PropertiesCodec.

(** Following the causes of a decoding error ends, after six errors at most, not
    counting those of a boxed foreign error. *)
Theorem C80_ends : forall utf8 slice boxed e, exists l,
  chain (source_of utf8 slice boxed) (ADecode e) l /\
  (forall l', chain (source_of utf8 slice boxed) (ADecode e) l' -> l' = l) /\
  zlen l <= 6 + zlen (snd boxed).
Proof. exact decode_chain. Qed.
Print Assumptions C80_ends.

(** On the way one finds the error of the parser, and the error that was raised. *)
Theorem C80_raised : forall utf8 slice boxed e l, chain (source_of utf8 slice boxed) (ADecode (IDecode (DParse e))) l ->
  In (AParse e) l /\ In (raised e) l.
Proof. exact chain_raised. Qed.
Print Assumptions C80_raised.

(** The text of an error ends in the text of its cause, with one exception in the
    library (below) and those of other libraries. *)
Theorem C80_texts : forall for_type utf8 slice boxed num64 debug_leftover e c,
  source_of utf8 slice boxed e = Some c -> quotes e = true ->
  ends_in (text_of for_type utf8 boxed num64 debug_leftover e) (text_of for_type utf8 boxed num64 debug_leftover c).
Proof. exact text_ends. Qed.
Print Assumptions C80_texts.

(** One error of the library does not quote its cause. *)
Theorem C80_slice_not_quoted : exists e c,
  source_of (txt "utf8") (txt "could not convert slice to array") (txt "other", []) e = Some c /\
  (forall text cs, e <> AForeign text cs) /\
  ~ ends_in (text_of [] (txt "utf8") (txt "other", []) show_int (fun _ => []) e)
            (text_of [] (txt "utf8") (txt "other", []) show_int (fun _ => []) c).
Proof. exact slice_not_quoted. Qed.
Print Assumptions C80_slice_not_quoted.

(** But decoding never reports that one: what it reports contains the text of every
    cause. *)
Theorem C80_decoding : forall cf D t input,
  wf_defs D = true -> wf_ty D t = true -> pads_ok cf D t = true -> bytes_ok input -> zlen input <= isize_max ->
  forall w e, decodes w cf D t input (RErr (DParse e)) ->
  forall for_type utf8 slice boxed num64 debug_leftover l, chain (source_of utf8 slice boxed) (ADecode (IDecode (DParse e))) l ->
  Forall (fun c => ends_in (text_of for_type utf8 boxed num64 debug_leftover (ADecode (IDecode (DParse e))))
                           (text_of for_type utf8 boxed num64 debug_leftover c)) l.
Proof. exact decoding_texts. Qed.
Print Assumptions C80_decoding.

(** F36: the texts of [ParseError] and [ExternalError] are those of their causes, so
    that a report of the chain repeats itself. *)
Theorem C80_repeats : forall for_type utf8 slice boxed num64 debug_leftover,
  (forall e, exists c, source_of utf8 slice boxed (AParse e) = Some c /\
     text_of for_type utf8 boxed num64 debug_leftover (AParse e) = text_of for_type utf8 boxed num64 debug_leftover c) /\
  (forall e, e <> UncoercableString -> exists c, source_of utf8 slice boxed (AExternal e) = Some c /\
     text_of for_type utf8 boxed num64 debug_leftover (AExternal e) = text_of for_type utf8 boxed num64 debug_leftover c).
Proof. exact repeated. Qed.
Print Assumptions C80_repeats.

(** A number out of range: four errors, three of them with the same words. *)
Example C80_case : forall utf8 slice boxed,
  let e := EExternal (IntRangeViolation (BOverflow 10 11)) in
  chain (source_of utf8 slice boxed) (ADecode (IDecode (DParse e)))
    [ADecode (IDecode (DParse e)); AParse e; AExternal (IntRangeViolation (BOverflow 10 11)); ABounds false (BOverflow 10 11)] /\
  text_of [] utf8 boxed show_int (fun _ => []) (ADecode (IDecode (DParse e))) =
    txt "parser encountered error: provided value 11 greater than maximum bound 10" /\
  text_of [] utf8 boxed show_int (fun _ => []) (AParse e) = txt "provided value 11 greater than maximum bound 10" /\
  decodes WSlice debug [] (TRanged U8 10 20) [11] (RErr (DParse e)).
Proof.
  intros utf8 slice boxed e. split; [repeat (eapply chain_cause; [reflexivity|]); apply chain_root; reflexivity|].
  split; [reflexivity|]. split; [reflexivity|].
  eapply (ProofSettle.decodes_at WSlice) with (f := 9%nat); [vm_compute; reflexivity|discriminate].
Qed.

(** What [DecodeError] and [InvariantError] put before the text of their cause. *)
Example C80_prefixes : forall for_type utf8 boxed num64 dbg e lo,
  let text := text_of for_type utf8 boxed num64 dbg in
  text (ADecode (IConv (OddParity (txt "abc")))) =
    txt "hex conversion encountered error: " ++ show_hex_error (OddParity (txt "abc")) /\
  text (ADecode (IDecode (DInvariant (ErrorCaseUnexpected (OffsetOverflow 3))))) =
    txt "invariant failed during cleanup: unexpected window-error case: " ++ text (AWindow (OffsetOverflow 3)) /\
  text (ADecode (IDecode (DInvariant (ErrorKindUnexpected e)))) =
    txt "invariant failed during cleanup: unexpected non-window error: " ++ text (AParse e) /\
  text (ADecode (IDecode (DInvariant (ErrorUnexpected e)))) =
    txt "invariant failed during cleanup: unexpected error: " ++ text (AParse e) /\
  text (ADecode (IDecode (DNonEmpty lo))) = txt "parser object had non-empty left-over state on cleanup: " ++ dbg lo.
Proof. intros. repeat apply conj; reflexivity. Qed.
