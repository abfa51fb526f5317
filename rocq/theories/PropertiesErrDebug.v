(** Property theorems about the [{:?}] texts of errors, which are what [decode],
    [unwrap] and [expect] say when they panic (C102), and about what [decode_memo] says
    (C103). *)
From Coq Require Import String.
From Verif Require Import Base ModelErrors ModelParser ModelSchema ModelHex ModelInput ModelDisplay ModelUtf8 ModelDebug ModelErrDebug.
From Verif Require Import SpecUtf8 SpecCodec SpecDisplay SpecDebug SpecErrDebug ProofDisplay ProofDebug ProofErrDebug.

(** *** C102 *)
(** The text names the kind of error and gives every number, byte and name in it. *)
Theorem C102_text : forall num64 printable cs utf8 boxed e, Forall scalar cs ->
  parse_text num64 printable cs utf8 boxed e (parse_debug num64 printable (utf8_string cs) utf8 boxed e).
Proof. exact (fun num64 printable cs utf8 boxed e H => parse_says num64 printable cs utf8 boxed H e). Qed.
Print Assumptions C102_text.

Theorem C102_part_texts :
  (forall e, window_text e (window_debug e)) /\ (forall e, width_text e (width_debug e)) /\ (forall e, length_text e (length_debug e)) /\
  (forall e, bounds_text decimal e (bounds_debug show_int e)) /\
  (forall s, hex_debug (OddParity s) = txt "non-even length-parity for string `" ++ s ++ txt "`") /\
  (forall s, hex_debug (NonHex s) = txt "non-hex character found in string `" ++ s ++ txt "`").
Proof. exact part_says. Qed.
Print Assumptions C102_part_texts.

(** Errors with the same text are the same error; if it is about a tag, the types have
    the same name. *)
Theorem C102_unambiguous : forall num64 printable utf8 boxed cs cs' e e',
  float_text num64 -> Forall scalar cs -> Forall scalar cs' -> floats_known e = true -> floats_known e' = true ->
  parse_debug num64 printable (utf8_string cs) utf8 boxed e = parse_debug num64 printable (utf8_string cs') utf8 boxed e' ->
  e = e' /\ (names_type e = true -> cs = cs').
Proof. exact parse_strings. Qed.
Print Assumptions C102_unambiguous.

Theorem C102_parts_unambiguous :
  (forall e e', window_debug e = window_debug e' -> e = e') /\ (forall e e', width_debug e = width_debug e' -> e = e') /\
  (forall e e', length_debug e = length_debug e' -> e = e') /\ (forall e e', bounds_debug show_int e = bounds_debug show_int e' -> e = e') /\
  (forall e e', internal_debug e = internal_debug e' -> e = e') /\ (forall e e', hex_debug e = hex_debug e' -> e = e').
Proof. exact part_texts. Qed.
Print Assumptions C102_parts_unambiguous.

(** Printing the error of a failed decoding never panics. *)
Theorem C102_printable : forall num64 printable utf8 boxed name implicit cf w D fuel t src e,
  try_decode_from implicit cf t (decode_with w cf D fuel t) src = RErr e ->
  exists s, decode_debug num64 printable name utf8 boxed e = ROk s.
Proof. exact any_shown. Qed.
Print Assumptions C102_printable.

(** Whatever was decoded, through whichever parsers, the same text is the same error. *)
Theorem C102_decode : forall num64 printable utf8 boxed cs cs' implicit cf w D fuel t src implicit' cf' w' D' fuel' t' src' e e' s s',
  float_text num64 -> Forall scalar cs -> Forall scalar cs' -> all_known e = true -> all_known e' = true ->
  try_decode_from implicit cf t (decode_with w cf D fuel t) src = RErr e ->
  try_decode_from implicit' cf' t' (decode_with w' cf' D' fuel' t') src' = RErr e' ->
  decode_debug num64 printable (utf8_string cs) utf8 boxed e = ROk s ->
  decode_debug num64 printable (utf8_string cs') utf8 boxed e' = ROk s' -> s = s' ->
  same_error e e'.
Proof.
  exact (fun num64 printable utf8 boxed cs cs' implicit cf w D fuel t src implicit' cf' w' D' fuel' t' src' e e' s s' HF F F' =>
    any_decode num64 printable utf8 boxed (utf8_string cs) (utf8_string cs') implicit cf w D fuel t src implicit' cf' w' D' fuel' t' src' e e' s s' HF
      (named_string cs F) (named_string cs' F')).
Qed.
Print Assumptions C102_decode.

(** [decode] panics whenever [try_decode] gives an error, and says which. *)
Theorem C102_panic : forall num64 printable utf8 boxed name tname implicit cf D fuel t src e,
  try_decode_from implicit cf t (byte_decode cf D fuel t) src = RErr e ->
  decode_from implicit cf D fuel t src = RPanic /\
  exists s, decode_debug num64 printable name utf8 boxed e = ROk s /\
    panic_says (decode_says num64 printable name utf8 boxed tname) (try_decode_from implicit cf t (byte_decode cf D fuel t) src) =
      Some (ROk (txt "<" ++ tname ++ txt " as Decode>::decode encountered error: " ++ s)).
Proof. exact decode_speaks. Qed.
Print Assumptions C102_panic.

Example C102_sample :
  let say e := decode_says show_int (fun c => 32 <=? c) (txt "<unknown>") [] [] (txt "T") e in
  let cf := mkConfig Debug false false false false true in
  float_text show_int /\ Forall scalar (txt "<unknown>") /\ utf8_string (txt "<unknown>") = txt "<unknown>" /\
  panic_says say (try_decode_from false cf (TInt ModelInt.U16) (byte_decode cf [] 9 (TInt ModelInt.U16)) (SrcSlice [3])) =
    Some (ROk (txt "<T as Decode>::decode encountered error: Parse(Window(ConsumeWouldExceedLimit { offset: 0, requested: 2, limit: 1 }))")) /\
  panic_says say (try_decode_from false cf TBool (byte_decode cf [] 9 TBool) (SrcSlice [255; 1; 2])) =
    Some (ROk (txt "<T as Decode>::decode encountered error: NonEmpty(Windowless([1, 2]))")) /\
  panic_says say (try_decode_from true cf TBool (byte_decode cf [] 9 TBool) (SrcStr (txt "0x"))) =
    Some (ROk (txt "<T as Decode>::decode encountered error: Conv(non-hex character found in string `0x`)")) /\
  say (IDecode (DParse (EToken (InvalidTag TagU32 7 (Some [1; 300]))))) =
    ROk (txt "<T as Decode>::decode encountered error: Parse(Token(InvalidTagU30(TagError { actual: 7, for_type: " ++ [34] ++
         txt "<unknown>" ++ [34] ++ txt ", expected: Some([1, 300]) })))") /\
  say (IDecode (DInvariant (ErrorUnexpected (EExternal (WidthViolation (InvalidWidth [32; 64] 33)))))) =
    ROk (txt "<T as Decode>::decode encountered error: Invariant(unexpected error encountered: External(WidthViolation(InvalidWidth { valid: [32, 64], actual: 33 })))") /\
  all_known (IDecode (DParse (EExternal (FloatRangeViolation (BUnderflow 5 4))))) = true.
Proof.
  cbv zeta. split; [split; [exact show_int_number|]; intros a b _ _ E; left; apply show_int_inj, E|].
  split; [repeat constructor; unfold scalar; vm_compute; intuition discriminate|].
  repeat split; vm_compute; reflexivity.
Qed.

(** *** C103: decode_memo says at least as much as decode *)
(** It panics whenever its [try_decode] gives an error, and names the type; what is
    missing is the error. *)
Theorem C103_memo_partial : forall tname implicit cf D fuel t src e,
  try_decode_from implicit cf t (memo_decode cf D fuel t) src = RErr e ->
  decode_memo_from implicit cf D fuel t src = RPanic /\
  exists why, (why = txt "ParseError" \/ why = txt "DecodeError") /\
    decode_memo_says t tname e = ROk (txt "<" ++ tname ++ txt " as Decode>::decode_memo: unable to parse value (" ++ why ++ txt " encountered)").
Proof. exact memo_speaks. Qed.
Print Assumptions C103_memo_partial.

(** The message is the same for every error. *)
Theorem C103_memo_constant_partial : forall t tname e e', decode_memo_says t tname e = decode_memo_says t tname e'.
Proof. exact memo_same. Qed.
Print Assumptions C103_memo_constant_partial.

(** Two inputs whose errors [decode] tells apart and [decode_memo] does not. *)
Theorem C103_memo_refuted : exists cf D fuel t a b e e',
  byte_decode cf D fuel t a = RErr e /\ memo_decode cf D fuel t a = RErr e /\
  byte_decode cf D fuel t b = RErr e' /\ memo_decode cf D fuel t b = RErr e' /\ e <> e' /\
  (forall num64 printable n utf8 boxed tname,
     decode_says num64 printable n utf8 boxed tname (IDecode e) <> decode_says num64 printable n utf8 boxed tname (IDecode e')) /\
  (forall tname, decode_memo_says t tname (IDecode e) = decode_memo_says t tname (IDecode e')).
Proof. exact memo_tells_less. Qed.
Print Assumptions C103_memo_refuted.

(** For (), the message says "ParseError", which the error never is. *)
Theorem C103_unit_partial : forall implicit cf D fuel src e,
  try_decode_from implicit cf TUnit (memo_decode cf D fuel TUnit) src = RErr e -> (0 < fuel)%nat -> forall p, e <> IDecode (DParse p).
Proof. exact unit_no_parse. Qed.
Print Assumptions C103_unit_partial.

Example C103_sample :
  try_decode_from false (mkConfig Debug false false false false true) TUnit
    (memo_decode (mkConfig Debug false false false false true) [] 9 TUnit) (SrcVec [7]) = RErr (IDecode (DNonEmpty (LWindowless [7]))) /\
  decode_memo_says TUnit (txt "()") (IDecode (DNonEmpty (LWindowless [7]))) =
    ROk (txt "<() as Decode>::decode_memo: unable to parse value (ParseError encountered)") /\
  decode_memo_says TBool (txt "bool") (IDecode (DNonEmpty (LWindowless [7]))) =
    ROk (txt "<bool as Decode>::decode_memo: unable to parse value (DecodeError encountered)").
Proof. repeat split; vm_compute; reflexivity. Qed.

(** *** C65: the plain message of a failed hex conversion tells which of the two it is *)
Theorem C65_hex : forall s s',
  show_hex_error (OddParity s) = txt "hex-conversion failed on odd-length string" /\
  show_hex_error (NonHex s) = txt "hex-conversion failed on non-hex character" /\
  show_hex_error (OddParity s) <> show_hex_error (NonHex s').
Proof. exact hex_messages. Qed.
Print Assumptions C65_hex.
