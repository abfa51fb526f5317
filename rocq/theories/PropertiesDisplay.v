(** C65 and C66: error messages and printed numbers.

    [show_parse name utf8 other f64 e] is the text [Display] writes for the parse
    error [e]; the four parameters stand for texts not written by this library (the
    type name stored in a tag error, the texts of foreign errors, [f64]).
    [numbers t] are the decimal numbers a reader finds in the text [t]. *)
From Coq Require Import String.
From Verif Require Import Base ModelErrors ModelHex ModelInt ModelSchema ModelEnum ModelDisplay SpecHex SpecCodec SpecNum SpecDisplay ProofDisplay.

(** ------------------------------------------------------------------ *)
(** * C65 *)
(** The numbers in a message are those of the error, in the order of its sentence. *)
Theorem C65_numbers :
  (forall e, numbers (show_window e) = window_facts e) /\
  (forall e, numbers (show_bounds show_int e) = bounds_facts e) /\
  (forall e, numbers (show_width e) = width_facts e) /\
  (forall e, numbers (show_length e) = length_facts e).
Proof. exact (conj window_numbers (conj bounds_numbers (conj width_numbers length_numbers))). Qed.
Print Assumptions C65_numbers.

Example C65_numbers_ex :
  show_window (ConsumeWouldExceedLimit 10 4 12) =
    txt "cannot increment offset by 4 bytes (currently at byte 10 out of limit 12)" /\
  show_bounds show_int (BUnderflow (-5) (-17)) = txt "provided value -17 less than minimum bound -5" /\
  show_width (InvalidWidth [32; 64] 33) = txt "byte-length 33 of value not in set [32, 64] of valid lengths".
Proof. repeat split; vm_compute; reflexivity. Qed.

(** Bytes shown by a token error are the bytes of the error, in hexadecimal. *)
Theorem C65_bytes : forall name e, error_bytes_ok (EToken e) ->
  match e with
  | InvalidBoolean b => exists h, show_token name e = txt "invalid boolean encoding 0x" ++ h /\ hex_denotes h [b]
  | NonTerminating l => exists h, show_token name e = txt "element failed to terminate: " ++ h /\ hex_denotes h l
  | NonNullPaddingByte l => exists h, show_token name e = txt "non-null byte found in padding: " ++ h /\ hex_denotes h l
  | InvalidTag w n _ => show_token name e = txt "invalid tag: " ++ show_tag name w n
  end.
Proof. exact token_bytes. Qed.
Print Assumptions C65_bytes.

Example C65_bytes_ex : show_token [] (NonTerminating [0x80; 0xff]) = txt "element failed to terminate: 80ff".
Proof. vm_compute. reflexivity. Qed.

(** A tag error shows the offending discriminant in hexadecimal and the type's name.
    The number of digits is the least needed, but at least two less than the tag's
    full width: see finding F29. *)
Theorem C65_tag : forall name w n, 0 <= n -> exists h least,
  show_tag name w n = txt "unexpected discriminant 0x" ++ h ++ txt " for enum-type " ++ name /\
  hex_value h n /\ numeral 16 least n /\ zlen h = Z.max (zlen least) (2 * tag_size w - 2).
Proof. exact tag_message. Qed.
Print Assumptions C65_tag.

Example C65_tag_ex :
  show_tag (txt "T") TagU8 5 = txt "unexpected discriminant 0x5 for enum-type T" /\
  show_tag (txt "T") TagU16 5 = txt "unexpected discriminant 0x05 for enum-type T" /\
  show_tag (txt "T") TagU32 0x12345 = txt "unexpected discriminant 0x012345 for enum-type T".
Proof. repeat split; vm_compute; reflexivity. Qed.

(** Errors with the same message are the same error. *)
Theorem C65_unambiguous : forall name utf8 other f64 e e',
  self_contained e = true -> self_contained e' = true -> error_bytes_ok e -> error_bytes_ok e' ->
  show_parse name utf8 other f64 e = show_parse name utf8 other f64 e' -> e = e'.
Proof. exact messages_differ. Qed.
Print Assumptions C65_unambiguous.

(** Tag errors with the same message are about the same discriminant and type. *)
Theorem C65_tag_unambiguous : forall name name' w w' n n', 0 <= n -> 0 <= n' ->
  show_tag name w n = show_tag name' w' n' -> n = n' /\ name = name'.
Proof. exact tag_messages_differ. Qed.
Print Assumptions C65_tag_unambiguous.

(** The message does not depend on the list of expected discriminants the error
    carries: an error made from the discriminant alone ([TagError::from]), which carries
    none, says the same as one made by a decoder. *)
Theorem C65_tag_expected : forall name utf8 other f64 k actual expected,
  show_parse name utf8 other f64 (promote k (te_new actual expected)) =
    txt "invalid tag: " ++ show_tag name (tag_width_of k) actual /\
  show_parse name utf8 other f64 (promote k (te_from actual)) =
    show_parse name utf8 other f64 (promote k (te_new actual expected)) /\
  te_actual (te_from actual) = actual /\ te_expected (te_from actual) = None.
Proof. exact tag_message_expected. Qed.
Print Assumptions C65_tag_expected.

Example C65_unambiguous_ex :
  self_contained (EWindow (OpenWouldExceedBuffer 0 3)) = true /\ error_bytes_ok (EWindow (OpenWouldExceedBuffer 0 3)) /\
  self_contained (EToken (NonTerminating [200])) = true /\ error_bytes_ok (EToken (NonTerminating [200])) /\
  show_parse [] [] [] show_int (EWindow (OpenWouldExceedBuffer 0 3)) <> show_parse [] [] [] show_int (EWindow (OpenWouldExceedBuffer 1 3)).
Proof. repeat split; [constructor; [unfold is_byte; lia|constructor]|]. vm_compute. discriminate. Qed.

(** ------------------------------------------------------------------ *)
(** * C66 *)
(** Big numbers print in decimal. *)
Theorem C66_zarith : forall z, decimal (show_zarith z) z.
Proof. exact show_int_decimal. Qed.
Print Assumptions C66_zarith.

Theorem C66_zarith_unambiguous : forall z z', show_zarith z = show_zarith z' -> z = z'.
Proof. exact show_int_inj. Qed.
Print Assumptions C66_zarith_unambiguous.

Example C66_zarith_ex :
  show_zarith (-18446744073709551616) = txt "-18446744073709551616" /\ show_zarith 0 = txt "0".
Proof. split; vm_compute; reflexivity. Qed.

(** The debugging form is a double-struck N or Z (in UTF-8) and the decimal in parentheses. *)
Theorem C66_debug : forall z, exists s, decimal s z /\
  debug_n z = [0xe2; 0x84; 0x95] ++ txt "(" ++ s ++ txt ")" /\ debug_z z = [0xe2; 0x84; 0xa4] ++ txt "(" ++ s ++ txt ")".
Proof. exact debug_text. Qed.
Print Assumptions C66_debug.

Example C66_debug_ex : debug_z (-7) = [0xe2; 0x84; 0xa4] ++ txt "(-7)".
Proof. vm_compute. reflexivity. Qed.

(** Binary, octal and hexadecimal formatting of a ranged integer never panics and
    writes the number it stands for, a negative one as 32-bit two's complement, with
    the digits of the asked case. *)
Theorem C66_ranged : forall rc m k lo hi r z, ri_sanity lo hi = true -> ranged_ok k lo hi z = true ->
  exists s, ri_fmt rc m lo hi r z = ROk s /\ numeral (match r with Bin => 2 | Oct => 8 | LHex | UHex => 16 end) s (ranged_value lo z mod 2 ^ 32).
Proof. exact ranged_format. Qed.
Print Assumptions C66_ranged.

Theorem C66_ranged_case : forall rc m k lo hi r z s, ri_sanity lo hi = true -> ranged_ok k lo hi z = true ->
  ri_fmt rc m lo hi r z = ROk s -> Forall (match r with UHex => upper_hex | _ => lower_hex end) s.
Proof. exact ranged_format_case. Qed.
Print Assumptions C66_ranged_case.

Example C66_ranged_ex :
  ranged_ok U8 1000 1100 26 = true /\ ri_fmt true Debug 1000 1100 UHex 26 = ROk (txt "402") /\
  ranged_ok I16 (-10) 10 (-1) = true /\ ri_fmt true Debug (-10) 10 LHex (-1) = ROk (txt "ffffffff") /\
  ri_fmt false Release (-10) 10 Bin 5 = ROk (txt "101").
Proof. repeat split; vm_compute; reflexivity. Qed.
