(** Property theorems about the inputs of [try_decode], [decode] and
    [decode_memo] (C55).  [stands_for] is in [SpecInput]; [tries], [decode_gives]
    and [decode_memo_gives] say how the three calls end; the flag is the
    feature implicit_hexstring. *)
From Verif Require Import Base ModelErrors ModelParser ModelInt ModelUtf8 ModelTarget ModelSchema ModelHex ModelInput
  SpecParser SpecCodec SpecHex SpecInput ProofCodecThms ProofSettle ProofInput PropertiesNum.
Local Open Scope list_scope.

(** ------------------------------------------------------------------ *)
(** * C55 *)
(** The kind of input does not matter, only the bytes it stands for. *)
Theorem C55_same_as_bytes : forall implicit w cf D t src bs, stands_for implicit src bs ->
  (forall v, tries implicit w cf D t src (ROk v) <-> decodes w cf D t bs (ROk v)) /\
  (forall e, tries implicit w cf D t src (RErr e) <-> exists e', e = IDecode e' /\ decodes w cf D t bs (RErr e')) /\
  (tries implicit w cf D t src RPanic <-> decodes w cf D t bs RPanic).
Proof. exact tries_value. Qed.
Print Assumptions C55_same_as_bytes.

(** A conversion error occurs only with implicit_hexstring, for a text that is
    not hexadecimal, and quotes it.  ([cf_complete] is the feature
    check_complete_parse.) *)
Theorem C55_conversion_error : forall implicit w cf D t src e, tries implicit w cf D t src (RErr (IConv e)) ->
  implicit = true /\ (t = TUnit -> cf_complete cf = true) /\ (forall bs, ~ stands_for implicit src bs) /\
  exists s, text_of src = Some s /\
    (e = OddParity s /\ zlen s mod 2 <> 0 \/ e = NonHex s /\ zlen s mod 2 = 0).
Proof. exact tries_conv. Qed.
Print Assumptions C55_conversion_error.

(** With implicit_hexstring, exactly when a text is refused and when the call
    panics. *)
Theorem C55_text_exact_partial : forall w cf D t src s, text_of src = Some s -> (t = TUnit -> cf_complete cf = true) ->
  (forall e, tries true w cf D t src (RErr (IConv e)) <->
     zlen s mod 2 <> 0 /\ e = OddParity s \/
     zlen s mod 2 = 0 /\ e = NonHex s /\ (forall bs, ~ stands_for true src bs) /\ (forall b, ~ straddles s b)) /\
  (tries true w cf D t src RPanic <->
     zlen s mod 2 = 0 /\ (exists b, straddles s b) \/ (exists bs, stands_for true src bs /\ decodes w cf D t bs RPanic)).
Proof. exact tries_refused. Qed.
Print Assumptions C55_text_exact_partial.

(** Without check_complete_parse, () is decoded from any input, of which nothing
    is looked at: not even whether a text is hexadecimal. *)
Theorem C55_unit_partial : forall implicit w cf D src, cf_complete cf = false ->
  (forall out, tries implicit w cf D TUnit src out <-> out = ROk VUnit) /\
  decode_gives implicit cf D TUnit src (ROk VUnit) /\ decode_memo_gives implicit cf D TUnit src (ROk VUnit).
Proof. exact unit_any. Qed.
Print Assumptions C55_unit_partial.

(** "zz" is refused for every other type. *)
Theorem C55_unit_refuted : exists s : list byte, (forall bs, ~ stands_for true (SrcStr s) bs) /\
  forall w cf D, cf_complete cf = false -> tries true w cf D TUnit (SrcStr s) (ROk VUnit).
Proof.
  exists [122; 122]. split.
  - apply (C55_conversion_error true WByte (mkConfig Debug false false false false true) [] TUnit _ (NonHex [122; 122])).
    split; [discriminate|]. exists 0%nat. intros f _. reflexivity.
  - intros w cf D H. apply C55_unit_partial; auto.
Qed.
Print Assumptions C55_unit_refuted.

(** [decode] returns what [try_decode] accepts, and panics when it fails. *)
Theorem C55_decode : forall implicit cf D t src,
  (forall v, decode_gives implicit cf D t src (ROk v) <-> tries implicit WByte cf D t src (ROk v)) /\
  (decode_gives implicit cf D t src RPanic <->
   (exists e, tries implicit WByte cf D t src (RErr e)) \/ tries implicit WByte cf D t src RPanic) /\
  (forall e, ~ decode_gives implicit cf D t src (RErr e)).
Proof. exact decode_spec. Qed.
Print Assumptions C55_decode.

Theorem C55_decode_memo : forall implicit cf D t src,
  (forall v, decode_memo_gives implicit cf D t src (ROk v) <-> tries implicit WMemo cf D t src (ROk v)) /\
  (decode_memo_gives implicit cf D t src RPanic <->
   (exists e, tries implicit WMemo cf D t src (RErr e)) \/ tries implicit WMemo cf D t src RPanic) /\
  (forall e, ~ decode_memo_gives implicit cf D t src (RErr e)).
Proof. exact decode_memo_spec. Qed.
Print Assumptions C55_decode_memo.

(** Both return the value that was encoded, from any input that stands for the
    encoding; under implicit_hexstring its hexadecimal text is one. *)
Theorem C55_round_trip : forall cf D I kf t v bs implicit src,
  wf_defs D = true -> disciplined D I = true -> wf_ty D t = true -> decodable I t = true ->
  well_typed D v t = true -> to_bytes cf D kf v t = ROk bs -> zlen bs <= isize_max ->
  (cf_est_override cf = true -> zeros D v t = 0) -> stands_for implicit src bs ->
  decode_gives implicit cf D t src (ROk v) /\ decode_memo_gives implicit cf D t src (ROk v).
Proof. exact decode_round_trip. Qed.
Print Assumptions C55_round_trip.

Theorem C55_hex_text : forall bs, bytes_ok bs -> forall src,
  text_of src = Some (hex_of_bytes bs) -> stands_for true src bs.
Proof. exact hex_stands. Qed.
Print Assumptions C55_hex_text.

(** [hex!]: the bytes the text denotes (under the rules of C36), or a panic. *)
Theorem C55_hex_macro : forall s,
  (forall bs, hex_macro s = ROk bs <-> loose_denotes s bs) /\
  ((forall bs, ~ loose_denotes s bs) -> hex_macro s = RPanic).
Proof. exact hex_macro_exact. Qed.
Print Assumptions C55_hex_macro.
Example C55_hex_macro_case : hex_macro [48; 48; 70; 102] = ROk [0; 255] /\ hex_macro [48; 48; 70] = RPanic.
Proof. split; reflexivity. Qed.

(** "00ff" as text and as hexadecimal. *)
Definition sample_text : list byte := [48; 48; 102; 102].
Example C55_sample :
  stands_for false (SrcStr sample_text) sample_text /\ stands_for true (SrcStr sample_text) [0; 255] /\
  decode_gives true dbg_cf [] (TInt U16) (SrcString sample_text) (ROk (VInt 255)) /\
  decode_gives false dbg_cf [] (TInt U16) (SrcHexString [0; 255]) (ROk (VInt 255)) /\
  decode_gives false dbg_cf [] (TInt U32) (SrcCow sample_text) (ROk (VInt 808478310)) /\
  decode_gives true dbg_cf [] (TInt U32) (SrcCow sample_text) RPanic /\
  tries true WMemo dbg_cf [] (TInt U32) (SrcStr [48]) (RErr (IConv (OddParity [48]))).
Proof.
  split; [reflexivity|]. split; [apply (C55_hex_text [0; 255]); [apply bytes_ok_check|]; reflexivity|].
  unfold decode_gives, tries.
  repeat apply conj; (discriminate || (exists 3%nat; intros f Hf; do 3 (destruct f as [|f]; [lia|]); vm_compute; reflexivity)).
Qed.

(** With implicit_hexstring a text that is not ASCII can make [try_decode]
    panic instead of returning a conversion error. *)
Theorem C55_text_panics_refuted : exists s, utf8_valid s = true /\
  forall w cf D t, t <> TUnit -> tries true w cf D t (SrcStr s) RPanic.
Proof.
  (* "0é0" *)
  exists [48; 195; 169; 48]. split; [reflexivity|]. intros w cf D t Ht. split; [discriminate|]. exists 0%nat. intros f _.
  destruct t; try reflexivity. contradiction.
Qed.
Print Assumptions C55_text_panics_refuted.
