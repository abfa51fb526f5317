(** Property theorems about the [{:?}] texts of parsers and builders (C105). *)
From Coq Require Import String.
From Verif Require Import Base ModelErrors ModelHex ModelParser ModelSplitVec ModelDisplay ModelSplitText ModelTarget ModelParserDebug.
From Verif Require Import SpecHex SpecSplitVec SpecParser SpecLeftover SpecDisplay SpecDebug SpecParserDebug ProofParserDebug.

(** The texts of the parsers, field by field. *)
Theorem C105_text :
  (forall p, byte_parser_text p (byte_parser_debug p)) /\ (forall p, memo_parser_text p (memo_parser_debug p)) /\
  (forall p, slice_parser_text p (slice_parser_debug p)).
Proof. exact parsers_say. Qed.
Print Assumptions C105_text.

(** Parsers with the same text are in the same state, and the text tells the kind of
    parser. *)
Theorem C105_unambiguous :
  (forall p p', byte_parser_debug p = byte_parser_debug p' -> p = p') /\
  (forall p p', memo_parser_debug p = memo_parser_debug p' -> p = p') /\
  (forall p p' : slice_parser, slice_parser_debug p = slice_parser_debug p' -> p = p') /\
  (forall p q w, byte_parser_debug p <> memo_parser_debug q /\ byte_parser_debug p <> slice_parser_debug w /\ memo_parser_debug q <> slice_parser_debug w).
Proof. exact parsers_tell. Qed.
Print Assumptions C105_unambiguous.

(** Hence they go on alike, whatever is parsed next. *)
Theorem C105_resume : forall A (f : prog A),
  (forall m p p', byte_parser_debug p = byte_parser_debug p' -> run (byte_h m) f p = run (byte_h m) f p') /\
  (forall m p p', memo_parser_debug p = memo_parser_debug p' -> run (memo_h m) f p = run (memo_h m) f p') /\
  (forall p p' : slice_parser, slice_parser_debug p = slice_parser_debug p' -> run slice_h f p = run slice_h f p').
Proof. exact @resume_alike. Qed.
Print Assumptions C105_resume.

(** A MemoBuilder shows its segments, a MemoBuffer its bytes and the lengths. *)
Theorem C105_builder : forall v s, sv_history v s ->
  memo_builder_debug v = ROk (txt "MemoBuilder { segs: " ++ barred show_list (sg_all s) ++ txt " }").
Proof. exact builder_says. Qed.
Print Assumptions C105_builder.

Theorem C105_builder_tells : forall v s w t, sv_history v s -> sv_history w t ->
  (memo_builder_debug v = memo_builder_debug w <-> sg_all s = sg_all t).
Proof. exact builder_tells. Qed.
Print Assumptions C105_builder_tells.

Theorem C105_buffer : forall b, exists sb sl, byte_list (fst b) sb /\ byte_list (snd b) sl /\
  memo_buffer_debug b = txt "MemoBuffer { buf: " ++ sb ++ txt ", lens: " ++ sl ++ txt " }".
Proof. exact buffer_says. Qed.
Print Assumptions C105_buffer.

Theorem C105_buffer_tells : forall b b', memo_buffer_debug b = memo_buffer_debug b' -> b = b'.
Proof. exact buffer_tells. Qed.
Print Assumptions C105_buffer_tells.

(** An Index is written as the number it stands for, in each notation. *)
Theorem C105_index : forall r ix, 0 <= ix ->
  numeral (match r with Bin => 2 | Oct => 8 | LHex | UHex => 16 end) (index_fmt r ix) ix /\
  Forall (match r with UHex => upper_hex | _ => lower_hex end) (index_fmt r ix) /\ decimal (index_display ix) ix.
Proof. exact index_formats. Qed.
Print Assumptions C105_index.

Example C105_sample :
  let b := snd (byte_h Debug unit (OpSetFit 2) (snd (byte_h Debug unit (OpSetFit 3) (snd (byte_h Debug byte OpConsumeByte (bp_from_buffer [7; 8; 9; 10])))))) in
  let m := snd (memo_h Debug byte OpConsumeByte (mp_from_buffer [7; 8])) in
  let s := snd (slice_h unit (OpSetFit 1) (sp_from_buffer [7; 8; 9])) in
  byte_parser_debug b = txt "ByteParser { buffer: [7, 8, 9, 10], offset: ContextOffset { abs: 4, frames: FrameStack([4, 3]), cur: Index(1) } }" /\
  memo_parser_debug m = txt "MemoParser { buffer: [7, 8], offset: ContextOffset { abs: 2, frames: FrameStack([]), cur: Index(1) }, munches: [1] }" /\
  slice_parser_debug s = txt "SliceParser { view_stack: [SliceBuffer([8, 9]), SliceBuffer([7])] }" /\
  memo_builder_debug (sv_split (sv_push_current 7 sv_new)) = ROk (txt "MemoBuilder { segs: [|[7]|] }") /\
  memo_buffer_debug ([7; 8], [2]) = txt "MemoBuffer { buf: [7, 8], lens: [2] }" /\
  index_fmt Bin 10 = txt "1010" /\ index_fmt UHex 255 = txt "FF".
Proof. vm_compute. repeat split. Qed.
