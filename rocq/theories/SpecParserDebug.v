(** Specification of the [{:?}] texts of parsers and builders. *)
From Coq Require Import String.
From Verif Require Import Base ModelErrors ModelParser ModelDisplay.
From Verif Require Import SpecDisplay SpecDebug.

(** The limits of the open windows are listed from the outermost to the innermost. *)
Inductive offset_text : context_offset -> list byte -> Prop :=
| offset_fields abs frames cur sa sf sc : decimal sa abs -> byte_list (rev frames) sf -> decimal sc cur ->
    offset_text (mkCO abs frames cur) (txt "ContextOffset { abs: " ++ sa ++ txt ", frames: FrameStack(" ++ sf ++ txt "), cur: Index(" ++ sc ++ txt ") }").
Inductive byte_parser_text : byte_parser -> list byte -> Prop :=
| byte_parser_fields buf off sb so : byte_list buf sb -> offset_text off so ->
    byte_parser_text (mkBP buf off) (txt "ByteParser { buffer: " ++ sb ++ txt ", offset: " ++ so ++ txt " }").
Inductive memo_parser_text : memo_parser -> list byte -> Prop :=
| memo_parser_fields buf off ms sb so sm : byte_list buf sb -> offset_text off so -> byte_list ms sm ->
    memo_parser_text (mkMP buf off ms) (txt "MemoParser { buffer: " ++ sb ++ txt ", offset: " ++ so ++ txt ", munches: " ++ sm ++ txt " }").
(** The views are listed from the outermost to the innermost. *)
Inductive slice_parser_text : slice_parser -> list byte -> Prop :=
| slice_parser_fields views ds : Forall2 (fun v d => exists s, byte_list v s /\ d = txt "SliceBuffer(" ++ s ++ txt ")") (rev views) ds ->
    slice_parser_text views (txt "SliceParser { view_stack: " ++ list_text ds ++ txt " }").
