(** Model of the [Debug] texts ([{:?}]) of parsers, offsets, buffers and builders:
    /repo/src/parse/mod.rs, /repo/src/parse/buffer.rs, /repo/src/internal/offset.rs,
    /repo/src/internal/view.rs and /repo/src/builder/memo.rs.

    Texts as in ModelDisplay.v, derived implementations as in ModelDebug.v. *)
From Coq Require Import String.
From Verif Require Import Base ModelErrors ModelHex ModelParser ModelSplitVec ModelDisplay ModelDebug ModelSplitText ModelErrDebug.

(** internal/offset.rs 19-21: derived [Debug for Index]. *)
Definition index_debug (ix : Z) : list byte := around "Index" (show_int ix).
(** internal/offset.rs 82-94: [Display for Index], that of [usize]. *)
Definition index_display (ix : Z) : list byte := show_int ix.
(** internal/offset.rs 82-96, with the feature index_binary_formatting: [Binary],
    [Octal], [LowerHex] and [UpperHex for Index], those of [usize]. *)
Definition index_fmt (r : radix) (ix : Z) : list byte := digits (radix_base r) (radix_digit r) ix.

(** internal/offset.rs 219-221: derived [Debug for FrameStack].  The [Vec] keeps the
    innermost target last, [co_frames] first. *)
Definition frames_debug (fs : list Z) : list byte := around "FrameStack" (debug_list (map show_int (rev fs))).
(** internal/offset.rs 279-284: derived [Debug for ContextOffset]. *)
Definition offset_debug (o : context_offset) : list byte :=
  variant "ContextOffset"
    [("abs"%string, show_int (co_abs o)); ("frames"%string, frames_debug (co_frames o)); ("cur"%string, index_debug (co_cur o))].

(** parse/buffer.rs 224-228: [Debug for VecBuffer], that of the [Vec<u8>]. *)
Definition vec_buffer_debug (buf : list byte) : list byte := debug_list (map show_int buf).
(** parse/buffer.rs 23-25: derived [Debug for SliceBuffer]. *)
Definition slice_buffer_debug (buf : list byte) : list byte := around "SliceBuffer" (debug_list (map show_int buf)).

(** parse/mod.rs 696-700: derived [Debug for ByteParser]. *)
Definition byte_parser_debug (p : byte_parser) : list byte :=
  variant "ByteParser" [("buffer"%string, vec_buffer_debug (bp_buf p)); ("offset"%string, offset_debug (bp_off p))].
(** parse/mod.rs 858-863: derived [Debug for MemoParser]. *)
Definition memo_parser_debug (p : memo_parser) : list byte :=
  variant "MemoParser"
    [("buffer"%string, vec_buffer_debug (mp_buf p)); ("offset"%string, offset_debug (mp_off p));
     ("munches"%string, debug_list (map show_int (mp_munches p)))].
(** internal/view.rs 74-78: [Debug for ViewStack], that of the [Vec], which keeps the
    innermost view last. *)
Definition views_debug (vs : list (list byte)) : list byte := debug_list (map slice_buffer_debug (rev vs)).
(** parse/mod.rs 1052-1055: derived [Debug for SliceParser]. *)
Definition slice_parser_debug (p : slice_parser) : list byte :=
  variant "SliceParser" [("view_stack"%string, views_debug p)].

(** builder/memo.rs 43-49: [Debug for MemoBuilder]. *)
Definition memo_builder_debug (v : split_vec byte) : res unit (list byte) :=
  rbind (sv_debug v) (fun s => ROk (variant "MemoBuilder" [("segs"%string, s)])).
(** builder/memo.rs 104-111: [Debug for MemoBuffer]. *)
Definition memo_buffer_debug (b : list byte * list Z) : list byte :=
  variant "MemoBuffer" [("buf"%string, debug_list (map show_int (fst b))); ("lens"%string, debug_list (map show_int (snd b)))].
