(** Property theorems: the parsers keep the "Parser Invariants" of the README (C89).
    The laws are in SpecLaws.v; here they are stated of each parser, in every
    state that calls with sizes of the build profile can bring it to.  The open
    windows of ByteParser and MemoParser are their frames; SliceParser has a
    frame more than windows, for the whole input. *)
From Verif Require Import Base ModelErrors ModelParser SpecParser SpecLaws ProofLaws.
From Coq Require Import Sorted.
Local Open Scope list_scope.

(** ------------------------------------------------------------------ *)
(** * C89 *)
Definition bp_windows (p : byte_parser) : nat := length (co_frames (bp_off p)).
Definition mp_windows (p : memo_parser) : nat := length (co_frames (mp_off p)).
Definition sp_windows (p : slice_parser) : nat := length (tl p).

Theorem C89_byte_parser : forall m buf, zlen buf <= isize_max ->
  fresh_law (byte_h m) bp_view_len bp_offset bp_windows (bp_from_buffer buf) buf /\
  forall p, reaches m (byte_h m) (bp_from_buffer buf) p ->
    reading_laws (byte_h m) bp_view_len bp_offset bp_windows (size_fits m) p /\
    window_laws (byte_h m) bp_view_len bp_offset bp_windows p.
Proof. exact byte_laws. Qed.
Print Assumptions C89_byte_parser.

Theorem C89_memo_parser : forall m buf, zlen buf <= isize_max ->
  fresh_law (memo_h m) mp_view_len mp_offset mp_windows (mp_from_buffer buf) buf /\
  forall p, reaches m (memo_h m) (mp_from_buffer buf) p ->
    reading_laws (memo_h m) mp_view_len mp_offset mp_windows (size_fits m) p /\
    window_laws (memo_h m) mp_view_len mp_offset mp_windows p.
Proof. exact memo_laws. Qed.
Print Assumptions C89_memo_parser.

(** SliceParser, for any size at all, while its last frame has not been closed;
    the laws about windows while one is open.  Missing (and false, see below):
    the other states. *)
Theorem C89_slice_parser_partial : forall buf,
  fresh_law slice_h sp_view_len sp_offset sp_windows (sp_from_buffer buf) buf /\
  forall p, p <> [] ->
    reading_laws slice_h sp_view_len sp_offset sp_windows (fun n => 0 <= n) p /\
    (sp_windows p <> O -> window_laws slice_h sp_view_len sp_offset sp_windows p).
Proof. exact slice_laws. Qed.
Print Assumptions C89_slice_parser_partial.

Example C89_case :
  let p := mkBP [1; 2; 3; 4; 5; 6] (mkCO 6 [3] 3) in
  reaches Debug (byte_h Debug) (bp_from_buffer [1; 2; 3; 4; 5; 6]) p /\ bp_windows p = 1%nat /\
  remaining bp_view_len bp_offset p = 0 /\ sp_windows [[]; [4; 5; 6]] = 1%nat /\
  reaches Debug slice_h (sp_from_buffer [1; 2; 3; 4; 5; 6]) [[]; [4; 5; 6]].
Proof.
  intros p. split; [exists [AnyOp (OpSetFit 3); AnyOp (OpConsume 2); AnyOp OpConsumeByte]; split; [repeat constructor; discriminate|reflexivity]|].
  split; [reflexivity|]. split; [reflexivity|]. split; [reflexivity|].
  exists [AnyOp (OpSetFit 3); AnyOp (OpConsume 2); AnyOp OpConsumeByte]. split; [repeat constructor; discriminate|reflexivity].
Qed.

(** "The elements of a FrameStack are guaranteed by induction to be sorted with the
    smallest value at the top of the stack" (offset.rs 215-216), which is the head
    of [co_frames]; and they are positions between the offset and the end. *)
Theorem C89_frames : forall m buf, zlen buf <= isize_max ->
  (forall p, reaches m (byte_h m) (bp_from_buffer buf) p ->
     Sorted Z.le (co_frames (bp_off p)) /\ Forall (fun t => bp_offset p <= t <= zlen buf) (co_frames (bp_off p))) /\
  (forall p, reaches m (memo_h m) (mp_from_buffer buf) p ->
     Sorted Z.le (co_frames (mp_off p)) /\ Forall (fun t => mp_offset p <= t <= zlen buf) (co_frames (mp_off p))).
Proof. exact frames_sorted. Qed.
Print Assumptions C89_frames.

(** The frames of SliceParser, which are slices and not positions: put together,
    the innermost first, they are the end of the input. *)
Theorem C89_slice_frames : forall m buf p, reaches m slice_h (sp_from_buffer buf) p -> exists before, buf = before ++ concat p.
Proof. exact slice_frames_left. Qed.
Print Assumptions C89_slice_frames.

Example C89_frames_case :
  let ops := [AnyOp (OpSetFit 5); AnyOp OpConsumeByte; AnyOp (OpSetFit 2); AnyOp OpConsumeByte] in
  reaches Release (byte_h Release) (bp_from_buffer [1; 2; 3; 4; 5; 6]) (mkBP [1; 2; 3; 4; 5; 6] (mkCO 6 [3; 5] 2)) /\
  reaches Release slice_h (sp_from_buffer [1; 2; 3; 4; 5; 6]) [[3]; [4; 5]; [6]].
Proof. intros ops. split; exists ops; (split; [repeat constructor; discriminate|reflexivity]). Qed.

(** Law 7 fails of SliceParser: without a window, at the end of the input,
    [test_target] says true (F4). *)
Theorem C89_slice_test_refuted : exists buf p, reaches Debug slice_h (sp_from_buffer buf) p /\ sp_windows p = O /\ p <> [] /\
  ~ test_target_law slice_h sp_view_len sp_offset sp_windows p.
Proof. exact slice_test_law. Qed.
Print Assumptions C89_slice_test_refuted.

(** Laws 3a and 5b fail of it once its last frame is closed: [consume(0)] is an
    error, [set_fit(0)] opens no window. *)
Theorem C89_slice_nothing_refuted : exists buf p, reaches Debug slice_h (sp_from_buffer buf) p /\
  slice_h Z OpRemainder p = (ROk 0, p) /\
  (exists e, slice_h _ (OpConsume 0) p = (RErr e, p)) /\ slice_h _ (OpSetFit 0) p = (ROk tt, p).
Proof. exact slice_consume_nothing. Qed.
Print Assumptions C89_slice_nothing_refuted.

(** Law 3a fails of release builds for sizes no buffer can have (F1). *)
Theorem C89_release_refuted : exists buf p, zlen buf <= isize_max /\
  reaches Release (byte_h Release) (bp_from_buffer buf) p /\
  ~ consume_law (byte_h Release) bp_view_len bp_offset bp_windows is_usize p.
Proof. exact release_consume_law. Qed.
Print Assumptions C89_release_refuted.
